(** bessel_gravitational_wave.py: the line element diag(-e^(2K-2U), e^(2K-2U), rho^2 e^(-2U), e^(2U)). *)
From Coq Require Import String Ascii Reals List Arith Lia Lra.
From Coquelicot Require Import Coquelicot.
From Verif Require Import Base SymAlg SymModel ExprModel PredefModel PredefBridge PredefProofs PredefFinal ExprFun.
Import ListNotations.
Open Scope R_scope.

Definition wave (U K : expr) : emat :=
  diag4 (EMul (EMul (EConst (-1)) (EExp (EMul (EConst (-2)) U))) (EExp (EMul (EConst 2) K)))
        (EMul (EExp (EMul (EConst (-2)) U)) (EExp (EMul (EConst 2) K)))
        (EMul (EExp (EMul (EConst (-2)) U)) (Esq (X 1))) (EExp (EMul (EConst 2) U)).
Section W.
Variables (Q : (nat -> R) -> Prop) (ext : (nat -> R) -> nat -> R) (D : nat -> nat -> expr) (U K : expr).
Hypothesis HR : rule_ok Q ext D.
Hypothesis Q1 : forall p, Q p -> ext p 1%nat <> 0.
Hypothesis D1 : forall k, (k < 4)%nat -> D k 1%nat = if Nat.eqb k 1 then EConst 1 else EConst 0.
Hypothesis WU : FWD Q ext U.
Hypothesis WK : FWD Q ext K.
Hypothesis U2 : forall k p, (k = 2 \/ k = 3)%nat -> Q p -> eval (fdiff D k U) (ext p) = 0.
Hypothesis K2 : forall k p, (k = 2 \/ k = 3)%nat -> Q p -> eval (fdiff D k K) (ext p) = 0.
Let ut := fdiff D 0 U. Let ur := fdiff D 1 U. Let kt := fdiff D 0 K. Let kr := fdiff D 1 K.
Lemma W_ k e : FWD Q ext e -> FWD Q ext (fdiff D k e).
Proof. intros W p Hp. apply (fwd_diff Q ext D HR); [exact Hp|apply W; exact Hp]. Qed.
Lemma zero_diff e k i : FWD Q ext e -> (forall p, Q p -> eval (fdiff D k e) (ext p) = 0) -> forall p, Q p -> eval (fdiff D k (fdiff D i e)) (ext p) = 0.
Proof.
  intros W Z p Hp. rewrite (fdiff_comm Q ext D HR k i e p Hp (W p Hp)).
  assert (A := fder_p Q ext D HR i (exist _ (fdiff D k e) (W_ k e W)) (fconst Q ext 0) Z p Hp). exact A.
Qed.
Definition lt_ : expr := ESub kt ut. Definition lr_ : expr := ESub kr ur.
Definition iK : expr := EExp (EMul (EConst (-2)) K). Definition e4U : expr := EExp (EMul (EConst 4) U).
Definition wT (i j k : nat) : expr :=
  match i, j, k with
  | 0, 0, 0 | 0, 1, 1 | 1, 0, 1 | 1, 1, 0 => lt_
  | 0, 0, 1 | 0, 1, 0 | 1, 0, 0 | 1, 1, 1 => lr_
  | 0, 2, 2 => EOpp (EMul (EMul ut (Esq (X 1))) iK)
  | 0, 3, 3 => EMul (EMul ut e4U) iK
  | 1, 2, 2 => EOpp (EMul (ESub (X 1) (EMul ur (Esq (X 1)))) iK)
  | 1, 3, 3 => EOpp (EMul (EMul ur e4U) iK)
  | 2, 0, 2 | 2, 2, 0 => EOpp ut
  | 2, 1, 2 | 2, 2, 1 => ESub (EDiv E1 (X 1)) ur
  | 3, 0, 3 | 3, 3, 0 => ut
  | 3, 1, 3 | 3, 3, 1 => ur
  | _, _, _ => E0
  end%nat.
Definition wGi : emat :=
  diag4 (EOpp (EMul (EExp (EMul (EConst 2) U)) iK)) (EMul (EExp (EMul (EConst 2) U)) iK)
        (EDiv (EExp (EMul (EConst 2) U)) (Esq (X 1))) (EExp (EMul (EConst (-2)) U)).
Ltac ab p :=
  set (u := eval U (ext p)) in *; set (k := eval K (ext p)) in *; set (r := ext p 1%nat) in *.
Lemma e_m2 x : exp (-2 * x) = / exp (2 * x). Proof. rewrite <- exp_Ropp. f_equal. ring. Qed.
Lemma e_4 x : exp (4 * x) = exp (2 * x) * exp (2 * x). Proof. rewrite <- exp_plus. f_equal. ring. Qed.
Lemma wW : (forall i j, (i < 4)%nat -> (j < 4)%nat -> FWD Q ext (wave U K i j)) /\ (forall i j, (i < 4)%nat -> (j < 4)%nat -> FWD Q ext (wGi i j)) /\
  (forall i j k, (i < 4)%nat -> (j < 4)%nat -> (k < 4)%nat -> FWD Q ext (wT i j k)).
Proof.
  split; [|split].
  - intros i j Hi Hj p Hp. assert (A := WU p Hp). assert (B := WK p Hp). c4 i Hi; c4 j Hj; unfold wave, diag4, Esq, X, E0; cbn [wd]; tauto.
  - intros i j Hi Hj p Hp. assert (A := WU p Hp). assert (B := WK p Hp). assert (C := Q1 p Hp).
    c4 i Hi; c4 j Hj; unfold wGi, iK, diag4, Esq, X, E0; cbn [wd eval]; nz.
  - intros i j k Hi Hj Hk p Hp. assert (A := WU p Hp). assert (B := WK p Hp). assert (C := Q1 p Hp).
    assert (A0 := W_ 0 U WU p Hp). assert (A1 := W_ 1 U WU p Hp). assert (B0 := W_ 0 K WK p Hp). assert (B1 := W_ 1 K WK p Hp).
    c4 i Hi; c4 j Hj; c4 k Hk; unfold wT, lt_, lr_, iK, e4U, ut, ur, kt, kr, Esq, X, E0, E1; cbn [wd eval]; nz.
Qed.
Lemma wI i j p : (i < 4)%nat -> (j < 4)%nat -> Q p -> rs4 (fun m => eval (wave U K i m) (ext p) * eval (wGi m j) (ext p)) = if Nat.eqb i j then 1 else 0.
Proof.
  intros Hi Hj Hp. assert (C := Q1 p Hp).
  c4 i Hi; c4 j Hj; unfold rs4, wave, wGi, iK, diag4, Esq, X, E0; cbn [eval Nat.eqb]; rewrite ?e_m2; ab p; try ring; field; nz.
Qed.
Lemma wC i j k p : (i < 4)%nat -> (j < 4)%nat -> (k < 4)%nat -> Q p ->
  eval (wT i j k) (ext p) = / 2 * rs4 (fun l => eval (wGi i l) (ext p) * (eval (fdiff D k (wave U K l j)) (ext p) + eval (fdiff D j (wave U K l k)) (ext p) - eval (fdiff D l (wave U K j k)) (ext p))).
Proof.
  intros Hi Hj Hk Hp. assert (C := Q1 p Hp).
  assert (A2 := U2 2 p (or_introl eq_refl) Hp). assert (A3 := U2 3 p (or_intror eq_refl) Hp).
  assert (B2 := K2 2 p (or_introl eq_refl) Hp). assert (B3 := K2 3 p (or_intror eq_refl) Hp).
  c4 i Hi; c4 j Hj; c4 k Hk; unfold wT, lt_, lr_, iK, e4U, rs4, wave, wGi, iK, diag4, Esq, X, E0, E1, ut, ur, kt, kr; cbn [eval fdiff];
   rewrite ?D1 by lia; cbn [Nat.eqb eval]; rewrite ?A2, ?A3, ?B2, ?B3, ?e_m2, ?e_4; ab p; try ring; field; nz.
Qed.
(** the Ricci tensor *)
Definition wRic (s v : nat) (p : nat -> R) : R :=
  let e x := eval x (ext p) in
  let rho := ext p 1%nat in
  let box := e (fdiff D 1 ur) + e ur / rho - e (fdiff D 0 ut) in
  match s, v with
  | 0%nat, 0%nat => e (fdiff D 1 kr) - e (fdiff D 0 kt) + e kr / rho - box - 2 * e ut ^ 2
  | 1%nat, 1%nat => e (fdiff D 0 kt) - e (fdiff D 1 kr) + e kr / rho + box - 2 * e ur ^ 2
  | 0%nat, 1%nat | 1%nat, 0%nat => e kt / rho - 2 * e ut * e ur
  | 2%nat, 2%nat => rho ^ 2 * exp (- 2 * e K) * box
  | 3%nat, 3%nat => - exp (4 * e U) * exp (- 2 * e K) * box
  | _, _ => 0
  end.
Lemma wR s v p : (s < 4)%nat -> (v < 4)%nat -> Q p -> rs4 (fun t => frT ext D wT t s t v p) = wRic s v p.
Proof.
  intros Hs Hv Hp. assert (C := Q1 p Hp).
  assert (A02 := zero_diff U 2 0 WU (fun p => U2 2 p (or_introl eq_refl)) p Hp). assert (A12 := zero_diff U 2 1 WU (fun p => U2 2 p (or_introl eq_refl)) p Hp).
  assert (A03 := zero_diff U 3 0 WU (fun p => U2 3 p (or_intror eq_refl)) p Hp). assert (A13 := zero_diff U 3 1 WU (fun p => U2 3 p (or_intror eq_refl)) p Hp).
  assert (B02 := zero_diff K 2 0 WK (fun p => K2 2 p (or_introl eq_refl)) p Hp). assert (B12 := zero_diff K 2 1 WK (fun p => K2 2 p (or_introl eq_refl)) p Hp).
  assert (B03 := zero_diff K 3 0 WK (fun p => K2 3 p (or_intror eq_refl)) p Hp). assert (B13 := zero_diff K 3 1 WK (fun p => K2 3 p (or_intror eq_refl)) p Hp).
  assert (A2 := U2 2 p (or_introl eq_refl) Hp). assert (A3 := U2 3 p (or_intror eq_refl) Hp).
  assert (B2 := K2 2 p (or_introl eq_refl) Hp). assert (B3 := K2 3 p (or_intror eq_refl) Hp).
  assert (MU := fdiff_comm Q ext D HR 1 0 U p Hp (WU p Hp)). assert (MK := fdiff_comm Q ext D HR 1 0 K p Hp (WK p Hp)).
  c4 s Hs; c4 v Hv; unfold wRic, frT, wT, lt_, lr_, iK, e4U, rs4, Esq, X, E0, E1, ut, ur, kt, kr; cbn [eval fdiff];
   rewrite ?D1 by lia; cbn [Nat.eqb eval]; rewrite ?MU, ?MK, ?A02, ?A12, ?A03, ?A13, ?B02, ?B12, ?B03, ?B13, ?A2, ?A3, ?B2, ?B3, ?e_m2, ?e_4; ab p;
   try ring; field; nz.
Qed.
End W.
