(** The symbolic Kerr-Newman metric is an electrovacuum. *)
From Coq Require Import String Ascii Reals List Arith Lia Lra.
From Coquelicot Require Import Coquelicot.
From Verif Require Import Base SymAlg SymModel ExprModel PredefModel PredefBridge PredefProofs PredefProofs2.
Import ListNotations.
Open Scope R_scope.

Definition Dq (sch a q : expr) : expr := EAdd (EAdd (ESub (Esq (X 1)) (EMul sch (X 1))) (Esq a)) q.
Definition kn_chart (c G eps_0 sch a Q : expr) (p : nat -> R) : Prop :=
  (eval c p <> 0 /\ eval eps_0 p <> 0) /\ (sin (p 2%nat) <> 0 /\
  (p 1%nat * p 1%nat + eval a p * eval a p * (cos (p 2%nat) * cos (p 2%nat)) <> 0 /\
   p 1%nat * p 1%nat - eval sch p * p 1%nat + eval a p * eval a p + eval (rQsqE c G eps_0 Q) p <> 0)).
(** the same line element with the charge radius squared as one expression q *)
Definition kn_q (c sch a q : expr) : emat :=
  let r := X 1 in let th := X 2 in
  let Sigma := SigmaS a in
  let Delta := EAdd (EAdd (ESub (Esq r) (EMul sch r)) (Esq a)) q in
  let c2 := Esq c in
  set_sym
    (diag4 (EAdd E1 (EDiv (ESub q (EMul sch r)) Sigma))
           (EDiv (EOpp Sigma) (EMul Delta c2))
           (EDiv (EOpp Sigma) c2)
           (EDiv (EMul (ESub (EMul (EMul Delta (Esq a)) (Esq (ESin th))) (Esq (EAdd (Esq r) (Esq a)))) (Esq (ESin th))) (EMul Sigma c2)))
    0 3 (EDiv (EMul (EMul (ESub (EMul sch r) q) a) (Esq (ESin th))) (EMul Sigma c)).
Lemma kn_is_q c G eps_0 sch a Q : KerrNewman c G eps_0 sch a Q = kn_q c sch a (rQsqE c G eps_0 Q). Proof. reflexivity. Qed.
Definition kn_inv (c sch a q : expr) : emat :=
  let r := X 1 in let th := X 2 in let c2 := Esq c in
  let Sg := SigmaS a in let D := Dq sch a q in let s2 := Esq (ESin th) in
  set_sym
   (diag4 (EDiv (ESub (Esq (EAdd (Esq r) (Esq a))) (EMul D (EMul (Esq a) s2))) (EMul Sg D))
          (EOpp (EDiv (EMul c2 D) Sg)) (EOpp (EDiv c2 Sg))
          (EOpp (EDiv (EMul c2 (ESub D (EMul (Esq a) s2))) (EMul (EMul Sg D) s2))))
   0 3 (EDiv (EMul (EMul c (ESub (EMul sch r) q)) a) (EMul Sg D)).
Definition kn_T (c sch a q : expr) (i j k : nat) : expr :=
  let r := X 1 in let th := X 2 in let c2 := Esq c in
  let Sg := SigmaS a in let D := Dq sch a q in
  let S := ESin th in let C := ECos th in let a2 := Esq a in let r2 := Esq r in
  let m := ESub (EMul sch r) q in
  let BB := ESub (EMul sch (ESub r2 (EMul a2 (Esq C)))) (EMul (EConst 2) (EMul r q)) in
  let two := EConst 2 in
  match i, j, k with
  | 1, 0, 0 => EDiv (EMul (EMul c2 D) BB) (EMul two (Epow Sg 3))
  | 2, 0, 0 => EOpp (EDiv (EMul (EMul (EMul c2 m) a2) (EMul S C)) (Epow Sg 3))
  | 0, 0, 1 | 0, 1, 0 => EDiv (EMul (EAdd r2 a2) BB) (EMul two (EMul (Esq Sg) D))
  | 3, 0, 1 | 3, 1, 0 => EDiv (EMul (EMul c a) BB) (EMul two (EMul (Esq Sg) D))
  | 0, 0, 2 | 0, 2, 0 => EOpp (EDiv (EMul (EMul m a2) (EMul S C)) (Esq Sg))
  | 3, 0, 2 | 3, 2, 0 => EOpp (EDiv (EMul (EMul c (EMul m a)) C) (EMul S (Esq Sg)))
  | 1, 0, 3 | 1, 3, 0 => EOpp (EDiv (EMul (EMul (EMul c D) (EMul a (Esq S))) BB) (EMul two (Epow Sg 3)))
  | 2, 0, 3 | 2, 3, 0 => EDiv (EMul (EMul (EMul c (EMul m a)) (EAdd r2 a2)) (EMul S C)) (Epow Sg 3)
  | 1, 1, 1 => EDiv (ESub (EMul (EMul two r) (EMul a2 (Esq S))) BB) (EMul two (EMul Sg D))
  | 2, 1, 1 => EDiv (EMul a2 (EMul S C)) (EMul Sg D)
  | 1, 1, 2 | 1, 2, 1 => EOpp (EDiv (EMul a2 (EMul S C)) Sg)
  | 2, 1, 2 | 2, 2, 1 => EDiv r Sg
  | 1, 2, 2 => EOpp (EDiv (EMul r D) Sg)
  | 2, 2, 2 => EOpp (EDiv (EMul a2 (EMul S C)) Sg)
  | 3, 2, 3 | 3, 3, 2 => EDiv (EMul C (EAdd (Esq Sg) (EMul (EMul m a2) (Esq S)))) (EMul S (Esq Sg))
  | 0, 2, 3 | 0, 3, 2 => EDiv (EMul (EMul m (EMul a2 a)) (EMul (Epow S 3) C)) (EMul c (Esq Sg))
  | 0, 1, 3 | 0, 3, 1 => EOpp (EDiv (EMul (EMul a (Esq S)) (EAdd (EMul (EAdd r2 a2) BB) (EMul two (EMul r (EMul Sg m)))))
        (EMul (EMul two c) (EMul (Esq Sg) D)))
  | 3, 1, 3 | 3, 3, 1 => EDiv (ESub (EMul (EMul two r) (Esq Sg)) (EAdd (EMul (EMul a2 (Esq S)) BB) (EMul two (EMul r (EMul Sg m)))))
        (EMul two (EMul (Esq Sg) D))
  | 1, 3, 3 => EDiv (EMul (EMul D (Esq S)) (EAdd (EMul (EOpp two) (EMul r (Esq Sg))) (EMul (EMul a2 (Esq S)) BB))) (EMul two (Epow Sg 3))
  | 2, 3, 3 => EOpp (EDiv (EMul (EMul S C) (EAdd (EMul (EAdd (EMul (EAdd r2 a2) Sg) (EMul (EMul m a2) (Esq S))) Sg)
        (EMul (EAdd r2 a2) (EMul (EMul m a2) (Esq S))))) (Epow Sg 3))
  | _, _, _ => E0
  end%nat.
Ltac knu := unfold kn_T, kn_inv, kn_q, Dq, SigmaS.
Lemma kn_open c G eps_0 sch a Q : param c -> param G -> param eps_0 -> param sch -> param a -> param Q -> open_dirs (kn_chart c G eps_0 sch a Q).
Proof.
  intros. pars.
  apply (open_iff (fun p => (eval c p <> 0 /\ eval eps_0 p <> 0) /\ (sin (p 2%nat) <> 0 /\ (eval (SigmaS a) p <> 0 /\
     eval (EAdd (EMul (EAdd (ESub (Esq (X 1)) (EMul sch (X 1))) (Esq a)) (EMul (EMul (EMul (EConst 4) (EConst PI)) eps_0) (Epow c 4))) (EMul (Esq Q) G)) p <> 0)))).
  - intros p. unfold kn_chart, rQsqE, SigmaS, Esq, X. cbn [eval Epow].
    assert (K := PI_nz). 
    split; intros [[H5 H6] [H7 [H8 H9]]]; (split; [split; assumption|]); (split; [assumption|]); (split; [assumption|]); intros E; apply H9.
    + match goal with |- ?x * ?b + ?d = 0 => replace (x * b + d) with ((x + d / b) * b) by (field; nz) end. rewrite E. ring.
    + match goal with |- ?x + ?d / ?b = 0 => replace (x + d / b) with ((x * b + d) / b) by (field; nz) end. rewrite E. field. nz.
  - apply open_and; [apply open_and; apply open_nz_; assumption|]. apply open_and; [apply (open_nz_ (ESin (X 2))); intros; exact I|].
    apply open_and; apply open_nz_; intros p; unfold SigmaS, Esq, X; cbn [wd Epow]; nz.
Qed.
Lemma kn_q_facts c G eps_0 sch a Q p : param c -> param G -> param eps_0 -> param Q -> kn_chart c G eps_0 sch a Q p ->
  wd (rQsqE c G eps_0 Q) p /\ (forall k, (k < 4)%nat -> eval (ediff k (rQsqE c G eps_0 Q)) p = 0).
Proof.
  intros ? ? ? ? [[H1 H2] _]. pars. assert (K := PI_nz). unfold rQsqE, Esq. split.
  - cbn [wd eval Epow]. nz.
  - intros k Hk. cbn [eval ediff Epow]. rwp. field. nz.
Qed.
Section KN.
Variables (U : (nat -> R) -> Prop) (c sch a q : expr).
Hypothesis (Pc : param c) (Ps : param sch) (Pa : param a).
Hypothesis F : forall p, U p -> (wd q p /\ (forall k, (k < 4)%nat -> eval (ediff k q) p = 0)) /\
   (eval c p <> 0 /\ sin (p 2%nat) <> 0 /\ p 1%nat * p 1%nat + eval a p * eval a p * (cos (p 2%nat) * cos (p 2%nat)) <> 0 /\
   p 1%nat * p 1%nat - eval sch p * p 1%nat + eval a p * eval a p + eval q p <> 0).
Ltac kp := match goal with Hp : U ?p |- _ => destruct (F p Hp) as [[?Wq ?Dq] [? [? [? ?]]]] end; clear F; destruct Pc as [?W ?D]; destruct Ps as [?W ?D]; destruct Pa as [?W ?D].
Lemma kn_WG : forall i j, (i < 4)%nat -> (j < 4)%nat -> WDU U (kn_q c sch a q i j).
Proof. tab_W ltac:(knu) ltac:(idtac; kp). Qed.
Lemma kn_WI : forall i j, (i < 4)%nat -> (j < 4)%nat -> WDU U (kn_inv c sch a q i j).
Proof. tab_W ltac:(knu) ltac:(idtac; kp). Qed.
Lemma kn_WT : forall i j k, (i < 4)%nat -> (j < 4)%nat -> (k < 4)%nat -> WDU U (kn_T c sch a q i j k).
Proof. tab_WT ltac:(knu) ltac:(idtac; kp). Qed.
Lemma kn_IG : forall i j p, (i < 4)%nat -> (j < 4)%nat -> U p -> rs4 (fun m => eval (kn_q c sch a q i m) p * eval (kn_inv c sch a q m j) p) = if Nat.eqb i j then 1 else 0.
Proof. intros i j p Hi Hj Hp. kp. assert (S := sc2 (p 2%nat)). c4 i Hi; c4 j Hj; knu; evc; try (unfold Rdiv; ring); field [S]; nz. Qed.
Lemma kn_CT : forall i j k p, (i < 4)%nat -> (j < 4)%nat -> (k < 4)%nat -> U p ->
    eval (kn_T c sch a q i j k) p = / 2 * rs4 (fun l => eval (kn_inv c sch a q i l) p * (eval (ediff k (kn_q c sch a q l j)) p + eval (ediff j (kn_q c sch a q l k)) p - eval (ediff l (kn_q c sch a q j k)) p)).
Proof.
  intros i j k p Hi Hj Hk Hp. kp. assert (S := sc2 (p 2%nat)).
  c4 i Hi; c4 j Hj; c4 k Hk; knu; evc; rwp; 
  generalize dependent (sin (p 2%nat)); generalize dependent (cos (p 2%nat)); generalize dependent (eval c p);
   generalize dependent (eval a p); generalize dependent (eval sch p); generalize dependent (eval q p); generalize dependent (p 1%nat); intros;
  try (unfold Rdiv; ring); field [S]; nz.
Qed.
(** mixed components R^i_j of the Ricci tensor, with kappa = c^2 q / Sigma^2 *)
Definition kn_M (i j : nat) (p : nat -> R) : R :=
  let r := p 1%nat in let x := eval a p in let s2 := sin (p 2%nat) * sin (p 2%nat) in
  let Sg := r * r + x * x * (cos (p 2%nat) * cos (p 2%nat)) in
  let k := eval c p * eval c p * eval q p / (Sg * Sg) in
  match i, j with
  | 0%nat, 0%nat => k * (r * r + x * x + x * x * s2) / Sg
  | 1%nat, 1%nat => k
  | 2%nat, 2%nat => - k
  | 3%nat, 3%nat => - (k * (r * r + x * x + x * x * s2) / Sg)
  | 0%nat, 3%nat => - (k * (2 * x * s2 * (r * r + x * x)) / (Sg * eval c p))
  | 3%nat, 0%nat => k * (2 * x * eval c p) / Sg
  | _, _ => 0
  end.
Lemma kn_ricci_ : forall s v p, (s < 4)%nat -> (v < 4)%nat -> U p ->
  rs4 (fun t => rT (kn_T c sch a q) t s t v p) = rs4 (fun m => eval (kn_q c sch a q s m) p * kn_M m v p).
Proof.
  intros i j p Hi Hj Hp. kp. assert (S := sc2 (p 2%nat)).
  c4 i Hi; c4 j Hj; unfold kn_M; knu; evc; rwp; generalize dependent (sin (p 2%nat)); generalize dependent (cos (p 2%nat)); generalize dependent (eval c p);
   generalize dependent (eval a p); generalize dependent (eval sch p); generalize dependent (eval q p); generalize dependent (p 1%nat); intros; try (unfold Rdiv; ring); field [S]; nz.
Qed.
Lemma kn_M_trace p : rs4 (fun i => kn_M i i p) = 0.
Proof. unfold rs4, kn_M. cbv zeta. unfold Rdiv. ring. Qed.
End KN.
