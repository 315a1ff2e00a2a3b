(** The symbolic Kerr metric solves the vacuum field equations. *)
From Coq Require Import String Ascii Reals List Arith Lia Lra.
From Coquelicot Require Import Coquelicot.
From Verif Require Import Base SymAlg SymModel ExprModel PredefModel PredefBridge PredefProofs.
Import ListNotations.
Open Scope R_scope.

Definition Dl (sch a : expr) : expr := EAdd (ESub (Esq (X 1)) (EMul sch (X 1))) (Esq a).
Definition kerr_chart (c sch a : expr) (p : nat -> R) : Prop :=
  (eval c p <> 0 /\ sin (p 2%nat) <> 0) /\ (p 1%nat * p 1%nat + eval a p * eval a p * (cos (p 2%nat) * cos (p 2%nat)) <> 0 /\
   p 1%nat * p 1%nat - eval sch p * p 1%nat + eval a p * eval a p <> 0).
Definition kerr_inv (c sch a : expr) : emat :=
  let r := X 1 in let th := X 2 in let c2 := Esq c in
  let Sg := SigmaS a in let D := Dl sch a in let s2 := Esq (ESin th) in
  set_sym
   (diag4 (EDiv (ESub (Esq (EAdd (Esq r) (Esq a))) (EMul D (EMul (Esq a) s2))) (EMul Sg D))
          (EOpp (EDiv (EMul c2 D) Sg)) (EOpp (EDiv c2 Sg))
          (EOpp (EDiv (EMul c2 (ESub D (EMul (Esq a) s2))) (EMul (EMul Sg D) s2))))
   0 3 (EDiv (EMul (EMul (EMul c sch) r) a) (EMul Sg D)).
Definition kerr_T (c sch a : expr) (i j k : nat) : expr :=
  let r := X 1 in let th := X 2 in let c2 := Esq c in
  let Sg := SigmaS a in let D := Dl sch a in
  let S := ESin th in let C := ECos th in let a2 := Esq a in let r2 := Esq r in
  let B := ESub r2 (EMul a2 (Esq C)) in
  let two := EConst 2 in
  match i, j, k with
  | 1, 0, 0 => EDiv (EMul (EMul (EMul c2 sch) D) B) (EMul two (Epow Sg 3))
  | 2, 0, 0 => EOpp (EDiv (EMul (EMul (EMul c2 sch) (EMul a2 r)) (EMul S C)) (Epow Sg 3))
  | 0, 0, 1 | 0, 1, 0 => EDiv (EMul (EMul sch (EAdd r2 a2)) B) (EMul two (EMul (Esq Sg) D))
  | 3, 0, 1 | 3, 1, 0 => EDiv (EMul (EMul c (EMul sch a)) B) (EMul two (EMul (Esq Sg) D))
  | 0, 0, 2 | 0, 2, 0 => EOpp (EDiv (EMul (EMul sch (EMul a2 r)) (EMul S C)) (Esq Sg))
  | 3, 0, 2 | 3, 2, 0 => EOpp (EDiv (EMul (EMul c (EMul (EMul sch a) r)) C) (EMul S (Esq Sg)))
  | 1, 0, 3 | 1, 3, 0 => EOpp (EDiv (EMul (EMul (EMul c D) (EMul (EMul sch a) (Esq S))) B) (EMul two (Epow Sg 3)))
  | 2, 0, 3 | 2, 3, 0 => EDiv (EMul (EMul (EMul c (EMul (EMul sch a) r)) (EAdd r2 a2)) (EMul S C)) (Epow Sg 3)
  | 1, 1, 1 => EDiv (ESub (EMul (EMul two r) (EMul a2 (Esq S))) (EMul sch B)) (EMul two (EMul Sg D))
  | 2, 1, 1 => EDiv (EMul a2 (EMul S C)) (EMul Sg D)
  | 1, 1, 2 | 1, 2, 1 => EOpp (EDiv (EMul a2 (EMul S C)) Sg)
  | 2, 1, 2 | 2, 2, 1 => EDiv r Sg
  | 1, 2, 2 => EOpp (EDiv (EMul r D) Sg)
  | 2, 2, 2 => EOpp (EDiv (EMul a2 (EMul S C)) Sg)
  | 3, 2, 3 | 3, 3, 2 => EDiv (EMul C (EAdd (Esq Sg) (EMul (EMul sch (EMul a2 r)) (Esq S)))) (EMul S (Esq Sg))
  | 0, 2, 3 | 0, 3, 2 => EDiv (EMul (EMul sch (EMul (EMul a2 a) r)) (EMul (Epow S 3) C)) (EMul c (Esq Sg))
  | 0, 1, 3 | 0, 3, 1 => EDiv (EMul (EMul sch (EMul a (Esq S))) (ESub (EMul (EMul a2 (Esq C)) (ESub a2 r2)) (EMul r2 (EAdd a2 (EMul (EConst 3) r2)))))
        (EMul (EMul two c) (EMul (Esq Sg) D))
  | 3, 1, 3 | 3, 3, 1 => EDiv (EAdd (EMul (EMul two r) (Esq Sg)) (EMul sch (ESub (EMul (EMul (Esq a2) (Esq S)) (Esq C)) (EMul r2 (EAdd (EAdd Sg r2) a2)))))
        (EMul two (EMul (Esq Sg) D))
  | 1, 3, 3 => EDiv (EMul (EMul D (Esq S)) (EAdd (EMul (EOpp two) (EMul r (Esq Sg))) (EMul (EMul sch (EMul a2 (Esq S))) B))) (EMul two (Epow Sg 3))
  | 2, 3, 3 => EOpp (EDiv (EMul (EMul S C) (EAdd (EMul (EAdd (EMul (EAdd r2 a2) Sg) (EMul (EMul sch (EMul a2 r)) (Esq S))) Sg)
        (EMul (EAdd r2 a2) (EMul (EMul sch (EMul a2 r)) (Esq S))))) (Epow Sg 3))
  | _, _, _ => E0
  end%nat.
Ltac kfold := unfold kerr_T, kerr_inv, Kerr, Dl, SigmaS.
Lemma kerr_open c sch a : param c -> param sch -> param a -> open_dirs (kerr_chart c sch a).
Proof.
  intros. pars. apply open_and; apply open_and.
  - apply open_nz_; assumption.
  - apply (open_nz_ (ESin (X 2))); intros; exact I.
  - apply (open_nz_ (SigmaS a)). intros p. unfold SigmaS, Esq, X. cbn [wd]. nz.
  - apply (open_nz_ (Dl sch a)). intros p. unfold Dl, Esq, X. cbn [wd]. nz.
Qed.
Ltac kprep := match goal with Hp : kerr_chart _ _ _ _ |- _ => destruct Hp as [[? ?] [? ?]] end.
Lemma kerr_WG c sch a : param c -> param sch -> param a -> forall i j, (i < 4)%nat -> (j < 4)%nat -> WDU (kerr_chart c sch a) (Kerr c sch a i j).
Proof. intros. pars. revert i j H2 H3. tab_W ltac:(kfold) ltac:(idtac; kprep). Qed.
Lemma kerr_WI c sch a : param c -> param sch -> param a -> forall i j, (i < 4)%nat -> (j < 4)%nat -> WDU (kerr_chart c sch a) (kerr_inv c sch a i j).
Proof. intros. pars. revert i j H2 H3. tab_W ltac:(kfold) ltac:(idtac; kprep). Qed.
Lemma kerr_WT c sch a : param c -> param sch -> param a -> forall i j k, (i < 4)%nat -> (j < 4)%nat -> (k < 4)%nat -> WDU (kerr_chart c sch a) (kerr_T c sch a i j k).
Proof. intros. pars. revert i j k H2 H3 H4. tab_WT ltac:(kfold) ltac:(idtac; kprep). Qed.
Ltac kfin S := try (unfold Rdiv; ring); field [S]; nz.
Lemma kerr_IG c sch a : param c -> param sch -> param a -> forall i j p, (i < 4)%nat -> (j < 4)%nat -> kerr_chart c sch a p ->
   rs4 (fun m => eval (Kerr c sch a i m) p * eval (kerr_inv c sch a m j) p) = if Nat.eqb i j then 1 else 0.
Proof. intros Pc Ps Pa i j p Hi Hj Hp. pars. kprep. assert (S := sc2 (p 2%nat)). c4 i Hi; c4 j Hj; kfold; evc; kfin S. Qed.
Lemma kerr_CT c sch a : param c -> param sch -> param a -> forall i j k p, (i < 4)%nat -> (j < 4)%nat -> (k < 4)%nat -> kerr_chart c sch a p ->
    eval (kerr_T c sch a i j k) p = / 2 * rs4 (fun l => eval (kerr_inv c sch a i l) p * (eval (ediff k (Kerr c sch a l j)) p + eval (ediff j (Kerr c sch a l k)) p - eval (ediff l (Kerr c sch a j k)) p)).
Proof.
  intros Pc Ps Pa i j k p Hi Hj Hk Hp. pars. kprep. assert (S := sc2 (p 2%nat)).
  c4 i Hi; c4 j Hj; c4 k Hk; kfold; evc; rwp; try (unfold Rdiv; ring); field [S]; nz.
Qed.
Lemma kerr_ricci c sch a : param c -> param sch -> param a -> forall s v p, (s < 4)%nat -> (v < 4)%nat -> kerr_chart c sch a p ->
  rs4 (fun t => rT (kerr_T c sch a) t s t v p) = 0.
Proof.
  intros Pc Ps Pa i j p Hi Hj Hp. pars. kprep. assert (S := sc2 (p 2%nat)).
  c4 i Hi; c4 j Hj; kfold; evc; rwp; generalize dependent (sin (p 2%nat)); generalize dependent (cos (p 2%nat)); generalize dependent (eval c p);
   generalize dependent (eval a p); generalize dependent (eval sch p); generalize dependent (p 1%nat); intros;  try (unfold Rdiv; ring); field [S]; nz.
Qed.
