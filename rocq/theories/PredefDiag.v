(** Diagonal line elements: the Christoffel table comes from the diagonal; Davidson, Janis-Newman-Winicour, Ernst and C metrics. *)
From Coq Require Import String Ascii Reals List Arith Lia Lra.
From Coquelicot Require Import Coquelicot.
From Verif Require Import Base SymAlg SymModel ExprModel PredefModel PredefBridge PredefProofs PredefProofs2.
Import ListNotations.
Open Scope R_scope.

Definition dsel (a b c d : expr) (i : nat) : expr := match i with O => a | 1%nat => b | 2%nat => c | _ => d end.
Definition dinv (a b c d : expr) : emat := diag4 (EDiv E1 a) (EDiv E1 b) (EDiv E1 c) (EDiv E1 d).
Definition dT (a b c d : expr) (i j k : nat) : expr :=
  let g := dsel a b c d in
  if Nat.eqb i j then EDiv (ediff k (g i)) (EMul (EConst 2) (g i))
  else if Nat.eqb i k then EDiv (ediff j (g i)) (EMul (EConst 2) (g i))
  else if Nat.eqb j k then EOpp (EDiv (ediff i (g j)) (EMul (EConst 2) (g i)))
  else E0.
Lemma diag_table (U : (nat -> R) -> Prop) a b c d : open_dirs U ->
  (forall i p, (i < 4)%nat -> U p -> wd (dsel a b c d i) p /\ eval (dsel a b c d i) p <> 0) ->
  table U (diag4 a b c d) (dinv a b c d) (dT a b c d).
Proof.
  intros O H.
  assert (H0 : forall p, U p -> wd a p /\ eval a p <> 0) by (intros p Hp; apply (H 0%nat p); [lia|exact Hp]).
  assert (H1 : forall p, U p -> wd b p /\ eval b p <> 0) by (intros p Hp; apply (H 1%nat p); [lia|exact Hp]).
  assert (H2 : forall p, U p -> wd c p /\ eval c p <> 0) by (intros p Hp; apply (H 2%nat p); [lia|exact Hp]).
  assert (H3 : forall p, U p -> wd d p /\ eval d p <> 0) by (intros p Hp; apply (H 3%nat p); [lia|exact Hp]).
  clear H. split; [exact O|]. split; [|split; [|split; [|split; [|split]]]].
  - intros i j Hi Hj p Hp. destruct (H0 p Hp), (H1 p Hp), (H2 p Hp), (H3 p Hp). c4 i Hi; c4 j Hj; unfold diag4, E0; cbn [wd]; auto.
  - intros i j Hi Hj p Hp. destruct (H0 p Hp), (H1 p Hp), (H2 p Hp), (H3 p Hp). c4 i Hi; c4 j Hj; unfold dinv, diag4, E0, E1; cbn [wd eval]; auto.
  - intros i j k Hi Hj Hk p Hp. destruct (H0 p Hp), (H1 p Hp), (H2 p Hp), (H3 p Hp).
    c4 i Hi; c4 j Hj; c4 k Hk; unfold dT, E0; cbn [wd eval dsel Nat.eqb]; nz; apply wd_diff; assumption.
  - intros i j p Hi Hj Hp. c4 i Hi; c4 j Hj; reflexivity.
  - intros i j p Hi Hj Hp. destruct (H0 p Hp), (H1 p Hp), (H2 p Hp), (H3 p Hp). c4 i Hi; c4 j Hj; unfold dinv; evc; try ring; field; assumption.
  - intros i j k p Hi Hj Hk Hp. destruct (H0 p Hp), (H1 p Hp), (H2 p Hp), (H3 p Hp).
    c4 i Hi; c4 j Hj; c4 k Hk; unfold dT, dinv, rs4, diag4, E0, E1; cbn [eval ediff dsel Nat.eqb]; try (unfold Rdiv; ring); field; assumption.
Qed.
Ltac dr := unfold dT; evc; cbn [dsel eval ediff Nat.eqb].

(** ** Davidson *)
Definition dv_chart (p : nat -> R) : Prop := 0 < p 0%nat /\ p 1%nat <> 0.
Lemma dv_open : open_dirs dv_chart.
Proof. apply open_and; [apply (open_pos_ (X 0)); intros; exact I|apply (open_nz_ (X 1)); intros; exact I]. Qed.
Definition dv_e : expr := Erpow (EAdd E1 (Esq (X 1))) (EConst (2 / 5)).
Definition dv_0 : expr := EOpp (Epow dv_e 3).
Definition dv_1 : expr := EMul (Erpow (X 0) (EConst (4 / 3))) dv_e.
Definition dv_2 : expr := EDiv (Erpow (X 0) (EConst (-2 / 3))) dv_e.
Definition dv_3 : expr := EDiv (EMul (Erpow (X 0) (EConst (4 / 3))) (Esq (X 1))) dv_e.
Lemma dv_is : Davidson = diag4 dv_0 dv_1 dv_2 dv_3. Proof. reflexivity. Qed.
Ltac dvu := unfold dv_0, dv_1, dv_2, dv_3, dv_e.
Lemma dv_table : table dv_chart Davidson (dinv dv_0 dv_1 dv_2 dv_3) (dT dv_0 dv_1 dv_2 dv_3).
Proof.
  rewrite dv_is. apply diag_table; [apply dv_open|]. intros i p Hi [Ht Hr]. assert (0 < 1 + p 1%nat * p 1%nat) by nra.
  assert (E := exp_pos (2 / 5 * ln (1 + p 1%nat * p 1%nat))).
  c4 i Hi; cbn [dsel]; dvu; unfold Erpow, Esq, X, E1; cbn [wd eval Epow]; split; nz; try lra; unfold Rdiv; nz; apply Rinv_neq_0_compat; lra.
Qed.
Lemma table_ext U G Gi T T' : table U G Gi T ->
  (forall i j k p, (i < 4)%nat -> (j < 4)%nat -> (k < 4)%nat -> U p -> wd (T' i j k) p /\ eval (T' i j k) p = eval (T i j k) p) -> table U G Gi T'.
Proof.
  intros [H1 [H2 [H3 [H4 [H5 [H6 H7]]]]]] H. split; [exact H1|]. split; [exact H2|]. split; [exact H3|]. split; [intros i j k Hi Hj Hk p Hp; apply H; assumption|].
  split; [exact H5|]. split; [exact H6|]. intros i j k p Hi Hj Hk Hp. destruct (H i j k p Hi Hj Hk Hp) as [_ E]. rewrite E. apply H7; assumption.
Qed.
Definition dv_T (i j k : nat) : expr :=
  let t := X 0 in let r := X 1 in let w := EAdd E1 (Esq (X 1)) in
  let B := Erpow (X 0) (EConst (4 / 3)) in let C := Erpow (X 0) (EConst (-2 / 3)) in let e := dv_e in
  let q x := EConst x in
  match i, j, k with
  | 0, 0, 1 | 0, 1, 0 => EDiv (EMul (q (6/5)%R) r) w
  | 0, 1, 1 => EDiv (EMul (q (2/3)%R) B) (EMul t (Esq e))
  | 0, 2, 2 => EOpp (EDiv (EMul (q (1/3)%R) C) (EMul t (Epow e 4)))
  | 0, 3, 3 => EDiv (EMul (q (2/3)%R) (EMul B (Esq r))) (EMul t (Epow e 4))
  | 1, 0, 0 => EDiv (EMul (EMul (q (6/5)%R) r) (Esq e)) (EMul w B)
  | 1, 0, 1 | 1, 1, 0 | 3, 0, 3 | 3, 3, 0 => EDiv (q (2/3)%R) t
  | 1, 1, 1 => EDiv (EMul (q (2/5)%R) r) w
  | 1, 2, 2 => EDiv (EMul (EMul (q (2/5)%R) r) C) (EMul (EMul w B) (Esq e))
  | 1, 3, 3 => EOpp (EDiv (ESub r (EDiv (EMul (q (2/5)%R) (EMul r (Esq r))) w)) (Esq e))
  | 2, 0, 2 | 2, 2, 0 => EOpp (EDiv (q (1/3)%R) t)
  | 2, 1, 2 | 2, 2, 1 => EOpp (EDiv (EMul (q (2/5)%R) r) w)
  | 3, 1, 3 | 3, 3, 1 => ESub (EDiv E1 r) (EDiv (EMul (q (2/5)%R) r) w)
  | _, _, _ => E0
  end%nat.
Ltac dv_abs p :=
  set (A := exp (2 / 5 * ln (1 + p 1%nat * p 1%nat))) in *; set (B := exp (4 / 3 * ln (p 0%nat))) in *; set (C := exp (-2 / 3 * ln (p 0%nat))) in *;
  assert (A <> 0) by (apply Rgt_not_eq; apply exp_pos); assert (B <> 0) by (apply Rgt_not_eq; apply exp_pos); assert (C <> 0) by (apply Rgt_not_eq; apply exp_pos);
  clearbody A B C.
Lemma dv_table' : table dv_chart Davidson (dinv dv_0 dv_1 dv_2 dv_3) dv_T.
Proof.
  apply (table_ext _ _ _ _ _ dv_table). intros i j k p Hi Hj Hk [Ht Hr]. assert (0 < 1 + p 1%nat * p 1%nat) by nra.
  assert (p 0%nat <> 0) by lra. assert (1 + p 1%nat * p 1%nat <> 0) by lra.
  c4 i Hi; c4 j Hj; c4 k Hk; unfold dv_T; (split; [dvu; unfold Erpow, Esq, X, E0, E1; cbn [wd eval Epow]; nz|]); dr; dvu; evc; dv_abs p; try (unfold Rdiv; ring); field; nz.
Qed.
Lemma dv_ricci s v p : (s < 4)%nat -> (v < 4)%nat -> dv_chart p ->
  rs4 (fun t => rT dv_T t s t v p) =
   (if Nat.eqb s 0 then -3 else 1) * (4 / 5 / ((1 + p 1%nat ^ 2) ^ 2 * eval dv_1 p)) * eval (Davidson s v) p.
Proof.
  intros Hs Hv [Ht Hr]. assert (0 < 1 + p 1%nat * p 1%nat) by nra. rewrite dv_is.
  assert (p 0%nat <> 0) by lra. assert (1 + p 1%nat * p 1%nat <> 0) by lra.
  c4 s Hs; c4 v Hv; unfold dv_T; dvu; evc; dv_abs p; try (unfold Rdiv; ring); field; nz; nra.
Qed.

(** ** C metric with the cubic structure functions of the vacuum solution: f = a0 + a1 x + a2 x^2 + a3 x^3, h(y) = - f(-y) *)
Definition cubic (a0 a1 a2 a3 x : expr) : expr := EAdd (EAdd (EAdd a0 (EMul a1 x)) (EMul a2 (Esq x))) (EMul a3 (EMul x (Esq x))).
Definition cm_f (a0 a1 a2 a3 : expr) : expr := cubic a0 a1 a2 a3 (X 1).
Definition cm_h (a0 a1 a2 a3 : expr) : expr := EOpp (cubic a0 a1 a2 a3 (EOpp (X 2))).
Definition cm_chart (f h : expr) (p : nat -> R) : Prop := p 1%nat + p 2%nat <> 0 /\ (eval f p <> 0 /\ eval h p <> 0).
Lemma cm_open f h : (forall p, wd f p) -> (forall p, wd h p) -> open_dirs (cm_chart f h).
Proof. intros Wf Wh. apply open_and; [|apply open_and; apply open_nz_; assumption]. apply (open_nz_ (EAdd (X 1) (X 2))). intros p. split; exact I. Qed.
Definition cm_T (f h f1 h1 : expr) (i j k : nat) : expr :=
  let s := EAdd (X 1) (X 2) in let is := EDiv E1 s in
  match i, j, k with
  | 0, 0, 1 | 0, 1, 0 => EOpp is
  | 0, 0, 2 | 0, 2, 0 => ESub (EDiv h1 (EMul (EConst 2) h)) is
  | 1, 0, 0 => EOpp (EDiv (EMul h f) s)
  | 2, 0, 0 => EMul h (ESub (EDiv h1 (EConst 2)) (EDiv h s))
  | 1, 1, 1 => ESub (EOpp is) (EDiv f1 (EMul (EConst 2) f))
  | 1, 1, 2 | 1, 2, 1 => EOpp is
  | 2, 1, 1 => EDiv h (EMul s f)
  | 1, 2, 2 => EDiv f (EMul s h)
  | 2, 1, 2 | 2, 2, 1 => EOpp is
  | 2, 2, 2 => ESub (EOpp is) (EDiv h1 (EMul (EConst 2) h))
  | 1, 3, 3 => EOpp (EMul f (ESub (EDiv f1 (EConst 2)) (EDiv f s)))
  | 2, 3, 3 => EDiv (EMul f h) s
  | 3, 1, 3 | 3, 3, 1 => ESub (EDiv f1 (EMul (EConst 2) f)) is
  | 3, 2, 3 | 3, 3, 2 => EOpp is
  | _, _, _ => E0
  end%nat.
(** f depends on x only, h on y only *)
Definition only (d : nat) (f : expr) : Prop := forall k p, (k < 4)%nat -> k <> d -> eval (ediff k f) p = 0.
Definition cm_0 (h : expr) : expr := EDiv (EOpp h) (Esq (EAdd (X 1) (X 2))).
Definition cm_1 (f : expr) : expr := EDiv E1 (EMul (Esq (EAdd (X 1) (X 2))) f).
Definition cm_3 (f : expr) : expr := EDiv f (Esq (EAdd (X 1) (X 2))).
Lemma cm_is f h : CMetric f h = diag4 (cm_0 h) (cm_1 f) (cm_1 h) (cm_3 f). Proof. reflexivity. Qed.
Lemma cm_table f h : (forall p, wd f p) -> (forall p, wd h p) -> only 1 f -> only 2 h ->
  table (cm_chart f h) (CMetric f h) (dinv (cm_0 h) (cm_1 f) (cm_1 h) (cm_3 f)) (cm_T f h (ediff 1 f) (ediff 2 h)).
Proof.
  intros Wf Wh Of Oh. rewrite cm_is. apply (table_ext _ _ _ (dT (cm_0 h) (cm_1 f) (cm_1 h) (cm_3 f))).
  - apply diag_table; [apply cm_open; assumption|]. intros i p Hi [Hs [Hf Hh]].
    c4 i Hi; cbn [dsel]; unfold cm_0, cm_1, cm_3, Esq, X, E1; cbn [wd eval]; (split; [nz|]); unfold Rdiv; nz; apply Rinv_neq_0_compat; nz.
  - intros i j k p Hi Hj Hk [Hs [Hf Hh]].
    assert (Of0 := Of 0%nat p ltac:(lia) ltac:(lia)). assert (Of2 := Of 2%nat p ltac:(lia) ltac:(lia)). assert (Of3 := Of 3%nat p ltac:(lia) ltac:(lia)).
    assert (Oh0 := Oh 0%nat p ltac:(lia) ltac:(lia)). assert (Oh1 := Oh 1%nat p ltac:(lia) ltac:(lia)). assert (Oh3 := Oh 3%nat p ltac:(lia) ltac:(lia)).
    c4 i Hi; c4 j Hj; c4 k Hk; unfold cm_T; (split; [unfold Esq, X, E0, E1; cbn [wd eval]; nz; apply wd_diff; auto|]); dr; unfold cm_0, cm_1, cm_3; evc;
    rewrite ?Of0, ?Of2, ?Of3, ?Oh0, ?Oh1, ?Oh3; try (unfold Rdiv; ring); field; nz.
Qed.
Lemma cm_f_wd a0 a1 a2 a3 : param a0 -> param a1 -> param a2 -> param a3 -> (forall p, wd (cm_f a0 a1 a2 a3) p) /\ only 1 (cm_f a0 a1 a2 a3).
Proof.
  intros. pars. unfold cm_f, cubic, Esq, X. split; [intros p; cbn [wd]; nz|]. intros k p Hk N. cbn [ediff].
  destruct (Nat.eqb_spec k 1); [lia|]. cbn [eval]. rwp. ring.
Qed.
Lemma cm_h_wd a0 a1 a2 a3 : param a0 -> param a1 -> param a2 -> param a3 -> (forall p, wd (cm_h a0 a1 a2 a3) p) /\ only 2 (cm_h a0 a1 a2 a3).
Proof.
  intros. pars. unfold cm_h, cubic, Esq, X. split; [intros p; cbn [wd]; nz|]. intros k p Hk N. cbn [ediff].
  destruct (Nat.eqb_spec k 2); [lia|]. cbn [eval]. rwp. ring.
Qed.
(** simplified derivatives *)
Definition cm_f1 (a1 a2 a3 : expr) : expr := EAdd (EAdd a1 (EMul (EConst 2) (EMul a2 (X 1)))) (EMul (EConst 3) (EMul a3 (Esq (X 1)))).
Definition cm_h1 (a1 a2 a3 : expr) : expr := EAdd (ESub a1 (EMul (EConst 2) (EMul a2 (X 2)))) (EMul (EConst 3) (EMul a3 (Esq (X 2)))).
Lemma cm_table' a0 a1 a2 a3 : param a0 -> param a1 -> param a2 -> param a3 ->
  let f := cm_f a0 a1 a2 a3 in let h := cm_h a0 a1 a2 a3 in
  table (cm_chart f h) (CMetric f h) (dinv (cm_0 h) (cm_1 f) (cm_1 h) (cm_3 f)) (cm_T f h (cm_f1 a1 a2 a3) (cm_h1 a1 a2 a3)).
Proof.
  intros P0 P1 P2 P3 f h. destruct (cm_f_wd a0 a1 a2 a3 P0 P1 P2 P3) as [Wf Of]. destruct (cm_h_wd a0 a1 a2 a3 P0 P1 P2 P3) as [Wh Oh].
  apply (table_ext _ _ _ _ _ (cm_table f h Wf Wh Of Oh)).
  assert (F1 : forall p, eval (cm_f1 a1 a2 a3) p = eval (ediff 1 f) p). { intros p. pars. unfold f, cm_f1, cm_f, cubic. evc. rwp. ring. }
  assert (H1 : forall p, eval (cm_h1 a1 a2 a3) p = eval (ediff 2 h) p). { intros p. pars. unfold h, cm_h1, cm_h, cubic. evc. rwp. ring. }
  assert (WF1 : forall p, wd (cm_f1 a1 a2 a3) p). { intros p. pars. unfold cm_f1, Esq, X. cbn [wd]. nz. }
  assert (WH1 : forall p, wd (cm_h1 a1 a2 a3) p). { intros p. pars. unfold cm_h1, Esq, X. cbn [wd]. nz. }
  fold f h in Wf, Wh. clearbody f h. intros i j k p Hi Hj Hk [Hs [Hf Hh]].
  generalize dependent (cm_f1 a1 a2 a3). generalize dependent (cm_h1 a1 a2 a3). clear P0 P1 P2 P3. intros h1 EH WH f1 EF WF.
  c4 i Hi; c4 j Hj; c4 k Hk; unfold cm_T; (split; [unfold X, E0, E1; cbn [wd eval]; nz|]); cbn [eval]; rewrite ?EF, ?EH; reflexivity.
Qed.
Lemma cm_ricci a0 a1 a2 a3 s v p : param a0 -> param a1 -> param a2 -> param a3 -> (s < 4)%nat -> (v < 4)%nat ->
  cm_chart (cm_f a0 a1 a2 a3) (cm_h a0 a1 a2 a3) p ->
  rs4 (fun t => rT (cm_T (cm_f a0 a1 a2 a3) (cm_h a0 a1 a2 a3) (cm_f1 a1 a2 a3) (cm_h1 a1 a2 a3)) t s t v p) = 0.
Proof.
  intros P0 P1 P2 P3 Hs Hv [H1 [H2 H3]]. pars. unfold cm_f, cm_h, cubic in H2, H3. unfold Esq, X in H2, H3. cbn [eval] in H2, H3.
  c4 s Hs; c4 v Hv; unfold cm_T, cm_f1, cm_h1, cm_f, cm_h, cubic; evc; rwp; try (unfold Rdiv; ring); field; nz; intros E; apply H3; rewrite E; ring.
Qed.
