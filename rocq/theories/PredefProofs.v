(** Curvature of the predefined metrics, through the library's own constructors. *)
From Coq Require Import String Ascii Reals List Arith Lia Lra.
From Coquelicot Require Import Coquelicot.
From Verif Require Import Base SymAlg SymModel ExprModel PredefModel PredefBridge.
Import ListNotations.
Open Scope R_scope.

(** a parameter of a predefined metric: a symbol other than the four coordinates, a number, or an everywhere defined
    combination of these: it does not depend on the coordinates *)
Definition param (e : expr) : Prop := (forall p, wd e p) /\ (forall k p, (k < 4)%nat -> eval (ediff k e) p = 0).
Lemma param_var n : (4 <= n)%nat -> param (EVar n).
Proof. intros H. split; [intros p; exact I|]. intros k p Hk. cbn [ediff]. destruct (Nat.eqb_spec k n); [lia|reflexivity]. Qed.
Lemma param_const r : param (EConst r).
Proof. split; [intros p; exact I|]. intros k p Hk. reflexivity. Qed.

Lemma cont_dir e p i : (forall q, wd e q) -> continuous (fun x => eval e (upd p i x)) (p i).
Proof. intros W. apply (ex_derive_continuous (V := R_NormedModule)). exists (eval (ediff i e) (upd p i (p i))). apply diff_correct. apply W. Qed.
Lemma open_nz e p i : (forall q, wd e q) -> eval e p <> 0 -> locally (p i) (fun x => eval e (upd p i x) <> 0).
Proof.
  intros W H. assert (C := cont_dir e p i W). 
  apply (C (fun y => y <> 0)). rewrite (eval_ext e _ p) by apply upd_same. apply open_neq. exact H.
Qed.
Lemma open_pos e p i : (forall q, wd e q) -> 0 < eval e p -> locally (p i) (fun x => 0 < eval e (upd p i x)).
Proof.
  intros W H. assert (C := cont_dir e p i W). 
  apply (C (fun y => 0 < y)). rewrite (eval_ext e _ p) by apply upd_same. apply open_gt. exact H.
Qed.
Lemma open_and (P Q : (nat -> R) -> Prop) : open_dirs P -> open_dirs Q -> open_dirs (fun p => P p /\ Q p).
Proof. intros HP HQ p i [H1 H2]. apply filter_and; [apply HP|apply HQ]; assumption. Qed.
Lemma open_nz_ e : (forall q, wd e q) -> open_dirs (fun p => eval e p <> 0).
Proof. intros W p i H. apply open_nz; assumption. Qed.
Lemma open_pos_ e : (forall q, wd e q) -> open_dirs (fun p => 0 < eval e p).
Proof. intros W p i H. apply open_pos; assumption. Qed.
Lemma open_true : open_dirs (fun _ => True).
Proof. intros p i _. apply filter_forall. intros; exact I. Qed.

Lemma lt4 (P : nat -> Prop) : P 0%nat -> P 1%nat -> P 2%nat -> P 3%nat -> forall i, (i < 4)%nat -> P i.
Proof. intros H0 H1 H2 H3 i Hi. destruct i as [|[|[|[|i]]]]; [assumption..|lia]. Qed.

Ltac c4 i H := destruct i as [|[|[|[|i]]]]; [clear H|clear H|clear H|clear H|exfalso; lia].
Ltac nz := repeat match goal with
  | |- True => exact I
  | |- _ /\ _ => split
  | H : ?P |- ?P => exact H
  | H : forall p, wd _ p |- wd _ _ => apply H
  | |- _ * _ <> 0 => apply Rmult_integral_contrapositive_currified
  | |- IZR _ <> 0 => lra
  | |- exp _ <> 0 => apply Rgt_not_eq; apply exp_pos
  | |- - _ <> 0 => apply Ropp_neq_0_compat
  end.
Ltac evc := unfold rT, rs4, diag4, set_sym, Etanh, Esinh, Ecosh, Erpow, Esq, X, E0, E1; cbn [eval ediff Nat.eqb andb Epow].
Lemma sc2 x : sin x * sin x = 1 - cos x * cos x.
Proof. assert (H := sin2_cos2 x). unfold Rsqr in H. lra. Qed.


(** the facts about a metric matrix G, its inverse Gi and its Christoffel table T that [bridge] needs *)
Definition table (U : (nat -> R) -> Prop) (G Gi : emat) (T : nat -> nat -> nat -> expr) : Prop :=
  open_dirs U /\
  (forall i j, (i < 4)%nat -> (j < 4)%nat -> WDU U (G i j)) /\
  (forall i j, (i < 4)%nat -> (j < 4)%nat -> WDU U (Gi i j)) /\
  (forall i j k, (i < 4)%nat -> (j < 4)%nat -> (k < 4)%nat -> WDU U (T i j k)) /\
  (forall i j p, (i < 4)%nat -> (j < 4)%nat -> U p -> eval (G i j) p = eval (G j i) p) /\
  (forall i j p, (i < 4)%nat -> (j < 4)%nat -> U p -> rs4 (fun m => eval (G i m) p * eval (Gi m j) p) = if Nat.eqb i j then 1 else 0) /\
  (forall i j k p, (i < 4)%nat -> (j < 4)%nat -> (k < 4)%nat -> U p ->
    eval (T i j k) p = / 2 * rs4 (fun l => eval (Gi i l) p * (eval (ediff k (G l j)) p + eval (ediff j (G l k)) p - eval (ediff l (G j k)) p))).
Ltac pars := repeat match goal with H : param _ |- _ => destruct H as [?W ?D] end.
Ltac rwp := repeat match goal with
  | D : forall k p, (k < 4)%nat -> eval (ediff k ?c) p = 0 |- context [eval (ediff _ ?c) _] => rewrite D by lia
  | D : forall k, (k < 4)%nat -> eval (ediff k ?c) ?p = 0 |- context [eval (ediff _ ?c) ?p] => rewrite D by lia
  end.
Ltac fin := try (unfold Rdiv; ring); field; nz.
Ltac tab_W uf prep := intros i j Hi Hj p Hp; prep; c4 i Hi; c4 j Hj; uf; unfold diag4, set_sym, Etanh, Esinh, Ecosh, Erpow, Esq, X, E0, E1; cbn [wd eval Epow Nat.eqb andb]; nz.
Ltac tab_WT uf prep := intros i j k Hi Hj Hk p Hp; prep; c4 i Hi; c4 j Hj; c4 k Hk; uf; unfold diag4, set_sym, Etanh, Esinh, Ecosh, Erpow, Esq, X, E0, E1; cbn [wd eval Epow]; nz.
Ltac tab_S uf := intros i j p Hi Hj Hp; c4 i Hi; c4 j Hj; uf; evc; reflexivity.
Ltac tab_I uf prep := intros i j p Hi Hj Hp; prep; c4 i Hi; c4 j Hj; uf; evc; fin.
Ltac tab_C uf prep := intros i j k p Hi Hj Hk Hp; prep; c4 i Hi; c4 j Hj; c4 k Hk; uf; evc; rwp; fin.
Ltac tab uf prep := split; [tab_W uf prep|split; [tab_W uf prep|split; [tab_WT uf prep|split; [tab_S uf|split; [tab_I uf prep|tab_C uf prep]]]]].
Ltac opn := pars; repeat match goal with |- open_dirs (fun p => _ /\ _) => apply open_and end;
  lazymatch goal with
  | |- open_dirs (fun p => eval ?c p <> 0) => apply open_nz_; assumption
  end.

(** ** Schwarzschild *)
Definition sch_chart (c sch : expr) (p : nat -> R) : Prop :=
  (eval c p <> 0 /\ p 1%nat <> 0) /\ (p 1%nat - eval sch p <> 0 /\ sin (p 2%nat) <> 0).
Definition sch_inv (c sch : expr) : emat :=
  let r := X 1 in let th := X 2 in let c2 := Esq c in
  diag4 (EDiv r (ESub r sch)) (EOpp (EDiv (EMul c2 (ESub r sch)) r)) (EOpp (EDiv c2 (Esq r))) (EOpp (EDiv c2 (Esq (EMul r (ESin th))))).
Definition sch_T (c sch : expr) (i j k : nat) : expr :=
  let r := X 1 in let th := X 2 in let c2 := Esq c in
  match i, j, k with
  | 0, 0, 1 | 0, 1, 0 => EDiv sch (EMul (EMul (EConst 2) r) (ESub r sch))
  | 1, 0, 0 => EDiv (EMul (EMul c2 sch) (ESub r sch)) (EMul (EConst 2) (EMul r (Esq r)))
  | 1, 1, 1 => EOpp (EDiv sch (EMul (EMul (EConst 2) r) (ESub r sch)))
  | 1, 2, 2 => ESub sch r
  | 1, 3, 3 => EMul (ESub sch r) (Esq (ESin th))
  | 2, 1, 2 | 2, 2, 1 | 3, 1, 3 | 3, 3, 1 => EDiv E1 r
  | 2, 3, 3 => EOpp (EMul (ESin th) (ECos th))
  | 3, 2, 3 | 3, 3, 2 => EDiv (ECos th) (ESin th)
  | _, _, _ => E0
  end%nat.
Lemma sch_open c sch : param c -> param sch -> open_dirs (sch_chart c sch).
Proof.
  intros [Wc _] [Ws _]. apply open_and; apply open_and.
  - apply open_nz_. exact Wc.
  - apply (open_nz_ (X 1)). intros q. exact I.
  - apply (open_nz_ (ESub (X 1) sch)). intros q. split; [exact I|apply Ws].
  - apply (open_nz_ (ESin (X 2))). intros q. exact I.
Qed.

Lemma sch_table c sch : param c -> param sch -> table (sch_chart c sch) (Schwarzschild c sch) (sch_inv c sch) (sch_T c sch).
Proof.
  intros Pc Ps. split; [apply sch_open; assumption|]. pars.
  assert (Q : forall p, sch_chart c sch p -> 1 - eval sch p / p 1%nat <> 0).
  { intros p [[Hc Hr] [Hs Ht]] E. apply Hs. replace (p 1%nat - eval sch p) with ((1 - eval sch p / p 1%nat) * p 1%nat) by (field; assumption). rewrite E. ring. }
  tab ltac:(unfold Schwarzschild, sch_inv, sch_T) ltac:(idtac; match goal with Hp : sch_chart _ _ _ |- _ => assert (Q1 := Q _ Hp); destruct Hp as [[? ?] [? ?]] end).
Qed.
Lemma sch_ricci c sch : param c -> param sch -> forall s v p, (s < 4)%nat -> (v < 4)%nat -> sch_chart c sch p ->
  rs4 (fun t => rT (sch_T c sch) t s t v p) = 0.
Proof.
  intros Pc Ps i j p Hi Hj [[Hc Hr] [Hs Ht]]. pars. assert (S := sc2 (p 2%nat)).
  c4 i Hi; c4 j Hj; unfold sch_T; evc; rwp; try (unfold Rdiv; ring); field [S]; nz.
Qed.

(** ** Minkowski *)
Definition mc_chart (c : expr) (p : nat -> R) : Prop := eval c p <> 0.
Definition mc_inv (c : expr) : emat := diag4 (EConst (-1)) (Esq c) (Esq c) (Esq c).
Definition mc_T (i j k : nat) : expr := E0.
Lemma mc_table c : param c -> table (mc_chart c) (MinkowskiCartesian c) (mc_inv c) mc_T.
Proof.
  intros Pc. pars. split; [apply open_nz_; assumption|].
  tab ltac:(unfold MinkowskiCartesian, mc_inv, mc_T) ltac:(unfold mc_chart in *).
Qed.
Lemma mc_riemann t s r v p : rT mc_T t s r v p = 0.
Proof. unfold mc_T. evc. ring. Qed.
Definition mp_chart (c : expr) (p : nat -> R) : Prop := eval c p <> 0 /\ (p 1%nat <> 0 /\ sin (p 2%nat) <> 0).
Definition mp_inv (c : expr) : emat :=
  diag4 (EConst (-1)) (Esq c) (EDiv (Esq c) (Esq (X 1))) (EDiv (Esq c) (Esq (EMul (X 1) (ESin (X 2))))).
Definition mp_T (i j k : nat) : expr :=
  let r := X 1 in let th := X 2 in
  match i, j, k with
  | 1, 2, 2 => EOpp r
  | 1, 3, 3 => EOpp (EMul r (Esq (ESin th)))
  | 2, 1, 2 | 2, 2, 1 | 3, 1, 3 | 3, 3, 1 => EDiv E1 r
  | 2, 3, 3 => EOpp (EMul (ESin th) (ECos th))
  | 3, 2, 3 | 3, 3, 2 => EDiv (ECos th) (ESin th)
  | _, _, _ => E0
  end%nat.
Lemma mp_table c : param c -> table (mp_chart c) (MinkowskiPolar c) (mp_inv c) mp_T.
Proof.
  intros Pc. pars. split.
  { apply open_and; [|apply open_and]; [apply open_nz_; assumption|apply (open_nz_ (X 1)); intros; exact I|apply (open_nz_ (ESin (X 2))); intros; exact I]. }
  tab ltac:(unfold MinkowskiPolar, mp_inv, mp_T) ltac:(idtac; match goal with Hp : mp_chart _ _ |- _ => destruct Hp as [? [? ?]] end).
Qed.
Lemma mp_riemann c t s r v p : (t < 4)%nat -> (s < 4)%nat -> (r < 4)%nat -> (v < 4)%nat -> mp_chart c p -> rT mp_T t s r v p = 0.
Proof.
  intros Hi Hj Hk Hl [Hc [Hr Ht]]. assert (S := sc2 (p 2%nat)).
  c4 t Hi; c4 s Hj; c4 r Hk; c4 v Hl; unfold mp_T; evc; try (unfold Rdiv; ring); field [S]; nz.
Qed.
