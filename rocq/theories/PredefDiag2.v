(** Janis-Newman-Winicour and Ernst metrics. *)
From Coq Require Import String Ascii Reals List Arith Lia Lra.
From Coquelicot Require Import Coquelicot.
From Verif Require Import Base SymAlg SymModel ExprModel PredefModel PredefBridge PredefProofs PredefProofs2 PredefDiag.
Import ListNotations.
Open Scope R_scope.

(** ** Ernst *)
Definition er_chart (B M : expr) (p : nat -> R) : Prop := p 1%nat <> 0 /\ (p 1%nat - 2 * eval M p <> 0 /\ sin (p 2%nat) <> 0).
Lemma er_open B M : param B -> param M -> open_dirs (er_chart B M).
Proof.
  intros. pars. apply open_and; [|apply open_and]; [apply (open_nz_ (X 1)); intros; exact I|apply (open_nz_ (ESub (X 1) (EMul (EConst 2) M)))|apply (open_nz_ (ESin (X 2))); intros; exact I].
  intros p. unfold X. cbn [wd]. nz.
Qed.
Definition er_l (B : expr) : expr := EAdd E1 (Esq (EMul (EMul B (X 1)) (ESin (X 2)))).
Definition er_w (M : expr) : expr := ESub E1 (EDiv (EMul (EConst 2) M) (X 1)).
Definition er_0 (B M : expr) : expr := EMul (EMul (EConst (-1)) (Esq (er_l B))) (er_w M).
Definition er_1 (B M : expr) : expr := EDiv (Esq (er_l B)) (er_w M).
Definition er_2 (B : expr) : expr := Esq (EMul (X 1) (er_l B)).
Definition er_3 (B : expr) : expr := Esq (EDiv (EMul (X 1) (ESin (X 2))) (er_l B)).
Lemma er_is B M : Ernst B M = diag4 (er_0 B M) (er_1 B M) (er_2 B) (er_3 B). Proof. reflexivity. Qed.
Definition er_T (B M : expr) (i j k : nat) : expr :=
  let r := X 1 in let th := X 2 in let l := er_l B in
  let lr := EDiv (EMul (EConst 2) (EMul (Esq B) (EMul r (Esq (ESin th))))) l in
  let lt := EDiv (EMul (EConst 2) (EMul (Esq B) (EMul (Esq r) (EMul (ESin th) (ECos th))))) l in
  let z := ESub r (EMul (EConst 2) M) in
  let h := EDiv M (EMul r z) in let ir := EDiv E1 r in let cot := EDiv (ECos th) (ESin th) in
  match i, j, k with
  | 0, 0, 1 | 0, 1, 0 => EAdd lr h
  | 0, 0, 2 | 0, 2, 0 => lt
  | 1, 0, 0 => EMul (EAdd lr h) (Esq (EDiv z r))
  | 2, 0, 0 => EDiv (EMul lt z) (EMul r (Esq r))
  | 1, 1, 1 => ESub lr h
  | 1, 1, 2 | 1, 2, 1 => lt
  | 2, 1, 1 => EOpp (EDiv lt (EMul r z))
  | 1, 2, 2 => EOpp (EMul (EAdd ir lr) (EMul r z))
  | 2, 1, 2 | 2, 2, 1 => EAdd ir lr
  | 2, 2, 2 => lt
  | 1, 3, 3 => EOpp (EDiv (EMul (ESub ir lr) (EMul (EMul r z) (Esq (ESin th)))) (Esq (Esq l)))
  | 3, 1, 3 | 3, 3, 1 => ESub ir lr
  | 2, 3, 3 => EOpp (EDiv (EMul (ESub cot lt) (Esq (ESin th))) (Esq (Esq l)))
  | 3, 2, 3 | 3, 3, 2 => ESub cot lt
  | _, _, _ => E0
  end%nat.
Lemma er_facts B M p : er_chart B M p -> 1 + eval B p * p 1%nat * sin (p 2%nat) * (eval B p * p 1%nat * sin (p 2%nat)) <> 0 /\ 1 - 2 * eval M p / p 1%nat <> 0.
Proof.
  intros [H1 [H2 H3]]. split.
  - assert (0 <= eval B p * p 1%nat * sin (p 2%nat) * (eval B p * p 1%nat * sin (p 2%nat))) by (apply Rle_0_sqr). lra.
  - intros E. apply H2. replace (p 1%nat - 2 * eval M p) with ((1 - 2 * eval M p / p 1%nat) * p 1%nat) by (field; assumption). rewrite E. ring.
Qed.
Ltac eru := unfold er_0, er_1, er_2, er_3, er_l, er_w.
Lemma er_table B M : param B -> param M -> table (er_chart B M) (Ernst B M) (dinv (er_0 B M) (er_1 B M) (er_2 B) (er_3 B)) (er_T B M).
Proof.
  intros PB PM. rewrite er_is. apply (table_ext _ _ _ (dT (er_0 B M) (er_1 B M) (er_2 B) (er_3 B))).
  - apply diag_table; [apply er_open; assumption|]. pars. intros i p Hi Hp. destruct (er_facts B M p Hp) as [F1 F2]. destruct Hp as [H1 [H2 H3]].
    c4 i Hi; cbn [dsel]; eru; unfold Esq, X, E1; cbn [wd eval]; (split; [nz|]); unfold Rdiv in *; nz; apply Rinv_neq_0_compat; nz.
  - pars. intros i j k p Hi Hj Hk Hp. destruct (er_facts B M p Hp) as [F1 F2]. destruct Hp as [H1 [H2 H3]].
    c4 i Hi; c4 j Hj; c4 k Hk; unfold er_T; (split; [eru; unfold Esq, X, E0, E1; cbn [wd eval]; nz|]); dr; eru; evc; rwp; try (unfold Rdiv; ring); field; nz.
Qed.
Definition er_ric (B M : expr) (s v : nat) (p : nat -> R) : R := rs4 (fun t => rT (er_T B M) t s t v p).
Lemma er_pair03 B M p : param B -> param M -> er_chart B M p ->
  er_ric B M 0 0 p / eval (er_0 B M) p + er_ric B M 3 3 p / eval (er_3 B) p = 0.
Proof.
  intros PB PM Hp. pars. destruct (er_facts B M p Hp) as [F1 F2]. destruct Hp as [H1 [H2 H3]]. assert (S := sc2 (p 2%nat)).
  unfold er_ric, er_T; eru; evc; rwp.
  generalize dependent (sin (p 2%nat)); generalize dependent (cos (p 2%nat)); generalize dependent (eval B p);
   generalize dependent (eval M p); generalize dependent (p 1%nat); intros. field [S]; nz.
Qed.
Lemma er_pair12 B M p : param B -> param M -> er_chart B M p ->
  er_ric B M 1 1 p / eval (er_1 B M) p + er_ric B M 2 2 p / eval (er_2 B) p = 0.
Proof.
  intros PB PM Hp. pars. destruct (er_facts B M p Hp) as [F1 F2]. destruct Hp as [H1 [H2 H3]]. assert (S := sc2 (p 2%nat)).
  unfold er_ric, er_T; eru; evc; rwp.
  generalize dependent (sin (p 2%nat)); generalize dependent (cos (p 2%nat)); generalize dependent (eval B p);
   generalize dependent (eval M p); generalize dependent (p 1%nat); intros. field [S]; nz.
Qed.

(** ** Janis-Newman-Winicour *)
Definition jw_rs (c G M : expr) : expr := EDiv (EMul (EMul (EConst 2) G) M) (Esq c).
Definition jw_chart (c G gam M : expr) (p : nat -> R) : Prop :=
  (eval c p <> 0 /\ eval gam p <> 0) /\ (p 1%nat <> 0 /\ (0 < 1 - eval (jw_rs c G M) p / (eval gam p * p 1%nat) /\ sin (p 2%nat) <> 0)).
Definition jw_al (q gam : expr) : expr := ESub E1 (EDiv q (EMul gam (X 1))).
Definition jw_0 (q gam : expr) : expr := EMul (EConst (-1)) (Erpow (jw_al q gam) gam).
Definition jw_1 (c q gam : expr) : expr := EDiv (Erpow (jw_al q gam) (EOpp gam)) (Esq c).
Definition jw_2 (q gam : expr) : expr := EMul (Esq (X 1)) (Erpow (jw_al q gam) (EAdd (EOpp gam) E1)).
Definition jw_3 (q gam : expr) : expr := EMul (jw_2 q gam) (Esq (ESin (X 2))).
Lemma jw_is c G gam M : JanisNewmanWinicour c G gam M = diag4 (jw_0 (jw_rs c G M) gam) (jw_1 c (jw_rs c G M) gam) (jw_2 (jw_rs c G M) gam) (jw_3 (jw_rs c G M) gam).
Proof. reflexivity. Qed.
Lemma jw_open c G gam M : param c -> param G -> param gam -> param M -> open_dirs (jw_chart c G gam M).
Proof.
  intros. pars.
  apply (open_iff (fun p => (eval c p <> 0 /\ eval gam p <> 0) /\ (p 1%nat <> 0 /\
    (0 < eval (EMul (EMul (EMul (Esq c) gam) (X 1)) (ESub (EMul (EMul (Esq c) gam) (X 1)) (EMul (EMul (EConst 2) G) M))) p /\ sin (p 2%nat) <> 0)))).
  - intros p. unfold jw_chart, jw_rs, Esq, X. cbn [eval].
    split; intros [[H1 H2] [H3 [H4 H5]]]; (split; [split; assumption|]); (split; [assumption|]); (split; [|assumption]).
    + replace (1 - 2 * eval G p * eval M p / (eval c p * eval c p) / (eval gam p * p 1%nat)) with
        (eval c p * eval c p * eval gam p * p 1%nat * (eval c p * eval c p * eval gam p * p 1%nat - 2 * eval G p * eval M p) / Rsqr (eval c p * eval c p * eval gam p * p 1%nat)).
      * apply Rdiv_lt_0_compat; [exact H4|]. apply Rsqr_pos_lt. nz.
      * unfold Rsqr. field. nz.
    + replace (eval c p * eval c p * eval gam p * p 1%nat * (eval c p * eval c p * eval gam p * p 1%nat - 2 * eval G p * eval M p)) with
        ((1 - 2 * eval G p * eval M p / (eval c p * eval c p) / (eval gam p * p 1%nat)) * Rsqr (eval c p * eval c p * eval gam p * p 1%nat)).
      * apply Rmult_lt_0_compat; [exact H4|]. apply Rsqr_pos_lt. nz.
      * unfold Rsqr. field. nz.
  - apply open_and; [apply open_and; apply open_nz_; assumption|]. apply open_and; [apply (open_nz_ (X 1)); intros; exact I|].
    apply open_and; [apply open_pos_|apply (open_nz_ (ESin (X 2))); intros; exact I]. intros p. unfold Esq, X. cbn [wd]. nz.
Qed.
Lemma jw_rs_facts c G gam M p : param c -> param G -> param M -> jw_chart c G gam M p ->
  wd (jw_rs c G M) p /\ (forall k, (k < 4)%nat -> eval (ediff k (jw_rs c G M)) p = 0).
Proof.
  intros ? ? ? [[H1 H2] _]. pars. unfold jw_rs, Esq. split.
  - cbn [wd eval]. nz.
  - intros k Hk. cbn [eval ediff]. rwp. field. nz.
Qed.
Definition jw_T (c q gam : expr) (i j k : nat) : expr :=
  let r := X 1 in let th := X 2 in
  let z := ESub (EMul gam r) q in
  let h := EDiv (EMul q gam) (EMul (EConst 2) (EMul r z)) in
  let y := EAdd (EDiv E1 r) (EDiv (EMul (ESub E1 gam) q) (EMul (EConst 2) (EMul r z))) in
  let x := EOpp (EMul (Esq c) (ESub r (EDiv (EMul q (EAdd E1 gam)) (EMul (EConst 2) gam)))) in
  match i, j, k with
  | 0, 0, 1 | 0, 1, 0 => h
  | 1, 0, 0 => EMul (EMul (Esq c) h) (Esq (Erpow (jw_al q gam) gam))
  | 1, 1, 1 => EOpp h
  | 1, 2, 2 => x
  | 1, 3, 3 => EMul x (Esq (ESin th))
  | 2, 1, 2 | 2, 2, 1 | 3, 1, 3 | 3, 3, 1 => y
  | 2, 3, 3 => EOpp (EMul (ESin th) (ECos th))
  | 3, 2, 3 | 3, 3, 2 => EDiv (ECos th) (ESin th)
  | _, _, _ => E0
  end%nat.
Lemma jw_exp1 g a : exp (- g * ln a) = / exp (g * ln a).
Proof. rewrite <- exp_Ropp. f_equal. ring. Qed.
Lemma jw_exp2 g a : 0 < a -> exp ((- g + 1) * ln a) = a / exp (g * ln a).
Proof. intros H. replace ((- g + 1) * ln a) with (- g * ln a + ln a) by ring. rewrite exp_plus, exp_ln by exact H. rewrite jw_exp1. unfold Rdiv. ring. Qed.
Lemma jw_z g r q : g <> 0 -> r <> 0 -> 0 < 1 - q / (g * r) -> g * r - q <> 0.
Proof. intros Hg Hr H E. replace q with (g * r) in H by lra. replace (g * r / (g * r)) with 1 in H by (field; auto). lra. Qed.
Ltac jwu := unfold jw_0, jw_1, jw_3, jw_2, jw_al.
Lemma jw_table c G gam M : param c -> param G -> param gam -> param M ->
  table (jw_chart c G gam M) (JanisNewmanWinicour c G gam M)
    (dinv (jw_0 (jw_rs c G M) gam) (jw_1 c (jw_rs c G M) gam) (jw_2 (jw_rs c G M) gam) (jw_3 (jw_rs c G M) gam)) (jw_T c (jw_rs c G M) gam).
Proof.
  intros Pc PG Pg PM. rewrite jw_is. assert (O := jw_open c G gam M Pc PG Pg PM).
  assert (F : forall p, jw_chart c G gam M p -> (wd (jw_rs c G M) p /\ (forall k, (k < 4)%nat -> eval (ediff k (jw_rs c G M)) p = 0)) /\
     (eval c p <> 0 /\ eval gam p <> 0 /\ p 1%nat <> 0 /\ 0 < 1 - eval (jw_rs c G M) p / (eval gam p * p 1%nat) /\ sin (p 2%nat) <> 0)).
  { intros p Hp. split; [apply (jw_rs_facts c G gam M p); assumption|]. destruct Hp as [[? ?] [? [? ?]]]. auto. }
  clear PG PM. revert O F. generalize (jw_chart c G gam M) as U. generalize (jw_rs c G M) as q. intros q U O F. pars.
  apply (table_ext _ _ _ (dT (jw_0 q gam) (jw_1 c q gam) (jw_2 q gam) (jw_3 q gam))).
  - apply diag_table; [exact O|]. intros i p Hi Hp. destruct (F p Hp) as [[Wq Dq] [H1 [H2 [H3 [H4 H5]]]]].
    c4 i Hi; cbn [dsel]; jwu; unfold Erpow, Esq, X, E1; cbn [wd eval]; (split; [nz|]); unfold Rdiv in *; nz; apply Rinv_neq_0_compat; nz.
  - intros i j k p Hi Hj Hk Hp. destruct (F p Hp) as [[Wq Dq] [H1 [H2 [H3 [H4 H5]]]]]. assert (Z := jw_z _ _ _ H2 H3 H4).
    c4 i Hi; c4 j Hj; c4 k Hk; unfold jw_T; (split; [jwu; unfold Erpow, Esq, X, E0, E1; cbn [wd eval]; nz|]); dr; jwu; evc; rwp;
      rewrite ?jw_exp1, ?(jw_exp2 _ _ H4); try (unfold Rdiv; ring);
      set (P := exp (eval gam p * ln (1 - eval q p / (eval gam p * p 1%nat)))) in *; assert (P <> 0) by (apply Rgt_not_eq; apply exp_pos); clearbody P; field; nz.
Qed.
Lemma jw_ricci c G gam M s v p : param c -> param G -> param gam -> param M -> (s < 4)%nat -> (v < 4)%nat -> jw_chart c G gam M p ->
  rs4 (fun t => rT (jw_T c (jw_rs c G M) gam) t s t v p) =
  let q := eval (jw_rs c G M) p in let g := eval gam p in let r := p 1%nat in
  if (Nat.eqb s 1 && Nat.eqb v 1)%bool then (1 - g ^ 2) * q ^ 2 / (2 * r ^ 2 * (g * r - q) ^ 2)
  else if (Nat.eqb s 2 && Nat.eqb v 2)%bool then 1 - eval c p ^ 2
  else if (Nat.eqb s 3 && Nat.eqb v 3)%bool then (1 - eval c p ^ 2) * sin (p 2%nat) ^ 2 else 0.
Proof.
  intros Pc PG Pg PM Hs Hv Hp. destruct (jw_rs_facts c G gam M p Pc PG PM Hp) as [Wq Dq]. destruct Hp as [[H1 H2] [H3 [H4 H5]]]. clear PG PM.
  revert Wq Dq H4. generalize (jw_rs c G M) as q. intros q Wq Dq H4. pars. assert (Z := jw_z _ _ _ H2 H3 H4). assert (S := sc2 (p 2%nat)).
  assert (NA : 1 - eval q p / (eval gam p * p 1%nat) <> 0) by lra.
  c4 s Hs; c4 v Hv; unfold jw_T; jwu; evc; rwp; try (unfold Rdiv; ring);
  try (set (P := exp (eval gam p * ln (1 - eval q p / (eval gam p * p 1%nat)))) in *; assert (P <> 0) by (apply Rgt_not_eq; apply exp_pos); clearbody P); field [S]; nz.
Qed.
