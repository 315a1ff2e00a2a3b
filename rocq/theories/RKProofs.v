From Coq Require Import Reals List ZArith Lra Lia Bool FunctionalExtensionality.
From Coquelicot Require Import Coquelicot.
From Verif Require Import Base Calc RKModel.
Open Scope R_scope.

(** the direction computed by __init__ is 0 for every start and bound *)
Lemma direction_zero f t0 y0 tb h : rk_direction (rk4_init f t0 y0 tb h) = 0%Z.
Proof.
  unfold rk4_init; cbn [rk_direction]. unfold Rgeb, Rltb.
  destruct (Rle_dec t0 tb); destruct (Rlt_dec tb t0); cbn; try reflexivity; lra.
Qed.

Definition classical_rk4 (f : R -> Y -> Y) (h t : R) (y : Y) : Y :=
  let k1 := f t y in
  let k2 := f (t + h / 2) (fun i => y i + h / 2 * k1 i) in
  let k3 := f (t + h / 2) (fun i => y i + h / 2 * k2 i) in
  let k4 := f (t + h) (fun i => y i + h * k3 i) in
  fun i => y i + h / 6 * (k1 i + 2 * k2 i + 2 * k3 i + k4 i).

Lemma step_direction s : rk_direction (fst (rk4_step s)) = rk_direction s
  /\ rk_fun (fst (rk4_step s)) = rk_fun s /\ rk_h (fst (rk4_step s)) = rk_h s /\ rk_bound (fst (rk4_step s)) = rk_bound s.
Proof. unfold rk4_step. destruct (rk4_out_of_bounds s); repeat split. Qed.

Lemma step_accept s : rk_direction s = 0%Z ->
  snd (rk4_step s) = false /\ rk_t (fst (rk4_step s)) = rk_t s + rk_h s
  /\ rk_y (fst (rk4_step s)) = classical_rk4 (rk_fun s) (rk_h s) (rk_t s) (rk_y s).
Proof.
  intros H. unfold rk4_step, rk4_out_of_bounds. rewrite H. rewrite !andb_false_r. cbn. repeat split.
Qed.

(** number of classical steps from (t0,y0) *)
Fixpoint rk4_iter (f : R -> Y -> Y) (h : R) (n : nat) (t0 : R) (y0 : Y) : Y :=
  match n with O => y0 | S n => rk4_iter f h n (t0 + h) (classical_rk4 f h t0 y0) end.

Lemma steps_accept n : forall s, rk_direction s = 0%Z ->
  rk_t (rk4_steps n s) = rk_t s + INR n * rk_h s
  /\ rk_y (rk4_steps n s) = rk4_iter (rk_fun s) (rk_h s) n (rk_t s) (rk_y s).
Proof.
  induction n as [|n IH]; intros s H.
  - cbn. split; [ring|reflexivity].
  - cbn [rk4_steps rk4_iter]. destruct (step_direction s) as (Hd & Hf & Hh & Hb).
    destruct (step_accept s H) as (_ & Ht & Hy).
    destruct (IH (fst (rk4_step s))) as (IHt & IHy); [rewrite Hd; exact H|].
    rewrite IHt, IHy, Ht, Hy, Hf, Hh. split; [rewrite S_INR; ring|reflexivity].
Qed.

(** C16 / C17: after n calls of step() *)
Lemma rk4_history f t0 y0 tb h n :
  rk_t (rk4_steps n (rk4_init f t0 y0 tb h)) = t0 + INR n * h
  /\ rk_y (rk4_steps n (rk4_init f t0 y0 tb h)) = rk4_iter f h n t0 y0.
Proof. destruct (steps_accept n (rk4_init f t0 y0 tb h) (direction_zero f t0 y0 tb h)) as [A B]. split; assumption. Qed.

Lemma rk4_never_stops f t0 y0 tb h n :
  snd (rk4_step (rk4_steps n (rk4_init f t0 y0 tb h))) = false.
Proof.
  apply step_accept. generalize (direction_zero f t0 y0 tb h). generalize (rk4_init f t0 y0 tb h).
  induction n as [|n IH]; intros s H; [exact H|]. cbn [rk4_steps]. apply IH.
  destruct (step_direction s) as (Hd & _). rewrite Hd. exact H.
Qed.

Lemma rk4_bound_refuted :
  exists f t0 y0 tb h, let s := rk4_init f t0 y0 tb h in
    t0 >= tb /\ tb < t0 + h /\ rk_t (fst (rk4_step s)) <> rk_t s /\ snd (rk4_step s) = false
    /\ rk_t (rk4_steps 1000 s) = 1000.
Proof.
  exists (fun _ _ _ => 0), 0, (fun _ => 0), 0, 1. cbv zeta.
  split; [lra|]. split; [lra|]. split; [|split].
  - destruct (step_accept _ (direction_zero (fun _ _ _ => 0) 0 (fun _ => 0) 0 1)) as (_ & -> & _). cbn. lra.
  - apply step_accept. apply direction_zero.
  - rewrite (proj1 (rk4_history _ _ _ _ _ _)). rewrite INR_IZR_INZ. cbn. ring.
Qed.

Lemma nat_above (x : R) : exists n : nat, x < INR n.
Proof.
  exists (Z.to_nat (up x)). destruct (archimed x) as [H _].
  destruct (Z_le_gt_dec 0 (up x)) as [L|L].
  - rewrite INR_IZR_INZ, Z2Nat.id by assumption. lra.
  - assert (IZR (up x) < 0) by (apply IZR_lt; lia). assert (0 <= INR (Z.to_nat (up x))) by apply pos_INR. lra.
Qed.

(** the bound is overshot by an arbitrary amount, for every right-hand side *)
Lemma rk4_overshoots f t0 y0 tb h T : 0 < h -> exists n, rk_t (rk4_steps n (rk4_init f t0 y0 tb h)) > T.
Proof.
  intros Hh. destruct (nat_above ((T - t0) / h)) as [n Hn]. exists n.
  rewrite (proj1 (rk4_history _ _ _ _ _ _)).
  assert (T - t0 < INR n * h); [|lra].
  apply Rmult_lt_reg_r with (/ h). apply Rinv_0_lt_compat; exact Hh.
  rewrite Rmult_assoc, Rinv_r by lra. rewrite Rmult_1_r. exact Hn.
Qed.

(** ** exactness: quadrature of cubics *)
Lemma rk4_quadrature (c0 c1 c2 c3 : Y) t0 y0 h n :
  let f := fun (t : R) (_ : Y) (i : nat) => c0 i + c1 i * t + c2 i * t ^ 2 + c3 i * t ^ 3 in
  let F := fun (t : R) (i : nat) => c0 i * t + c1 i * t ^ 2 / 2 + c2 i * t ^ 3 / 3 + c3 i * t ^ 4 / 4 in
  forall i, rk4_iter f h n t0 y0 i = y0 i + (F (t0 + INR n * h) i - F t0 i).
Proof.
  intros f F i. revert t0 y0. induction n as [|n IH]; intros t0 y0.
  - cbn [rk4_iter INR]. replace (t0 + 0 * h) with t0 by ring. ring.
  - cbn [rk4_iter]. rewrite IH. replace (t0 + h + INR n * h) with (t0 + INR (S n) * h) by (rewrite S_INR; ring).
    unfold classical_rk4, f, F. field.
Qed.

(** the antiderivative used above really is one *)
Lemma cubic_antiderivative (c0 c1 c2 c3 t : R) :
  is_derive (fun t : R => c0 * t + c1 * t ^ 2 / 2 + c2 * t ^ 3 / 3 + c3 * t ^ 4 / 4) t (c0 + c1 * t + c2 * t ^ 2 + c3 * t ^ 3).
Proof. auto_derive; [exact Logic.I|]. field. Qed.

(** ** linear systems y' = A y for any linear operator A *)
Definition linear (A : Y -> Y) : Prop :=
  (forall u v, A (yadd u v) = yadd (A u) (A v)) /\ (forall k u, A (yscal k u) = yscal k (A u)).

Definition taylor4 (A : Y -> Y) (h : R) (y : Y) : Y :=
  fun i => y i + h * A y i + h ^ 2 / 2 * A (A y) i + h ^ 3 / 6 * A (A (A y)) i + h ^ 4 / 24 * A (A (A (A y))) i.

Lemma rk4_linear A h t y : linear A -> classical_rk4 (fun _ => A) h t y = taylor4 A h y.
Proof.
  intros [Hadd Hscal]. unfold classical_rk4, taylor4.
  assert (E : forall k u, A (fun i => u i + k * A u i) = fun i => A u i + k * A (A u) i).
  { intros k u. change (fun i => u i + k * A u i) with (yadd u (yscal k (A u))). rewrite Hadd, Hscal. reflexivity. }
  assert (E2 : forall k u v, A (fun i => u i + k * v i) = fun i => A u i + k * A v i).
  { intros k u v. change (fun i => u i + k * v i) with (yadd u (yscal k v)). rewrite Hadd, Hscal. reflexivity. }
  apply functional_extensionality; intros i.
  rewrite !E2. field.
Qed.

Lemma iter_shift {A} (f : A -> A) n x : Nat.iter n f (f x) = f (Nat.iter n f x).
Proof. induction n as [|n IH]; [reflexivity|]. cbn [Nat.iter nat_rect]. f_equal. exact IH. Qed.
Lemma linear_iter A h n t y : linear A -> rk4_iter (fun _ => A) h n t y = Nat.iter n (taylor4 A h) y.
Proof.
  intros H. revert t y. induction n as [|n IH]; intros t y; [reflexivity|].
  cbn [rk4_iter]. rewrite IH, rk4_linear by assumption.
  apply iter_shift.
Qed.

Lemma rk4_exponential lam h n t y i :
  rk4_iter (fun _ u j => lam * u j) h n t y i
  = (1 + h * lam + (h * lam) ^ 2 / 2 + (h * lam) ^ 3 / 6 + (h * lam) ^ 4 / 24) ^ n * y i.
Proof.
  change (fun (_ : R) (u : Y) j => lam * u j) with (fun (_ : R) => yscal lam).
  rewrite linear_iter.
  - induction n as [|n IH]; [cbn; ring|].
    change (Nat.iter (S n) (taylor4 (yscal lam) h) y) with (taylor4 (yscal lam) h (Nat.iter n (taylor4 (yscal lam) h) y)).
    set (u := Nat.iter n (taylor4 (yscal lam) h) y) in *. cbn [pow] in *. unfold taylor4, yscal. rewrite IH. field.
  - split; intros; apply functional_extensionality; intros j; unfold yscal, yadd; ring.
Qed.

(** ** C18 *)
Lemma rk45_done H (impl : solver H -> impl_result H) s : sv_status s <> Running ->
  forall n, rk45_step impl (rk45_steps impl n s) = (s, Warned).
Proof.
  intros Hs n. assert (E : rk45_step impl s = (s, Warned)).
  { unfold rk45_step, scipy_step. destruct (sv_status s); [congruence|reflexivity|reflexivity]. }
  assert (E2 : rk45_steps impl n s = s).
  { induction n as [|n IH]; [reflexivity|]. cbn [rk45_steps]. rewrite E. exact IH. }
  rewrite E2. exact E.
Qed.

(** RuntimeError never escapes; any other exception of the right-hand side does, unchanged *)
Lemma rk45_never_runtime_error H (impl : solver H -> impl_result H) s : snd (rk45_step impl s) <> Escaped RuntimeError.
Proof. unfold rk45_step. destruct (scipy_step impl s) as [s' [[]|]]; cbn; discriminate. Qed.

Lemma rk45_escapes_only_rhs H (impl : solver H -> impl_result H) s e : snd (rk45_step impl s) = Escaped e ->
  sv_status s = Running /\ exists t y h, impl s = ImplRaise t y h e.
Proof.
  unfold rk45_step, scipy_step. destruct (sv_status s); [|discriminate|discriminate].
  destruct (Nat.eqb (sv_n s) 0 || _)%bool; [discriminate|].
  destruct (impl s) as [t y h|h|t y h e0]; try discriminate.
  intros E. split; [reflexivity|]. exists t, y, h. destruct e0; cbn in E; congruence.
Qed.

(** a warning is given only for a stopped solver or a RuntimeError raised by the right-hand side *)
Lemma rk45_warns_iff H (impl : solver H -> impl_result H) s : snd (rk45_step impl s) = Warned <->
  sv_status s <> Running \/ (sv_status s = Running /\ sv_n s <> 0%nat /\ sv_t s <> sv_bound s
     /\ exists t y h, impl s = ImplRaise t y h RuntimeError).
Proof.
  unfold rk45_step, scipy_step. destruct (sv_status s) eqn:Es.
  - destruct (Nat.eqb_spec (sv_n s) 0); cbn [orb].
    { cbn. split; [discriminate|]. intros [X|(_ & X & _)]; congruence. }
    destruct (Req_EM_T (sv_t s) (sv_bound s)).
    { cbn. split; [discriminate|]. intros [X|(_ & _ & X & _)]; congruence. }
    destruct (impl s) as [t y h|h|t y h e0] eqn:Ei.
    + split; [discriminate|]. intros [X|(_ & _ & _ & t' & y' & h' & X)]; congruence.
    + split; [discriminate|]. intros [X|(_ & _ & _ & t' & y' & h' & X)]; congruence.
    + split.
      * intros E. right. repeat split; auto. exists t, y, h. destruct e0; cbn in E; congruence.
      * intros [X|(_ & _ & _ & t' & y' & h' & X)]; [congruence|]. injection X as -> -> -> ->. reflexivity.
  - split; [intros _; left; discriminate|reflexivity].
  - split; [intros _; left; discriminate|reflexivity].
Qed.

Lemma rk45_defaults t0 tb h fl rtol atol :
  let a := rk45_init t0 tb h rtol atol fl in
  a_t0 a = t0 /\ a_bound a = tb /\ a_first a = 8 / 10 * h /\ a_max a = 8 * h
  /\ (rtol = None -> a_rtol a = 2 / 10 * h) /\ (forall x, rtol = Some x -> a_rtol a = x)
  /\ (atol = None -> a_atol a = a_rtol a / 800) /\ (forall x, atol = Some x -> a_atol a = x)
  /\ (a_vectorized a = true <-> fl = false).
Proof.
  cbv zeta. destruct rtol, atol, fl; cbn; repeat split; intros; try congruence.
Qed.
