From Coq Require Import Reals List ZArith Lra Lia Bool.
From Coquelicot Require Import Coquelicot.
From Verif Require Import Base Calc DualModel DualSpec DualProofs GeoUtilsModel GeoUtilsSpec GeoUtilsProofs
  FantasyModel FantasyProofs.
Import ListNotations.
Open Scope R_scope.

(** ** C11: cyclic coordinates *)
Fixpoint mentions (k : nat) (e : pexpr) : bool :=
  match e with
  | EVar i => Nat.eqb i k
  | EConst _ => false
  | EAdd a b | ESub a b | EMul a b | EDiv a b => mentions k a || mentions k b
  | ENeg a | EPow a _ | EPowR a _ | ESin a | ECos a | ETan a | ELog a | EExp a => mentions k a
  end.

Lemma d_truediv_zero s o q : deriv s = 0 -> pderiv o = 0 -> d_truediv s o = Ok q -> deriv q = 0.
Proof.
  intros Hs Ho H. destruct o as [y|o]; simpl in *.
  - unfold fdiv in H. destruct (Req_EM_T y 0); simpl in H; [discriminate|]. apply Ok_inj in H. subst q. simpl.
    rewrite Hs. field; assumption.
  - rewrite Hs, Ho in H. unfold fdiv in H.
    repeat (match type of H with context [Req_EM_T ?a ?b] => destruct (Req_EM_T a b) end; simpl in H; try discriminate);
    apply Ok_inj in H; subst q; simpl; field; auto.
Qed.

Lemma run_no_deriv k e : forall env v, (forall i, i <> k -> pderiv (env i) = 0) -> mentions k e = false ->
  runP env e = Ok v -> pderiv v = 0.
Proof.
  induction e as [i|c|a IHa b IHb|a IHa b IHb|a IHa b IHb|a IHa b IHb|a IHa|a IHa n|a IHa p
                 |a IHa|a IHa|a IHa|a IHa|a IHa]; intros env v Henv Hm H; cbn [mentions runP] in *.
  - apply Ok_inj in H. subst. apply Henv. apply Nat.eqb_neq. exact Hm.
  - apply Ok_inj in H. subst. reflexivity.
  - apply orb_false_iff in Hm. destruct Hm. apply bindR_Ok in H. destruct H as (u & Hu & H).
    apply bindR_Ok in H. destruct H as (w & Hw & H).
    destruct (py_add_spec u w) as (z & Hz & _ & D). rewrite Hz in H. apply Ok_inj in H. subst.
    rewrite D, (IHa env u), (IHb env w) by assumption. ring.
  - apply orb_false_iff in Hm. destruct Hm. apply bindR_Ok in H. destruct H as (u & Hu & H).
    apply bindR_Ok in H. destruct H as (w & Hw & H).
    destruct (py_sub_spec u w) as (z & Hz & _ & D). rewrite Hz in H. apply Ok_inj in H. subst.
    rewrite D, (IHa env u), (IHb env w) by assumption. ring.
  - apply orb_false_iff in Hm. destruct Hm. apply bindR_Ok in H. destruct H as (u & Hu & H).
    apply bindR_Ok in H. destruct H as (w & Hw & H).
    destruct (py_mul_spec u w) as (z & Hz & _ & D). rewrite Hz in H. apply Ok_inj in H. subst.
    rewrite D, (IHa env u), (IHb env w) by assumption. ring.
  - apply orb_false_iff in Hm. destruct Hm as [Ma Mb]. apply bindR_Ok in H. destruct H as (u & Hu & H).
    apply bindR_Ok in H. destruct H as (w & Hw & H).
    assert (Du := IHa env u Henv Ma Hu). assert (Dw := IHb env w Henv Mb Hw).
    destruct u as [x|d], w as [y|d']; cbn [py_div d_rtruediv mapR] in H.
    + destruct (fdiv x y); simpl in H; [|discriminate]. apply Ok_inj in H. subst; reflexivity.
    + destruct (d_truediv (mkdual x 0) (PD d')) as [q|] eqn:E; cbn [mapR] in H; [|discriminate].
      apply Ok_inj in H. subst v. exact (d_truediv_zero (mkdual x 0) (PD d') q eq_refl Dw E).
    + destruct (d_truediv d (PF y)) as [q|] eqn:E; cbn [mapR] in H; [|discriminate].
      apply Ok_inj in H. subst v. exact (d_truediv_zero _ _ _ Du Dw E).
    + destruct (d_truediv d (PD d')) as [q|] eqn:E; cbn [mapR] in H; [|discriminate].
      apply Ok_inj in H. subst v. exact (d_truediv_zero _ _ _ Du Dw E).
  - apply bindR_Ok in H. destruct H as (u & Hu & H). apply Ok_inj in H. subst.
    assert (D := IHa env u Henv Hm Hu). destruct u; simpl in *; lra.
  - apply bindR_Ok in H. destruct H as (u & Hu & H).
    assert (D := IHa env u Henv Hm Hu). destruct u as [x|d]; simpl in *.
    + destruct (fpowZ x n); simpl in H; [|discriminate]. apply Ok_inj in H. subst; reflexivity.
    + unfold d_powZ in H. destruct (fpowZ (val d) n); simpl in H; [|discriminate].
      destruct (fpowZ (val d) (n - 1)); simpl in H; [|discriminate]. apply Ok_inj in H. subst. simpl. rewrite D. ring.
  - apply bindR_Ok in H. destruct H as (u & Hu & H).
    assert (D := IHa env u Henv Hm Hu). destruct u as [x|d]; simpl in *.
    + destruct (fpowR x p); simpl in H; [|discriminate]. apply Ok_inj in H. subst; reflexivity.
    + unfold d_powR in H. destruct (fpowR (val d) p); simpl in H; [|discriminate].
      destruct (fpowR (val d) (p - 1)); simpl in H; [|discriminate]. apply Ok_inj in H. subst. simpl. rewrite D. ring.
  - apply bindR_Ok in H. destruct H as (u & Hu & H). apply Ok_inj in H. subst.
    assert (D := IHa env u Henv Hm Hu). destruct u; simpl in *; rewrite ?D; ring.
  - apply bindR_Ok in H. destruct H as (u & Hu & H). apply Ok_inj in H. subst.
    assert (D := IHa env u Henv Hm Hu). destruct u; simpl in *; rewrite ?D; ring.
  - apply bindR_Ok in H. destruct H as (u & Hu & H).
    assert (D := IHa env u Henv Hm Hu). destruct u as [x|d]; cbn [py_tan] in H.
    + destruct (fdiv (sin x) (cos x)); simpl in H; [|discriminate]. apply Ok_inj in H. subst; reflexivity.
    + unfold d_tan in H. destruct (d_truediv (d_sin d) (PD (d_cos d))) as [q|] eqn:E; cbn [mapR] in H; [|discriminate].
      apply Ok_inj in H. subst v. simpl in D.
      refine (d_truediv_zero _ _ _ _ _ E); simpl; rewrite D; ring.
  - apply bindR_Ok in H. destruct H as (u & Hu & H).
    assert (D := IHa env u Henv Hm Hu). destruct u as [x|d]; simpl in *.
    + destruct (flog x); simpl in H; [|discriminate]. apply Ok_inj in H. subst; reflexivity.
    + unfold d_log in H. destruct (flog (val d)); simpl in H; [|discriminate].
      unfold fdiv in H. destruct (Req_EM_T (val d) 0); simpl in H; [discriminate|]. apply Ok_inj in H. subst. simpl.
      rewrite D. field; assumption.
  - apply bindR_Ok in H. destruct H as (u & Hu & H). apply Ok_inj in H. subst.
    assert (D := IHa env u Henv Hm Hu). destruct u; simpl in *; rewrite ?D; ring.
Qed.

Definition independent_of (g : metricP) (k : nat) : Prop :=
  forall i j, (i < 4)%nat -> (j < 4)%nat -> mentions k (mnth g i j) = false.

Lemma q4seq_Ok {A} (v : Q4 (Res A)) w : q4seq v = Ok w ->
  forall i, (i < 4)%nat -> q4nth v i = Ok (q4nth w i).
Proof.
  intros H. unfold q4seq in H.
  apply bindR_Ok in H. destruct H as (a & Ha & H). apply bindR_Ok in H. destruct H as (b & Hb & H).
  apply bindR_Ok in H. destruct H as (c & Hc & H). apply bindR_Ok in H. destruct H as (d & Hd & H).
  apply Ok_inj in H. subst w. apply q4_cases; assumption.
Qed.

Lemma q4nth_map {A B} (f : A -> B) v i : (i < 4)%nat -> q4nth (q4map f v) i = f (q4nth v i).
Proof. revert i; apply q4_cases; reflexivity. Qed.

Lemma run_metric_entries g env m : run_metric g env = Ok m ->
  forall i j, (i < 4)%nat -> (j < 4)%nat -> runP env (mnth g i j) = Ok (mnth m i j).
Proof.
  intros H i j Hi Hj. unfold run_metric in H.
  assert (Hr := q4seq_Ok _ _ H i Hi). rewrite q4nth_map in Hr by assumption.
  assert (He := q4seq_Ok _ _ Hr j Hj). rewrite q4nth_map in He by assumption. exact He.
Qed.

Lemma jacobian_entries g q k J : jacobian_g g q k = Ok J ->
  forall i j, (i < 4)%nat -> (j < 4)%nat ->
    exists m, run_metric g (dual_coords q (Z.to_nat k)) = Ok m
     /\ mnth J i j = pderiv (mnth m (Nat.min i j) (Nat.max i j)).
Proof.
  intros H i j Hi Hj. unfold jacobian_g in H. apply bindR_Ok in H. destruct H as (U & HU & H).
  apply Ok_inj in H. subst J. unfold jac_upper in HU.
  assert (HUe : forall a b, (a <= b)%nat -> (b < 4)%nat ->
     exists m, run_metric g (dual_coords q (Z.to_nat k)) = Ok m /\ mnth U a b = pderiv (mnth m a b)).
  { intros a b Hab Hb. assert (Hr := q4seq_Ok _ _ HU a ltac:(lia)). rewrite q4nth_tab in Hr by lia.
    assert (He := q4seq_Ok _ _ Hr b Hb). rewrite q4nth_tab in He by lia.
    rewrite (proj2 (Nat.leb_le a b) Hab) in He. unfold diff_g in He.
    destruct (negb _); [discriminate|]. apply bindR_Ok in He. destruct He as (m & Hm & He).
    exists m. split; [exact Hm|]. destruct (_ && _); [|discriminate]. apply Ok_inj in He. symmetry; exact He. }
  assert (HU0 : forall a b, (b < a)%nat -> (a < 4)%nat -> mnth U a b = 0).
  { intros a b Hab Ha. assert (Hr := q4seq_Ok _ _ HU a ltac:(lia)). rewrite q4nth_tab in Hr by lia.
    assert (He := q4seq_Ok _ _ Hr b ltac:(lia)). rewrite q4nth_tab in He by lia.
    destruct (Nat.leb_spec a b); [lia|]. apply Ok_inj in He. symmetry; exact He. }
  rewrite mnth_tab by assumption.
  destruct (Nat.lt_trichotomy i j) as [L|[->|L]].
  - destruct (HUe i j ltac:(lia) Hj) as (m & Hm & E). exists m. split; [exact Hm|].
    rewrite Nat.min_l, Nat.max_r by lia. rewrite (HU0 j i) by lia. rewrite (proj2 (Nat.eqb_neq i j)) by lia.
    rewrite E. ring.
  - destruct (HUe j j ltac:(lia) Hj) as (m & Hm & E). exists m. split; [exact Hm|].
    rewrite Nat.min_id, Nat.max_id, Nat.eqb_refl, E. ring.
  - destruct (HUe j i ltac:(lia) Hi) as (m & Hm & E). exists m. split; [exact Hm|].
    rewrite Nat.min_r, Nat.max_l by lia. rewrite (HU0 i j) by lia. rewrite (proj2 (Nat.eqb_neq i j)) by lia.
    rewrite E. ring.
Qed.

Lemma jac_cyclic g k q J : (k < 4)%nat -> independent_of g k -> gjac (metricfun_of g) q k = Ok J ->
  forall i j, (i < 4)%nat -> (j < 4)%nat -> mnth J i j = 0.
Proof.
  intros Hk Hind H i j Hi Hj. simpl in H.
  destruct (jacobian_entries _ _ _ _ H i j Hi Hj) as (m & Hm & ->). rewrite Nat2Z.id in Hm.
  assert (Hij : (Nat.min i j < 4)%nat /\ (Nat.max i j < 4)%nat) by lia. destruct Hij as [H1 H2].
  apply (run_no_deriv k (mnth g (Nat.min i j) (Nat.max i j)) (dual_coords q k)).
  - intros a Ha. unfold dual_coords; simpl. rewrite (proj2 (Nat.eqb_neq a k) Ha). reflexivity.
  - apply Hind; assumption.
  - apply run_metric_entries; assumption.
Qed.

(** abstract statement *)
Definition cyclic (G : metricfun) (k : nat) : Prop :=
  forall q J p, gjac G q k = Ok J -> dot (mv J p) p = 0.
Lemma zero_mat_quad J : (forall i j, (i < 4)%nat -> (j < 4)%nat -> mnth J i j = 0) -> forall p, dot (mv J p) p = 0.
Proof.
  intros H p.
  assert (E : J = mtab (fun _ _ => 0)).
  { apply Q4_eq; apply Q4_eq; (apply (H 0 0)%nat || apply (H 0 1)%nat || apply (H 0 2)%nat || apply (H 0 3)%nat
   || apply (H 1 0)%nat || apply (H 1 1)%nat || apply (H 1 2)%nat || apply (H 1 3)%nat
   || apply (H 2 0)%nat || apply (H 2 1)%nat || apply (H 2 2)%nat || apply (H 2 3)%nat
   || apply (H 3 0)%nat || apply (H 3 1)%nat || apply (H 3 2)%nat || apply (H 3 3)%nat); lia. }
  subst J. unfold mv, dot, mtab, q4tab, q4map; cbn [c0 c1 c2 c3]. ring.
Qed.
Lemma independent_cyclic g k : (k < 4)%nat -> independent_of g k -> cyclic (metricfun_of g) k.
Proof. intros Hk Hi q J p HJ. apply zero_mat_quad. exact (jac_cyclic g k q J Hk Hi HJ). Qed.

Definition total_momentum (k : nat) (s : state) : R := q4nth (p1 s) k + q4nth (p2 s) k.

Lemma ham_grad_cyclic G k q p d : (k < 4)%nat -> cyclic G k -> ham_grad G q p = Ok d -> q4nth d k = 0.
Proof.
  intros Hk Hc H. unfold ham_grad in H. assert (E := q4seq_Ok _ _ H k Hk). rewrite q4nth_tab in E by assumption.
  unfold part_ham_flow in E. destruct (gjac G q k) as [J|] eqn:EJ; simpl in E; [|discriminate].
  apply Ok_inj in E. rewrite <- E, (Hc q J p EJ). ring.
Qed.
Lemma vsub_nth v w k : (k < 4)%nat -> q4nth (vsub v w) k = q4nth v k - q4nth w k.
Proof. revert k; apply q4_cases; reflexivity. Qed.
Lemma vadd_nth v w k : (k < 4)%nat -> q4nth (vadd v w) k = q4nth v k + q4nth w k.
Proof. revert k; apply q4_cases; reflexivity. Qed.
Lemma vscal_nth x v k : (k < 4)%nat -> q4nth (vscal x v) k = x * q4nth v k.
Proof. revert k; apply q4_cases; reflexivity. Qed.

Lemma apply_A_momentum G k d s s' : (k < 4)%nat -> cyclic G k -> apply_A G d s = Ok s' ->
  total_momentum k s' = total_momentum k s.
Proof.
  intros Hk Hc H. unfold apply_A, flow_A in H.
  apply bindR_Ok in H. destruct H as (qp & H & E). apply Ok_inj in E. subst s'.
  apply bindR_Ok in H. destruct H as (dp & Hd & H).
  apply bindR_Ok in H. destruct H as (g & Hg & H). apply Ok_inj in H. subst qp.
  unfold total_momentum, p1, p2 in *. cbn [c1 c3 fst snd].
  rewrite vsub_nth, vscal_nth, (ham_grad_cyclic _ _ _ _ _ Hk Hc Hd) by assumption. ring.
Qed.
Lemma apply_B_momentum G k d s s' : (k < 4)%nat -> cyclic G k -> apply_B G d s = Ok s' ->
  total_momentum k s' = total_momentum k s.
Proof.
  intros Hk Hc H. unfold apply_B, flow_B in H.
  apply bindR_Ok in H. destruct H as (qp & H & E). apply Ok_inj in E. subst s'.
  apply bindR_Ok in H. destruct H as (dp & Hd & H).
  apply bindR_Ok in H. destruct H as (g & Hg & H). apply Ok_inj in H. subst qp.
  unfold total_momentum, p1, p2 in *. cbn [c1 c3 fst snd].
  rewrite vsub_nth, vscal_nth, (ham_grad_cyclic _ _ _ _ _ Hk Hc Hd) by assumption. ring.
Qed.
Lemma mixed_momentum k d w s : (k < 4)%nat -> total_momentum k (flow_mixed s d w) = total_momentum k s.
Proof.
  intros Hk. unfold total_momentum. rewrite <- !vadd_nth by assumption.
  destruct (mixed_sum s d w) as [_ ->]. reflexivity.
Qed.
Lemma ord_2_momentum G w k d s s' : (k < 4)%nat -> cyclic G k -> ord_2 G w d s = Ok s' ->
  total_momentum k s' = total_momentum k s.
Proof.
  intros Hk Hc H. unfold ord_2 in H.
  apply bindR_Ok in H. destruct H as (a & Ha & H). apply bindR_Ok in H. destruct H as (b & Hb & H).
  apply bindR_Ok in H. destruct H as (c & Hc' & H).
  rewrite (apply_A_momentum _ _ _ _ _ Hk Hc H), (apply_B_momentum _ _ _ _ _ Hk Hc Hc'), mixed_momentum by assumption.
  rewrite (apply_B_momentum _ _ _ _ _ Hk Hc Hb), (apply_A_momentum _ _ _ _ _ Hk Hc Ha). reflexivity.
Qed.
Lemma substeps_momentum G w k ws d : (k < 4)%nat -> cyclic G k -> forall s s',
  run_substeps G w ws d s = Ok s' -> total_momentum k s' = total_momentum k s.
Proof.
  intros Hk Hc. induction ws as [|z ws IH]; intros s s' H; simpl in H.
  - apply Ok_inj in H. subst; reflexivity.
  - apply bindR_Ok in H. destruct H as (s1 & H1 & H). rewrite (IH _ _ H). exact (ord_2_momentum _ _ _ _ _ _ Hk Hc H1).
Qed.
Lemma integrator_momentum order G w f k d s s' : (k < 4)%nat -> cyclic G k -> integrator_of order G w = Ok f ->
  f d s = Ok s' -> total_momentum k s' = total_momentum k s.
Proof.
  intros Hk Hc Hf H. rewrite (order_is_weights _ _ _ _ Hf) in H. exact (substeps_momentum _ _ _ _ _ Hk Hc _ _ H).
Qed.

(** ** Sequences of step() calls *)
Fixpoint steps (strict : bool) (n : nat) (I : integ) : integ :=
  match n with O => I | S n => steps strict n (fst (step strict I)) end.

Lemma step_params strict I : let I' := fst (step strict I) in
  i_metric I' = i_metric I /\ i_delta I' = i_delta I /\ i_omega I' = i_omega I /\ i_order I' = i_order I
  /\ i_rtol I' = i_rtol I /\ i_atol I' = i_atol I /\ i_time_like I' = i_time_like I /\ i_suppress I' = i_suppress I.
Proof.
  unfold step. destruct (integrator_of _ _ _); [|repeat split].
  destruct (a _ _); [|repeat split]. destruct (_ && strict); repeat split.
Qed.

Lemma steps_momentum strict k n I : (k < 4)%nat -> cyclic (i_metric I) k ->
  total_momentum k (i_res (steps strict n I)) = total_momentum k (i_res I).
Proof.
  revert I. induction n as [|n IH]; intros I Hk Hc; [reflexivity|]. cbn [steps].
  destruct (step_params strict I) as (E1 & _). rewrite IH; [|assumption|rewrite E1; assumption].
  unfold step. destruct (integrator_of _ _ _) as [f|] eqn:Ef; [|reflexivity].
  destruct (f (i_delta I) (i_res I)) as [arr|] eqn:Ea; [|reflexivity].
  assert (E := integrator_momentum _ _ _ _ _ _ _ _ Hk Hc Ef Ea).
  destruct (_ && strict); simpl; exact E.
Qed.

Lemma builtin_independent :
  (forall k, k = 0%nat \/ k = 3%nat -> independent_of schE k)
  /\ (forall a k, k = 0%nat \/ k = 3%nat -> independent_of (kerrE a) k)
  /\ (forall a Q k, k = 0%nat \/ k = 3%nat -> independent_of (kerrnewmanE a Q) k).
Proof.
  repeat split; intros; intros i j Hi Hj;
    (destruct H as [->| ->]; revert i Hi; apply q4_cases; revert j Hj; apply q4_cases; reflexivity).
Qed.

(** ** C14: bookkeeping *)
Definition next (I : integ) (s : state) : Res state :=
  let* f := integrator_of (i_order I) (i_metric I) (i_omega I) in f (i_delta I) s.

Lemma step_ok I arr : next I (i_res I) = Ok arr ->
  exists b, step false I = (mkinteg (i_metric I) (i_delta I) (i_omega I) (i_order I) (i_rtol I) (i_atol I) (i_time_like I)
                  (i_suppress I) (S (i_step_num I)) arr (i_results I ++ [arr]), Done b)
   /\ b = negb (i_suppress I) && unstable I arr.
Proof.
  unfold next, step. intros H. destruct (integrator_of _ _ _) as [f|]; simpl in H; [|discriminate].
  rewrite H. rewrite andb_false_r. eexists; split; reflexivity.
Qed.
Lemma step_err strict I e : next I (i_res I) = Err e -> step strict I = (I, Raised e).
Proof.
  unfold next, step. intros H. destruct (integrator_of _ _ _) as [f|]; simpl in H.
  - rewrite H. reflexivity.
  - inversion H. reflexivity.
Qed.
Lemma next_step I I' : i_metric I' = i_metric I -> i_delta I' = i_delta I -> i_omega I' = i_omega I ->
  i_order I' = i_order I -> forall s, next I' s = next I s.
Proof. intros E1 E2 E3 E4 s. unfold next. rewrite E1, E2, E3, E4. reflexivity. Qed.

(** a chain of states each obtained from the previous one *)
Inductive chain (f : state -> Res state) : state -> list state -> Prop :=
| chain_nil s : chain f s []
| chain_cons s s' l : f s = Ok s' -> chain f s' l -> chain f s (s' :: l).

Lemma chain_ext f g s l : (forall x, f x = g x) -> chain f s l -> chain g s l.
Proof. intros H C; induction C; constructor; [rewrite <- H|]; assumption. Qed.

Lemma steps_history n : forall I,
  exists l, i_results (steps false n I) = i_results I ++ l
    /\ i_step_num (steps false n I) = (i_step_num I + length l)%nat
    /\ chain (next I) (i_res I) l
    /\ i_res (steps false n I) = last l (i_res I)
    /\ (length l <= n)%nat
    /\ ((length l < n)%nat -> exists e, next I (last l (i_res I)) = Err e).
Proof.
  induction n as [|n IH]; intros I; cbn [steps].
  - exists []. rewrite app_nil_r. simpl. repeat split; try constructor; try lia.
  - destruct (next I (i_res I)) as [arr|e] eqn:E.
    + destruct (step_ok I arr E) as (b & Hs & _). rewrite Hs. cbn [fst].
      match goal with |- context [steps false n ?J] => set (I' := J) end.
      destruct (IH I') as (l & H1 & H2 & H3 & H4 & H5 & H6).
      assert (Hn : forall s, next I' s = next I s) by (apply next_step; reflexivity).
      exists (arr :: l). rewrite H1, H2, H4. cbn [i_results i_step_num i_res I'].
      rewrite <- app_assoc. cbn [length].
      assert (HL : last (arr :: l) (i_res I) = last l arr).
      { clear. revert arr. induction l as [|x l IHl]; intros arr; [reflexivity|].
        change (last (arr :: x :: l) (i_res I)) with (last (x :: l) (i_res I)). rewrite IHl.
        destruct l; reflexivity || (simpl; clear; revert s; induction l; intros; simpl; auto). }
      rewrite HL. repeat split; try reflexivity; try lia.
      * constructor; [exact E|]. eapply chain_ext; [|exact H3]. exact Hn.
      * intros Hlt. destruct H6 as (e & He); [lia|]. exists e. rewrite <- Hn. exact He.
    + rewrite (step_err false I e E). cbn [fst].
      assert (Hst : forall m, steps false m I = I).
      { induction m as [|m IHm]; [reflexivity|]. cbn [steps]. rewrite (step_err false I e E). exact IHm. }
      exists []. rewrite Hst, app_nil_r. simpl. repeat split; try constructor; try lia.
      intros _. exists e. exact E.
Qed.

(** suppress_warnings changes nothing but warnings *)
Definition with_suppress (I : integ) (b : bool) : integ :=
  mkinteg (i_metric I) (i_delta I) (i_omega I) (i_order I) (i_rtol I) (i_atol I) (i_time_like I) b
    (i_step_num I) (i_res I) (i_results I).
Lemma suppress_only_warnings n : forall I b,
  steps false n (with_suppress I b) = with_suppress (steps false n I) b.
Proof.
  induction n as [|n IH]; intros I b; [reflexivity|]. cbn [steps]. rewrite <- IH. f_equal.
  unfold step, with_suppress; cbn [i_metric i_delta i_omega i_order i_res i_suppress i_results i_step_num i_rtol i_atol i_time_like].
  destruct (integrator_of _ _ _) as [f|]; [|reflexivity].
  destruct (f (i_delta I) (i_res I)) as [arr|]; [|reflexivity]. rewrite !andb_false_r. reflexivity.
Qed.
Lemma suppressed_never_warns I : i_suppress I = true -> forall strict, snd (step strict I) <> Done true /\ snd (step strict I) <> Raised RuntimeWarningExn \/ exists e, next I (i_res I) = Err e.
Proof.
  intros H strict. destruct (next I (i_res I)) as [arr|e] eqn:E; [left|right; eauto].
  unfold next, step in *. destruct (integrator_of _ _ _) as [f|]; simpl in E; [|discriminate].
  rewrite E, H. simpl. split; discriminate.
Qed.

(** a warning is issued exactly when g(p,p) misses its target *)
Lemma warning_iff I arr : next I (i_res I) = Ok arr -> i_suppress I = false ->
  forall g, gval (i_metric I) (q1 arr) = Ok g ->
  (snd (step false I) = Done true <->
     Rabs (quad g (p1 arr) - (- b2R (i_time_like I))) > i_atol I + i_rtol I * Rabs (- b2R (i_time_like I))).
Proof.
  intros E Hs g Hg. destruct (step_ok I arr E) as (b & -> & ->). cbn [snd].
  rewrite Hs. unfold unstable. rewrite Hg. unfold np_allclose, quad. simpl negb at 1.
  destruct (Rle_dec _ _); simpl; split; intros H; try discriminate; try reflexivity; try lra.
Qed.

(** With warnings turned into errors, a step that warns moves the state and the counter but records nothing. *)
Lemma strict_step_warns I arr : next I (i_res I) = Ok arr -> i_suppress I = false -> unstable I arr = true ->
  step true I = (mkinteg (i_metric I) (i_delta I) (i_omega I) (i_order I) (i_rtol I) (i_atol I) (i_time_like I)
                  (i_suppress I) (S (i_step_num I)) arr (i_results I), Raised RuntimeWarningExn).
Proof.
  intros H Hs Hu. unfold next in H. unfold step. destruct (integrator_of _ _ _) as [f|]; [|discriminate].
  cbn [bindR] in H. rewrite H, Hs, Hu. reflexivity.
Qed.

(** the flat metric diag(-1,1,1,1): particle at rest, inconsistent with its claimed null norm *)
Definition flat_fun : metricfun :=
  mkmetricfun (fun _ => Ok (mkQ4 (mkQ4 (-1) 0 0 0) (mkQ4 0 1 0 0) (mkQ4 0 0 1 0) (mkQ4 0 0 0 1)))
    (fun _ _ => Ok (mtab (fun _ _ => 0))).
Lemma flat_rest_A d t1 t2 e1 e2 : apply_A flat_fun d (mkQ4 (mkQ4 t1 0 0 0) (mkQ4 e1 0 0 0) (mkQ4 t2 0 0 0) (mkQ4 e2 0 0 0))
  = Ok (mkQ4 (mkQ4 t1 0 0 0) (mkQ4 e1 0 0 0) (mkQ4 (t2 - d * e2) 0 0 0) (mkQ4 e2 0 0 0)).
Proof. cbv -[Rplus Rmult Rminus Ropp Rinv Rdiv IZR]. repeat (f_equal; try field). Qed.
Lemma flat_rest_B d t1 t2 e1 e2 : apply_B flat_fun d (mkQ4 (mkQ4 t1 0 0 0) (mkQ4 e1 0 0 0) (mkQ4 t2 0 0 0) (mkQ4 e2 0 0 0))
  = Ok (mkQ4 (mkQ4 (t1 - d * e1) 0 0 0) (mkQ4 e1 0 0 0) (mkQ4 t2 0 0 0) (mkQ4 e2 0 0 0)).
Proof. cbv -[Rplus Rmult Rminus Ropp Rinv Rdiv IZR]. repeat (f_equal; try field). Qed.
Lemma flat_rest_C d t1 t2 e1 e2 : flow_mixed (mkQ4 (mkQ4 t1 0 0 0) (mkQ4 e1 0 0 0) (mkQ4 t2 0 0 0) (mkQ4 e2 0 0 0)) d 0
  = mkQ4 (mkQ4 t1 0 0 0) (mkQ4 e1 0 0 0) (mkQ4 t2 0 0 0) (mkQ4 e2 0 0 0).
Proof. unfold flow_mixed. replace (2 * 0 * d) with 0 by ring. rewrite cos_0, sin_0. repeat (apply Q4_eq; cbn); field. Qed.
Lemma history_strict_refuted :
  exists I0 I1, mk_integrator flat_fun (mkQ4 0 0 0 0) (mkQ4 (-1) 0 0 0) false 1 0 (1/100) 2 0 false = Ok I0
    /\ step true I0 = (I1, Raised RuntimeWarningExn)
    /\ i_step_num I1 <> length (i_results I1).
Proof.
  eexists. eexists. split; [reflexivity|]. split.
  - apply strict_step_warns with (arr := mkQ4 (mkQ4 1 0 0 0) (mkQ4 (-1) 0 0 0) (mkQ4 1 0 0 0) (mkQ4 (-1) 0 0 0)).
    + unfold next. cbn [i_order i_metric i_omega i_delta i_res integrator_of bindR]. unfold ord_2.
      rewrite flat_rest_A. cbn [bindR]. rewrite flat_rest_B. cbn [bindR]. rewrite flat_rest_C, flat_rest_B. cbn [bindR].
      rewrite flat_rest_A. f_equal. repeat (apply Q4_eq; cbn); field.
    + reflexivity.
    + unfold unstable. cbn -[np_allclose]. unfold np_allclose.
      destruct (Rle_dec _ _) as [Hle|]; [|reflexivity]. exfalso. revert Hle.
      match goal with |- Rabs ?x <= ?y -> _ => replace x with (-1) by (cbv -[Rplus Rmult Rminus Ropp Rinv Rdiv IZR]; ring);
        replace y with (1/100) by (cbv -[Rplus Rmult Rminus Ropp Rinv Rdiv IZR Rabs]; ring) end.
      rewrite Rabs_left; lra.
  - cbn. discriminate.
Qed.
