(** Momenta of cyclic coordinates along the rows of a computed trajectory. *)
From Coq Require Import String Reals List ZArith Lra Lia Bool.
From Coquelicot Require Import Coquelicot.
From Verif Require Import Base Calc DualModel DualSpec DualProofs DualDiff GeoUtilsModel GeoUtilsSpec GeoUtilsProofs GeodesicModel GeodesicProofs
  FantasyModel FantasyProofs FantasyProofs2 FantasyProofs3 FantasyHam FantasySymp ProgCont WordSeries WordOrder FantasyOrder FantasyOrder2 FantasyOrder3 FantasyOrder4 FantasyGlobal FantasyGlobal2 FantasyGlobal3 FantasyShell.
Import ListNotations.
Open Scope R_scope.

Lemma Ham_indep g k q p s : well_formed g -> (k < 4)%nat -> independent_of g k -> Ham g (vupd q k s) p = Ham g q p.
Proof.
  intros W Hk I. unfold Ham. f_equal. f_equal. unfold metric_meaning.
  assert (E : forall i j, (i < 4)%nat -> (j < 4)%nat -> meaning (q4nth (vupd q k s)) (q4nth (q4nth g i) j) = meaning (q4nth q) (q4nth (q4nth g i) j)).
  { intros i j Hi Hj. apply meaning_ext_m. intros l Hl. assert (L : (l < 4)%nat).
    { apply (below_mentions 4 (mnth g i j)); [|exact Hl]. rewrite <- below_vars. exact (W i j Hi Hj). }
    rewrite vupd_nth by exact L. unfold upd. destruct (Nat.eqb_spec l k) as [-> |]; [|reflexivity].
    assert (F := I i j Hi Hj). unfold mnth in F. rewrite Hl in F. discriminate. }
  apply Q4_eq; apply Q4_eq; cbn [q4map c0 c1 c2 c3];
  [apply (E 0 0)%nat|apply (E 0 1)%nat|apply (E 0 2)%nat|apply (E 0 3)%nat|apply (E 1 0)%nat|apply (E 1 1)%nat|apply (E 1 2)%nat|apply (E 1 3)%nat
  |apply (E 2 0)%nat|apply (E 2 1)%nat|apply (E 2 2)%nat|apply (E 2 3)%nat|apply (E 3 0)%nat|apply (E 3 1)%nat|apply (E 3 2)%nat|apply (E 3 3)%nat]; lia.
Qed.
Lemma cyclic_constant g q p T k : well_formed g -> (k < 4)%nat -> independent_of g k -> geodesic_on g q p T -> forall t, 0 <= t <= T -> q4nth (p t) k = q4nth (p 0) k.
Proof.
  intros W Hk I Hg t Ht.
  assert (D : forall u, 0 <= u <= T -> is_derive (fun v => q4nth (p v) k) u 0).
  { intros u Hu. destruct (Hg u Hu) as [_ B]. destruct (locally_singleton _ _ B k Hk) as [_ (D & D1 & D2)].
    assert (Z : D = 0).
    { rewrite <- (is_derive_unique _ _ _ D1). apply is_derive_unique. apply (D_ext (fun _ => Ham g (q u) (p u))); [|apply D_const].
      intros s. symmetry. apply Ham_indep; assumption. }
    eapply D_eq; [exact D2|]. rewrite Z. ring. }
  destruct (MVT_gen (fun v => q4nth (p v) k) 0 t (fun _ => 0)) as (c & Hc & E).
  - intros u Hu. rewrite Rmin_left, Rmax_right in Hu by lra. apply D. lra.
  - intros u Hu. rewrite Rmin_left, Rmax_right in Hu by lra. apply continuity_pt_filterlim. eapply D_continuous. apply D. lra.
  - cbv beta in E. lra.
Qed.
Theorem cyclic_momentum_drift order g w f n (q p : R -> V4) T k :
  integrator_of order (metricfun_of g) w = Ok f -> n = 2%nat \/ (order = 4 /\ n = 4)%nat ->
  well_formed g -> symmetric_program g -> (k < 4)%nat -> independent_of g k -> 0 < T -> geodesic_on g q p T ->
  exists C N0, (0 < N0)%nat /\ forall N tl rtol atol suppress, (N0 <= N)%nat ->
  exists rows, calculate_trajectory g (q 0) (p 0) tl false (mkkw N (T / INR N) rtol atol order w suppress) = Ok (seq 0 N, rows) /\ length rows = N /\
  forall row, In row rows -> Rabs (q4nth (snd row) k - q4nth (p 0) k) <= C * (T / INR N) ^ n.
Proof.
  intros Hf Hn Hwf Hsym Hk I HT Hg. destruct (trajectory_converges order g w f n q p T Hf Hn Hwf Hsym HT Hg) as (C & N0 & HN0 & H).
  exists C, N0. split; [exact HN0|]. intros N tl rtol atol suppress HN. destruct (H N tl rtol atol suppress HN) as (rows & E & Hlen & Hrow). exists rows. split; [exact E|]. split; [exact Hlen|].
  intros row Hin. apply In_nth_error in Hin as (j & Hj). assert (jN : (j < N)%nat) by (rewrite <- Hlen; apply nth_error_Some; rewrite Hj; discriminate).
  set (h := T / INR N) in *. assert (PN : 0 < INR N) by (apply lt_0_INR; lia). assert (Hh : 0 < h) by (apply Rdiv_lt_0_compat; assumption).
  assert (Ht : 0 <= INR (S j) * h <= T). { split; [apply Rmult_le_pos; [apply pos_INR|lra]|]. assert (Q : INR (S j) <= INR N) by (apply le_INR; lia). replace T with (INR N * h) by (unfold h; field; lra). apply Rmult_le_compat_r; lra. }
  rewrite <- (cyclic_constant g q p T k Hwf Hk I Hg _ Ht). apply (Hrow j row Hj k Hk).
Qed.
(** a geodesic of the metric diag(-1, x_1, 1, 1) with p_0 = 3 *)
Definition lin3_q (t : R) : V4 := mkQ4 (-3 * t) ((1 + t / 2) * (1 + t / 2)) 0 0.
Definition lin3_p (t : R) : V4 := mkQ4 3 (/ (1 + t / 2)) 0 0.
Lemma lin3_point t : 1 + t / 2 <> 0 -> hamilton lin_metric lin3_q lin3_p t.
Proof.
  intros Hz.
  assert (HH : forall v : V4, Ham lin_metric v (lin3_p t) = / 2 * (-9 + q4nth v 1 * (/ (1 + t / 2) * / (1 + t / 2)))).
  { intros. unfold Ham, lin3_p. generalize (/ (1 + t / 2)). intros z. cbv -[Rplus Rmult Ropp Rminus Rdiv Rinv IZR]. field. }
  assert (HK : forall k x, k <> 1%nat -> Ham lin_metric (vupd (lin3_q t) k x) (lin3_p t) = / 2 * (-9 + (1 + t / 2) * (1 + t / 2) * (/ (1 + t / 2) * / (1 + t / 2)))).
  { intros k x Hk. rewrite HH, vupd_nth by lia. unfold upd. destruct (Nat.eqb_spec 1 k); [congruence|]. reflexivity. }
  assert (H1 : forall x, Ham lin_metric (vupd (lin3_q t) 1 x) (lin3_p t) = / 2 * (-9 + x * (/ (1 + t / 2) * / (1 + t / 2)))).
  { intros x. rewrite HH, vupd_nth by lia. reflexivity. }
  unfold hamilton. apply q4_cases; (split; [cbn [q4nth lin3_q c0 c1 c2 c3]|]).
  - assert (V : q4nth (mv (metric_meaning lin_metric (q4nth (lin3_q t))) (lin3_p t)) 0 = -3).
    { unfold lin3_p. generalize (/ (1 + t / 2)). intros z. cbv -[Rplus Rmult Ropp Rminus Rdiv Rinv IZR]. ring. }
    apply (D_eq _ _ (-3)); [auto_derive; [exact I|ring]|symmetry; exact V].
  - exists 0. split; [|cbn [q4nth lin3_p c0 c1 c2 c3]; eapply D_eq; [apply D_const|ring]]. eapply D_ext; [intros x; symmetry; apply HK; lia|]. apply D_const.
  - assert (V : q4nth (mv (metric_meaning lin_metric (q4nth (lin3_q t))) (lin3_p t)) 1 = 1 + t / 2).
    { unfold lin3_p. transitivity ((1 + t / 2) * (1 + t / 2) * / (1 + t / 2)); [|field; lra]. generalize (/ (1 + t / 2)). intros z. cbv -[Rplus Rmult Ropp Rminus Rdiv Rinv IZR]. ring. }
    apply (D_eq _ _ (1 + t / 2)); [auto_derive; [exact I|field]|symmetry; exact V].
  - exists (/ 2 * (/ (1 + t / 2) * / (1 + t / 2))). split.
    + eapply D_ext; [intros x; symmetry; apply H1|]. auto_derive; [exact I|ring].
    + cbn [q4nth lin3_p c0 c1 c2 c3]. auto_derive; [exact Hz|field; lra].
  - eapply D_eq; [apply D_const|]. cbv -[Rplus Rmult Ropp Rminus Rdiv Rinv IZR]. ring.
  - exists 0. split; [|cbn [q4nth lin3_p c0 c1 c2 c3]; eapply D_eq; [apply D_const|ring]]. eapply D_ext; [intros x; symmetry; apply HK; lia|]. apply D_const.
  - eapply D_eq; [apply D_const|]. cbv -[Rplus Rmult Ropp Rminus Rdiv Rinv IZR]. ring.
  - exists 0. split; [|cbn [q4nth lin3_p c0 c1 c2 c3]; eapply D_eq; [apply D_const|ring]]. eapply D_ext; [intros x; symmetry; apply HK; lia|]. apply D_const.
Qed.
Lemma lin3_geodesic_on T : geodesic_on lin_metric lin3_q lin3_p T.
Proof.
  intros t Ht. split; [apply lin_defined|]. exists (mkposreal 1 Rlt_0_1). intros u Hu. unfold ball in Hu; cbn in Hu. unfold AbsRing_ball, abs, minus, plus, opp in Hu; cbn in Hu.
  apply lin3_point. apply Rabs_def2 in Hu. lra.
Qed.
