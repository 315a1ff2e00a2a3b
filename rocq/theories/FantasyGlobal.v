(** Stability of a step: programs are locally Lipschitz, so is every stage, with a constant 1 + L |t|. *)
From Coq Require Import Reals List ZArith Lra Lia Bool.
From Coquelicot Require Import Coquelicot.
From Verif Require Import Base Calc DualModel DualSpec DualProofs DualDiff GeoUtilsModel GeoUtilsSpec GeoUtilsProofs
  FantasyModel FantasyProofs FantasyProofs2 FantasyProofs3 FantasyHam FantasySymp ProgCont WordSeries WordOrder FantasyOrder FantasyOrder2 FantasyOrder3.
Import ListNotations.
Open Scope R_scope.

Lemma rsum_Rabs n : forall (f : nat -> R) M, (forall k, (k < n)%nat -> Rabs (f k) <= M) -> Rabs (rsum n f) <= INR n * M.
Proof.
  induction n as [|n IH]; intros f M H; cbn [rsum]; [rewrite Rabs_R0; cbn; lra|].
  rewrite S_INR. eapply Rle_trans; [apply Rabs_triang|]. assert (A := IH f M (fun k Hk => H k (Nat.lt_lt_succ_r _ _ Hk))). assert (B := H n (Nat.lt_succ_diag_r n)). lra.
Qed.
Lemma uniform_below (P : nat -> R -> R -> Prop) (n : nat) :
  (forall k r r' M M', 0 <= M -> P k r M -> r' <= r -> M <= M' -> P k r' M') ->
  (forall k, (k < n)%nat -> exists r M, 0 < r /\ 0 <= M /\ P k r M) ->
  exists r M, 0 < r /\ 0 <= M /\ forall k, (k < n)%nat -> P k r M.
Proof.
  intros Hm. induction n as [|n IH]; intros H; [exists 1, 0; repeat split; try lra; intros; lia|].
  destruct IH as (r1 & M1 & R1 & HM1 & H1); [intros; apply H; lia|]. destruct (H n (Nat.lt_succ_diag_r n)) as (r2 & M2 & R2 & HM2 & H2).
  exists (Rmin r1 r2), (Rmax M1 M2). split; [apply Rmin_pos; assumption|]. split; [eapply Rle_trans; [exact HM1|apply Rmax_l]|].
  intros k Hk. destruct (Nat.eq_dec k n) as [-> |]; [eapply Hm; [exact HM2|exact H2|apply Rmin_r|apply Rmax_r]|eapply Hm; [exact HM1|apply H1; lia|apply Rmin_l|apply Rmax_l]].
Qed.
Lemma prog_lip N e z : below N e = true -> defined_at z e ->
  exists r L, 0 < r /\ 0 <= L /\ forall y y', near N r z y -> near N r z y' -> forall eps, (forall i, (i < N)%nat -> Rabs (y i - y' i) <= eps) ->
    Rabs (meaning y e - meaning y' e) <= L * eps.
Proof.
  intros Hb Hd.
  destruct (prog_near N e z Hb Hd 1 ltac:(lra)) as (r0 & R0 & H0).
  destruct (uniform_below (fun k r M => forall y, near N r z y -> Rabs (meaning y (pd k e)) <= M) N) as (r1 & M & R1 & HM & H1).
  { intros k r r' M M' _ H Hr HM y Hy. eapply Rle_trans; [apply H; eapply near_le; eassumption|exact HM]. }
  { intros k Hk. destruct (prog_bounded N (pd k e) z (pd_below N k e Hb) (pd_defined z k e Hd)) as (r & M & Hr & HM & H). exists r, M. split; [exact Hr|]. split; [exact HM|]. intros y Hy. apply H. exact Hy. }
  exists (Rmin r0 r1), (INR N * M). split; [apply Rmin_pos; assumption|]. split; [apply Rmult_le_pos; [apply pos_INR|exact HM]|].
  intros y y' Hy Hy' eps He. set (xs := fun i u => y' i + u * (y i - y' i)).
  assert (Hn : forall u, 0 <= u <= 1 -> near N (Rmin r0 r1) z (fun i => xs i u)).
  { intros u Hu i Hi. unfold xs. assert (A := Hy i Hi). assert (B := Hy' i Hi). apply Rabs_def2 in A. apply Rabs_def2 in B. set (R0' := Rmin r0 r1) in *. clearbody R0'. destruct (Rle_dec (y i) (y' i)); apply Rabs_def1; nra. }
  destruct (MVT_gen (fun u => meaning (fun i => xs i u) e) 0 1 (fun u => rsum N (fun k => (y k - y' k) * meaning (fun i => xs i u) (pd k e)))) as (c & Hc & E).
  - intros u Hu. rewrite Rmin_left, Rmax_right in Hu by lra. apply (pd_path N e Hb xs (fun i => y i - y' i)).
    + intros i Hi. unfold xs. generalize (y i) (y' i). intros a b. auto_derive; [exact I|ring].
    + apply H0. eapply near_le; [apply Rmin_l|]. apply Hn. lra.
  - intros u Hu. rewrite Rmin_left, Rmax_right in Hu by lra. apply continuity_pt_filterlim. eapply D_continuous. apply (pd_path N e Hb xs (fun i => y i - y' i)).
    + intros i Hi. unfold xs. generalize (y i) (y' i). intros a b. auto_derive; [exact I|ring].
    + apply H0. eapply near_le; [apply Rmin_l|]. apply Hn. lra.
  - rewrite Rmin_left, Rmax_right in Hc by lra. cbn beta in E.
    rewrite (meaning_ext_b N e (fun i => xs i 1) y Hb) in E by (intros; unfold xs; ring).
    rewrite (meaning_ext_b N e (fun i => xs i 0) y' Hb) in E by (intros; unfold xs; ring).
    rewrite E, Rminus_0_r, Rmult_1_r, Rmult_assoc. apply rsum_Rabs. intros k Hk. rewrite Rabs_mult, (Rmult_comm M).
    apply Rmult_le_compat; try apply Rabs_pos; [apply He; exact Hk|]. apply H1; [exact Hk|]. eapply near_le; [apply Rmin_r|]. apply Hn. lra.
Qed.

Lemma sin_abs_le x : Rabs (sin x) <= Rabs x.
Proof.
  assert (P : forall y, 0 <= y -> Rabs (sin y) <= y).
  { intros y Hy. assert (B := SIN_bound y). destruct (Rle_dec 1 y) as [L|L].
    - apply Rabs_le. lra.
    - assert (S := sin_ge_0 y Hy ltac:(assert (Q := PI2_1); lra)). rewrite Rabs_right by lra.
      destruct (Req_dec y 0) as [-> |]; [rewrite sin_0; lra|]. apply Rlt_le, sin_lt_x. lra. }
  destruct (Rle_dec 0 x) as [L|L]; [rewrite (Rabs_right x) by lra; apply P; exact L|].
  rewrite (Rabs_left x) by lra. rewrite <- (Ropp_involutive x) at 1. rewrite sin_neg, Rabs_Ropp. apply P. lra.
Qed.
Lemma cos_1_abs_le x : Rabs (cos x - 1) <= Rabs x.
Proof.
  replace (cos x - 1) with (- (2 * sin (x / 2) * sin (x / 2))).
  - rewrite Rabs_Ropp, !Rabs_mult, (Rabs_right 2) by lra. assert (A := sin_abs_le (x / 2)). assert (B : Rabs (sin (x / 2)) <= 1) by (apply Rabs_le; assert (B := SIN_bound (x / 2)); lra).
    assert (C : Rabs (x / 2) = Rabs x / 2) by (unfold Rdiv; rewrite Rabs_mult, (Rabs_right (/ 2)) by lra; reflexivity). rewrite C in A. assert (Q := Rabs_pos (sin (x / 2))). nra.
  - replace x with (2 * (x / 2)) at 3 by field. rewrite cos_2a_sin. ring.
Qed.
(** one component of the mixing rotation *)
Lemma rot_lip co si a b c d eps sg : Rabs a <= eps -> Rabs b <= eps -> Rabs c <= eps -> Rabs d <= eps -> Rabs sg = 1 ->
  Rabs (a + / 2 * (co - 1) * (a - b) + / 2 * (sg * si) * (c - d)) <= eps + Rabs (co - 1) * eps + Rabs si * eps.
Proof.
  intros Ha Hb Hc Hd Hs.
  assert (A : Rabs (/ 2 * (a - b)) <= eps) by (apply Rabs_le; apply Rabs_le_between in Ha; apply Rabs_le_between in Hb; lra).
  assert (B : Rabs (/ 2 * (c - d)) <= eps) by (apply Rabs_le; apply Rabs_le_between in Hc; apply Rabs_le_between in Hd; lra).
  replace (a + / 2 * (co - 1) * (a - b) + / 2 * (sg * si) * (c - d)) with (a + (co - 1) * (/ 2 * (a - b)) + (sg * si) * (/ 2 * (c - d))) by ring.
  eapply Rle_trans; [apply Rabs_triang|]. apply Rplus_le_compat.
  - eapply Rle_trans; [apply Rabs_triang|]. apply Rplus_le_compat; [exact Ha|]. rewrite Rabs_mult. apply Rmult_le_compat_l; [apply Rabs_pos|exact A].
  - rewrite (Rabs_mult (sg * si)), (Rabs_mult sg), Hs, Rmult_1_l. apply Rmult_le_compat_l; [apply Rabs_pos|exact B].
Qed.
Lemma mixed_lip w t s s' eps : (forall i, (i < 16)%nat -> Rabs (flat s i - flat s' i) <= eps) ->
  forall i, (i < 16)%nat -> Rabs (flat (flow_mixed s t w) i - flat (flow_mixed s' t w) i) <= (1 + 4 * Rabs w * Rabs t) * eps.
Proof.
  intros H i Hi.
  assert (E0 : 0 <= eps) by (eapply Rle_trans; [apply Rabs_pos|apply (H 0%nat); lia]).
  set (co := cos (2 * w * t)). set (si := sin (2 * w * t)).
  assert (C : Rabs (co - 1) <= 2 * (Rabs w * Rabs t)) by (unfold co; eapply Rle_trans; [apply cos_1_abs_le|]; rewrite !Rabs_mult, (Rabs_right 2) by lra; lra).
  assert (S : Rabs si <= 2 * (Rabs w * Rabs t)) by (unfold si; eapply Rle_trans; [apply sin_abs_le|]; rewrite !Rabs_mult, (Rabs_right 2) by lra; lra).
  assert (B : eps + Rabs (co - 1) * eps + Rabs si * eps <= (1 + 4 * Rabs w * Rabs t) * eps) by nra.
  assert (K : exists a b c d sg, (a < 16)%nat /\ (b < 16)%nat /\ (c < 16)%nat /\ (d < 16)%nat /\ Rabs sg = 1 /\
    forall x, flat (flow_mixed x t w) i = flat x a + / 2 * (co - 1) * (flat x a - flat x b) + / 2 * (sg * si) * (flat x c - flat x d)).
  { assert (R1 : Rabs 1 = 1) by (apply Rabs_right; lra). assert (R2 : Rabs (-1) = 1) by (rewrite Rabs_left; lra).
    revert i Hi.
    assert (X : forall i a b c d sg, (a < 16)%nat -> (b < 16)%nat -> (c < 16)%nat -> (d < 16)%nat -> Rabs sg = 1 ->
      (forall x, flat (flow_mixed x t w) i = flat x a + / 2 * (co - 1) * (flat x a - flat x b) + / 2 * (sg * si) * (flat x c - flat x d)) ->
      exists a b c d sg, (a < 16)%nat /\ (b < 16)%nat /\ (c < 16)%nat /\ (d < 16)%nat /\ Rabs sg = 1 /\
        forall x, flat (flow_mixed x t w) i = flat x a + / 2 * (co - 1) * (flat x a - flat x b) + / 2 * (sg * si) * (flat x c - flat x d)).
    { intros i a b c d sg; intros. exists a, b, c, d, sg. auto 8. }
    assert (Q1 : forall k, (k < 4)%nat -> forall x, flat (flow_mixed x t w) k = flat x k + / 2 * (co - 1) * (flat x k - flat x (8 + k)) + / 2 * (1 * si) * (flat x (4 + k) - flat x (12 + k))).
    { intros k Hk x. revert k Hk. apply q4_cases; unfold flow_mixed; fold co si; cbn -[co si]; unfold q1, p1, q2, p2; field. }
    assert (Q2 : forall k, (k < 4)%nat -> forall x, flat (flow_mixed x t w) (4 + k) = flat x (4 + k) + / 2 * (co - 1) * (flat x (4 + k) - flat x (12 + k)) + / 2 * (-1 * si) * (flat x k - flat x (8 + k))).
    { intros k Hk x. revert k Hk. apply q4_cases; unfold flow_mixed; fold co si; cbn -[co si]; unfold q1, p1, q2, p2; field. }
    assert (Q3 : forall k, (k < 4)%nat -> forall x, flat (flow_mixed x t w) (8 + k) = flat x (8 + k) + / 2 * (co - 1) * (flat x (8 + k) - flat x k) + / 2 * (-1 * si) * (flat x (4 + k) - flat x (12 + k))).
    { intros k Hk x. revert k Hk. apply q4_cases; unfold flow_mixed; fold co si; cbn -[co si]; unfold q1, p1, q2, p2; field. }
    assert (Q4' : forall k, (k < 4)%nat -> forall x, flat (flow_mixed x t w) (12 + k) = flat x (12 + k) + / 2 * (co - 1) * (flat x (12 + k) - flat x (4 + k)) + / 2 * (1 * si) * (flat x k - flat x (8 + k))).
    { intros k Hk x. revert k Hk. apply q4_cases; unfold flow_mixed; fold co si; cbn -[co si]; unfold q1, p1, q2, p2; field. }
    intros i Hi. assert (C0 : exists k, (k < 4)%nat /\ (i = k \/ i = 4 + k \/ i = 8 + k \/ i = 12 + k)%nat).
    { exists (i mod 4)%nat. split; [apply Nat.mod_upper_bound; lia|]. revert i Hi. apply lt16; vm_compute; tauto. }
    destruct C0 as (k & Lk & [-> |[-> |[-> | ->]]]).
    - eapply X; [| | | | |apply (Q1 k Lk)]; first [lia|assumption].
    - eapply X; [| | | | |apply (Q2 k Lk)]; first [lia|assumption].
    - eapply X; [| | | | |apply (Q3 k Lk)]; first [lia|assumption].
    - eapply X; [| | | | |apply (Q4' k Lk)]; first [lia|assumption]. }
  destruct K as (a & b & c & d & sg & Ha & Hb & Hc & Hd & Hs & K). rewrite !K.
  match goal with |- Rabs ?e <= _ => replace e with ((flat s a - flat s' a) + / 2 * (co - 1) * ((flat s a - flat s' a) - (flat s b - flat s' b)) + / 2 * (sg * si) * ((flat s c - flat s' c) - (flat s d - flat s' d))) by ring end.
  eapply Rle_trans; [|exact B]. apply rot_lip; auto.
Qed.

Lemma flow_lip g w X (s0 : state) : well_formed g -> hdef g (flat s0) ->
  exists rho L, 0 < rho /\ 0 <= L /\ forall t s s', near 16 rho (flat s0) (flat s) -> near 16 rho (flat s0) (flat s') -> forall eps,
    (forall i, (i < 16)%nat -> Rabs (flat s i - flat s' i) <= eps) ->
    forall i, (i < 16)%nat -> Rabs (flat (gflow g w X t s) i - flat (gflow g w X t s') i) <= (1 + L * Rabs t) * eps.
Proof.
  intros Hwf Hd.
  assert (Q : forall H, below 16 H = true -> defined_at (flat s0) H -> exists rho L, 0 < rho /\ 0 <= L /\ forall t s s', near 16 rho (flat s0) (flat s) -> near 16 rho (flat s0) (flat s') -> forall eps,
    (forall i, (i < 16)%nat -> Rabs (flat s i - flat s' i) <= eps) ->
    forall i, (i < 16)%nat -> Rabs (flat (shear H t s) i - flat (shear H t s') i) <= (1 + L * Rabs t) * eps).
  { intros H Hb HdH.
    destruct (uniform_below (fun i r L => forall y y', near 16 r (flat s0) y -> near 16 r (flat s0) y' -> forall eps, (forall k, (k < 16)%nat -> Rabs (y k - y' k) <= eps) ->
      Rabs (meaning y (field H i) - meaning y' (field H i)) <= L * eps) 16) as (r & L & Hr & HL & HP).
    { intros k r r' M M' HM0 HP Hr HM y y' Hy Hy' eps He.
      assert (E0 : 0 <= eps) by (eapply Rle_trans; [apply Rabs_pos|apply (He 0%nat); lia]).
      eapply Rle_trans; [apply HP; [eapply near_le; eassumption|eapply near_le; eassumption|exact He]|apply Rmult_le_compat_r; assumption]. }
    { intros k Hk. apply prog_lip; [apply field_below; exact Hb|apply field_defined; exact HdH]. }
    exists r, L. split; [exact Hr|]. split; [exact HL|]. intros t s s' Hs Hs' eps He i Hi. unfold shear. rewrite !flat_unflat by exact Hi.
    match goal with |- Rabs ?e <= _ => replace e with ((flat s i - flat s' i) + t * (meaning (flat s) (field H i) - meaning (flat s') (field H i))) by ring end.
    eapply Rle_trans; [apply Rabs_triang|]. rewrite Rabs_mult. assert (A := HP i Hi _ _ Hs Hs' eps He). assert (B := He i Hi). assert (T := Rabs_pos t). nra. }
  destruct X; cbn [gflow].
  - apply Q; [apply (Hgen_below g w GA Hwf)|apply Hd].
  - apply Q; [apply (Hgen_below g w GB Hwf)|apply Hd].
  - exists 1, (4 * Rabs w). split; [lra|]. split; [assert (P := Rabs_pos w); lra|]. intros t s s' _ _ eps He i Hi. apply mixed_lip; assumption.
Qed.
Lemma compose_lip g w (s0 : state) : well_formed g -> hdef g (flat s0) -> forall l,
  exists rho L, 0 < rho /\ 0 <= L /\ forall d s s', Rabs d < rho -> near 16 rho (flat s0) (flat s) -> near 16 rho (flat s0) (flat s') -> forall eps,
    (forall i, (i < 16)%nat -> Rabs (flat s i - flat s' i) <= eps) ->
    forall i, (i < 16)%nat -> Rabs (flat (compose g w l d s) i - flat (compose g w l d s') i) <= (1 + L * Rabs d) * eps.
Proof.
  intros Hwf Hd. induction l as [|[X a] l IH]; cbn [compose].
  - exists 1, 0. split; [lra|]. split; [lra|]. intros d s s' _ _ _ eps He i Hi. assert (A := He i Hi). lra.
  - destruct IH as (r1 & L1 & R1 & HL1 & H1). destruct (flow_near g w X s0 Hwf Hd r1 R1) as (r2 & R2 & H2). destruct (flow_lip g w X s0 Hwf Hd) as (r3 & L3 & R3 & HL3 & H3).
    destruct (small_scale a r2 R2) as (r4 & R4 & H4).
    set (m := Rmin 1 (Rmin r1 (Rmin r2 (Rmin r3 r4)))).
    assert (M0 : 0 < m) by (unfold m; repeat apply Rmin_pos; lra || assumption).
    assert (N0 : m <= 1) by apply Rmin_l. assert (N1 : m <= r1) by (unfold m; eapply Rle_trans; [apply Rmin_r|apply Rmin_l]).
    assert (N2 : m <= r2) by (unfold m; eapply Rle_trans; [apply Rmin_r|eapply Rle_trans; [apply Rmin_r|apply Rmin_l]]).
    assert (N3 : m <= r3) by (unfold m; do 3 (eapply Rle_trans; [apply Rmin_r|]); apply Rmin_l).
    assert (N4 : m <= r4) by (unfold m; do 3 (eapply Rle_trans; [apply Rmin_r|]); apply Rmin_r).
    clearbody m. set (a' := Rabs a). assert (A0 : 0 <= a') by apply Rabs_pos.
    exists m, (L1 + L3 * a' + L1 * (L3 * a')). split; [exact M0|]. split; [assert (0 <= L3 * a') by (apply Rmult_le_pos; assumption); assert (0 <= L1 * (L3 * a')) by (apply Rmult_le_pos; assumption); lra|].
    intros d s s' Hds Hs Hs' eps He i Hi.
    assert (E0 : 0 <= eps) by (eapply Rle_trans; [apply Rabs_pos|apply (He 0%nat); lia]).
    assert (F := H3 (a * d) s s' (near_le _ _ _ _ _ N3 Hs) (near_le _ _ _ _ _ N3 Hs') eps He).
    assert (G := H1 d _ _ ltac:(lra) (H2 (a * d) s (H4 d ltac:(lra)) (near_le _ _ _ _ _ N2 Hs)) (H2 (a * d) s' (H4 d ltac:(lra)) (near_le _ _ _ _ _ N2 Hs')) _ F i Hi).
    eapply Rle_trans; [exact G|]. rewrite Rabs_mult. fold a'. assert (D0 := Rabs_pos d). set (x := Rabs d) in *. clearbody x a'.
    rewrite <- Rmult_assoc. apply Rmult_le_compat_r; [exact E0|].
    assert (0 <= L1 * (L3 * a')) by (apply Rmult_le_pos; [exact HL1|apply Rmult_le_pos; assumption]). assert (x * x <= x) by nra. nra.
Qed.
