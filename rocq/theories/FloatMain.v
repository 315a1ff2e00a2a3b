(** Rounding errors of Geodesic for the named black holes, and in IEEE formats. *)
From Coq Require Import String Ascii Reals List ZArith Lra Lia Bool.
From Coquelicot Require Import Coquelicot.
From Verif Require Import Base Calc DualModel DualSpec DualProofs DualDiff GeoUtilsModel GeoUtilsSpec GeoUtilsProofs GeodesicModel GeodesicProofs
  FantasyModel FantasyProofs FantasyProofs2 FantasyProofs3 FantasyHam FantasyOrder FantasyGlobal FantasyGlobal2 FantasyGlobal3 FantasyCircular ProgCont Picard PicardProg
  FloatModel FloatExact FloatTrack FloatGlobal FloatTraj FloatIEEE.
Import ListNotations.
Open Scope R_scope.

(** outside the outer horizon the discriminant is positive for massive particles and for photons with a non-zero spatial momentum *)
Lemma kn_discr_strict a Q r th p1 p2 p3 tl : 0 < r -> Q * Q <= 2 * r -> 0 < DeltaS r a Q -> sin th <> 0 -> tl = true \/ p1 <> 0 \/ p2 <> 0 \/ p3 <> 0 ->
  0 < discr (kn_con a Q r th) p1 p2 p3 tl.
Proof.
  intros Hr HQ HD Hs Hm.
  assert (HS : 0 < SigmaS r th a) by (apply SigmaS_pos; lra).
  assert (Hs2 : 0 < sin th * sin th) by (assert (H := sq_nz _ Hs); nra).
  assert (K2 : SigmaS r th a = r * r + a * a - a * a * (sin th * sin th)).
  { unfold SigmaS. rewrite sin_cos_sq. ring. }
  assert (Hid : ((r * r + a * a) * (r * r + a * a) - a * a * DeltaS r a Q * (sin th * sin th))
                 * (DeltaS r a Q - a * a * (sin th * sin th))
              + (a * (2 * r - Q * Q)) * (a * (2 * r - Q * Q)) * (sin th * sin th)
              = SigmaS r th a * SigmaS r th a * DeltaS r a Q).
  { rewrite K2. unfold DeltaS. ring. }
  assert (HN : 0 < (r * r + a * a) * (r * r + a * a) - a * a * DeltaS r a Q * (sin th * sin th)).
  { replace ((r * r + a * a) * (r * r + a * a) - a * a * DeltaS r a Q * (sin th * sin th))
      with ((r * r + a * a) * SigmaS r th a + (2 * r - Q * Q) * (a * a) * (sin th * sin th))
      by (rewrite K2; unfold DeltaS; ring).
    assert (0 < r * r + a * a) by nra.
    assert (0 < (r * r + a * a) * SigmaS r th a) by (apply Rmult_lt_0_compat; assumption).
    assert (0 <= (2 * r - Q * Q) * (a * a) * (sin th * sin th)).
    { apply Rmult_le_pos; [apply Rmult_le_pos|]; nra. }
    lra. }
  unfold discr, kn_con, mnth. cbn [q4nth c0 c1 c2 c3].
  set (S := SigmaS r th a) in *. set (D := DeltaS r a Q) in *. set (s2 := sin th * sin th) in *.
  set (N := (r * r + a * a) * (r * r + a * a) - a * a * D * s2) in *.
  set (w := a * (2 * r - Q * Q)) in *.
  assert (HA : - (N / (S * D)) < 0).
  { assert (0 < N / (S * D)) by (apply Rdiv_lt_0_compat; [assumption|apply Rmult_lt_0_compat; assumption]). lra. }
  assert (E : 2 * - (w / (S * D)) * p3 * (2 * - (w / (S * D)) * p3)
     - 4 * - (N / (S * D)) * (D / S * p1 * p1 + 1 / S * p2 * p2 + (D - a * a * s2) / (S * D * s2) * p3 * p3 + b2R tl)
     = 4 * (p3 * p3 * (1 / (D * s2))
            + N / (S * D) * (D / S * (p1 * p1) + 1 / S * (p2 * p2) + b2R tl))).
  { replace (1 / (D * s2)) with ((S * S * D) / (S * S * D * (D * s2))) by (field; repeat split; lra).
    rewrite <- Hid at 1. field. repeat split; lra. }
  rewrite E.
  assert (H1 : 0 <= p3 * p3 * (1 / (D * s2))).
  { apply Rmult_le_pos; [nra|]. apply Rlt_le, Rdiv_lt_0_compat; [lra|apply Rmult_lt_0_compat; assumption]. }
  assert (H2 : 0 <= D / S * (p1 * p1)).
  { apply Rmult_le_pos; [|nra]. apply Rlt_le, Rdiv_lt_0_compat; assumption. }
  assert (H3 : 0 <= 1 / S * (p2 * p2)).
  { apply Rmult_le_pos; [|nra]. apply Rlt_le, Rdiv_lt_0_compat; lra. }
  assert (H4 : 0 <= b2R tl) by (destruct tl; simpl; lra).
  assert (H5 : 0 < N / (S * D)) by lra.
  assert (P3 : 0 <= N / (S * D) * (D / S * (p1 * p1) + 1 / S * (p2 * p2) + b2R tl)) by (apply Rmult_le_pos; lra).
  assert (Q1 : 0 < D / S) by (apply Rdiv_lt_0_compat; assumption). assert (Q2 : 0 < 1 / S) by (apply Rdiv_lt_0_compat; lra).
  assert (Q3 : 0 < 1 / (D * s2)) by (apply Rdiv_lt_0_compat; [lra|apply Rmult_lt_0_compat; assumption]).
  assert (sq : forall x, x <> 0 -> 0 < x * x) by (intros x Hx; assert (H := sq_nz x Hx); nra).
  destruct Hm as [-> |[Hm|[Hm|Hm]]].
  - cbn [b2R] in *. assert (0 < N / (S * D) * (D / S * (p1 * p1) + 1 / S * (p2 * p2) + 1)) by (apply Rmult_lt_0_compat; lra). lra.
  - assert (0 < D / S * (p1 * p1)) by (apply Rmult_lt_0_compat; [exact Q1|apply sq, Hm]). assert (0 < N / (S * D) * (D / S * (p1 * p1) + 1 / S * (p2 * p2) + b2R tl)) by (apply Rmult_lt_0_compat; lra). lra.
  - assert (0 < 1 / S * (p2 * p2)) by (apply Rmult_lt_0_compat; [exact Q2|apply sq, Hm]). assert (0 < N / (S * D) * (D / S * (p1 * p1) + 1 / S * (p2 * p2) + b2R tl)) by (apply Rmult_lt_0_compat; lra). lra.
  - assert (0 < p3 * p3 * (1 / (D * s2))) by (apply Rmult_lt_0_compat; [apply sq, Hm|exact Q3]). lra.
Qed.
Lemma book_kn_metric s prms cov out r th : book s prms cov out -> out r th -> exists call g a Q, resolve_metric (MName s) = Ok call /\ call prms = Ok g /\ call (resolve_params (MName s) prms) = Ok g /\ is_kn g a Q /\ rational_metric g /\ 0 < r /\ Q * Q <= 2 * r /\ 0 < DeltaS r a Q /\ sin th <> 0 /\ inverse_of (kn_con a Q r th) (cov r th).
Proof.
  intros HB Ho. destruct builtin_rational as (B1 & B2 & B3). inversion HB; subst s prms cov out.
  - exists sch_call, schE, 0, 0. destruct Ho as [H1 H2]. repeat (split; [reflexivity|]). split; [exact is_kn_sch|]. split; [exact B1|]. split; [lra|]. split; [lra|]. split; [unfold DeltaS; nra|]. split; [exact H2|].
    destruct (sch_metric_inverse 0 r th 0) as (m & E & I); [lra|lra|exact H2|]. rewrite metric_at_Ok in E by (apply sch_defined; lra || assumption). rewrite sch_meaning in E by (lra || assumption). apply Ok_inj in E. subst m. exact I.
  - exists kerr_call, (kerrE a), a, 0. destruct Ho as (H1 & H2 & H3). repeat (split; [reflexivity|]). split; [apply is_kn_kerr|]. split; [apply B2|]. split; [exact H1|]. split; [lra|]. split; [exact H2|]. split; [exact H3|].
    assert (HS := sigma_pos r th a H1). destruct (kerr_metric_inverse a 0 r th 0) as (m & E & I); [exact HS|lra|exact H3|]. rewrite metric_at_Ok in E by (apply kerr_defined; lra || assumption). rewrite kerr_meaning in E by (lra || assumption). apply Ok_inj in E. subst m. exact I.
  - exists kerrnewman_call, (kerrnewmanE a Q), a, Q. destruct Ho as (H1 & H2 & H3 & H4). repeat (split; [reflexivity|]). split; [apply is_kn_kn|]. split; [apply B3|]. split; [exact H1|]. split; [exact H2|]. split; [exact H3|]. split; [exact H4|].
    assert (HS := sigma_pos r th a H1). destruct (kn_metric_inverse a Q 0 r th 0) as (m & E & I); [exact HS|lra|exact H4|]. rewrite metric_at_Ok in E by (apply kn_defined; lra || assumption). rewrite kn_meaning in E by (lra || assumption). apply Ok_inj in E. subst m. exact I.
Qed.
(** A named black hole, a starting point outside its horizon, and any momentum of a massive particle (or non-zero momentum of a photon): the motion exists,
    and Timelike / Nulllike computed in any accurate enough arithmetic follow it. *)
Theorem named_rounded s prms cov out x1 x2 x3 u1 u2 u3 tl order w n : book s prms cov out -> out x1 x2 -> tl = true \/ u1 <> 0 \/ u2 <> 0 \/ u3 <> 0 ->
  In order [2; 4; 6; 8]%nat -> n = 2%nat \/ (order = 4 /\ n = 4)%nat ->
  exists g guu T q p K r, 0 < T /\ 0 <= K /\ 0 < r /\
    (forall t' r' th' ph', out r' th' -> exists m, metric_at g (mk4 t' r' th' ph') = Ok m /\ inverse_of m (cov r' th')) /\ inverse_of guu (cov x1 x2) /\
    geodesic_on g q p T /\ q 0 = mkQ4 0 x1 x2 x3 /\ on_shell_future guu (p 0) u1 u2 u3 tl /\
    forall u A, 0 <= u -> accurate u A -> forall h N, 0 < h <= r -> u / h <= r -> (0 < N)%nat -> INR N * h <= T ->
    exists P' rows, geodesicA A (MName s) prms (x1, x2, x3) (u1, u2, u3) tl false N h order w = Ok (P', rows) /\ vclose (K * u) P' (p 0) /\ length rows = N /\
    forall k row, nth_error rows k = Some row ->
      vclose (K * (h ^ n + u / h)) (fst row) (q (INR (S k) * h)) /\ vclose (K * (h ^ n + u / h)) (snd row) (p (INR (S k) * h)).
Proof.
  intros HB Ho Hm Hor Hn. destruct (book_kn_metric _ _ _ _ _ _ HB Ho) as (call & g & a & Q & E1 & E2 & E3 & (W & Sy & Hkn) & Rg & Hr & HQ & HD & Hs & Hinv).
  assert (HS := sigma_pos x1 x2 a Hr). destruct (Hkn 0 x1 x2 x3 HS (Rgt_not_eq _ _ HD) Hs) as [Hdef Hmean].
  assert (Hat : metric_at g (mk4 0 x1 x2 x3) = Ok (kn_con a Q x1 x2)) by (rewrite metric_at_Ok by exact Hdef; rewrite Hmean; reflexivity).
  destruct (P4_kn_con g a Q _ x1 x2 u1 u2 u3 tl Hat Hr HQ HD Hs) as (P & HP & Hshell). change (mk4 0 x1 x2 x3) with (mkQ4 0 x1 x2 x3) in *.
  assert (Hdisc : 0 < discriminant g (mkQ4 0 x1 x2 x3) u1 u2 u3 tl).
  { unfold discriminant. rewrite Hmean. assert (X := kn_discr_strict a Q x1 x2 u1 u2 u3 tl Hr HQ HD Hs Hm). unfold discr in X. cbv zeta.
    replace ((2 * mnth (kn_con a Q x1 x2) 0 3 * u3) ^ 2) with ((2 * mnth (kn_con a Q x1 x2) 0 3 * u3) * (2 * mnth (kn_con a Q x1 x2) 0 3 * u3)) by (cbn [pow]; ring).
    replace (mnth (kn_con a Q x1 x2) 1 1 * u1 ^ 2) with (mnth (kn_con a Q x1 x2) 1 1 * u1 * u1) by (cbn [pow]; ring).
    replace (mnth (kn_con a Q x1 x2) 2 2 * u2 ^ 2) with (mnth (kn_con a Q x1 x2) 2 2 * u2 * u2) by (cbn [pow]; ring).
    replace (mnth (kn_con a Q x1 x2) 3 3 * u3 ^ 2) with (mnth (kn_con a Q x1 x2) 3 3 * u3 * u3) by (cbn [pow]; ring). exact X. }
  destruct (geodesic_solved g (mkQ4 0 x1 x2 x3) P W Sy Hdef) as (T & q & p & HT & Q0 & P0 & Hg & _ & _).
  assert (Hf : exists f, integrator_of order (metricfun_of g) w = Ok f) by (destruct Hor as [<- |[<- |[<- |[<- |[]]]]]; eexists; reflexivity). destruct Hf as [f Hf].
  destruct (geodesic_rounded (MName s) prms x1 x2 x3 u1 u2 u3 tl order w f n call g g P q p T E1 E2 E3 W Rg W Sy HP Hdisc Hf Hn HT Hg Q0 P0) as (K & r & HK & Hr0 & H).
  exists g, (kn_con a Q x1 x2), T, q, p, K, r. split; [exact HT|]. split; [exact HK|]. split; [exact Hr0|]. split.
  { intros t' r' th' ph' Ho'. destruct (book_kn_metric _ _ _ _ _ _ HB Ho') as (call' & g' & a' & Q' & E1' & E2' & _ & (_ & _ & Hkn') & _ & Hr' & _ & HD' & Hs' & Hinv').
    rewrite E1 in E1'. apply Ok_inj in E1'. subst call'. rewrite E2 in E2'. apply Ok_inj in E2'. subst g'. destruct (Hkn' t' r' th' ph' (sigma_pos r' th' a' Hr') (Rgt_not_eq _ _ HD') Hs') as [D' M'].
    exists (kn_con a' Q' r' th'). split; [rewrite metric_at_Ok by exact D'; rewrite M'; reflexivity|exact Hinv']. }
  split; [exact Hinv|]. split; [exact Hg|]. split; [exact Q0|]. rewrite P0. split; [exact Hshell|]. exact H.
Qed.
(** the same in IEEE formats of precision p: the error is at most K (h^n + 2^(4-p) / h) *)
Theorem named_ieee s prms cov out x1 x2 x3 u1 u2 u3 tl order w n : book s prms cov out -> out x1 x2 -> tl = true \/ u1 <> 0 \/ u2 <> 0 \/ u3 <> 0 ->
  In order [2; 4; 6; 8]%nat -> n = 2%nat \/ (order = 4 /\ n = 4)%nat ->
  exists g T q p K r, 0 < T /\ 0 <= K /\ 0 < r /\
    (forall t' r' th' ph', out r' th' -> exists m, metric_at g (mk4 t' r' th' ph') = Ok m /\ inverse_of m (cov r' th')) /\
    geodesic_on g q p T /\ q 0 = mkQ4 0 x1 x2 x3 /\
    forall F L, usable F -> libm_ok F L -> forall h N, 0 < h <= r -> powerRZ 2 (4 - prec F) <= r * h -> (0 < N)%nat -> INR N * h <= T ->
    exists P' rows, geodesicA (ieee F L) (MName s) prms (x1, x2, x3) (u1, u2, u3) tl false N h order w = Ok (P', rows) /\ vclose (K * powerRZ 2 (4 - prec F)) P' (p 0) /\ length rows = N /\
    forall k row, nth_error rows k = Some row ->
      vclose (K * (h ^ n + powerRZ 2 (4 - prec F) / h)) (fst row) (q (INR (S k) * h)) /\ vclose (K * (h ^ n + powerRZ 2 (4 - prec F) / h)) (snd row) (p (INR (S k) * h)).
Proof.
  intros HB Ho Hm Hor Hn. destruct (named_rounded s prms cov out x1 x2 x3 u1 u2 u3 tl order w n HB Ho Hm Hor Hn) as (g & guu & T & q & p & K & r & HT & HK & Hr & HI & _ & Hg & Q0 & _ & H).
  exists g, T, q, p, K, r. split; [exact HT|]. split; [exact HK|]. split; [exact Hr|]. split; [exact HI|]. split; [exact Hg|]. split; [exact Q0|]. intros F L HF HL h N Hh Hu HN HNT.
  assert (E : uF F = powerRZ 2 (4 - prec F)) by (unfold uF; apply (Flocq.Core.Raux.bpow_powerRZ Flocq.Core.Zaux.radix2)). rewrite <- E in *.
  apply (H (uF F) (ieee F L)); try assumption; [apply Rlt_le, Flocq.Core.Raux.bpow_gt_0|apply ieee_accurate; assumption|].
  apply Rmult_le_reg_r with h; [apply Hh|]. unfold Rdiv. rewrite Rmult_assoc, Rinv_l, Rmult_1_r by lra. exact Hu.
Qed.
(** As the precision grows, with everything else fixed, what Geodesic computes converges to what it would compute in exact arithmetic. *)
Theorem geodesic_precision m prms pos mom tl cart kw call gP gI geo : resolve_metric m = Ok call -> call prms = Ok gP -> call (resolve_params m prms) = Ok gI ->
  well_formed gP -> rational_metric gP -> well_formed gI -> rational_metric gI ->
  mk_geodesic m prms pos mom tl cart kw = Ok geo ->
  0 < discriminant gP (geo_position geo) (fst (fst mom)) (snd (fst mom)) (snd mom) tl ->
  exists p0 C, 0 <= C /\ forall F L, usable F -> libm_ok F L -> (p0 <= prec F)%Z ->
  exists P rows, geodesicA (ieee F L) m prms pos mom tl cart (k_steps kw) (k_delta kw) (k_order kw) (k_omega kw) = Ok (P, rows) /\
    vclose (C * powerRZ 2 (4 - prec F)) P (geo_momentum geo) /\ rows_close (C * powerRZ 2 (4 - prec F)) rows (snd (geo_trajectory geo)).
Proof.
  intros H1 H2 H3 W1 G1 W2 G2 H Hdisc. destruct (geodesic_float m prms pos mom tl cart kw call gP gI geo H1 H2 H3 W1 G1 W2 G2 H Hdisc) as (r & C & Hr & HC & K).
  destruct (uF_small r Hr) as (p0 & _ & Hp0). exists p0, C. split; [exact HC|]. intros F L HF HL HP. specialize (Hp0 F HP).
  assert (E : uF F = powerRZ 2 (4 - prec F)) by (unfold uF; apply (Flocq.Core.Raux.bpow_powerRZ Flocq.Core.Zaux.radix2)). rewrite <- E.
  apply (K (uF F) (ieee F L)); [lra|apply ieee_accurate; assumption|]. rewrite Rminus_eq_0, Rabs_R0. lra.
Qed.
(** Forward-mode differentiation in floating point: value and derivative are within C u of the exact value and the true partial derivative. *)
Theorem dual_derivative n e (X : nat -> R) k : below n e = true -> defined_at X e -> (k < n)%nat ->
  exists r C D, 0 < r /\ 0 <= C /\ is_derive (fun t => meaning (upd X k t) e) (X k) D /\
  forall u A x, 0 <= u < r -> accurate u A -> (forall i, (i < n)%nat -> Rabs (x i - X i) <= u) ->
  exists w, runA A (fun i => PD (mkdual (x i) (if Nat.eqb i k then 1 else 0))) e = Ok w /\ Rabs (pval w - meaning X e) <= C * u /\ Rabs (pderiv w - D) <= C * u.
Proof.
  intros Hb Hd Hk. destruct (dual_rounded n e X k Hb Hd) as (r & C & Hr & HC & H). exists r, C, (meaning X (pd k e)). split; [exact Hr|]. split; [exact HC|].
  split; [apply (FantasyHam.pd_partial n); assumption|exact H].
Qed.
