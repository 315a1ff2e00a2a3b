From Coq Require Import Reals List ZArith Lra Lia Bool.
From Coquelicot Require Import Coquelicot.
From Verif Require Import Base Calc GeoUtilsModel GeoUtilsProofs CoordModel CoordProofs2 ConvModel ConvProofs MetricModel MetricSpec MetricProofs MetricProofs2 MetricProofs3 MetricProofs4 MetricProofs5.
Import ListNotations.
Open Scope R_scope.

(** *** C28 *)
Lemma radius_si_iff c G q : 0 < c -> 0 < G ->
  (schwarzschild_radius c G (NQty q) = 2 * G * si q / c ^ 2 <-> q_val q = 0 \/ q_scale q = 1).
Proof.
  intros Hc HG. unfold schwarzschild_radius, si. cbn [prim].
  assert (E : 2 * G * q_val q / c ^ 2 - 2 * G * (q_val q * q_scale q) / c ^ 2 = (2 * G / c ^ 2) * (q_val q * (1 - q_scale q))) by (field; lra).
  assert (K : 2 * G / c ^ 2 <> 0). { apply Rgt_not_eq. apply Rdiv_lt_0_compat; [lra|apply pow_lt; exact Hc]. }
  split.
  - intros H. assert (Z : (2 * G / c ^ 2) * (q_val q * (1 - q_scale q)) = 0) by (rewrite <- E, H; ring).
    apply Rmult_integral in Z. destruct Z as [Z|Z]; [contradiction|]. apply Rmult_integral in Z. destruct Z; [left|right]; lra.
  - intros H. assert (q_val q * (1 - q_scale q) = 0) as Z by (destruct H as [->| ->]; ring). rewrite Z in E. lra.
Qed.
Lemma radius_units_refuted c G : 0 < c -> 0 < G ->
  exists p q, same_arg (NQty p) (NQty q) /\ q_dim p = DMass
    /\ schwarzschild_radius c G (NQty p) <> schwarzschild_radius c G (NQty q).
Proof.
  intros Hc HG. exists (mkqty 1 1000 DMass), (mkqty 1000 1 DMass). split; [|split; [reflexivity|]].
  - split; [reflexivity|]. unfold si; cbn [q_val q_scale]. ring.
  - unfold schwarzschild_radius; cbn [prim q_val]. intros E.
    assert (K : 0 < 2 * G / c ^ 2) by (apply Rdiv_lt_0_compat; [lra|apply pow_lt; exact Hc]).
    replace (2 * G * 1 / c ^ 2) with (2 * G / c ^ 2) in E by (unfold Rdiv; ring).
    replace (2 * G * 1000 / c ^ 2) with (1000 * (2 * G / c ^ 2)) in E by (unfold Rdiv; ring). lra.
Qed.
(** equal SI values AND SI units: then every metric function agrees *)
Lemma si_units_same p q : same_arg (NQty p) (NQty q) -> q_scale p = 1 -> q_scale q = 1 -> prim (NQty p) = prim (NQty q).
Proof. intros [_ H] H1 H2. unfold si in H. rewrite H1, H2 in H. cbn [prim]. lra. Qed.

(** *** C32 *)
Lemma alpha_error_iff c G M a : bm_alpha c G M a = Err ValueError <-> ~ (0 <= prim a <= 1).
Proof.
  split.
  - intros H V. rewrite bm_alpha_valid in H by exact V. discriminate.
  - intros H. apply bm_alpha_invalid. lra.
Qed.
Lemma alpha_value c G M a : c <> 0 -> 0 <= prim a <= 1 -> bm_alpha c G M a = Ok (prim a * (schwarzschild_radius c G M / 2)).
Proof. intros Hc H. rewrite bm_alpha_valid by exact H. f_equal. unfold schwarzschild_radius. field. exact Hc. Qed.
Lemma sigma_rho_delta c G Cc r th M a Q al : c <> 0 -> bm_alpha c G M a = Ok al ->
  sigma c G r th M a = Ok (prim r ^ 2 + al ^ 2 * cos (prim th) ^ 2)
  /\ (exists rh, rho c G r th M a = Ok rh /\ 0 <= rh /\ sigma c G r th M a = Ok (rh ^ 2))
  /\ delta c G Cc r M a Q = Ok (prim r ^ 2 - schwarzschild_radius c G M * prim r + al ^ 2 + G * Cc * prim Q ^ 2 / c ^ 4)
  /\ delta c G Cc r M a (NFloat 0) = Ok (prim r ^ 2 - schwarzschild_radius c G M * prim r + al ^ 2).
Proof.
  intros Hc HA.
  assert (V : 0 <= prim a <= 1).
  { destruct (Rle_dec 0 (prim a)), (Rle_dec (prim a) 1); try lra; rewrite (proj2 (alpha_error_iff c G M a)) in HA by lra; discriminate. }
  assert (HB : bm_alpha c G (NFloat (prim M)) (NFloat (prim a)) = Ok al) by exact HA.
  assert (HS : sigma c G r th M a = Ok (prim r ^ 2 + al ^ 2 * cos (prim th) ^ 2)).
  { unfold sigma. rewrite HB. cbn [bindR]. f_equal. ring. }
  assert (N : 0 <= prim r ^ 2 + al ^ 2 * cos (prim th) ^ 2).
  { rewrite <- Rpow_mult_distr. assert (0 <= prim r ^ 2) by apply pow2_ge_0. assert (0 <= (al * cos (prim th)) ^ 2) by apply pow2_ge_0. lra. }
  split; [exact HS|]. split; [|split].
  - exists (sqrt (prim r ^ 2 + al ^ 2 * cos (prim th) ^ 2)). unfold rho. rewrite HS. cbn [bindR]. rewrite np_sqrt_ok by exact N.
    split; [reflexivity|]. split; [apply sqrt_pos|]. f_equal. symmetry. apply pow2_sqrt. exact N.
  - unfold delta. rewrite HB. cbn [bindR]. f_equal. unfold schwarzschild_radius, Rdiv. ring.
  - unfold delta. rewrite HB. cbn [bindR]. f_equal. unfold schwarzschild_radius, Rdiv. cbn [prim]. ring.
Qed.
Lemma helpers_invalid c G Cc r th M a Q : ~ (0 <= prim a <= 1) ->
  sigma c G r th M a = Err ValueError /\ rho c G r th M a = Err ValueError /\ delta c G Cc r M a Q = Err ValueError.
Proof.
  intros H. assert (E : bm_alpha c G (NFloat (prim M)) (NFloat (prim a)) = Err ValueError) by (apply alpha_error_iff; exact H).
  unfold rho, sigma, delta. rewrite E. repeat split; reflexivity.
Qed.

(** *** C33 *)
Lemma quadratic_roots (b k r : R) : 0 <= b ^ 2 - 4 * k ->
  (r ^ 2 - b * r + k = 0 <-> r = (b - sqrt (b ^ 2 - 4 * k)) / 2 \/ r = (b + sqrt (b ^ 2 - 4 * k)) / 2).
Proof.
  intros H. set (s := sqrt (b ^ 2 - 4 * k)). assert (S : s * s = b ^ 2 - 4 * k) by (apply sqrt_sqrt; exact H).
  assert (E : r ^ 2 - b * r + k = (r - (b - s) / 2) * (r - (b + s) / 2)).
  { replace ((r - (b - s) / 2) * (r - (b + s) / 2)) with (r ^ 2 - b * r + (b ^ 2 - s * s) / 4) by field. rewrite S. field. }
  rewrite E. split.
  - intros Z. apply Rmult_integral in Z. destruct Z; [left|right]; lra.
  - intros [->| ->]; ring.
Qed.
(** the black-hole condition r_s^2 >= 4 (alpha^2 + r_Q^2) *)
Definition charge_radius2 (c G Cc : R) (o : mobj) : R := q_val (mo_Q o) ^ 2 * G * Cc / c ^ 4.
Definition black_hole (c G Cc : R) (o : mobj) : Prop :=
  valid_spin o /\ 0 <= sch_rad c G o /\ 4 * (al_of c G o ^ 2 + charge_radius2 c G Cc o) <= sch_rad c G o ^ 2.
Lemma sing_bl c G Cc o : c <> 0 -> 0 <= G -> 0 <= Cc -> mo_name o = NKerr \/ mo_name o = NKerrNewman -> mo_sys o = BL -> black_hole c G Cc o ->
  exists s, singularities c G Cc o = Ok s
   /\ (forall r, delta c G Cc (NFloat r) (NQty (mo_M o)) (NQty (mo_a o)) (NQty (mo_Q o)) = Ok 0 <-> r = in_hor s \/ r = out_hor s)
   /\ forall th, exists e1 e2, in_ergo s th = Ok e1 /\ out_ergo s th = Ok e2
       /\ (forall r d, delta c G Cc (NFloat r) (NQty (mo_M o)) (NQty (mo_a o)) (NQty (mo_Q o)) = Ok d ->
             (d - (al_of c G o * sin th) ^ 2 = 0 <-> r = e1 \/ r = e2))
       /\ 0 <= e1 <= in_hor s /\ in_hor s <= out_hor s /\ out_hor s <= e2.
Proof.
  intros Hc HG HC Hn Hs [Hv [Hr Hb]]. set (al := al_of c G o) in *. set (rs := sch_rad c G o) in *. set (q := charge_radius2 c G Cc o) in *.
  assert (Hq : 0 <= q).
  { unfold q, charge_radius2, Rdiv. apply Rmult_le_pos.
    - apply Rmult_le_pos; [apply Rmult_le_pos; [apply pow2_ge_0|exact HG]|exact HC].
    - left. apply Rinv_0_lt_compat. replace (c ^ 4) with ((c ^ 2) ^ 2) by ring. apply pow2_gt_0. apply pow_nonzero. exact Hc. }
  assert (A : bm_alpha c G (NFloat (q_val (mo_M o))) (NFloat (q_val (mo_a o))) = Ok al) by (apply bm_alpha_valid; exact Hv).
  assert (Ers : 2 * q_val (mo_M o) * G / c ^ 2 = rs) by (unfold rs, sch_rad, schwarzschild_radius; cbn [prim]; unfold Rdiv; ring).
  assert (Dl : forall r, delta c G Cc (NFloat r) (NQty (mo_M o)) (NQty (mo_a o)) (NQty (mo_Q o)) = Ok (r ^ 2 - rs * r + (al ^ 2 + q))).
  { intros r. unfold delta. cbn [prim]. rewrite A. cbn [bindR]. rewrite Ers. f_equal. unfold q, charge_radius2. ring. }
  set (h := rs ^ 2 - 4 * (al ^ 2 + q)). assert (Hh : 0 <= h) by (unfold h; lra).
  set (e th := rs ^ 2 - 4 * ((al * cos th) ^ 2 + q)).
  assert (He : forall th, h <= e th).
  { intros th. unfold h, e. assert ((al * cos th) ^ 2 <= al ^ 2); [|lra]. rewrite Rpow_mult_distr.
    assert (B := sin2_cos2 th). unfold Rsqr in B. assert (0 <= al ^ 2) by apply pow2_ge_0. assert (0 <= sin th * sin th) by nra.
    replace (cos th ^ 2) with (1 - sin th * sin th) by (rewrite <- B; ring). nra. }
  assert (Eh : rs ^ 2 - 4 * al ^ 2 - 4 * q = h) by (unfold h; ring).
  assert (Ee : forall th, rs ^ 2 - 4 * (al * cos th) ^ 2 - 4 * q = e th) by (intros; unfold e; ring).
  assert (Eq : q_val (mo_Q o) ^ 2 * G * Cc / c ^ 4 = q) by reflexivity.
  eexists. split.
  { unfold singularities. rewrite A. cbn [bindR]. rewrite Ers, Eq, Eh.
    destruct Hn as [Hn|Hn]; rewrite Hn, Hs; rewrite np_sqrt_ok by exact Hh; cbn [bindR]; reflexivity. }
  cbn [in_hor out_hor in_ergo out_ergo].
  split.
  { intros r. rewrite Dl. transitivity (r ^ 2 - rs * r + (al ^ 2 + q) = 0); [split; [intros E; apply Ok_inj in E; exact E|intros ->; reflexivity]|].
    apply quadratic_roots. exact Hh. }
  intros th. assert (Eth : 0 <= e th) by (specialize (He th); lra).
  exists ((rs - sqrt (e th)) / 2), ((rs + sqrt (e th)) / 2). rewrite Ee, np_sqrt_ok by exact Eth. cbn [bindR].
  split; [reflexivity|]. split; [reflexivity|]. split.
  { intros r d E. rewrite Dl in E. apply Ok_inj in E. subst d.
    replace (r ^ 2 - rs * r + (al ^ 2 + q) - (al * sin th) ^ 2) with (r ^ 2 - rs * r + ((al * cos th) ^ 2 + q)).
    - apply quadratic_roots. exact Eth.
    - rewrite !Rpow_mult_distr, sin2_pow. ring. }
  assert (S0 : 0 <= sqrt h) by apply sqrt_pos.
  assert (S1 : sqrt h <= sqrt (e th)) by (apply sqrt_le_1_alt; apply He).
  assert (S2 : sqrt (e th) <= rs).
  { rewrite <- (sqrt_pow2 rs) by exact Hr. apply sqrt_le_1_alt. unfold e. assert (0 <= (al * cos th) ^ 2) by apply pow2_ge_0. lra. }
  repeat split; lra.
Qed.
Lemma sing_wrong_system c G Cc o : valid_spin o ->
  (match mo_name o with NKerr | NKerrNewman => mo_sys o <> BL | _ => mo_sys o <> Sph end <-> singularities c G Cc o = Err CoordinateError).
Proof.
  intros Hv. unfold singularities. rewrite bm_alpha_valid by exact Hv. cbn [bindR].
  destruct (mo_name o), (mo_sys o); try (split; [intros H; try reflexivity; congruence|intros H; try discriminate; congruence]);
  (split; [congruence|]); unfold np_sqrt; destruct Rle_dec; cbn [bindR]; discriminate.
Qed.
Lemma sing_sch c G Cc o : valid_spin o -> mo_sys o = Sph -> mo_name o = NSchwarzschild ->
  exists s, singularities c G Cc o = Ok s /\ (forall th, in_ergo s th = Ok (in_hor s) /\ out_ergo s th = Ok (out_hor s))
   /\ in_hor s = 0 /\ out_hor s = sch_rad c G o
   /\ forall x, ((exists g, sch_cov c G o x = Ok g) <-> c1 x <> in_hor s /\ c1 x <> out_hor s).
Proof.
  intros Hv Hs Hn. unfold singularities. rewrite bm_alpha_valid by exact Hv. cbn [bindR]. rewrite Hn, Hs.
  eexists. split; [reflexivity|]. cbn [in_ergo out_ergo in_hor out_hor].
  assert (Ers : 2 * q_val (mo_M o) * G / c ^ 2 = sch_rad c G o) by (unfold sch_rad, schwarzschild_radius; cbn [prim]; unfold Rdiv; ring).
  split; [split; reflexivity|]. split; [reflexivity|]. split; [exact Ers|]. intros x. rewrite Ers. unfold sch_cov. rewrite Hs. split.
  - intros [g H]. apply finite_if_inv in H. destruct H as [_ H]. inversion_clear H as [|? ? H1 H']. inversion_clear H' as [|? ? H2 _].
    split; [exact H1|]. intros E. apply H2. rewrite <- E. field. exact H1.
  - intros [H1 H2]. eexists. apply finite_if_ok. repeat constructor; [exact H1|].
    intros E. apply H2. replace (c1 x) with (c1 x * (1 - sch_rad c G o / c1 x) + sch_rad c G o) by (field; exact H1). rewrite E. ring.
Qed.
(** an uncharged Kerr black hole: the metric array is finite exactly off the reported horizons and off the ring *)
Lemma sing_kerr_metric c G Cc o : c <> 0 -> 0 <= G -> 0 <= Cc -> mo_name o = NKerr -> mo_sys o = BL -> q_val (mo_Q o) = 0 -> black_hole c G Cc o ->
  exists s, singularities c G Cc o = Ok s /\
   forall x, ((exists g, kerr_cov c G Cc o x = Ok g) <->
      c1 x <> in_hor s /\ c1 x <> out_hor s /\ ~ sigma c G (NFloat (c1 x)) (NFloat (c2 x)) (NQty (mo_M o)) (NQty (mo_a o)) = Ok 0).
Proof.
  intros Hc HG HC Hn Hs Hq Hb. destruct (sing_bl c G Cc o Hc HG HC (or_introl Hn) Hs Hb) as [s [Es [Hh _]]].
  exists s. split; [exact Es|]. intros x. destruct Hb as [Hv _].
  assert (E1 : delta c G Cc (NFloat (c1 x)) (NQty (mo_M o)) (NQty (mo_a o)) (NQty (mo_Q o)) = Ok (dl_of (sch_rad c G o) (al_of c G o) (c1 x))).
  { unfold delta. cbn [prim]. rewrite bm_alpha_valid by exact Hv. cbn [bindR prim]. rewrite Hq. f_equal.
    unfold dl_of, sch_rad, schwarzschild_radius, al_of. cbn [prim]. unfold Rdiv. ring. }
  assert (E2 : sigma c G (NFloat (c1 x)) (NFloat (c2 x)) (NQty (mo_M o)) (NQty (mo_a o)) = Ok (sg_of (al_of c G o) (c1 x) (c2 x))).
  { unfold sigma. cbn [prim]. rewrite bm_alpha_valid by exact Hv. reflexivity. }
  specialize (Hh (c1 x)). rewrite E1 in Hh. rewrite E2. split.
  - intros [g Hg]. apply kerr_cov_dom in Hg. destruct Hg as [_ [_ [H3 H4]]].
    assert (N : ~ (c1 x = in_hor s \/ c1 x = out_hor s)) by (intros K; apply Hh in K; apply Ok_inj in K; contradiction).
    split; [tauto|]. split; [tauto|]. intros K. apply Ok_inj in K. contradiction.
  - intros [H1 [H2 H3]]. eexists. apply kerr_cov_eq. repeat split; try assumption; try apply Hv.
    + intros K. apply H3. rewrite K. reflexivity.
    + intros K. rewrite K in Hh. destruct (proj1 Hh eq_refl); contradiction.
Qed.

(** *** C34: where the Schwarzschild connection is defined *)
Lemma sch_christoffels_defined c G o x :
  (exists ch, sch_christoffels c G o x = Ok ch) <-> mo_sys o = Sph /\ c1 x <> 0 /\ c1 x <> sch_rad c G o /\ sin (c2 x) <> 0.
Proof.
  unfold sch_christoffels. split.
  - intros [ch H]. destruct (mo_sys o); try discriminate. apply finite_if_inv in H. destruct H as [_ H].
    inversion_clear H as [|? ? H1 H']. inversion_clear H' as [|? ? H2 H'']. inversion_clear H'' as [|? ? H3 _].
    repeat split; try assumption. intros E. apply H2. rewrite <- E. ring.
  - intros [-> [H1 [H2 H3]]]. eexists. apply finite_if_ok. repeat constructor; try assumption.
    replace (sch_rad c G o * c1 x - c1 x ^ 2) with (c1 x * (sch_rad c G o - c1 x)) by ring.
    apply Rmult_integral_contrapositive_currified; [exact H1|]. intros E. apply H2. lra.
Qed.
Lemma sch_wrong_system c G o x v : mo_sys o <> Sph ->
  sch_cov c G o x = Err CoordinateError /\ sch_christoffels c G o x = Err CoordinateError /\ sch_f_vec c G o x v = Err CoordinateError.
Proof. intros H. unfold sch_cov, sch_christoffels, sch_f_vec. destruct (mo_sys o); try congruence; repeat split; reflexivity. Qed.
Lemma bl_wrong_system c G Cc o x v : mo_sys o <> BL ->
  kerr_cov c G Cc o x = Err CoordinateError /\ kerr_christoffels c G Cc o x = Err CoordinateError /\ kerr_f_vec c G Cc o x v = Err CoordinateError
  /\ kn_cov c G Cc o x = Err CoordinateError /\ kn_christoffels c G Cc o x = Err CoordinateError /\ kn_f_vec c G Cc o x v = Err CoordinateError.
Proof.
  intros H. unfold kerr_cov, kerr_christoffels, kerr_f_vec, kn_cov, kn_christoffels, kn_f_vec.
  destruct (mo_sys o); try congruence; repeat split; reflexivity.
Qed.
