(* generated from tools/P/P_Metric.v.in by tools/genp.py: statements only, proofs are references *)
(** Properties C28, C32-C43 and C95: the metric classes of einsteinpy.metric in SI units. *)
From Coq Require Import Reals List ZArith Lra Lia Bool.
From Coquelicot Require Import Coquelicot.
From Verif Require Import Base Calc GeoUtilsModel GeoUtilsProofs CoordModel CoordProofs2 ConvModel ConvProofs MetricModel MetricSpec.
From Verif Require Import MetricProofs MetricProofs2 MetricProofs3 MetricProofs4 MetricProofs5 MetricProofs6 MetricProofs7 MetricProofs8 MetricKilling.
Import ListNotations.
Open Scope R_scope.

(** C28 as stated is false: 1 tonne and 1000 kg give different radii *)
Theorem C28_radius_units_refuted : forall c G,
  0 < c -> 0 < G ->
  exists p q, same_arg (NQty p) (NQty q) /\ q_dim p = DMass
  /\ schwarzschild_radius c G (NQty p) <> schwarzschild_radius c G (NQty q).
Proof. exact MetricProofs6.radius_units_refuted. Qed.
Print Assumptions C28_radius_units_refuted.

(** the radius is right exactly for zero mass or SI units *)
Theorem C28_radius_correct_iff : forall c G q,
  0 < c -> 0 < G ->
  (schwarzschild_radius c G (NQty q) = 2 * G * si q / c ^ 2 <-> q_val q = 0 \/ q_scale q = 1).
Proof. exact MetricProofs6.radius_si_iff. Qed.
Print Assumptions C28_radius_correct_iff.

Theorem C28_si_units_same : forall p q,
  same_arg (NQty p) (NQty q) -> q_scale p = 1 -> q_scale q = 1 -> prim (NQty p) = prim (NQty q).
Proof. exact MetricProofs6.si_units_same. Qed.
Print Assumptions C28_si_units_same.

Example C28_nonvacuous : same_arg (NQty (mkqty 2 1 DMass)) (NQty (mkqty 2 1 DMass)) /\ schwarzschild_radius 1 1 (NQty (mkqty 2 1 DMass)) = 4.
Proof. split; [split; reflexivity|]. unfold schwarzschild_radius; cbn [prim q_val]. field. Qed.

(** C32: ValueError exactly outside [0,1] *)
Theorem C32_alpha_error_iff : forall c G M a,
  bm_alpha c G M a = Err ValueError <-> ~ (0 <= prim a <= 1).
Proof. exact MetricProofs6.alpha_error_iff. Qed.
Print Assumptions C32_alpha_error_iff.

Theorem C32_alpha_value : forall c G M a,
  c <> 0 -> 0 <= prim a <= 1 -> bm_alpha c G M a = Ok (prim a * (schwarzschild_radius c G M / 2)).
Proof. exact MetricProofs6.alpha_value. Qed.
Print Assumptions C32_alpha_value.

Theorem C32_sigma_rho_delta : forall c G Cc r th M a Q al,
  c <> 0 -> bm_alpha c G M a = Ok al ->
  sigma c G r th M a = Ok (prim r ^ 2 + al ^ 2 * cos (prim th) ^ 2)
  /\ (exists rh, rho c G r th M a = Ok rh /\ 0 <= rh /\ sigma c G r th M a = Ok (rh ^ 2))
  /\ delta c G Cc r M a Q = Ok (prim r ^ 2 - schwarzschild_radius c G M * prim r + al ^ 2 + G * Cc * prim Q ^ 2 / c ^ 4)
  /\ delta c G Cc r M a (NFloat 0) = Ok (prim r ^ 2 - schwarzschild_radius c G M * prim r + al ^ 2).
Proof. exact MetricProofs6.sigma_rho_delta. Qed.
Print Assumptions C32_sigma_rho_delta.

Theorem C32_helpers_invalid : forall c G Cc r th M a Q,
  ~ (0 <= prim a <= 1) ->
  sigma c G r th M a = Err ValueError /\ rho c G r th M a = Err ValueError /\ delta c G Cc r M a Q = Err ValueError.
Proof. exact MetricProofs6.helpers_invalid. Qed.
Print Assumptions C32_helpers_invalid.

Example C32_nonvacuous : bm_alpha 1 1 (NFloat 4) (NFloat (1/2)) = Ok (1/2 * (1 * 4 / 1 ^ 2)) /\ bm_alpha 1 1 (NFloat 4) (NFloat 2) = Err ValueError.
Proof. split; [apply bm_alpha_valid; cbn [prim]; lra|apply C32_alpha_error_iff; cbn [prim]; lra]. Qed.

(** C33: horizons = roots of delta, ergospheres = zeros of g_00's numerator, ordered *)
Theorem C33_kerr_singularities : forall c G Cc o,
  c <> 0 -> 0 <= G -> 0 <= Cc -> mo_name o = NKerr \/ mo_name o = NKerrNewman -> mo_sys o = BL -> black_hole c G Cc o ->
  exists s, singularities c G Cc o = Ok s
  /\ (forall r, delta c G Cc (NFloat r) (NQty (mo_M o)) (NQty (mo_a o)) (NQty (mo_Q o)) = Ok 0 <-> r = in_hor s \/ r = out_hor s)
  /\ forall th, exists e1 e2, in_ergo s th = Ok e1 /\ out_ergo s th = Ok e2
  /\ (forall r d, delta c G Cc (NFloat r) (NQty (mo_M o)) (NQty (mo_a o)) (NQty (mo_Q o)) = Ok d ->
  (d - (al_of c G o * sin th) ^ 2 = 0 <-> r = e1 \/ r = e2))
  /\ 0 <= e1 <= in_hor s /\ in_hor s <= out_hor s /\ out_hor s <= e2.
Proof. exact MetricProofs6.sing_bl. Qed.
Print Assumptions C33_kerr_singularities.

Theorem C33_kerr_metric_finite_iff : forall c G Cc o,
  c <> 0 -> 0 <= G -> 0 <= Cc -> mo_name o = NKerr -> mo_sys o = BL -> q_val (mo_Q o) = 0 -> black_hole c G Cc o ->
  exists s, singularities c G Cc o = Ok s /\
  forall x, ((exists g, kerr_cov c G Cc o x = Ok g) <->
  c1 x <> in_hor s /\ c1 x <> out_hor s /\ ~ sigma c G (NFloat (c1 x)) (NFloat (c2 x)) (NQty (mo_M o)) (NQty (mo_a o)) = Ok 0).
Proof. exact MetricProofs6.sing_kerr_metric. Qed.
Print Assumptions C33_kerr_metric_finite_iff.

Theorem C33_schwarzschild : forall c G Cc o,
  valid_spin o -> mo_sys o = Sph -> mo_name o = NSchwarzschild ->
  exists s, singularities c G Cc o = Ok s /\ (forall th, in_ergo s th = Ok (in_hor s) /\ out_ergo s th = Ok (out_hor s))
  /\ in_hor s = 0 /\ out_hor s = sch_rad c G o
  /\ forall x, ((exists g, sch_cov c G o x = Ok g) <-> c1 x <> in_hor s /\ c1 x <> out_hor s).
Proof. exact MetricProofs6.sing_sch. Qed.
Print Assumptions C33_schwarzschild.

Theorem C33_coordinate_error_iff : forall c G Cc o,
  valid_spin o ->
  (match mo_name o with NKerr | NKerrNewman => mo_sys o <> BL | _ => mo_sys o <> Sph end <-> singularities c G Cc o = Err CoordinateError).
Proof. exact MetricProofs6.sing_wrong_system. Qed.
Print Assumptions C33_coordinate_error_iff.

Example C33_nonvacuous : black_hole 1 1 1 (wit 1 1 NKerrNewman (3/5) (4/5) 0).
Proof.
  split; [unfold valid_spin, wit; cbn [mo_a q_val]; lra|]. rewrite wit_rs, wit_al by lra. unfold charge_radius2, wit; cbn [mo_Q q_val]. lra.
Qed.

(** C34: tabulated symbols = Levi-Civita connection of metric_covariant *)
Theorem C34_connection : forall c G o x ch,
  c <> 0 -> sch_christoffels c G o x = Ok ch -> is_connection (sch_cov c G o) x ch.
Proof. exact MetricProofs2.sch_connection. Qed.
Print Assumptions C34_connection.

Theorem C34_defined_iff : forall c G o x,
  (exists ch, sch_christoffels c G o x = Ok ch) <-> mo_sys o = Sph /\ c1 x <> 0 /\ c1 x <> sch_rad c G o /\ sin (c2 x) <> 0.
Proof. exact MetricProofs6.sch_christoffels_defined. Qed.
Print Assumptions C34_defined_iff.

Theorem C34_wrong_system : forall c G o x v,
  mo_sys o <> Sph ->
  sch_cov c G o x = Err CoordinateError /\ sch_christoffels c G o x = Err CoordinateError /\ sch_f_vec c G o x v = Err CoordinateError.
Proof. exact MetricProofs6.sch_wrong_system. Qed.
Print Assumptions C34_wrong_system.

Example C34_nonvacuous : exists ch, sch_christoffels 1 1 (mkmobj NSchwarzschild Sph (mkqty 1 1 DMass) (mkqty 0 1 DOne) (mkqty 0 1 DCharge) (mkqty 0 1 DOne)) (mkQ4 0 4 (PI / 2) 0) = Ok ch.
Proof.
  apply C34_defined_iff. cbn [mo_sys c1 c2]. unfold sch_rad, schwarzschild_radius. cbn [prim mo_M q_val]. rewrite sin_PI2. repeat split; lra.
Qed.

(** C35 as stated is false: the [1,3,3] entry has a wrong sign *)
Theorem C35_kerr_dgdx_refuted : forall c G Cc,
  0 < c -> 0 < G ->
  exists o x dg, mo_sys o = BL /\ valid_spin o /\ kerr_dgdx c G Cc o x = Ok dg /\ ~ is_partials (kerr_cov c G Cc o) x dg.
Proof. exact MetricProofs5.kerr_dgdx_refuted. Qed.
Print Assumptions C35_kerr_dgdx_refuted.

(** all other entries are right; the error of [1,3,3] in closed form *)
Theorem C35_kerr_dgdx_exact : forall c G Cc o x dg,
  mo_sys o = BL -> kerr_dgdx c G Cc o x = Ok dg ->
  exists dg', is_gradient (kerr_cov c G Cc o) x dg'
  /\ (forall k i j, (k, i, j) <> (1, 3, 3)%nat -> dg k i j = dg' k i j)
  /\ dg 1%nat 3%nat 3%nat - dg' 1%nat 3%nat 3%nat =
  2 * (al_of c G o * sin (c2 x)) ^ 2 * (sch_rad c G o * (sg_of (al_of c G o) (c1 x) (c2 x) - 2 * c1 x ^ 2)
  / sg_of (al_of c G o) (c1 x) (c2 x) ^ 2) * sin (c2 x) ^ 2.
Proof. exact MetricProofs4.kerr_dgdx_exact. Qed.
Print Assumptions C35_kerr_dgdx_exact.


(** C36 *)
Theorem C36_kn_dgdx_gradient : forall c G Cc o x dg,
  mo_sys o = BL -> kn_dgdx c G Cc o x = Ok dg -> is_gradient (kn_cov c G Cc o) x dg.
Proof. exact MetricProofs4.kn_dgdx_gradient. Qed.
Print Assumptions C36_kn_dgdx_gradient.

Theorem C36_gradient_is_partials : forall cov x dg,
  is_gradient cov x dg -> is_partials cov x dg.
Proof. exact MetricSpec.gradient_partials. Qed.
Print Assumptions C36_gradient_is_partials.

Theorem C36_kn_connection : forall c G Cc o x ch,
  kn_christoffels c G Cc o x = Ok ch -> is_connection (kn_cov c G Cc o) x ch.
Proof. exact MetricProofs4.kn_connection. Qed.
Print Assumptions C36_kn_connection.

Example C36_nonvacuous : bl_dom 1 1 (wit 1 1 NKerrNewman (1/2) 1 0) (mkQ4 0 4 (PI / 2) 0).
Proof.
  split; [reflexivity|]. split; [unfold valid_spin, wit; cbn [mo_a q_val]; lra|]. rewrite wit_al, wit_rs by lra. unfold sg_of, dl_of. cbn [c1 c2].
  rewrite cos_PI2. split; lra.
Qed.

(** C37 as stated is false: the charge never enters the metric *)
Theorem C37_kn_metric_refuted : forall c G Cc,
  0 < c -> 0 < G -> 0 < Cc ->
  exists o x g, black_hole c G Cc o /\ kn_cov c G Cc o x = Ok g
  /\ g <> kn_textbook c (al_of c G o) (sch_rad c G o) (charge_radius2 c G Cc o) (c1 x) (c2 x).
Proof. exact MetricProofs7.kn_metric_refuted. Qed.
Print Assumptions C37_kn_metric_refuted.

Theorem C37_charged_always_wrong : forall c G Cc o x g,
  0 < c -> 0 < G -> 0 < Cc -> q_val (mo_Q o) <> 0 -> kn_cov c G Cc o x = Ok g ->
  g <> kn_textbook c (al_of c G o) (sch_rad c G o) (charge_radius2 c G Cc o) (c1 x) (c2 x).
Proof. exact MetricProofs7.kn_charged_wrong. Qed.
Print Assumptions C37_charged_always_wrong.

Theorem C37_charge_error : forall c G Cc o x g,
  kn_cov c G Cc o x = Ok g ->
  mnth g 0 0 - mnth (kn_textbook c (al_of c G o) (sch_rad c G o) (charge_radius2 c G Cc o) (c1 x) (c2 x)) 0 0
  = - (c ^ 2 * charge_radius2 c G Cc o / sg_of (al_of c G o) (c1 x) (c2 x)).
Proof. exact MetricProofs7.kn_charge_error. Qed.
Print Assumptions C37_charge_error.

Theorem C37_charge_ignored : forall c G Cc o Q x,
  kn_cov c G Cc (mkmobj (mo_name o) (mo_sys o) (mo_M o) (mo_a o) Q (mo_q o)) x = kn_cov c G Cc o x.
Proof. exact MetricProofs7.kn_ignores_charge. Qed.
Print Assumptions C37_charge_ignored.

Theorem C37_uncharged_textbook : forall c G Cc o x g,
  kn_cov c G Cc o x = Ok g ->
  g = kn_textbook c (al_of c G o) (sch_rad c G o) 0 (c1 x) (c2 x).
Proof. exact MetricProofs7.kn_is_textbook_uncharged. Qed.
Print Assumptions C37_uncharged_textbook.

Theorem C37_finite_at_reported_horizon : forall c G Cc o s x,
  0 < c -> 0 < G -> 0 < Cc -> q_val (mo_Q o) <> 0 -> mo_name o = NKerrNewman -> mo_sys o = BL ->
  black_hole c G Cc o -> singularities c G Cc o = Ok s -> c1 x = out_hor s -> exists g, kn_cov c G Cc o x = Ok g.
Proof. exact MetricProofs7.kn_finite_at_horizon. Qed.
Print Assumptions C37_finite_at_reported_horizon.


(** C38: the sparse loops compute the full contraction *)
Theorem C38_sparse_complete : forall gc dg,
  block_contra gc -> block_grad dg -> eq3 (bl_ch gc dg) (levi_civita gc dg).
Proof. exact MetricProofs3.sparse_complete. Qed.
Print Assumptions C38_sparse_complete.

Theorem C38_list_exact : 
  (forall t, In t nonzero_list <-> In t nonzero_christoffels) /\ NoDup nonzero_list /\ length nonzero_list = 32%nat.
Proof. exact MetricProofs3.nonzero_list_exact. Qed.
Print Assumptions C38_list_exact.

Theorem C38_list_sound : forall gc dg i k l,
  block_contra gc -> block_grad dg -> (i < 4)%nat -> (k < 4)%nat -> (l < 4)%nat ->
  ~ In (i, k, l) nonzero_list -> levi_civita gc dg i k l = 0.
Proof. exact MetricProofs3.nonzero_list_sound. Qed.
Print Assumptions C38_list_sound.

Theorem C38_kerr_blocks : forall c rs al sg dl r th,
  block_grad (kerr_dg c rs al sg dl r th).
Proof. exact MetricProofs4.kerr_dg_block. Qed.
Print Assumptions C38_kerr_blocks.

Theorem C38_kn_blocks : forall c rs al sg dl r th,
  block_grad (kn_dg c rs al sg dl r th).
Proof. exact MetricProofs4.kn_dg_block. Qed.
Print Assumptions C38_kn_blocks.

Example C38_nonvacuous : block_contra (kn_g 1 (1/2) 4 2 3 1) /\ block_grad (kn_dg 1 2 (1/2) 4 2 3 1).
Proof.
  split; [|apply kn_dg_block]. intros i j Hi Hj. idx4 i Hi; (idx4 j Hj); cbv [blk2 Nat.eqb orb andb]; intros H; try discriminate; reflexivity.
Qed.

(** C39 *)
Theorem C39_schwarzschild : forall c G o x v v' a,
  sch_f_vec c G o x v = Ok (v', a) ->
  v' = v /\ exists ch, sch_christoffels c G o x = Ok ch /\ a = geodesic_accel ch v.
Proof. exact MetricProofs5.sch_f_vec_spec. Qed.
Print Assumptions C39_schwarzschild.

Theorem C39_kerr : forall c G Cc o x v v' a,
  kerr_f_vec c G Cc o x v = Ok (v', a) ->
  v' = v /\ exists ch, kerr_christoffels c G Cc o x = Ok ch /\ a = geodesic_accel ch v.
Proof. exact MetricProofs5.kerr_f_vec_spec. Qed.
Print Assumptions C39_kerr.

Theorem C39_kerr_newman : forall c G Cc o x v v' a,
  kn_f_vec c G Cc o x v = Ok (v', a) ->
  v' = v /\ exists ch F g, kn_christoffels c G Cc o x = Ok ch /\ em_tensor_contravariant c G Cc o x = Ok F /\ kn_cov c G Cc o x = Ok g
  /\ a = vsub (geodesic_accel ch v) (vscal (q_val (mo_q o)) (vm (mv F v) g)).
Proof. exact MetricProofs5.kn_f_vec_spec. Qed.
Print Assumptions C39_kerr_newman.

Theorem C39_kerr_newman_uncharged : forall c G Cc o x v v' a,
  q_val (mo_q o) = 0 -> kn_f_vec c G Cc o x v = Ok (v', a) ->
  v' = v /\ exists ch, kn_christoffels c G Cc o x = Ok ch /\ a = geodesic_accel ch v.
Proof. exact MetricProofs5.kn_f_vec_uncharged. Qed.
Print Assumptions C39_kerr_newman_uncharged.

Theorem C39_wrong_system : forall c G Cc o x v,
  mo_sys o <> BL ->
  kerr_cov c G Cc o x = Err CoordinateError /\ kerr_christoffels c G Cc o x = Err CoordinateError /\ kerr_f_vec c G Cc o x v = Err CoordinateError
  /\ kn_cov c G Cc o x = Err CoordinateError /\ kn_christoffels c G Cc o x = Err CoordinateError /\ kn_f_vec c G Cc o x v = Err CoordinateError.
Proof. exact MetricProofs6.bl_wrong_system. Qed.
Print Assumptions C39_wrong_system.


(** C40 *)
Theorem C40_schwarzschild : forall c G o p w a b,
  c <> 0 -> a <= b ->
  (forall t, a <= t <= b -> exists acc, has_velocity p t (w t) /\ sch_f_vec c G o (p t) (w t) = Ok (w t, acc) /\ has_velocity w t acc) ->
  norm_along (sch_cov c G o) p w a = norm_along (sch_cov c G o) p w b.
Proof. exact MetricProofs5.sch_norm_constant. Qed.
Print Assumptions C40_schwarzschild.

Theorem C40_kerr_newman : forall c G Cc o p w a b,
  q_val (mo_q o) = 0 -> a <= b ->
  (forall t, a <= t <= b -> exists acc, has_velocity p t (w t) /\ kn_f_vec c G Cc o (p t) (w t) = Ok (w t, acc) /\ has_velocity w t acc) ->
  norm_along (kn_cov c G Cc o) p w a = norm_along (kn_cov c G Cc o) p w b.
Proof. exact MetricProofs5.kn_norm_constant. Qed.
Print Assumptions C40_kerr_newman.

Theorem C40_kerr_drift : forall c G Cc o p w t v' a,
  has_velocity p t (w t) -> kerr_f_vec c G Cc o (p t) (w t) = Ok (v', a) -> has_velocity w t a ->
  let al := al_of c G o in let r := c1 (p t) in let th := c2 (p t) in let sg := sg_of al r th in
  is_derive (norm_along (kerr_cov c G Cc o) p w) t
  (- (2 * (al * sin th) ^ 2 * (sch_rad c G o * (sg - 2 * r ^ 2) / sg ^ 2) * sin th ^ 2) * c1 (w t) * c3 (w t) ^ 2).
Proof. exact MetricProofs5.kerr_norm_drift. Qed.
Print Assumptions C40_kerr_drift.

Theorem C40_kerr_refuted : forall c G Cc,
  0 < c -> 0 < G ->
  exists o p w a d, mo_sys o = BL /\ valid_spin o /\ has_velocity p 0 (w 0)
  /\ kerr_f_vec c G Cc o (p 0) (w 0) = Ok (w 0, a) /\ has_velocity w 0 a
  /\ is_derive (norm_along (kerr_cov c G Cc o) p w) 0 d /\ d <> 0.
Proof. exact MetricProofs5.kerr_norm_refuted. Qed.
Print Assumptions C40_kerr_refuted.


(** C41 *)
Theorem C41_antisymmetric : forall c G Cc o x F,
  em_tensor_covariant c G Cc o x = Ok F -> antisymmetric4 F.
Proof. exact MetricProofs7.em_antisym. Qed.
Print Assumptions C41_antisymmetric.

Theorem C41_contra_antisymmetric : forall c G Cc o x F,
  em_tensor_contravariant c G Cc o x = Ok F -> antisymmetric4 F.
Proof. exact MetricProofs7.em_contra_antisym. Qed.
Print Assumptions C41_contra_antisymmetric.

(** the electric components are dA, the (1,3) and (2,3) components are -dA *)
Theorem C41_exterior_derivative_exact : forall c G Cc o x F,
  0 < c -> 0 < G -> 0 < Cc -> em_tensor_covariant c G Cc o x = Ok F ->
  exists dA, is_vgradient (em_potential_covariant c G Cc o) x dA
  /\ (forall i j, (i < 4)%nat -> (j < 4)%nat -> (i = 0 \/ j = 0 \/ (i < 3 /\ j < 3))%nat -> mnth F i j = dA i j - dA j i)
  /\ mnth F 1 3 = - (dA 1%nat 3%nat - dA 3%nat 1%nat) /\ mnth F 2 3 = - (dA 2%nat 3%nat - dA 3%nat 2%nat).
Proof. exact MetricProofs7.em_tensor_exact. Qed.
Print Assumptions C41_exterior_derivative_exact.

Theorem C41_exterior_derivative_partial : forall c G Cc o x F,
  0 < c -> 0 < G -> 0 < Cc -> em_tensor_covariant c G Cc o x = Ok F -> al_of c G o = 0 \/ q_val (mo_Q o) = 0 ->
  exists dA, is_vgradient (em_potential_covariant c G Cc o) x dA
  /\ forall i j, (i < 4)%nat -> (j < 4)%nat -> mnth F i j = dA i j - dA j i.
Proof. exact MetricProofs7.em_tensor_partial. Qed.
Print Assumptions C41_exterior_derivative_partial.

Theorem C41_exterior_derivative_refuted : forall c G Cc,
  0 < c -> 0 < G -> 0 < Cc ->
  exists o x F dA, black_hole c G Cc o /\ em_tensor_covariant c G Cc o x = Ok F /\ is_vgradient (em_potential_covariant c G Cc o) x dA
  /\ mnth F 1 3 <> dA 1%nat 3%nat - dA 3%nat 1%nat.
Proof. exact MetricProofs7.em_tensor_refuted. Qed.
Print Assumptions C41_exterior_derivative_refuted.

Theorem C41_gradient_unique : forall A x d d' k i,
  is_vgradient A x d -> is_vgradient A x d' -> (k < 4)%nat -> (i < 4)%nat -> d k i = d' k i.
Proof. exact MetricProofs7.vgradient_unique. Qed.
Print Assumptions C41_gradient_unique.


(** C42: exact rate of change of the norm of a charged particle *)
Theorem C42_drift : forall c G Cc o p w t v' a,
  has_velocity p t (w t) -> kn_f_vec c G Cc o (p t) (w t) = Ok (v', a) -> has_velocity w t a ->
  exists g F, kn_cov c G Cc o (p t) = Ok g /\ em_tensor_contravariant c G Cc o (p t) = Ok F /\
  is_derive (norm_along (kn_cov c G Cc o) p w) t (- 2 * q_val (mo_q o) * inner g (w t) (vm (mv F (w t)) g)).
Proof. exact MetricProofs7.kn_norm_drift. Qed.
Print Assumptions C42_drift.

Theorem C42_lorentz_refuted : forall c G Cc,
  2 < c -> 0 < G -> 0 < Cc ->
  exists o p w a d, black_hole c G Cc o /\ has_velocity p 0 (w 0)
  /\ kn_f_vec c G Cc o (p 0) (w 0) = Ok (w 0, a) /\ has_velocity w 0 a
  /\ is_derive (norm_along (kn_cov c G Cc o) p w) 0 d /\ d <> 0.
Proof. exact MetricProofs8.kn_lorentz_refuted. Qed.
Print Assumptions C42_lorentz_refuted.

(** the contraction F^ij g_jk v^k would preserve it *)
Theorem C42_textbook_force_orthogonal : forall g F v,
  sym4 g -> antisymmetric4 F -> inner g v (mv F (mv g v)) = 0.
Proof. exact MetricProofs7.lorentz_force_orthogonal. Qed.
Print Assumptions C42_textbook_force_orthogonal.


(** C43 *)
Theorem C43_perturbation : forall cov pert x,
  (forall g, cov x = Ok g ->
  match pert with
  | None => base_metric_covariant cov pert x = Ok g
  | Some p => (forall h, p x = Ok h -> exists s, base_metric_covariant cov pert x = Ok s
  /\ forall i j, (i < 4)%nat -> (j < 4)%nat -> mnth s i j = mnth g i j + mnth h i j)
  /\ (forall e, p x = Err e -> base_metric_covariant cov pert x = Err e)
  end)
  /\ (forall e, cov x = Err e -> base_metric_covariant cov pert x = Err e).
Proof. exact MetricProofs8.base_cov_spec. Qed.
Print Assumptions C43_perturbation.

Theorem C43_inverse_iff : forall cov x g,
  cov x = Ok g ->
  (forall gi, metric_contravariant cov x = Ok gi <-> is_inverse g gi)
  /\ (metric_contravariant cov x = Err LinAlgError <-> ~ exists gi, is_inverse g gi).
Proof. exact MetricProofs8.contravariant_inverse. Qed.
Print Assumptions C43_inverse_iff.

Theorem C43_error : forall cov x e,
  cov x = Err e -> metric_contravariant cov x = Err e.
Proof. exact MetricProofs8.contravariant_error. Qed.
Print Assumptions C43_error.

Theorem C43_symmetric : forall c G Cc o x g,
  sch_cov c G o x = Ok g \/ kerr_cov c G Cc o x = Ok g \/ kn_cov c G Cc o x = Ok g -> sym4 g.
Proof. exact MetricProofs8.si_metrics_symmetric. Qed.
Print Assumptions C43_symmetric.

Theorem C43_contra_symmetric : forall cov x g gi,
  cov x = Ok g -> sym4 g -> metric_contravariant cov x = Ok gi -> sym4 gi.
Proof. exact MetricProofs8.contra_symmetric. Qed.
Print Assumptions C43_contra_symmetric.

Theorem C43_kerr_defined_iff : forall c G Cc o x,
  c <> 0 ->
  ((exists gi, metric_contravariant (kerr_cov c G Cc o) x = Ok gi) <-> bl_dom c G o x /\ sin (c2 x) <> 0).
Proof. exact MetricProofs8.kerr_contra_defined. Qed.
Print Assumptions C43_kerr_defined_iff.

Example C43_nonvacuous : is_inverse (diag4 2 (-1) (-1) (-1)) (diag4 (/2) (/-1) (/-1) (/-1)).
Proof. apply diag4_inv; lra. Qed.

(** C95. [lowered cov p w mu s] is sum_j g_mu,j(p s) w^j(s): mu = 0 the energy, mu = 3 the axial angular momentum, up to constants. *)
(** C95 *)
Theorem C95_schwarzschild : forall c G o p w a b mu,
  c <> 0 -> (mu = 0 \/ mu = 3)%nat -> a <= b ->
  (forall t, a <= t <= b -> exists acc, has_velocity p t (w t) /\ sch_f_vec c G o (p t) (w t) = Ok (w t, acc) /\ has_velocity w t acc) ->
  lowered (sch_cov c G o) p w mu a = lowered (sch_cov c G o) p w mu b.
Proof. exact MetricKilling.sch_lowered_constant. Qed.
Print Assumptions C95_schwarzschild.

Theorem C95_kerr_newman_uncharged_particle : forall c G Cc o p w a b mu,
  q_val (mo_q o) = 0 -> (mu = 0 \/ mu = 3)%nat -> a <= b ->
  (forall t, a <= t <= b -> exists acc, has_velocity p t (w t) /\ kn_f_vec c G Cc o (p t) (w t) = Ok (w t, acc) /\ has_velocity w t acc) ->
  lowered (kn_cov c G Cc o) p w mu a = lowered (kn_cov c G Cc o) p w mu b.
Proof. exact MetricKilling.kn_lowered_constant. Qed.
Print Assumptions C95_kerr_newman_uncharged_particle.

Theorem C95_kerr_energy : forall c G Cc o p w a b,
  a <= b ->
  (forall t, a <= t <= b -> exists acc, has_velocity p t (w t) /\ kerr_f_vec c G Cc o (p t) (w t) = Ok (w t, acc) /\ has_velocity w t acc) ->
  lowered (kerr_cov c G Cc o) p w 0 a = lowered (kerr_cov c G Cc o) p w 0 b.
Proof. exact MetricKilling.kerr_energy_constant. Qed.
Print Assumptions C95_kerr_energy.

(** the exact rate of change for Kerr: the angular momentum drifts *)
Theorem C95_kerr_rate : forall c G Cc o p w t v' a mu,
  (mu = 0 \/ mu = 3)%nat ->
  has_velocity p t (w t) -> kerr_f_vec c G Cc o (p t) (w t) = Ok (v', a) -> has_velocity w t a ->
  let al := al_of c G o in let r := c1 (p t) in let th := c2 (p t) in let sg := sg_of al r th in
  is_derive (lowered (kerr_cov c G Cc o) p w mu) t
  (if Nat.eqb mu 3 then - (2 * (al * sin th) ^ 2 * (sch_rad c G o * (sg - 2 * r ^ 2) / sg ^ 2) * sin th ^ 2) * c1 (w t) * c3 (w t) else 0).
Proof. exact MetricKilling.kerr_lowered_drift. Qed.
Print Assumptions C95_kerr_rate.

Theorem C95_kerr_angular_momentum_refuted : forall c G Cc,
  0 < c -> 0 < G ->
  exists o p w a d, mo_sys o = BL /\ valid_spin o /\ has_velocity p 0 (w 0)
  /\ kerr_f_vec c G Cc o (p 0) (w 0) = Ok (w 0, a) /\ has_velocity w 0 a
  /\ is_derive (lowered (kerr_cov c G Cc o) p w 3) 0 d /\ d <> 0.
Proof. exact MetricKilling.kerr_momentum_refuted. Qed.
Print Assumptions C95_kerr_angular_momentum_refuted.

(** the circular orbit at r = 4M *)
Example C95_nonvacuous : let o := mkmobj NSchwarzschild Sph (mkqty 1 1 DMass) (mkqty 0 1 DOne) (mkqty 0 1 DCharge) (mkqty 0 1 DOne) in
  let p := fun s => mkQ4 (8 * s) 4 (PI / 2) s in let w := fun _ : R => mkQ4 8 0 0 1 in
  (forall t, exists acc, has_velocity p t (w t) /\ sch_f_vec 1 1 o (p t) (w t) = Ok (w t, acc) /\ has_velocity w t acc) /\
  lowered (sch_cov 1 1 o) p w 3 0 <> 0.
Proof.
  cbv zeta. set (o := mkmobj _ _ _ _ _ _). assert (Hr : sch_rad 1 1 o = 2) by (unfold sch_rad, schwarzschild_radius, o; cbn [prim mo_M q_val]; field).
  split.
  - intros t. exists (mkQ4 0 0 0 0). split; [|split].
    + intros k Hk. idx4 k Hk; cbn [q4nth c0 c1 c2 c3]; auto_derive; (exact I || ring).
    + unfold sch_f_vec, sch_christoffels. change (mo_sys o) with Sph. cbv iota. cbn [c1 c2]. rewrite Hr, sin_PI2.
      rewrite finite_if_ok by (repeat constructor; lra). cbn [bindR]. apply f_equal, f_equal. unfold sch_accel. cbn [c0 c1 c2 c3].
      assert (E1 : sch_ch 1 2 4 (PI / 2) 1%nat 0%nat 0%nat * 64 + sch_ch 1 2 4 (PI / 2) 1%nat 3%nat 3%nat = 0).
      { unfold sch_ch; cbn. rewrite sin_PI2. field. }
      assert (E2 : sch_ch 1 2 4 (PI / 2) 2%nat 3%nat 3%nat = 0).
      { unfold sch_ch; cbn. rewrite cos_PI2. field. }
      f_equal; try ring; [|rewrite E2; ring]. transitivity (-1 * (sch_ch 1 2 4 (PI / 2) 1%nat 0%nat 0%nat * 64 + sch_ch 1 2 4 (PI / 2) 1%nat 3%nat 3%nat)); [ring|rewrite E1; ring].
    + intros k Hk. idx4 k Hk; cbn [q4nth c0 c1 c2 c3]; auto_derive; (exact I || ring).
  - unfold lowered, sch_cov. change (mo_sys o) with Sph. cbv iota. cbn [c1 c2]. rewrite Hr, finite_if_ok by (repeat constructor; lra).
    unfold sum4, entry, sch_g. cbn [q4nth mnth c0 c1 c2 c3]. rewrite sin_PI2. cbn. lra.
Qed.
