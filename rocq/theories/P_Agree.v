(* generated from tools/P/P_Agree.v.in by tools/genp.py: statements only, proofs are references *)
(** Property C108: the three descriptions of the black holes in einsteinpy agree: the symbolic predefined metrics (einsteinpy.symbolic.predefined),
   the numeric classes (einsteinpy.metric) and the metric functions of einsteinpy.geodesic.
   A valuation p gives values to the symbols; p 0 .. p 3 are the coordinates, [at4 p] the point they form, [eval e p] the value of expression e.
   [param e]: e does not contain the coordinates.  [sch_chart], [kerr_chart], [kn_chart]: valuations where the symbolic metric and its inverse are defined.
   [inverts U simp minv G]: simplify preserves values and the matrix inverter finds the inverse of G on U.
   [christoffels_from_metric (metric_of U simp minv G)] models ChristoffelSymbols.from_metric; [ev U e p] is the value of its entry e.
   [sch_rad c G o] = 2GM/c^2 and [al_of c G o] = a GM/c^2 are the Schwarzschild radius and spin parameter of the numeric object o.
   [sch_cov], [kerr_cov], [kn_cov] are metric_covariant, [.._christoffels] the numeric Christoffel arrays; [metric_at] evaluates the metric functions of geodesic/utils.py.
   [inverts_at m G p]: the matrix m is the inverse of minus the value of the symbolic metric G at p (geodesic uses signature -+++, predefined +---). *)
From Coq Require Import String Ascii Reals List Arith Lia Lra.
From Coquelicot Require Import Coquelicot.
From Verif Require Import Base Calc CoordModel ConvModel CoordProofs2 MetricModel MetricSpec MetricProofs MetricProofs2 MetricProofs3 MetricProofs4 MetricProofs6 MetricUnify.
From Verif Require Import SymAlg SymModel ExprModel PredefModel PredefBridge PredefProofs PredefProofs2 PredefKerr PredefKN PredefFinal PredefNum.
Import ListNotations.
Open Scope R_scope.

(** metric_covariant is c^2 times the symbolic metric *)
Theorem C108_schwarzschild_metric : forall c sch Gv o p,
  eval sch p = sch_rad (eval c p) Gv o -> mo_sys o = Sph -> sch_chart c sch p ->
  exists g, sch_cov (eval c p) Gv o (at4 p) = Ok g /\ forall i j, (i < 4)%nat -> (j < 4)%nat -> mnth g i j = eval c p ^ 2 * eval (Schwarzschild c sch i j) p.
Proof. exact PredefNum.sch_values. Qed.
Print Assumptions C108_schwarzschild_metric.

Theorem C108_kerr_metric : forall c sch a Gv Cv o p,
  mo_sys o = BL -> valid_spin o -> eval sch p = sch_rad (eval c p) Gv o -> eval a p = al_of (eval c p) Gv o -> kerr_chart c sch a p ->
  exists g, kerr_cov (eval c p) Gv Cv o (at4 p) = Ok g /\ forall i j, (i < 4)%nat -> (j < 4)%nat -> mnth g i j = eval c p ^ 2 * eval (Kerr c sch a i j) p.
Proof. exact PredefNum.kerr_values. Qed.
Print Assumptions C108_kerr_metric.

(** without charge *)
Theorem C108_kerr_newman_metric : forall c G eps_0 sch a Q Gv Cv o p,
  mo_sys o = BL -> valid_spin o -> eval sch p = sch_rad (eval c p) Gv o -> eval a p = al_of (eval c p) Gv o ->
  eval (rQsqE c G eps_0 Q) p = 0 -> kn_chart c G eps_0 sch a Q p ->
  exists g, kn_cov (eval c p) Gv Cv o (at4 p) = Ok g /\ forall i j, (i < 4)%nat -> (j < 4)%nat -> mnth g i j = eval c p ^ 2 * eval (KerrNewman c G eps_0 sch a Q i j) p.
Proof. exact PredefNum.kn_values. Qed.
Print Assumptions C108_kerr_newman_metric.

Theorem C108_schwarzschild_christoffels : forall c sch simp minv,
  param c -> param sch -> inverts (sch_chart c sch) simp minv (Schwarzschild c sch) ->
  exists chs, christoffels_from_metric (metric_of (sch_chart c sch) simp minv (Schwarzschild c sch)) = Ok chs /\
  forall Gv o p, mo_sys o = Sph -> sch_chart c sch p -> eval sch p = sch_rad (eval c p) Gv o ->
  exists ch, sch_christoffels (eval c p) Gv o (at4 p) = Ok ch /\
  forall i j k, (i < 4)%nat -> (j < 4)%nat -> (k < 4)%nat -> ch i j k = ev _ (t_arr chs [i; j; k]) p.
Proof. exact PredefNum.sch_christoffels_agree. Qed.
Print Assumptions C108_schwarzschild_christoffels.

(** without charge *)
Theorem C108_kerr_newman_christoffels : forall c G eps_0 sch a Q simp minv,
  param c -> param G -> param eps_0 -> param sch -> param a -> param Q ->
  inverts (kn_chart c G eps_0 sch a Q) simp minv (KerrNewman c G eps_0 sch a Q) ->
  exists chs, christoffels_from_metric (metric_of (kn_chart c G eps_0 sch a Q) simp minv (KerrNewman c G eps_0 sch a Q)) = Ok chs /\
  forall Gv Cv o p, mo_sys o = BL -> valid_spin o -> kn_chart c G eps_0 sch a Q p -> eval sch p = sch_rad (eval c p) Gv o -> eval a p = al_of (eval c p) Gv o -> eval Q p = 0 ->
  exists ch, kn_christoffels (eval c p) Gv Cv o (at4 p) = Ok ch /\
  forall i j k, (i < 4)%nat -> (j < 4)%nat -> (k < 4)%nat -> ch i j k = ev _ (t_arr chs [i; j; k]) p.
Proof. exact PredefNum.kn_christoffels_agree. Qed.
Print Assumptions C108_kerr_newman_christoffels.

(** the numeric Kerr-Newman class has the symbolic Kerr symbols; the numeric Kerr class differs from them by multiples of kerr_err *)
Theorem C108_kerr_christoffels : forall c sch a simp minv,
  param c -> param sch -> param a ->
  inverts (kerr_chart c sch a) simp minv (Kerr c sch a) ->
  exists chs, christoffels_from_metric (metric_of (kerr_chart c sch a) simp minv (Kerr c sch a)) = Ok chs /\
  forall Gv Cv o p, mo_sys o = BL -> valid_spin o -> kerr_chart c sch a p -> eval sch p = sch_rad (eval c p) Gv o -> eval a p = al_of (eval c p) Gv o ->
  (exists ch, kn_christoffels (eval c p) Gv Cv o (at4 p) = Ok ch /\ forall i j k, (i < 4)%nat -> (j < 4)%nat -> (k < 4)%nat -> ch i j k = ev _ (t_arr chs [i; j; k]) p) /\
  exists ch g gi, kerr_christoffels (eval c p) Gv Cv o (at4 p) = Ok ch /\ kerr_cov (eval c p) Gv Cv o (at4 p) = Ok g /\ MetricSpec.is_inverse g gi /\
  forall i j k, (i < 4)%nat -> (j < 4)%nat -> (k < 4)%nat ->
  ch i j k - ev _ (t_arr chs [i; j; k]) p = kerr_err (eval c p) Gv o (at4 p) * (mnth gi i 3 * (MetricUnify.kd j 1 * MetricUnify.kd k 3 + MetricUnify.kd j 3 * MetricUnify.kd k 1) - mnth gi i 1 * (MetricUnify.kd j 3 * MetricUnify.kd k 3)).
Proof. exact PredefNum.kerr_christoffels_agree. Qed.
Print Assumptions C108_kerr_christoffels.

(** equal exactly where kerr_err vanishes *)
Theorem C108_kerr_christoffels_iff : forall c sch a simp minv,
  param c -> param sch -> param a ->
  inverts (kerr_chart c sch a) simp minv (Kerr c sch a) ->
  exists chs, christoffels_from_metric (metric_of (kerr_chart c sch a) simp minv (Kerr c sch a)) = Ok chs /\
  forall Gv Cv o p, mo_sys o = BL -> valid_spin o -> kerr_chart c sch a p -> eval sch p = sch_rad (eval c p) Gv o -> eval a p = al_of (eval c p) Gv o ->
  exists ch, kerr_christoffels (eval c p) Gv Cv o (at4 p) = Ok ch /\
  ((forall i j k, (i < 4)%nat -> (j < 4)%nat -> (k < 4)%nat -> ch i j k = ev _ (t_arr chs [i; j; k]) p) <-> kerr_err (eval c p) Gv o (at4 p) = 0).
Proof. exact PredefNum.kerr_christoffels_iff. Qed.
Print Assumptions C108_kerr_christoffels_iff.

(** which is not everywhere *)
Theorem C108_kerr_christoffels_refuted : 
  exists o p, mo_sys o = BL /\ valid_spin o /\ kerr_chart (EVar 4) (EVar 5) (EVar 6) p /\ eval (EVar 5) p = sch_rad (eval (EVar 4) p) 1 o /\ eval (EVar 6) p = al_of (eval (EVar 4) p) 1 o /\
  forall simp minv chs ch, inverts (kerr_chart (EVar 4) (EVar 5) (EVar 6)) simp minv (Kerr (EVar 4) (EVar 5) (EVar 6)) ->
  christoffels_from_metric (metric_of (kerr_chart (EVar 4) (EVar 5) (EVar 6)) simp minv (Kerr (EVar 4) (EVar 5) (EVar 6))) = Ok chs ->
  kerr_christoffels (eval (EVar 4) p) 1 1 o (at4 p) = Ok ch -> ch 1%nat 3%nat 3%nat <> ev _ (t_arr chs [1; 3; 3]%nat) p.
Proof. exact PredefNum.kerr_agree_refuted. Qed.
Print Assumptions C108_kerr_christoffels_refuted.

(** the numeric Kerr-Newman metric ignores the charge: exact difference of the time component *)
Theorem C108_charge : forall c G eps_0 sch a Q Gv Cv o p,
  mo_sys o = BL -> valid_spin o -> eval c p <> 0 -> eval sch p = sch_rad (eval c p) Gv o -> eval a p = al_of (eval c p) Gv o ->
  bl_dom (eval c p) Gv o (at4 p) -> exists g, kn_cov (eval c p) Gv Cv o (at4 p) = Ok g /\
  eval c p ^ 2 * eval (KerrNewman c G eps_0 sch a Q 0%nat 0%nat) p - mnth g 0 0 = eval c p ^ 2 * eval (rQsqE c G eps_0 Q) p / (p 1%nat ^ 2 + (eval a p * cos (p 2%nat)) ^ 2).
Proof. exact PredefNum.kn_charge_difference. Qed.
Print Assumptions C108_charge.

(** so it never agrees with the symbolic metric of a charged black hole *)
Theorem C108_charge_refuted : forall c G eps_0 sch a Q Gv Cv o p g,
  eval c p <> 0 -> eval sch p = sch_rad (eval c p) Gv o -> eval a p = al_of (eval c p) Gv o ->
  eval (rQsqE c G eps_0 Q) p <> 0 -> kn_cov (eval c p) Gv Cv o (at4 p) = Ok g -> mnth g 0 0 <> eval c p ^ 2 * eval (KerrNewman c G eps_0 sch a Q 0%nat 0%nat) p.
Proof. exact PredefNum.kn_charge_refuted. Qed.
Print Assumptions C108_charge_refuted.

Theorem C108_geodesic_schwarzschild : forall c sch p,
  eval c p = 1 -> eval sch p = 2 -> sch_chart c sch p ->
  exists m, GeoUtilsModel.metric_at GeoUtilsModel.schE (at4 p) = Ok m /\ inverts_at m (Schwarzschild c sch) p.
Proof. exact PredefNum.sch_geodesic_agrees. Qed.
Print Assumptions C108_geodesic_schwarzschild.

Theorem C108_geodesic_kerr : forall c sch a av p,
  eval c p = 1 -> eval sch p = 2 -> eval a p = av -> kerr_chart c sch a p ->
  exists m, GeoUtilsModel.metric_at (GeoUtilsModel.kerrE av) (at4 p) = Ok m /\ inverts_at m (Kerr c sch a) p.
Proof. exact PredefNum.kerr_geodesic_agrees. Qed.
Print Assumptions C108_geodesic_kerr.

(** here with the charge *)
Theorem C108_geodesic_kerr_newman : forall c G eps_0 sch a Q av Qv p,
  eval c p = 1 -> eval sch p = 2 -> eval a p = av -> eval (rQsqE c G eps_0 Q) p = Qv * Qv -> kn_chart c G eps_0 sch a Q p ->
  exists m, GeoUtilsModel.metric_at (GeoUtilsModel.kerrnewmanE av Qv) (at4 p) = Ok m /\ inverts_at m (KerrNewman c G eps_0 sch a Q) p.
Proof. exact PredefNum.kn_geodesic_agrees. Qed.
Print Assumptions C108_geodesic_kerr_newman.

Example C108_nonvacuous : let o := mkmobj NKerrNewman BL (mkqty 1 1 DMass) (mkqty (1 / 2) 1 DOne) (mkqty 0 1 DCharge) (mkqty 0 1 DOne) in
  let p := pt [0; 4; PI / 2; 0; 1; 4 * PI; 1; 2; 1 / 2; 0] in
  (exists simp minv, inverts (kn_chart (EVar 4) (EVar 5) (EVar 6) (EVar 7) (EVar 8) (EVar 9)) simp minv (KerrNewman (EVar 4) (EVar 5) (EVar 6) (EVar 7) (EVar 8) (EVar 9))) /\
  mo_sys o = BL /\ valid_spin o /\ kn_chart (EVar 4) (EVar 5) (EVar 6) (EVar 7) (EVar 8) (EVar 9) p /\
  eval (EVar 7) p = sch_rad (eval (EVar 4) p) 1 o /\ eval (EVar 8) p = al_of (eval (EVar 4) p) 1 o /\ eval (EVar 9) p = 0.
Proof.
  cbv zeta. split; [eexists _, _; eapply table_inverts, kn_table; apply param_var; lia|]. split; [reflexivity|]. split; [unfold valid_spin; cbn [mo_a q_val]; lra|].
  assert (P := PI_RGT_0). split.
  { unfold kn_chart, pt, rQsqE, Esq, Epow. cbn [eval nth]. rewrite cos_PI2. split; [split; lra|]. split; [rewrite sin_PI2; lra|]. split; [lra|].
    replace (0 * 0 * (4 * PI) / (4 * PI * 1 * (1 * 1 * 1 * 1))) with 0 by (field; lra). lra. }
  unfold sch_rad, schwarzschild_radius, al_of, pt. cbn [eval nth prim mo_M mo_a q_val]. repeat split; field.
Qed.
(** the charged case of geodesic: Q = 1 *)
Example C108_nonvacuous_charge : let p := pt [0; 4; PI / 2; 0; 1; 4 * PI; 1; 2; 1 / 2; 1] in
  kn_chart (EVar 4) (EVar 5) (EVar 6) (EVar 7) (EVar 8) (EVar 9) p /\ eval (EVar 4) p = 1 /\ eval (EVar 7) p = 2 /\ eval (EVar 8) p = 1 / 2 /\ eval (rQsqE (EVar 4) (EVar 5) (EVar 6) (EVar 9)) p = 1 * 1.
Proof.
  assert (P := PI_RGT_0). cbv zeta. unfold kn_chart, pt, rQsqE, Esq, Epow. cbn [eval nth]. rewrite cos_PI2.
  replace (1 * 1 * (4 * PI) / (4 * PI * 1 * (1 * 1 * 1 * 1))) with 1 by (field; lra).
  split; [split; [split; lra|]; split; [rewrite sin_PI2; lra|]; split; lra|]. repeat split; lra.
Qed.
