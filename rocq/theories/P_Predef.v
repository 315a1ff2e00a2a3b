(* generated from tools/P/P_Predef.v.in by tools/genp.py: statements only, proofs are references *)
(** Properties C61-C65 and C79-C82: the predefined metrics of einsteinpy.symbolic.predefined.
    Coordinates are the symbols 0..3; a parameter ([param e]) is any expression defined everywhere that does not depend on them.
    [inverts U simp minv G]: the oracle behind sympy's simplify and Matrix.inv is correct and finds an inverse of G on the chart U.
    [has_riemann], [has_ricci], [has_scalar]: the value at every point of U of what RiemannCurvatureTensor.from_metric,
    RicciTensor.from_metric and RicciScalar.from_metric return for the MetricTensor with entries G. *)
From Coq Require Import String Ascii Reals List Arith Lia Lra.
From Verif Require Import Base SymAlg SymModel ExprModel PredefModel PredefBridge PredefProofs PredefProofs2 PredefKerr PredefDiag PredefDiag2 PredefKN PredefFinal PredefSpecial.
Import ListNotations.
Local Open Scope R_scope.

(** the MetricTensor's entries are the matrix's *)
Theorem C61_entries : forall U G Gi T simp minv,
  table U G Gi T -> forall i j p, (i < 4)%nat -> (j < 4)%nat -> ev U (m_arr (metric_of U simp minv G) [i; j]) p = eval (G i j) p.
Proof. exact PredefFinal.entries. Qed.
Print Assumptions C61_entries.

(** C61 *)
Theorem C61_minkowski_flat : forall c simp minv,
  param c -> inverts (mc_chart c) simp minv (MinkowskiCartesian c) ->
  has_riemann (mc_chart c) simp minv (MinkowskiCartesian c) (fun _ _ _ _ _ => 0).
Proof. exact PredefFinal.mink_cart_flat. Qed.
Print Assumptions C61_minkowski_flat.

Theorem C61_minkowski_polar_flat : forall c simp minv,
  param c -> inverts (mp_chart c) simp minv (MinkowskiPolar c) ->
  has_riemann (mp_chart c) simp minv (MinkowskiPolar c) (fun _ _ _ _ _ => 0).
Proof. exact PredefFinal.mink_polar_flat. Qed.
Print Assumptions C61_minkowski_polar_flat.

Theorem C61_ads_static_einstein : forall simp minv,
  inverts ads_chart simp minv AntiDeSitterStatic ->
  has_ricci ads_chart simp minv AntiDeSitterStatic (fun s v p => -3 * eval (AntiDeSitterStatic s v) p).
Proof. exact PredefFinal.ads_static_einstein. Qed.
Print Assumptions C61_ads_static_einstein.

Theorem C61_ads_einstein : forall simp minv,
  inverts adc_chart simp minv AntiDeSitter ->
  has_ricci adc_chart simp minv AntiDeSitter (fun s v p => -3 * eval (AntiDeSitter s v) p).
Proof. exact PredefFinal.ads_einstein. Qed.
Print Assumptions C61_ads_einstein.

Ltac inh := try exact I; try apply table_inverts; try (apply param_var; lia); try apply param_const.
Lemma half_pi_pt : sin (PI / 2) <> 0. Proof. rewrite sin_PI2. lra. Qed.
Example C61_nonvacuous : (exists simp minv, inverts (mp_chart (EVar 4)) simp minv (MinkowskiPolar (EVar 4))) /\ mp_chart (EVar 4) (pt [0; 2; PI / 2; 0; 3]) /\
  (exists simp minv, inverts adc_chart simp minv AntiDeSitter) /\ adc_chart (pt [0; 2; PI / 2; 0]).
Proof.
  split; [|split; [|split]].
  - eexists _, _. eapply table_inverts, mp_table. apply param_var. lia.
  - unfold mp_chart, pt. cbn [eval nth]. split; [lra|]. split; [lra|apply half_pi_pt].
  - eexists _, _. apply (table_inverts _ _ _ _ adc_table).
  - unfold adc_chart, pt. cbn [nth]. rewrite cos_0. split; [lra|]. split; [lra|apply half_pi_pt].
Qed.

(** C62 *)
Theorem C62_schwarzschild_vacuum : forall c sch simp minv,
  param c -> param sch -> inverts (sch_chart c sch) simp minv (Schwarzschild c sch) ->
  has_ricci (sch_chart c sch) simp minv (Schwarzschild c sch) (fun _ _ _ => 0).
Proof. exact PredefFinal.sch_vacuum. Qed.
Print Assumptions C62_schwarzschild_vacuum.

Example C62_nonvacuous : (exists simp minv, inverts (sch_chart (EVar 4) (EVar 5)) simp minv (Schwarzschild (EVar 4) (EVar 5))) /\ param (EVar 4) /\ param (EVar 5) /\
  sch_chart (EVar 4) (EVar 5) (pt [0; 10; PI / 2; 0; 3; 2]).
Proof.
  split; [|split; [|split]]; try (apply param_var; lia).
  - eexists _, _. eapply table_inverts, sch_table; apply param_var; lia.
  - unfold sch_chart, pt. cbn [eval nth]. split; [split; lra|]. split; [lra|apply half_pi_pt].
Qed.

(** C63: the Ricci tensor of the line element as coded *)
Theorem C63_coded : forall c simp minv,
  param c -> inverts (ds_chart c) simp minv (DeSitter c) ->
  has_ricci (ds_chart c) simp minv (DeSitter c) (fun s v p => if (Nat.eqb s v && Nat.leb 2 s)%bool then - (1 / (eval c p * eval c p)) else 0).
Proof. exact PredefFinal.ds_coded. Qed.
Print Assumptions C63_coded.

(** the documented line element, with t the time coordinate, would satisfy the property *)
Theorem C63_documented : forall al simp minv,
  param al -> inverts (ds_chart al) simp minv (ds_book al) ->
  has_ricci (ds_chart al) simp minv (ds_book al) (fun s v p => 3 / (eval al p * eval al p) * eval (ds_book al s v) p).
Proof. exact PredefFinal.ds_intended. Qed.
Print Assumptions C63_documented.

(** for no function k of the point is Ricci = k g *)
Theorem C63_de_sitter_refuted : forall al k simp minv,
  param al -> inverts (ds_chart al) simp minv (DeSitter al) ->
  (exists p, ds_chart al p) -> ~ has_ricci (ds_chart al) simp minv (DeSitter al) (fun s v p => k p * eval (DeSitter al s v) p).
Proof. exact PredefFinal.ds_refuted. Qed.
Print Assumptions C63_de_sitter_refuted.

Example C63_nonvacuous : (exists simp minv, inverts (ds_chart (EVar 4)) simp minv (DeSitter (EVar 4))) /\ ds_chart (EVar 4) (pt [0; 0; 0; 0; 3]).
Proof.
  split; [|unfold ds_chart, pt; cbn [eval nth]; lra].
  eexists _, _. eapply table_inverts, ds_table. apply param_var. lia.
Qed.

(** C64 *)
Theorem C64_kerr_newman_kerr : forall c G eps_0 sch a Q p,
  eval c p <> 0 -> eval eps_0 p <> 0 -> Sg a p <> 0 -> p 1%nat * p 1%nat - eval sch p * p 1%nat + eval a p * eval a p <> 0 ->
  eval Q p = 0 -> same_at p (KerrNewman c G eps_0 sch a Q) (Kerr c sch a).
Proof. exact PredefSpecial.kn_kerr. Qed.
Print Assumptions C64_kerr_newman_kerr.

Theorem C64_kerr_schwarzschild : forall c sch a p,
  eval c p <> 0 -> p 1%nat <> 0 -> p 1%nat <> eval sch p -> eval a p = 0 -> same_at p (Kerr c sch a) (Schwarzschild c sch).
Proof. exact PredefSpecial.kerr_sch. Qed.
Print Assumptions C64_kerr_schwarzschild.

Theorem C64_rn_schwarzschild : forall c G eps_0 sch Q p,
  eval c p <> 0 -> eval eps_0 p <> 0 -> p 1%nat <> 0 -> eval Q p = 0 -> same_at p (ReissnerNordstorm c G eps_0 sch Q) (Schwarzschild c sch).
Proof. exact PredefSpecial.rn_sch. Qed.
Print Assumptions C64_rn_schwarzschild.

Theorem C64_kerr_newman_rn : forall c G eps_0 sch a Q p,
  eval c p <> 0 -> p 1%nat <> 0 -> p 1%nat * p 1%nat - eval sch p * p 1%nat + eval (rQsqE c G eps_0 Q) p <> 0 ->
  eval a p = 0 -> same_at p (KerrNewman c G eps_0 sch a Q) (ReissnerNordstorm c G eps_0 sch Q).
Proof. exact PredefSpecial.kn_rn. Qed.
Print Assumptions C64_kerr_newman_rn.

Theorem C64_symmetric : forall c G eps_0 sch a Q k al om B M gam lambd C J0 J1 f h x_s sigma R v,
  Forall sym [MinkowskiCartesian c; MinkowskiPolar c; AntiDeSitter; AntiDeSitterStatic; DeSitter al; Schwarzschild c sch; Kerr c sch a;
  KerrNewman c G eps_0 sch a Q; ReissnerNordstorm c G eps_0 sch Q; BarriolaVilekin c k; BertottiKasner c lambd; Ernst B M; Godel om;
  JanisNewmanWinicour c G gam M; Davidson; CMetric f h; BesselGravitationalWave C J0 J1; AlcubierreWarp x_s sigma R v].
Proof. exact PredefSpecial.all_symmetric. Qed.
Print Assumptions C64_symmetric.

Theorem C64_barriola_minkowski : forall c k p,
  eval k p = 1 -> same_at p (BarriolaVilekin c k) (MinkowskiPolar c).
Proof. exact PredefSpecial.barriola_flat. Qed.
Print Assumptions C64_barriola_minkowski.

(** up to signature, geometric units *)
Theorem C64_ernst_schwarzschild : forall B M c sch p,
  eval c p = 1 -> eval sch p = 2 * eval M p -> p 1%nat <> 0 -> p 1%nat <> 2 * eval M p -> eval B p = 0 -> neg_at p (Ernst B M) (Schwarzschild c sch).
Proof. exact PredefSpecial.ernst_sch. Qed.
Print Assumptions C64_ernst_schwarzschild.

Theorem C64_jnw_components : forall c G gam M p,
  eval c p <> 0 -> p 1%nat <> 0 -> 0 < 1 - eval (jw_rs c G M) p / p 1%nat -> eval gam p = 1 ->
  let H := Schwarzschild c (jw_rs c G M) in let J := JanisNewmanWinicour c G gam M in
  eval (J 0%nat 0%nat) p = - eval (H 0%nat 0%nat) p /\ eval (J 1%nat 1%nat) p = - eval (H 1%nat 1%nat) p /\
  eval (J 2%nat 2%nat) p = - (eval c p ^ 2 * eval (H 2%nat 2%nat) p) /\ eval (J 3%nat 3%nat) p = - (eval c p ^ 2 * eval (H 3%nat 3%nat) p).
Proof. exact PredefSpecial.jnw_gam1. Qed.
Print Assumptions C64_jnw_components.

Theorem C64_jnw_schwarzschild : forall c G gam M p,
  eval c p ^ 2 = 1 -> p 1%nat <> 0 -> 0 < 1 - eval (jw_rs c G M) p / p 1%nat -> eval gam p = 1 ->
  neg_at p (JanisNewmanWinicour c G gam M) (Schwarzschild c (jw_rs c G M)).
Proof. exact PredefSpecial.jnw_sch. Qed.
Print Assumptions C64_jnw_schwarzschild.

(** gamma = 1, c^2 <> 1: neither Schwarzschild nor its negative *)
Theorem C64_jnw_refuted : forall c G gam M p,
  eval c p <> 0 -> eval c p ^ 2 <> 1 -> p 1%nat <> 0 -> 0 < 1 - eval (jw_rs c G M) p / p 1%nat -> eval gam p = 1 ->
  ~ neg_at p (JanisNewmanWinicour c G gam M) (Schwarzschild c (jw_rs c G M)) /\ ~ same_at p (JanisNewmanWinicour c G gam M) (Schwarzschild c (jw_rs c G M)).
Proof. exact PredefSpecial.jnw_refuted. Qed.
Print Assumptions C64_jnw_refuted.

Example C64_nonvacuous : let p := pt [0; 10; PI / 2; 0; 3; 1] in let c := EVar 4 in let M := EVar 5 in
  eval c p <> 0 /\ eval c p ^ 2 <> 1 /\ p 1%nat <> 0 /\ 0 < 1 - eval (jw_rs c E1 M) p / p 1%nat /\ eval E1 p = 1.
Proof. unfold pt, jw_rs, E1, Esq. cbn [eval nth]. split; [lra|]. split; [lra|]. split; [lra|]. split; [|reflexivity]. lra. Qed.

(** C65 *)
Theorem C65_on_axis : forall x_s p,
  p 2%nat = 0 -> p 3%nat = 0 -> eval (warp_radius x_s) p = euclid x_s p.
Proof. exact PredefSpecial.warp_axis. Qed.
Print Assumptions C65_on_axis.

Theorem C65_exactly_where : forall x_s p,
  0 <= (p 1%nat - eval x_s p) ^ 2 + p 2%nat + p 3%nat -> (eval (warp_radius x_s) p = euclid x_s p <-> p 2%nat + p 3%nat = p 2%nat ^ 2 + p 3%nat ^ 2).
Proof. exact PredefSpecial.warp_iff. Qed.
Print Assumptions C65_exactly_where.

(** the radius enters through the shape function *)
Theorem C65_metric : forall x_s sigma R v p,
  let f := eval (warp_shape (warp_radius x_s) sigma R) p in let g := AlcubierreWarp x_s sigma R v in
  forall dt dx dy dz, let d := fun i => match i with 0%nat => dt | 1%nat => dx | 2%nat => dy | _ => dz end in
  rs4 (fun i => rs4 (fun j => eval (g i j) p * d i * d j)) = - dt ^ 2 + (dx - eval v p * f * dt) ^ 2 + dy ^ 2 + dz ^ 2.
Proof. exact PredefSpecial.warp_entries. Qed.
Print Assumptions C65_metric.

Theorem C65_shape_function : forall r sigma R p,
  eval (warp_shape r sigma R) p =
  (tanh (eval sigma p * (eval r p + eval R p)) - tanh (eval sigma p * (eval r p - eval R p))) / (2 * tanh (eval sigma p * eval R p)).
Proof. exact PredefSpecial.warp_shape_is. Qed.
Print Assumptions C65_shape_function.

Theorem C65_one_at_the_ship : forall x_s sigma R p,
  p 1%nat = eval x_s p -> p 2%nat = 0 -> p 3%nat = 0 -> eval sigma p * eval R p <> 0 -> eval (warp_shape (warp_radius x_s) sigma R) p = 1.
Proof. exact PredefSpecial.warp_centre. Qed.
Print Assumptions C65_one_at_the_ship.

Theorem C65_radius_refuted : 
  exists p q : nat -> R, (forall i, i <> 2%nat -> p i = q i) /\ p 2%nat = - q 2%nat /\ euclid (EConst 0) p = euclid (EConst 0) q /\
  eval (warp_radius (EConst 0)) p <> eval (warp_radius (EConst 0)) q /\ wd (warp_radius (EConst 0)) p /\ ~ wd (warp_radius (EConst 0)) q.
Proof. exact PredefSpecial.warp_refuted. Qed.
Print Assumptions C65_radius_refuted.


(** C79 *)
Theorem C79_kerr_vacuum : forall c sch a simp minv,
  param c -> param sch -> param a -> inverts (kerr_chart c sch a) simp minv (Kerr c sch a) ->
  has_ricci (kerr_chart c sch a) simp minv (Kerr c sch a) (fun _ _ _ => 0).
Proof. exact PredefFinal.kerr_vacuum. Qed.
Print Assumptions C79_kerr_vacuum.

Example C79_nonvacuous : (exists simp minv, inverts (kerr_chart (EVar 4) (EVar 5) (EVar 6)) simp minv (Kerr (EVar 4) (EVar 5) (EVar 6))) /\
  kerr_chart (EVar 4) (EVar 5) (EVar 6) (pt [0; 10; PI / 2; 0; 3; 2; 1]).
Proof.
  split; [eexists _, _; eapply table_inverts, kerr_table; apply param_var; lia|].
  unfold kerr_chart, pt. cbn [eval nth]. rewrite cos_PI2. split; [split; [lra|apply half_pi_pt]|]. split; lra.
Qed.

(** C80 *)
Theorem C80_rn_ricci : forall c G eps_0 sch Q simp minv,
  param c -> param G -> param eps_0 -> param sch -> param Q ->
  inverts (rn_chart c G eps_0 sch Q) simp minv (ReissnerNordstorm c G eps_0 sch Q) ->
  has_ricci (rn_chart c G eps_0 sch Q) simp minv (ReissnerNordstorm c G eps_0 sch Q)
  (fun s v p => (if Nat.ltb s 2 then 1 else -1) * (eval c p ^ 2 * eval (rQsqE c G eps_0 Q) p / p 1%nat ^ 4) * eval (ReissnerNordstorm c G eps_0 sch Q s v) p).
Proof. exact PredefFinal.rn_electrovac. Qed.
Print Assumptions C80_rn_ricci.

Theorem C80_rn_scalar : forall c G eps_0 sch Q simp minv,
  param c -> param G -> param eps_0 -> param sch -> param Q ->
  inverts (rn_chart c G eps_0 sch Q) simp minv (ReissnerNordstorm c G eps_0 sch Q) ->
  has_scalar (rn_chart c G eps_0 sch Q) simp minv (ReissnerNordstorm c G eps_0 sch Q) (fun _ => 0).
Proof. exact PredefFinal.rn_scalar. Qed.
Print Assumptions C80_rn_scalar.

Theorem C80_kn_ricci : forall c G eps_0 sch a Q simp minv,
  param c -> param G -> param eps_0 -> param sch -> param a -> param Q ->
  inverts (kn_chart c G eps_0 sch a Q) simp minv (KerrNewman c G eps_0 sch a Q) ->
  has_ricci (kn_chart c G eps_0 sch a Q) simp minv (KerrNewman c G eps_0 sch a Q)
  (fun s v p => rs4 (fun m => eval (KerrNewman c G eps_0 sch a Q s m) p * kn_M c a (rQsqE c G eps_0 Q) m v p)).
Proof. exact PredefFinal.kn_electrovac. Qed.
Print Assumptions C80_kn_ricci.

Theorem C80_kn_scalar : forall c G eps_0 sch a Q simp minv,
  param c -> param G -> param eps_0 -> param sch -> param a -> param Q ->
  inverts (kn_chart c G eps_0 sch a Q) simp minv (KerrNewman c G eps_0 sch a Q) ->
  has_scalar (kn_chart c G eps_0 sch a Q) simp minv (KerrNewman c G eps_0 sch a Q) (fun _ => 0).
Proof. exact PredefFinal.kn_scalar. Qed.
Print Assumptions C80_kn_scalar.

(** the mixed Ricci tensor squares to a multiple of the identity: the algebraic mark of an electromagnetic source *)
Theorem C80_kn_rainich : forall c a q p,
  let r := p 1%nat in let x := eval a p in
  let Sg := r * r + x * x * (cos (p 2%nat) * cos (p 2%nat)) in eval c p <> 0 -> Sg <> 0 ->
  forall i j, (i < 4)%nat -> (j < 4)%nat ->
  rs4 (fun m => kn_M c a q i m p * kn_M c a q m j p) = if Nat.eqb i j then (eval c p ^ 2 * eval q p / Sg ^ 2) ^ 2 else 0.
Proof. exact PredefFinal.kn_rainich. Qed.
Print Assumptions C80_kn_rainich.

Example C80_nonvacuous : (exists simp minv, inverts (kn_chart (EVar 4) (EVar 5) (EVar 6) (EVar 7) (EVar 8) (EVar 9)) simp minv (KerrNewman (EVar 4) (EVar 5) (EVar 6) (EVar 7) (EVar 8) (EVar 9))) /\
  kn_chart (EVar 4) (EVar 5) (EVar 6) (EVar 7) (EVar 8) (EVar 9) (pt [0; 10; PI / 2; 0; 1; 4 * PI; 1; 2; 1; 1]).
Proof.
  split; [eexists _, _; eapply table_inverts, kn_table; apply param_var; lia|].
  assert (P := PI_RGT_0). unfold kn_chart, pt, rQsqE, Esq, Epow. cbn [eval nth]. rewrite cos_PI2. split; [split; lra|]. split; [apply half_pi_pt|]. split; [lra|].
  replace (1 * 1 * (4 * PI) / (4 * PI * 1 * (1 * 1 * 1 * 1))) with 1 by (field; lra). lra.
Qed.

(** C81 *)
Theorem C81_barriola : forall c k simp minv,
  param c -> param k -> inverts (bv_chart c k) simp minv (BarriolaVilekin c k) ->
  has_ricci (bv_chart c k) simp minv (BarriolaVilekin c k) (fun s v p => if (Nat.eqb s 2 && Nat.eqb v 2)%bool then 1 - eval k p ^ 2
  else if (Nat.eqb s 3 && Nat.eqb v 3)%bool then (1 - eval k p ^ 2) * sin (p 2%nat) ^ 2 else 0).
Proof. exact PredefFinal.barriola. Qed.
Print Assumptions C81_barriola.

Theorem C81_bertotti_kasner : forall c l simp minv,
  param c -> param l -> inverts (bk_chart c l) simp minv (BertottiKasner c l) ->
  has_ricci (bk_chart c l) simp minv (BertottiKasner c l) (fun s v p => eval l p * eval c p ^ 2 * eval (BertottiKasner c l s v) p).
Proof. exact PredefFinal.bertotti. Qed.
Print Assumptions C81_bertotti_kasner.

Theorem C81_godel : forall om simp minv,
  param om -> inverts gd_chart simp minv (Godel om) ->
  has_ricci gd_chart simp minv (Godel om) (fun s v p => 2 * eval om p ^ 2 * eval (Godel om s 0%nat) p * eval (Godel om v 0%nat) p).
Proof. exact PredefFinal.godel. Qed.
Print Assumptions C81_godel.

Theorem C81_davidson : forall simp minv,
  inverts dv_chart simp minv Davidson ->
  has_ricci dv_chart simp minv Davidson (fun s v p => (if Nat.eqb s 0 then -3 else 1) * (4 / 5 / ((1 + p 1%nat ^ 2) ^ 2 * eval (Davidson 1%nat 1%nat) p)) * eval (Davidson s v) p).
Proof. exact PredefFinal.davidson. Qed.
Print Assumptions C81_davidson.

Theorem C81_cmetric : forall a0 a1 a2 a3 simp minv,
  param a0 -> param a1 -> param a2 -> param a3 ->
  let f := cm_f a0 a1 a2 a3 in let h := cm_h a0 a1 a2 a3 in inverts (cm_chart f h) simp minv (CMetric f h) ->
  has_ricci (cm_chart f h) simp minv (CMetric f h) (fun _ _ _ => 0).
Proof. exact PredefFinal.cmetric. Qed.
Print Assumptions C81_cmetric.

Theorem C81_ernst_scalar : forall B M simp minv,
  param B -> param M -> inverts (er_chart B M) simp minv (Ernst B M) ->
  has_scalar (er_chart B M) simp minv (Ernst B M) (fun _ => 0).
Proof. exact PredefFinal.ernst_scalar. Qed.
Print Assumptions C81_ernst_scalar.

Theorem C81_ernst_pairs : forall B M simp minv,
  param B -> param M -> inverts (er_chart B M) simp minv (Ernst B M) ->
  exists rc, ricci_from_metric (metric_of (er_chart B M) simp minv (Ernst B M)) = Ok rc /\ forall p, er_chart B M p ->
  ev _ (t_arr rc [0; 0]%nat) p / eval (Ernst B M 0%nat 0%nat) p = - (ev _ (t_arr rc [3; 3]%nat) p / eval (Ernst B M 3%nat 3%nat) p) /\
  ev _ (t_arr rc [1; 1]%nat) p / eval (Ernst B M 1%nat 1%nat) p = - (ev _ (t_arr rc [2; 2]%nat) p / eval (Ernst B M 2%nat 2%nat) p).
Proof. exact PredefFinal.ernst_pairs. Qed.
Print Assumptions C81_ernst_pairs.

Example C81_nonvacuous :
  ((exists simp minv, inverts (bv_chart (EVar 4) (EVar 5)) simp minv (BarriolaVilekin (EVar 4) (EVar 5))) /\ bv_chart (EVar 4) (EVar 5) (pt [0; 1; PI / 2; 0; 3; 2])) /\
  ((exists simp minv, inverts (bk_chart (EVar 4) (EConst 2)) simp minv (BertottiKasner (EVar 4) (EConst 2))) /\ bk_chart (EVar 4) (EConst 2) (pt [0; 1; PI / 2; 0; 3])) /\
  ((exists simp minv, inverts gd_chart simp minv (Godel (EVar 4))) /\ gd_chart (pt [])) /\
  ((exists simp minv, inverts dv_chart simp minv Davidson) /\ dv_chart (pt [1; 1])) /\
  ((exists simp minv, inverts (er_chart (EVar 4) (EVar 5)) simp minv (Ernst (EVar 4) (EVar 5))) /\ er_chart (EVar 4) (EVar 5) (pt [0; 10; PI / 2; 0; 1; 1])) /\
  (let f := cm_f (EVar 4) (EVar 5) (EVar 6) (EVar 7) in let h := cm_h (EVar 4) (EVar 5) (EVar 6) (EVar 7) in
   (exists simp minv, inverts (cm_chart f h) simp minv (CMetric f h)) /\ cm_chart f h (pt [0; 1; 1; 0; 1; 0; 0; 1/2])).
Proof.
  split; [|split; [|split; [|split; [|split]]]].
  - split; [eexists _, _; eapply table_inverts, bv_table; apply param_var; lia|]. unfold bv_chart, pt. cbn [eval nth]. split; [split; lra|]. split; [lra|apply half_pi_pt].
  - split; [eexists _, _; eapply table_inverts, bk_table; [apply param_var; lia|apply param_const]|]. unfold bk_chart, pt. cbn [eval nth]. split; [lra|]. split; [lra|apply half_pi_pt].
  - split; [eexists _, _; eapply table_inverts, gd_table; apply param_var; lia|exact I].
  - split; [eexists _, _; apply (table_inverts _ _ _ _ dv_table')|]. unfold dv_chart, pt. cbn [nth]. lra.
  - split; [eexists _, _; eapply table_inverts, er_table; apply param_var; lia|]. unfold er_chart, pt. cbn [eval nth]. split; [lra|]. split; [lra|apply half_pi_pt].
  - cbv zeta. split; [eexists _, _; eapply table_inverts, cm_table'; apply param_var; lia|].
    unfold cm_chart, cm_f, cm_h, cubic, Esq, X, pt. cbn [eval nth]. lra.
Qed.

(** C82: the Ricci tensor of the line element as coded *)
Theorem C82_jnw_ricci : forall c G gam M simp minv,
  param c -> param G -> param gam -> param M -> inverts (jw_chart c G gam M) simp minv (JanisNewmanWinicour c G gam M) ->
  has_ricci (jw_chart c G gam M) simp minv (JanisNewmanWinicour c G gam M) (fun s v p =>
  let q := eval (jw_rs c G M) p in let g := eval gam p in let r := p 1%nat in
  if (Nat.eqb s 1 && Nat.eqb v 1)%bool then (1 - g ^ 2) * q ^ 2 / (2 * r ^ 2 * (g * r - q) ^ 2)
  else if (Nat.eqb s 2 && Nat.eqb v 2)%bool then 1 - eval c p ^ 2
  else if (Nat.eqb s 3 && Nat.eqb v 3)%bool then (1 - eval c p ^ 2) * sin (p 2%nat) ^ 2 else 0).
Proof. exact PredefFinal.jnw. Qed.
Print Assumptions C82_jnw_ricci.

(** with c^2 = 1 it is that of a static scalar field *)
Theorem C82_jnw_scalar_field : forall c G gam M simp minv,
  param c -> param G -> param gam -> param M -> inverts (jw_chart c G gam M) simp minv (JanisNewmanWinicour c G gam M) ->
  exists rc, ricci_from_metric (metric_of (jw_chart c G gam M) simp minv (JanisNewmanWinicour c G gam M)) = Ok rc /\
  forall s v p, (s < 4)%nat -> (v < 4)%nat -> jw_chart c G gam M p -> eval c p ^ 2 = 1 -> ~ (s = 1 /\ v = 1)%nat -> ev _ (t_arr rc [s; v]) p = 0.
Proof. exact PredefFinal.jnw_c1. Qed.
Print Assumptions C82_jnw_scalar_field.

(** with c^2 <> 1 the angular components do not vanish *)
Theorem C82_jnw_refuted : forall c G gam M simp minv,
  param c -> param G -> param gam -> param M -> inverts (jw_chart c G gam M) simp minv (JanisNewmanWinicour c G gam M) ->
  exists rc, ricci_from_metric (metric_of (jw_chart c G gam M) simp minv (JanisNewmanWinicour c G gam M)) = Ok rc /\
  forall p, jw_chart c G gam M p -> eval c p ^ 2 <> 1 -> ev _ (t_arr rc [2; 2]%nat) p <> 0.
Proof. exact PredefFinal.jnw_not. Qed.
Print Assumptions C82_jnw_refuted.

Example C82_nonvacuous : (exists simp minv, inverts (jw_chart (EVar 4) (EVar 5) (EVar 6) (EVar 7)) simp minv (JanisNewmanWinicour (EVar 4) (EVar 5) (EVar 6) (EVar 7))) /\
  jw_chart (EVar 4) (EVar 5) (EVar 6) (EVar 7) (pt [0; 10; PI / 2; 0; 3; 1; 1/2; 1]).
Proof.
  split; [eexists _, _; eapply table_inverts, jw_table; apply param_var; lia|].
  unfold jw_chart, jw_rs, Esq, pt. cbn [eval nth]. split; [split; lra|]. split; [lra|]. split; [lra|apply half_pi_pt].
Qed.
