(* generated from tools/P/P_Sym.v.in by tools/genp.py: statements only, proofs are references *)
(** Properties C44-C50: symbolic curvature classes (einsteinpy.symbolic).
    [dlaws A]: A is any scalar domain with the laws sympy expressions have (SymAlg.v); [covariant_pair m g gi]: g is
    metric.lower_config(), gi its inverse as returned by sympy. *)
From Coq Require Import String Ascii Reals List Arith Lia Bool Lra.
From Coquelicot Require Import Coquelicot.
From Verif Require Import Base SymAlg SymModel SymLoops SymGeo SymGeo2 SymMove SymConn SymFinal ExprModel SymWitness SymPair SymPairWitness.
Import ListNotations.
Local Open Scope nat_scope.
Local Open Scope K_scope.

(** C44: documented formula at every index, lower symmetry, metric compatibility *)
Theorem C44_christoffel : forall (A : dops) (L : dlaws A) (m : metric A) (g gi : nat -> nat -> A), covariant_pair m g gi -> symmetric_metric (m_n m) g ->
  
  exists ch, christoffels_from_metric m = Ok ch /\ t_cfg ch = cf "ull" /\ t_n ch = m_n m /\ t_parent ch = Some m /\
  forall i j k, (i < m_n m)%nat -> (j < m_n m)%nat -> (k < m_n m)%nat ->
  t_arr ch [i; j; k] == kinv 2 * ksum (m_n m) (fun l => gi i l * (kd k (g l j) + kd j (g l k) - kd l (g j k))) /\
  t_arr ch [i; j; k] == t_arr ch [i; k; j] /\
  kd k (g i j) == ksum (m_n m) (fun l => t_arr ch [l; i; k] * g l j) + ksum (m_n m) (fun l => t_arr ch [l; j; k] * g i l).
Proof. intros A L m g gi HP HS. exact (SymFinal.chr_all_ L m g gi HP HS). Qed.
Print Assumptions C44_christoffel.

(** a metric without inverse is refused *)
Theorem C44_singular : 
  forall (A : dops) (m : metric A), m_cfg m = ["l"; "l"]%char -> kminv (m_n m) (fun i j => m_arr m [i; j]) = None ->
  christoffels_from_metric m = Err ValueError.
Proof. exact SymPair.chr_singular_stored. Qed.
Print Assumptions C44_singular.

(** what [covariant_pair] says of a metric stored with covariant, and of one stored with contravariant indices *)
Theorem C44_covariant_metric : 
  forall (A : dops) (m : metric A) (g gi : nat -> nat -> A),
  m_cfg m = ["l"; "l"]%char ->
  (covariant_pair m g gi <-> (g = (fun i j => m_arr m [i; j]) /\ kminv (m_n m) g = Some gi)).
Proof. exact SymPair.covariant_stored. Qed.
Print Assumptions C44_covariant_metric.

Theorem C44_contravariant_metric : 
  forall (A : dops) (m : metric A) (g gi : nat -> nat -> A),
  m_cfg m = ["u"; "u"]%char ->
  (covariant_pair m g gi <->
  exists h, kminv (m_n m) (fun i j => m_arr m [i; j]) = Some h /\ g = (fun i j => ksimp (h i j)) /\ kminv (m_n m) g = Some gi).
Proof. exact SymPair.contravariant_stored. Qed.
Print Assumptions C44_contravariant_metric.

Theorem C44_metric_pair : 
  forall (A : dops) (L : dlaws A) (m : metric A) (g gi : nat -> nat -> A),
  covariant_pair m g gi ->
  inverse_metrics (m_n m) g gi
  /\ (m_cfg m = ["l"; "l"]%char -> forall i j, g i j = m_arr m [i; j])
  /\ (m_cfg m = ["u"; "u"]%char -> forall i j, i < m_n m -> j < m_n m -> (gi i j == m_arr m [i; j])%K).
Proof. exact SymPair.pair_of_metric. Qed.
Print Assumptions C44_metric_pair.

Theorem C44_contravariant_nonvacuous : forall (n : nat),
  m_cfg (contra_metric n) = ["u"; "u"]%char /\
  covariant_pair (contra_metric n) (diag_cand Uall conf_g) (diag_cand Uall (diag_cand Uall conf_g)) /\ symmetric_metric (A := diag_ops Uall) n (diag_cand Uall conf_g).
Proof. exact SymPairWitness.contra_pair. Qed.
Print Assumptions C44_contravariant_nonvacuous.

(** C45: documented formula at every index, from the metric or from Christoffel symbols with or without parent_metric *)
Theorem C45_riemann_formula : forall (A : dops) (L : dlaws A) (m : metric A) (g gi : nat -> nat -> A), covariant_pair m g gi -> symmetric_metric (m_n m) g ->
  forall ch par,
  par = None \/ par = Some m -> christoffels_from_metric m = Ok ch ->
  exists r, riemann_from_christoffels ch par = Ok r /\ t_cfg r = cf "ulll" /\ riemann_from_metric m = riemann_from_christoffels ch None /\
  forall t s q v, (t < m_n m)%nat -> (s < m_n m)%nat -> (q < m_n m)%nat -> (v < m_n m)%nat ->
  t_arr r [t; s; q; v] == kd q (t_arr ch [t; s; v]) - kd v (t_arr ch [t; s; q])
  + ksum (m_n m) (fun p => t_arr ch [t; p; q] * t_arr ch [p; s; v] - t_arr ch [t; p; v] * t_arr ch [p; s; q]).
Proof. intros A L m g gi HP HS. exact (SymFinal.riem_formula_ L m g gi HP HS). Qed.
Print Assumptions C45_riemann_formula.

(** lowered Riemann tensor: R_tsrv = g_tp R^p_srv, antisymmetries, pair symmetry, first Bianchi identity *)
Theorem C45_riemann_symmetries : forall (A : dops) (L : dlaws A) (m : metric A) (g gi : nat -> nat -> A), covariant_pair m g gi -> symmetric_metric (m_n m) g ->
  
  exists r rl, riemann_from_metric m = Ok r /\ t_change_config r (cf "llll") None = Ok rl /\ t_cfg rl = cf "llll" /\
  (forall t s q v, (t < m_n m)%nat -> (s < m_n m)%nat -> (q < m_n m)%nat -> (v < m_n m)%nat ->
  t_arr rl [t; s; q; v] == ksum (m_n m) (fun p => g t p * t_arr r [p; s; q; v])) /\ curvature_symmetries (m_n m) (t_arr rl).
Proof. intros A L m g gi HP HS. exact (SymFinal.riem_sym_ L m g gi HP HS). Qed.
Print Assumptions C45_riemann_symmetries.

(** second Bianchi identity of the computed arrays *)
Theorem C45_second_bianchi : forall (A : dops) (L : dlaws A) (m : metric A) (g gi : nat -> nat -> A), covariant_pair m g gi -> symmetric_metric (m_n m) g ->
  forall ch r,
  christoffels_from_metric m = Ok ch -> riemann_from_metric m = Ok r ->
  let nab a t s p v := kd a (t_arr r [t; s; p; v]) + ksum (m_n m) (fun l => t_arr ch [t; l; a] * t_arr r [l; s; p; v])
  - ksum (m_n m) (fun l => t_arr ch [l; s; a] * t_arr r [t; l; p; v]) - ksum (m_n m) (fun l => t_arr ch [l; p; a] * t_arr r [t; s; l; v])
  - ksum (m_n m) (fun l => t_arr ch [l; v; a] * t_arr r [t; s; p; l]) in
  forall a t s p v, (a < m_n m)%nat -> (t < m_n m)%nat -> (s < m_n m)%nat -> (p < m_n m)%nat -> (v < m_n m)%nat ->
  nab a t s p v + nab p t s v a + nab v t s a p == 0.
Proof. intros A L m g gi HP HS. exact (SymFinal.riem_bianchi2_ L m g gi HP HS). Qed.
Print Assumptions C45_second_bianchi.

(** C46: contraction, symmetry, scalar = metric trace *)
Theorem C46_ricci_scalar : forall (A : dops) (L : dlaws A) (m : metric A) (g gi : nat -> nat -> A), covariant_pair m g gi -> symmetric_metric (m_n m) g ->
  
  exists r rc sc, riemann_from_metric m = Ok r /\ ricci_from_metric m = Ok rc /\ scalar_from_metric m = Ok sc /\ t_cfg rc = cf "ll" /\
  (forall s v, (s < m_n m)%nat -> (v < m_n m)%nat -> t_arr rc [s; v] == ksum (m_n m) (fun t => t_arr r [t; s; t; v]) /\ t_arr rc [s; v] == t_arr rc [v; s]) /\
  scalar_expr sc == ksum (m_n m) (fun s => ksum (m_n m) (fun v => gi s v * t_arr rc [s; v])).
Proof. intros A L m g gi HP HS. exact (SymFinal.ricci_all_ L m g gi HP HS). Qed.
Print Assumptions C46_ricci_scalar.

(** every construction path, through objects stored in any configuration, gives the same tensors *)
Theorem C46_constructors_agree : forall (A : dops) (L : dlaws A) (m : metric A) (g gi : nat -> nat -> A), covariant_pair m g gi -> symmetric_metric (m_n m) g ->
  
  forall ch cfg3 ch' par1 par2 par3, (par1 = None \/ par1 = Some m) -> (par2 = None \/ par2 = Some m) -> (par3 = None \/ par3 = Some m) ->
  christoffels_from_metric m = Ok ch -> List.length cfg3 = 3%nat -> config_checker cfg3 = true -> t_change_config ch cfg3 None = Ok ch' ->
  exists r, riemann_from_christoffels ch' par1 = Ok r /\
  forall cfg4 r', List.length cfg4 = 4%nat -> config_checker cfg4 = true -> t_change_config r cfg4 None = Ok r' ->
  exists rc, ricci_from_riemann r' par2 = Ok rc /\
  forall cfg2 rc', List.length cfg2 = 2%nat -> config_checker cfg2 = true -> t_change_config rc cfg2 None = Ok rc' ->
  exists sc, scalar_from_ricci rc' par3 = Ok sc /\
  exists r0 rc0 sc0 rc1 sc1 sc2, riemann_from_metric m = Ok r0 /\ ricci_from_metric m = Ok rc0 /\ scalar_from_metric m = Ok sc0 /\
  ricci_from_christoffels ch' par1 = Ok rc1 /\ scalar_from_christoffels ch' par1 = Ok sc1 /\ scalar_from_riemann r' par2 = Ok sc2 /\
  (forall idx, valid (m_n m) 4 idx -> t_arr r idx == t_arr r0 idx) /\
  (forall idx, valid (m_n m) 2 idx -> t_arr rc idx == t_arr rc0 idx /\ t_arr rc1 idx == t_arr rc0 idx) /\
  scalar_expr sc == scalar_expr sc0 /\ scalar_expr sc1 == scalar_expr sc0 /\ scalar_expr sc2 == scalar_expr sc0.
Proof. intros A L m g gi HP HS. exact (SymFinal.ctor_agree_ L m g gi HP HS). Qed.
Print Assumptions C46_constructors_agree.

(** C47: formula, symmetry, trace (2-n)R/2, covariant divergence zero *)
Theorem C47_einstein : forall (A : dops) (L : dlaws A) (m : metric A) (g gi : nat -> nat -> A), covariant_pair m g gi -> symmetric_metric (m_n m) g ->
  
  exists ch rc sc e, christoffels_from_metric m = Ok ch /\ ricci_from_metric m = Ok rc /\ scalar_from_metric m = Ok sc /\ einstein_from_metric m = Ok e /\ t_cfg e = cf "ll" /\
  (forall s v, (s < m_n m)%nat -> (v < m_n m)%nat -> t_arr e [s; v] == t_arr rc [s; v] - kinv 2 * (scalar_expr sc * g s v) /\ t_arr e [s; v] == t_arr e [v; s]) /\
  kofn 2 * ksum (m_n m) (fun s => ksum (m_n m) (fun v => gi s v * t_arr e [s; v])) == (kofn 2 - kofn (m_n m)) * scalar_expr sc /\
  (forall a, (a < m_n m)%nat ->
  ksum (m_n m) (fun t => ksum (m_n m) (fun s => gi t s *
  (kd t (t_arr e [s; a]) - ksum (m_n m) (fun l => t_arr ch [l; s; t] * t_arr e [l; a]) - ksum (m_n m) (fun l => t_arr ch [l; a; t] * t_arr e [s; l])))) == 0).
Proof. intros A L m g gi HP HS. exact (SymFinal.ein_all_ L m g gi HP HS). Qed.
Print Assumptions C47_einstein.

(** C48: 8 pi G T = c^4 (G - Lambda g), symmetric, conserved *)
Theorem C48_stress_energy : forall (A : dops) (L : dlaws A) (m : metric A) (g gi : nat -> nat -> A), covariant_pair m g gi -> symmetric_metric (m_n m) g ->
  forall c G Lam pi z,
  (kofn 8 * pi * G) * z == 1 ->
  (forall i, (i < m_n m)%nat -> kd i c == 0 /\ kd i G == 0 /\ kd i Lam == 0 /\ kd i pi == 0) ->
  exists ch e s, christoffels_from_metric m = Ok ch /\ einstein_from_metric m = Ok e /\ stress_from_metric c G Lam pi m = Ok s /\ t_cfg s = cf "ll" /\
  (forall i j, (i < m_n m)%nat -> (j < m_n m)%nat ->
  (kofn 8 * pi * G) * t_arr s [i; j] == (c * c * c * c) * (t_arr e [i; j] - Lam * g i j) /\ t_arr s [i; j] == t_arr s [j; i]) /\
  (forall a, (a < m_n m)%nat ->
  ksum (m_n m) (fun t => ksum (m_n m) (fun q => gi t q *
  (kd t (t_arr s [q; a]) - ksum (m_n m) (fun l => t_arr ch [l; q; t] * t_arr s [l; a]) - ksum (m_n m) (fun l => t_arr ch [l; a; t] * t_arr s [q; l])))) == 0).
Proof. intros A L m g gi HP HS. exact (SymFinal.stress_all_ L m g gi HP HS). Qed.
Print Assumptions C48_stress_energy.

(** C49: curvature symmetries and all six traces vanish *)
Theorem C49_weyl : forall (A : dops) (L : dlaws A) (m : metric A) (g gi : nat -> nat -> A), covariant_pair m g gi -> symmetric_metric (m_n m) g ->
  
  (4 <= m_n m)%nat -> exists w, weyl_from_metric m = Ok w /\ t_cfg w = cf "llll" /\ curvature_symmetries (m_n m) (t_arr w) /\
  (forall a b, (a < m_n m)%nat -> (b < m_n m)%nat ->
  let tr f := ksum (m_n m) (fun i => ksum (m_n m) (fun l => gi i l * t_arr w (f i l))) in
  tr (fun i l => [i; l; a; b]) == 0 /\ tr (fun i l => [i; a; l; b]) == 0 /\ tr (fun i l => [i; a; b; l]) == 0 /\
  tr (fun i l => [a; i; l; b]) == 0 /\ tr (fun i l => [a; i; b; l]) == 0 /\ tr (fun i l => [a; b; i; l]) == 0).
Proof. intros A L m g gi HP HS. exact (SymFinal.weyl_all_ L m g gi HP HS). Qed.
Print Assumptions C49_weyl.

Theorem C49_weyl_dim3 : forall (A : dops) (m : metric A),
  m_n m = 3%nat -> exists w, weyl_from_metric m = Ok w /\ t_cfg w = cf "llll" /\ forall idx, t_arr w idx = k0.
Proof. exact SymWitness.weyl_dim3. Qed.
Print Assumptions C49_weyl_dim3.

Theorem C49_weyl_low : forall (A : dops) (m : metric A),
  (m_n m < 3)%nat -> weyl_from_metric m = Err ValueError.
Proof. exact SymWitness.weyl_low. Qed.
Print Assumptions C49_weyl_low.

(** C50: symmetric, trace R/(2(n-1)), Riemann = Weyl + P (KN) g *)
Theorem C50_schouten : forall (A : dops) (L : dlaws A) (m : metric A) (g gi : nat -> nat -> A), covariant_pair m g gi -> symmetric_metric (m_n m) g ->
  
  (3 <= m_n m)%nat -> exists sc p, scalar_from_metric m = Ok sc /\ schouten_from_metric m = Ok p /\ t_cfg p = cf "ll" /\
  (forall i j, (i < m_n m)%nat -> (j < m_n m)%nat -> t_arr p [i; j] == t_arr p [j; i]) /\
  kofn (2 * (m_n m - 1)) * ksum (m_n m) (fun i => ksum (m_n m) (fun j => gi i j * t_arr p [i; j])) == scalar_expr sc /\
  ((4 <= m_n m)%nat -> exists r rl w, riemann_from_metric m = Ok r /\ t_change_config r (cf "llll") None = Ok rl /\ weyl_from_metric m = Ok w /\
  forall i k l q, (i < m_n m)%nat -> (k < m_n m)%nat -> (l < m_n m)%nat -> (q < m_n m)%nat ->
  t_arr rl [i; k; l; q] == t_arr w [i; k; l; q]
  + (t_arr p [i; l] * g k q + t_arr p [k; q] * g i l - t_arr p [i; q] * g k l - t_arr p [k; l] * g i q)).
Proof. intros A L m g gi HP HS. exact (SymFinal.schouten_all_ L m g gi HP HS). Qed.
Print Assumptions C50_schouten.

Theorem C50_schouten_low : forall (A : dops) (m : metric A),
  (m_n m < 3)%nat -> schouten_from_metric m = Err ValueError.
Proof. exact SymWitness.schouten_low. Qed.
Print Assumptions C50_schouten_low.

(** the hypotheses hold for a curved metric in every dimension n >= 1: exp(2 x0) times the Euclidean metric, on the scalar domain of ExprModel.v *)
Theorem C44_laws_nonvacuous : 
  dlaws (diag_ops Uall).
Proof. exact SymWitness.all_laws. Qed.
Print Assumptions C44_laws_nonvacuous.

Theorem C44_metric_nonvacuous : forall (n : nat),
  covariant_pair (conf_metric n) conf_g (diag_cand Uall conf_g) /\ symmetric_metric (A := diag_ops Uall) n conf_g.
Proof. exact SymWitness.conf_pair. Qed.
Print Assumptions C44_metric_nonvacuous.

Theorem C44_metric_nonflat : forall (n : nat),
  (1 <= n)%nat -> exists ch, christoffels_from_metric (conf_metric n) = Ok ch /\ @keq (diag_ops Uall) (t_arr ch [0%nat; 0%nat; 0%nat]) (uconst Uall 1).
Proof. exact SymWitness.conf_christoffel. Qed.
Print Assumptions C44_metric_nonflat.

