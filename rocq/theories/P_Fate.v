(* generated from tools/P/P_Fate.v.in by tools/genp.py: statements only, proofs are references *)
(** Property C130: which bodies fall in, which escape, which fly by and which stay bound, and that the integrators compute it.
   [named_bh], [book], [geodesic_on], [Ham], [on_shell_future], [geodesicA], [accurate], [low], [moves], [radial_si], [barred], [barred_si]: see P_Orbit.v. Units G = c = M = 1 for the named metrics.
   [potential g a Q q p r]: the radial potential of the body at q with momentum p, at radius r; [pot a Q th E u2 u3 tl r]: the same written out, for a body of mass 1 (tl) or 0 released at angle th with p_t = - E, p_theta = u2, p_phi = u3.
   [released a Q r1 r th u3]: 1 <= r1 < r, r1 outside the horizon, 0 < th < pi, u3 <> 0. [exterior a Q r1 q p] says the same of (q, p).
   [turning_point V rt]: V is zero at rt with positive derivative there, and positive beyond rt.
   [rows_follow s prms x1 x2 x3 u1 u2 u3 tl order w n q p S]: there are K and r > 0 such that in every arithmetic of unit roundoff u and for every step h with h <= r, u / h <= r, the N rows computed by Geodesic(s, ..) with N h <= S are within K (h^n + u/h) of (q, p).
   SI classes: [exterior_si rs al r1 x g v]: rs / 2 <= r1 < r, r1^2 - rs r1 + al^2 > 0, 0 < theta < pi, v_phi <> 0; [norm2 g v] = g(v, v). (low 0 g v / c)^2 is compared with norm2 g v where textbooks compare the energy per unit rest energy with 1. *)
From Coq Require Import String Reals List ZArith Lra Lia Bool.
From Coquelicot Require Import Coquelicot.
From Verif Require Import Base Calc DualModel DualSpec DualProofs DualDiff GeoUtilsModel GeoUtilsSpec GeoUtilsProofs GeodesicModel GeodesicProofs CoordModel ConvModel ConvProofs
  FantasyModel FantasyProofs FantasyProofs2 FantasyProofs3 FantasyHam FantasyOrder FantasyGlobal FantasyGlobal2 FantasyGlobal3 FantasyShell FantasyCyclic FantasyCircular FloatModel FloatGlobal FloatTraj FantasyCarter
  ConvProofs2 MetricModel MetricSpec MetricProofs MetricProofs2 MetricProofs3 MetricProofs5 MetricProofs6 MetricProofs7 MetricProofs8 MetricUnify MetricHamilton MetricHamilton2 MetricCarter FloatTrack FloatRK FloatRKG FloatMetricModel FloatMetric FloatMetric2 FloatMetric6 FloatVel FloatFlow FloatInv
  Contin Leave GlobalHole GlobalHole2 GlobalMotion GlobalOrbit Fate Scatter FateOrbit FateOrbit2 FateSI FateFlow.
Import ListNotations.
Open Scope R_scope.

(** ---- C130 ---- *)
(** Geodesic(name, ..): whatever the body does, the computed rows follow its orbit for the whole interval or until it reaches r1 *)
Theorem C130_geodesic_reach : forall s prms g a Q cov out x1 x2 x3 u1 u2 u3 tl order w n r1, named_bh s prms g a Q -> book s prms cov out -> out x1 x2 -> In order [2; 4; 6; 8]%nat -> n = 2%nat \/ (order = 4 /\ n = 4)%nat -> released a Q r1 x1 x2 u3 ->
  
  exists guu E, inverse_of guu (cov x1 x2) /\ on_shell_future guu (mkQ4 (- E) u1 u2 u3) u1 u2 u3 tl /\
  forall T, 0 < T -> exists S q p, 0 < S <= T /\ q 0 = mkQ4 0 x1 x2 x3 /\ p 0 = mkQ4 (- E) u1 u2 u3 /\ geodesic_on g q p S /\ (forall t, 0 <= t < S -> r1 < c1 (q t)) /\
  (S = T /\ r1 < c1 (q S) \/ c1 (q S) = r1) /\ rows_follow s prms x1 x2 x3 u1 u2 u3 tl order w n q p S.
Proof. exact FateOrbit.geodesic_reach. Qed.
Print Assumptions C130_geodesic_reach.

(** moving inwards with no turning point before r1: it falls to r1, ever inwards, and the rows follow it *)
Theorem C130_geodesic_captured : forall s prms g a Q cov out x1 x2 x3 u1 u2 u3 tl order w n r1, named_bh s prms g a Q -> book s prms cov out -> out x1 x2 -> In order [2; 4; 6; 8]%nat -> n = 2%nat \/ (order = 4 /\ n = 4)%nat -> released a Q r1 x1 x2 u3 ->
  
  u1 < 0 ->
  (forall guu E, inverse_of guu (cov x1 x2) -> on_shell_future guu (mkQ4 (- E) u1 u2 u3) u1 u2 u3 tl -> forall r, r1 <= r <= x1 -> 0 < pot a Q x2 E u2 u3 tl r) ->
  exists guu E S q p, inverse_of guu (cov x1 x2) /\ on_shell_future guu (mkQ4 (- E) u1 u2 u3) u1 u2 u3 tl /\
  0 < S /\ q 0 = mkQ4 0 x1 x2 x3 /\ p 0 = mkQ4 (- E) u1 u2 u3 /\ geodesic_on g q p S /\ c1 (q S) = r1 /\ (forall t u, 0 <= t < u -> u <= S -> c1 (q u) < c1 (q t)) /\ rows_follow s prms x1 x2 x3 u1 u2 u3 tl order w n q p S.
Proof. exact FateOrbit.geodesic_captured. Qed.
Print Assumptions C130_geodesic_captured.

(** moving outwards with no turning point ahead and energy above the rest energy: it recedes at least linearly for ever, and so do the rows *)
Theorem C130_geodesic_escapes : forall s prms g a Q cov out x1 x2 x3 u1 u2 u3 tl order w n r1, named_bh s prms g a Q -> book s prms cov out -> out x1 x2 -> In order [2; 4; 6; 8]%nat -> n = 2%nat \/ (order = 4 /\ n = 4)%nat -> released a Q r1 x1 x2 u3 ->
  
  0 < u1 ->
  (forall guu E, inverse_of guu (cov x1 x2) -> on_shell_future guu (mkQ4 (- E) u1 u2 u3) u1 u2 u3 tl -> (if tl then 1 else 0) < E * E /\ forall r, x1 <= r -> 0 < pot a Q x2 E u2 u3 tl r) ->
  exists guu E k, inverse_of guu (cov x1 x2) /\ on_shell_future guu (mkQ4 (- E) u1 u2 u3) u1 u2 u3 tl /\ 0 < k /\
  forall T, 0 < T -> exists q p, q 0 = mkQ4 0 x1 x2 x3 /\ p 0 = mkQ4 (- E) u1 u2 u3 /\ geodesic_on g q p T /\ (forall t, 0 <= t <= T -> x1 + k * t <= c1 (q t)) /\ rows_follow s prms x1 x2 x3 u1 u2 u3 tl order w n q p T.
Proof. exact FateOrbit.geodesic_escapes. Qed.
Print Assumptions C130_geodesic_escapes.

(** a fly-by: inwards to exactly the turning point, then outwards for ever *)
Theorem C130_geodesic_scattered : forall s prms g a Q cov out x1 x2 x3 u1 u2 u3 tl order w n r1,
  named_bh s prms g a Q -> book s prms cov out -> out x1 x2 ->
  In order [2; 4; 6; 8]%nat -> n = 2%nat \/ (order = 4 /\ n = 4)%nat -> released a Q r1 x1 x2 u3 -> u1 < 0 -> forall rt, rt < x1 ->
  (forall guu E, inverse_of guu (cov x1 x2) -> on_shell_future guu (mkQ4 (- E) u1 u2 u3) u1 u2 u3 tl ->
  (if tl then 1 else 0) < E * E /\ pot a Q x2 E u2 u3 tl r1 < 0 /\ turning_point (pot a Q x2 E u2 u3 tl) rt) ->
  exists guu E x y k, inverse_of guu (cov x1 x2) /\ on_shell_future guu (mkQ4 (- E) u1 u2 u3) u1 u2 u3 tl /\ 0 < x < y /\ 0 < k /\
  forall T, y <= T -> exists q p, q 0 = mkQ4 0 x1 x2 x3 /\ p 0 = mkQ4 (- E) u1 u2 u3 /\ geodesic_on g q p T /\ c1 (q x) = rt /\
  (forall t u, 0 <= t < u -> u <= x -> c1 (q u) < c1 (q t)) /\ (forall t u, x <= t < u -> u <= T -> c1 (q t) < c1 (q u)) /\ (forall t, y <= t <= T -> rt + k * (t - y) < c1 (q t)) /\
  rows_follow s prms x1 x2 x3 u1 u2 u3 tl order w n q p T.
Proof. exact FateOrbit2.geodesic_scattered. Qed.
Print Assumptions C130_geodesic_scattered.

(** energy below the rest energy and a barrier inside: the orbit stays between two radii for ever *)
Theorem C130_geodesic_bound : forall s prms g a Q cov out x1 x2 x3 u1 u2 u3 tl order w n r1, named_bh s prms g a Q -> book s prms cov out -> out x1 x2 -> In order [2; 4; 6; 8]%nat -> n = 2%nat \/ (order = 4 /\ n = 4)%nat -> released a Q r1 x1 x2 u3 ->
  
  tl = true ->
  (forall guu E, inverse_of guu (cov x1 x2) -> on_shell_future guu (mkQ4 (- E) u1 u2 u3) u1 u2 u3 tl -> E * E < 1 /\ pot a Q x2 E u2 u3 tl r1 < 0) ->
  exists guu E r2, inverse_of guu (cov x1 x2) /\ on_shell_future guu (mkQ4 (- E) u1 u2 u3) u1 u2 u3 tl /\
  forall T, 0 < T -> exists q p, q 0 = mkQ4 0 x1 x2 x3 /\ p 0 = mkQ4 (- E) u1 u2 u3 /\ geodesic_on g q p T /\ (forall t, 0 <= t <= T -> r1 < c1 (q t) < r2) /\ rows_follow s prms x1 x2 x3 u1 u2 u3 tl order w n q p T.
Proof. exact FateOrbit.geodesic_bound. Qed.
Print Assumptions C130_geodesic_bound.

(** the exact orbits of every named black hole *)
Theorem C130_reach : forall s prms g a Q r1 q0 p0, named_bh s prms g a Q -> exterior a Q r1 q0 p0 ->
  forall T,
  0 <= T ->
  (exists q p, q 0 = q0 /\ p 0 = p0 /\ geodesic_on g q p T /\ forall t, 0 <= t <= T -> r1 < c1 (q t) /\ 0 < c2 (q t) < PI) \/
  (exists S q p, 0 < S <= T /\ q 0 = q0 /\ p 0 = p0 /\ geodesic_on g q p S /\ c1 (q S) = r1 /\ (forall t, 0 <= t < S -> r1 < c1 (q t)) /\ forall t, 0 <= t <= S -> 0 < c2 (q t) < PI).
Proof. exact Fate.named_reach. Qed.
Print Assumptions C130_reach.

Theorem C130_captured : forall s prms g a Q r1 q0 p0, named_bh s prms g a Q -> exterior a Q r1 q0 p0 ->
  
  c1 p0 < 0 -> (forall r, r1 <= r <= c1 q0 -> 0 < potential g a Q q0 p0 r) ->
  exists S q p, 0 < S /\ q 0 = q0 /\ p 0 = p0 /\ geodesic_on g q p S /\ c1 (q S) = r1 /\ (forall t u, 0 <= t < u -> u <= S -> c1 (q u) < c1 (q t)) /\ forall t, 0 <= t <= S -> 0 < c2 (q t) < PI.
Proof. exact Fate.named_captured. Qed.
Print Assumptions C130_captured.

Theorem C130_escapes : forall s prms g a Q r1 q0 p0, named_bh s prms g a Q -> exterior a Q r1 q0 p0 ->
  
  0 < c1 p0 -> (forall r, c1 q0 <= r -> 0 < potential g a Q q0 p0 r) -> 0 < c0 p0 * c0 p0 + 2 * Ham g q0 p0 ->
  exists k, 0 < k /\ forall T, 0 <= T -> exists q p, q 0 = q0 /\ p 0 = p0 /\ geodesic_on g q p T /\ (forall t u, 0 <= t < u -> u <= T -> c1 (q t) < c1 (q u)) /\ forall t, 0 <= t <= T -> c1 q0 + k * t <= c1 (q t) /\ 0 < c2 (q t) < PI.
Proof. exact Fate.named_escapes. Qed.
Print Assumptions C130_escapes.

Theorem C130_scattered : forall s prms g a Q r1 rt q0 p0,
  named_bh s prms g a Q -> barred g a Q r1 q0 p0 -> c1 p0 < 0 -> rt < c1 q0 -> turning_point (potential g a Q q0 p0) rt -> 0 < c0 p0 * c0 p0 + 2 * Ham g q0 p0 ->
  exists x y k, 0 < x < y /\ 0 < k /\ forall T, y <= T -> exists q p, q 0 = q0 /\ p 0 = p0 /\ geodesic_on g q p T /\ c1 (q x) = rt /\
  (forall t u, 0 <= t < u -> u <= x -> c1 (q u) < c1 (q t)) /\ (forall t u, x <= t < u -> u <= T -> c1 (q t) < c1 (q u)) /\
  forall t, y <= t <= T -> rt + k * (t - y) < c1 (q t).
Proof. exact FateOrbit2.named_flyby. Qed.
Print Assumptions C130_scattered.

Theorem C130_bound : forall s prms g a Q r1 q0 p0,
  named_bh s prms g a Q -> barred g a Q r1 q0 p0 -> c0 p0 * c0 p0 + 2 * Ham g q0 p0 < 0 ->
  exists r2, forall T, 0 <= T -> exists q p, q 0 = q0 /\ p 0 = p0 /\ geodesic_on g q p T /\ forall t, 0 <= t <= T -> r1 < c1 (q t) < r2 /\ 0 < c2 (q t) < PI.
Proof. exact Fate.named_bound. Qed.
Print Assumptions C130_bound.

(** the SI equations of motion of KerrNewman.f_vec, uncharged particle *)
Theorem C130_kerr_newman_reach : forall c G Cc o, 0 < c -> 0 < G -> 0 < Cc -> 0 < q_val (mo_M o) -> mo_sys o = BL -> valid_spin o -> q_val (mo_q o) = 0 ->
  forall x h w r1,
  MetricModel.kn_cov c G Cc o x = Ok h -> exterior_si (sch_rad c G o) (al_of c G o) r1 x h w -> forall T, 0 < T ->
  exists S X W, 0 < S <= T /\ X 0 = x /\ W 0 = w /\ (forall t, 0 <= t <= S -> locally t (moves (kn_f_vec c G Cc o) X W)) /\ (forall t, 0 <= t < S -> r1 < c1 (X t)) /\ (S = T /\ r1 < c1 (X S) \/ c1 (X S) = r1).
Proof. exact FateSI.kn_reach. Qed.
Print Assumptions C130_kerr_newman_reach.

Theorem C130_kerr_newman_captured : forall c G Cc o, 0 < c -> 0 < G -> 0 < Cc -> 0 < q_val (mo_M o) -> mo_sys o = BL -> valid_spin o -> q_val (mo_q o) = 0 ->
  forall x h w r1,
  MetricModel.kn_cov c G Cc o x = Ok h -> exterior_si (sch_rad c G o) (al_of c G o) r1 x h w -> c1 w < 0 ->
  (forall r, r1 <= r <= c1 x -> 0 < radial_si c (sch_rad c G o) (al_of c G o) x h w r) ->
  exists S X W, 0 < S /\ X 0 = x /\ W 0 = w /\ (forall t, 0 <= t <= S -> locally t (moves (kn_f_vec c G Cc o) X W)) /\ c1 (X S) = r1 /\ forall t u, 0 <= t < u -> u <= S -> c1 (X u) < c1 (X t).
Proof. exact FateSI.kn_captured. Qed.
Print Assumptions C130_kerr_newman_captured.

Theorem C130_kerr_newman_escapes : forall c G Cc o, 0 < c -> 0 < G -> 0 < Cc -> 0 < q_val (mo_M o) -> mo_sys o = BL -> valid_spin o -> q_val (mo_q o) = 0 ->
  forall x h w r1,
  MetricModel.kn_cov c G Cc o x = Ok h -> exterior_si (sch_rad c G o) (al_of c G o) r1 x h w -> 0 < c1 w ->
  (forall r, c1 x <= r -> 0 < radial_si c (sch_rad c G o) (al_of c G o) x h w r) -> ConvProofs2.norm2 h w < (FloatInv.low 0 h w / c) * (FloatInv.low 0 h w / c) ->
  exists k, 0 < k /\ forall T, 0 <= T -> exists X W, X 0 = x /\ W 0 = w /\ (forall t, 0 <= t <= T -> locally t (moves (kn_f_vec c G Cc o) X W)) /\ forall t, 0 <= t <= T -> c1 x + k * t <= c1 (X t).
Proof. exact FateSI.kn_escapes. Qed.
Print Assumptions C130_kerr_newman_escapes.

Theorem C130_kerr_newman_scattered : forall c G Cc o, 0 < c -> 0 < G -> 0 < Cc -> 0 < q_val (mo_M o) -> mo_sys o = BL -> valid_spin o -> q_val (mo_q o) = 0 ->
  forall x h w r1 rt,
  MetricModel.kn_cov c G Cc o x = Ok h -> barred_si c (sch_rad c G o) (al_of c G o) r1 x h w -> c1 w < 0 -> rt < c1 x ->
  turning_point (radial_si c (sch_rad c G o) (al_of c G o) x h w) rt -> ConvProofs2.norm2 h w < (FloatInv.low 0 h w / c) * (FloatInv.low 0 h w / c) ->
  exists s s' k, 0 < s < s' /\ 0 < k /\ forall T, s' <= T -> exists X W, X 0 = x /\ W 0 = w /\ (forall t, 0 <= t <= T -> locally t (moves (kn_f_vec c G Cc o) X W)) /\ c1 (X s) = rt /\
  (forall t u, 0 <= t < u -> u <= s -> c1 (X u) < c1 (X t)) /\ (forall t u, s <= t < u -> u <= T -> c1 (X t) < c1 (X u)) /\ forall t, s' <= t <= T -> rt + k * (t - s') < c1 (X t).
Proof. exact FateSI.kn_scattered. Qed.
Print Assumptions C130_kerr_newman_scattered.

Theorem C130_kerr_newman_bound : forall c G Cc o, 0 < c -> 0 < G -> 0 < Cc -> 0 < q_val (mo_M o) -> mo_sys o = BL -> valid_spin o -> q_val (mo_q o) = 0 ->
  forall x h w r1,
  MetricModel.kn_cov c G Cc o x = Ok h -> barred_si c (sch_rad c G o) (al_of c G o) r1 x h w -> (FloatInv.low 0 h w / c) * (FloatInv.low 0 h w / c) < ConvProofs2.norm2 h w ->
  exists r2, forall T, 0 <= T -> exists X W, X 0 = x /\ W 0 = w /\ (forall t, 0 <= t <= T -> locally t (moves (kn_f_vec c G Cc o) X W)) /\ forall t, 0 <= t <= T -> r1 < c1 (X t) < r2.
Proof. exact FateSI.kn_bound. Qed.
Print Assumptions C130_kerr_newman_bound.

Theorem C130_schwarzschild_reach : forall c G o x h w r1,
  0 < c -> 0 < G -> 0 < q_val (mo_M o) -> mo_sys o = Sph ->
  MetricModel.sch_cov c G o x = Ok h -> exterior_si (sch_rad c G o) 0 r1 x h w -> forall T, 0 < T ->
  exists S X W, 0 < S <= T /\ X 0 = x /\ W 0 = w /\ (forall t, 0 <= t <= S -> locally t (moves (sch_f_vec c G o) X W)) /\ (forall t, 0 <= t < S -> r1 < c1 (X t)) /\ (S = T /\ r1 < c1 (X S) \/ c1 (X S) = r1).
Proof. exact FateSI.sch_reach. Qed.
Print Assumptions C130_schwarzschild_reach.

Theorem C130_schwarzschild_captured : forall c G o x h w r1,
  0 < c -> 0 < G -> 0 < q_val (mo_M o) -> mo_sys o = Sph ->
  MetricModel.sch_cov c G o x = Ok h -> exterior_si (sch_rad c G o) 0 r1 x h w -> c1 w < 0 ->
  (forall r, r1 <= r <= c1 x -> 0 < radial_si c (sch_rad c G o) 0 x h w r) ->
  exists S X W, 0 < S /\ X 0 = x /\ W 0 = w /\ (forall t, 0 <= t <= S -> locally t (moves (sch_f_vec c G o) X W)) /\ c1 (X S) = r1 /\ forall t u, 0 <= t < u -> u <= S -> c1 (X u) < c1 (X t).
Proof. exact FateSI.sch_captured. Qed.
Print Assumptions C130_schwarzschild_captured.

Theorem C130_schwarzschild_escapes : forall c G o x h w r1,
  0 < c -> 0 < G -> 0 < q_val (mo_M o) -> mo_sys o = Sph ->
  MetricModel.sch_cov c G o x = Ok h -> exterior_si (sch_rad c G o) 0 r1 x h w -> 0 < c1 w ->
  (forall r, c1 x <= r -> 0 < radial_si c (sch_rad c G o) 0 x h w r) -> ConvProofs2.norm2 h w < (FloatInv.low 0 h w / c) * (FloatInv.low 0 h w / c) ->
  exists k, 0 < k /\ forall T, 0 <= T -> exists X W, X 0 = x /\ W 0 = w /\ (forall t, 0 <= t <= T -> locally t (moves (sch_f_vec c G o) X W)) /\ forall t, 0 <= t <= T -> c1 x + k * t <= c1 (X t).
Proof. exact FateSI.sch_escapes. Qed.
Print Assumptions C130_schwarzschild_escapes.

Theorem C130_schwarzschild_scattered : forall c G o x h w r1 rt,
  0 < c -> 0 < G -> 0 < q_val (mo_M o) -> mo_sys o = Sph ->
  MetricModel.sch_cov c G o x = Ok h -> barred_si c (sch_rad c G o) 0 r1 x h w -> c1 w < 0 -> rt < c1 x ->
  turning_point (radial_si c (sch_rad c G o) 0 x h w) rt -> ConvProofs2.norm2 h w < (FloatInv.low 0 h w / c) * (FloatInv.low 0 h w / c) ->
  exists s s' k, 0 < s < s' /\ 0 < k /\ forall T, s' <= T -> exists X W, X 0 = x /\ W 0 = w /\ (forall t, 0 <= t <= T -> locally t (moves (sch_f_vec c G o) X W)) /\ c1 (X s) = rt /\
  (forall t u, 0 <= t < u -> u <= s -> c1 (X u) < c1 (X t)) /\ (forall t u, s <= t < u -> u <= T -> c1 (X t) < c1 (X u)) /\ forall t, s' <= t <= T -> rt + k * (t - s') < c1 (X t).
Proof. exact FateSI.sch_scattered. Qed.
Print Assumptions C130_schwarzschild_scattered.

Theorem C130_schwarzschild_bound : forall c G o x h w r1,
  0 < c -> 0 < G -> 0 < q_val (mo_M o) -> mo_sys o = Sph ->
  MetricModel.sch_cov c G o x = Ok h -> barred_si c (sch_rad c G o) 0 r1 x h w -> (FloatInv.low 0 h w / c) * (FloatInv.low 0 h w / c) < ConvProofs2.norm2 h w ->
  exists r2, forall T, 0 <= T -> exists X W, X 0 = x /\ W 0 = w /\ (forall t, 0 <= t <= T -> locally t (moves (sch_f_vec c G o) X W)) /\ forall t, 0 <= t <= T -> r1 < c1 (X t) < r2.
Proof. exact FateSI.sch_bound. Qed.
Print Assumptions C130_schwarzschild_bound.

(** position and velocity in, velocity(metric), then RK4 rows in floating point *)
Theorem C130_kerr_newman_reach_flow : forall K Kin c G Cc o x v h w r1,
  0 <= K -> 0 <= Kin -> 0 < c -> 0 < G -> 0 < Cc -> 0 < q_val (mo_M o) -> q_val (mo_q o) = 0 ->
  MetricModel.kn_cov c G Cc o (si_position c x) = Ok h -> 0 < mnth h 0 0 -> norm2 h (four_vel 0 v) < c ^ 2 -> timelike_lift c h v w ->
  exterior_si (sch_rad c G o) (al_of c G o) r1 (si_position c x) h (four_vel w v) -> forall T, 0 < T ->
  exists S X W, 0 < S <= T /\ X 0 = si_position c x /\ W 0 = four_vel w v /\ (forall t, 0 <= t <= S -> locally t (moves (kn_f_vec c G Cc o) X W)) /\
  flow_rounded K Kin c (fun e => kn_covA e c G Cc o) (fun e => kn_fA e c G Cc o) x v X W S /\ (forall t, 0 <= t < S -> r1 < c1 (X t)) /\ (S = T /\ r1 < c1 (X S) \/ c1 (X S) = r1).
Proof. exact FateFlow.kn_reach_flow. Qed.
Print Assumptions C130_kerr_newman_reach_flow.

Theorem C130_kerr_newman_captured_flow : forall K Kin c G Cc o x v h w r1,
  0 <= K -> 0 <= Kin -> 0 < c -> 0 < G -> 0 < Cc -> 0 < q_val (mo_M o) -> q_val (mo_q o) = 0 ->
  MetricModel.kn_cov c G Cc o (si_position c x) = Ok h -> 0 < mnth h 0 0 -> norm2 h (four_vel 0 v) < c ^ 2 -> timelike_lift c h v w ->
  exterior_si (sch_rad c G o) (al_of c G o) r1 (si_position c x) h (four_vel w v) -> c1 (four_vel w v) < 0 ->
  (forall r, r1 <= r <= c1 x -> 0 < radial_si c (sch_rad c G o) (al_of c G o) (si_position c x) h (four_vel w v) r) ->
  exists S X W, 0 < S /\ X 0 = si_position c x /\ W 0 = four_vel w v /\ (forall t, 0 <= t <= S -> locally t (moves (kn_f_vec c G Cc o) X W)) /\
  flow_rounded K Kin c (fun e => kn_covA e c G Cc o) (fun e => kn_fA e c G Cc o) x v X W S /\ c1 (X S) = r1 /\ forall t u, 0 <= t < u -> u <= S -> c1 (X u) < c1 (X t).
Proof. exact FateFlow.kn_captured_flow. Qed.
Print Assumptions C130_kerr_newman_captured_flow.

Theorem C130_kerr_newman_escapes_flow : forall K Kin c G Cc o x v h w r1,
  0 <= K -> 0 <= Kin -> 0 < c -> 0 < G -> 0 < Cc -> 0 < q_val (mo_M o) -> q_val (mo_q o) = 0 ->
  MetricModel.kn_cov c G Cc o (si_position c x) = Ok h -> 0 < mnth h 0 0 -> norm2 h (four_vel 0 v) < c ^ 2 -> timelike_lift c h v w ->
  exterior_si (sch_rad c G o) (al_of c G o) r1 (si_position c x) h (four_vel w v) -> 0 < c1 (four_vel w v) ->
  (forall r, c1 x <= r -> 0 < radial_si c (sch_rad c G o) (al_of c G o) (si_position c x) h (four_vel w v) r) -> c ^ 2 < (FloatInv.low 0 h (four_vel w v) / c) * (FloatInv.low 0 h (four_vel w v) / c) ->
  exists k, 0 < k /\ forall T, 0 < T -> exists X W, X 0 = si_position c x /\ W 0 = four_vel w v /\ (forall t, 0 <= t <= T -> locally t (moves (kn_f_vec c G Cc o) X W)) /\
  flow_rounded K Kin c (fun e => kn_covA e c G Cc o) (fun e => kn_fA e c G Cc o) x v X W T /\ forall t, 0 <= t <= T -> c1 x + k * t <= c1 (X t).
Proof. exact FateFlow.kn_escapes_flow. Qed.
Print Assumptions C130_kerr_newman_escapes_flow.

Theorem C130_kerr_newman_scattered_flow : forall K Kin c G Cc o x v h w r1 rt,
  0 <= K -> 0 <= Kin -> 0 < c -> 0 < G -> 0 < Cc -> 0 < q_val (mo_M o) -> q_val (mo_q o) = 0 ->
  MetricModel.kn_cov c G Cc o (si_position c x) = Ok h -> 0 < mnth h 0 0 -> norm2 h (four_vel 0 v) < c ^ 2 -> timelike_lift c h v w ->
  barred_si c (sch_rad c G o) (al_of c G o) r1 (si_position c x) h (four_vel w v) -> c1 (four_vel w v) < 0 -> rt < c1 x ->
  turning_point (radial_si c (sch_rad c G o) (al_of c G o) (si_position c x) h (four_vel w v)) rt -> c ^ 2 < (FloatInv.low 0 h (four_vel w v) / c) * (FloatInv.low 0 h (four_vel w v) / c) ->
  exists s s' k, 0 < s < s' /\ 0 < k /\ forall T, s' <= T -> exists X W, X 0 = si_position c x /\ W 0 = four_vel w v /\ (forall t, 0 <= t <= T -> locally t (moves (kn_f_vec c G Cc o) X W)) /\
  flow_rounded K Kin c (fun e => kn_covA e c G Cc o) (fun e => kn_fA e c G Cc o) x v X W T /\ c1 (X s) = rt /\
  (forall t u, 0 <= t < u -> u <= s -> c1 (X u) < c1 (X t)) /\ (forall t u, s <= t < u -> u <= T -> c1 (X t) < c1 (X u)) /\ forall t, s' <= t <= T -> rt + k * (t - s') < c1 (X t).
Proof. exact FateFlow.kn_scattered_flow. Qed.
Print Assumptions C130_kerr_newman_scattered_flow.

Theorem C130_kerr_newman_bound_flow : forall K Kin c G Cc o x v h w r1,
  0 <= K -> 0 <= Kin -> 0 < c -> 0 < G -> 0 < Cc -> 0 < q_val (mo_M o) -> q_val (mo_q o) = 0 ->
  MetricModel.kn_cov c G Cc o (si_position c x) = Ok h -> 0 < mnth h 0 0 -> norm2 h (four_vel 0 v) < c ^ 2 -> timelike_lift c h v w ->
  barred_si c (sch_rad c G o) (al_of c G o) r1 (si_position c x) h (four_vel w v) -> (FloatInv.low 0 h (four_vel w v) / c) * (FloatInv.low 0 h (four_vel w v) / c) < c ^ 2 ->
  exists r2, forall T, 0 < T -> exists X W, X 0 = si_position c x /\ W 0 = four_vel w v /\ (forall t, 0 <= t <= T -> locally t (moves (kn_f_vec c G Cc o) X W)) /\
  flow_rounded K Kin c (fun e => kn_covA e c G Cc o) (fun e => kn_fA e c G Cc o) x v X W T /\ forall t, 0 <= t <= T -> r1 < c1 (X t) < r2.
Proof. exact FateFlow.kn_bound_flow. Qed.
Print Assumptions C130_kerr_newman_bound_flow.

Theorem C130_schwarzschild_reach_flow : forall K Kin c G o x v h w r1,
  0 <= K -> 0 <= Kin -> 0 < c -> 0 < G -> 0 < q_val (mo_M o) ->
  MetricModel.sch_cov c G o (si_position c x) = Ok h -> 0 < mnth h 0 0 -> norm2 h (four_vel 0 v) < c ^ 2 -> timelike_lift c h v w ->
  exterior_si (sch_rad c G o) 0 r1 (si_position c x) h (four_vel w v) -> forall T, 0 < T ->
  exists S X W, 0 < S <= T /\ X 0 = si_position c x /\ W 0 = four_vel w v /\ (forall t, 0 <= t <= S -> locally t (moves (sch_f_vec c G o) X W)) /\
  flow_rounded K Kin c (fun e => sch_covA e c G o) (fun e => sch_fA e c G o) x v X W S /\ (forall t, 0 <= t < S -> r1 < c1 (X t)) /\ (S = T /\ r1 < c1 (X S) \/ c1 (X S) = r1).
Proof. exact FateFlow.sch_reach_flow. Qed.
Print Assumptions C130_schwarzschild_reach_flow.

Theorem C130_schwarzschild_captured_flow : forall K Kin c G o x v h w r1,
  0 <= K -> 0 <= Kin -> 0 < c -> 0 < G -> 0 < q_val (mo_M o) ->
  MetricModel.sch_cov c G o (si_position c x) = Ok h -> 0 < mnth h 0 0 -> norm2 h (four_vel 0 v) < c ^ 2 -> timelike_lift c h v w ->
  exterior_si (sch_rad c G o) 0 r1 (si_position c x) h (four_vel w v) -> c1 (four_vel w v) < 0 ->
  (forall r, r1 <= r <= c1 x -> 0 < radial_si c (sch_rad c G o) 0 (si_position c x) h (four_vel w v) r) ->
  exists S X W, 0 < S /\ X 0 = si_position c x /\ W 0 = four_vel w v /\ (forall t, 0 <= t <= S -> locally t (moves (sch_f_vec c G o) X W)) /\
  flow_rounded K Kin c (fun e => sch_covA e c G o) (fun e => sch_fA e c G o) x v X W S /\ c1 (X S) = r1 /\ forall t u, 0 <= t < u -> u <= S -> c1 (X u) < c1 (X t).
Proof. exact FateFlow.sch_captured_flow. Qed.
Print Assumptions C130_schwarzschild_captured_flow.

Theorem C130_schwarzschild_escapes_flow : forall K Kin c G o x v h w r1,
  0 <= K -> 0 <= Kin -> 0 < c -> 0 < G -> 0 < q_val (mo_M o) ->
  MetricModel.sch_cov c G o (si_position c x) = Ok h -> 0 < mnth h 0 0 -> norm2 h (four_vel 0 v) < c ^ 2 -> timelike_lift c h v w ->
  exterior_si (sch_rad c G o) 0 r1 (si_position c x) h (four_vel w v) -> 0 < c1 (four_vel w v) ->
  (forall r, c1 x <= r -> 0 < radial_si c (sch_rad c G o) 0 (si_position c x) h (four_vel w v) r) -> c ^ 2 < (FloatInv.low 0 h (four_vel w v) / c) * (FloatInv.low 0 h (four_vel w v) / c) ->
  exists k, 0 < k /\ forall T, 0 < T -> exists X W, X 0 = si_position c x /\ W 0 = four_vel w v /\ (forall t, 0 <= t <= T -> locally t (moves (sch_f_vec c G o) X W)) /\
  flow_rounded K Kin c (fun e => sch_covA e c G o) (fun e => sch_fA e c G o) x v X W T /\ forall t, 0 <= t <= T -> c1 x + k * t <= c1 (X t).
Proof. exact FateFlow.sch_escapes_flow. Qed.
Print Assumptions C130_schwarzschild_escapes_flow.

Theorem C130_schwarzschild_scattered_flow : forall K Kin c G o x v h w r1 rt,
  0 <= K -> 0 <= Kin -> 0 < c -> 0 < G -> 0 < q_val (mo_M o) ->
  MetricModel.sch_cov c G o (si_position c x) = Ok h -> 0 < mnth h 0 0 -> norm2 h (four_vel 0 v) < c ^ 2 -> timelike_lift c h v w ->
  barred_si c (sch_rad c G o) 0 r1 (si_position c x) h (four_vel w v) -> c1 (four_vel w v) < 0 -> rt < c1 x ->
  turning_point (radial_si c (sch_rad c G o) 0 (si_position c x) h (four_vel w v)) rt -> c ^ 2 < (FloatInv.low 0 h (four_vel w v) / c) * (FloatInv.low 0 h (four_vel w v) / c) ->
  exists s s' k, 0 < s < s' /\ 0 < k /\ forall T, s' <= T -> exists X W, X 0 = si_position c x /\ W 0 = four_vel w v /\ (forall t, 0 <= t <= T -> locally t (moves (sch_f_vec c G o) X W)) /\
  flow_rounded K Kin c (fun e => sch_covA e c G o) (fun e => sch_fA e c G o) x v X W T /\ c1 (X s) = rt /\
  (forall t u, 0 <= t < u -> u <= s -> c1 (X u) < c1 (X t)) /\ (forall t u, s <= t < u -> u <= T -> c1 (X t) < c1 (X u)) /\ forall t, s' <= t <= T -> rt + k * (t - s') < c1 (X t).
Proof. exact FateFlow.sch_scattered_flow. Qed.
Print Assumptions C130_schwarzschild_scattered_flow.

Theorem C130_schwarzschild_bound_flow : forall K Kin c G o x v h w r1,
  0 <= K -> 0 <= Kin -> 0 < c -> 0 < G -> 0 < q_val (mo_M o) ->
  MetricModel.sch_cov c G o (si_position c x) = Ok h -> 0 < mnth h 0 0 -> norm2 h (four_vel 0 v) < c ^ 2 -> timelike_lift c h v w ->
  barred_si c (sch_rad c G o) 0 r1 (si_position c x) h (four_vel w v) -> (FloatInv.low 0 h (four_vel w v) / c) * (FloatInv.low 0 h (four_vel w v) / c) < c ^ 2 ->
  exists r2, forall T, 0 < T -> exists X W, X 0 = si_position c x /\ W 0 = four_vel w v /\ (forall t, 0 <= t <= T -> locally t (moves (sch_f_vec c G o) X W)) /\
  flow_rounded K Kin c (fun e => sch_covA e c G o) (fun e => sch_fA e c G o) x v X W T /\ forall t, 0 <= t <= T -> r1 < c1 (X t) < r2.
Proof. exact FateFlow.sch_bound_flow. Qed.
Print Assumptions C130_schwarzschild_bound_flow.

(** Schwarzschild, units G = c = M = 1, release at r = 10 in the equatorial plane; m = 1 (tl) or 0: E^2 = 4/5 (m + L^2 / 100 + 4/5 u1^2) *)
Lemma wit_energy guu E u1 u3 tl : inverse_of guu (GeoUtilsSpec.sch_cov 10 (PI / 2)) -> on_shell_future guu (mkQ4 (- E) u1 0 u3) u1 0 u3 tl -> E * E = 4/5 * ((if tl then 1 else 0) + u3 * u3 / 100 + 4/5 * (u1 * u1)).
Proof.
  intros [HI _] (HQ & _ & _ & _ & _). assert (EN : forall i j, mnth (mm guu (GeoUtilsSpec.sch_cov 10 (PI / 2))) i j = mnth id4 i j) by (intros; rewrite HI; reflexivity).
  assert (G00 := EN 0%nat 0%nat). assert (G03 := EN 0%nat 3%nat). assert (G30 := EN 3%nat 0%nat). assert (G33 := EN 3%nat 3%nat). assert (G01 := EN 0%nat 1%nat). assert (G10 := EN 1%nat 0%nat). assert (G11 := EN 1%nat 1%nat). assert (G13 := EN 1%nat 3%nat). assert (G31 := EN 3%nat 1%nat).
  destruct guu as [[a00 a01 a02 a03] [a10 a11 a12 a13] [a20 a21 a22 a23] [a30 a31 a32 a33]].
  unfold mm, GeoUtilsSpec.sch_cov, id4, delta4, q4tab, mnth, sum4 in G00, G03, G30, G33, G01, G10, G11, G13, G31. cbn in G00, G03, G30, G33, G01, G10, G11, G13, G31. unfold dot in *. cbn in G00, G03, G30, G33, G01, G10, G11, G13, G31. rewrite !sin_PI2 in *.
  unfold quad, dot, mv in HQ. cbn in HQ. unfold dot in HQ. cbn in HQ.
  assert (a00 = -5/4) by lra. assert (a03 = 0) by lra. assert (a30 = 0) by lra. assert (a33 = 1/100) by lra. assert (a01 = 0) by lra. assert (a10 = 0) by lra. assert (a11 = 4/5) by lra. assert (a13 = 0) by lra. assert (a31 = 0) by lra. subst.
  assert (B : b2R tl = if tl then 1 else 0) by (destruct tl; reflexivity). rewrite <- B. clear - HQ. destruct tl; cbn in HQ |- *; lra.
Qed.
Example C130_nonvacuous : named_bh "Schwarzschild" [] schE 0 0 /\ book "Schwarzschild" [] GeoUtilsSpec.sch_cov (fun r th => 2 < r /\ sin th <> 0) /\ (2 < 10 /\ sin (PI / 2) <> 0) /\
  (* captured: m = 1, L = 1, u1 = -1 *)
  (released 0 0 3 10 (PI / 2) 1 /\ forall guu E, inverse_of guu (GeoUtilsSpec.sch_cov 10 (PI / 2)) -> on_shell_future guu (mkQ4 (- E) (-1) 0 1) (-1) 0 1 true -> forall r, 3 <= r <= 10 -> 0 < pot 0 0 (PI / 2) E 0 1 true r) /\
  (* escapes: m = 1, L = 1, u1 = 1 *)
  (forall guu E, inverse_of guu (GeoUtilsSpec.sch_cov 10 (PI / 2)) -> on_shell_future guu (mkQ4 (- E) 1 0 1) 1 0 1 true -> 1 < E * E /\ forall r, 10 <= r -> 0 < pot 0 0 (PI / 2) E 0 1 true r) /\
  (* a light ray, L = 1, turning at r = 4 *)
  (let u1 := - sqrt (93 / 2560) in u1 < 0 /\ forall guu E, inverse_of guu (GeoUtilsSpec.sch_cov 10 (PI / 2)) -> on_shell_future guu (mkQ4 (- E) u1 0 1) u1 0 1 false ->
    0 < E * E /\ pot 0 0 (PI / 2) E 0 1 false 3 < 0 /\ turning_point (pot 0 0 (PI / 2) E 0 1 false) 4) /\
  (* bound: m = 1, L = 4, u1 = 0 *)
  (released 0 0 4 10 (PI / 2) 4 /\ forall guu E, inverse_of guu (GeoUtilsSpec.sch_cov 10 (PI / 2)) -> on_shell_future guu (mkQ4 (- E) 0 0 4) 0 0 4 true -> E * E < 1 /\ pot 0 0 (PI / 2) E 0 4 true 4 < 0).
Proof.
  assert (PP := PI_RGT_0). split; [constructor|]. split; [constructor|]. split; [rewrite sin_PI2; lra|].
  assert (PV : forall E u3 tl r, pot 0 0 (PI / 2) E 0 u3 tl r = E * E * (r * r * (r * r)) - (r * r - 2 * r) * (u3 * u3 + (if tl then 1 else 0) * (r * r))).
  { intros E u3 tl r. unfold pot. rewrite sin_PI2, cos_PI2. field. }
  split; [|split; [|split; [|]]].
  - split; [unfold released; lra|]. intros guu E HI HS r Hr. assert (EE := wit_energy guu E (-1) 1 true HI HS). cbv beta iota in EE. rewrite PV, EE. cbv beta iota. assert (P1 : 0 < r * r) by nra. assert (P2 : 0 < r * r * (r * r)) by (apply Rmult_lt_0_compat; exact P1). assert (P3 : 0 < r * r * (2 * r - 1)) by (apply Rmult_lt_0_compat; lra). nra.
  - intros guu E HI HS. assert (EE := wit_energy guu E 1 1 true HI HS). cbv beta iota in EE. split; [lra|]. intros r Hr. rewrite PV, EE. cbv beta iota. assert (P1 : 0 < r * r) by nra. assert (P2 : 0 < r * r * (r * r)) by (apply Rmult_lt_0_compat; exact P1). assert (P3 : 0 < r * r * (2 * r - 1)) by (apply Rmult_lt_0_compat; lra). nra.
  - intros u1. assert (SQ : sqrt (93 / 2560) * sqrt (93 / 2560) = 93 / 2560) by (apply sqrt_sqrt; lra). assert (0 < sqrt (93 / 2560)) by (apply sqrt_lt_R0; lra). split; [unfold u1; lra|].
    intros guu E HI HS. assert (EE := wit_energy guu E u1 1 false HI HS). cbv beta iota in EE. assert (X : u1 * u1 = 93 / 2560) by (unfold u1; rewrite Rmult_opp_opp; exact SQ). rewrite X in EE.
    assert (E1 : E * E = 1 / 32) by lra. split; [lra|]. split; [rewrite PV, E1; lra|].
    split; [rewrite PV, E1; lra|]. split.
    + exists 2. split; [lra|]. apply (is_derive_ext (fun r => 1 / 32 * (r * r * (r * r)) - (r * r - 2 * r) * (1 * 1 + 0 * (r * r)))); [intros r; rewrite PV, E1; reflexivity|]. auto_derive; [exact Logic.I|lra].
    + intros r Hr. rewrite PV, E1. assert (0 < r * (r - 4)) by nra. assert (0 < r * r + 4 * r - 16) by nra. assert (0 < r * (r - 4) * (r * r + 4 * r - 16)) by (apply Rmult_lt_0_compat; assumption). nra.
  - split; [unfold released; lra|]. intros guu E HI HS. assert (EE := wit_energy guu E 0 4 true HI HS). cbv beta iota in EE. rewrite PV, EE. split; lra.
Qed.
(** SI, c = G = M = 1, Schwarzschild: a body at r = 10 in the equatorial plane with velocity (u, 0, y) and the 4-velocity the class computes from it *)
Lemma wit_si u y : y <> 0 -> let o := mkmobj NSchwarzschild Sph (mkqty 1 1 DMass) (mkqty 0 1 DOne) (mkqty 0 1 DCharge) (mkqty 0 1 DOne) in let x := mkQ4 0 10 (PI / 2) 0 in let v := mkQ4 0 u 0 y in
  let EE := 4/5 * (1 + 5/4 * (u * u) + 100 * (y * y)) in
  exists g w, MetricModel.sch_cov 1 1 o (si_position 1 x) = Ok g /\ 0 < mnth g 0 0 /\ norm2 g (four_vel 0 v) < 1 ^ 2 /\ timelike_lift 1 g v w /\ sch_rad 1 1 o = 2 /\ low 3 g (four_vel w v) <> 0 /\
  low 0 g (four_vel w v) / 1 * (low 0 g (four_vel w v) / 1) = EE /\ forall r, radial_si 1 (sch_rad 1 1 o) 0 (si_position 1 x) g (four_vel w v) r = EE * (r * r * (r * r)) - (r * r - 2 * r) * (10000 * (y * y) + r * r).
Proof.
  intros Hy o x v EE. assert (HS : sin (c2 x) = 1) by (unfold x; cbn [c2]; apply sin_PI2). assert (HC : cos (c2 x) = 0) by (unfold x; cbn [c2]; apply cos_PI2).
  assert (X1 : c1 (si_position 1 x) = 10) by reflexivity. assert (X2 : c2 (si_position 1 x) = c2 x) by reflexivity.
  assert (RS : sch_rad 1 1 o = 2) by (unfold sch_rad, schwarzschild_radius, o; cbn [prim mo_M q_val]; lra).
  assert (Eg : MetricModel.sch_cov 1 1 o (si_position 1 x) = Ok (sch_g 1 2 10 (c2 x))) by (unfold MetricModel.sch_cov; cbn [mo_sys o]; rewrite RS, X1, X2; apply finite_if_ok; repeat constructor; lra).
  set (g := sch_g 1 2 10 (c2 x)) in *.
  assert (U : 0 <= u * u) by apply Rle_0_sqr. assert (Y : 0 <= y * y) by apply Rle_0_sqr.
  assert (W : 0 < mnth g 0 0 /\ norm2 g (four_vel 0 v) < 1 ^ 2).
  { unfold g, sch_g, four_vel, norm2, dot, mv, mnth, v. cbn. unfold dot. cbn. fold (c2 x). change (PI / 2) with (c2 x). rewrite HS. split; [lra|]. lra. }
  assert (Hs : sin (c2 x) <> 0) by lra.
  destruct (FloatFlow.sch_flow 0 1 1 1 o x v g (Rle_refl 0) Rle_0_1 Rlt_0_1 Rlt_0_1 Eg (proj1 W) Hs (proj2 W)) as (w & TL & _).
  assert (N := proj2 (proj2 TL)).
  assert (NN : norm2 g (four_vel w v) = 4/5 * (w * w) - 5/4 * (u * u) - 100 * (y * y)).
  { unfold g, sch_g, four_vel, norm2, dot, mv, mnth, v. cbn. unfold dot. cbn. fold (c2 x). change (PI / 2) with (c2 x). rewrite HS. lra. }
  assert (L0 : low 0 g (four_vel w v) = 4/5 * w) by (unfold low, sum4, g, sch_g, four_vel, mnth, v; cbn [q4nth c0 c1 c2 c3]; lra).
  assert (L2 : low 2 g (four_vel w v) = 0) by (unfold low, sum4, g, sch_g, four_vel, mnth, v; cbn [q4nth c0 c1 c2 c3]; lra).
  assert (L3 : low 3 g (four_vel w v) = - (100 * y)) by (unfold low, sum4, g, sch_g, four_vel, mnth, v; cbn [q4nth c0 c1 c2 c3]; rewrite ?HS; lra).
  assert (EW : 4/5 * w * (4/5 * w) = EE) by (unfold EE; lra).
  exists g, w. split; [exact Eg|]. split; [apply W|]. split; [apply W|]. split; [exact TL|]. split; [exact RS|]. split; [rewrite L3; lra|]. split; [rewrite L0; lra|].
  intros r. unfold radial_si, carter_si. rewrite RS, L0, L2, L3, N, X2, HS, HC. unfold dl_of. rewrite <- EW. field.
Qed.
Example C130_nonvacuous_si : let o := mkmobj NSchwarzschild Sph (mkqty 1 1 DMass) (mkqty 0 1 DOne) (mkqty 0 1 DCharge) (mkqty 0 1 DOne) in let x := mkQ4 0 10 (PI / 2) 0 in
  let start v g w := MetricModel.sch_cov 1 1 o (si_position 1 x) = Ok g /\ 0 < mnth g 0 0 /\ norm2 g (four_vel 0 v) < 1 ^ 2 /\ timelike_lift 1 g v w in let s := sch_rad 1 1 o in
  (* captured *)
  (let v := mkQ4 0 (-1) 0 (1/100) in exists g w, start v g w /\ exterior_si s 0 3 (si_position 1 x) g (four_vel w v) /\ c1 (four_vel w v) < 0 /\ forall r, 3 <= r <= c1 x -> 0 < radial_si 1 s 0 (si_position 1 x) g (four_vel w v) r) /\
  (* escapes *)
  (let v := mkQ4 0 1 0 (1/100) in exists g w, start v g w /\ exterior_si s 0 3 (si_position 1 x) g (four_vel w v) /\ 0 < c1 (four_vel w v) /\ (forall r, c1 x <= r -> 0 < radial_si 1 s 0 (si_position 1 x) g (four_vel w v) r) /\
    1 ^ 2 < low 0 g (four_vel w v) / 1 * (low 0 g (four_vel w v) / 1)) /\
  (* flies by, turning at r = 6 *)
  (let v := mkQ4 0 (- sqrt (92 / 375)) 0 (6/100) in exists g w, start v g w /\ barred_si 1 s 0 4 (si_position 1 x) g (four_vel w v) /\ c1 (four_vel w v) < 0 /\ turning_point (radial_si 1 s 0 (si_position 1 x) g (four_vel w v)) 6 /\
    1 ^ 2 < low 0 g (four_vel w v) / 1 * (low 0 g (four_vel w v) / 1)) /\
  (* bound *)
  (let v := mkQ4 0 0 0 (4/100) in exists g w, start v g w /\ barred_si 1 s 0 4 (si_position 1 x) g (four_vel w v) /\ low 0 g (four_vel w v) / 1 * (low 0 g (four_vel w v) / 1) < 1 ^ 2).
Proof.
  intros o x start s. assert (PP := PI_RGT_0). assert (X1 : c1 (si_position 1 x) = 10) by reflexivity. assert (X2 : c2 (si_position 1 x) = PI / 2) by reflexivity. assert (X3 : c1 x = 10) by reflexivity.
  split; [|split; [|split]]; intros v.
  - destruct (wit_si (-1) (1/100) ltac:(lra)) as (g & w & A1 & A2 & A3 & A4 & RS & L3 & EE & R). fold o x v s in A1, A4, RS, L3, EE, R. exists g, w. split; [split; [exact A1|split; [exact A2|split; [exact A3|exact A4]]]|].
    split; [unfold exterior_si; rewrite RS, X1, X2; unfold dl_of; split; [lra|split; [lra|split; [lra|exact L3]]]|]. split; [unfold four_vel, v; cbn [c1]; lra|]. intros r Hr. rewrite R, X3 in *.
    assert (P1 : 0 < r * r) by nra. assert (P2 : 0 < r * r * (r * r)) by (apply Rmult_lt_0_compat; exact P1). assert (P3 : 0 < r * r * (2 * r - 1)) by (apply Rmult_lt_0_compat; lra). nra.
  - destruct (wit_si 1 (1/100) ltac:(lra)) as (g & w & A1 & A2 & A3 & A4 & RS & L3 & EE & R). fold o x v s in A1, A4, RS, L3, EE, R. exists g, w. split; [split; [exact A1|split; [exact A2|split; [exact A3|exact A4]]]|].
    split; [unfold exterior_si; rewrite RS, X1, X2; unfold dl_of; split; [lra|split; [lra|split; [lra|exact L3]]]|]. split; [unfold four_vel, v; cbn [c1]; lra|]. split; [intros r Hr; rewrite R, X3 in *|rewrite EE; lra].
    assert (P1 : 0 < r * r) by nra. assert (P2 : 0 < r * r * (r * r)) by (apply Rmult_lt_0_compat; exact P1). assert (P3 : 0 < r * r * (2 * r - 1)) by (apply Rmult_lt_0_compat; lra). nra.
  - assert (SQ : sqrt (92 / 375) * sqrt (92 / 375) = 92 / 375) by (apply sqrt_sqrt; lra). assert (SP : 0 < sqrt (92 / 375)) by (apply sqrt_lt_R0; lra).
    destruct (wit_si (- sqrt (92 / 375)) (6/100) ltac:(lra)) as (g & w & A1 & A2 & A3 & A4 & RS & L3 & EE & R). fold o x v s in A1, A4, RS, L3, EE, R. rewrite Rmult_opp_opp, SQ in EE.
    assert (R' : forall r, radial_si 1 s 0 (si_position 1 x) g (four_vel w v) r = 4/3 * (r * r * (r * r)) - (r * r - 2 * r) * (36 + r * r)) by (intros r; rewrite R, Rmult_opp_opp, SQ; lra).
    exists g, w. split; [split; [exact A1|split; [exact A2|split; [exact A3|exact A4]]]|].
    split; [unfold barred_si; rewrite R', RS, X1, X2; unfold dl_of; split; [lra|split; [lra|split; [lra|split; [exact L3|lra]]]]|]. split; [unfold four_vel, v; cbn [c1]; lra|]. split; [|rewrite EE; lra].
    split; [rewrite R'; lra|]. split.
    + exists 144. split; [lra|]. apply (is_derive_ext (fun r => 4/3 * (r * r * (r * r)) - (r * r - 2 * r) * (36 + r * r))); [intros r; symmetry; apply R'|]. auto_derive; [exact Logic.I|lra].
    + intros r Hr. rewrite R'. assert (0 < r * (r - 6)) by nra. assert (0 < r * r / 3 + 4 * r - 12) by nra. assert (0 < r * (r - 6) * (r * r / 3 + 4 * r - 12)) by (apply Rmult_lt_0_compat; assumption). nra.
  - destruct (wit_si 0 (4/100) ltac:(lra)) as (g & w & A1 & A2 & A3 & A4 & RS & L3 & EE & R). fold o x v s in A1, A4, RS, L3, EE, R. exists g, w. split; [split; [exact A1|split; [exact A2|split; [exact A3|exact A4]]]|].
    split; [unfold barred_si; rewrite R, RS, X1, X2; unfold dl_of; split; [lra|split; [lra|split; [lra|split; [exact L3|lra]]]]|]. rewrite EE. lra.
Qed.
