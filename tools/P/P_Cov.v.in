(** Properties C102-C104: changes of coordinates.
    [coord_change A B n phi X]: phi substitutes the expression X i in the new coordinates for the i-th old coordinate.
    [covariant_pair m g gi]: the metric object m has covariant entries g, for which Matrix.inv finds gi.
    [transformed n phi X g g']: g' is g in the new coordinates; [jac_inv n X Y]: the Jacobian matrix dX_i/dx'_a has the inverse Y.
    [pull n X Y c T]: the tensor transformation law for configuration c. [obtained ctor m c t]: t is ctor(m).change_config(c). *)
From Coq Require Import String Ascii Reals List Arith Lia Lra.
From Verif Require Import Base SymAlg SymModel SymLoops SymGeo SymMove SymConn SymTensorModel SymTensorProofs SymTransform SymCov SymCov2 ExprModel SymWitness SymTensorWitness PredefModel PredefBridge PredefProofs PredefFinal SymCovInst SymConf.
Import ListNotations.

Local Open Scope K_scope.
@sthm C102_entries SymTransform.new2old_entries | forall (A : dops) (L : dlaws A),  | intros A L. exact (SymTransform.new2old_entries L). | C102: what from_new2old and its inv() hold
@sthm C102_never_inverse SymTransform.new2old_never | forall (A : dops) (L : dlaws A),  | intros A L. exact (SymTransform.new2old_never L). | with two or more coordinates it is never the inverse Jacobian (when no partial derivative vanishes)
@sthm C102_one_dimension SymTransform.new2old_one | forall (A : dops) (L : dlaws A),  | intros A L. exact (SymTransform.new2old_one L).
@thm C102_jacobian_refuted SymTransform.new2old_refuted -- old = (x0 + 2 x1, 2 x0 + x1)
@thm C102_rank SymTransform.tm_new_rank
@thm C102_from_old2new SymTransform.old2new_raises
(** C103: the inhomogeneous law of the Christoffel symbols *)
Theorem C103_christoffel : forall (A B : dops) (LA : dlaws A) (LB : dlaws B) (m : metric A) (m' : metric B) (phi : A -> B) (X : nat -> B) (Y : nat -> nat -> B) (g gi : nat -> nat -> A) (g' gi' : nat -> nat -> B),
  covariant_pair m g gi -> covariant_pair m' g' gi' -> symmetric_metric (m_n m) g -> m_n m' = m_n m -> coord_change A B (m_n m) phi X -> jac_inv (m_n m) X Y -> transformed (m_n m) phi X g g' -> 
  exists ch ch', christoffels_from_metric m = Ok ch /\ christoffels_from_metric m' = Ok ch' /\
  forall i b c, (i < m_n m)%nat -> (b < m_n m)%nat -> (c < m_n m)%nat ->
    ksum (m_n m) (fun a => kd a (X i) * t_arr ch' [a; b; c]) ==
    kd c (kd b (X i)) + ksum (m_n m) (fun j => ksum (m_n m) (fun k => phi (t_arr ch [i; j; k]) * kd b (X j) * kd c (X k))).
Proof. intros A B LA LB m m' phi X Y g gi g' gi' HP HP' HS HN CC HY HT. exact (SymCov2.cov_christoffel LA LB m m' phi X Y g gi g' gi' HP HP' HS HN CC HY HT). Qed.
Print Assumptions C103_christoffel.

(** every configuration of four indices *)
Theorem C103_riemann : forall (A B : dops) (LA : dlaws A) (LB : dlaws B) (m : metric A) (m' : metric B) (phi : A -> B) (X : nat -> B) (Y : nat -> nat -> B) (g gi : nat -> nat -> A) (g' gi' : nat -> nat -> B),
  covariant_pair m g gi -> covariant_pair m' g' gi' -> symmetric_metric (m_n m) g -> m_n m' = m_n m -> coord_change A B (m_n m) phi X -> jac_inv (m_n m) X Y -> transformed (m_n m) phi X g g' -> 
  forall c : config, List.length c = 4%nat -> config_checker c = true ->
  exists (t : tens A) (t' : tens B), obtained riemann_from_metric m c t /\ obtained riemann_from_metric m' c t' /\ t_cfg t = c /\ t_cfg t' = c /\
    forall idx, valid (m_n m) 4 idx -> t_arr t' idx == pull (m_n m) X Y c (fun r => phi (t_arr t r)) idx.
Proof. intros A B LA LB m m' phi X Y g gi g' gi' HP HP' HS HN CC HY HT. exact (SymCov2.cov_riemann LA LB m m' phi X Y g gi g' gi' HP HP' HS HN CC HY HT). Qed.
Print Assumptions C103_riemann.

(** Ricci tensor *)
Theorem C103_ricci : forall (A B : dops) (LA : dlaws A) (LB : dlaws B) (m : metric A) (m' : metric B) (phi : A -> B) (X : nat -> B) (Y : nat -> nat -> B) (g gi : nat -> nat -> A) (g' gi' : nat -> nat -> B),
  covariant_pair m g gi -> covariant_pair m' g' gi' -> symmetric_metric (m_n m) g -> m_n m' = m_n m -> coord_change A B (m_n m) phi X -> jac_inv (m_n m) X Y -> transformed (m_n m) phi X g g' -> 
  forall c : config, List.length c = 2%nat -> config_checker c = true ->
  exists (t : tens A) (t' : tens B), obtained ricci_from_metric m c t /\ obtained ricci_from_metric m' c t' /\ t_cfg t = c /\ t_cfg t' = c /\
    forall idx, valid (m_n m) 2 idx -> t_arr t' idx == pull (m_n m) X Y c (fun r => phi (t_arr t r)) idx.
Proof. intros A B LA LB m m' phi X Y g gi g' gi' HP HP' HS HN CC HY HT. exact (SymCov2.cov_ricci LA LB m m' phi X Y g gi g' gi' HP HP' HS HN CC HY HT). Qed.
Print Assumptions C103_ricci.

(** the Ricci scalar is a scalar *)
Theorem C103_scalar : forall (A B : dops) (LA : dlaws A) (LB : dlaws B) (m : metric A) (m' : metric B) (phi : A -> B) (X : nat -> B) (Y : nat -> nat -> B) (g gi : nat -> nat -> A) (g' gi' : nat -> nat -> B),
  covariant_pair m g gi -> covariant_pair m' g' gi' -> symmetric_metric (m_n m) g -> m_n m' = m_n m -> coord_change A B (m_n m) phi X -> jac_inv (m_n m) X Y -> transformed (m_n m) phi X g g' -> 
  exists s s', scalar_from_metric m = Ok s /\ scalar_from_metric m' = Ok s' /\ scalar_expr s' == phi (scalar_expr s).
Proof. intros A B LA LB m m' phi X Y g gi g' gi' HP HP' HS HN CC HY HT. exact (SymCov2.cov_scalar LA LB m m' phi X Y g gi g' gi' HP HP' HS HN CC HY HT). Qed.
Print Assumptions C103_scalar.

(** Einstein tensor *)
Theorem C103_einstein : forall (A B : dops) (LA : dlaws A) (LB : dlaws B) (m : metric A) (m' : metric B) (phi : A -> B) (X : nat -> B) (Y : nat -> nat -> B) (g gi : nat -> nat -> A) (g' gi' : nat -> nat -> B),
  covariant_pair m g gi -> covariant_pair m' g' gi' -> symmetric_metric (m_n m) g -> m_n m' = m_n m -> coord_change A B (m_n m) phi X -> jac_inv (m_n m) X Y -> transformed (m_n m) phi X g g' -> 
  forall c : config, List.length c = 2%nat -> config_checker c = true ->
  exists (t : tens A) (t' : tens B), obtained einstein_from_metric m c t /\ obtained einstein_from_metric m' c t' /\ t_cfg t = c /\ t_cfg t' = c /\
    forall idx, valid (m_n m) 2 idx -> t_arr t' idx == pull (m_n m) X Y c (fun r => phi (t_arr t r)) idx.
Proof. intros A B LA LB m m' phi X Y g gi g' gi' HP HP' HS HN CC HY HT. exact (SymCov2.cov_einstein LA LB m m' phi X Y g gi g' gi' HP HP' HS HN CC HY HT). Qed.
Print Assumptions C103_einstein.

(** Schouten tensor *)
Theorem C103_schouten : forall (A B : dops) (LA : dlaws A) (LB : dlaws B) (m : metric A) (m' : metric B) (phi : A -> B) (X : nat -> B) (Y : nat -> nat -> B) (g gi : nat -> nat -> A) (g' gi' : nat -> nat -> B),
  covariant_pair m g gi -> covariant_pair m' g' gi' -> symmetric_metric (m_n m) g -> m_n m' = m_n m -> coord_change A B (m_n m) phi X -> jac_inv (m_n m) X Y -> transformed (m_n m) phi X g g' -> (3 <= m_n m)%nat ->
  forall c : config, List.length c = 2%nat -> config_checker c = true ->
  exists (t : tens A) (t' : tens B), obtained schouten_from_metric m c t /\ obtained schouten_from_metric m' c t' /\ t_cfg t = c /\ t_cfg t' = c /\
    forall idx, valid (m_n m) 2 idx -> t_arr t' idx == pull (m_n m) X Y c (fun r => phi (t_arr t r)) idx.
Proof. intros A B LA LB m m' phi X Y g gi g' gi' HP HP' HS HN CC HY HT. exact (SymCov2.cov_schouten LA LB m m' phi X Y g gi g' gi' HP HP' HS HN CC HY HT). Qed.
Print Assumptions C103_schouten.

(** Weyl tensor *)
Theorem C103_weyl : forall (A B : dops) (LA : dlaws A) (LB : dlaws B) (m : metric A) (m' : metric B) (phi : A -> B) (X : nat -> B) (Y : nat -> nat -> B) (g gi : nat -> nat -> A) (g' gi' : nat -> nat -> B),
  covariant_pair m g gi -> covariant_pair m' g' gi' -> symmetric_metric (m_n m) g -> m_n m' = m_n m -> coord_change A B (m_n m) phi X -> jac_inv (m_n m) X Y -> transformed (m_n m) phi X g g' -> (4 <= m_n m)%nat ->
  forall c : config, List.length c = 4%nat -> config_checker c = true ->
  exists (t : tens A) (t' : tens B), obtained weyl_from_metric m c t /\ obtained weyl_from_metric m' c t' /\ t_cfg t = c /\ t_cfg t' = c /\
    forall idx, valid (m_n m) 4 idx -> t_arr t' idx == pull (m_n m) X Y c (fun r => phi (t_arr t r)) idx.
Proof. intros A B LA LB m m' phi X Y g gi g' gi' HP HP' HS HN CC HY HT. exact (SymCov2.cov_weyl LA LB m m' phi X Y g gi g' gi' HP HP' HS HN CC HY HT). Qed.
Print Assumptions C103_weyl.

(** raising and lowering indices commutes with changing coordinates *)
Theorem C103_change_config : forall (A B : dops) (LA : dlaws A) (LB : dlaws B) (n : nat) (phi : A -> B) (X : nat -> B), coord_change A B n phi X ->
  forall (g gi : nat -> nat -> A) (g' gi' Y : nat -> nat -> B), inverse_metrics n g gi -> inverse_metrics n g' gi' -> jac_inv n X Y -> transformed n phi X g g' ->
  forall (old new : config) (T : list nat -> A) idx, List.length new = List.length old -> config_checker old = true -> config_checker new = true -> valid n (List.length old) idx ->
  move n g' gi' old new (pull n X Y old (fun r => phi (T r))) idx == pull n X Y new (fun r => phi (move n g gi old new T r)) idx.
Proof. exact @SymCov2.move_pull. Qed.
Print Assumptions C103_change_config.
Local Close Scope K_scope.
Local Open Scope R_scope.
(** substituting expressions for coordinates is such a change of coordinates, whatever the oracles *)
Theorem C103_substitution : forall (U U' : (nat -> R) -> Prop) (n : nat) (s : nat -> expr) (HS : substitution U U' n s) simp minv simp' minv',
  coord_change (expr_ops U simp minv) (expr_ops U' simp' minv') n (usubst U U' n s HS) (ucoord U U' n s HS) /\
  forall x p, ev U' (usubst U U' n s HS x) p = ev U x (fun i => eval (s i) p).
Proof. intros. split; [apply SymCovInst.subst_coord_change|]. intros x p. apply SymCovInst.usubst_ev. Qed.
Print Assumptions C103_substitution.

(** MinkowskiPolar is MinkowskiCartesian in spherical coordinates, for any symbol c *)
Theorem C103_minkowski_polar : forall (k : nat), (4 <= k)%nat -> forall (a b : nat) (p : nat -> R), (a < 4)%nat -> (b < 4)%nat -> mp_chart (EVar k) p ->
  eval (MinkowskiPolar (EVar k) a b) p =
  rsum 4 (fun i => rsum 4 (fun j => eval (ediff a (spherical i)) p * eval (ediff b (spherical j)) p * eval (MinkowskiCartesian (EVar k) i j) (fun q => eval (spherical q) p))).
Proof. exact SymCovInst.polar_entries. Qed.
Print Assumptions C103_minkowski_polar.

(** all hypotheses of the theorems above hold for this pair of MetricTensors *)
Theorem C103_nonvacuous : forall (k : nat), (4 <= k)%nat -> exists simp minv simp' minv',
  let A := expr_ops (mc_chart (EVar k)) simp minv in let B := expr_ops (mp_chart (EVar k)) simp' minv' in
  let m := metric_of (mc_chart (EVar k)) simp minv (MinkowskiCartesian (EVar k)) in let m' := metric_of (mp_chart (EVar k)) simp' minv' (MinkowskiPolar (EVar k)) in
  dlaws A /\ dlaws B /\ exists (phi : A -> B) (X : nat -> B) Y g gi g' gi',
    covariant_pair m g gi /\ covariant_pair m' g' gi' /\ symmetric_metric (m_n m) g /\ m_n m' = m_n m /\ coord_change A B (m_n m) phi X /\
    jac_inv (m_n m) X Y /\ transformed (m_n m) phi X g g'.
Proof. exact SymCovInst.polar_nonvacuous. Qed.
Print Assumptions C103_nonvacuous.
Example C103_point : mp_chart (EVar 4) (pt [0; 2; PI / 2; 0; 3]).
Proof. unfold mp_chart, pt. cbn [eval nth]. split; [lra|]. split; [lra|]. rewrite sin_PI2. lra. Qed.

(** C104: the metric of m' is f times that of m.  [up_factor z c]: z for every contravariant index of c. *)
Local Open Scope K_scope.
(** C104: every configuration *)
Theorem C104_weyl : forall (A : dops) (L : dlaws A) (m m' : metric A) (g gi g' gi' : nat -> nat -> A) (f z : A),
  covariant_pair m g gi -> covariant_pair m' g' gi' -> symmetric_metric (m_n m) g -> m_n m' = m_n m ->
  f * z == 1 -> (forall i j, (i < m_n m)%nat -> (j < m_n m)%nat -> g' i j == f * g i j) ->
  (4 <= m_n m)%nat -> forall c, List.length c = 4%nat -> config_checker c = true ->
  exists t t', obtained weyl_from_metric m c t /\ obtained weyl_from_metric m' c t' /\ t_cfg t = c /\ t_cfg t' = c /\
  forall idx, valid (m_n m) 4 idx -> t_arr t' idx == f * up_factor z c * t_arr t idx.
Proof. exact @SymConf.weyl_conformal. Qed.
Print Assumptions C104_weyl.

(** with one raised index nothing changes *)
Theorem C104_weyl_ulll : forall (A : dops) (L : dlaws A) (m m' : metric A) (g gi g' gi' : nat -> nat -> A) (f z : A),
  covariant_pair m g gi -> covariant_pair m' g' gi' -> symmetric_metric (m_n m) g -> m_n m' = m_n m ->
  f * z == 1 -> (forall i j, (i < m_n m)%nat -> (j < m_n m)%nat -> g' i j == f * g i j) ->
  (4 <= m_n m)%nat -> exists t t', obtained weyl_from_metric m (cf "ulll") t /\ obtained weyl_from_metric m' (cf "ulll") t' /\
  forall idx, valid (m_n m) 4 idx -> t_arr t' idx == t_arr t idx.
Proof. exact @SymConf.weyl_conformal_ulll. Qed.
Print Assumptions C104_weyl_ulll.

(** the inhomogeneous law of the Schouten tensor *)
Theorem C104_schouten : forall (A : dops) (L : dlaws A) (m m' : metric A) (g gi g' gi' : nat -> nat -> A) (f z : A),
  covariant_pair m g gi -> covariant_pair m' g' gi' -> symmetric_metric (m_n m) g -> m_n m' = m_n m ->
  f * z == 1 -> (forall i j, (i < m_n m)%nat -> (j < m_n m)%nat -> g' i j == f * g i j) ->
  (3 <= m_n m)%nat -> exists t t', schouten_from_metric m = Ok t /\ schouten_from_metric m' = Ok t' /\ t_cfg t = cf "ll" /\ t_cfg t' = cf "ll" /\
  forall i j, (i < m_n m)%nat -> (j < m_n m)%nat ->
  let u k := kinv 2 * (z * kd k f) in
  t_arr t' [i; j] == t_arr t [i; j] + (ksum (m_n m) (fun k => u k * Gam (m_n m) g gi k i j) + u i * u j - kd i (u j)
     - kinv 2 * ksum (m_n m) (fun k => u k * ksum (m_n m) (fun l => gi k l * u l)) * g i j).
Proof. exact @SymConf.schouten_conformal. Qed.
Print Assumptions C104_schouten.

(** a change of units *)
Theorem C104_constant_factor : forall (A : dops) (L : dlaws A) (m m' : metric A) (g gi g' gi' : nat -> nat -> A) (f z : A),
  covariant_pair m g gi -> covariant_pair m' g' gi' -> symmetric_metric (m_n m) g -> m_n m' = m_n m ->
  f * z == 1 -> (forall i j, (i < m_n m)%nat -> (j < m_n m)%nat -> g' i j == f * g i j) ->
  (forall k, (k < m_n m)%nat -> kd k f == 0) ->
  (exists ch ch', christoffels_from_metric m = Ok ch /\ christoffels_from_metric m' = Ok ch' /\ forall i j k, (i < m_n m)%nat -> (j < m_n m)%nat -> (k < m_n m)%nat -> t_arr ch' [i; j; k] == t_arr ch [i; j; k]) /\
  (exists r r', riemann_from_metric m = Ok r /\ riemann_from_metric m' = Ok r' /\ forall i j k l, (i < m_n m)%nat -> (j < m_n m)%nat -> (k < m_n m)%nat -> (l < m_n m)%nat -> t_arr r' [i; j; k; l] == t_arr r [i; j; k; l]) /\
  (exists r r', ricci_from_metric m = Ok r /\ ricci_from_metric m' = Ok r' /\ forall i j, (i < m_n m)%nat -> (j < m_n m)%nat -> t_arr r' [i; j] == t_arr r [i; j]) /\
  (exists s s', scalar_from_metric m = Ok s /\ scalar_from_metric m' = Ok s' /\ scalar_expr s' == z * scalar_expr s) /\
  (exists e e', einstein_from_metric m = Ok e /\ einstein_from_metric m' = Ok e' /\ forall i j, (i < m_n m)%nat -> (j < m_n m)%nat -> t_arr e' [i; j] == t_arr e [i; j]).
Proof. exact @SymConf.constant_factor. Qed.
Print Assumptions C104_constant_factor.

Local Close Scope K_scope.
@thm C104_nonvacuous SymConf.conformal_witness -- exp(2 x0) times the flat metric, in every dimension
