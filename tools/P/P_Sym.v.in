(** Properties C44-C50: symbolic curvature classes (einsteinpy.symbolic).
    [dlaws A]: A is any scalar domain with the laws sympy expressions have (SymAlg.v); [covariant_pair m g gi]: g is
    metric.lower_config(), gi its inverse as returned by sympy. *)
From Coq Require Import String Ascii Reals List Arith Lia Bool Lra.
From Coquelicot Require Import Coquelicot.
From Verif Require Import Base SymAlg SymModel SymLoops SymGeo SymGeo2 SymMove SymConn SymFinal ExprModel SymWitness SymPair SymPairWitness.
Import ListNotations.
Local Open Scope nat_scope.
Local Open Scope K_scope.

@sthm C44_christoffel SymFinal.chr_all_ | forall (A : dops) (L : dlaws A) (m : metric A) (g gi : nat -> nat -> A), covariant_pair m g gi -> symmetric_metric (m_n m) g ->  | intros A L m g gi HP HS. exact (SymFinal.chr_all_ L m g gi HP HS). | C44: documented formula at every index, lower symmetry, metric compatibility
@thm C44_singular SymPair.chr_singular_stored -- a metric without inverse is refused
(** what [covariant_pair] says of a metric stored with covariant, and of one stored with contravariant indices *)
@thm C44_covariant_metric SymPair.covariant_stored
@thm C44_contravariant_metric SymPair.contravariant_stored
@thm C44_metric_pair SymPair.pair_of_metric
@thm C44_contravariant_nonvacuous SymPairWitness.contra_pair
@sthm C45_riemann_formula SymFinal.riem_formula_ | forall (A : dops) (L : dlaws A) (m : metric A) (g gi : nat -> nat -> A), covariant_pair m g gi -> symmetric_metric (m_n m) g ->  | intros A L m g gi HP HS. exact (SymFinal.riem_formula_ L m g gi HP HS). | C45: documented formula at every index, from the metric or from Christoffel symbols with or without parent_metric
@sthm C45_riemann_symmetries SymFinal.riem_sym_ | forall (A : dops) (L : dlaws A) (m : metric A) (g gi : nat -> nat -> A), covariant_pair m g gi -> symmetric_metric (m_n m) g ->  | intros A L m g gi HP HS. exact (SymFinal.riem_sym_ L m g gi HP HS). | lowered Riemann tensor: R_tsrv = g_tp R^p_srv, antisymmetries, pair symmetry, first Bianchi identity
@sthm C45_second_bianchi SymFinal.riem_bianchi2_ | forall (A : dops) (L : dlaws A) (m : metric A) (g gi : nat -> nat -> A), covariant_pair m g gi -> symmetric_metric (m_n m) g ->  | intros A L m g gi HP HS. exact (SymFinal.riem_bianchi2_ L m g gi HP HS). | second Bianchi identity of the computed arrays
@sthm C46_ricci_scalar SymFinal.ricci_all_ | forall (A : dops) (L : dlaws A) (m : metric A) (g gi : nat -> nat -> A), covariant_pair m g gi -> symmetric_metric (m_n m) g ->  | intros A L m g gi HP HS. exact (SymFinal.ricci_all_ L m g gi HP HS). | C46: contraction, symmetry, scalar = metric trace
@sthm C46_constructors_agree SymFinal.ctor_agree_ | forall (A : dops) (L : dlaws A) (m : metric A) (g gi : nat -> nat -> A), covariant_pair m g gi -> symmetric_metric (m_n m) g ->  | intros A L m g gi HP HS. exact (SymFinal.ctor_agree_ L m g gi HP HS). | every construction path, through objects stored in any configuration, gives the same tensors
@sthm C47_einstein SymFinal.ein_all_ | forall (A : dops) (L : dlaws A) (m : metric A) (g gi : nat -> nat -> A), covariant_pair m g gi -> symmetric_metric (m_n m) g ->  | intros A L m g gi HP HS. exact (SymFinal.ein_all_ L m g gi HP HS). | C47: formula, symmetry, trace (2-n)R/2, covariant divergence zero
@sthm C48_stress_energy SymFinal.stress_all_ | forall (A : dops) (L : dlaws A) (m : metric A) (g gi : nat -> nat -> A), covariant_pair m g gi -> symmetric_metric (m_n m) g ->  | intros A L m g gi HP HS. exact (SymFinal.stress_all_ L m g gi HP HS). | C48: 8 pi G T = c^4 (G - Lambda g), symmetric, conserved
@sthm C49_weyl SymFinal.weyl_all_ | forall (A : dops) (L : dlaws A) (m : metric A) (g gi : nat -> nat -> A), covariant_pair m g gi -> symmetric_metric (m_n m) g ->  | intros A L m g gi HP HS. exact (SymFinal.weyl_all_ L m g gi HP HS). | C49: curvature symmetries and all six traces vanish
@thm C49_weyl_dim3 SymWitness.weyl_dim3
@thm C49_weyl_low SymWitness.weyl_low
@sthm C50_schouten SymFinal.schouten_all_ | forall (A : dops) (L : dlaws A) (m : metric A) (g gi : nat -> nat -> A), covariant_pair m g gi -> symmetric_metric (m_n m) g ->  | intros A L m g gi HP HS. exact (SymFinal.schouten_all_ L m g gi HP HS). | C50: symmetric, trace R/(2(n-1)), Riemann = Weyl + P (KN) g
@thm C50_schouten_low SymWitness.schouten_low
(** the hypotheses hold for a curved metric in every dimension n >= 1: exp(2 x0) times the Euclidean metric, on the scalar domain of ExprModel.v *)
@thm C44_laws_nonvacuous SymWitness.all_laws
@thm C44_metric_nonvacuous SymWitness.conf_pair
@thm C44_metric_nonflat SymWitness.conf_christoffel
