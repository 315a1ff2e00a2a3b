(** Properties C51-C60 and C90: tensor objects of einsteinpy.symbolic.
    [move] (SymMove.v) contracts exactly the slots whose letter changes with g (to lower) or gi (to raise);
    [ltspec] (SymTensorProofs.v) applies the matrix to every slot; [all_idx shape] lists the multi-indices in row-major order. *)
From Coq Require Import String Ascii Reals List Arith Lia Bool Lra.
From Verif Require Import Base SymAlg SymModel SymLoops SymGeo SymMove SymConn SymTensorModel SymTensorProofs SymCacheModel SymCacheProofs ExprModel SymWitness SymTensorWitness ObjModel ObjProofs.
Import ListNotations.
Local Open Scope nat_scope.
Local Open Scope K_scope.

@sthm C51_change_config SymTensorProofs.change_config_spec_ | forall (A : dops) (L : dlaws A),  | intros A L. exact (SymTensorProofs.change_config_spec_ L). | C51: result, configuration, and entries for every rank and pair of configurations
@sthm C51_one_slot SymTensorProofs.move_single_ | forall (A : dops) (L : dlaws A),  | intros A L. exact (SymTensorProofs.move_single_ L). | what contracting one changed slot means
@sthm C51_compose SymTensorProofs.change_config_comp_ | forall (A : dops) (L : dlaws A),  | intros A L. exact (SymTensorProofs.change_config_comp_ L). | going through an intermediate configuration makes no difference
@sthm C51_round_trip SymTensorProofs.change_config_round_ | forall (A : dops) (L : dlaws A),  | intros A L. exact (SymTensorProofs.change_config_round_ L). | there and back returns the original
Local Close Scope K_scope.
@thm C51_bad_config SymTensorProofs.change_config_bad
@thm C51_no_metric SymTensorProofs.change_config_nometric
@thm C51_checker SymTensorProofs.config_checker_spec
@thm C51_nonvacuous SymTensorWitness.conf_change_example -- a rank 3 tensor on the exp(2 x0) metric
Local Open Scope K_scope.
@sthm C52_outer SymTensorProofs.product_outer_ | forall (A : dops),  | intros A. exact SymTensorProofs.product_outer_. | C52
@sthm C52_contract SymTensorProofs.product_contract_ | forall (A : dops) (L : dlaws A),  | intros A L. exact (SymTensorProofs.product_contract_ L). | slots i = length a1 and j = length a2
Local Close Scope K_scope.
@thm C52_range SymTensorProofs.product_range -- an index beyond the rank raises IndexError
@thm C53_one_index SymTensorProofs.product_one_index -- C53: what happens when one index is missing
@thm C53_one_index_refuted SymTensorProofs.product_refuted -- i = 0 with j missing silently gives the outer product
Local Open Scope K_scope.
@sthm C54_lorentz SymTensorProofs.lorentz_spec_ | forall (A : dops) (L : dlaws A),  | intros A L. exact (SymTensorProofs.lorentz_spec_ L). | C54
@sthm C54_metric_preserved SymTensorProofs.lorentz_metric_ | forall (A : dops) (L : dlaws A),  | intros A L. exact (SymTensorProofs.lorentz_metric_ L).
@sthm C54_inverse_metric_preserved SymTensorProofs.lorentz_metric_uu_ | forall (A : dops) (L : dlaws A),  | intros A L. exact (SymTensorProofs.lorentz_metric_uu_ L).
@sthm C54_identity SymTensorProofs.lorentz_id_ | forall (A : dops) (L : dlaws A),  | intros A L. exact (SymTensorProofs.lorentz_id_ L).
@thm C54_nonvacuous SymTensorWitness.boost_lorentz -- a boost preserving the Minkowski metric
@sthm C55_contraction SymTensorProofs.lorentz_contract_ | forall (A : dops) (L : dlaws A),  | intros A L. exact (SymTensorProofs.lorentz_contract_ L). | C55: what the contraction of transformed vector and covector is
@sthm C55_invariant_iff SymTensorProofs.lorentz_invariant_iff_ | forall (A : dops) (L : dlaws A),  | intros A L. exact (SymTensorProofs.lorentz_invariant_iff_ L). | invariant exactly for involutions
@thm C55_contraction_refuted SymTensorWitness.boost_contraction_refuted -- a genuine Lorentz boost changes the contraction
@sthm C56_inv SymCacheProofs.inv_correct_ | forall (A : dops) (L : dlaws A) (n : nat),  | intros A L n. exact (SymCacheProofs.inv_correct_ L n). | C56: histories are lists of calls New, ChangeConfig, Inv, Lower, Simplify on objects numbered by creation
@sthm C56_same_object SymCacheProofs.inv_stable_ | forall (A : dops) (L : dlaws A) (n : nat),  | intros A L n. exact (SymCacheProofs.inv_stable_ L n). | the same object is returned for ever after
@sthm C56_inv_inv SymCacheProofs.inv_inv_identity_ | forall (A : dops) (L : dlaws A) (n : nat),  | intros A L n. exact (SymCacheProofs.inv_inv_identity_ L n). | inv().inv() is the original object, for an object whose inverse was not set before
@sthm C56_inv_inv_value SymCacheProofs.inv_inv_value_ | forall (A : dops) (L : dlaws A) (n : nat),  | intros A L n. exact (SymCacheProofs.inv_inv_value_ L n). | inv().inv() equals the original for every object
Local Close Scope K_scope.
@thm C56_inv_inv_object_refuted SymCacheProofs.inv_inv_other_object -- object 2, a change_config result: its inv().inv() is object 1
Local Open Scope K_scope.
@sthm C56_lower SymCacheProofs.lower_correct_ | forall (A : dops) (L : dlaws A) (n : nat),  | intros A L n. exact (SymCacheProofs.lower_correct_ L n).
@sthm C56_change_config SymCacheProofs.change_correct_ | forall (A : dops) (L : dlaws A) (n : nat),  | intros A L n. exact (SymCacheProofs.change_correct_ L n).
@sthm C56_objects_persist SymCacheProofs.history_preserves_ | forall (A : dops) (L : dlaws A) (n : nat),  | intros A L n. exact (SymCacheProofs.history_preserves_ L n). | no call changes another object's configuration or entries
Local Close Scope K_scope.
@thm C56_singular SymCacheProofs.inv_singular
@thm C56_mixed_lower_refuted SymCacheProofs.mixed_lower -- a metric created as ul: lower_config of its change_config("uu") is labelled ul
@thm C56_nonvacuous SymTensorWitness.conf_history
@thm C57_tensor SymTensorProofs.tensor_init_iff -- C57
@thm C57_errors SymTensorProofs.tensor_init_errors
@thm C57_base SymTensorProofs.base_init_iff
@thm C57_subclasses SymTensorProofs.sub_init_iff
@thm C57_subclasses_bad SymTensorProofs.sub_init_bad
Example C57_example : tensor_init (ArrLike [4; 4; 4]) (CfgStr (cf "ull")) = Ok ([4; 4; 4], cf "ull") /\ tensor_init (ArrLike [4; 4; 4]) (CfgStr (cf "ul")) = Err ValueError
  /\ tensor_init (ArrLike [4]) (CfgStr (cf "x")) = Err TypeError.
Proof. repeat split. Qed.

@thm C58_subs SymTensorProofs.subs_spec -- C58: rank 2 comes back labelled ll, any other rank raises
@thm C58_config_refuted SymTensorProofs.subs_refuted
Local Open Scope K_scope.
@sthm C59_reciprocal SymTensorProofs.tm_reciprocal_ | forall (A : dops),  | intros A. exact SymTensorProofs.tm_reciprocal_. | C59: inv() is the cached entrywise reciprocal
@sthm C59_two SymTensorProofs.tm_two_ | forall (A : dops) (L : dlaws A),  | intros A L. exact (SymTensorProofs.tm_two_ L). | never the inverse for 2x2 matrices without zeros
@sthm C59_symmetric SymTensorProofs.tm_symmetric_not_ | forall (A : dops) (L : dlaws A),  | intros A L. exact (SymTensorProofs.tm_symmetric_not_ L). | nor for symmetric matrices without zeros
@sthm C59_one SymTensorProofs.tm_one_ | forall (A : dops) (L : dlaws A),  | intros A L. exact (SymTensorProofs.tm_one_ L).
@thm C59_inverse_refuted SymTensorWitness.tm_inv_refuted
Local Close Scope K_scope.
@thm C60_flatten SymTensorProofs.flatten_tolist -- C60
@thm C60_each_index_once SymTensorProofs.all_idx_nodup
@thm C60_count SymTensorProofs.all_idx_len
@thm C60_position SymTensorProofs.all_idx_nth
@thm C60_simplify SymTensorProofs.simplify_array_spec
Example C60_example : all_idx [2; 3] = [[0; 0]; [0; 1]; [0; 2]; [1; 0]; [1; 1]; [1; 2]] /\ Forall2 (fun i d => i < d) [1; 2] [2; 3].
Proof. split; [reflexivity|]. repeat constructor. Qed.

(** C90: [plain c] - a class with a change_config(newconfig, metric); [valid_obj] - the configuration has the class's length *)
@sthm C90_history ObjProofs.history | forall (A : dops),  | intros A. exact ObjProofs.history. | C90: any history of change_config / lorentz_transform calls
@sthm C90_stress_energy_class ObjProofs.stress_class | forall (A : dops),  | intros A. exact ObjProofs.stress_class. | the stress-energy tensor stays one exactly until the first change_config
@thm C90_stress_energy_refuted ObjProofs.stress_refuted -- StressEnergyMomentumTensor.change_config returns an EinsteinTensor
@thm C90_metric_histories ObjProofs.metric_steps -- a metric stays a metric and its own parent
@sthm C90_base_and_scalar ObjProofs.base_ops | forall (A : dops),  | intros A. exact ObjProofs.base_ops. | the base class and the Ricci scalar
@sthm C90_no_metric_raises ObjProofs.no_metric | forall (A : dops),  | intros A. exact ObjProofs.no_metric. | no metric anywhere
@sthm C90_lorentz_forgets_metric ObjProofs.lorentz_then_config | forall (A : dops),  | intros A. exact ObjProofs.lorentz_then_config. | the transformed tensor has no parent metric
@sthm C90_lorentz_never_fails ObjProofs.lorentz_ok | forall (A : dops),  | intros A. exact ObjProofs.lorentz_ok. | no failure on valid objects
Local Open Scope K_scope.
@sthm C90_change_config_succeeds ObjProofs.config_ok_ | forall (A : dops) (L : dlaws A),  | intros A L. exact (ObjProofs.config_ok_ L). | success and entries
Local Close Scope K_scope.
@sthm C90_defaults_fit ObjProofs.default_ok_ | forall (A : dops),  | intros A. exact ObjProofs.default_ok_. | the default newconfig
@thm C90_nonvacuous ObjProofs.wit_run -- a two-step history of a Ricci tensor on the exp(2 x0) metric
