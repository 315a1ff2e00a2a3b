(* generated from tools/P/P_Tensor.v.in by tools/genp.py: statements only, proofs are references *)
(** Properties C51-C60 and C90: tensor objects of einsteinpy.symbolic.
    [move] (SymMove.v) contracts exactly the slots whose letter changes with g (to lower) or gi (to raise);
    [ltspec] (SymTensorProofs.v) applies the matrix to every slot; [all_idx shape] lists the multi-indices in row-major order. *)
From Coq Require Import String Ascii Reals List Arith Lia Bool Lra.
From Verif Require Import Base SymAlg SymModel SymLoops SymGeo SymMove SymConn SymTensorModel SymTensorProofs SymCacheModel SymCacheProofs ExprModel SymWitness SymTensorWitness ObjModel ObjProofs.
Import ListNotations.
Local Open Scope nat_scope.
Local Open Scope K_scope.

(** C51: result, configuration, and entries for every rank and pair of configurations *)
Theorem C51_change_config : forall (A : dops) (L : dlaws A),
  forall (m : metric A) (g gi : nat -> nat -> A) (t : tens A) (mt : option (metric A)) (new : config),
  covariant_pair m g gi -> (mt = Some m \/ (mt = None /\ t_parent t = Some m)) -> List.length new = List.length (t_cfg t) -> config_checker new = true ->
  exists t', t_change_config t new mt = Ok t' /\ t_cfg t' = new /\ t_n t' = t_n t /\ t_parent t' = Some m /\
  forall idx, valid (m_n m) (List.length (t_cfg t)) idx -> t_arr t' idx == move (m_n m) g gi (t_cfg t) new (t_arr t) idx.
Proof. intros A L. exact (SymTensorProofs.change_config_spec_ L). Qed.
Print Assumptions C51_change_config.

(** what contracting one changed slot means *)
Theorem C51_one_slot : forall (A : dops) (L : dlaws A),
  forall n (g gi : nat -> nat -> A) pre o w post T p x q,
  w <> o -> List.length p = List.length pre -> List.length q = List.length post ->
  move n g gi (pre ++ o :: post) (pre ++ w :: post) T (p ++ x :: q) == ksum n (fun k => (if Ascii.eqb w chU then gi else g) x k * T (p ++ k :: q)).
Proof. intros A L. exact (SymTensorProofs.move_single_ L). Qed.
Print Assumptions C51_one_slot.

(** going through an intermediate configuration makes no difference *)
Theorem C51_compose : forall (A : dops) (L : dlaws A),
  forall (m : metric A) (g gi : nat -> nat -> A) (t t1 t2 : tens A) (mt1 mt2 : option (metric A)) (mid new : config),
  covariant_pair m g gi -> (mt1 = Some m \/ (mt1 = None /\ t_parent t = Some m)) -> (mt2 = Some m \/ mt2 = None) -> config_checker (t_cfg t) = true ->
  t_change_config t mid mt1 = Ok t1 -> t_change_config t1 new mt2 = Ok t2 ->
  exists t', t_change_config t new mt1 = Ok t' /\ t_cfg t2 = t_cfg t' /\ forall idx, valid (m_n m) (List.length (t_cfg t)) idx -> t_arr t2 idx == t_arr t' idx.
Proof. intros A L. exact (SymTensorProofs.change_config_comp_ L). Qed.
Print Assumptions C51_compose.

(** there and back returns the original *)
Theorem C51_round_trip : forall (A : dops) (L : dlaws A),
  forall (m : metric A) (g gi : nat -> nat -> A) (t t1 : tens A) (mt1 mt2 : option (metric A)) (mid : config),
  covariant_pair m g gi -> (mt1 = Some m \/ (mt1 = None /\ t_parent t = Some m)) -> (mt2 = Some m \/ mt2 = None) -> config_checker (t_cfg t) = true ->
  t_change_config t mid mt1 = Ok t1 ->
  exists t2, t_change_config t1 (t_cfg t) mt2 = Ok t2 /\ t_cfg t2 = t_cfg t /\ forall idx, valid (m_n m) (List.length (t_cfg t)) idx -> t_arr t2 idx == t_arr t idx.
Proof. intros A L. exact (SymTensorProofs.change_config_round_ L). Qed.
Print Assumptions C51_round_trip.

Local Close Scope K_scope.
Theorem C51_bad_config : forall (A : dops) (m : metric A) (t : tens A) (mt : option (metric A)) new,
  (mt = Some m \/ (mt = None /\ t_parent t = Some m)) -> List.length new <> List.length (t_cfg t) \/ config_checker new = false ->
  t_change_config t new mt = Err ValueError.
Proof. exact SymTensorProofs.change_config_bad. Qed.
Print Assumptions C51_bad_config.

Theorem C51_no_metric : forall (A : dops) (t : tens A) new,
  t_parent t = None -> t_change_config t new None = Err PyException.
Proof. exact SymTensorProofs.change_config_nometric. Qed.
Print Assumptions C51_no_metric.

Theorem C51_checker : forall (c : config),
  config_checker c = true <-> Forall (fun ch => ch = "l"%char \/ ch = "u"%char) c.
Proof. exact SymTensorProofs.config_checker_spec. Qed.
Print Assumptions C51_checker.

(** a rank 3 tensor on the exp(2 x0) metric *)
Theorem C51_nonvacuous : forall (a : arr (diag_ops Uall)),
  exists t1 t2, let t := @mktens (diag_ops Uall) 4 a (cf "lul") (Some (conf_metric 4)) in
  t_change_config t (cf "uul") None = Ok t1 /\ t_change_config t1 (cf "lul") None = Ok t2 /\ forall idx, valid 4 3 idx -> @keq (diag_ops Uall) (t_arr t2 idx) (a idx).
Proof. exact SymTensorWitness.conf_change_example. Qed.
Print Assumptions C51_nonvacuous.

Local Open Scope K_scope.
(** C52 *)
Theorem C52_outer : forall (A : dops),
  forall (t1 t2 : tens A),
  exists t, tensor_product t1 t2 None None = Ok t /\ t_cfg t = t_cfg t1 ++ t_cfg t2 /\ t_n t = t_n t1 /\
  forall i1 i2, List.length i1 = List.length (t_cfg t1) -> List.length i2 = List.length (t_cfg t2) -> t_arr t (i1 ++ i2) = t_arr t1 i1 * t_arr t2 i2.
Proof. intros A. exact SymTensorProofs.product_outer_. Qed.
Print Assumptions C52_outer.

(** slots i = length a1 and j = length a2 *)
Theorem C52_contract : forall (A : dops) (L : dlaws A),
  forall (t1 t2 : tens A) a1 c1 b1 a2 c2 b2,
  t_cfg t1 = a1 ++ c1 :: b1 -> t_cfg t2 = a2 ++ c2 :: b2 ->
  (c1 = c2 -> tensor_product t1 t2 (Some (List.length a1)) (Some (List.length a2)) = Err ValueError) /\
  (c1 <> c2 -> exists t, tensor_product t1 t2 (Some (List.length a1)) (Some (List.length a2)) = Ok t /\ t_cfg t = (a1 ++ b1) ++ (a2 ++ b2) /\ t_n t = t_n t1 /\
  forall p1 q1 p2 q2, List.length p1 = List.length a1 -> List.length q1 = List.length b1 -> List.length p2 = List.length a2 -> List.length q2 = List.length b2 ->
  t_arr t ((p1 ++ q1) ++ (p2 ++ q2)) == ksum (t_n t1) (fun k => t_arr t1 (p1 ++ k :: q1) * t_arr t2 (p2 ++ k :: q2))).
Proof. intros A L. exact (SymTensorProofs.product_contract_ L). Qed.
Print Assumptions C52_contract.

Local Close Scope K_scope.
(** an index beyond the rank raises IndexError *)
Theorem C52_range : forall (A : dops) (t1 t2 : tens A) i j,
  List.length (t_cfg t1) <= i \/ (i < List.length (t_cfg t1) /\ List.length (t_cfg t2) <= j) ->
  tensor_product t1 t2 (Some i) (Some j) = Err IndexError.
Proof. exact SymTensorProofs.product_range. Qed.
Print Assumptions C52_range.

(** C53: what happens when one index is missing *)
Theorem C53_one_index : forall (A : dops) (t1 t2 : tens A),
  tensor_product t1 t2 (Some 0) None = tensor_product t1 t2 None None /\
  (forall i, S i < List.length (t_cfg t1) -> tensor_product t1 t2 (Some (S i)) None = Err TypeError) /\
  (forall i, List.length (t_cfg t1) <= S i -> tensor_product t1 t2 (Some (S i)) None = Err IndexError) /\
  (forall j, tensor_product t1 t2 None (Some j) = Err TypeError).
Proof. exact SymTensorProofs.product_one_index. Qed.
Print Assumptions C53_one_index.

(** i = 0 with j missing silently gives the outer product *)
Theorem C53_one_index_refuted : forall (A : dops) (t1 t2 : tens A),
  exists t, tensor_product t1 t2 (Some 0) None = Ok t /\ t_cfg t = t_cfg t1 ++ t_cfg t2.
Proof. exact SymTensorProofs.product_refuted. Qed.
Print Assumptions C53_one_index_refuted.

Local Open Scope K_scope.
(** C54 *)
Theorem C54_lorentz : forall (A : dops) (L : dlaws A),
  forall (t : tens A) (lam : arr A),
  let r := lorentz_transform t lam in t_cfg r = t_cfg t /\ t_n r = t_n t /\
  forall idx, List.length idx = List.length (t_cfg t) -> t_arr r idx == ltspec (t_n t) (mat_of lam) (t_cfg t) (t_arr t) idx.
Proof. intros A L. exact (SymTensorProofs.lorentz_spec_ L). Qed.
Print Assumptions C54_lorentz.

Theorem C54_metric_preserved : forall (A : dops) (L : dlaws A),
  forall (t : tens A) (lam : arr A),
  t_cfg t = cf "ll" ->
  (forall x y, (x < t_n t)%nat -> (y < t_n t)%nat -> ksum (t_n t) (fun k => ksum (t_n t) (fun l => lam [k; x] * t_arr t [k; l] * lam [l; y])) == t_arr t [x; y]) ->
  forall x y, (x < t_n t)%nat -> (y < t_n t)%nat -> t_arr (lorentz_transform t lam) [x; y] == t_arr t [x; y].
Proof. intros A L. exact (SymTensorProofs.lorentz_metric_ L). Qed.
Print Assumptions C54_metric_preserved.

Theorem C54_inverse_metric_preserved : forall (A : dops) (L : dlaws A),
  forall (t : tens A) (lam : arr A),
  t_cfg t = cf "uu" ->
  (forall x y, (x < t_n t)%nat -> (y < t_n t)%nat -> ksum (t_n t) (fun k => ksum (t_n t) (fun l => lam [x; k] * t_arr t [k; l] * lam [y; l])) == t_arr t [x; y]) ->
  forall x y, (x < t_n t)%nat -> (y < t_n t)%nat -> t_arr (lorentz_transform t lam) [x; y] == t_arr t [x; y].
Proof. intros A L. exact (SymTensorProofs.lorentz_metric_uu_ L). Qed.
Print Assumptions C54_inverse_metric_preserved.

Theorem C54_identity : forall (A : dops) (L : dlaws A),
  forall (t : tens A) (lam : arr A),
  (forall x y, lam [x; y] = kdelta x y) ->
  forall idx, valid (t_n t) (List.length (t_cfg t)) idx -> t_arr (lorentz_transform t lam) idx == t_arr t idx.
Proof. intros A L. exact (SymTensorProofs.lorentz_id_ L). Qed.
Print Assumptions C54_identity.

(** a boost preserving the Minkowski metric *)
Theorem C54_nonvacuous : 
  forall x y, (x < 2)%nat -> (y < 2)%nat ->
  @keq AO (@ksum AO 2 (fun k => @ksum AO 2 (fun l => @kmul AO (@kmul AO (boost [k; x]) (t_arr eta2 [k; l])) (boost [l; y])))) (t_arr eta2 [x; y]).
Proof. exact SymTensorWitness.boost_lorentz. Qed.
Print Assumptions C54_nonvacuous.

(** C55: what the contraction of transformed vector and covector is *)
Theorem C55_contraction : forall (A : dops) (L : dlaws A),
  forall (v w : tens A) (lam : arr A),
  t_cfg v = cf "u" -> t_cfg w = cf "l" -> t_n w = t_n v ->
  ksum (t_n v) (fun x => t_arr (lorentz_transform v lam) [x] * t_arr (lorentz_transform w lam) [x])
  == ksum (t_n v) (fun k => ksum (t_n v) (fun l => t_arr w [l] * ksum (t_n v) (fun x => lam [l; x] * lam [x; k]) * t_arr v [k])).
Proof. intros A L. exact (SymTensorProofs.lorentz_contract_ L). Qed.
Print Assumptions C55_contraction.

(** invariant exactly for involutions *)
Theorem C55_invariant_iff : forall (A : dops) (L : dlaws A),
  forall n (lam : arr A),
  (forall v w : tens A, t_cfg v = cf "u" -> t_cfg w = cf "l" -> t_n v = n -> t_n w = n ->
  ksum n (fun x => t_arr (lorentz_transform v lam) [x] * t_arr (lorentz_transform w lam) [x]) == ksum n (fun x => t_arr v [x] * t_arr w [x]))
  <-> (forall l k, (l < n)%nat -> (k < n)%nat -> ksum n (fun x => lam [l; x] * lam [x; k]) == kdelta l k).
Proof. intros A L. exact (SymTensorProofs.lorentz_invariant_iff_ L). Qed.
Print Assumptions C55_invariant_iff.

(** a genuine Lorentz boost changes the contraction *)
Theorem C55_contraction_refuted : 
  exists (lam : arr (diag_ops Uall)) (v w : tens (diag_ops Uall)),
  (forall x y, (x < 2)%nat -> (y < 2)%nat -> @keq (diag_ops Uall) (@ksum (diag_ops Uall) 2 (fun k => @ksum (diag_ops Uall) 2 (fun l => @kmul (diag_ops Uall) (@kmul (diag_ops Uall) (lam [k; x]) (t_arr eta2 [k; l])) (lam [l; y])))) (t_arr eta2 [x; y])) /\
  t_cfg v = cf "u" /\ t_cfg w = cf "l" /\ t_n v = 2%nat /\ t_n w = 2%nat /\
  ~ @keq (diag_ops Uall) (@ksum (diag_ops Uall) 2 (fun x => @kmul (diag_ops Uall) (t_arr (lorentz_transform v lam) [x]) (t_arr (lorentz_transform w lam) [x])))
  (@ksum (diag_ops Uall) 2 (fun x => @kmul (diag_ops Uall) (t_arr v [x]) (t_arr w [x]))).
Proof. exact SymTensorWitness.boost_contraction_refuted. Qed.
Print Assumptions C55_contraction_refuted.

(** C56: histories are lists of calls New, ChangeConfig, Inv, Lower, Simplify on objects numbered by creation *)
Theorem C56_inv : forall (A : dops) (L : dlaws A) (n : nat),
  forall (cs : list (cmd A)) i o h' k,
  Forall pure_cmd cs -> let h := run n [] cs in nth_error h i = Some o -> h_inv n h i = Ok (h', k) ->
  exists p, nth_error h' k = Some p /\ o_cfg p = opp_cfg (o_cfg o) /\ inverse_arr n (o_arr o) (o_arr p).
Proof. intros A L n. exact (SymCacheProofs.inv_correct_ L n). Qed.
Print Assumptions C56_inv.

(** the same object is returned for ever after *)
Theorem C56_same_object : forall (A : dops) (L : dlaws A) (n : nat),
  forall (cs cs' : list (cmd A)) i h' k,
  Forall pure_cmd cs -> Forall pure_cmd cs' -> h_inv n (run n [] cs) i = Ok (h', k) ->
  h_inv n (run n h' cs') i = Ok (run n h' cs', k).
Proof. intros A L n. exact (SymCacheProofs.inv_stable_ L n). Qed.
Print Assumptions C56_same_object.

(** inv().inv() is the original object, for an object whose inverse was not set before *)
Theorem C56_inv_inv : forall (A : dops) (L : dlaws A) (n : nat),
  forall (cs cs' : list (cmd A)) i o h' k,
  Forall pure_cmd cs -> Forall pure_cmd cs' -> nth_error (run n [] cs) i = Some o -> o_inv o = None ->
  h_inv n (run n [] cs) i = Ok (h', k) -> h_inv n (run n h' cs') k = Ok (run n h' cs', i) /\ h_inv n (run n h' cs') i = Ok (run n h' cs', k).
Proof. intros A L n. exact (SymCacheProofs.inv_inv_identity_ L n). Qed.
Print Assumptions C56_inv_inv.

(** inv().inv() equals the original for every object *)
Theorem C56_inv_inv_value : forall (A : dops) (L : dlaws A) (n : nat),
  forall (cs : list (cmd A)) i o h1 k1 h2 k2,
  Forall pure_cmd cs -> nth_error (run n [] cs) i = Some o -> h_inv n (run n [] cs) i = Ok (h1, k1) -> h_inv n h1 k1 = Ok (h2, k2) ->
  exists p, nth_error h2 k2 = Some p /\ o_cfg p = o_cfg o /\ forall x y, (x < n)%nat -> (y < n)%nat -> o_arr p [x; y] == o_arr o [x; y].
Proof. intros A L n. exact (SymCacheProofs.inv_inv_value_ L n). Qed.
Print Assumptions C56_inv_inv_value.

Local Close Scope K_scope.
(** object 2, a change_config result: its inv().inv() is object 1 *)
Theorem C56_inv_inv_object_refuted : forall (A : dops) (n : nat) (a : arr A) gi,
  kminv n (mat_of a) = Some gi ->
  let h := run n [] [New a (cf "ll"); Inv 0; ChangeConfig 0 (cf "uu")] in
  List.length h = 3 /\ h_inv n h 2 = Ok (h, 0) /\ h_inv n h 0 = Ok (h, 1).
Proof. exact SymCacheProofs.inv_inv_other_object. Qed.
Print Assumptions C56_inv_inv_object_refuted.

Local Open Scope K_scope.
Theorem C56_lower : forall (A : dops) (L : dlaws A) (n : nat),
  forall (cs : list (cmd A)) i o h' k,
  Forall pure_cmd cs -> nth_error (run n [] cs) i = Some o -> h_lower n (run n [] cs) i = Ok (h', k) ->
  exists p, nth_error h' k = Some p /\ o_cfg p = cf "ll" /\ ((o_cfg o = cf "ll" /\ k = i /\ p = o) \/ (o_cfg o = cf "uu" /\ inverse_arr n (o_arr o) (o_arr p))).
Proof. intros A L n. exact (SymCacheProofs.lower_correct_ L n). Qed.
Print Assumptions C56_lower.

Theorem C56_change_config : forall (A : dops) (L : dlaws A) (n : nat),
  forall (cs : list (cmd A)) i o new,
  Forall pure_cmd cs -> let h := run n [] cs in nth_error h i = Some o ->
  (new = o_cfg o -> h_change_config n h i new = Ok (h, i)) /\
  (new <> cf "ll" -> new <> cf "uu" -> h_change_config n h i new = Err ValueError) /\
  (forall h' k, new <> o_cfg o -> h_change_config n h i new = Ok (h', k) -> exists p, nth_error h' k = Some p /\ o_cfg p = new /\ inverse_arr n (o_arr o) (o_arr p) /\ later h h').
Proof. intros A L n. exact (SymCacheProofs.change_correct_ L n). Qed.
Print Assumptions C56_change_config.

(** no call changes another object's configuration or entries *)
Theorem C56_objects_persist : forall (A : dops) (L : dlaws A) (n : nat),
  forall (cs cs' : list (cmd A)) i o,
  Forall pure_cmd cs -> Forall pure_cmd cs' -> nth_error (run n [] cs) i = Some o ->
  exists o', nth_error (run n (run n [] cs) cs') i = Some o' /\ o_cfg o' = o_cfg o /\ forall x y, o_arr o' [x; y] == o_arr o [x; y].
Proof. intros A L n. exact (SymCacheProofs.history_preserves_ L n). Qed.
Print Assumptions C56_objects_persist.

Local Close Scope K_scope.
Theorem C56_singular : forall (A : dops) (n : nat) (h : heap A) i o,
  nth_error h i = Some o -> (o_cfg o = cf "ll" \/ o_cfg o = cf "uu") -> o_inv o = None -> kminv n (mat_of (o_arr o)) = None ->
  h_inv n h i = Err ValueError.
Proof. exact SymCacheProofs.inv_singular. Qed.
Print Assumptions C56_singular.

(** a metric created as ul: lower_config of its change_config("uu") is labelled ul *)
Theorem C56_mixed_lower_refuted : forall (A : dops) (n : nat) (a : arr A) gi,
  kminv n (mat_of a) = Some gi ->
  let h := run n [] [New a (cf "ul"); ChangeConfig 0 (cf "uu")] in
  h_lower n h 1 = Ok (h, 0) /\ exists o, nth_error h 0 = Some o /\ o_cfg o = cf "ul".
Proof. exact SymCacheProofs.mixed_lower. Qed.
Print Assumptions C56_mixed_lower_refuted.

Theorem C56_nonvacuous : 
  exists h', h_inv 4 (run 4 [] [New (arr_of (A := diag_ops Uall) conf_g) (cf "ll")]) 0 = Ok (h', 1%nat) /\ h_inv 4 h' 1 = Ok (h', 0%nat).
Proof. exact SymTensorWitness.conf_history. Qed.
Print Assumptions C56_nonvacuous.

(** C57 *)
Theorem C57_tensor : forall (a : arrarg) (c : cfgarg) sh s,
  tensor_init a c = Ok (sh, s) <->
  a = ArrLike sh /\ c = CfgStr s /\ Forall (fun ch => ch = "l"%char \/ ch = "u"%char) s /\ List.length sh = List.length s.
Proof. exact SymTensorProofs.tensor_init_iff. Qed.
Print Assumptions C57_tensor.

Theorem C57_errors : forall (a : arrarg) (c : cfgarg),
  (tensor_init a c = Err TypeError <-> a = ArrOther \/ c = CfgOther \/ exists s, c = CfgStr s /\ ~ Forall (fun ch => ch = "l"%char \/ ch = "u"%char) s) /\
  (tensor_init a c = Err ValueError <-> exists sh s, a = ArrLike sh /\ c = CfgStr s /\ Forall (fun ch => ch = "l"%char \/ ch = "u"%char) s /\ List.length sh <> List.length s).
Proof. exact SymTensorProofs.tensor_init_errors. Qed.
Print Assumptions C57_errors.

Theorem C57_base : forall (a : arrarg) (sy : symsarg) (c : cfgarg) (vars funs : collarg) sh s n,
  base_init a sy c vars funs = Ok (sh, s, n) <->
  tensor_init a c = Ok (sh, s) /\ sy = SymsSeq n /\ vars = Coll /\ funs = Coll /\ (sh = [] \/ exists r, sh = n :: r).
Proof. exact SymTensorProofs.base_init_iff. Qed.
Print Assumptions C57_base.

Theorem C57_subclasses : forall (k : nat) (a : arrarg) (sy : symsarg) (c : cfgarg) sh s n,
  sub_init k a sy c = Ok (sh, s, n) <->
  base_init a sy c Coll Coll = Ok (sh, s, n) /\ List.length s = k.
Proof. exact SymTensorProofs.sub_init_iff. Qed.
Print Assumptions C57_subclasses.

Theorem C57_subclasses_bad : forall (k : nat) (a : arrarg) (sy : symsarg) (c : cfgarg) sh s n,
  base_init a sy c Coll Coll = Ok (sh, s, n) -> List.length s <> k -> sub_init k a sy c = Err ValueError.
Proof. exact SymTensorProofs.sub_init_bad. Qed.
Print Assumptions C57_subclasses_bad.

Example C57_example : tensor_init (ArrLike [4; 4; 4]) (CfgStr (cf "ull")) = Ok ([4; 4; 4], cf "ull") /\ tensor_init (ArrLike [4; 4; 4]) (CfgStr (cf "ul")) = Err ValueError
  /\ tensor_init (ArrLike [4]) (CfgStr (cf "x")) = Err TypeError.
Proof. repeat split. Qed.

(** C58: rank 2 comes back labelled ll, any other rank raises *)
Theorem C58_subs : forall (A : dops) (rank : nat) (sub : A -> A) (a : arr A) (c : config),
  (rank = 2 -> exists b, tensor_subs rank sub a c = Ok (b, cf "ll") /\ forall idx, b idx = sub (a idx)) /\
  (rank <> 2 -> tensor_subs rank sub a c = Err ValueError).
Proof. exact SymTensorProofs.subs_spec. Qed.
Print Assumptions C58_subs.

Theorem C58_config_refuted : forall (A : dops),
  ~ (forall (sub : A -> A) (a : arr A) (c : config), config_checker c = true -> exists b, tensor_subs (List.length c) sub a c = Ok (b, c)).
Proof. exact SymTensorProofs.subs_refuted. Qed.
Print Assumptions C58_config_refuted.

Local Open Scope K_scope.
(** C59: inv() is the cached entrywise reciprocal *)
Theorem C59_reciprocal : forall (A : dops),
  forall (t : tmatrix A),
  tm_inv t = None ->
  let '(t1, v1) := tm_inv_call t in let '(t2, v2) := tm_inv_call t1 in
  t2 = t1 /\ v2 = v1 /\ tm_n t1 = tm_n t /\ tm_arr t1 = tm_arr t /\ forall i j, v1 i j = 1 / tm_arr t i j.
Proof. intros A. exact SymTensorProofs.tm_reciprocal_. Qed.
Print Assumptions C59_reciprocal.

(** never the inverse for 2x2 matrices without zeros *)
Theorem C59_two : forall (A : dops) (L : dlaws A),
  forall (a : nat -> nat -> A),
  ~ ((1 : A) == 0) -> (forall i j, (i < 2)%nat -> (j < 2)%nat -> exists z, a i j * z == 1) ->
  ~ (forall i j, (i < 2)%nat -> (j < 2)%nat -> ksum 2 (fun m => a i m * (1 / a m j)) == kdelta i j).
Proof. intros A L. exact (SymTensorProofs.tm_two_ L). Qed.
Print Assumptions C59_two.

(** nor for symmetric matrices without zeros *)
Theorem C59_symmetric : forall (A : dops) (L : dlaws A),
  forall n (a : nat -> nat -> A),
  ~ ((1 : A) == 0) -> (2 <= n)%nat -> (forall i j, (i < n)%nat -> (j < n)%nat -> a i j == a j i /\ exists z, a i j * z == 1) ->
  ~ (forall i j, (i < n)%nat -> (j < n)%nat -> ksum n (fun m => a i m * (1 / a m j)) == kdelta i j).
Proof. intros A L. exact (SymTensorProofs.tm_symmetric_not_ L). Qed.
Print Assumptions C59_symmetric.

Theorem C59_one : forall (A : dops) (L : dlaws A),
  forall (a : nat -> nat -> A),
  (exists z, a 0%nat 0%nat * z == 1) -> ksum 1 (fun m => a 0%nat m * (1 / a m 0%nat)) == 1.
Proof. intros A L. exact (SymTensorProofs.tm_one_ L). Qed.
Print Assumptions C59_one.

Theorem C59_inverse_refuted : 
  exists (a : nat -> nat -> diag_ops Uall), (exists b : nat -> nat -> diag_ops Uall, inverse_metrics 2 a b) /\ ~ inverse_metrics 2 a (snd (tm_inv_call (mktm 2 a None))).
Proof. exact SymTensorWitness.tm_inv_refuted. Qed.
Print Assumptions C59_inverse_refuted.

Local Close Scope K_scope.
(** C60 *)
Theorem C60_flatten : forall (A : dops) (shape : list nat),
  forall a : arr A, flat1 (tolist shape a) = map a (all_idx shape).
Proof. exact SymTensorProofs.flatten_tolist. Qed.
Print Assumptions C60_flatten.

Theorem C60_each_index_once : forall shape,
  NoDup (all_idx shape) /\ forall idx, In idx (all_idx shape) <-> Forall2 (fun i d => i < d) idx shape.
Proof. exact SymTensorProofs.all_idx_nodup. Qed.
Print Assumptions C60_each_index_once.

Theorem C60_count : forall shape,
  List.length (all_idx shape) = fold_right Nat.mul 1 shape.
Proof. exact SymTensorProofs.all_idx_len. Qed.
Print Assumptions C60_count.

Theorem C60_position : forall shape,
  forall idx, Forall2 (fun i d => i < d) idx shape -> nth_error (all_idx shape) (flat_pos shape idx) = Some idx.
Proof. exact SymTensorProofs.all_idx_nth. Qed.
Print Assumptions C60_position.

Theorem C60_simplify : forall (A : dops) (L : dlaws A) (shape : list nat) (a : arr A) (idx : list nat),
  Forall2 (fun i d => i < d) idx shape ->
  simplify_sympy_array shape a idx = ksimp (a idx) /\ keq (simplify_sympy_array shape a idx) (a idx).
Proof. exact SymTensorProofs.simplify_array_spec. Qed.
Print Assumptions C60_simplify.

Example C60_example : all_idx [2; 3] = [[0; 0]; [0; 1]; [0; 2]; [1; 0]; [1; 1]; [1; 2]] /\ Forall2 (fun i d => i < d) [1; 2] [2; 3].
Proof. split; [reflexivity|]. repeat constructor. Qed.

(** C90: [plain c] - a class with a change_config(newconfig, metric); [valid_obj] - the configuration has the class's length *)
(** C90: any history of change_config / lorentz_transform calls *)
Theorem C90_history : forall (A : dops),
  forall ps,
  forall o o' : obj A, plain (o_cls o) -> o_cls o <> CStress -> obj_run o ps = Ok o' ->
  o_cls o' = o_cls o /\ t_n (o_t o') = t_n (o_t o) /\ t_cfg (o_t o') = final_config (o_cls o) (t_cfg (o_t o)) ps /\
  t_parent (o_t o') = final_parent (t_parent (o_t o)) ps /\ o_name o' = option_map (fun s => s ++ tags (o_cls o) ps)%string (o_name o).
Proof. intros A. exact ObjProofs.history. Qed.
Print Assumptions C90_history.

(** the stress-energy tensor stays one exactly until the first change_config *)
Theorem C90_stress_energy_class : forall (A : dops),
  forall ps,
  forall o o' : obj A, o_cls o = CStress -> obj_run o ps = Ok o' ->
  o_cls o' = if existsb (fun p => match p with OpConfig _ _ => true | OpLorentz _ => false end) ps then CEinstein else CStress.
Proof. intros A. exact ObjProofs.stress_class. Qed.
Print Assumptions C90_stress_energy_class.

(** StressEnergyMomentumTensor.change_config returns an EinsteinTensor *)
Theorem C90_stress_energy_refuted : 
  exists (o o' : obj (diag_ops Uall)), o_cls o = CStress /\ valid_obj o /\ obj_change_config o None None = Ok o' /\ o_cls o' = CEinstein.
Proof. exact ObjProofs.stress_refuted. Qed.
Print Assumptions C90_stress_energy_refuted.

(** a metric stays a metric and its own parent *)
Theorem C90_metric_histories : forall (A : dops) ps,
  forall o o' : obj A, o_cls o = CMetric -> own_parent o -> obj_run o ps = Ok o' -> o_cls o' = CMetric /\ own_parent o' /\ t_n (o_t o') = t_n (o_t o).
Proof. exact ObjProofs.metric_steps. Qed.
Print Assumptions C90_metric_histories.

(** the base class and the Ricci scalar *)
Theorem C90_base_and_scalar : forall (A : dops),
  forall (o : obj A),
  o_cls o = CBase \/ o_cls o = CScalar ->
  (forall n mt, obj_change_config o n mt = Err AttributeError) /\ forall lam, exists o', obj_lorentz o lam = Ok o' /\ o_cls o' = CBase.
Proof. intros A. exact ObjProofs.base_ops. Qed.
Print Assumptions C90_base_and_scalar.

(** no metric anywhere *)
Theorem C90_no_metric_raises : forall (A : dops),
  forall (o : obj A) n,
  plain (o_cls o) -> t_parent (o_t o) = None -> obj_change_config o n None = Err PyException.
Proof. intros A. exact ObjProofs.no_metric. Qed.
Print Assumptions C90_no_metric_raises.

(** the transformed tensor has no parent metric *)
Theorem C90_lorentz_forgets_metric : forall (A : dops),
  forall (o o' : obj A) lam n,
  plain (o_cls o) -> obj_lorentz o lam = Ok o' -> obj_change_config o' n None = Err PyException.
Proof. intros A. exact ObjProofs.lorentz_then_config. Qed.
Print Assumptions C90_lorentz_forgets_metric.

(** no failure on valid objects *)
Theorem C90_lorentz_never_fails : forall (A : dops),
  forall (o : obj A) lam,
  valid_obj o -> exists o', obj_lorentz o lam = Ok o'.
Proof. intros A. exact ObjProofs.lorentz_ok. Qed.
Print Assumptions C90_lorentz_never_fails.

Local Open Scope K_scope.
(** success and entries *)
Theorem C90_change_config_succeeds : forall (A : dops) (L : dlaws A),
  forall (m : metric A) (g gi : nat -> nat -> A) (o : obj A) n mt,
  plain (o_cls o) -> valid_obj o -> covariant_pair m g gi -> (mt = Some m \/ (mt = None /\ t_parent (o_t o) = Some m)) ->
  let new := match n with Some x => x | None => default_newconfig (o_cls o) end in
  List.length new = List.length (t_cfg (o_t o)) -> config_checker new = true ->
  exists o', obj_change_config o n mt = Ok o' /\ forall idx, valid (m_n m) (List.length (t_cfg (o_t o))) idx ->
  t_arr (o_t o') idx == move (m_n m) g gi (t_cfg (o_t o)) new (t_arr (o_t o)) idx.
Proof. intros A L. exact (ObjProofs.config_ok_ L). Qed.
Print Assumptions C90_change_config_succeeds.

Local Close Scope K_scope.
(** the default newconfig *)
Theorem C90_defaults_fit : forall (A : dops),
  forall (o : obj A),
  plain (o_cls o) -> valid_obj o -> List.length (default_newconfig (o_cls o)) = List.length (t_cfg (o_t o)) /\ config_checker (default_newconfig (o_cls o)) = true.
Proof. intros A. exact ObjProofs.default_ok_. Qed.
Print Assumptions C90_defaults_fit.

(** a two-step history of a Ricci tensor on the exp(2 x0) metric *)
Theorem C90_nonvacuous : forall c,
  c = CRicci \/ c = CStress -> valid_obj (wit c) /\ exists o', obj_run (wit c) [OpConfig None None; OpLorentz (arr_of (A := diag_ops Uall) conf_g)] = Ok o' /\ o_name o' = Some "T__ul__lt"%string.
Proof. exact ObjProofs.wit_run. Qed.
Print Assumptions C90_nonvacuous.

