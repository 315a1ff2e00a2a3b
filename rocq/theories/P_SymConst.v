(* generated from tools/P/P_SymConst.v.in by tools/genp.py: statements only, proofs are references *)
(** Property C129: the symbolic constants (einsteinpy.symbolic.constants) over every history of constructions.
   [run import_module h]: the state after importing the module and then the calls h, each the construction of a constant or the loss of an entry of sympy's cache.
   [new_constant w n d l]: SymbolicConstant(n, d, **l) in state w: the new state and the object returned, a number; [names w]: what the objects print as and their assumptions; [descriptive_name w i]: the attribute of object i. *)
From Coq Require Import String List Arith Bool.
From Verif Require Import Base SymConst.
Import ListNotations.
Open Scope string_scope.

(** C129: get_constant returns the module's constants, whatever happened before *)
Theorem C129_get_constant : forall h,
  let w := run import_module h in
  (exists i, get_constant "c" = Ok i /\ nth_error (names w) i = Some ("c", [])) /\ (exists i, get_constant "G" = Ok i /\ nth_error (names w) i = Some ("G", [])) /\
  (exists i, get_constant "Cosmo_Const" = Ok i /\ nth_error (names w) i = Some ("Lambda", [])) /\ (exists i, get_constant "eps_0" = Ok i /\ nth_error (names w) i = Some ("eps_0", [])).
Proof. exact SymConst.get_constant_ok. Qed.
Print Assumptions C129_get_constant.

Theorem C129_get_constant_names : forall name,
  (exists i, get_constant name = Ok i) <-> In name ["c"; "G"; "Cosmo_Const"; "eps_0"].
Proof. exact SymConst.get_constant_key. Qed.
Print Assumptions C129_get_constant_names.

Theorem C129_get_constant_error : forall name,
  ~ In name ["c"; "G"; "Cosmo_Const"; "eps_0"] -> get_constant name = Err KeyError.
Proof. exact SymConst.get_constant_error. Qed.
Print Assumptions C129_get_constant_error.

(** a construction returns a symbol of the name, assumptions and description asked for, and changes no other object *)
Theorem C129_construction : forall h n d l,
  let w := run import_module h in let '(w', i) := new_constant w n d l in
  nth_error (names w') i = Some (n, sanitize l) /\ descriptive_name w' i = d /\ (forall j, j <> i -> descriptive_name w' j = descriptive_name w j) /\ (forall j k, nth_error (names w) j = Some k -> nth_error (names w') j = Some k).
Proof. exact SymConst.new_constant_ok. Qed.
Print Assumptions C129_construction.

(** two constructions with one name and the same assumptions are equal symbols *)
Theorem C129_equal : forall h1 h2 n d1 d2 l,
  let w1 := run import_module h1 in let i := snd (new_constant w1 n d1 l) in let w2 := run (step w1 (New n d1 l)) h2 in let j := snd (new_constant w2 n d2 l) in
  sym_equal (step w2 (New n d2 l)) i j.
Proof. exact SymConst.same_name_equal. Qed.
Print Assumptions C129_equal.

(** constants of different names are different objects and unequal *)
Theorem C129_distinct : forall h1 h2 n1 n2 d1 d2 l1 l2,
  n1 <> n2 -> let w1 := run import_module h1 in let i := snd (new_constant w1 n1 d1 l1) in let w2 := run (step w1 (New n1 d1 l1)) h2 in let j := snd (new_constant w2 n2 d2 l2) in
  i <> j /\ ~ sym_equal (step w2 (New n2 d2 l2)) i j.
Proof. exact SymConst.other_name_distinct. Qed.
Print Assumptions C129_distinct.

Theorem C129_distinct_assumptions : forall h1 h2 n1 n2 d1 d2 l1 l2,
  (n1, sanitize l1) <> (n2, sanitize l2) -> let w1 := run import_module h1 in let i := snd (new_constant w1 n1 d1 l1) in let w2 := run (step w1 (New n1 d1 l1)) h2 in let j := snd (new_constant w2 n2 d2 l2) in i <> j.
Proof. exact SymConst.other_assumptions_distinct. Qed.
Print Assumptions C129_distinct_assumptions.

(** the module's constants keep their descriptions as long as no constant of the same name is constructed *)
Theorem C129_descriptions_kept : forall h,
  let w := run import_module h in let own := names_in h in
  (~ In "c" own -> descriptive_name w const_c = Some "Speed Of Light") /\ (~ In "G" own -> descriptive_name w const_G = Some "Gravitational Constant") /\
  (~ In "Lambda" own -> descriptive_name w const_Lambda = Some "Cosmological Constant") /\ (~ In "eps_0" own -> descriptive_name w const_eps_0 = Some "Permittivity of free space").
Proof. exact SymConst.constants_described. Qed.
Print Assumptions C129_descriptions_kept.

(** the description of an object is the one given in the last construction that returned it, *)
Theorem C129_last_description : forall h i,
  descriptive_name (run import_module h) i = last_given import_module h i (descriptive_name import_module i).
Proof. exact SymConst.description_is_last_given. Qed.
Print Assumptions C129_last_description.

(** and a construction returns, and re-describes, the object already handed out for the name, *)
Theorem C129_overwrites : forall h n d l i,
  let w := run import_module h in cached (cache w) (n, sanitize l) = Some i -> snd (new_constant w n d l) = i /\ descriptive_name (step w (New n d l)) i = d.
Proof. exact SymConst.overwritten_when_cached. Qed.
Print Assumptions C129_overwrites.

(** so SymbolicConstant("c") erases the description of the module's c *)
Theorem C129_description_refuted : 
  exists h, get_constant "c" = Ok const_c /\ descriptive_name import_module const_c = Some "Speed Of Light" /\ descriptive_name (run import_module h) const_c = None.
Proof. exact SymConst.description_overwritten. Qed.
Print Assumptions C129_description_refuted.

(** after two constructions and a loss of the cache entry of c the constants are still there; the second "c" is a new object *)
Example C129_nonvacuous : let h := [New "m" (Some "Mass") [("positive", Some true)]; Forget ("c", []); New "c" (Some "another") []] in let w := run import_module h in
  map fst (names w) = ["c"; "G"; "Lambda"; "eps_0"; "m"; "c"] /\ descriptive_name w const_c = Some "Speed Of Light" /\ descriptive_name w 5 = Some "another" /\ descriptive_name w 4 = Some "Mass".
Proof. repeat split. Qed.
