(** Property C129: the symbolic constants (einsteinpy.symbolic.constants) over every history of constructions.
   [run import_module h]: the state after importing the module and then the calls h, each the construction of a constant or the loss of an entry of sympy's cache.
   [new_constant w n d l]: SymbolicConstant(n, d, **l) in state w: the new state and the object returned, a number; [names w]: what the objects print as and their assumptions; [descriptive_name w i]: the attribute of object i. *)
From Coq Require Import String List Arith Bool.
From Verif Require Import Base SymConst.
Import ListNotations.
Open Scope string_scope.

@thm C129_get_constant SymConst.get_constant_ok -- C129: get_constant returns the module's constants, whatever happened before
@thm C129_get_constant_names SymConst.get_constant_key
@thm C129_get_constant_error SymConst.get_constant_error
@thm C129_construction SymConst.new_constant_ok -- a construction returns a symbol of the name, assumptions and description asked for, and changes no other object
@thm C129_equal SymConst.same_name_equal -- two constructions with one name and the same assumptions are equal symbols
@thm C129_distinct SymConst.other_name_distinct -- constants of different names are different objects and unequal
@thm C129_distinct_assumptions SymConst.other_assumptions_distinct
@thm C129_descriptions_kept SymConst.constants_described -- the module's constants keep their descriptions as long as no constant of the same name is constructed
@thm C129_last_description SymConst.description_is_last_given -- the description of an object is the one given in the last construction that returned it,
@thm C129_overwrites SymConst.overwritten_when_cached -- and a construction returns, and re-describes, the object already handed out for the name,
@thm C129_description_refuted SymConst.description_overwritten -- so SymbolicConstant("c") erases the description of the module's c
(** after two constructions and a loss of the cache entry of c the constants are still there; the second "c" is a new object *)
Example C129_nonvacuous : let h := [New "m" (Some "Mass") [("positive", Some true)]; Forget ("c", []); New "c" (Some "another") []] in let w := run import_module h in
  map fst (names w) = ["c"; "G"; "Lambda"; "eps_0"; "m"; "c"] /\ descriptive_name w const_c = Some "Speed Of Light" /\ descriptive_name w 5 = Some "another" /\ descriptive_name w 4 = Some "Mass".
Proof. repeat split. Qed.
