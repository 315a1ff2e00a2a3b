(** Comparison of DualNumbers (dual.py:97-101). *)
From Coq Require Import Reals List ZArith Lra Bool.
From Verif Require Import Base DualModel.
Open Scope R_scope.

(** [a == b]: float's own comparison for two floats; otherwise DualNumber.__eq__ is called (directly or reflected), which
    reads .val of its argument: AttributeError on a plain number (dual.py:97-98) *)
Definition py_eq (a b : pyval) : Res bool :=
  match a, b with
  | PF x, PF y => Ok (if Req_EM_T x y then true else false)
  | PD s, PD o => Ok (d_eqb s o)
  | _, _ => Err AttributeError
  end.
(** [a != b] (dual.py:100-101): not (self == other) *)
Definition py_ne (a b : pyval) : Res bool := mapR negb (py_eq a b).

(** Two DualNumbers are equal exactly when value and derivative are; != is the negation; comparing with a number fails *)
Lemma comparison_spec (a b : pyval) :
  match a, b with
  | PD s, PD o => (py_eq a b = Ok true <-> val s = val o /\ deriv s = deriv o) /\ (py_ne a b = Ok true <-> val s <> val o \/ deriv s <> deriv o)
  | PF x, PF y => (py_eq a b = Ok true <-> x = y) /\ (py_ne a b = Ok true <-> x <> y)
  | _, _ => py_eq a b = Err AttributeError /\ py_ne a b = Err AttributeError
  end.
Proof.
  destruct a as [x|s], b as [y|o]; cbn; try (split; reflexivity).
  - destruct (Req_EM_T x y); cbn; split; split; intros H; try reflexivity; try discriminate; try assumption; contradiction.
  - unfold d_eqb. destruct (Req_EM_T (val s) (val o)) as [E|E]; [destruct (Req_EM_T (deriv s) (deriv o)) as [F|F]|]; cbn;
    split; split; intros H; try reflexivity; try discriminate; try tauto; destruct H; contradiction.
Qed.
(** hence == on DualNumbers is equality of the objects, an equivalence compatible with the arithmetic *)
Lemma eq_is_equality (s o : dual) : py_eq (PD s) (PD o) = Ok true <-> s = o.
Proof.
  assert (H := comparison_spec (PD s) (PD o)). destruct H as [H _]. rewrite H. destruct s, o; cbn. split; [intros [-> ->]; reflexivity|intros E; injection E; auto].
Qed.
