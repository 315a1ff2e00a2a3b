(** Shared vocabulary of the model: Python exceptions as values, 4-vectors and 4x4 arrays. *)
From Coq Require Import Reals List String.
Import ListNotations.
Open Scope R_scope.

(** Python / numpy / astropy exceptions that the modelled code raises itself or lets escape.
    [NonFinite] stands for "numpy produced inf or nan here" (numpy does not raise). *)
Inductive exn : Type :=
| ZeroDivisionError | ValueError | TypeError | KeyError | IndexError | AttributeError
| NotImplementedError | CoordinateError | RuntimeError | LinAlgError | RuntimeWarningExn | NonFinite
| PyException (* a bare [raise Exception(...)] *).

Inductive Res (A : Type) : Type :=
| Ok (a : A)
| Err (e : exn).
Arguments Ok {A} a.
Arguments Err {A} e.

Definition bindR {A B} (r : Res A) (f : A -> Res B) : Res B :=
  match r with Ok a => f a | Err e => Err e end.

Definition mapR {A B} (f : A -> B) (r : Res A) : Res B :=
  match r with Ok a => Ok (f a) | Err e => Err e end.

Notation "'let*' x ':=' r 'in' k" := (bindR r (fun x => k))
  (at level 200, x pattern, r at level 100, k at level 200, right associativity).

(** A numpy array of shape (4,) (resp. (4,4) as [Q4 (Q4 A)]). *)
Record Q4 (A : Type) : Type := mkQ4 { c0 : A; c1 : A; c2 : A; c3 : A }.
Arguments mkQ4 {A}. Arguments c0 {A}. Arguments c1 {A}. Arguments c2 {A}. Arguments c3 {A}.

(** Subscript with an index in 0..3 (indices beyond 3 never occur: every use is guarded). *)
Definition q4nth {A} (v : Q4 A) (i : nat) : A :=
  match i with O => c0 v | S O => c1 v | S (S O) => c2 v | _ => c3 v end.

Definition q4map {A B} (f : A -> B) (v : Q4 A) : Q4 B :=
  mkQ4 (f (c0 v)) (f (c1 v)) (f (c2 v)) (f (c3 v)).

Definition q4map2 {A B C} (f : A -> B -> C) (v : Q4 A) (w : Q4 B) : Q4 C :=
  mkQ4 (f (c0 v) (c0 w)) (f (c1 v) (c1 w)) (f (c2 v) (c2 w)) (f (c3 v) (c3 w)).

Definition q4tab {A} (f : nat -> A) : Q4 A := mkQ4 (f 0%nat) (f 1%nat) (f 2%nat) (f 3%nat).

Definition q4seq {A} (v : Q4 (Res A)) : Res (Q4 A) :=
  let* a := c0 v in let* b := c1 v in let* c := c2 v in let* d := c3 v in Ok (mkQ4 a b c d).

Notation V4 := (Q4 R).
Notation M4 := (Q4 (Q4 R)).

Definition mnth {A} (m : Q4 (Q4 A)) (i j : nat) : A := q4nth (q4nth m i) j.
Definition mtab {A} (f : nat -> nat -> A) : Q4 (Q4 A) := q4tab (fun i => q4tab (f i)).

Definition vadd (v w : V4) : V4 := q4map2 Rplus v w.
Definition vsub (v w : V4) : V4 := q4map2 Rminus v w.
Definition vscal (k : R) (v : V4) : V4 := q4map (Rmult k) v.
Definition dot (v w : V4) : R := c0 v * c0 w + c1 v * c1 w + c2 v * c2 w + c3 v * c3 w.
(** numpy [M @ v] *)
Definition mv (m : M4) (v : V4) : V4 := q4map (fun row => dot row v) m.
Definition transpose {A} (m : Q4 (Q4 A)) : Q4 (Q4 A) := mtab (fun i j => mnth m j i).
(** numpy [M @ N] *)
Definition mm (m n : M4) : M4 := q4map (fun row => mv (transpose n) row) m.
Definition id4 : M4 :=
  mtab (fun i j => if Nat.eqb i j then 1 else 0).

Lemma Q4_eq {A} (v w : Q4 A) :
  c0 v = c0 w -> c1 v = c1 w -> c2 v = c2 w -> c3 v = c3 w -> v = w.
Proof. destruct v, w; simpl; intros; subst; reflexivity. Qed.

Lemma Ok_inj {A} (a b : A) : Ok a = Ok b -> a = b.
Proof. intros H; inversion H; reflexivity. Qed.

Lemma bindR_Ok {A B} (r : Res A) (f : A -> Res B) b :
  bindR r f = Ok b -> exists a, r = Ok a /\ f a = Ok b.
Proof. destruct r; simpl; intros H; [eauto|discriminate]. Qed.
