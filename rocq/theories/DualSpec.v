(** Mathematical meaning of an arithmetic program: the real function it denotes and where it is defined. *)
From Coq Require Import Reals ZArith.
From Verif Require Import Base DualModel.
Open Scope R_scope.

Fixpoint meaning (x : nat -> R) (e : pexpr) : R :=
  match e with
  | EVar i => x i
  | EConst c => c
  | EAdd a b => meaning x a + meaning x b
  | ESub a b => meaning x a - meaning x b
  | EMul a b => meaning x a * meaning x b
  | EDiv a b => meaning x a / meaning x b
  | ENeg a => - meaning x a
  | EPow a n => powerRZ (meaning x a) n
  | EPowR a p => Rpower (meaning x a) p
  | ESin a => sin (meaning x a)
  | ECos a => cos (meaning x a)
  | ETan a => tan (meaning x a)
  | ELog a => ln (meaning x a)
  | EExp a => exp (meaning x a)
  end.

(** "the program is defined at x": no zero denominator, no non-positive logarithm or fractional-power base,
    no pole of tan; powers with exponent <= 0 need a non-zero base. *)
Fixpoint defined_at (x : nat -> R) (e : pexpr) : Prop :=
  match e with
  | EVar _ | EConst _ => True
  | EAdd a b | ESub a b | EMul a b => defined_at x a /\ defined_at x b
  | EDiv a b => defined_at x a /\ defined_at x b /\ meaning x b <> 0
  | ENeg a | ESin a | ECos a | EExp a => defined_at x a
  | EPow a n => defined_at x a /\ ((1 <= n)%Z \/ meaning x a <> 0)
  | EPowR a _ | ELog a => defined_at x a /\ 0 < meaning x a
  | ETan a => defined_at x a /\ cos (meaning x a) <> 0
  end.
