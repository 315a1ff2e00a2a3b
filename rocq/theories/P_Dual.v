(* generated from tools/P/P_Dual.v.in by tools/genp.py: statements only, proofs are references *)
(** Properties C01-C03: forward-mode automatic differentiation (einsteinpy.utils.dual). *)
From Coq Require Import Reals List ZArith Lra Lia.
From Coquelicot Require Import Coquelicot.
From Verif Require Import Base Calc DualModel DualSpec DualProofs DualEq DualPow.
Open Scope R_scope.

(** C01: along any differentiable path the dual run returns the value and the derivative of the plain run *)
Theorem C01_ad_exact : 
  forall (e : pexpr) (xs : nat -> R -> R) (xdot : nat -> R) (t0 : R),
  (forall i, is_derive (xs i) t0 (xdot i)) ->
  defined_at (fun i => xs i t0) e ->
  exists (v : pyval) (F : R -> R),
  runP (fun i => PD (mkdual (xs i t0) (xdot i))) e = Ok v
  /\ locally t0 (fun t => runP (fun i => PF (xs i t)) e = Ok (PF (F t)))
  /\ pval v = F t0
  /\ is_derive F t0 (pderiv v).
Proof. exact DualProofs.ad_exact_path. Qed.
Print Assumptions C01_ad_exact.

(** C01 for one variable: _deriv(func, x) is the derivative of func at x *)
Theorem C01_ad_exact_single : 
  forall (e : pexpr) (x0 : R),
  defined_at (fun _ => x0) e ->
  exists (F : R -> R) (d : R),
  locally x0 (fun x => runP (fun _ => PF x) e = Ok (PF (F x)))
  /\ deriv_of_program e x0 = Ok d
  /\ is_derive F x0 d.
Proof. exact DualProofs.ad_exact_single. Qed.
Print Assumptions C01_ad_exact_single.

(** what a plain run computes *)
Theorem C01_plain_run : forall e (x : nat -> R),
  defined_at x e -> runP (fun i => PF (x i)) e = Ok (PF (meaning x e)).
Proof. exact DualProofs.run_plain. Qed.
Print Assumptions C01_plain_run.

Theorem C01_div_by_zero_raises : forall (s o : dual),
  val o = 0 -> val s <> 0 ->
  d_truediv s (PD o) = Err ZeroDivisionError.
Proof. exact DualProofs.div_by_zero_raises. Qed.
Print Assumptions C01_div_by_zero_raises.

(** float exponents of at least 1 at the boundary of their domain: the plain value and the one-sided derivative *)
Theorem C01_power_at_zero : forall p d,
  1 <= p -> exists v w, fpowR 0 p = Ok v /\ d_powR (mkdual 0 d) p = Ok (mkdual v (d * w)) /\
  forall eps, 0 < eps -> exists del, 0 < del /\ forall h, 0 < h < del -> exists y, fpowR h p = Ok y /\ Rabs ((y - v) / h - w) < eps.
Proof. exact DualPow.power_at_zero. Qed.
Print Assumptions C01_power_at_zero.

(** elsewhere outside the domain a power raises *)
Theorem C01_power_outside : forall x d p,
  x < 0 \/ (x = 0 /\ p < 1) -> exists e, d_powR (mkdual x d) p = Err e /\ (x < 0 -> e = TypeError) /\ (x = 0 -> e = ZeroDivisionError).
Proof. exact DualPow.power_outside. Qed.
Print Assumptions C01_power_outside.


(** non-vacuity: sin(x)/(x^2+1) is a program defined everywhere *)
Example C01_nonvacuous : defined_at (fun _ => 1) (EDiv (ESin (EVar 0)) (EAdd (EPow (EVar 0) 2) (EConst 1)))
  /\ ~ defined_at (fun _ => 1) (EDiv (ESin (EVar 0)) (ESub (EPow (EVar 0) 2) (EConst 1))).
Proof.
  split.
  - simpl. split; [exact Logic.I|]. split; [split; [split; [exact Logic.I|left; lia]|exact Logic.I]|]. lra.
  - simpl. intros (_ & _ & H). apply H. lra.
Qed.

(** C02, value half: at 0/0 the value is the limit of the quotient *)
Theorem C02_zero_over_zero_limit_partial : 
  forall (a b : pexpr) (xs : nat -> R -> R) (xdot : nat -> R) t0,
  (forall i, is_derive (xs i) t0 (xdot i)) ->
  forall (da db : dual),
  runP (fun i => PD (mkdual (xs i t0) (xdot i))) a = Ok (PD da) ->
  runP (fun i => PD (mkdual (xs i t0) (xdot i))) b = Ok (PD db) ->
  defined_at (fun i => xs i t0) a -> defined_at (fun i => xs i t0) b ->
  val da = 0 -> val db = 0 -> deriv db <> 0 ->
  exists v, runP (fun i => PD (mkdual (xs i t0) (xdot i))) (EDiv a b) = Ok v
  /\ is_lim (fun t => meaning (fun i => xs i t) a / meaning (fun i => xs i t) b) t0 (pval v).
Proof. exact DualProofs.zero_over_zero_limit. Qed.
Print Assumptions C02_zero_over_zero_limit_partial.

(** C02, derivative half, is false: witness x^2/x at 0 *)
Theorem C02_zero_over_zero_deriv_refuted : 
  exists (a b : pexpr) (x0 : R) (v : pyval) (F : R -> R),
  runP (fun _ => PD (mkdual x0 1)) (EDiv a b) = Ok v
  /\ (forall x, x <> x0 -> runP (fun _ => PF x) (EDiv a b) = Ok (PF (F x)))
  /\ pval v = F x0
  /\ is_derive F x0 1 /\ pderiv v = 0.
Proof. exact DualProofs.zero_over_zero_deriv_refuted. Qed.
Print Assumptions C02_zero_over_zero_deriv_refuted.

Example C02_nonvacuous : exists da db,
  runP (fun _ => PD (mkdual 0 1)) (ESin (EVar 0)) = Ok (PD da) /\ runP (fun _ => PD (mkdual 0 1)) (EVar 0) = Ok (PD db)
  /\ val da = 0 /\ val db = 0 /\ deriv db <> 0.
Proof. do 2 eexists. split; [reflexivity|]. split; [reflexivity|]. simpl. rewrite sin_0. repeat split; lra. Qed.

Theorem C03_add_comm : forall a b,
  d_add a (PD b) = d_add b (PD a).
Proof. exact DualProofs.d_add_comm. Qed.
Print Assumptions C03_add_comm.

Theorem C03_add_assoc : forall a b c,
  d_add (d_add a (PD b)) (PD c) = d_add a (PD (d_add b (PD c))).
Proof. exact DualProofs.d_add_assoc. Qed.
Print Assumptions C03_add_assoc.

Theorem C03_mul_comm : forall a b,
  d_mul a (PD b) = d_mul b (PD a).
Proof. exact DualProofs.d_mul_comm. Qed.
Print Assumptions C03_mul_comm.

Theorem C03_mul_assoc : forall a b c,
  d_mul (d_mul a (PD b)) (PD c) = d_mul a (PD (d_mul b (PD c))).
Proof. exact DualProofs.d_mul_assoc. Qed.
Print Assumptions C03_mul_assoc.

Theorem C03_distrib : forall a b c,
  d_mul a (PD (d_add b (PD c))) = d_add (d_mul a (PD b)) (PD (d_mul a (PD c))).
Proof. exact DualProofs.d_mul_add. Qed.
Print Assumptions C03_distrib.

Theorem C03_sub_is_add_neg : forall a b,
  d_sub a (PD b) = d_add a (PD (d_neg b)).
Proof. exact DualProofs.d_sub_neg. Qed.
Print Assumptions C03_sub_is_add_neg.

Theorem C03_neg_neg : forall a,
  d_neg (d_neg a) = a.
Proof. exact DualProofs.d_neg_neg. Qed.
Print Assumptions C03_neg_neg.

Theorem C03_add_neg : forall a,
  d_add a (PD (d_neg a)) = mkdual 0 0.
Proof. exact DualProofs.d_add_neg. Qed.
Print Assumptions C03_add_neg.

Theorem C03_div_mul : forall a b,
  val b <> 0 ->
  exists q, d_truediv a (PD b) = Ok q /\ d_mul q (PD b) = a.
Proof. exact DualProofs.d_div_mul. Qed.
Print Assumptions C03_div_mul.

Theorem C03_pow2 : forall a,
  d_powZ a 2 = Ok (d_mul a (PD a)).
Proof. exact DualProofs.d_pow2. Qed.
Print Assumptions C03_pow2.

(** a plain number on either side acts as DualNumber(x, 0) *)
Theorem C03_lift_add : forall u v,
  same_result (py_add u v) (py_add (lift u) (lift v)).
Proof. exact DualProofs.lift_add. Qed.
Print Assumptions C03_lift_add.

Theorem C03_lift_sub : forall u v,
  same_result (py_sub u v) (py_sub (lift u) (lift v)).
Proof. exact DualProofs.lift_sub. Qed.
Print Assumptions C03_lift_sub.

Theorem C03_lift_mul : forall u v,
  same_result (py_mul u v) (py_mul (lift u) (lift v)).
Proof. exact DualProofs.lift_mul. Qed.
Print Assumptions C03_lift_mul.

Theorem C03_lift_div : forall u v,
  same_result (py_div u v) (py_div (lift u) (lift v)).
Proof. exact DualProofs.lift_div_all. Qed.
Print Assumptions C03_lift_div.

(** equality and inequality of DualNumbers and numbers *)
Theorem C03_comparison : forall (a b : pyval),
  match a, b with
  | PD s, PD o => (py_eq a b = Ok true <-> val s = val o /\ deriv s = deriv o) /\ (py_ne a b = Ok true <-> val s <> val o \/ deriv s <> deriv o)
  | PF x, PF y => (py_eq a b = Ok true <-> x = y) /\ (py_ne a b = Ok true <-> x <> y)
  | _, _ => py_eq a b = Err AttributeError /\ py_ne a b = Err AttributeError
  end.
Proof. exact DualEq.comparison_spec. Qed.
Print Assumptions C03_comparison.

Theorem C03_equality : forall (s o : dual),
  py_eq (PD s) (PD o) = Ok true <-> s = o.
Proof. exact DualEq.eq_is_equality. Qed.
Print Assumptions C03_equality.

