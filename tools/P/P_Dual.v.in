(** Properties C01-C03: forward-mode automatic differentiation (einsteinpy.utils.dual). *)
From Coq Require Import Reals List ZArith Lra Lia.
From Coquelicot Require Import Coquelicot.
From Verif Require Import Base Calc DualModel DualSpec DualProofs DualEq DualPow.
Open Scope R_scope.

@thm C01_ad_exact DualProofs.ad_exact_path -- C01: along any differentiable path the dual run returns the value and the derivative of the plain run
@thm C01_ad_exact_single DualProofs.ad_exact_single -- C01 for one variable: _deriv(func, x) is the derivative of func at x
@thm C01_plain_run DualProofs.run_plain -- what a plain run computes
@thm C01_div_by_zero_raises DualProofs.div_by_zero_raises
@thm C01_power_at_zero DualPow.power_at_zero -- float exponents of at least 1 at the boundary of their domain: the plain value and the one-sided derivative
@thm C01_power_outside DualPow.power_outside -- elsewhere outside the domain a power raises

(** non-vacuity: sin(x)/(x^2+1) is a program defined everywhere *)
Example C01_nonvacuous : defined_at (fun _ => 1) (EDiv (ESin (EVar 0)) (EAdd (EPow (EVar 0) 2) (EConst 1)))
  /\ ~ defined_at (fun _ => 1) (EDiv (ESin (EVar 0)) (ESub (EPow (EVar 0) 2) (EConst 1))).
Proof.
  split.
  - simpl. split; [exact Logic.I|]. split; [split; [split; [exact Logic.I|left; lia]|exact Logic.I]|]. lra.
  - simpl. intros (_ & _ & H). apply H. lra.
Qed.

@thm C02_zero_over_zero_limit_partial DualProofs.zero_over_zero_limit -- C02, value half: at 0/0 the value is the limit of the quotient
@thm C02_zero_over_zero_deriv_refuted DualProofs.zero_over_zero_deriv_refuted -- C02, derivative half, is false: witness x^2/x at 0
Example C02_nonvacuous : exists da db,
  runP (fun _ => PD (mkdual 0 1)) (ESin (EVar 0)) = Ok (PD da) /\ runP (fun _ => PD (mkdual 0 1)) (EVar 0) = Ok (PD db)
  /\ val da = 0 /\ val db = 0 /\ deriv db <> 0.
Proof. do 2 eexists. split; [reflexivity|]. split; [reflexivity|]. simpl. rewrite sin_0. repeat split; lra. Qed.

@thm C03_add_comm DualProofs.d_add_comm
@thm C03_add_assoc DualProofs.d_add_assoc
@thm C03_mul_comm DualProofs.d_mul_comm
@thm C03_mul_assoc DualProofs.d_mul_assoc
@thm C03_distrib DualProofs.d_mul_add
@thm C03_sub_is_add_neg DualProofs.d_sub_neg
@thm C03_neg_neg DualProofs.d_neg_neg
@thm C03_add_neg DualProofs.d_add_neg
@thm C03_div_mul DualProofs.d_div_mul
@thm C03_pow2 DualProofs.d_pow2
@thm C03_lift_add DualProofs.lift_add -- a plain number on either side acts as DualNumber(x, 0)
@thm C03_lift_sub DualProofs.lift_sub
@thm C03_lift_mul DualProofs.lift_mul
@thm C03_lift_div DualProofs.lift_div_all
@thm C03_comparison DualEq.comparison_spec -- equality and inequality of DualNumbers and numbers
@thm C03_equality DualEq.eq_is_equality
