(** Property C94: the predefined Bessel gravitational wave.
    [finverts], [fhas_ricci] as [inverts], [has_ricci] of P_Predef.v, in the domain of expressions with function symbols (ExprFun.v). *)
From Coq Require Import String Ascii Reals List Arith Lia Lra.
From Coquelicot Require Import Coquelicot.
From Verif Require Import Base SymAlg SymModel ExprModel PredefModel PredefBridge ExprFun PredefWave Bessel PredefBessel.
Import ListNotations.
Local Open Scope R_scope.
Definition pt (l : list R) (i : nat) : R := nth i l 0.

(** C94. Symbols 0..3 are t, rho, phi, z; symbol 4 stands for besselj(.., 0)/J_0 and symbol 6 for besselj(.., 1)/J_1, evaluated through
    [kramer_ext] (J_0(rho), J_1(rho), the published Kramer metric) or [code_ext] (besselj(rho, 0), besselj(rho, 1), as the file has it);
    [besselJ n x] is the power series of the Bessel function of the first kind. *)
@thm C94_published_metric_is_vacuum PredefBessel.kramer_vacuum -- C94: with J_0(rho) and J_1(rho) the Ricci tensor vanishes
@thm C94_code_ricci PredefBessel.code_ricci -- the Ricci tensor of the line element as coded
@thm C94_code_ricci_terms PredefBessel.code_K1_ok -- code_K1 and code_K2 are the derivatives of c^2/2 (rho J_rho(1))^2
@thm C94_vacuum_refuted PredefBessel.code_not_vacuum -- for every amplitude C <> 0 the coded metric is not a vacuum
Example C94_nonvacuous : besselj_spec lin_j lin_b /\ wparam (EVar 5) /\ bw_chart (pt [0; 1; 0; 0; 0; 2]) /\ code_value lin_j lin_b (EVar 5) (pt [0; 1; 0; 0; 0; 2]) = 2 /\
  (exists simp minv, finverts kramer_ext kramer_rule kramer_ok simp minv (BesselGravitationalWave (EVar 5) (EVar 4) (EVar 6))) /\
  (exists simp minv, finverts (code_ext lin_j lin_b) code_rule (code_ok lin_j lin_b lin_spec) simp minv (BesselGravitationalWave (EVar 5) (EVar 4) (EVar 6))).
Proof.
  split; [exact lin_spec|]. split; [right; reflexivity|]. split; [unfold bw_chart, pt; cbn [nth]; lra|]. split; [reflexivity|].
  split; eexists _, _; rewrite bw_wave; apply wave_inverts; try (intros p Hp; exact (Rgt_not_eq _ _ Hp)); apply bw_wd; right; reflexivity.
Qed.
