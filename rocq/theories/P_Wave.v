(* generated from tools/P/P_Wave.v.in by tools/genp.py: statements only, proofs are references *)
(** Property C94: the predefined Bessel gravitational wave.
    [finverts], [fhas_ricci] as [inverts], [has_ricci] of P_Predef.v, in the domain of expressions with function symbols (ExprFun.v). *)
From Coq Require Import String Ascii Reals List Arith Lia Lra.
From Coquelicot Require Import Coquelicot.
From Verif Require Import Base SymAlg SymModel ExprModel PredefModel PredefBridge ExprFun PredefWave Bessel PredefBessel.
Import ListNotations.
Local Open Scope R_scope.
Definition pt (l : list R) (i : nat) : R := nth i l 0.

(** C94. Symbols 0..3 are t, rho, phi, z; symbol 4 stands for besselj(.., 0)/J_0 and symbol 6 for besselj(.., 1)/J_1, evaluated through
    [kramer_ext] (J_0(rho), J_1(rho), the published Kramer metric) or [code_ext] (besselj(rho, 0), besselj(rho, 1), as the file has it);
    [besselJ n x] is the power series of the Bessel function of the first kind. *)
(** C94: with J_0(rho) and J_1(rho) the Ricci tensor vanishes *)
Theorem C94_published_metric_is_vacuum : forall C simp minv,
  wparam C -> finverts kramer_ext kramer_rule kramer_ok simp minv (BesselGravitationalWave C (EVar 4) (EVar 6)) ->
  fhas_ricci kramer_ext kramer_rule kramer_ok simp minv (BesselGravitationalWave C (EVar 4) (EVar 6)) (fun _ _ _ => 0).
Proof. exact PredefBessel.kramer_vacuum. Qed.
Print Assumptions C94_published_metric_is_vacuum.

(** the Ricci tensor of the line element as coded *)
Theorem C94_code_ricci : forall besselj b (B : besselj_spec besselj b) C simp minv,
  wparam C ->
  finverts (code_ext besselj b) code_rule (code_ok besselj b B) simp minv (BesselGravitationalWave C (EVar 4) (EVar 6)) ->
  fhas_ricci (code_ext besselj b) code_rule (code_ok besselj b B) simp minv (BesselGravitationalWave C (EVar 4) (EVar 6))
  (fun s v p => let c := code_value besselj b C p in let rho := p 1%nat in
  match s, v with
  | 0%nat, 0%nat => code_K2 b c rho + code_K1 b c rho / rho
  | 1%nat, 1%nat => - code_K2 b c rho + code_K1 b c rho / rho
  | _, _ => 0
  end).
Proof. exact PredefBessel.code_ricci. Qed.
Print Assumptions C94_code_ricci.

(** code_K1 and code_K2 are the derivatives of c^2/2 (rho J_rho(1))^2 *)
Theorem C94_code_ricci_terms : forall b c rho,
  (forall n nu, 0 < nu -> is_derive (b n) nu (b (S n) nu)) -> 0 < rho ->
  is_derive (fun r => c ^ 2 / 2 * (r * b 0%nat r) ^ 2) rho (code_K1 b c rho) /\ is_derive (code_K1 b c) rho (code_K2 b c rho).
Proof. exact PredefBessel.code_K1_ok. Qed.
Print Assumptions C94_code_ricci_terms.

(** for every amplitude C <> 0 the coded metric is not a vacuum *)
Theorem C94_vacuum_refuted : forall besselj b (B : besselj_spec besselj b) C simp minv,
  wparam C ->
  finverts (code_ext besselj b) code_rule (code_ok besselj b B) simp minv (BesselGravitationalWave C (EVar 4) (EVar 6)) ->
  exists rc, ricci_from_metric (fmetric bw_chart (code_ext besselj b) code_rule (code_ok besselj b B) simp minv (BesselGravitationalWave C (EVar 4) (EVar 6))) = Ok rc /\
  forall c, c <> 0 -> exists rho, 0 < rho /\ forall p, p 1%nat = rho -> code_value besselj b C p = c ->
  fev bw_chart (code_ext besselj b) (t_arr rc [0%nat; 0%nat]) p <> 0 \/ fev bw_chart (code_ext besselj b) (t_arr rc [1%nat; 1%nat]) p <> 0.
Proof. exact PredefBessel.code_not_vacuum. Qed.
Print Assumptions C94_vacuum_refuted.

Example C94_nonvacuous : besselj_spec lin_j lin_b /\ wparam (EVar 5) /\ bw_chart (pt [0; 1; 0; 0; 0; 2]) /\ code_value lin_j lin_b (EVar 5) (pt [0; 1; 0; 0; 0; 2]) = 2 /\
  (exists simp minv, finverts kramer_ext kramer_rule kramer_ok simp minv (BesselGravitationalWave (EVar 5) (EVar 4) (EVar 6))) /\
  (exists simp minv, finverts (code_ext lin_j lin_b) code_rule (code_ok lin_j lin_b lin_spec) simp minv (BesselGravitationalWave (EVar 5) (EVar 4) (EVar 6))).
Proof.
  split; [exact lin_spec|]. split; [right; reflexivity|]. split; [unfold bw_chart, pt; cbn [nth]; lra|]. split; [reflexivity|].
  split; eexists _, _; rewrite bw_wave; apply wave_inverts; try (intros p Hp; exact (Rgt_not_eq _ _ Hp)); apply bw_wd; right; reflexivity.
Qed.
