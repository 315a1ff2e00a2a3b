(** C01: float powers of DualNumbers at the boundary of their domain (dual.py:106-109). *)
From Coq Require Import Reals List ZArith Lra Bool.
From Verif Require Import Base DualModel DualProofs.
Open Scope R_scope.
(** for an exponent of at least 1 a power of a DualNumber with value 0 has the value of the plain power and the one-sided derivative *)
Lemma power_at_zero p d : 1 <= p -> exists v w, fpowR 0 p = Ok v /\ d_powR (mkdual 0 d) p = Ok (mkdual v (d * w)) /\
  forall eps, 0 < eps -> exists del, 0 < del /\ forall h, 0 < h < del -> exists y, fpowR h p = Ok y /\ Rabs ((y - v) / h - w) < eps.
Proof.
  intros Hp. unfold d_powR. cbn [val deriv]. destruct (Req_dec p 1) as [-> |N].
  - exists 0, 1. unfold fpowR. destruct (Rlt_dec 0 0) as [F|_]; [lra|]. destruct (Req_EM_T 0 0) as [_|F]; [|contradiction]. destruct (Rlt_dec 0 1) as [_|F]; [|lra].
    destruct (Rlt_dec 0 (1 - 1)) as [F|_]; [lra|]. destruct (Req_EM_T (1 - 1) 0) as [_|F]; [|lra]. cbn [bindR]. split; [reflexivity|]. split; [do 2 f_equal; ring|].
    intros eps He. exists 1. split; [lra|]. intros h Hh. exists h. destruct (Rlt_dec 0 h) as [_|F]; [|lra]. rewrite Rpower_1 by lra. split; [reflexivity|]. replace ((h - 0) / h - 1) with 0 by (field; lra). rewrite Rabs_R0. exact He.
  - assert (P : 0 < p - 1) by lra. exists 0, 0. unfold fpowR. destruct (Rlt_dec 0 0) as [F|_]; [lra|]. destruct (Req_EM_T 0 0) as [_|F]; [|contradiction]. destruct (Rlt_dec 0 p) as [_|F]; [|lra].
    destruct (Rlt_dec 0 (p - 1)) as [_|F]; [|lra]. cbn [bindR]. split; [reflexivity|]. split; [do 2 f_equal; ring|].
    intros eps He. exists (Rpower eps (/ (p - 1))). split; [apply exp_pos|]. intros h [H0 H1]. exists (Rpower h p). destruct (Rlt_dec 0 h) as [_|F]; [|lra]. split; [reflexivity|].
    replace ((Rpower h p - 0) / h - 0) with (Rpower h (p - 1)). 2:{ replace (Rpower h p) with (Rpower h (p - 1) * h); [field; lra|]. rewrite <- (Rpower_1 h) at 2 by exact H0. rewrite <- Rpower_plus. f_equal. ring. }
    rewrite Rabs_right by (apply Rle_ge, Rlt_le, exp_pos). apply Rlt_le_trans with (Rpower (Rpower eps (/ (p - 1))) (p - 1)).
    + unfold Rpower at 1 2. apply exp_increasing. apply Rmult_lt_compat_l; [exact P|]. apply ln_increasing; assumption.
    + rewrite Rpower_mult. replace (/ (p - 1) * (p - 1)) with 1 by (field; lra). rewrite Rpower_1 by exact He. apply Rle_refl.
Qed.
(** outside: an exponent below 1 at 0, where the derivative is infinite or there is no value, and negative values, where there is no real power, raise *)
Lemma power_outside x d p : x < 0 \/ (x = 0 /\ p < 1) -> exists e, d_powR (mkdual x d) p = Err e /\ (x < 0 -> e = TypeError) /\ (x = 0 -> e = ZeroDivisionError).
Proof.
  intros H. unfold d_powR, fpowR. cbn [val deriv]. destruct (Rlt_dec 0 x) as [F|_]; [lra|]. destruct (Req_EM_T x 0) as [E|E].
  - exists ZeroDivisionError. split; [|split; [lra|reflexivity]]. assert (p < 1) by lra. destruct (Rlt_dec 0 (p - 1)) as [F|_]; [lra|]. destruct (Req_EM_T (p - 1) 0) as [F|_]; [lra|]. destruct (Rlt_dec 0 p); [reflexivity|]. destruct (Req_EM_T p 0); reflexivity.
  - exists TypeError. split; [reflexivity|]. split; [reflexivity|]. intros; contradiction.
Qed.
