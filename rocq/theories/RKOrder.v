(** Order-of-magnitude calculus for the accuracy of the classical Runge-Kutta step: quantities depending on a base-time
    offset tau and a step size h, estimated uniformly in tau. *)
From Coq Require Import Reals List ZArith Lra Lia Bool Morphisms.
From Coquelicot Require Import Coquelicot.
From Verif Require Import Base Calc DualDiff ProgCont RKModel RKProofs FantasyGlobal.
Open Scope R_scope.

Definition ev (P : R -> R -> Prop) : Prop := exists rho, 0 < rho /\ forall tau h, Rabs tau < rho -> Rabs h < rho -> P tau h.
Definition bO (m : nat) (e : R -> R -> R) : Prop :=
  exists rho C, 0 < rho /\ 0 <= C /\ forall tau h, Rabs tau < rho -> Rabs h < rho -> Rabs (e tau h) <= C * Rabs h ^ m.

Lemma ev_and P Q : ev P -> ev Q -> ev (fun t h => P t h /\ Q t h).
Proof.
  intros (r & Hr & H) (r' & Hr' & H'). exists (Rmin r r'). split; [apply Rmin_pos; assumption|]. intros t h Ht Hh.
  split; [apply H|apply H']; (eapply Rlt_le_trans; [eassumption|first [apply Rmin_l|apply Rmin_r]]).
Qed.
Lemma ev_imp (P Q : R -> R -> Prop) : (forall t h, P t h -> Q t h) -> ev P -> ev Q.
Proof. intros H (r & Hr & K). exists r. split; [exact Hr|]. intros t h Ht Hh. apply H, K; assumption. Qed.
Lemma ev_true (P : R -> R -> Prop) : (forall t h, P t h) -> ev P.
Proof. intros H. exists 1. split; [lra|]. intros; apply H. Qed.
Lemma ev_all n (P : nat -> R -> R -> Prop) : (forall i, (i < n)%nat -> ev (P i)) -> ev (fun t h => forall i, (i < n)%nat -> P i t h).
Proof.
  induction n as [|n IH]; intros H; [apply ev_true; intros; lia|]. assert (A := IH (fun i Hi => H i (Nat.lt_trans _ _ _ Hi (Nat.lt_succ_diag_r n)))). assert (B := H n (Nat.lt_succ_diag_r n)).
  eapply ev_imp; [|exact (ev_and _ _ A B)]. cbv beta. intros t h [K1 K2] i Hi. destruct (Nat.eq_dec i n) as [-> |]; [exact K2|apply K1; lia].
Qed.
(** halving h keeps a property that holds eventually *)
Lemma ev_half (P : R -> R -> Prop) : ev P -> ev (fun t h => P t (h / 2)).
Proof. intros (r & Hr & K). exists r. split; [exact Hr|]. intros t h Ht Hh. apply K; [exact Ht|]. unfold Rdiv. rewrite Rabs_mult, (Rabs_right (/ 2)) by lra. lra. Qed.
Lemma bO_ev m e e' : ev (fun t h => e t h = e' t h) -> bO m e -> bO m e'.
Proof.
  intros E (r & C & Hr & HC & H). destruct (ev_and _ _ E (ex_intro _ r (conj Hr H) : ev (fun t h => Rabs (e t h) <= C * Rabs h ^ m))) as (r' & Hr' & K).
  exists r', C. split; [exact Hr'|]. split; [exact HC|]. intros t h Ht Hh. destruct (K t h Ht Hh) as [K1 K2]. rewrite <- K1. exact K2.
Qed.
Lemma bO_ext m e e' : (forall t h, e t h = e' t h) -> bO m e -> bO m e'.
Proof. intros H. apply bO_ev, ev_true, H. Qed.
Lemma bO_le m k e : (k <= m)%nat -> bO m e -> bO k e.
Proof.
  intros Hk (r & C & Hr & HC & H). exists (Rmin r 1), C. split; [apply Rmin_pos; lra|]. split; [exact HC|]. intros t h Ht Hh.
  assert (Ht' : Rabs t < r) by (eapply Rlt_le_trans; [exact Ht|apply Rmin_l]). assert (Hh' : Rabs h < r) by (eapply Rlt_le_trans; [exact Hh|apply Rmin_l]). assert (H1 : Rabs h < 1) by (eapply Rlt_le_trans; [exact Hh|apply Rmin_r]).
  eapply Rle_trans; [apply H; assumption|]. apply Rmult_le_compat_l; [exact HC|]. replace m with (k + (m - k))%nat by lia. rewrite pow_add. rewrite <- (Rmult_1_r (Rabs h ^ k)) at 2.
  apply Rmult_le_compat_l; [apply pow_le, Rabs_pos|]. rewrite <- (pow1 (m - k)). apply pow_incr. split; [apply Rabs_pos|lra].
Qed.
Lemma bO_add m e e' : bO m e -> bO m e' -> bO m (fun t h => e t h + e' t h).
Proof.
  intros (r & C & Hr & HC & H) (r' & C' & Hr' & HC' & H'). exists (Rmin r r'), (C + C'). split; [apply Rmin_pos; assumption|]. split; [lra|]. intros t h Ht Hh.
  eapply Rle_trans; [apply Rabs_triang|]. rewrite Rmult_plus_distr_r. apply Rplus_le_compat; [apply H|apply H']; (eapply Rlt_le_trans; [eassumption|first [apply Rmin_l|apply Rmin_r]]).
Qed.
Lemma bO_mul m k e e' : bO m e -> bO k e' -> bO (m + k) (fun t h => e t h * e' t h).
Proof.
  intros (r & C & Hr & HC & H) (r' & C' & Hr' & HC' & H'). exists (Rmin r r'), (C * C'). split; [apply Rmin_pos; assumption|]. split; [apply Rmult_le_pos; assumption|]. intros t h Ht Hh.
  rewrite Rabs_mult, pow_add. replace (C * C' * (Rabs h ^ m * Rabs h ^ k)) with ((C * Rabs h ^ m) * (C' * Rabs h ^ k)) by ring.
  apply Rmult_le_compat; try apply Rabs_pos; [apply H|apply H']; (eapply Rlt_le_trans; [eassumption|first [apply Rmin_l|apply Rmin_r]]).
Qed.
Lemma bO_const c : bO 0 (fun _ _ => c).
Proof. exists 1, (Rabs c). split; [lra|]. split; [apply Rabs_pos|]. intros. cbn. lra. Qed.
Lemma bO_zero m : bO m (fun _ _ => 0).
Proof. exists 1, 0. split; [lra|]. split; [lra|]. intros. rewrite Rabs_R0. lra. Qed.
Lemma bO_scal m c e : bO m e -> bO m (fun t h => c * e t h).
Proof. intros H. exact (bO_mul 0 m _ _ (bO_const c) H). Qed.
Lemma bO_sub m e e' : bO m e -> bO m e' -> bO m (fun t h => e t h - e' t h).
Proof. intros H H'. apply (bO_ext m (fun t h => e t h + -1 * e' t h)); [intros; ring|]. apply bO_add; [exact H|apply bO_scal, H']. Qed.
Lemma bO_h : bO 1 (fun _ h => h).
Proof. exists 1, 1. split; [lra|]. split; [lra|]. intros. rewrite pow_1. lra. Qed.
Lemma bO_hm k : bO k (fun _ h => h ^ k).
Proof. exists 1, 1. split; [lra|]. split; [lra|]. intros t h _ _. rewrite RPow_abs. lra. Qed.
Lemma bO_sum m n (e : nat -> R -> R -> R) : (forall j, (j < n)%nat -> bO m (e j)) -> bO m (fun t h => rsum n (fun j => e j t h)).
Proof. induction n as [|n IH]; intros H; cbn [rsum]; [apply bO_zero|]. apply bO_add; [apply IH; intros; apply H; lia|apply H; lia]. Qed.
Lemma bO_half m e : bO m e -> bO m (fun t h => e t (h / 2)).
Proof.
  intros (r & C & Hr & HC & H). exists r, C. split; [exact Hr|]. split; [exact HC|]. intros t h Ht Hh.
  assert (E : Rabs (h / 2) = Rabs h / 2) by (unfold Rdiv; rewrite Rabs_mult, (Rabs_right (/ 2)) by lra; reflexivity).
  assert (P := Rabs_pos h). eapply Rle_trans; [apply H; [exact Ht|lra]|]. apply Rmult_le_compat_l; [exact HC|]. apply pow_incr. lra.
Qed.
Lemma bO_small m e eps : bO (S m) e -> 0 < eps -> ev (fun t h => Rabs (e t h) < eps).
Proof.
  intros H He. apply (bO_le (S m) 1) in H; [|lia]. destruct H as (r & C & Hr & HC & H).
  exists (Rmin r (eps / (C + 1))). split; [apply Rmin_pos; [exact Hr|apply Rdiv_lt_0_compat; lra]|]. intros t h Ht Hh.
  assert (B : Rabs h < eps / (C + 1)) by (eapply Rlt_le_trans; [exact Hh|apply Rmin_r]). assert (Ht' : Rabs t < r) by (eapply Rlt_le_trans; [exact Ht|apply Rmin_l]). assert (Hh' : Rabs h < r) by (eapply Rlt_le_trans; [exact Hh|apply Rmin_l]).
  eapply Rle_lt_trans; [apply H; assumption|]. rewrite pow_1.
  apply (Rmult_lt_compat_r (C + 1)) in B; [|lra]. unfold Rdiv in B. rewrite Rmult_assoc, Rinv_l, Rmult_1_r in B by lra. assert (P := Rabs_pos h). lra.
Qed.
Lemma bO_dom m e e' : ev (fun t h => Rabs (e' t h) <= Rabs (e t h)) -> bO m e -> bO m e'.
Proof.
  intros E (r & C & Hr & HC & H). destruct (ev_and _ _ E (ex_intro _ r (conj Hr H) : ev (fun t h => Rabs (e t h) <= C * Rabs h ^ m))) as (r' & Hr' & K).
  exists r', C. split; [exact Hr'|]. split; [exact HC|]. intros t h Ht Hh. destruct (K t h Ht Hh) as [K1 K2]. lra.
Qed.

(** matrix times vector *)
Definition mulv (N : nat) (M : nat -> nat -> R -> R -> R) (d : nat -> R -> R -> R) (i : nat) (t h : R) : R := rsum N (fun j => M i j t h * d j t h).
Lemma mulv_O N M d i p : (forall j, (j < N)%nat -> bO 0 (M i j)) -> (forall j, (j < N)%nat -> bO p (d j)) -> bO p (mulv N M d i).
Proof. intros HM Hd. apply bO_sum. intros j Hj. apply (bO_mul 0 p (M i j) (d j)); [apply HM|apply Hd]; exact Hj. Qed.
Lemma mulv_sub N M d e i t h : mulv N M d i t h - mulv N M e i t h = mulv N M (fun j t h => d j t h - e j t h) i t h.
Proof. unfold mulv. replace (rsum N (fun j => M i j t h * (d j t h - e j t h))) with (rsum N (fun j => M i j t h * d j t h + -1 * (M i j t h * e j t h))) by (apply rsum_ext; intros; ring). rewrite rsum_plus, rsum_scal. ring. Qed.
Lemma mulv_vec N M d e i p : (forall j, (j < N)%nat -> bO 0 (M i j)) -> (forall j, (j < N)%nat -> bO p (fun t h => d j t h - e j t h)) -> bO p (fun t h => mulv N M d i t h - mulv N M e i t h).
Proof. intros HM Hd. apply (bO_ext p (mulv N M (fun j t h => d j t h - e j t h) i)); [intros; symmetry; apply mulv_sub|]. apply mulv_O; assumption. Qed.
Lemma mulv_mat N M M' d i p : (forall j, (j < N)%nat -> bO 1 (fun t h => M i j t h - M' i j t h)) -> (forall j, (j < N)%nat -> bO p (d j)) -> bO (S p) (fun t h => mulv N M d i t h - mulv N M' d i t h).
Proof.
  intros HM Hd. apply (bO_ext (S p) (fun t h => rsum N (fun j => (M i j t h - M' i j t h) * d j t h))).
  { intros t h. unfold mulv. transitivity (rsum N (fun j => M i j t h * d j t h + -1 * (M' i j t h * d j t h))); [apply rsum_ext; intros; ring|]. rewrite rsum_plus, rsum_scal. ring. }
  apply bO_sum. intros j Hj. apply (bO_mul 1 p (fun t h => M i j t h - M' i j t h) (d j)); [apply HM|apply Hd]; exact Hj.
Qed.
Lemma mulv_lin N M a b (d e : nat -> R -> R -> R) i t h : mulv N M (fun j t h => a t h * d j t h + b t h * e j t h) i t h = a t h * mulv N M d i t h + b t h * mulv N M e i t h.
Proof. unfold mulv. rewrite <- !rsum_scal, <- rsum_plus. apply rsum_ext. intros. ring. Qed.
