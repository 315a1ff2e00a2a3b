(** Bessel functions of the first kind of integer order (the functions sympy.besselj(n, x)), from their power series. *)
From Coq Require Import Reals List Arith Lia Lra.
From Coquelicot Require Import Coquelicot.
Open Scope R_scope.

(** J_n(x) = sum_k (-1)^k / (k! (k+n)!) (x/2)^(2k+n) *)
Definition besselJ (n : nat) (x : R) : R := Series (fun k => (-1) ^ k / (INR (fact k) * INR (fact (k + n))) * (x / 2) ^ (2 * k + n)).

Definition bc (n k : nat) : R := (-1) ^ k / (INR (fact k) * INR (fact (k + n))).
Definition bP (n : nat) (y : R) : R := PSeries (bc n) y.
Lemma fact_nz k : INR (fact k) <> 0. Proof. apply INR_fact_neq_0. Qed.
Lemma bc_nz n k : bc n k <> 0.
Proof. unfold bc, Rdiv. apply Rmult_integral_contrapositive_currified; [apply pow_nonzero; lra|]. apply Rinv_neq_0_compat. apply Rmult_integral_contrapositive_currified; apply fact_nz. Qed.
Lemma bc_S n k : bc n (S k) = - bc n k / (INR (S k) * INR (S (k + n))).
Proof.
  unfold bc. cbn [Nat.add]. change (fact (S k)) with (S k * fact k)%nat. change (fact (S (k + n))) with (S (k + n) * fact (k + n))%nat.
  rewrite !mult_INR. change ((-1) ^ S k) with (-1 * (-1) ^ k).
  assert (INR (S k) <> 0) by (apply not_0_INR; lia). assert (INR (S (k + n)) <> 0) by (apply not_0_INR; lia). assert (A := fact_nz k). assert (B := fact_nz (k + n)). field. auto.
Qed.
Lemma bc_radius n : CV_radius (bc n) = p_infty.
Proof.
  apply CV_radius_infinite_DAlembert; [intros k; apply bc_nz|].
  apply (is_lim_seq_ext (fun k => / INR (S k) * / INR (S (k + n)))).
  - intros k. rewrite bc_S. assert (N := bc_nz n k).
    assert (P1 : 0 < INR (S k)) by (apply lt_0_INR; lia). assert (P2 : 0 < INR (S (k + n))) by (apply lt_0_INR; lia).
    replace (- bc n k / (INR (S k) * INR (S (k + n))) / bc n k) with (- (/ INR (S k) * / INR (S (k + n)))) by (field; repeat split; (assumption || lra)).
    rewrite Rabs_Ropp, Rabs_right; [reflexivity|]. apply Rle_ge. apply Rlt_le. apply Rmult_lt_0_compat; apply Rinv_0_lt_compat; assumption.
  - apply (is_lim_seq_le_le (fun _ => 0) _ (fun k => / INR (S k))).
    + intros k. assert (P1 : 0 < INR (S k)) by (apply lt_0_INR; lia). assert (P2 : 1 <= INR (S (k + n))) by (rewrite S_INR; assert (0 <= INR (k + n)) by apply pos_INR; lra).
      assert (Q1 : 0 < / INR (S k)) by (apply Rinv_0_lt_compat; assumption). assert (Q2 : 0 < / INR (S (k + n))) by (apply Rinv_0_lt_compat; lra).
      assert (Q3 : / INR (S (k + n)) <= 1) by (rewrite <- Rinv_1; apply Rinv_le_contravar; lra). split; nra.
    + apply is_lim_seq_const.
    + apply (is_lim_seq_incr_1 (fun k => / INR k)). change (Finite 0) with (Rbar_inv p_infty). apply is_lim_seq_inv; [apply is_lim_seq_INR|discriminate].
Qed.
Lemma besselJ_P n x : besselJ n x = (x / 2) ^ n * bP n ((x / 2) ^ 2).
Proof.
  unfold besselJ, bP, PSeries. rewrite <- Series_scal_l. apply Series_ext. intros k. unfold bc. rewrite pow_add, pow_mult. ring.
Qed.
Lemma bP_derive n y : is_derive (bP n) y (- bP (S n) y).
Proof.
  unfold bP. replace (- PSeries (bc (S n)) y) with (PSeries (PS_derive (bc n)) y).
  - apply is_derive_PSeries. rewrite bc_radius. exact I.
  - rewrite <- PSeries_opp. apply PSeries_ext. intros k. unfold PS_derive, PS_opp. change (opp (bc (S n) k)) with (- bc (S n) k). rewrite bc_S. unfold bc.
    replace (k + S n)%nat with (S (k + n)) by lia. change (fact (S (k + n))) with (S (k + n) * fact (k + n))%nat. rewrite mult_INR.
    assert (INR (S k) <> 0) by (apply not_0_INR; lia). assert (INR (S (k + n)) <> 0) by (apply not_0_INR; lia). assert (A := fact_nz k). assert (B := fact_nz (k + n)). field. auto.
Qed.
(** P_1(y) - y P_2(y) = P_0(y) *)
Lemma bP_rec n y : INR (S n) * bP (S n) y - y * bP (S (S n)) y = bP n y.
Proof.
  unfold bP. rewrite <- PSeries_incr_1, <- PSeries_scal, <- PSeries_minus.
  - apply PSeries_ext. intros k. unfold PS_minus, PS_plus, PS_opp, PS_scal, PS_incr_1.
    change (INR (S n) * bc (S n) k + - match k with O => zero | S j => bc (S (S n)) j end = bc n k).
    destruct k as [|k].
    + change (INR (S n) * bc (S n) 0 + - 0 = bc n 0). unfold bc. cbn [Nat.add]. change (fact (S n)) with (S n * fact n)%nat. rewrite mult_INR.
      assert (INR (S n) <> 0) by (apply not_0_INR; lia). assert (A := fact_nz n). assert (B := fact_nz 0). field. auto.
    + rewrite bc_S, (bc_S n). unfold bc. replace (k + S (S n))%nat with (S (S (k + n))) by lia. replace (k + S n)%nat with (S (k + n)) by lia.
      change (fact (S (S (k + n)))) with (S (S (k + n)) * (S (k + n) * fact (k + n)))%nat. change (fact (S (k + n))) with (S (k + n) * fact (k + n))%nat. rewrite !mult_INR.
      assert (INR (S k) <> 0) by (apply not_0_INR; lia). assert (INR (S (k + n)) <> 0) by (apply not_0_INR; lia). assert (INR (S (S (k + n))) <> 0) by (apply not_0_INR; lia).
      assert (A := fact_nz k). assert (B := fact_nz (k + n)). rewrite !S_INR, !plus_INR in *. rewrite ?S_INR, ?plus_INR in *. field. repeat split; assumption.
  - apply ex_pseries_scal; [apply Rmult_comm|]. apply CV_radius_inside. rewrite bc_radius. exact I.
  - apply ex_pseries_incr_1. apply CV_radius_inside. rewrite bc_radius. exact I.
Qed.
Lemma sq_derive x : is_derive (fun x => (x / 2) ^ 2) x (x / 2). Proof. auto_derive; [exact I|]. field. Qed.
Lemma half_derive x : is_derive (fun x => x / 2) x (/ 2). Proof. auto_derive; [exact I|]. field. Qed.
(** J_0' = - J_1 *)
Lemma J0_derive x : is_derive (besselJ 0) x (- besselJ 1 x).
Proof.
  apply (is_derive_ext (fun x => bP 0 ((x / 2) ^ 2))); [intros t; symmetry; rewrite besselJ_P; exact (Rmult_1_l _)|]. rewrite besselJ_P.
  assert (M := is_derive_comp (bP 0) (fun x => (x / 2) ^ 2) x _ _ (bP_derive 0 _) (sq_derive x)).
  replace (- ((x / 2) ^ 1 * bP 1 ((x / 2) ^ 2))) with (x / 2 * - bP 1 ((x / 2) ^ 2)) by ring. exact M.
Qed.
(** J_1' = J_0 - J_1 / x *)
Lemma J1_derive x : x <> 0 -> is_derive (besselJ 1) x (besselJ 0 x - besselJ 1 x / x).
Proof.
  intros Hx. apply (is_derive_ext (fun x => x / 2 * bP 1 ((x / 2) ^ 2))); [intros t; rewrite besselJ_P, pow_1; reflexivity|]. rewrite !besselJ_P.
  assert (D : is_derive (fun x => bP 1 ((x / 2) ^ 2)) x (x / 2 * - bP 2 ((x / 2) ^ 2))).
  { exact (is_derive_comp (bP 1) (fun x => (x / 2) ^ 2) x _ _ (bP_derive 1 _) (sq_derive x)). }
  assert (E := bP_rec 0 ((x / 2) ^ 2)). simpl INR in E.
  assert (M := is_derive_mult (fun x => x / 2) _ x (/ 2) _ (half_derive x) D Rmult_comm).
  replace ((x / 2) ^ 0 * bP 0 ((x / 2) ^ 2) - (x / 2) ^ 1 * bP 1 ((x / 2) ^ 2) / x) with (plus (mult (/ 2) (bP 1 ((x / 2) ^ 2))) (mult (x / 2) (x / 2 * - bP 2 ((x / 2) ^ 2)))); [exact M|].
  change (/ 2 * bP 1 ((x / 2) ^ 2) + x / 2 * (x / 2 * - bP 2 ((x / 2) ^ 2)) = (x / 2) ^ 0 * bP 0 ((x / 2) ^ 2) - (x / 2) ^ 1 * bP 1 ((x / 2) ^ 2) / x).
  rewrite <- E. field. exact Hx.
Qed.

(** bounds at x = 1 *)
Definition bu (n k : nat) : R := / (INR (fact k) * INR (fact (k + n))) * (1 / 2) ^ (2 * k + n).
Lemma bu_pos n k : 0 < bu n k.
Proof. unfold bu. apply Rmult_lt_0_compat; [apply Rinv_0_lt_compat; apply Rmult_lt_0_compat; apply INR_fact_lt_0|apply pow_lt; lra]. Qed.
Lemma bu_S n k : bu n (S k) <= / 4 * bu n k.
Proof.
  assert (E : bu n (S k) = / (INR (S k) * INR (S (k + n))) * (/ 4 * bu n k)).
  { unfold bu. cbn [Nat.add]. change (fact (S k)) with (S k * fact k)%nat. change (fact (S (k + n))) with (S (k + n) * fact (k + n))%nat.
    rewrite !mult_INR. replace (2 * S k + n)%nat with (2 + (2 * k + n))%nat by lia. rewrite (pow_add _ 2).
    assert (INR (S k) <> 0) by (apply not_0_INR; lia). assert (INR (S (k + n)) <> 0) by (apply not_0_INR; lia). assert (A := fact_nz k). assert (B := fact_nz (k + n)). field. auto. }
  rewrite E. assert (P := bu_pos n k).
  assert (P1 : 1 <= INR (S k)) by (rewrite S_INR; assert (0 <= INR k) by apply pos_INR; lra).
  assert (P2 : 1 <= INR (S (k + n))) by (rewrite S_INR; assert (0 <= INR (k + n)) by apply pos_INR; lra).
  assert (Q : / (INR (S k) * INR (S (k + n))) <= 1) by (rewrite <- Rinv_1; apply Rinv_le_contravar; nra). nra.
Qed.
Lemma besselJ_bounds n : bu n 0 - bu n 1 <= besselJ n 1 <= bu n 0.
Proof.
  assert (H : sum_f_R0 (tg_alt (bu n)) (S (2 * 0)) <= besselJ n 1 <= sum_f_R0 (tg_alt (bu n)) (2 * 0)).
  { apply alternated_series_ineq.
    - intros k. assert (A := bu_S n k). assert (B := bu_pos n k). lra.
    - assert (G : forall k, bu n k <= bu n 0 * (/ 4) ^ k).
      { induction k as [|k IH]; [simpl; lra|]. assert (A := bu_S n k). simpl pow. lra. }
      apply is_lim_seq_Reals. apply (is_lim_seq_le_le (fun _ => 0) _ (fun k => bu n 0 * (/ 4) ^ k)).
      + intros k. split; [apply Rlt_le; apply bu_pos|apply G].
      + apply is_lim_seq_const.
      + replace (Finite 0) with (Rbar_mult (bu n 0) 0) by (simpl; f_equal; ring). apply is_lim_seq_scal_l. apply is_lim_seq_geom. rewrite Rabs_right; lra.
    - apply is_series_Reals. unfold besselJ.
      assert (X : forall k, tg_alt (bu n) k = (-1) ^ k / (INR (fact k) * INR (fact (k + n))) * (1 / 2) ^ (2 * k + n)) by (intros k; unfold tg_alt, bu, Rdiv; ring).
      apply (is_series_ext (fun k => (-1) ^ k / (INR (fact k) * INR (fact (k + n))) * (1 / 2) ^ (2 * k + n))); [intros k; symmetry; apply X|].
      assert (Y : forall k, (1 / 2) ^ n * (bc n k * ((1 / 2) ^ 2) ^ k) = (-1) ^ k / (INR (fact k) * INR (fact (k + n))) * (1 / 2) ^ (2 * k + n)) by (intros k; unfold bc; rewrite pow_add, pow_mult; ring).
      apply Series_correct. apply (ex_series_ext (fun k => (1 / 2) ^ n * (bc n k * ((1 / 2) ^ 2) ^ k))).
      + exact Y.
      + apply (ex_series_scal (K := R_AbsRing) (V := R_NormedModule) ((1 / 2) ^ n) (fun k => bc n k * ((1 / 2) ^ 2) ^ k)). apply (proj1 (ex_pseries_R (bc n) _)). apply CV_radius_inside. rewrite bc_radius. exact I. }
  cbn [Nat.mul Nat.add sum_f_R0] in H. unfold tg_alt in H. simpl pow in H. lra.
Qed.
Lemma J1_at_1 : 7 / 16 <= besselJ 1 1.
Proof. assert (H := besselJ_bounds 1). unfold bu in H. cbn [fact Nat.add Nat.mul] in H. simpl in H. lra. Qed.
Lemma J2_at_1 : 0 < besselJ 2 1 <= 1 / 8.
Proof. assert (H := besselJ_bounds 2). unfold bu in H. cbn [fact Nat.add Nat.mul] in H. simpl in H. lra. Qed.
