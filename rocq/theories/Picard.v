(** Existence of solutions of initial value problems with programs as right-hand sides (Picard iteration). *)
From Coq Require Import Reals List ZArith Lra Lia Bool.
From Coquelicot Require Import Coquelicot.
From Verif Require Import Base Calc DualModel DualSpec DualProofs DualDiff GeoUtilsSpec GeoUtilsProofs ProgCont FantasyGlobal FantasyGlobal2.
Open Scope R_scope.

Lemma int_bound (h : R -> R) d M a b : (forall s, Rabs s < d -> continuous h s) -> (forall s, Rabs s < d -> Rabs (h s) <= M) -> Rabs a < d -> Rabs b < d ->
  ex_RInt h a b /\ Rabs (RInt h a b) <= M * Rabs (b - a).
Proof.
  intros Hc Hb Ha Hb'.
  assert (In : forall x y s, Rabs x < d -> Rabs y < d -> Rmin x y <= s <= Rmax x y -> Rabs s < d).
  { intros x y s Hx Hy Hs. apply Rabs_def2 in Hx. apply Rabs_def2 in Hy. apply Rabs_def1; revert Hs; unfold Rmin, Rmax; destruct (Rle_dec x y); intros; lra. }
  assert (Ex : forall x y, Rabs x < d -> Rabs y < d -> ex_RInt h x y).
  { intros x y Hx Hy. apply (ex_RInt_continuous (V := R_CompleteNormedModule)). intros s Hs. apply Hc. apply (In x y); assumption. }
  assert (Q : forall x y, x <= y -> Rabs x < d -> Rabs y < d -> Rabs (RInt h x y) <= M * Rabs (y - x)).
  { intros x y Hxy Hx Hy. rewrite (Rabs_right (y - x)) by lra. rewrite Rmult_comm. apply abs_RInt_le_const; [exact Hxy|apply Ex; assumption|].
    intros t Ht. apply Hb. apply (In x y); [assumption|assumption|]. rewrite Rmin_left, Rmax_right by exact Hxy. exact Ht. }
  split; [apply Ex; assumption|]. destruct (Rle_dec a b) as [L|L]; [apply Q; assumption|].
  rewrite <- (opp_RInt_swap h b a) by (apply Ex; assumption). change (opp (RInt h b a)) with (- RInt h b a). rewrite Rabs_Ropp, (Rabs_minus_sym b a). apply Q; [lra|assumption|assumption].
Qed.

Section Picard.
Variables (N : nat) (G : (nat -> R) -> nat -> R) (z0 : nat -> R) (r M L : R).
Hypothesis Hr : 0 < r.
Hypothesis HM : 0 <= M.
Hypothesis HL : 0 <= L.
Hypothesis Hbound : forall z i, near N r z0 z -> (i < N)%nat -> Rabs (G z i) <= M.
Hypothesis Hlip : forall z z' i eps, near N r z0 z -> near N r z0 z' -> (forall k, (k < N)%nat -> Rabs (z k - z' k) <= eps) -> (i < N)%nat -> Rabs (G z i - G z' i) <= L * eps.
Definition dur : R := Rmin (r / (2 * (M + 1))) (1 / (2 * (L + 1))).
Lemma dur_pos : 0 < dur.
Proof. apply Rmin_pos; apply Rdiv_lt_0_compat; lra. Qed.
Lemma dur_M : M * dur < r.
Proof.
  assert (A : dur <= r / (2 * (M + 1))) by apply Rmin_l. assert (P := dur_pos).
  apply Rle_lt_trans with (M * (r / (2 * (M + 1)))); [apply Rmult_le_compat_l; assumption|].
  apply Rmult_lt_reg_r with (2 * (M + 1)); [lra|]. field_simplify; [|lra]. nra.
Qed.
Lemma dur_L : L * dur <= / 2.
Proof.
  assert (A : dur <= 1 / (2 * (L + 1))) by apply Rmin_r. apply Rle_trans with (L * (1 / (2 * (L + 1)))); [apply Rmult_le_compat_l; assumption|].
  apply Rmult_le_reg_r with (2 * (L + 1)); [lra|]. field_simplify; [|lra]. lra.
Qed.
Definition steady (y : R -> nat -> R) : Prop := forall i, (i < N)%nat -> y 0 i = z0 i /\ forall s t, Rabs s < dur -> Rabs t < dur -> Rabs (y t i - y s i) <= M * Rabs (t - s).
Lemma zero_in : Rabs 0 < dur. Proof. rewrite Rabs_R0. apply dur_pos. Qed.
Lemma steady_near y t : steady y -> Rabs t < dur -> near N r z0 (y t).
Proof.
  intros H Ht i Hi. destruct (H i Hi) as [E K]. rewrite <- E. eapply Rle_lt_trans; [apply (K 0 t zero_in Ht)|]. rewrite Rminus_0_r.
  eapply Rle_lt_trans; [|exact dur_M]. apply Rmult_le_compat_l; [exact HM|lra].
Qed.
Lemma steady_cont y i t : steady y -> (i < N)%nat -> Rabs t < dur -> continuous (fun s => G (y s) i) t.
Proof.
  intros H Hi Ht P [eps HP]. set (K := L * M + 1). assert (KP : 0 < K) by (unfold K; assert (0 <= L * M) by (apply Rmult_le_pos; assumption); lra).
  assert (Q : 0 < Rmin (dur - Rabs t) (eps / K)) by (apply Rmin_pos; [lra|apply Rdiv_lt_0_compat; [apply cond_pos|exact KP]]).
  exists (mkposreal _ Q). intros s Hs. unfold ball in Hs; cbn in Hs. unfold AbsRing_ball, abs, minus, plus, opp in Hs; cbn in Hs.
  assert (S1 : Rabs (s - t) < dur - Rabs t) by (eapply Rlt_le_trans; [exact Hs|apply Rmin_l]). assert (S2 : Rabs (s - t) < eps / K) by (eapply Rlt_le_trans; [exact Hs|apply Rmin_r]).
  assert (Hs' : Rabs s < dur) by (replace s with (t + (s - t)) by ring; eapply Rle_lt_trans; [apply Rabs_triang|lra]).
  apply HP. unfold ball; cbn. unfold AbsRing_ball, abs, minus, plus, opp; cbn. change (Rabs (G (y s) i - G (y t) i) < eps).
  eapply Rle_lt_trans; [apply (Hlip _ _ i (M * Rabs (s - t)) (steady_near y s H Hs') (steady_near y t H Ht))|].
  - intros k Hk. apply (proj2 (H k Hk)); assumption.
  - exact Hi.
  - apply Rle_lt_trans with (K * Rabs (s - t)); [unfold K; assert (0 <= Rabs (s - t)) by apply Rabs_pos; nra|]. apply Rmult_lt_reg_r with (/ K); [apply Rinv_0_lt_compat; exact KP|].
    replace (K * Rabs (s - t) * / K) with (Rabs (s - t)) by (field; lra). exact S2.
Qed.
Lemma steady_int y i a b : steady y -> (i < N)%nat -> Rabs a < dur -> Rabs b < dur ->
  ex_RInt (fun s => G (y s) i) a b /\ Rabs (RInt (fun s => G (y s) i) a b) <= M * Rabs (b - a).
Proof.
  intros H Hi. apply int_bound; intros s Hs; [apply steady_cont; assumption|]. apply Hbound; [apply steady_near; assumption|exact Hi].
Qed.
Definition next (y : R -> nat -> R) (t : R) (i : nat) : R := z0 i + RInt (fun s => G (y s) i) 0 t.
Lemma next_steady y : steady y -> steady (next y).
Proof.
  intros H i Hi. unfold next. split; [rewrite RInt_point; change (z0 i + 0 = z0 i); ring|]. intros s t Hs Ht.
  destruct (steady_int y i 0 s H Hi zero_in Hs) as [E1 _]. destruct (steady_int y i s t H Hi Hs Ht) as [E2 B].
  assert (C := RInt_Chasles (fun s => G (y s) i) 0 s t E1 E2). change (RInt (fun s0 => G (y s0) i) 0 s + RInt (fun s0 => G (y s0) i) s t = RInt (fun s0 => G (y s0) i) 0 t) in C. rewrite <- C.
  assert (Z : forall a b c : R, c + (a + b) - (c + a) = b) by (intros; ring). rewrite Z. exact B.
Qed.
Lemma next_close y y' eps t i : steady y -> steady y' -> (forall s k, Rabs s < dur -> (k < N)%nat -> Rabs (y s k - y' s k) <= eps) -> Rabs t < dur -> (i < N)%nat ->
  Rabs (next y t i - next y' t i) <= eps / 2.
Proof.
  intros H H' He Ht Hi. unfold next.
  destruct (steady_int y i 0 t H Hi zero_in Ht) as [E1 _]. destruct (steady_int y' i 0 t H' Hi zero_in Ht) as [E2 _].
  assert (Z : forall a b c : R, c + a - (c + b) = a - b) by (intros; ring). rewrite Z.
  change (RInt (fun s => G (y s) i) 0 t - RInt (fun s => G (y' s) i) 0 t) with (minus (RInt (fun s => G (y s) i) 0 t) (RInt (fun s => G (y' s) i) 0 t)).
  rewrite <- (RInt_minus (V := R_CompleteNormedModule)) by assumption.
  assert (Q := proj2 (int_bound (fun s => minus (G (y s) i) (G (y' s) i)) dur (L * eps) 0 t
    (fun s Hs => continuous_minus (fun s => G (y s) i) (fun s => G (y' s) i) s (steady_cont y i s H Hi Hs) (steady_cont y' i s H' Hi Hs))
    (fun s Hs => Hlip _ _ i eps (steady_near y s H Hs) (steady_near y' s H' Hs) (fun k Hk => He s k Hs Hk) Hi) zero_in Ht)).
  eapply Rle_trans; [exact Q|]. rewrite Rminus_0_r.
  assert (E0 : 0 <= eps) by (eapply Rle_trans; [apply Rabs_pos|apply (He 0 i zero_in Hi)]).
  assert (DL := dur_L). assert (T : Rabs t <= dur) by lra. assert (A : L * Rabs t <= / 2) by (eapply Rle_trans; [apply Rmult_le_compat_l; [exact HL|exact T]|exact DL]).
  replace (L * eps * Rabs t) with (L * Rabs t * eps) by ring. unfold Rdiv. rewrite (Rmult_comm eps). apply Rmult_le_compat_r; assumption.
Qed.
Fixpoint pic (k : nat) : R -> nat -> R := match k with O => fun _ => z0 | S k => next (pic k) end.
Lemma pic_steady k : steady (pic k).
Proof.
  induction k as [|k IH]; [|apply next_steady; exact IH]. intros i Hi. split; [reflexivity|]. intros s t _ _. cbn [pic]. rewrite Rminus_eq_0, Rabs_R0. apply Rmult_le_pos; [exact HM|apply Rabs_pos].
Qed.
Lemma half_S k : (/ 2) ^ S k = (/ 2) ^ k / 2. Proof. cbn [pow]. field. Qed.
Lemma half_pos k : 0 < (/ 2) ^ k. Proof. apply pow_lt. lra. Qed.
Lemma pic_step k : forall t i, Rabs t < dur -> (i < N)%nat -> Rabs (pic (S k) t i - pic k t i) <= r * (/ 2) ^ k.
Proof.
  induction k as [|k IH]; intros t i Ht Hi.
  - rewrite pow_O, Rmult_1_r. assert (Q := steady_near (pic 1) t (pic_steady 1) Ht i Hi). change (pic 0 t i) with (z0 i). lra.
  - rewrite half_S. replace (r * ((/ 2) ^ k / 2)) with (r * (/ 2) ^ k / 2) by field. apply (next_close (pic (S k)) (pic k)); [apply pic_steady|apply pic_steady| |exact Ht|exact Hi]. intros s j Hs Hj. apply IH; assumption.
Qed.
Lemma pic_cauchy k m t i : Rabs t < dur -> (i < N)%nat -> Rabs (pic (k + m) t i - pic k t i) <= 2 * r * (/ 2) ^ k - 2 * r * (/ 2) ^ (k + m).
Proof.
  intros Ht Hi. induction m as [|m IH].
  - rewrite Nat.add_0_r, !Rminus_eq_0, Rabs_R0. lra.
  - rewrite Nat.add_succ_r. replace (pic (S (k + m)) t i - pic k t i) with ((pic (S (k + m)) t i - pic (k + m) t i) + (pic (k + m) t i - pic k t i)) by ring.
    eapply Rle_trans; [apply Rabs_triang|]. assert (S := pic_step (k + m) t i Ht Hi). rewrite half_S. lra.
Qed.
Lemma half_small eps : 0 < eps -> exists k, 2 * r * (/ 2) ^ k < eps.
Proof.
  intros He. destruct (pow_lt_1_zero (/ 2) ltac:(rewrite Rabs_right; lra) (eps / (2 * r)) ltac:(apply Rdiv_lt_0_compat; lra)) as [k Hk]. exists k. specialize (Hk k (le_n k)).
  rewrite Rabs_right in Hk by (left; apply half_pos). apply Rmult_lt_reg_r with (/ (2 * r)); [apply Rinv_0_lt_compat; lra|]. replace (2 * r * (/ 2) ^ k * / (2 * r)) with ((/ 2) ^ k) by (field; lra). exact Hk.
Qed.
Definition sol (t : R) (i : nat) : R := real (Lim_seq (fun k => pic k t i)).
Lemma sol_lim t i : Rabs t < dur -> (i < N)%nat -> is_lim_seq (fun k => pic k t i) (sol t i).
Proof.
  intros Ht Hi. apply Lim_seq_correct'. apply ex_lim_seq_cauchy_corr. intros eps. destruct (half_small (eps / 2) ltac:(generalize (cond_pos eps); lra)) as [k Hk]. exists k. intros n m Hn Hm.
  assert (A := pic_cauchy k (n - k) t i Ht Hi). assert (B := pic_cauchy k (m - k) t i Ht Hi). replace (k + (n - k))%nat with n in A by lia. replace (k + (m - k))%nat with m in B by lia.
  assert (P1 := half_pos n). assert (P2 := half_pos m).
  assert (0 <= 2 * r * (/ 2) ^ n) by (apply Rmult_le_pos; lra). assert (0 <= 2 * r * (/ 2) ^ m) by (apply Rmult_le_pos; lra).
  replace (pic n t i - pic m t i) with ((pic n t i - pic k t i) - (pic m t i - pic k t i)) by ring. unfold Rminus at 1. eapply Rle_lt_trans; [apply Rabs_triang|]. rewrite Rabs_Ropp. lra.
Qed.
Lemma lim_abs_le (u : nat -> R) (l a b : R) : is_lim_seq u l -> (exists k, forall n, (k <= n)%nat -> Rabs (u n - a) <= b) -> Rabs (l - a) <= b.
Proof.
  intros Hu [k H]. assert (A : is_lim_seq (fun n => Rabs (u n - a)) (Rabs (l - a))).
  { apply (is_lim_seq_abs _ (Finite (l - a))). apply (is_lim_seq_minus u (fun _ => a) l a (l - a)); [exact Hu|apply is_lim_seq_const|reflexivity]. }
  apply (is_lim_seq_le_loc (fun n => Rabs (u n - a)) (fun _ => b) (Rabs (l - a)) b); [exists k; exact H|exact A|apply is_lim_seq_const].
Qed.
Lemma sol_close k t i : Rabs t < dur -> (i < N)%nat -> Rabs (sol t i - pic k t i) <= 2 * r * (/ 2) ^ k.
Proof.
  intros Ht Hi. apply (lim_abs_le _ _ _ _ (sol_lim t i Ht Hi)). exists k. intros n Hn. assert (A := pic_cauchy k (n - k) t i Ht Hi). replace (k + (n - k))%nat with n in A by lia.
  assert (P1 := half_pos n). assert (0 <= 2 * r * (/ 2) ^ n) by (apply Rmult_le_pos; lra). lra.
Qed.
Lemma sol_steady : steady sol.
Proof.
  intros i Hi. split.
  - assert (U : is_lim_seq (fun k => pic k 0 i) (z0 i)).
    { apply (is_lim_seq_ext (fun _ => z0 i)); [|apply is_lim_seq_const]. intros n. symmetry. apply (pic_steady n i Hi). }
    unfold sol. rewrite (is_lim_seq_unique _ _ U). reflexivity.
  - intros s t Hs Ht. assert (A : is_lim_seq (fun k => pic k t i - pic k s i) (sol t i - sol s i)).
    { apply (is_lim_seq_minus _ _ (sol t i) (sol s i)); [apply sol_lim; assumption|apply sol_lim; assumption|reflexivity]. }
    rewrite <- (Rminus_0_r (sol t i - sol s i)). apply (lim_abs_le _ _ _ _ A). exists 0%nat. intros n _. rewrite Rminus_0_r. apply (pic_steady n i Hi); assumption.
Qed.
Lemma sol_fix t i : Rabs t < dur -> (i < N)%nat -> sol t i = next sol t i.
Proof.
  intros Ht Hi. apply Rminus_diag_uniq. apply Rabs_eq_0. apply Rle_antisym; [|apply Rabs_pos]. apply le_epsilon. intros eps He. rewrite Rplus_0_l.
  destruct (half_small eps He) as [k Hk].
  assert (A := sol_close (S k) t i Ht Hi). assert (B := next_close (pic k) sol (2 * r * (/ 2) ^ k) t i (pic_steady k) sol_steady
     (fun s j Hs Hj => eq_ind _ (fun x => x <= _) (sol_close k s j Hs Hj) _ (Rabs_minus_sym _ _)) Ht Hi).
  change (next (pic k) t i) with (pic (S k) t i) in B. rewrite half_S in A.
  replace (sol t i - next sol t i) with ((sol t i - pic (S k) t i) + (pic (S k) t i - next sol t i)) by ring. eapply Rle_trans; [apply Rabs_triang|]. lra.
Qed.
Theorem picard : exists d y, 0 < d /\ (forall i, (i < N)%nat -> y 0 i = z0 i) /\ forall t, Rabs t < d -> near N r z0 (y t) /\ forall i, (i < N)%nat -> is_derive (fun u => y u i) t (G (y t) i).
Proof.
  exists dur, sol. split; [exact dur_pos|]. split; [intros i Hi; apply (sol_steady i Hi)|]. intros t Ht. split; [apply steady_near; [exact sol_steady|exact Ht]|]. intros i Hi.
  assert (Lc : locally t (fun s => Rabs s < dur)).
  { assert (Q : 0 < dur - Rabs t) by lra. exists (mkposreal _ Q). intros s Hs. unfold ball in Hs; cbn in Hs. unfold AbsRing_ball, abs, minus, plus, opp in Hs; cbn in Hs. change (Rabs (s - t) < dur - Rabs t) in Hs.
    replace s with (t + (s - t)) by ring. eapply Rle_lt_trans; [apply Rabs_triang|lra]. }
  apply (is_derive_ext_loc (fun u => next sol u i)). { revert Lc. apply filter_imp. intros s Hs. symmetry. apply sol_fix; assumption. }
  unfold next. rewrite <- (Rplus_0_l (G (sol t) i)). apply (D_plus (fun _ => z0 i) (fun u => RInt (fun s => G (sol s) i) 0 u)); [apply D_const|].
  apply (is_derive_RInt (fun s => G (sol s) i) (fun u => RInt (fun s => G (sol s) i) 0 u) 0 t).
  - revert Lc. apply filter_imp. intros s Hs. apply (RInt_correct (V := R_CompleteNormedModule)). apply (steady_int sol i 0 s sol_steady Hi zero_in Hs).
  - apply steady_cont; [exact sol_steady|exact Hi|exact Ht].
Qed.
End Picard.
