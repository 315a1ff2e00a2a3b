(** The classical Runge-Kutta step of an autonomous system with Lipschitz Jacobian agrees with any five times differentiable
    solution up to O(h^5), uniformly in the base time. *)
From Coq Require Import Reals List ZArith Lra Lia Bool.
From Coquelicot Require Import Coquelicot.
From Verif Require Import Base Calc DualDiff ProgCont RKModel RKProofs FantasyGlobal RKOrder.
Open Scope R_scope.

Lemma rsum_nonneg n (f : nat -> R) : (forall i, 0 <= f i) -> 0 <= rsum n f.
Proof. intros H. induction n as [|n IH]; cbn [rsum]; [lra|]. specialize (H n). lra. Qed.

Section Auto.
Variable N : nat.
Variable G : (nat -> R) -> nat -> R.
Variable J : nat -> nat -> (nat -> R) -> R.
Variable E : nat -> R -> nat -> R.
Definition l1 (z z' : nat -> R) : R := rsum N (fun j => Rabs (z' j - z j)).
Variables (r L B : R).
Hypothesis Hr : 0 < r.
Hypothesis HL : 0 <= L.
Hypothesis HB : 0 <= B.
Hypothesis HQ : forall i z z', (i < N)%nat -> near N r (E 0%nat 0) z -> near N r (E 0%nat 0) z' ->
  Rabs (G z' i - G z i - rsum N (fun j => J i j z * (z' j - z j))) <= L * l1 z z' ^ 2.
Hypothesis HJ : forall i j z z', (i < N)%nat -> (j < N)%nat -> near N r (E 0%nat 0) z -> near N r (E 0%nat 0) z' -> Rabs (J i j z' - J i j z) <= L * l1 z z'.
Hypothesis HS : forall u i, Rabs u < r -> (i < N)%nat -> E 1%nat u i = G (E 0%nat u) i.
Hypothesis HD : forall u i k, Rabs u < r -> (i < N)%nat -> (k < 5)%nat -> is_derive (fun v => E k v i) u (E (S k) u i).
Hypothesis H5 : forall u i, Rabs u < r -> (i < N)%nat -> Rabs (E 5%nat u i) <= B.

Lemma E_bounded k i : (k <= 5)%nat -> (i < N)%nat -> exists rho C, 0 < rho /\ 0 <= C /\ forall u, Rabs u < rho -> Rabs (E k u i) <= C.
Proof.
  intros Hk Hi. destruct (Nat.eq_dec k 5) as [-> |Hn].
  - exists r, B. split; [exact Hr|]. split; [exact HB|]. intros u Hu. apply H5; assumption.
  - assert (D := HD 0 i k ltac:(rewrite Rabs_R0; exact Hr) Hi ltac:(lia)). apply D_continuous in D.
    destruct (D (fun y => Rabs (y - E k 0 i) < 1)) as [e He]. { exists (mkposreal 1 Rlt_0_1). intros y Hy. exact Hy. }
    exists e, (Rabs (E k 0 i) + 1). split; [apply cond_pos|]. split; [generalize (Rabs_pos (E k 0 i)); lra|]. intros u Hu.
    assert (Q : Rabs (E k u i - E k 0 i) < 1) by (apply He; unfold ball; cbn; unfold AbsRing_ball, abs, minus, plus, opp; cbn; rewrite Ropp_0, Rplus_0_r; exact Hu).
    replace (E k u i) with (E k 0 i + (E k u i - E k 0 i)) by ring. eapply Rle_trans; [apply Rabs_triang|]. lra.
Qed.
Lemma E_O k i : (k <= 5)%nat -> (i < N)%nat -> bO 0 (fun tau _ => E k tau i).
Proof. intros Hk Hi. destruct (E_bounded k i Hk Hi) as (rho & C & A1 & A2 & A3). exists rho, C. split; [exact A1|]. split; [exact A2|]. intros t h Ht _. cbn. rewrite Rmult_1_r. apply A3, Ht. Qed.
Lemma taylor_O k m i : (k + S m <= 5)%nat -> (i < N)%nat -> bO (S m) (fun tau h => E k (tau + h) i - rsum (S m) (fun j => h ^ j / INR (fact j) * E (k + j) tau i)).
Proof.
  intros Hk Hi. destruct (E_bounded (k + S m) i Hk Hi) as (rho & C & A1 & A2 & A3).
  set (d := Rmin r rho / 2). assert (Hd : 0 < d) by (unfold d; assert (0 < Rmin r rho) by (apply Rmin_pos; assumption); lra).
  exists d, C. split; [exact Hd|]. split; [exact A2|]. intros t h Ht Hh.
  assert (I : forall u, Rabs u < d -> Rabs (t + u) < r /\ Rabs (t + u) < rho).
  { intros u Hu. assert (T := Rabs_triang t u). assert (S1 := Rmin_l r rho). assert (S2 := Rmin_r r rho). unfold d in *. split; lra. }
  assert (K : forall j u, (j <= m)%nat -> Rabs u < d -> is_derive (fun u => E (k + j)%nat (t + u) i) u (E (k + S j)%nat (t + u) i)).
  { intros j u Hj Hu. rewrite <- (Rmult_1_l (E (k + S j)%nat (t + u) i)). apply (D_comp (fun v => E (k + j)%nat v i) (fun v => t + v) u); [|auto_derive; [exact Logic.I|ring]].
    rewrite Nat.add_succ_r. apply HD; [apply I, Hu|exact Hi|lia]. }
  assert (T' := taylor_bound m (fun j u => E (k + j)%nat (t + u) i) d C A2 K). cbv beta in T'. rewrite Nat.add_0_r in T'.
  assert (T2 := T' (fun u Hu => A3 (t + u) (proj2 (I u Hu))) h Hh).
  replace (rsum (S m) (fun j => h ^ j / INR (fact j) * E (k + j)%nat t i)) with (rsum (S m) (fun k0 => h ^ k0 / INR (fact k0) * E (k + k0)%nat (t + 0) i)); [exact T2|].
  apply rsum_ext. intros j _. rewrite Rplus_0_r. reflexivity.
Qed.

Definition vec (u : nat -> R -> R -> R) (t h : R) : nat -> R := fun j => u j t h.
Definition Z0 (j : nat) (t h : R) : R := E 0%nat t j.
Definition DD (k j : nat) (t h : R) : R := E k t j.
Definition At (k j : nat) (t h : R) : R := E k (t + h) j.
Definition Ah (k j : nat) (t h : R) : R := E k (t + h / 2) j.
Definition Jat (v : nat -> R -> R -> R) (i j : nat) (t h : R) : R := J i j (vec v t h).
Definition closeto (v : nat -> R -> R -> R) : Prop := forall j, (j < N)%nat -> bO 1 (fun t h => v j t h - Z0 j t h).

Lemma bO_abs m e : bO m e -> bO m (fun t h => Rabs (e t h)).
Proof. apply bO_dom, ev_true. intros. rewrite Rabs_Rabsolu. lra. Qed.
Lemma Z0_near eps : 0 < eps -> ev (fun t h => near N eps (E 0%nat 0) (vec Z0 t h)).
Proof.
  intros He. apply ev_all. intros j Hj. assert (D := HD 0 j 0%nat ltac:(rewrite Rabs_R0; exact Hr) Hj ltac:(lia)). apply D_continuous in D.
  destruct (D (fun y => Rabs (y - E 0%nat 0 j) < eps)) as [e Hd]. { exists (mkposreal eps He). intros y Hy. exact Hy. }
  exists e. split; [apply cond_pos|]. intros t h Ht _. unfold vec, Z0. apply Hd. unfold ball; cbn; unfold AbsRing_ball, abs, minus, plus, opp; cbn. rewrite Ropp_0, Rplus_0_r. exact Ht.
Qed.
Lemma near_ev v : closeto v -> ev (fun t h => near N r (E 0%nat 0) (vec v t h)).
Proof.
  intros H. assert (A := Z0_near (r / 2) ltac:(lra)). assert (C : ev (fun t h => forall j, (j < N)%nat -> Rabs (v j t h - Z0 j t h) < r / 2)).
  { apply ev_all. intros j Hj. apply (bO_small 0 (fun t h => v j t h - Z0 j t h)); [apply H, Hj|lra]. }
  eapply ev_imp; [|exact (ev_and _ _ A C)]. cbv beta. intros t h [K1 K2] j Hj. specialize (K1 j Hj). specialize (K2 j Hj). unfold vec in *.
  replace (v j t h - E 0%nat 0 j) with ((v j t h - Z0 j t h) + (Z0 j t h - E 0%nat 0 j)) by ring. eapply Rle_lt_trans; [apply Rabs_triang|]. lra.
Qed.
Lemma l1_nonneg z z' : 0 <= l1 z z'.
Proof. unfold l1. apply rsum_nonneg. intros. apply Rabs_pos. Qed.
Lemma G_diff u v i p : (i < N)%nat -> closeto u -> closeto v -> (forall j, (j < N)%nat -> bO p (fun t h => u j t h - v j t h)) ->
  bO (p + p) (fun t h => G (vec u t h) i - G (vec v t h) i - mulv N (Jat v) (fun j t h => u j t h - v j t h) i t h).
Proof.
  intros Hi Hu Hv Hd. assert (Hl : bO p (fun t h => l1 (vec v t h) (vec u t h))). { apply (bO_sum p N (fun j t h => Rabs (u j t h - v j t h))). intros j Hj. apply bO_abs, Hd, Hj. }
  apply (bO_dom (p + p) (fun t h => L * (l1 (vec v t h) (vec u t h) * l1 (vec v t h) (vec u t h)))); [|apply bO_scal, bO_mul; exact Hl].
  eapply ev_imp; [|exact (ev_and _ _ (near_ev u Hu) (near_ev v Hv))]. cbv beta. intros t h [K1 K2].
  assert (Q := HQ i _ _ Hi K2 K1). rewrite (Rabs_right (L * _)); [|apply Rle_ge, Rmult_le_pos; [exact HL|apply Rmult_le_pos; apply l1_nonneg]].
  unfold mulv, Jat, vec in *. rewrite <- Rsqr_pow2 in Q. exact Q.
Qed.
Lemma J_diff v i j : (i < N)%nat -> (j < N)%nat -> closeto v -> bO 1 (fun t h => Jat v i j t h - Jat Z0 i j t h).
Proof.
  intros Hi Hj Hv. assert (Hl : bO 1 (fun t h => l1 (vec Z0 t h) (vec v t h))). { apply (bO_sum 1 N (fun j t h => Rabs (v j t h - Z0 j t h))). intros k Hk. apply bO_abs, Hv, Hk. }
  apply (bO_dom 1 (fun t h => L * l1 (vec Z0 t h) (vec v t h))); [|apply bO_scal; exact Hl].
  eapply ev_imp; [|exact (ev_and _ _ (near_ev v Hv) (Z0_near r Hr))]. cbv beta. intros t h [K1 K2].
  rewrite (Rabs_right (L * _)); [|apply Rle_ge, Rmult_le_pos; [exact HL|apply l1_nonneg]]. exact (HJ i j _ _ Hi Hj K2 K1).
Qed.
Lemma J_bounded i j : (i < N)%nat -> (j < N)%nat -> bO 0 (Jat Z0 i j).
Proof.
  intros Hi Hj. destruct (Z0_near r Hr) as (rho & Hrho & H). exists rho, (Rabs (J i j (E 0%nat 0)) + L * (INR N * r)).
  assert (P : 0 <= L * (INR N * r)) by (apply Rmult_le_pos; [exact HL|apply Rmult_le_pos; [apply pos_INR|lra]]).
  split; [exact Hrho|]. split; [generalize (Rabs_pos (J i j (E 0%nat 0))); lra|]. intros t h Ht Hh. specialize (H t h Ht Hh). cbn. rewrite Rmult_1_r.
  assert (Q := HJ i j (E 0%nat 0) _ Hi Hj (near_self N r _ Hr) H). assert (Q2 : l1 (E 0%nat 0) (vec Z0 t h) <= INR N * r).
  { eapply Rle_trans; [apply Rle_abs|]. apply rsum_Rabs. intros k Hk. rewrite Rabs_Rabsolu. left. apply H, Hk. }
  unfold Jat. replace (J i j (vec Z0 t h)) with (J i j (E 0%nat 0) + (J i j (vec Z0 t h) - J i j (E 0%nat 0))) by ring. eapply Rle_trans; [apply Rabs_triang|].
  apply Rplus_le_compat_l. eapply Rle_trans; [exact Q|]. apply Rmult_le_compat_l; assumption.
Qed.
Lemma Jat_bounded v i j : (i < N)%nat -> (j < N)%nat -> closeto v -> bO 0 (Jat v i j).
Proof.
  intros Hi Hj Hv. apply (bO_ext 0 (fun t h => (Jat v i j t h - Jat Z0 i j t h) + Jat Z0 i j t h)); [intros; ring|]. apply bO_add; [apply (bO_le 1 0); [lia|]; apply J_diff; assumption|apply J_bounded; assumption].
Qed.

(** the stages, with base time t and step h *)
Definition K0 (i : nat) (t h : R) : R := G (vec Z0 t h) i.
Definition U1 (j : nat) (t h : R) : R := Z0 j t h + h / 2 * K0 j t h.
Definition K1 (i : nat) (t h : R) : R := G (vec U1 t h) i.
Definition U2 (j : nat) (t h : R) : R := Z0 j t h + h / 2 * K1 j t h.
Definition K2 (i : nat) (t h : R) : R := G (vec U2 t h) i.
Definition U3 (j : nat) (t h : R) : R := Z0 j t h + h * K2 j t h.
Definition K3 (i : nat) (t h : R) : R := G (vec U3 t h) i.
Definition Step (i : nat) (t h : R) : R := Z0 i t h + h / 6 * (K0 i t h + 2 * K1 i t h + 2 * K2 i t h + K3 i t h).

Lemma bO_hk k m e : bO m e -> bO (k + m) (fun t h => h ^ k * e t h).
Proof. intros H. exact (bO_mul k m _ _ (bO_hm k) H). Qed.
Lemma ev_t : ev (fun t h => Rabs t < r).
Proof. exists r. split; [exact Hr|]. intros; assumption. Qed.
Lemma ev_th : ev (fun t h => Rabs (t + h) < r).
Proof. exists (r / 2). split; [lra|]. intros t h Ht Hh. eapply Rle_lt_trans; [apply Rabs_triang|]. lra. Qed.
Lemma ev_tn : ev (fun t h => Rabs (t + h / 2) < r).
Proof. exact (ev_half _ ev_th). Qed.
Lemma K0_is i : (i < N)%nat -> ev (fun t h => DD 1 i t h = K0 i t h).
Proof. intros Hi. eapply ev_imp; [|exact ev_t]. intros t h Ht. unfold DD, K0, vec, Z0. rewrite (HS t i Ht Hi). reflexivity. Qed.
Lemma Ah_is i : (i < N)%nat -> ev (fun t h => Ah 1 i t h = G (vec (Ah 0) t h) i).
Proof. intros Hi. eapply ev_imp; [|exact ev_tn]. intros t h Ht. unfold Ah, vec. rewrite (HS _ i Ht Hi). reflexivity. Qed.
Lemma At_is i : (i < N)%nat -> ev (fun t h => At 1 i t h = G (vec (At 0) t h) i).
Proof. intros Hi. eapply ev_imp; [|exact ev_th]. intros t h Ht. unfold At, vec. rewrite (HS _ i Ht Hi). reflexivity. Qed.
Lemma DD_O k i : (k <= 5)%nat -> (i < N)%nat -> bO 0 (DD k i).
Proof. apply E_O. Qed.

(** Taylor expansions at h and h/2 *)
Lemma t1_0_4 i : (i < N)%nat -> bO 4 (fun t h => At 0 i t h - (DD 0 i t h + h * DD 1 i t h + h ^ 2 / 2 * DD 2 i t h + h ^ 3 / 6 * DD 3 i t h)).
Proof. intros Hi. eapply bO_ext; [|exact (taylor_O 0 3 i ltac:(lia) Hi)]. intros t h. unfold At, DD. cbn [rsum fact Nat.add Nat.mul]. cbn [INR]. field. Qed.
Lemma t1_0_5 i : (i < N)%nat -> bO 5 (fun t h => At 0 i t h - (DD 0 i t h + h * DD 1 i t h + h ^ 2 / 2 * DD 2 i t h + h ^ 3 / 6 * DD 3 i t h + h ^ 4 / 24 * DD 4 i t h)).
Proof. intros Hi. eapply bO_ext; [|exact (taylor_O 0 4 i ltac:(lia) Hi)]. intros t h. unfold At, DD. cbn [rsum fact Nat.add Nat.mul]. cbn [INR]. field. Qed.
Lemma t1_1_4 i : (i < N)%nat -> bO 4 (fun t h => At 1 i t h - (DD 1 i t h + h * DD 2 i t h + h ^ 2 / 2 * DD 3 i t h + h ^ 3 / 6 * DD 4 i t h)).
Proof. intros Hi. eapply bO_ext; [|exact (taylor_O 1 3 i ltac:(lia) Hi)]. intros t h. unfold At, DD. cbn [rsum fact Nat.add Nat.mul]. cbn [INR]. field. Qed.
Lemma th_0_4 i : (i < N)%nat -> bO 4 (fun t h => Ah 0 i t h - (DD 0 i t h + h / 2 * DD 1 i t h + h ^ 2 / 8 * DD 2 i t h + h ^ 3 / 48 * DD 3 i t h)).
Proof. intros Hi. eapply bO_ext; [|exact (bO_half 4 _ (t1_0_4 i Hi))]. intros t h. unfold At, Ah, DD. field. Qed.
Lemma th_1_4 i : (i < N)%nat -> bO 4 (fun t h => Ah 1 i t h - (DD 1 i t h + h / 2 * DD 2 i t h + h ^ 2 / 8 * DD 3 i t h + h ^ 3 / 48 * DD 4 i t h)).
Proof. intros Hi. eapply bO_ext; [|exact (bO_half 4 _ (t1_1_4 i Hi))]. intros t h. unfold At, Ah, DD. field. Qed.
Lemma th_1_3 i : (i < N)%nat -> bO 3 (fun t h => Ah 1 i t h - (DD 1 i t h + h / 2 * DD 2 i t h + h ^ 2 / 8 * DD 3 i t h)).
Proof.
  intros Hi. apply (bO_ext 3 (fun t h => (Ah 1 i t h - (DD 1 i t h + h / 2 * DD 2 i t h + h ^ 2 / 8 * DD 3 i t h + h ^ 3 / 48 * DD 4 i t h)) + 1 / 48 * (h ^ 3 * DD 4 i t h))); [intros; field|].
  apply bO_add; [apply (bO_le 4 3 _ ltac:(lia)), th_1_4, Hi|apply bO_scal, (bO_hk 3 0), DD_O; [lia|exact Hi]].
Qed.
(** Simpson's rule *)
Lemma simpson i : (i < N)%nat -> bO 5 (fun t h => DD 0 i t h + h / 6 * (DD 1 i t h + 4 * Ah 1 i t h + At 1 i t h) - At 0 i t h).
Proof.
  intros Hi. apply (bO_ext 5 (fun t h => (4 / 6 * (h ^ 1 * (Ah 1 i t h - (DD 1 i t h + h / 2 * DD 2 i t h + h ^ 2 / 8 * DD 3 i t h + h ^ 3 / 48 * DD 4 i t h)))
    + 1 / 6 * (h ^ 1 * (At 1 i t h - (DD 1 i t h + h * DD 2 i t h + h ^ 2 / 2 * DD 3 i t h + h ^ 3 / 6 * DD 4 i t h))))
    - (At 0 i t h - (DD 0 i t h + h * DD 1 i t h + h ^ 2 / 2 * DD 2 i t h + h ^ 3 / 6 * DD 3 i t h + h ^ 4 / 24 * DD 4 i t h)))); [intros; field|].
  apply bO_sub; [apply bO_add; apply bO_scal, (bO_hk 1 4); [apply th_1_4|apply t1_1_4]; exact Hi|apply t1_0_5, Hi].
Qed.

Lemma DDh k m i : (k <= 5)%nat -> (i < N)%nat -> bO m (fun t h => h ^ m * DD k i t h).
Proof. intros Hk Hi. rewrite <- (Nat.add_0_r m) at 1. apply (bO_hk m 0), DD_O; assumption. Qed.
Lemma close_Ah : closeto (Ah 0).
Proof.
  intros j Hj. apply (bO_ext 1 (fun t h => ((Ah 0 j t h - (DD 0 j t h + h / 2 * DD 1 j t h + h ^ 2 / 8 * DD 2 j t h + h ^ 3 / 48 * DD 3 j t h)) + 1 / 2 * (h ^ 1 * DD 1 j t h)) + (1 / 8 * (h ^ 2 * DD 2 j t h) + 1 / 48 * (h ^ 3 * DD 3 j t h))));
    [intros; unfold Z0, DD; field|].
  apply bO_add; apply bO_add; [apply (bO_le 4 1 _ ltac:(lia)), th_0_4, Hj|apply bO_scal, DDh; [lia|exact Hj]|apply bO_scal, (bO_le 2 1 _ ltac:(lia)), DDh; [lia|exact Hj]|apply bO_scal, (bO_le 3 1 _ ltac:(lia)), DDh; [lia|exact Hj]].
Qed.
Lemma close_At : closeto (At 0).
Proof.
  intros j Hj. apply (bO_ext 1 (fun t h => ((At 0 j t h - (DD 0 j t h + h * DD 1 j t h + h ^ 2 / 2 * DD 2 j t h + h ^ 3 / 6 * DD 3 j t h)) + (h ^ 1 * DD 1 j t h)) + (1 / 2 * (h ^ 2 * DD 2 j t h) + 1 / 6 * (h ^ 3 * DD 3 j t h))));
    [intros; unfold Z0, DD; field|].
  apply bO_add; apply bO_add; [apply (bO_le 4 1 _ ltac:(lia)), t1_0_4, Hj|apply DDh; [lia|exact Hj]|apply bO_scal, (bO_le 2 1 _ ltac:(lia)), DDh; [lia|exact Hj]|apply bO_scal, (bO_le 3 1 _ ltac:(lia)), DDh; [lia|exact Hj]].
Qed.
Lemma close_Z0 : closeto Z0.
Proof. intros j Hj. apply (bO_ext 1 (fun _ _ => 0)); [intros; ring|apply bO_zero]. Qed.
Lemma close_by u v p : closeto v -> (0 < p)%nat -> (forall j, (j < N)%nat -> bO p (fun t h => u j t h - v j t h)) -> closeto u.
Proof.
  intros Hv Hp H j Hj. apply (bO_ext 1 (fun t h => (u j t h - v j t h) + (v j t h - Z0 j t h))); [intros; ring|]. apply bO_add; [apply (bO_le p 1 _ ltac:(lia)), H, Hj|apply Hv, Hj].
Qed.
(** J(Z0) applied to the second and third derivatives, and twice to the second *)
Definition W (i : nat) (t h : R) : R := mulv N (Jat Z0) (DD 2) i t h.
Definition VV (i : nat) (t h : R) : R := mulv N (Jat Z0) (DD 3) i t h.
Definition XX (i : nat) (t h : R) : R := mulv N (Jat Z0) W i t h.
Lemma W_O i : (i < N)%nat -> bO 0 (W i).
Proof. intros Hi. apply mulv_O; intros j Hj; [apply J_bounded; assumption|apply DD_O; [lia|exact Hj]]. Qed.
Lemma Wh m i : (i < N)%nat -> bO m (fun t h => h ^ m * W i t h).
Proof. intros Hi. rewrite <- (Nat.add_0_r m) at 1. apply (bO_hk m 0), W_O; assumption. Qed.

Lemma d1_4 j : (j < N)%nat -> bO 4 (fun t h => U1 j t h - Ah 0 j t h + (h ^ 2 / 8 * DD 2 j t h + h ^ 3 / 48 * DD 3 j t h)).
Proof.
  intros Hj. apply (bO_ev 4 (fun t h => -1 * (Ah 0 j t h - (DD 0 j t h + h / 2 * DD 1 j t h + h ^ 2 / 8 * DD 2 j t h + h ^ 3 / 48 * DD 3 j t h)))); [|apply bO_scal, th_0_4, Hj].
  eapply ev_imp; [|exact (K0_is j Hj)]. intros t h Ek. unfold U1. rewrite <- Ek. unfold Z0, DD. field.
Qed.
Lemma d1_3 j : (j < N)%nat -> bO 3 (fun t h => U1 j t h - Ah 0 j t h + h ^ 2 / 8 * DD 2 j t h).
Proof.
  intros Hj. apply (bO_ext 3 (fun t h => (U1 j t h - Ah 0 j t h + (h ^ 2 / 8 * DD 2 j t h + h ^ 3 / 48 * DD 3 j t h)) - 1 / 48 * (h ^ 3 * DD 3 j t h))); [intros; field|].
  apply bO_sub; [apply (bO_le 4 3 _ ltac:(lia)), d1_4, Hj|apply bO_scal, DDh; [lia|exact Hj]].
Qed.
Lemma d1_2 j : (j < N)%nat -> bO 2 (fun t h => U1 j t h - Ah 0 j t h).
Proof.
  intros Hj. apply (bO_ext 2 (fun t h => (U1 j t h - Ah 0 j t h + h ^ 2 / 8 * DD 2 j t h) - 1 / 8 * (h ^ 2 * DD 2 j t h))); [intros; field|].
  apply bO_sub; [apply (bO_le 3 2 _ ltac:(lia)), d1_3, Hj|apply bO_scal, DDh; [lia|exact Hj]].
Qed.
Lemma stage u v k i p : (i < N)%nat -> closeto v -> (0 < p)%nat -> (forall j, (j < N)%nat -> bO p (fun t h => u j t h - v j t h)) -> ev (fun t h => k i t h = G (vec v t h) i) ->
  bO (p + p) (fun t h => G (vec u t h) i - k i t h - mulv N (Jat v) (fun j t h => u j t h - v j t h) i t h).
Proof.
  intros Hi Hv Hp Hd Hk. eapply bO_ev; [|exact (G_diff u v i p Hi (close_by u v p Hv Hp Hd) Hv Hd)]. eapply ev_imp; [|exact Hk]. intros t h Ek. cbv beta. rewrite Ek. reflexivity.
Qed.
(** replacing J(v) by J(Z0) and the vector by an approximation *)
Lemma swap_J v d e i p q : (i < N)%nat -> closeto v -> (q <= S p)%nat -> (forall j, (j < N)%nat -> bO p (d j)) -> (forall j, (j < N)%nat -> bO q (fun t h => d j t h - e j t h)) ->
  bO q (fun t h => mulv N (Jat v) d i t h - mulv N (Jat Z0) e i t h).
Proof.
  intros Hi Hv Hq Hd He. apply (bO_ext q (fun t h => (mulv N (Jat v) d i t h - mulv N (Jat Z0) d i t h) + (mulv N (Jat Z0) d i t h - mulv N (Jat Z0) e i t h))); [intros; ring|].
  apply bO_add; [apply (bO_le (S p) q _ Hq), mulv_mat; [intros j Hj; apply J_diff; assumption|exact Hd]|apply mulv_vec; [intros j Hj; apply J_bounded; assumption|exact He]].
Qed.
Lemma q1 i : (i < N)%nat -> bO 4 (fun t h => K1 i t h - Ah 1 i t h - mulv N (Jat (Ah 0)) (fun j t h => U1 j t h - Ah 0 j t h) i t h).
Proof. intros Hi. exact (stage U1 (Ah 0) (Ah 1) i 2 Hi close_Ah ltac:(lia) d1_2 (Ah_is i Hi)). Qed.
Lemma q1_3 i : (i < N)%nat -> bO 3 (fun t h => K1 i t h - Ah 1 i t h + h ^ 2 / 8 * W i t h).
Proof.
  intros Hi. assert (S := swap_J (Ah 0) (fun j t h => U1 j t h - Ah 0 j t h) (fun j t h => (- (h ^ 2 / 8)) * DD 2 j t h + 0 * DD 2 j t h) i 2 3 Hi close_Ah ltac:(lia) d1_2).
  assert (D : forall j, (j < N)%nat -> bO 3 (fun t h => (U1 j t h - Ah 0 j t h) - ((- (h ^ 2 / 8)) * DD 2 j t h + 0 * DD 2 j t h))).
  { intros j Hj. eapply bO_ext; [|exact (d1_3 j Hj)]. intros t h. cbv beta. ring. }
  eapply bO_ext; [|exact (bO_add 3 _ _ (bO_le 4 3 _ ltac:(lia) (q1 i Hi)) (S D))].
  intros t h. cbv beta. rewrite (mulv_lin N (Jat Z0) (fun _ h => - (h ^ 2 / 8)) (fun _ _ => 0) (DD 2) (DD 2) i t h). unfold W. ring.
Qed.
Lemma d2_4 j : (j < N)%nat -> bO 4 (fun t h => U2 j t h - Ah 0 j t h - (h ^ 2 / 8 * DD 2 j t h + h ^ 3 / 24 * DD 3 j t h - h ^ 3 / 16 * W j t h)).
Proof.
  intros Hj. apply (bO_ext 4 (fun t h => (1 / 2 * (h ^ 1 * (K1 j t h - Ah 1 j t h + h ^ 2 / 8 * W j t h)) + 1 / 2 * (h ^ 1 * (Ah 1 j t h - (DD 1 j t h + h / 2 * DD 2 j t h + h ^ 2 / 8 * DD 3 j t h))))
    - (Ah 0 j t h - (DD 0 j t h + h / 2 * DD 1 j t h + h ^ 2 / 8 * DD 2 j t h + h ^ 3 / 48 * DD 3 j t h)))); [intros; unfold U2, Z0, DD; field|].
  apply bO_sub; [apply bO_add; apply bO_scal, (bO_hk 1 3); [apply q1_3|apply th_1_3]; exact Hj|apply th_0_4, Hj].
Qed.
Lemma d2_3 j : (j < N)%nat -> bO 3 (fun t h => U2 j t h - Ah 0 j t h - h ^ 2 / 8 * DD 2 j t h).
Proof.
  intros Hj. apply (bO_ext 3 (fun t h => (U2 j t h - Ah 0 j t h - (h ^ 2 / 8 * DD 2 j t h + h ^ 3 / 24 * DD 3 j t h - h ^ 3 / 16 * W j t h)) + (1 / 24 * (h ^ 3 * DD 3 j t h) - 1 / 16 * (h ^ 3 * W j t h)))); [intros; field|].
  apply bO_add; [apply (bO_le 4 3 _ ltac:(lia)), d2_4, Hj|apply bO_sub; apply bO_scal; [apply DDh; [lia|exact Hj]|apply Wh, Hj]].
Qed.
Lemma d2_2 j : (j < N)%nat -> bO 2 (fun t h => U2 j t h - Ah 0 j t h).
Proof.
  intros Hj. apply (bO_ext 2 (fun t h => (U2 j t h - Ah 0 j t h - h ^ 2 / 8 * DD 2 j t h) + 1 / 8 * (h ^ 2 * DD 2 j t h))); [intros; field|].
  apply bO_add; [apply (bO_le 3 2 _ ltac:(lia)), d2_3, Hj|apply bO_scal, DDh; [lia|exact Hj]].
Qed.
Lemma q2 i : (i < N)%nat -> bO 4 (fun t h => K2 i t h - Ah 1 i t h - mulv N (Jat (Ah 0)) (fun j t h => U2 j t h - Ah 0 j t h) i t h).
Proof. intros Hi. exact (stage U2 (Ah 0) (Ah 1) i 2 Hi close_Ah ltac:(lia) d2_2 (Ah_is i Hi)). Qed.
Lemma q2_3 i : (i < N)%nat -> bO 3 (fun t h => K2 i t h - Ah 1 i t h - h ^ 2 / 8 * W i t h).
Proof.
  intros Hi. assert (S := swap_J (Ah 0) (fun j t h => U2 j t h - Ah 0 j t h) (fun j t h => (h ^ 2 / 8) * DD 2 j t h + 0 * DD 2 j t h) i 2 3 Hi close_Ah ltac:(lia) d2_2).
  assert (D : forall j, (j < N)%nat -> bO 3 (fun t h => (U2 j t h - Ah 0 j t h) - ((h ^ 2 / 8) * DD 2 j t h + 0 * DD 2 j t h))).
  { intros j Hj. eapply bO_ext; [|exact (d2_3 j Hj)]. intros t h. cbv beta. ring. }
  eapply bO_ext; [|exact (bO_add 3 _ _ (bO_le 4 3 _ ltac:(lia) (q2 i Hi)) (S D))].
  intros t h. cbv beta. rewrite (mulv_lin N (Jat Z0) (fun _ h => h ^ 2 / 8) (fun _ _ => 0) (DD 2) (DD 2) i t h). unfold W. ring.
Qed.
Lemma s12 i : (i < N)%nat -> bO 4 (fun t h => K1 i t h + K2 i t h - 2 * Ah 1 i t h - (h ^ 3 / 48 * VV i t h - h ^ 3 / 16 * XX i t h)).
Proof.
  intros Hi. set (d := fun (j : nat) (t h : R) => 1 * (U1 j t h - Ah 0 j t h) + 1 * (U2 j t h - Ah 0 j t h)).
  assert (D4 : forall j, (j < N)%nat -> bO 4 (fun t h => d j t h - (h ^ 3 / 48 * DD 3 j t h + (- (h ^ 3 / 16)) * W j t h))).
  { intros j Hj. eapply bO_ext; [|exact (bO_add 4 _ _ (d1_4 j Hj) (d2_4 j Hj))]. intros t h. unfold d. field. }
  assert (D3 : forall j, (j < N)%nat -> bO 3 (d j)).
  { intros j Hj. apply (bO_ext 3 (fun t h => (d j t h - (h ^ 3 / 48 * DD 3 j t h + (- (h ^ 3 / 16)) * W j t h)) + (1 / 48 * (h ^ 3 * DD 3 j t h) - 1 / 16 * (h ^ 3 * W j t h)))); [intros; field|].
    apply bO_add; [apply (bO_le 4 3 _ ltac:(lia)), D4, Hj|apply bO_sub; apply bO_scal; [apply DDh; [lia|exact Hj]|apply Wh, Hj]]. }
  assert (S := swap_J (Ah 0) d _ i 3 4 Hi close_Ah ltac:(lia) D3 D4).
  eapply bO_ext; [|exact (bO_add 4 _ _ (bO_add 4 _ _ (q1 i Hi) (q2 i Hi)) S)]. intros t h. cbv beta. unfold d.
  rewrite (mulv_lin N (Jat (Ah 0)) (fun _ _ => 1) (fun _ _ => 1) (fun j t h => U1 j t h - Ah 0 j t h) (fun j t h => U2 j t h - Ah 0 j t h) i t h).
  rewrite (mulv_lin N (Jat Z0) (fun _ h => h ^ 3 / 48) (fun _ h => - (h ^ 3 / 16)) (DD 3) W i t h). unfold VV, XX. ring.
Qed.
Lemma d3_4 j : (j < N)%nat -> bO 4 (fun t h => (U3 j t h - At 0 j t h) - ((- (h ^ 3 / 24)) * DD 3 j t h + h ^ 3 / 8 * W j t h)).
Proof.
  intros Hj. apply (bO_ext 4 (fun t h => (h ^ 1 * (K2 j t h - Ah 1 j t h - h ^ 2 / 8 * W j t h) + h ^ 1 * (Ah 1 j t h - (DD 1 j t h + h / 2 * DD 2 j t h + h ^ 2 / 8 * DD 3 j t h)))
    - (At 0 j t h - (DD 0 j t h + h * DD 1 j t h + h ^ 2 / 2 * DD 2 j t h + h ^ 3 / 6 * DD 3 j t h)))); [intros; unfold U3, Z0, DD; field|].
  apply bO_sub; [apply bO_add; apply (bO_hk 1 3); [apply q2_3|apply th_1_3]; exact Hj|apply t1_0_4, Hj].
Qed.
Lemma d3_3 j : (j < N)%nat -> bO 3 (fun t h => U3 j t h - At 0 j t h).
Proof.
  intros Hj. apply (bO_ext 3 (fun t h => ((U3 j t h - At 0 j t h) - ((- (h ^ 3 / 24)) * DD 3 j t h + h ^ 3 / 8 * W j t h)) + (-1 / 24 * (h ^ 3 * DD 3 j t h) + 1 / 8 * (h ^ 3 * W j t h)))); [intros; field|].
  apply bO_add; [apply (bO_le 4 3 _ ltac:(lia)), d3_4, Hj|apply bO_add; apply bO_scal; [apply DDh; [lia|exact Hj]|apply Wh, Hj]].
Qed.
Lemma k3_4 i : (i < N)%nat -> bO 4 (fun t h => K3 i t h - At 1 i t h - ((- (h ^ 3 / 24)) * VV i t h + h ^ 3 / 8 * XX i t h)).
Proof.
  intros Hi. assert (Q := stage U3 (At 0) (At 1) i 3 Hi close_At ltac:(lia) d3_3 (At_is i Hi)).
  assert (S := swap_J (At 0) (fun j t h => U3 j t h - At 0 j t h) _ i 3 4 Hi close_At ltac:(lia) d3_3 d3_4).
  eapply bO_ext; [|exact (bO_add 4 _ _ (bO_le 6 4 _ ltac:(lia) Q) S)]. intros t h. cbv beta.
  rewrite (mulv_lin N (Jat Z0) (fun _ h => - (h ^ 3 / 24)) (fun _ h => h ^ 3 / 8) (DD 3) W i t h). unfold K3, VV, XX. ring.
Qed.
Theorem rk4_local i : (i < N)%nat -> bO 5 (fun t h => Step i t h - At 0 i t h).
Proof.
  intros Hi. apply (bO_ev 5 (fun t h => (DD 0 i t h + h / 6 * (DD 1 i t h + 4 * Ah 1 i t h + At 1 i t h) - At 0 i t h)
    + (1 / 3 * (h ^ 1 * (K1 i t h + K2 i t h - 2 * Ah 1 i t h - (h ^ 3 / 48 * VV i t h - h ^ 3 / 16 * XX i t h)))
     + 1 / 6 * (h ^ 1 * (K3 i t h - At 1 i t h - ((- (h ^ 3 / 24)) * VV i t h + h ^ 3 / 8 * XX i t h)))))).
  - eapply ev_imp; [|exact (K0_is i Hi)]. intros t h Ek. cbv beta. unfold Step. rewrite <- Ek. unfold Z0. unfold DD. field.
  - apply bO_add; [apply simpson, Hi|]. apply bO_add; apply bO_scal, (bO_hk 1 4); [apply s12|apply k3_4]; exact Hi.
Qed.
End Auto.
