(** C130: a solution of a system of programs that can leave a box through one face only: it exists until it gets there. *)
From Coq Require Import String Reals List ZArith Lra Lia Bool Classical.
From Coquelicot Require Import Coquelicot.
From Verif Require Import Base Calc DualModel DualSpec DualProofs DualDiff FantasyOrder ProgCont FantasyGlobal FantasyGlobal2 RKProg Picard PicardProg Contin.
Import ListNotations.
Open Scope R_scope.

(** a continuous function that starts above m and comes down to it has a first time there *)
Lemma first_hit (f : R -> R) m S t : (forall u, 0 <= u <= S -> continuous f u) -> m < f 0 -> 0 <= t <= S -> f t <= m ->
  exists s, 0 < s <= t /\ f s = m /\ forall u, 0 <= u < s -> m < f u.
Proof.
  intros Hc H0 Ht Hft.
  set (A := fun s => 0 <= s <= t /\ forall u, 0 <= u <= s -> m < f u).
  assert (A0 : A 0) by (split; [lra|]; intros u Hu; replace u with 0 by lra; exact H0).
  destruct (completeness A) as (s & Hub & Hlub).
  { exists t. intros x [Hx _]. lra. }
  { exists 0. exact A0. }
  assert (S0 : 0 <= s) by (apply Hub; exact A0). assert (S1 : s <= t) by (apply Hlub; intros x [Hx _]; lra).
  assert (Bel : forall u, 0 <= u < s -> m < f u).
  { intros u Hu. apply NNPP. intros Hn. assert (s <= u); [|lra]. apply Hlub. intros x [Hx Hxx]. apply Rnot_lt_le. intros Hux. apply Hn, Hxx. lra. }
  assert (Near : f s <> m -> exists d, 0 < d /\ forall u, Rabs (u - s) < d -> Rabs (f u - f s) < Rabs (f s - m)).
  { intros Hn. assert (P : 0 < Rabs (f s - m)) by (apply Rabs_pos_lt; lra). assert (C := Hc s ltac:(lra)).
    assert (L := proj1 (filterlim_locally f (f s)) C (mkposreal _ P)). destruct L as [d Hd]. exists d. split; [apply cond_pos|]. intros u Hu. exact (Hd u Hu). }
  assert (E : f s = m).
  { apply NNPP. intros Hn. destruct (Near Hn) as (d & Hd & Hnr). destruct (Rtotal_order (f s) m) as [Lt|[Eq|Gt]]; [|lra|].
    - destruct (Rle_lt_or_eq_dec 0 s S0) as [Ps|Zs]; [|subst s; lra].
      set (u := s - Rmin (d / 2) (s / 2)). assert (M1 := Rmin_l (d / 2) (s / 2)). assert (M2 := Rmin_r (d / 2) (s / 2)). assert (M3 : 0 < Rmin (d / 2) (s / 2)) by (apply Rmin_pos; lra).
      assert (B := Bel u ltac:(unfold u; lra)). assert (N := Hnr u ltac:(unfold u; rewrite Rabs_left; lra)). rewrite (Rabs_left (f s - m)) in N by lra. apply Rabs_def2 in N. lra.
    - assert (st : s < t) by (destruct (Rle_lt_or_eq_dec s t S1) as [L|L]; [exact L|subst s; lra]).
      set (v := Rmin (s + d / 2) t). assert (V1 := Rmin_l (s + d / 2) t). assert (V2 := Rmin_r (s + d / 2) t). assert (V3 : s < v) by (unfold v; apply Rmin_glb_lt; lra). fold v in V1, V2.
      assert (A v); [|assert (v <= s) by (apply Hub; assumption); lra]. split; [lra|]. intros u Hu. destruct (Rlt_le_dec u s) as [L|L]; [apply Bel; lra|].
      assert (N := Hnr u ltac:(rewrite Rabs_right; lra)). rewrite (Rabs_right (f s - m)) in N by lra. apply Rabs_def2 in N. lra. }
  exists s. split; [|split; [exact E|exact Bel]]. split; [|exact S1]. destruct (Rle_lt_or_eq_dec 0 s S0) as [Ps|Zs]; [exact Ps|subst s; lra].
Qed.

Lemma solves_sub N es z0 S S' y : S' <= S -> solves_to N es z0 S y -> solves_to N es z0 S' y.
Proof. intros H [E HF]. split; [exact E|]. intros t Ht. apply HF. lra. Qed.
(** Coordinate k starts above m. As long as it stays above, the solution stays in the box: then it exists on [0, T], or until coordinate k reaches m. *)
Theorem leaves N es z0 lo hi T k m : (k < N)%nat -> (forall i, (i < N)%nat -> below N (es i) = true) -> 0 <= T -> m < z0 k ->
  (forall i, (i < N)%nat -> defined_at z0 (es i)) ->
  (forall z, in_box N lo hi z -> forall i, (i < N)%nat -> defined_at z (es i)) ->
  (forall S y, 0 <= S <= T -> solves_to N es z0 S y -> (forall t, 0 <= t <= S -> m < y t k) -> in_box N lo hi (y S)) ->
  (exists y, solves_to N es z0 T y /\ forall t, 0 <= t <= T -> m < y t k) \/
  (exists S y, 0 < S <= T /\ solves_to N es z0 S y /\ (forall t, 0 <= t < S -> m < y t k) /\ y S k = m).
Proof.
  intros Hk Hb HT Hm Hd0 Hd Htrap.
  assert (Start : exists y, solves_to N es z0 0 y /\ forall t, 0 <= t <= 0 -> m < y t k).
  { destruct (local_time N es z0 Hb Hd0) as (r & d & Hr & Pd & H). destruct (H z0) as (y & E & HF). { intros i Hi. rewrite Rminus_eq_0, Rabs_R0. exact Hr. }
    exists y. split; [split; [exact E|]|].
    - intros t Ht. assert (t = 0) as -> by lra. exists (mkposreal _ Pd). intros u Hu. apply HF. unfold ball in Hu; cbn in Hu. unfold AbsRing_ball, abs, minus, plus, opp in Hu; cbn in Hu. change (Rabs (u - 0) < d) in Hu. rewrite Rminus_0_r in Hu. exact Hu.
    - intros t Ht. assert (t = 0) as -> by lra. rewrite E by exact Hk. exact Hm. }
  assert (B0 : in_box N lo hi z0). { destruct Start as (y & Hy & Ha). assert (B := Htrap 0 y ltac:(lra) Hy Ha). intros i Hi. rewrite <- (proj1 Hy i Hi). apply B. exact Hi. }
  destruct (uniform_box N lo hi (lasts N es)) as (d & Pd & HV).
  - intros i Hi. assert (A := B0 i Hi). lra.
  - intros d d' z Hdd (y & E & H). exists y. split; [exact E|]. intros t Ht. apply H. lra.
  - intros z z' d E (y & E' & H). exists y. split; [intros i Hi; rewrite <- E by exact Hi; apply E'; exact Hi|exact H].
  - intros z Hz. apply local_time; [exact Hb|]. intros i Hi. apply Hd; assumption.
  - set (Out := exists S y, 0 < S <= T /\ solves_to N es z0 S y /\ (forall t, 0 <= t < S -> m < y t k) /\ y S k = m).
    assert (Q : forall n, (exists y, solves_to N es z0 (Rmin T (INR n * (d / 2))) y /\ forall t, 0 <= t <= Rmin T (INR n * (d / 2)) -> m < y t k) \/ Out).
    { induction n as [|n [(y & Hy & Ha)|HO]].
      - left. cbn [INR]. rewrite Rmult_0_l, Rmin_right by exact HT. exact Start.
      - set (S := Rmin T (INR n * (d / 2))) in *. assert (P : 0 <= INR n * (d / 2)) by (apply Rmult_le_pos; [apply pos_INR|lra]). assert (SB : 0 <= S <= T) by (split; [apply Rmin_glb; assumption|apply Rmin_l]).
        destruct (extend N es z0 S d y Hb (proj1 SB) Hy Pd (HV _ (Htrap S y SB Hy Ha))) as (y' & Hy').
        set (S' := Rmin T (INR (Datatypes.S n) * (d / 2))). assert (S0 : 0 <= S') by (apply Rmin_glb; [exact HT|apply Rmult_le_pos; [apply pos_INR|lra]]). assert (ST : S' <= T) by apply Rmin_l.
        assert (SS : S' <= S + d / 2).
        { unfold S', S. rewrite S_INR. replace ((INR n + 1) * (d / 2)) with (INR n * (d / 2) + d / 2) by ring. unfold Rmin. destruct (Rle_dec T (INR n * (d / 2) + d / 2)), (Rle_dec T (INR n * (d / 2))); lra. }
        assert (H1 := solves_sub _ _ _ _ _ _ SS Hy').
        destruct (classic (forall t, 0 <= t <= S' -> m < y' t k)) as [All|Some].
        + left. exists y'. split; assumption.
        + right. apply not_all_ex_not in Some as (t & Ht). apply imply_to_and in Ht as (Ht & Hle).
          assert (C : forall u, 0 <= u <= S' -> continuous (fun v => y' v k) u). { intros u Hu. destruct H1 as [_ HF]. destruct (locally_singleton _ _ (HF u Hu) k Hk) as [_ D]. eapply D_continuous. exact D. }
          destruct (first_hit (fun v => y' v k) m S' t C) as (s & Hs & Es & Hbef); [cbv beta; rewrite (proj1 H1 k Hk); exact Hm|exact Ht|lra|].
          exists s, y'. split; [lra|]. split; [apply (solves_sub _ _ _ S'); [lra|exact H1]|]. split; assumption.
      - right. exact HO. }
    destruct (archimed_nat (T / (d / 2))) as [n Hn]. destruct (Q n) as [(y & Hy)|HO]; [left|right; exact HO]. rewrite Rmin_left in Hy; [exists y; exact Hy|].
    apply Rlt_le in Hn. apply (Rmult_le_compat_r (d / 2)) in Hn; [|lra]. unfold Rdiv at 1 in Hn. rewrite Rmult_assoc, Rinv_l in Hn by lra. lra.
Qed.
