(** Formal power series in three non-commuting letters, as coefficient functions on words: the algebra behind the order of a
    composition of flows. *)
From Coq Require Import Reals List ZArith Lra Lia Bool.
From Verif Require Import Base DualDiff.
Import ListNotations.
Open Scope R_scope.

Inductive gen := GA | GB | GC.
Definition gen_eqb (x y : gen) : bool := match x, y with GA, GA | GB, GB | GC, GC => true | _, _ => false end.
Lemma gen_eqb_spec x y : reflect (x = y) (gen_eqb x y).
Proof. destruct x, y; constructor; congruence. Qed.
Definition gsum (f : gen -> R) : R := f GA + f GB + f GC.
Notation word := (list gen).

(** sum over the words of length k, and of length at most n *)
Fixpoint hsum (k : nat) (G : word -> R) : R := match k with O => G [] | S k => gsum (fun X => hsum k (fun w => G (X :: w))) end.
Fixpoint wsum (n : nat) (G : word -> R) : R := match n with O => G [] | S n => G [] + gsum (fun X => wsum n (fun w => G (X :: w))) end.

Lemma hsum_ext k : forall G H, (forall w, length w = k -> G w = H w) -> hsum k G = hsum k H.
Proof. induction k as [|k IH]; intros G H E; cbn [hsum]; [apply E; reflexivity|]. unfold gsum. rewrite (IH (fun w => G (GA :: w)) (fun w => H (GA :: w))), (IH (fun w => G (GB :: w)) (fun w => H (GB :: w))), (IH (fun w => G (GC :: w)) (fun w => H (GC :: w))) by (intros; apply E; cbn; congruence). reflexivity. Qed.
Lemma wsum_ext n : forall G H, (forall w, (length w <= n)%nat -> G w = H w) -> wsum n G = wsum n H.
Proof.
  induction n as [|n IH]; intros G H E; cbn [wsum]; [apply E; cbn; lia|]. unfold gsum.
  rewrite (IH (fun w => G (GA :: w)) (fun w => H (GA :: w))), (IH (fun w => G (GB :: w)) (fun w => H (GB :: w))), (IH (fun w => G (GC :: w)) (fun w => H (GC :: w))) by (intros; apply E; cbn; lia).
  rewrite (E []) by (cbn; lia). reflexivity.
Qed.
Lemma wsum_plus n : forall G H, wsum n (fun w => G w + H w) = wsum n G + wsum n H.
Proof. induction n as [|n IH]; intros; cbn [wsum]; [reflexivity|]. unfold gsum. rewrite !IH. ring. Qed.
Lemma wsum_scal n k : forall G, wsum n (fun w => k * G w) = k * wsum n G.
Proof. induction n as [|n IH]; intros; cbn [wsum]; [reflexivity|]. unfold gsum. rewrite !IH. ring. Qed.
Lemma wsum_0 n : wsum n (fun _ => 0) = 0.
Proof. rewrite (wsum_ext n _ (fun w => 0 * 0)) by (intros; ring). rewrite wsum_scal. ring. Qed.
Lemma wsum_Rabs n : forall G H, (forall w, (length w <= n)%nat -> Rabs (G w) <= H w) -> Rabs (wsum n G) <= wsum n H.
Proof.
  induction n as [|n IH]; intros G H E; cbn [wsum]; [apply E; cbn; lia|]. unfold gsum.
  assert (E0 := E [] ltac:(cbn; lia)).
  assert (EA := IH (fun w => G (GA :: w)) (fun w => H (GA :: w)) ltac:(intros; apply E; cbn; lia)).
  assert (EB := IH (fun w => G (GB :: w)) (fun w => H (GB :: w)) ltac:(intros; apply E; cbn; lia)).
  assert (EC := IH (fun w => G (GC :: w)) (fun w => H (GC :: w)) ltac:(intros; apply E; cbn; lia)).
  set (a := wsum n (fun w => G (GA :: w))) in *. set (b := wsum n (fun w => G (GB :: w))) in *. set (c := wsum n (fun w => G (GC :: w))) in *.
  eapply Rle_trans; [apply Rabs_triang|]. apply Rplus_le_compat; [exact E0|]. eapply Rle_trans; [apply Rabs_triang|]. apply Rplus_le_compat; [|exact EC].
  eapply Rle_trans; [apply Rabs_triang|]. apply Rplus_le_compat; assumption.
Qed.
Lemma wsum_nonneg n : forall G, (forall w, (length w <= n)%nat -> 0 <= G w) -> 0 <= wsum n G.
Proof. intros G H. eapply Rle_trans; [apply Rabs_pos|]. apply (wsum_Rabs n (fun _ => 0)). intros w Hw. rewrite Rabs_R0. apply H; exact Hw. Qed.
(** the words of length at most n are those of length 0, 1, ..., n *)
Lemma wsum_hsum n : forall G, wsum n G = rsum (S n) (fun k => hsum k G).
Proof.
  induction n as [|n IH]; intros G; [cbn; ring|].
  assert (E : forall m (F : nat -> R), rsum (S m) F = F 0%nat + rsum m (fun k => F (S k))).
  { induction m as [|m IHm]; intros F; [cbn; ring|]. change (rsum (S (S m)) F) with (rsum (S m) F + F (S m)). rewrite IHm. cbn [rsum]. ring. }
  rewrite E. cbn [wsum]. unfold gsum. rewrite !IH.
  change (hsum 0 G) with (G []). rewrite <- !rsum_plus. reflexivity.
Qed.

(** coefficient of a word in  (sum_k h_k X^k) c *)
Fixpoint dcoef (X : gen) (h : nat -> R) (c : word -> R) (w : word) : R :=
  h 0%nat * c w + match w with [] => 0 | Y :: w' => if gen_eqb Y X then dcoef X (fun k => h (S k)) c w' else 0 end.
(** coefficient of a word in exp(a_1 X_1) exp(a_2 X_2) ... *)
Definition expc (a : R) (k : nat) : R := a ^ k / INR (fact k).
Fixpoint coef (l : list (gen * R)) (w : word) : R :=
  match l with [] => match w with [] => 1 | _ => 0 end | (X, a) :: l => dcoef X (expc a) (coef l) w end.

Fixpoint rep (k : nat) (X : gen) (w : word) : word := match k with O => w | S k => X :: rep k X w end.
(** regrouping: words X^k w with weight h_k c(w) *)
Lemma dcoef_sum X n : forall h c G,
  wsum n (fun w => dcoef X h c w * G w) = rsum (S n) (fun k => h k * wsum (n - k) (fun w => c w * G (rep k X w))).
Proof.
  induction n as [|n IH]; intros h c G.
  - cbn. ring.
  - assert (E : forall m (F : nat -> R), rsum (S m) F = F 0%nat + rsum m (fun k => F (S k))).
    { induction m as [|m IHm]; intros F; [cbn; ring|]. change (rsum (S (S m)) F) with (rsum (S m) F + F (S m)). rewrite IHm. cbn [rsum]. ring. }
    rewrite E. cbn [rep Nat.sub].
    transitivity (h 0%nat * wsum (S n) (fun w => c w * G w) + wsum n (fun w => dcoef X (fun k => h (S k)) c w * G (X :: w))).
    + cbn [wsum]. unfold gsum.
      assert (S1 : forall Y, wsum n (fun w => dcoef X h c (Y :: w) * G (Y :: w)) = h 0%nat * wsum n (fun w => c (Y :: w) * G (Y :: w)) + (if gen_eqb Y X then wsum n (fun w => dcoef X (fun k => h (S k)) c w * G (Y :: w)) else 0)).
      { intros Y. rewrite <- wsum_scal. destruct (gen_eqb Y X) eqn:EY.
        - rewrite <- wsum_plus. apply wsum_ext. intros w _. cbn [dcoef]. rewrite EY. ring.
        - rewrite Rplus_0_r. apply wsum_ext. intros w _. cbn [dcoef]. rewrite EY. ring. }
      rewrite !S1. cbn [dcoef]. destruct X; cbn [gen_eqb]; ring.
    + f_equal. rewrite IH. apply rsum_ext. intros k Hk. reflexivity.
Qed.

(** product of two series *)
Fixpoint conv (c1 c2 : word -> R) (w : word) : R :=
  c1 [] * c2 w + match w with [] => 0 | Y :: w' => conv (fun v => c1 (Y :: v)) c2 w' end.
Lemma conv_ext w : forall c1 c2 d1 d2, (forall v, (length v <= length w)%nat -> c1 v = d1 v) -> (forall v, (length v <= length w)%nat -> c2 v = d2 v) -> conv c1 c2 w = conv d1 d2 w.
Proof.
  induction w as [|Y w IH]; intros c1 c2 d1 d2 H1 H2; cbn [conv].
  - rewrite H1, H2 by (cbn; lia). reflexivity.
  - rewrite (H1 []), (H2 (Y :: w)) by (cbn; lia). f_equal. apply IH; intros v Hv; [apply H1|apply H2]; cbn; lia.
Qed.
Lemma conv_lin w : forall k a b c2, conv (fun v => k * a v + b v) c2 w = k * conv a c2 w + conv b c2 w.
Proof. induction w as [|Y w IH]; intros; cbn [conv]; [ring|]. rewrite (IH k (fun v => a (Y :: v)) (fun v => b (Y :: v))). ring. Qed.
Lemma conv_zero w : forall c2, conv (fun _ => 0) c2 w = 0.
Proof. induction w as [|Y w IH]; intros; cbn [conv]; [ring|]. rewrite IH. ring. Qed.
Lemma dcoef_conv X w : forall h c1 c2, dcoef X h (conv c1 c2) w = conv (dcoef X h c1) c2 w.
Proof.
  induction w as [|Y w IH]; intros h c1 c2; cbn [dcoef conv]; [ring|].
  destruct (gen_eqb Y X) eqn:EY.
  - rewrite (conv_lin w (h 0%nat) (fun v => c1 (Y :: v)) (dcoef X (fun k => h (S k)) c1) c2). rewrite <- IH. ring.
  - assert (L : conv (fun v => h 0%nat * c1 (Y :: v) + 0) c2 w = h 0%nat * conv (fun v => c1 (Y :: v)) c2 w + conv (fun _ => 0) c2 w)
      by exact (conv_lin w (h 0%nat) (fun v => c1 (Y :: v)) (fun _ => 0) c2).
    rewrite L, conv_zero. ring.
Qed.
Lemma dcoef_ext X w : forall h c d, (forall v, c v = d v) -> dcoef X h c w = dcoef X h d w.
Proof. induction w as [|Y w IH]; intros h c d E; cbn [dcoef]; rewrite E; [reflexivity|]. destruct (gen_eqb Y X); [|reflexivity]. rewrite (IH _ c d E). reflexivity. Qed.
Lemma conv_one w : forall c2, conv (fun v => match v with [] => 1 | _ => 0 end) c2 w = c2 w.
Proof. destruct w; intros; cbn [conv]; [ring|]. rewrite conv_zero. ring. Qed.
Lemma coef_app l1 l2 w : coef (l1 ++ l2) w = conv (coef l1) (coef l2) w.
Proof.
  revert w. induction l1 as [|[X a] l1 IH]; intros w; cbn [app coef].
  - symmetry. exact (conv_one w (coef l2)).
  - rewrite (dcoef_ext X w _ _ _ IH). apply dcoef_conv.
Qed.
(** homogeneity *)
Lemma coef_scale z l : forall w, coef (map (fun p => (fst p, z * snd p)) l) w = z ^ length w * coef l w.
Proof.
  induction l as [|[X a] l IH]; intros w; cbn [map coef fst snd].
  - destruct w; cbn [length pow]; ring.
  - assert (K : forall w m h, (forall k, h k = z ^ (m + k) * expc a (m + k)) ->
      dcoef X h (coef (map (fun p => (fst p, z * snd p)) l)) w = z ^ (m + length w) * dcoef X (fun k => expc a (m + k)) (coef l) w).
    { clear w. induction w as [|Y w IHw]; intros m h Hh; cbn [dcoef]; rewrite IH, Hh, Nat.add_0_r.
      - cbn [length]. rewrite Nat.add_0_r. cbn [pow]. ring.
      - destruct (gen_eqb Y X).
        + rewrite (IHw (S m) (fun k => h (S k))).
          * cbn [length]. rewrite (pow_add z m (S (length w))). replace (S m + length w)%nat with (m + S (length w))%nat by lia. rewrite pow_add.
            rewrite Rmult_plus_distr_l. f_equal; [ring|]. f_equal. assert (Q : forall w h h', (forall k, h k = h' k) -> dcoef X h (coef l) w = dcoef X h' (coef l) w).
            { clear. induction w as [|Y w IH]; intros h h' E; cbn [dcoef]; rewrite E; [reflexivity|]. destruct (gen_eqb Y X); [|reflexivity]. rewrite (IH _ (fun k => h' (S k))); auto. }
            apply Q. intros k. f_equal. lia.
          * intros k. rewrite Hh. f_equal; f_equal; lia.
        + rewrite pow_add. ring. }
    rewrite (K w 0%nat); [reflexivity|]. intros k. unfold expc. cbn [Nat.add]. rewrite Rpow_mult_distr. unfold Rdiv. ring.
Qed.
