From Coq Require Import Reals List ZArith Lra Lia Bool.
From Coquelicot Require Import Coquelicot.
From Verif Require Import Base Calc GeoUtilsModel GeoUtilsProofs CoordModel CoordProofs2 ConvModel ConvProofs MetricModel MetricSpec.
Import ListNotations.
Open Scope R_scope.

Lemma mnth_tab {A} (f : nat -> nat -> A) i j : (i < 4)%nat -> (j < 4)%nat -> mnth (mtab f) i j = f i j.
Proof.
  intros Hi Hj. unfold mnth, mtab, q4tab.
  destruct i as [|[|[|[|i]]]]; [..|lia]; (destruct j as [|[|[|[|j]]]]; [..|lia]); reflexivity.
Qed.

Ltac idx4 i H := destruct i as [|[|[|[|i]]]]; [..|exfalso; lia].

(** ** np.linalg.inv *)
Lemma M4_eq (a b : M4) : (forall i j, (i < 4)%nat -> (j < 4)%nat -> mnth a i j = mnth b i j) -> a = b.
Proof.
  intros H. destruct a as [[a00 a01 a02 a03] [a10 a11 a12 a13] [a20 a21 a22 a23] [a30 a31 a32 a33]],
    b as [[b00 b01 b02 b03] [b10 b11 b12 b13] [b20 b21 b22 b23] [b30 b31 b32 b33]].
  assert (E := fun i j => H i j). unfold mnth in E.
  f_equal; f_equal;
  [exact (E 0%nat 0%nat ltac:(lia) ltac:(lia))|exact (E 0%nat 1%nat ltac:(lia) ltac:(lia))|exact (E 0%nat 2%nat ltac:(lia) ltac:(lia))|exact (E 0%nat 3%nat ltac:(lia) ltac:(lia))
  |exact (E 1%nat 0%nat ltac:(lia) ltac:(lia))|exact (E 1%nat 1%nat ltac:(lia) ltac:(lia))|exact (E 1%nat 2%nat ltac:(lia) ltac:(lia))|exact (E 1%nat 3%nat ltac:(lia) ltac:(lia))
  |exact (E 2%nat 0%nat ltac:(lia) ltac:(lia))|exact (E 2%nat 1%nat ltac:(lia) ltac:(lia))|exact (E 2%nat 2%nat ltac:(lia) ltac:(lia))|exact (E 2%nat 3%nat ltac:(lia) ltac:(lia))
  |exact (E 3%nat 0%nat ltac:(lia) ltac:(lia))|exact (E 3%nat 1%nat ltac:(lia) ltac:(lia))|exact (E 3%nat 2%nat ltac:(lia) ltac:(lia))|exact (E 3%nat 3%nat ltac:(lia) ltac:(lia))].
Qed.

Lemma mm_entry (a b : M4) i j : (i < 4)%nat -> (j < 4)%nat -> mnth (mm a b) i j = sum4 (fun k => mnth a i k * mnth b k j).
Proof.
  intros Hi Hj. unfold sum4.
  idx4 i Hi; (idx4 j Hj); cbv [mm mv transpose mtab q4tab q4map dot mnth q4nth c0 c1 c2 c3]; ring.
Qed.

Lemma adj4_right m i j : (i < 4)%nat -> (j < 4)%nat ->
  sum4 (fun k => mnth m i k * mnth (adj4 m) k j) = if Nat.eqb i j then det4 m else 0.
Proof.
  intros Hi Hj. destruct m as [[a00 a01 a02 a03] [a10 a11 a12 a13] [a20 a21 a22 a23] [a30 a31 a32 a33]].
  idx4 i Hi; (idx4 j Hj);
  cbv [sum4 mnth q4nth adj4 mtab q4tab det4 minor4 skip sgn4 Nat.eqb Nat.ltb Nat.leb Nat.even Nat.add c0 c1 c2 c3]; ring.
Qed.
Lemma adj4_left m i j : (i < 4)%nat -> (j < 4)%nat ->
  sum4 (fun k => mnth (adj4 m) i k * mnth m k j) = if Nat.eqb i j then det4 m else 0.
Proof.
  intros Hi Hj. destruct m as [[a00 a01 a02 a03] [a10 a11 a12 a13] [a20 a21 a22 a23] [a30 a31 a32 a33]].
  idx4 i Hi; (idx4 j Hj);
  cbv [sum4 mnth q4nth adj4 mtab q4tab det4 minor4 skip sgn4 Nat.eqb Nat.ltb Nat.leb Nat.even Nat.add c0 c1 c2 c3]; ring.
Qed.

Lemma np_inv_ok m gi : np_inv m = Ok gi -> is_inverse m gi.
Proof.
  unfold np_inv. destruct (Req_EM_T (det4 m) 0) as [|Hd]; [discriminate|]. intros H; apply Ok_inj in H; subst gi.
  split; apply M4_eq; intros i j Hi Hj; rewrite mm_entry by assumption; unfold id4; rewrite mnth_tab by assumption.
  - assert (E := adj4_right m i j Hi Hj). unfold sum4 in *.
    rewrite !(mnth_tab (fun i j => mnth (adj4 m) i j / det4 m)) by (assumption || lia).
    transitivity ((mnth m i 0 * mnth (adj4 m) 0 j + mnth m i 1 * mnth (adj4 m) 1 j + mnth m i 2 * mnth (adj4 m) 2 j
      + mnth m i 3 * mnth (adj4 m) 3 j) / det4 m); [field; exact Hd|]. rewrite E. destruct (Nat.eqb i j); field; exact Hd.
  - assert (E := adj4_left m i j Hi Hj). unfold sum4 in *.
    rewrite !(mnth_tab (fun i j => mnth (adj4 m) i j / det4 m)) by (assumption || lia).
    transitivity ((mnth (adj4 m) i 0 * mnth m 0 j + mnth (adj4 m) i 1 * mnth m 1 j + mnth (adj4 m) i 2 * mnth m 2 j
      + mnth (adj4 m) i 3 * mnth m 3 j) / det4 m); [field; exact Hd|]. rewrite E. destruct (Nat.eqb i j); field; exact Hd.
Qed.
Lemma np_inv_defined m : det4 m <> 0 -> exists gi, np_inv m = Ok gi.
Proof. intros H. unfold np_inv. destruct (Req_EM_T (det4 m) 0); [contradiction|eauto]. Qed.
(** the inverse is unique, and np.linalg.inv raises exactly when there is none *)
Lemma inverse_unique m a b : is_inverse m a -> is_inverse m b -> a = b.
Proof.
  intros [A1 A2] [B1 B2].
  assert (assoc : forall p q r, mm (mm p q) r = mm p (mm q r)).
  { intros. apply M4_eq; intros i j Hi Hj. rewrite !mm_entry by assumption. unfold sum4. rewrite !mm_entry by (assumption || lia).
    unfold sum4. ring. }
  assert (idl : forall p, mm id4 p = p).
  { intros. apply M4_eq; intros i j Hi Hj. rewrite !mm_entry by assumption. unfold sum4, id4. rewrite !mnth_tab by (assumption || lia).
    idx4 i Hi; cbn [Nat.eqb]; ring. }
  assert (idr : forall p, mm p id4 = p).
  { intros. apply M4_eq; intros i j Hi Hj. rewrite !mm_entry by assumption. unfold sum4, id4. rewrite !mnth_tab by (assumption || lia).
    idx4 j Hj; cbn [Nat.eqb]; ring. }
  rewrite <- (idr a), <- B1, <- assoc, A2. apply idl.
Qed.
Lemma det4_mm a b : det4 (mm a b) = det4 a * det4 b.
Proof.
  destruct a as [[a00 a01 a02 a03] [a10 a11 a12 a13] [a20 a21 a22 a23] [a30 a31 a32 a33]],
    b as [[b00 b01 b02 b03] [b10 b11 b12 b13] [b20 b21 b22 b23] [b30 b31 b32 b33]].
  cbv [mm mv transpose mtab q4tab q4map dot mnth q4nth det4 minor4 skip Nat.ltb Nat.leb c0 c1 c2 c3]. ring.
Qed.
Lemma np_inv_fails_iff m : np_inv m = Err LinAlgError <-> ~ exists gi, is_inverse m gi.
Proof.
  unfold np_inv. destruct (Req_EM_T (det4 m) 0) as [H|H].
  - split; [intros _ [gi [A _]]|reflexivity].
    assert (E := det4_mm m gi). rewrite A, H in E. revert E.
    cbv [id4 mtab q4tab mnth q4nth det4 minor4 skip Nat.ltb Nat.leb Nat.eqb c0 c1 c2 c3]. lra.
  - split; [discriminate|]. intros N. exfalso. apply N. destruct (np_inv_defined m H) as [gi E]. exists gi.
    apply np_inv_ok. exact E.
Qed.

Lemma sum4_ext f g : (forall k, (k < 4)%nat -> f k = g k) -> sum4 f = sum4 g.
Proof. intros H. unfold sum4. rewrite !H by lia. reflexivity. Qed.

(** ** Lowering the connection, and conservation of the norm *)
Lemma lower_connection g gi dg i k l : is_inverse g gi -> (i < 4)%nat -> (k < 4)%nat -> (l < 4)%nat ->
  sum4 (fun j => mnth g i j * levi_civita gi dg j k l) = / 2 * (dg l i k + dg k i l - dg i k l).
Proof.
  intros [H _] Hi Hk Hl.
  set (S := fun m => dg l m k + dg k m l - dg m k l).
  assert (E : forall m, (m < 4)%nat -> sum4 (fun j => mnth g i j * mnth gi j m) = if Nat.eqb i m then 1 else 0).
  { intros m Hm. rewrite <- mm_entry by assumption. rewrite H. unfold id4. apply mnth_tab; assumption. }
  unfold levi_civita. fold (S i).
  transitivity (/ 2 * sum4 (fun m => sum4 (fun j => mnth g i j * mnth gi j m) * S m)).
  - unfold sum4, S. ring.
  - f_equal. unfold sum4 at 1. rewrite !E by lia. idx4 i Hi; cbn [Nat.eqb]; ring.
Qed.

(** the rate of change of g(v,v) when dg is the gradient and the acceleration uses the connection built from dg' *)
Definition norm_rate (g : M4) (dg : arr3) (v a : V4) : R :=
  sum4 (fun i => sum4 (fun j => sum4 (fun k => dg k i j * q4nth v k) * q4nth v i * q4nth v j
        + mnth g i j * q4nth a i * q4nth v j + mnth g i j * q4nth v i * q4nth a j)).

Lemma norm_rate_geodesic g gi dg dg' v : is_inverse g gi ->
  (forall i j, (i < 4)%nat -> (j < 4)%nat -> mnth g i j = mnth g j i) ->
  norm_rate g dg v (geodesic_accel (levi_civita gi dg') v)
  = sum4 (fun k => sum4 (fun i => sum4 (fun j => (dg k i j - dg' k i j) * q4nth v k * q4nth v i * q4nth v j))).
Proof.
  intros HI HS. set (a := geodesic_accel (levi_civita gi dg') v).
  assert (A : forall j, (j < 4)%nat -> q4nth a j = - sum4 (fun k => sum4 (fun l => levi_civita gi dg' j k l * q4nth v k * q4nth v l))).
  { intros j Hj. unfold a, geodesic_accel. idx4 j Hj; reflexivity. }
  assert (L : forall i, (i < 4)%nat -> sum4 (fun j => mnth g i j * q4nth a j)
     = - sum4 (fun k => sum4 (fun l => / 2 * (dg' l i k + dg' k i l - dg' i k l) * q4nth v k * q4nth v l))).
  { intros i Hi. transitivity (- sum4 (fun k => sum4 (fun l => sum4 (fun j => mnth g i j * levi_civita gi dg' j k l) * q4nth v k * q4nth v l))).
    - unfold sum4 at 1. rewrite !A by lia. generalize (levi_civita gi dg'); intros ch. unfold sum4. ring.
    - f_equal. apply sum4_ext; intros k Hk. apply sum4_ext; intros l Hl. rewrite lower_connection by assumption. reflexivity. }
  assert (N : norm_rate g dg v a = sum4 (fun i => sum4 (fun j => sum4 (fun k => dg k i j * q4nth v k) * q4nth v i * q4nth v j))
      + 2 * sum4 (fun i => q4nth v i * sum4 (fun j => mnth g i j * q4nth a j))).
  { unfold norm_rate. clear L A. clearbody a.
    assert (S10 := HS 1%nat 0%nat ltac:(lia) ltac:(lia)). assert (S20 := HS 2%nat 0%nat ltac:(lia) ltac:(lia)). assert (S30 := HS 3%nat 0%nat ltac:(lia) ltac:(lia)).
    assert (S21 := HS 2%nat 1%nat ltac:(lia) ltac:(lia)). assert (S31 := HS 3%nat 1%nat ltac:(lia) ltac:(lia)). assert (S32 := HS 3%nat 2%nat ltac:(lia) ltac:(lia)).
    unfold sum4. rewrite S10, S20, S30, S21, S31, S32. ring. }
  rewrite N. transitivity (sum4 (fun i => sum4 (fun j => sum4 (fun k => dg k i j * q4nth v k) * q4nth v i * q4nth v j))
    + 2 * sum4 (fun i => q4nth v i * - sum4 (fun k => sum4 (fun l => / 2 * (dg' l i k + dg' k i l - dg' i k l) * q4nth v k * q4nth v l)))).
  - f_equal. f_equal. apply sum4_ext; intros i Hi. rewrite L by exact Hi. reflexivity.
  - clear. unfold sum4. field.
Qed.
