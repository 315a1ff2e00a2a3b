(** Global convergence of RK4naive on a fixed interval, with order four. *)
From Coq Require Import Reals List ZArith Lra Lia Bool.
From Coquelicot Require Import Coquelicot.
From Verif Require Import Base Calc DualDiff ProgCont RKModel RKProofs FantasyGlobal FantasyGlobal2 FantasyGlobal3 RKOrder RKOrder2 RKGlobal.
Open Scope R_scope.

(** ---- a smooth right-hand side is bounded and Lipschitz near the point ---- *)
Lemma l1_sup n z z' eps : (forall j, (j < n)%nat -> Rabs (z' j - z j) <= eps) -> l1 n z z' <= INR n * eps.
Proof. intros H. unfold l1. eapply Rle_trans; [apply Rle_abs|]. apply rsum_Rabs. intros k Hk. rewrite Rabs_Rabsolu. apply H, Hk. Qed.
Lemma rhs_lip n f t0 y0 : reads n f -> smooth_rhs n f t0 y0 ->
  exists r K A, 0 < r /\ 0 <= K /\ 0 <= A /\
  (forall t y i, in_box n r t0 y0 t y -> (i < n)%nat -> Rabs (f t y i) <= A) /\
  forall t y y', in_box n r t0 y0 t y -> in_box n r t0 y0 t y' -> forall eps, (forall j, (j < n)%nat -> Rabs (y j - y' j) <= eps) -> forall i, (i < n)%nat -> Rabs (f t y i - f t y' i) <= K * eps.
Proof.
  intros Hf Hs. destruct (smooth_ok n f t0 y0 Hf Hs) as (ft & fy & r1 & L & [Hr1 HL HQ HJ]).
  set (r := Rmin r1 (1 / 2)). assert (Hr : 0 < r) by (apply Rmin_pos; lra). assert (R1 : r <= r1) by apply Rmin_l. assert (R2 : r <= 1 / 2) by apply Rmin_r. clearbody r.
  (* bound of the Jacobian *)
  set (c := point t0 y0). set (M0 := rsum (S n) (fun i => rsum (S n) (fun j => Rabs (ext_jac ft fy i j c)))).
  assert (HM0 : 0 <= M0) by (apply rsum_nonneg; intros; apply rsum_nonneg; intros; apply Rabs_pos).
  assert (pick : forall m (g : nat -> R) k, (forall i, 0 <= g i) -> (k < m)%nat -> g k <= rsum m g).
  { induction m as [|m IH]; intros g k Hg Hk; [lia|]. cbn [rsum]. destruct (Nat.eq_dec k m) as [-> |]; [assert (P := rsum_nonneg m g Hg); lra|]. assert (P := Hg m). assert (Q := IH g k Hg ltac:(lia)). lra. }
  set (N := INR (S n)). assert (HN : 0 <= N) by apply pos_INR.
  assert (Nc : near (S n) r1 c c) by (apply near_self; exact Hr1).
  assert (Ns : forall z, near (S n) r c z -> near (S n) r1 c z) by (intros z Hz; eapply near_le; [exact R1|exact Hz]).
  assert (dc : forall z z', near (S n) r c z -> near (S n) r c z' -> l1 (S n) z z' <= N).
  { intros z z' Hz Hz'. replace N with (INR (S n) * 1) by (unfold N; ring). apply l1_sup. intros j Hj. assert (A := Hz j Hj). assert (B := Hz' j Hj). apply Rabs_def2 in A. apply Rabs_def2 in B. apply Rabs_le. lra. }
  assert (Jb : forall i j z, (i < S n)%nat -> (j < S n)%nat -> near (S n) r c z -> Rabs (ext_jac ft fy i j z) <= M0 + L * N).
  { intros i j z Hi Hj Hz. replace (ext_jac ft fy i j z) with (ext_jac ft fy i j c + (ext_jac ft fy i j z - ext_jac ft fy i j c)) by ring. eapply Rle_trans; [apply Rabs_triang|]. apply Rplus_le_compat.
    - eapply Rle_trans; [|apply (pick (S n) (fun i => rsum (S n) (fun j => Rabs (ext_jac ft fy i j c))) i); [intros; apply rsum_nonneg; intros; apply Rabs_pos|exact Hi]].
      apply (pick (S n) (fun j => Rabs (ext_jac ft fy i j c)) j); [intros; apply Rabs_pos|exact Hj].
    - eapply Rle_trans; [apply HJ; [exact Hi|exact Hj|exact Nc|apply Ns, Hz]|]. apply Rmult_le_compat_l; [exact HL|]. apply dc; [apply near_self; exact Hr|exact Hz]. }
  set (M := M0 + L * N) in *. assert (HM : 0 <= M) by (unfold M; apply Rplus_le_le_0_compat; [exact HM0|apply Rmult_le_pos; assumption]).
  assert (Gl : forall i z z', (i < S n)%nat -> near (S n) r c z -> near (S n) r c z' -> Rabs (ext_rhs f z' i - ext_rhs f z i) <= (M + L * N) * l1 (S n) z z').
  { intros i z z' Hi Hz Hz'. assert (Q := HQ i z z' Hi (Ns z Hz) (Ns z' Hz')).
    assert (P0 : 0 <= l1 (S n) z z') by apply l1_nonneg.
    assert (Q2 : Rabs (rsum (S n) (fun j => ext_jac ft fy i j z * (z' j - z j))) <= M * l1 (S n) z z').
    { unfold l1. rewrite <- rsum_scal. 
      assert (tri : forall m (g h : nat -> R), (forall k, (k < m)%nat -> Rabs (g k) <= h k) -> Rabs (rsum m g) <= rsum m h).
      { induction m as [|m IH]; intros g h Hg; cbn [rsum]; [rewrite Rabs_R0; lra|]. eapply Rle_trans; [apply Rabs_triang|]. apply Rplus_le_compat; [apply IH; intros; apply Hg; lia|apply Hg; lia]. }
      apply tri. intros k Hk. rewrite Rabs_mult. apply Rmult_le_compat_r; [apply Rabs_pos|]. apply Jb; assumption. }
    assert (Q3 : L * l1 (S n) z z' ^ 2 <= L * N * l1 (S n) z z').
    { cbn [pow]. rewrite Rmult_1_r, Rmult_assoc. apply Rmult_le_compat_l; [exact HL|]. apply Rmult_le_compat_r; [exact P0|]. apply dc; assumption. }
    replace (ext_rhs f z' i - ext_rhs f z i) with ((ext_rhs f z' i - ext_rhs f z i - rsum (S n) (fun j => ext_jac ft fy i j z * (z' j - z j))) + rsum (S n) (fun j => ext_jac ft fy i j z * (z' j - z j))) by ring.
    eapply Rle_trans; [apply Rabs_triang|]. lra. }
  set (K := M + L * N) in *. assert (HK : 0 <= K) by (unfold K; apply Rplus_le_le_0_compat; [exact HM|apply Rmult_le_pos; assumption]). clearbody K M.
  set (V := rsum n (fun i => Rabs (f t0 y0 i))). assert (HV : 0 <= V) by (apply rsum_nonneg; intros; apply Rabs_pos).
  exists r, (K * N), (V + K * N). split; [exact Hr|]. split; [apply Rmult_le_pos; assumption|]. split; [apply Rplus_le_le_0_compat; [exact HV|apply Rmult_le_pos; assumption]|]. 
  assert (pn : forall t y, in_box n r t0 y0 t y -> near (S n) r c (point t y)) by (intros t y Hy; apply (proj2 (near_box n r t0 y0 (point t y))); exact Hy).
  split.
  - intros t y i Hy Hi. assert (Q := Gl (S i) c (point t y) ltac:(lia) (near_self _ _ _ Hr) (pn t y Hy)). cbn [ext_rhs point c] in Q.
    change (fun j => y j) with y in Q. change (fun j => y0 j) with y0 in Q.
    replace (f t y i) with (f t0 y0 i + (f t y i - f t0 y0 i)) by ring. eapply Rle_trans; [apply Rabs_triang|]. apply Rplus_le_compat; [apply (pick n (fun i => Rabs (f t0 y0 i)) i); [intros; apply Rabs_pos|exact Hi]|].
    eapply Rle_trans; [exact Q|]. apply Rmult_le_compat_l; [exact HK|]. apply dc; [apply near_self; exact Hr|apply pn, Hy].
  - intros t y y' Hy Hy' eps He i Hi. assert (Q := Gl (S i) (point t y') (point t y) ltac:(lia) (pn t y' Hy') (pn t y Hy)). cbn [ext_rhs point] in Q.
    change (fun j => y j) with y in Q. change (fun j => y' j) with y' in Q. eapply Rle_trans; [exact Q|]. rewrite (Rmult_assoc K N eps). apply Rmult_le_compat_l; [exact HK|]. apply l1_sup.
    intros [|j] Hj; cbn [point]; [|apply He; lia]. rewrite Rminus_eq_0, Rabs_R0. eapply Rle_trans; [apply Rabs_pos|exact (He i Hi)].
Qed.

(** ---- stability of a step ---- *)
Lemma step_lip n f t0 y0 : reads n f -> smooth_rhs n f t0 y0 ->
  exists rho L, 0 < rho /\ 0 <= L /\ forall t h u v, Rabs (t - t0) < rho -> Rabs h < rho -> near n rho y0 u -> near n rho y0 v ->
  forall eps, (forall j, (j < n)%nat -> Rabs (u j - v j) <= eps) -> forall i, (i < n)%nat -> Rabs (classical_rk4 f h t u i - classical_rk4 f h t v i) <= (1 + L * Rabs h) * eps.
Proof.
  intros Hf Hs. destruct (rhs_lip n f t0 y0 Hf Hs) as (r & K & A & Hr & HK & HA & Hb & Hl).
  set (rho := Rmin 1 (r / (2 * (A + 1)))). assert (H0 : 0 < rho) by (apply Rmin_pos; [lra|apply Rdiv_lt_0_compat; lra]).
  assert (H1 : rho <= 1) by apply Rmin_l.
  assert (H2 : rho * (2 * (A + 1)) <= r). { assert (Q : rho <= r / (2 * (A + 1))) by apply Rmin_r. apply Rmult_le_compat_r with (r := 2 * (A + 1)) in Q; [|lra]. replace (r / (2 * (A + 1)) * (2 * (A + 1))) with r in Q by (field; lra). exact Q. }
  clearbody rho. assert (H3 : rho + rho <= r) by nra. assert (H4 : rho + rho * A <= r) by nra.
  set (c0 := K). set (c1 := K * (1 + c0)). set (c2 := K * (1 + c1)). set (c3 := K * (1 + c2)).
  assert (P0 : 0 <= c0) by exact HK. assert (P1 : 0 <= c1) by (apply Rmult_le_pos; lra). assert (P2 : 0 <= c2) by (apply Rmult_le_pos; lra). assert (P3 : 0 <= c3) by (apply Rmult_le_pos; lra).
  exists rho, (c0 + c1 + c2 + c3). split; [exact H0|]. split; [lra|]. intros t h u v Ht Hh Hu Hv eps He i Hi.
  assert (Heps : 0 <= eps) by (eapply Rle_trans; [apply Rabs_pos|exact (He i Hi)]).
  assert (Hh0 : 0 <= Rabs h) by apply Rabs_pos.
  (* stage points stay in the box *)
  assert (Box : forall s a k w, near n rho y0 w -> Rabs s <= Rabs h -> Rabs a <= Rabs h -> (forall j, (j < n)%nat -> Rabs (k j) <= A) -> in_box n r t0 y0 (t + s) (fun j => w j + a * k j)).
  { intros s a k w Hw Hs' Ha Hk. split.
    - replace (t + s - t0) with ((t - t0) + s) by ring. eapply Rle_lt_trans; [apply Rabs_triang|]. lra.
    - intros j Hj. replace (w j + a * k j - y0 j) with ((w j - y0 j) + a * k j) by ring. eapply Rle_lt_trans; [apply Rabs_triang|]. rewrite Rabs_mult.
      assert (Q1 := Hw j Hj). assert (Q2 := Hk j Hj). assert (Q3 : Rabs a * Rabs (k j) <= rho * A) by (apply Rmult_le_compat; [apply Rabs_pos|apply Rabs_pos|lra|exact Q2]). lra. }
  assert (Box0 : forall w, near n rho y0 w -> in_box n r t0 y0 t w). { intros w Hw. split; [lra|]. intros j Hj. assert (Q := Hw j Hj). lra. }
  (* difference of the arguments of a stage *)
  assert (Arg : forall a c (k k' : Y), 0 <= c -> Rabs a <= Rabs h -> (forall j, (j < n)%nat -> Rabs (k j - k' j) <= c * eps) -> forall j, (j < n)%nat -> Rabs ((u j + a * k j) - (v j + a * k' j)) <= (1 + c) * eps).
  { intros a c k k' Hc Ha Hk j Hj. replace (u j + a * k j - (v j + a * k' j)) with ((u j - v j) + a * (k j - k' j)) by ring. eapply Rle_trans; [apply Rabs_triang|]. rewrite Rabs_mult, Rmult_plus_distr_r, Rmult_1_l. apply Rplus_le_compat; [apply He, Hj|].
    replace (c * eps) with (1 * (c * eps)) by ring. apply Rmult_le_compat; [apply Rabs_pos|apply Rabs_pos|lra|apply Hk, Hj]. }
  assert (half : Rabs (h / 2) <= Rabs h). { unfold Rdiv. rewrite Rabs_mult, (Rabs_right (/ 2)) by lra. lra. }
  unfold classical_rk4.
  set (ku0 := f t u). set (kv0 := f t v).
  assert (D0 : forall j, (j < n)%nat -> Rabs (ku0 j - kv0 j) <= c0 * eps) by (intros j Hj; apply Hl; [apply Box0, Hu|apply Box0, Hv|exact He|exact Hj]).
  assert (Bu0 : forall j, (j < n)%nat -> Rabs (ku0 j) <= A) by (intros j Hj; apply Hb; [apply Box0, Hu|exact Hj]).
  assert (Bv0 : forall j, (j < n)%nat -> Rabs (kv0 j) <= A) by (intros j Hj; apply Hb; [apply Box0, Hv|exact Hj]).
  assert (Xu1 := Box (h / 2) (h / 2) ku0 u Hu half half Bu0). assert (Xv1 := Box (h / 2) (h / 2) kv0 v Hv half half Bv0).
  set (ku1 := f (t + h / 2) (fun j => u j + h / 2 * ku0 j)). set (kv1 := f (t + h / 2) (fun j => v j + h / 2 * kv0 j)).
  assert (D1 : forall j, (j < n)%nat -> Rabs (ku1 j - kv1 j) <= c1 * eps).
  { intros j Hj. unfold c1. rewrite Rmult_assoc. apply (Hl _ _ _ Xu1 Xv1); [|exact Hj]. apply (Arg (h / 2) c0 ku0 kv0 P0 half D0). }
  assert (Bu1 : forall j, (j < n)%nat -> Rabs (ku1 j) <= A) by (intros j Hj; apply (Hb _ _ j Xu1); exact Hj).
  assert (Bv1 : forall j, (j < n)%nat -> Rabs (kv1 j) <= A) by (intros j Hj; apply (Hb _ _ j Xv1); exact Hj).
  assert (Xu2 := Box (h / 2) (h / 2) ku1 u Hu half half Bu1). assert (Xv2 := Box (h / 2) (h / 2) kv1 v Hv half half Bv1).
  set (ku2 := f (t + h / 2) (fun j => u j + h / 2 * ku1 j)). set (kv2 := f (t + h / 2) (fun j => v j + h / 2 * kv1 j)).
  assert (D2 : forall j, (j < n)%nat -> Rabs (ku2 j - kv2 j) <= c2 * eps).
  { intros j Hj. unfold c2. rewrite Rmult_assoc. apply (Hl _ _ _ Xu2 Xv2); [|exact Hj]. apply (Arg (h / 2) c1 ku1 kv1 P1 half D1). }
  assert (Bu2 : forall j, (j < n)%nat -> Rabs (ku2 j) <= A) by (intros j Hj; apply (Hb _ _ j Xu2); exact Hj).
  assert (Bv2 : forall j, (j < n)%nat -> Rabs (kv2 j) <= A) by (intros j Hj; apply (Hb _ _ j Xv2); exact Hj).
  assert (Xu3 := Box h h ku2 u Hu (Rle_refl _) (Rle_refl _) Bu2). assert (Xv3 := Box h h kv2 v Hv (Rle_refl _) (Rle_refl _) Bv2).
  set (ku3 := f (t + h) (fun j => u j + h * ku2 j)). set (kv3 := f (t + h) (fun j => v j + h * kv2 j)).
  assert (D3 : forall j, (j < n)%nat -> Rabs (ku3 j - kv3 j) <= c3 * eps).
  { intros j Hj. unfold c3. rewrite Rmult_assoc. apply (Hl _ _ _ Xu3 Xv3); [|exact Hj]. apply (Arg h c2 ku2 kv2 P2 (Rle_refl _) D2). }
  replace (u i + h / 6 * (ku0 i + 2 * ku1 i + 2 * ku2 i + ku3 i) - (v i + h / 6 * (kv0 i + 2 * kv1 i + 2 * kv2 i + kv3 i)))
    with ((u i - v i) + h * (/ 6 * (ku0 i - kv0 i) + / 3 * (ku1 i - kv1 i) + / 3 * (ku2 i - kv2 i) + / 6 * (ku3 i - kv3 i))) by field.
  eapply Rle_trans; [apply Rabs_triang|]. rewrite Rmult_plus_distr_r, Rmult_1_l. apply Rplus_le_compat; [apply He, Hi|]. rewrite Rabs_mult, (Rmult_comm (c0 + c1 + c2 + c3)), Rmult_assoc.
  apply Rmult_le_compat_l; [exact Hh0|]. specialize (D0 i Hi). specialize (D1 i Hi). specialize (D2 i Hi). specialize (D3 i Hi).
  assert (E0 : 0 <= c0 * eps) by (apply Rmult_le_pos; assumption). assert (E1 : 0 <= c1 * eps) by (apply Rmult_le_pos; assumption). assert (E2 : 0 <= c2 * eps) by (apply Rmult_le_pos; assumption). assert (E3 : 0 <= c3 * eps) by (apply Rmult_le_pos; assumption).
  rewrite !Rmult_plus_distr_r. apply Rabs_le. apply Rabs_le_between in D0. apply Rabs_le_between in D1. apply Rabs_le_between in D2. apply Rabs_le_between in D3. lra.
Qed.

(** ---- uniformity along the solution ---- *)
Definition rk_good (n : nat) (f : R -> Y -> Y) (y : R -> Y) (rho M L t : R) : Prop :=
  (forall h i, Rabs h < rho -> (i < n)%nat -> Rabs (classical_rk4 f h t (y t) i - y (t + h) i) <= M * Rabs h ^ 5) /\
  forall h u v, Rabs h < rho -> near n rho (y t) u -> near n rho (y t) v -> forall eps, (forall j, (j < n)%nat -> Rabs (u j - v j) <= eps) ->
  forall i, (i < n)%nat -> Rabs (classical_rk4 f h t u i - classical_rk4 f h t v i) <= (1 + L * Rabs h) * eps.
Lemma rk_good_le n f y rho M L t rho' M' L' : rk_good n f y rho M L t -> rho' <= rho -> M <= M' -> L <= L' -> rk_good n f y rho' M' L' t.
Proof.
  intros [G1 G2] Hr HM HL. split.
  - intros h i Hh Hi. eapply Rle_trans; [apply G1; [lra|exact Hi]|]. apply Rmult_le_compat_r; [apply pow_le, Rabs_pos|exact HM].
  - intros h u v Hh Hu Hv eps He i Hi. eapply Rle_trans; [apply G2; [lra|eapply near_le; [exact Hr|exact Hu]|eapply near_le; [exact Hr|exact Hv]|exact He|exact Hi]|].
    apply Rmult_le_compat_r; [eapply Rle_trans; [apply Rabs_pos|exact (He i Hi)]|]. assert (P := Rabs_pos h). assert (L * Rabs h <= L' * Rabs h) by (apply Rmult_le_compat_r; assumption). lra.
Qed.
Lemma solution_near n f y t0 rho : smooth_solution n f y t0 -> 0 < rho -> exists d, 0 < d /\ forall t, Rabs (t - t0) < d -> near n rho (y t0) (y t).
Proof.
  intros (r & B & D & Hr & H) Hrho.
  assert (Q : forall m, (m <= n)%nat -> exists d, 0 < d /\ forall t, Rabs (t - t0) < d -> near m rho (y t0) (y t)).
  { induction m as [|m IH]; intros Hm.
    - exists 1. split; [lra|]. intros t _ i Hi. lia.
    - destruct (IH ltac:(lia)) as (d & Hd & K). destruct (H t0 m ltac:(rewrite Rminus_eq_0, Rabs_R0; exact Hr) ltac:(lia)) as (K1 & _). apply D_continuous in K1.
      destruct (K1 (fun v => Rabs (v - y t0 m) < rho)) as [e He]. { exists (mkposreal rho Hrho). intros v Hv. exact Hv. }
      exists (Rmin d e). split; [apply Rmin_pos; [exact Hd|apply cond_pos]|]. intros t Ht i Hi. destruct (Nat.eq_dec i m) as [-> |].
      + apply He. eapply Rlt_le_trans; [exact Ht|apply Rmin_r].
      + apply K; [eapply Rlt_le_trans; [exact Ht|apply Rmin_l]|lia]. }
  apply Q. lia.
Qed.
Lemma rk_good_near n f y t0 : reads n f -> smooth_rhs n f t0 (y t0) -> smooth_solution n f y t0 ->
  exists rho M L, 0 < rho /\ 0 <= M /\ 0 <= L /\ forall t, Rabs (t - t0) < rho -> rk_good n f y rho M L t.
Proof.
  intros Hf Hs Hy. destruct (local_error n f y t0 Hf Hs Hy) as (r1 & M & Hr1 & HM & K1). destruct (step_lip n f t0 (y t0) Hf Hs) as (r2 & L & Hr2 & HL & K2).
  destruct (solution_near n f y t0 (r2 / 2) Hy ltac:(lra)) as (d & Hd & K3).
  set (rho := Rmin (Rmin r1 d) (r2 / 2)). assert (H0 : 0 < rho) by (apply Rmin_pos; [apply Rmin_pos; assumption|lra]).
  assert (A1 : rho <= r1) by (eapply Rle_trans; [apply Rmin_l|apply Rmin_l]). assert (A2 : rho <= d) by (eapply Rle_trans; [apply Rmin_l|apply Rmin_r]). assert (A3 : rho <= r2 / 2) by apply Rmin_r.
  exists rho, M, L. split; [exact H0|]. split; [exact HM|]. split; [exact HL|]. intros t Ht. split.
  - intros h i Hh Hi. apply K1; [lra|lra|exact Hi].
  - intros h u v Hh Hu Hv eps He i Hi. assert (Kt := K3 t ltac:(lra)).
    assert (X : forall w, near n rho (y t) w -> near n r2 (y t0) w).
    { intros w Hw j Hj. replace (w j - y t0 j) with ((w j - y t j) + (y t j - y t0 j)) by ring. eapply Rle_lt_trans; [apply Rabs_triang|]. assert (B1 := Hw j Hj). assert (B2 := Kt j Hj). lra. }
    apply K2; [lra|lra|apply X, Hu|apply X, Hv|exact He|exact Hi].
Qed.
Lemma rk_good_compact n f y a b : a <= b ->
  (forall x, a <= x <= b -> exists rho M L, 0 < rho /\ 0 <= M /\ 0 <= L /\ forall t, Rabs (t - x) < rho -> rk_good n f y rho M L t) ->
  exists rho M L, 0 < rho /\ 0 <= M /\ 0 <= L /\ forall t, a <= t <= b -> rk_good n f y rho M L t.
Proof.
  intros Hab Hloc. apply (real_induction (fun x z => exists rho M L, 0 < rho /\ 0 <= M /\ 0 <= L /\ forall t, x <= t <= z -> rk_good n f y rho M L t) a b Hab).
  - intros x z x' z' (rho & M & L & A & B & C & D) H1 H2. exists rho, M, L. repeat (split; [assumption|]). intros t Ht. apply D. lra.
  - intros x z w Hy (rho & M & L & A & B & C & D) (rho' & M' & L' & A' & B' & C' & D').
    exists (Rmin rho rho'), (Rmax M M'), (Rmax L L'). split; [apply Rmin_pos; assumption|]. split; [eapply Rle_trans; [exact B|apply Rmax_l]|]. split; [eapply Rle_trans; [exact C|apply Rmax_l]|].
    intros t Ht. destruct (Rle_dec t z) as [K|K].
    + eapply rk_good_le; [apply D; lra|apply Rmin_l|apply Rmax_l|apply Rmax_l].
    + eapply rk_good_le; [apply D'; lra|apply Rmin_r|apply Rmax_r|apply Rmax_r].
  - intros x Hx. destruct (Hloc x Hx) as (rho & M & L & A & B & C & D). exists (rho / 2). split; [lra|]. exists rho, M, L. repeat (split; [assumption|]). intros t Ht. apply D. apply Rabs_def1; lra.
Qed.

(** ---- accumulation of errors ---- *)
Lemma iter_S f h k : forall t y, rk4_iter f h (S k) t y = classical_rk4 f h (t + INR k * h) (rk4_iter f h k t y).
Proof.
  induction k as [|k IH]; intros t y; [cbn [rk4_iter INR]; rewrite Rmult_0_l, Rplus_0_r; reflexivity|].
  change (rk4_iter f h (S (S k)) t y) with (rk4_iter f h (S k) (t + h) (classical_rk4 f h t y)). rewrite IH. replace (t + h + INR k * h) with (t + INR (S k) * h) by (rewrite S_INR; ring). reflexivity.
Qed.
Lemma rk_converge n f y t0 T rho M L : 0 < rho -> 0 <= M -> 0 <= L -> T <> 0 -> (forall t, Rmin t0 (t0 + T) <= t <= Rmax t0 (t0 + T) -> rk_good n f y rho M L t) ->
  forall N, (0 < N)%nat -> Rabs T / INR N < rho -> Rabs T * M * exp (L * Rabs T) * (Rabs T / INR N) ^ 4 < rho ->
  forall k, (k <= N)%nat -> forall i, (i < n)%nat ->
    Rabs (rk4_iter f (T / INR N) k t0 (y t0) i - y (t0 + INR k * (T / INR N)) i) <= Rabs T * M * exp (L * Rabs T) * (Rabs T / INR N) ^ 4.
Proof.
  intros Hr HM HL HT HG N HN Hh HB. set (h := T / INR N) in *. assert (PN : 0 < INR N) by (apply lt_0_INR; exact HN).
  assert (Ah : Rabs h = Rabs T / INR N) by (unfold h, Rdiv; rewrite Rabs_mult, (Rabs_right (/ INR N)); [reflexivity|apply Rle_ge, Rlt_le, Rinv_0_lt_compat, PN]).
  rewrite <- Ah in *. set (a := Rabs h) in *. set (B := Rabs T * M * exp (L * Rabs T) * a ^ 4) in *.
  assert (Pa : 0 <= a) by apply Rabs_pos.
  assert (aN : INR N * a = Rabs T) by (rewrite Ah; field; lra).
  assert (hN : forall k, (k <= N)%nat -> 0 <= INR k * a <= Rabs T).
  { intros k Hk. assert (P := pos_INR k). split; [apply Rmult_le_pos; lra|]. apply le_INR in Hk. rewrite <- aN. apply Rmult_le_compat_r; lra. }
  assert (tN : forall k, (k <= N)%nat -> Rmin t0 (t0 + T) <= t0 + INR k * h <= Rmax t0 (t0 + T)).
  { intros k Hk. assert (X : 0 <= INR k / INR N <= 1). { apply le_INR in Hk. assert (P := pos_INR k). split; [apply Rmult_le_pos; [exact P|apply Rlt_le, Rinv_0_lt_compat, PN]|]. apply Rmult_le_reg_r with (INR N); [exact PN|]. unfold Rdiv. rewrite Rmult_assoc, Rinv_l by lra. lra. }
    replace (INR k * h) with (INR k / INR N * T) by (unfold h; field; lra). set (q := INR k / INR N) in *. clearbody q. unfold Rmin, Rmax. destruct (Rle_dec t0 (t0 + T)); split; nra. }
  set (err := fun k : nat => INR k * a * (M * a ^ 4) * (1 + L * a) ^ k).
  assert (Lh : 0 <= L * a) by (apply Rmult_le_pos; lra).
  assert (Mh : 0 <= M * a ^ 4) by (apply Rmult_le_pos; [exact HM|apply pow_le; lra]).
  assert (EB : forall k, (k <= N)%nat -> 0 <= err k <= B).
  { intros k Hk. assert (Q := hN k Hk). assert (E1 : 1 <= (1 + L * a) ^ k) by (apply pow_R1_Rle; lra).
    assert (E2 : (1 + L * a) ^ k <= exp (L * Rabs T)).
    { assert (P : forall j, (1 + L * a) ^ j <= exp (INR j * (L * a))).
      { induction j as [|j IH]; [cbn; rewrite Rmult_0_l, exp_0; lra|]. rewrite S_INR. cbn [pow]. replace ((INR j + 1) * (L * a)) with (L * a + INR j * (L * a)) by ring. rewrite exp_plus.
        apply Rmult_le_compat; [lra|apply pow_le; lra| |exact IH]. apply exp_ineq1_le. }
      eapply Rle_trans; [apply P|]. assert (X : INR k * (L * a) <= L * Rabs T) by (replace (INR k * (L * a)) with (L * (INR k * a)) by ring; apply Rmult_le_compat_l; lra).
      destruct X as [X|X]; [apply Rlt_le, exp_increasing, X|rewrite X; lra]. }
    unfold err, B. split; [apply Rmult_le_pos; [apply Rmult_le_pos; [apply Q|exact Mh]|lra]|].
    replace (Rabs T * M * exp (L * Rabs T) * a ^ 4) with (Rabs T * (M * a ^ 4) * exp (L * Rabs T)) by ring.
    apply Rmult_le_compat; [apply Rmult_le_pos; [apply Q|exact Mh]|lra|apply Rmult_le_compat_r; [exact Mh|apply Q]|exact E2]. }
  assert (ES : forall k, (1 + L * a) * err k + M * a ^ 5 <= err (S k)).
  { intros k. unfold err. rewrite S_INR. change (a ^ 5) with (a * a ^ 4). change ((1 + L * a) ^ S k) with ((1 + L * a) * (1 + L * a) ^ k). assert (E1 : 1 <= (1 + L * a) ^ k) by (apply pow_R1_Rle; lra).
    assert (E2 : 1 <= (1 + L * a) * (1 + L * a) ^ k) by nra. assert (Q : 0 <= a * (M * a ^ 4)) by (apply Rmult_le_pos; lra). set (m4 := a ^ 4) in *. clearbody m4.
    replace ((INR k + 1) * a * (M * m4) * ((1 + L * a) * (1 + L * a) ^ k)) with ((1 + L * a) * (INR k * a * (M * m4) * (1 + L * a) ^ k) + a * (M * m4) * ((1 + L * a) * (1 + L * a) ^ k)) by ring.
    replace (M * (a * m4)) with (a * (M * m4) * 1) by ring. apply Rplus_le_compat_l, Rmult_le_compat_l; assumption. }
  assert (K : forall k, (k <= N)%nat -> forall i, (i < n)%nat -> Rabs (rk4_iter f h k t0 (y t0) i - y (t0 + INR k * h) i) <= err k).
  { induction k as [|k IH]; intros Hk i Hi.
    - cbn [rk4_iter INR]. rewrite Rmult_0_l, Rplus_0_r, Rminus_eq_0, Rabs_R0. apply EB. lia.
    - rewrite iter_S. set (t := t0 + INR k * h). destruct (HG t (tN k ltac:(lia))) as [G1 G2]. specialize (IH ltac:(lia)). fold t in IH.
      assert (Ek := EB k ltac:(lia)).
      assert (A2 := G2 h (rk4_iter f h k t0 (y t0)) (y t) Hh). assert (A1 := G1 h i Hh Hi).
      replace (t0 + INR (S k) * h) with (t + h) by (unfold t; rewrite S_INR; ring).
      assert (A3 := A2 ltac:(intros j Hj; eapply Rle_lt_trans; [exact (IH j Hj)|lra]) ltac:(apply near_self; exact Hr) (err k) IH i Hi).
      eapply Rle_trans; [|apply ES]. fold a in A1, A3.
      replace (classical_rk4 f h t (rk4_iter f h k t0 (y t0)) i - y (t + h) i) with ((classical_rk4 f h t (rk4_iter f h k t0 (y t0)) i - classical_rk4 f h t (y t) i) + (classical_rk4 f h t (y t) i - y (t + h) i)) by ring.
      eapply Rle_trans; [apply Rabs_triang|]. lra. }
  intros k Hk i Hi. eapply Rle_trans; [apply K; assumption|apply EB; exact Hk].
Qed.
Theorem rk4_converges n f y t0 T : reads n f -> T <> 0 ->
  (forall t, Rmin t0 (t0 + T) <= t <= Rmax t0 (t0 + T) -> smooth_rhs n f t (y t) /\ smooth_solution n f y t) ->
  exists C N0, (0 < N0)%nat /\ forall N tb k i, (N0 <= N)%nat -> (k <= N)%nat -> (i < n)%nat ->
    rk_t (rk4_steps k (rk4_init f t0 (y t0) tb (T / INR N))) = t0 + INR k * (T / INR N) /\
    Rabs (rk_y (rk4_steps k (rk4_init f t0 (y t0) tb (T / INR N))) i - y (t0 + INR k * (T / INR N)) i) <= C * (Rabs T / INR N) ^ 4.
Proof.
  intros Hf HT H. assert (PT : 0 < Rabs T) by (apply Rabs_pos_lt; exact HT).
  destruct (rk_good_compact n f y (Rmin t0 (t0 + T)) (Rmax t0 (t0 + T))) as (rho & M & L & Hr & HM & HL & HG).
  { eapply Rle_trans; [apply Rmin_l|apply Rmax_l]. }
  { intros x Hx. destruct (H x Hx) as [A B]. apply rk_good_near; assumption. }
  set (B := Rabs T * M * exp (L * Rabs T)). assert (HB : 0 <= B) by (unfold B; apply Rmult_le_pos; [apply Rmult_le_pos; lra|apply Rlt_le, exp_pos]).
  destruct (small_steps (Rabs T) B rho 4 PT HB Hr ltac:(lia)) as (N0 & HN0 & HN). exists B, N0. split; [exact HN0|]. intros N tb k i HN' Hk Hi. destruct (HN N HN') as [Hh Hb].
  destruct (rk4_history f t0 (y t0) tb (T / INR N) k) as [E1 E2]. split; [exact E1|]. rewrite E2.
  apply (rk_converge n f y t0 T rho M L Hr HM HL HT HG N ltac:(lia) Hh Hb k Hk i Hi).
Qed.
