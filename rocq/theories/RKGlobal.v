(** Fourth-order accuracy of RK4naive: the local error of a step and the global error after N steps of size T/N. *)
From Coq Require Import Reals List ZArith Lra Lia Bool.
From Coquelicot Require Import Coquelicot.
From Verif Require Import Base Calc DualDiff ProgCont RKModel RKProofs FantasyHam FantasyGlobal FantasyGlobal2 FantasyGlobal3 RKOrder RKOrder2.
Open Scope R_scope.

(** ---- specification ---- *)
(** the right-hand side of a system of n equations: component i < n of [f t y] depends on the components j < n of y only *)
Definition reads (n : nat) (f : R -> Y -> Y) : Prop := forall t y y', (forall j, (j < n)%nat -> y j = y' j) -> forall i, (i < n)%nat -> f t y i = f t y' i.
Definition in_box (n : nat) (r t0 : R) (y0 : Y) (t : R) (y : Y) : Prop := Rabs (t - t0) < r /\ forall j, (j < n)%nat -> Rabs (y j - y0 j) < r.
Definition dist1 (n : nat) (t : R) (y : Y) (t' : R) (y' : Y) : R := Rabs (t' - t) + rsum n (fun j => Rabs (y' j - y j)).
(** y with component j replaced by u *)
Definition setj (y : Y) (j : nat) (u : R) : Y := fun k => if Nat.eqb k j then u else y k.
(** near (t0, y0) the right-hand side has all first partial derivatives, and they are Lipschitz continuous *)
Definition smooth_rhs (n : nat) (f : R -> Y -> Y) (t0 : R) (y0 : Y) : Prop :=
  exists r L (ft : nat -> R -> Y -> R) (fy : nat -> nat -> R -> Y -> R), 0 < r /\ 0 <= L /\
  forall i t y, (i < n)%nat -> in_box n r t0 y0 t y ->
    is_derive (fun u => f u y i) t (ft i t y) /\
    (forall j, (j < n)%nat -> is_derive (fun u => f t (setj y j u) i) (y j) (fy i j t y)) /\
    forall t' y', in_box n r t0 y0 t' y' ->
      Rabs (ft i t' y' - ft i t y) <= L * dist1 n t y t' y' /\
      forall j, (j < n)%nat -> Rabs (fy i j t' y' - fy i j t y) <= L * dist1 n t y t' y'.
(** near t0 the curve y solves y' = f(t, y) and has five derivatives, the fifth bounded *)
Definition smooth_solution (n : nat) (f : R -> Y -> Y) (y : R -> Y) (t0 : R) : Prop :=
  exists r B (D : nat -> R -> nat -> R), 0 < r /\
  forall t i, Rabs (t - t0) < r -> (i < n)%nat ->
    is_derive (fun u => y u i) t (f t (y t) i) /\
    D 0%nat t i = y t i /\ (forall k, (k < 5)%nat -> is_derive (fun u => D k u i) t (D (S k) t i)) /\ Rabs (D 5%nat t i) <= B.

(** ---- the quadratic remainder ---- *)
Lemma rsum_le n (f g : nat -> R) : (forall k, (k < n)%nat -> f k <= g k) -> rsum n f <= rsum n g.
Proof. induction n as [|n IH]; intros H; cbn [rsum]; [lra|]. assert (A := H n ltac:(lia)). assert (B : rsum n f <= rsum n g) by (apply IH; intros; apply H; lia). lra. Qed.

Lemma quad_remainder N (g : (nat -> R) -> R) (D : nat -> (nat -> R) -> R) z0 r L : 0 <= L ->
  (forall z z', (forall j, (j < N)%nat -> z j = z' j) -> g z = g z') ->
  (forall z j, near N r z0 z -> (j < N)%nat -> is_derive (fun u => g (setj z j u)) (z j) (D j z)) ->
  (forall z z' j, near N r z0 z -> near N r z0 z' -> (j < N)%nat -> Rabs (D j z' - D j z) <= L * l1 N z z') ->
  forall z z', near N r z0 z -> near N r z0 z' -> Rabs (g z' - g z - rsum N (fun j => D j z * (z' j - z j))) <= L * l1 N z z' ^ 2.
Proof.
  intros HL Hext HD HJ z z' Hz Hz'.
  set (mix := fun (k j : nat) => if Nat.ltb j k then z' j else z j).
  assert (P : forall k, (k <= N)%nat -> Rabs (g (mix k) - g z - rsum k (fun j => D j z * (z' j - z j))) <= L * l1 N z z' * rsum k (fun j => Rabs (z' j - z j))).
  { induction k as [|k IH]; intros Hk.
    - cbn [rsum]. rewrite (Hext (mix 0%nat) z) by (intros; reflexivity). replace (g z - g z - 0) with 0 by ring. rewrite Rabs_R0. lra.
    - specialize (IH ltac:(lia)).
      assert (Bt : forall c, Rmin (z k) (z' k) <= c <= Rmax (z k) (z' k) -> near N r z0 (setj (mix k) k c) /\ l1 N z (setj (mix k) k c) <= l1 N z z').
      { intros c Hc. assert (X : Rabs (c - z0 k) < r).
        { assert (A := Hz k ltac:(lia)). assert (B := Hz' k ltac:(lia)). apply Rabs_def2 in A. apply Rabs_def2 in B. revert Hc. unfold Rmin, Rmax. destruct (Rle_dec (z k) (z' k)); intros Hc; apply Rabs_def1; lra. }
        assert (X2 : Rabs (c - z k) <= Rabs (z' k - z k)).
        { revert Hc. unfold Rmin, Rmax. destruct (Rle_dec (z k) (z' k)); intros Hc; unfold Rabs; destruct (Rcase_abs (c - z k)), (Rcase_abs (z' k - z k)); lra. }
        split.
        - intros j Hj. unfold setj, mix. destruct (Nat.eqb_spec j k) as [-> |]; [exact X|]. destruct (Nat.ltb j k); [apply Hz', Hj|apply Hz, Hj].
        - unfold l1. apply rsum_le. intros j Hj. unfold setj, mix. destruct (Nat.eqb_spec j k) as [-> |]; [exact X2|]. destruct (Nat.ltb j k); [lra|]. rewrite Rminus_eq_0, Rabs_R0. apply Rabs_pos. }
      assert (Der : forall u, Rmin (z k) (z' k) <= u <= Rmax (z k) (z' k) -> is_derive (fun u => g (setj (mix k) k u)) u (D k (setj (mix k) k u))).
      { intros u Hu. destruct (Bt u Hu) as [Nu _]. assert (Q := HD _ k Nu ltac:(lia)). assert (E : setj (mix k) k u k = u) by (unfold setj; rewrite Nat.eqb_refl; reflexivity).
        rewrite E in Q. eapply D_ext; [|exact Q]. intros v. apply Hext. intros j _. unfold setj. destruct (Nat.eqb j k); reflexivity. }
      destruct (MVT_gen (fun u => g (setj (mix k) k u)) (z k) (z' k) (fun u => D k (setj (mix k) k u))) as (c & Hc & E).
      { intros u Hu. apply Der. lra. }
      { intros u Hu. apply continuity_pt_filterlim. eapply D_continuous. apply Der. exact Hu. }
      destruct (Bt c Hc) as [Nc Lc].
      rewrite (Hext (setj (mix k) k (z' k)) (mix (S k))) in E.
      2:{ intros j Hj. unfold setj, mix. destruct (Nat.eqb_spec j k) as [Ej|Ej]; destruct (Nat.ltb_spec j k); destruct (Nat.ltb_spec j (S k)); try lia; try reflexivity. rewrite Ej. reflexivity. }
      rewrite (Hext (setj (mix k) k (z k)) (mix k)) in E.
      2:{ intros j Hj. unfold setj, mix. destruct (Nat.eqb_spec j k) as [-> |]; [|reflexivity]. rewrite Nat.ltb_irrefl. reflexivity. }
      cbn [rsum]. replace (g (mix (S k)) - g z - (rsum k (fun j => D j z * (z' j - z j)) + D k z * (z' k - z k)))
        with ((g (mix k) - g z - rsum k (fun j => D j z * (z' j - z j))) + (D k (setj (mix k) k c) - D k z) * (z' k - z k)) by (rewrite Rmult_minus_distr_r, <- E; ring).
      eapply Rle_trans; [apply Rabs_triang|]. rewrite Rmult_plus_distr_l. apply Rplus_le_compat; [exact IH|]. rewrite Rabs_mult. apply Rmult_le_compat_r; [apply Rabs_pos|].
      eapply Rle_trans; [apply HJ; [exact Hz|exact Nc|lia]|]. apply Rmult_le_compat_l; [exact HL|exact Lc]. }
  assert (Q := P N (le_n N)). rewrite (Hext (mix N) z') in Q.
  - eapply Rle_trans; [exact Q|]. unfold l1. right. ring.
  - intros j Hj. unfold mix. destruct (Nat.ltb_spec j N); [reflexivity|lia].
Qed.

(** ---- time as an extra component ---- *)
Definition ext_rhs (f : R -> Y -> Y) (z : nat -> R) (i : nat) : R := match i with O => 1 | S i => f (z 0%nat) (fun j => z (S j)) i end.
Definition ext_jac (ft : nat -> R -> Y -> R) (fy : nat -> nat -> R -> Y -> R) (i j : nat) (z : nat -> R) : R :=
  match i, j with O, _ => 0 | S i, O => ft i (z 0%nat) (fun j => z (S j)) | S i, S j => fy i j (z 0%nat) (fun j => z (S j)) end.
Definition point (t : R) (y : Y) (j : nat) : R := match j with O => t | S j => y j end.

Lemma rsum_S n (f : nat -> R) : rsum (S n) f = f 0%nat + rsum n (fun j => f (S j)).
Proof. induction n as [|n IH]; [cbn; ring|]. change (rsum (S (S n)) f) with (rsum (S n) f + f (S n)). rewrite IH. cbn [rsum]. ring. Qed.
Lemma near_box n r t0 y0 z : near (S n) r (point t0 y0) z <-> in_box n r t0 y0 (z 0%nat) (fun j => z (S j)).
Proof. split; [intros H; split; [exact (H 0%nat ltac:(lia))|intros j Hj; exact (H (S j) ltac:(lia))]|intros [A B] [|j] Hj; [exact A|apply B; lia]]. Qed.
Lemma l1_dist n z z' : l1 (S n) z z' = dist1 n (z 0%nat) (fun j => z (S j)) (z' 0%nat) (fun j => z' (S j)).
Proof. unfold l1, dist1. rewrite rsum_S. reflexivity. Qed.

Record rhs_ok (n : nat) (f : R -> Y -> Y) (t0 : R) (y0 : Y) (ft : nat -> R -> Y -> R) (fy : nat -> nat -> R -> Y -> R) (r L : R) : Prop := mk_rhs_ok {
  ok_r : 0 < r; ok_L : 0 <= L;
  ok_Q : forall i z z', (i < S n)%nat -> near (S n) r (point t0 y0) z -> near (S n) r (point t0 y0) z' ->
    Rabs (ext_rhs f z' i - ext_rhs f z i - rsum (S n) (fun j => ext_jac ft fy i j z * (z' j - z j))) <= L * l1 (S n) z z' ^ 2;
  ok_J : forall i j z z', (i < S n)%nat -> (j < S n)%nat -> near (S n) r (point t0 y0) z -> near (S n) r (point t0 y0) z' ->
    Rabs (ext_jac ft fy i j z' - ext_jac ft fy i j z) <= L * l1 (S n) z z' }.

Lemma smooth_ok n f t0 y0 : reads n f -> smooth_rhs n f t0 y0 -> exists ft fy r L, rhs_ok n f t0 y0 ft fy r L.
Proof.
  intros Hf (r & L & ft & fy & Hr & HL & H). exists ft, fy, r, L.
  assert (J' : forall i j z z', (i < S n)%nat -> (j < S n)%nat -> near (S n) r (point t0 y0) z -> near (S n) r (point t0 y0) z' ->
    Rabs (ext_jac ft fy i j z' - ext_jac ft fy i j z) <= L * l1 (S n) z z').
  { intros i j z z' Hi Hj Hz Hz'. rewrite l1_dist. apply (proj1 (near_box n r t0 y0 z)) in Hz. apply (proj1 (near_box n r t0 y0 z')) in Hz'. destruct i as [|i]; cbn [ext_jac].
    - rewrite Rminus_0_r, Rabs_R0. apply Rmult_le_pos; [exact HL|]. unfold dist1. apply Rplus_le_le_0_compat; [apply Rabs_pos|apply rsum_nonneg; intros; apply Rabs_pos].
    - destruct (H i _ _ ltac:(lia) Hz) as (_ & _ & K). destruct (K _ _ Hz') as [K1 K2]. destruct j as [|j]; [exact K1|apply K2; lia]. }
  split; [exact Hr|exact HL| |exact J'].
  intros i z z' Hi Hz Hz'. apply (quad_remainder (S n) (fun z => ext_rhs f z i) (fun j z => ext_jac ft fy i j z) (point t0 y0) r L HL); [| | |exact Hz|exact Hz'].
  - intros w w' Hw. destruct i as [|i]; [reflexivity|]. cbn [ext_rhs]. rewrite (Hw 0%nat ltac:(lia)). apply Hf; [|lia]. intros j Hj. apply Hw. lia.
  - intros w j Hw Hj. apply (proj1 (near_box n r t0 y0 w)) in Hw. destruct i as [|i]; cbn [ext_rhs ext_jac]; [exact (D_const 1 (w j))|]. destruct (H i _ _ ltac:(lia) Hw) as (K1 & K2 & _). destruct j as [|j]; cbn [ext_rhs ext_jac].
    + exact K1.
    + exact (K2 j ltac:(lia)).
  - intros w w' j Hw Hw' Hj. apply J'; assumption.
Qed.

(** ---- local error ---- *)
Definition curve (y : R -> Y) (D : nat -> R -> nat -> R) (t0 : R) (k : nat) (u : R) (i : nat) : R :=
  match i with O => match k with O => t0 + u | S O => 1 | _ => 0 end | S i => match k with O => y (t0 + u) i | _ => D k (t0 + u) i end end.

Lemma local_error n f y t0 : reads n f -> smooth_rhs n f t0 (y t0) -> smooth_solution n f y t0 ->
  exists rho M, 0 < rho /\ 0 <= M /\ forall t h, Rabs (t - t0) < rho -> Rabs h < rho -> forall i, (i < n)%nat ->
    Rabs (classical_rk4 f h t (y t) i - y (t + h) i) <= M * Rabs h ^ 5.
Proof.
  intros Hf Hs (r2 & B & D & Hr2 & HD). destruct (smooth_ok n f t0 (y t0) Hf Hs) as (ft & fy & r1 & L & OK).
  set (r := Rmin r1 r2). assert (Hr : 0 < r) by (apply Rmin_pos; [exact (ok_r _ _ _ _ _ _ _ _ OK)|exact Hr2]).
  assert (R1 : r <= r1) by apply Rmin_l. assert (R2 : r <= r2) by apply Rmin_r.
  set (E := curve y D t0).
  assert (E0 : forall j, point t0 (y t0) j = E 0%nat 0 j) by (intros [|j]; cbn; rewrite Rplus_0_r; reflexivity).
  assert (Nr : forall z, near (S n) r (E 0%nat 0) z -> near (S n) r1 (point t0 (y t0)) z).
  { intros z Hz j Hj. rewrite E0. eapply Rlt_le_trans; [apply Hz, Hj|exact R1]. }
  assert (D1 : forall t i, Rabs (t - t0) < r2 -> (i < n)%nat -> D 1%nat t i = f t (y t) i).
  { intros t i Ht Hi. destruct (HD t i Ht Hi) as (K1 & K2 & K3 & _). assert (K := K3 0%nat ltac:(lia)).
    assert (Q : is_derive (fun u => y u i) t (D 1%nat t i)).
    { eapply is_derive_ext_loc; [|exact K]. exists (mkposreal (r2 - Rabs (t - t0)) ltac:(lra)). intros u Hu. cbn in Hu. unfold ball in Hu; cbn in Hu; unfold AbsRing_ball, abs, minus, plus, opp in Hu; cbn in Hu.
      apply (HD u i); [|exact Hi]. replace (u - t0) with ((u + - t) + (t - t0)) by ring. eapply Rle_lt_trans; [apply Rabs_triang|]. lra. }
    rewrite <- (is_derive_unique _ _ _ Q). apply is_derive_unique. exact K1. }
  assert (loc : forall i, (i < n)%nat -> bO 5 (fun t h => Step (ext_rhs f) E (S i) t h - At E 0 (S i) t h)).
  { intros i Hi. apply (rk4_local (S n) (ext_rhs f) (ext_jac ft fy) E r L (Rabs B) Hr (ok_L _ _ _ _ _ _ _ _ OK) (Rabs_pos B)); [| | | | |lia].
    - intros k z z' Hk Hz Hz'. apply (ok_Q _ _ _ _ _ _ _ _ OK); [exact Hk|apply Nr, Hz|apply Nr, Hz'].
    - intros k j z z' Hk Hj Hz Hz'. apply (ok_J _ _ _ _ _ _ _ _ OK); [exact Hk|exact Hj|apply Nr, Hz|apply Nr, Hz'].
    - intros u [|k] Hu Hk; [reflexivity|]. cbn [E curve ext_rhs]. apply D1; [|lia]. replace (t0 + u - t0) with u by ring. lra.
    - intros u [|k] m Hu Hk Hm.
      + destruct m as [|[|m]]; cbn [E curve]; [auto_derive; [exact I|ring]|apply D_const|apply D_const].
      + cbn [E curve]. assert (Hu' : Rabs (t0 + u - t0) < r2) by (replace (t0 + u - t0) with u by ring; lra).
        destruct (HD (t0 + u) k Hu' ltac:(lia)) as (K1 & K2 & K3 & _). destruct m as [|m].
        * apply (D_shift (fun v => y v k)). rewrite (D1 _ _ Hu') by lia. exact K1.
        * apply (D_shift (fun v => D (S m) v k)). apply K3. exact Hm.
    - intros u [|k] Hu Hk; cbn [E curve]; [rewrite Rabs_R0; apply Rabs_pos|]. eapply Rle_trans; [|apply Rle_abs]. apply HD; [|lia]. replace (t0 + u - t0) with u by ring. lra. }
  assert (loc' : bO 5 (fun t h => rsum n (fun i => Rabs (Step (ext_rhs f) E (S i) t h - At E 0 (S i) t h)))).
  { apply (bO_sum 5 n (fun i t h => Rabs (Step (ext_rhs f) E (S i) t h - At E 0 (S i) t h))). intros i Hi. apply bO_abs, loc, Hi. }
  destruct loc' as (rho & M & Hrho & HM & HB). exists rho, M. split; [exact Hrho|]. split; [exact HM|]. intros t h Ht Hh i Hi.
  assert (Q := HB (t - t0) h Ht Hh). eapply Rle_trans; [|exact Q]. eapply Rle_trans; [|apply Rle_abs].
  assert (X : forall m, (i < m)%nat -> Rabs (Step (ext_rhs f) E (S i) (t - t0) h - At E 0 (S i) (t - t0) h) <= rsum m (fun i => Rabs (Step (ext_rhs f) E (S i) (t - t0) h - At E 0 (S i) (t - t0) h))).
  { induction m as [|m IH]; intros Hm; [lia|]. cbn [rsum]. destruct (Nat.eq_dec i m) as [-> |].
    - assert (P := rsum_nonneg m (fun i => Rabs (Step (ext_rhs f) E (S i) (t - t0) h - At E 0 (S i) (t - t0) h)) ltac:(intros; apply Rabs_pos)). lra.
    - assert (P := Rabs_pos (Step (ext_rhs f) E (S m) (t - t0) h - At E 0 (S m) (t - t0) h)). specialize (IH ltac:(lia)). lra. }
  eapply Rle_trans; [|apply (X n Hi)]. right. f_equal.
  unfold At, Step, K3, U3, K2, U2, K1, U1, K0, Z0, vec, E. cbn [curve ext_rhs]. unfold classical_rk4.
  replace (t0 + (t - t0)) with t by ring. replace (t0 + (t - t0 + h)) with (t + h) by ring. replace (t + h / 2 * 1) with (t + h / 2) by ring. replace (t + h * 1) with (t + h) by ring. reflexivity.
Qed.
Theorem rk4_local_error n f y t0 : reads n f -> smooth_rhs n f t0 (y t0) -> smooth_solution n f y t0 ->
  exists M rho, 0 < rho /\ forall t h tb, Rabs (t - t0) < rho -> Rabs h < rho -> forall i, (i < n)%nat ->
    Rabs (rk_y (fst (rk4_step (rk4_init f t (y t) tb h))) i - y (t + h) i) <= M * Rabs h ^ 5.
Proof.
  intros A B C. destruct (local_error n f y t0 A B C) as (rho & M & Hr & HM & H). exists M, rho. split; [exact Hr|]. intros t h tb Ht Hh i Hi.
  destruct (step_accept (rk4_init f t (y t) tb h) (direction_zero f t (y t) tb h)) as (_ & _ & E). rewrite E. cbn [rk4_init rk_fun rk_h rk_t rk_y]. apply H; assumption.
Qed.
