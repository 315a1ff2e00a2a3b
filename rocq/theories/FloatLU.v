(** np.linalg.inv, called by metric/base_metric.py:394 (metric_contravariant), as LAPACK computes it: gesv, Gaussian elimination with partial pivoting, in an arbitrary arithmetic. *)
From Coq Require Import String Reals List ZArith Lra Lia Bool.
From Verif Require Import Base GeoUtilsModel FloatModel.
Import ListNotations.
Open Scope R_scope.

Section LU.
Variable A : arith.
(** base_metric.py:394, inside np.linalg.inv. BLAS idamax: the first index of the largest absolute value *)
Fixpoint imax (best : R) (bi i : nat) (l : list R) : nat :=
  match l with [] => bi | x :: l => if Rlt_dec best (Rabs x) then imax (Rabs x) i (S i) l else imax best bi (S i) l end.
Definition idamax (l : list R) : nat := match l with [] => O | x :: l => imax (Rabs x) 0 1 l end.
(** base_metric.py:394, inside np.linalg.inv. LAPACK laswp: exchange rows 0 and p; the first row and the others *)
Fixpoint put {B} (p : nat) (r : B) (rs : list B) : list B := match rs, p with [], _ => [] | _ :: rs, O => r :: rs | s :: rs, S p => s :: put p r rs end.
Definition pick {B} (dflt : B) (p : nat) (rows : list B) : B * list B :=
  match rows, p with [], _ => (dflt, []) | r :: rs, O => (r, rs) | r :: rs, S p => (nth p rs dflt, put p r rs) end.
(** base_metric.py:394, inside np.linalg.inv: row - l * pivot row, entry by entry *)
Fixpoint axpyA (l : R) (xs ys : list R) : Res (list R) :=
  match xs, ys with
  | x :: xs, y :: ys => let* m := a_mul A l y in let* z := a_sub A x m in let* zs := axpyA l xs ys in Ok (z :: zs)
  | _, _ => Ok []
  end.
Definition elimA (f : R) (r row : list R) : Res (list R) := let* l := a_mul A (hd 0 row) f in axpyA l (tl row) (tl r).
(** base_metric.py:394, inside np.linalg.inv: trsm, upper triangular: the last unknown is subtracted first *)
Fixpoint backA (us : list R) (X : list (list R)) {struct X} : Res (list R) :=
  match X, us with
  | [], _ => Ok us
  | x :: X, u :: us => let* b := backA us X in axpyA u b x
  | _ :: _, [] => Ok []
  end.
(** base_metric.py:394, inside np.linalg.inv: gesv; a row is the coefficients followed by the right-hand sides; the pivot column is scaled by the reciprocal of the pivot (getf2).
    Elimination and back substitution of a column are nested; every entry goes through the same operations in the same order. Simplification: the unblocked algorithm (a blocked one adds the same products in another order) *)
Fixpoint gesvA (n : nat) (rows : list (list R)) : Res (list (list R)) :=
  match n with
  | O => Ok []
  | S n =>
    let '(r, rest) := pick [] (idamax (map (hd 0) rows)) rows in
    if Req_EM_T (hd 0 r) 0 then Err LinAlgError else
    let* f := a_div A 1 (hd 0 r) in
    let* rest' := seqR (elimA f r) rest in
    let* X := gesvA n rest' in
    let* b := backA (tl r) X in
    let* x := seqR (fun y => a_div A y (hd 0 r)) b in Ok (x :: X)
  end.
(** base_metric.py:394: np.linalg.inv, gesv with the identity as right-hand sides *)
Definition lu_rows (m : M4) : list (list R) := map (fun i => map (fun j => mnth m i j) (seq 0 4) ++ map (fun j => if Nat.eqb i j then 1 else 0) (seq 0 4)) (seq 0 4).
Definition lu_inv (m : M4) : Res M4 := let* X := gesvA 4 (lu_rows m) in Ok (mtab (fun i j => nth j (nth i X []) 0)).
End LU.

(** ** exact elimination with a given pivot *)
Fixpoint axpy (l : R) (xs ys : list R) : list R := match xs, ys with x :: xs, y :: ys => (x - l * y) :: axpy l xs ys | _, _ => [] end.
Definition elim (r row : list R) : list R := axpy (hd 0 row * / hd 0 r) (tl row) (tl r).
Fixpoint back (us : list R) (X : list (list R)) {struct X} : list R := match X, us with [], _ => us | x :: X, u :: us => axpy u (back us X) x | _ :: _, [] => [] end.
Definition step (p : nat) (rows : list (list R)) : list (list R) := let '(r, rest) := pick [] p rows in map (elim r) rest.

Definition near (e : R) (l m : list R) : Prop := Forall2 (fun x y => Rabs (x - y) <= e) l m.
Definition bnd (M : R) (l : list R) : Prop := Forall (fun x => Rabs x <= M) l.
Definition nears (e : R) := Forall2 (near e).
Definition bnds (M : R) := Forall (bnd M).

Lemma axpy_length l xs ys : length xs = length ys -> length (axpy l xs ys) = length xs.
Proof. revert ys. induction xs as [|x xs IH]; intros [|y ys] H; cbn in *; try lia. rewrite IH; lia. Qed.
(** ** scalar operations *)
Lemma mul_u M C : 0 <= M -> 0 <= C -> exists r C', 0 < r /\ 0 <= C' /\ forall d A x y x' y', 0 <= d < r -> accurate d A -> Rabs x <= M -> Rabs y <= M -> Rabs (x' - x) <= C * d -> Rabs (y' - y) <= C * d ->
  exists z, a_mul A x' y' = Ok z /\ Rabs (z - x * y) <= C' * d.
Proof.
  intros HM HC. set (B := (M + C) * (M + C)). assert (HB : 0 <= B) by (unfold B; apply Rmult_le_pos; lra).
  exists (Rmin 1 (/ (1 + B))), ((2 * M + C) * C + (1 + B)). split; [apply Rmin_pos; [lra|apply Rinv_0_lt_compat; lra]|].
  assert (HC1 : 0 <= (2 * M + C) * C) by (apply Rmult_le_pos; lra). split; [lra|].
  intros d A x y x' y' Hd HA Hx Hy Hx' Hy'. assert (D1 := Rmin_l 1 (/ (1 + B))). assert (D2 := Rmin_r 1 (/ (1 + B))).
  assert (Cd : 0 <= C * d <= C) by (split; [apply Rmult_le_pos; lra|]; rewrite <- (Rmult_1_r C) at 2; apply Rmult_le_compat_l; lra).
  assert (X : Rabs x' <= M + C). { replace x' with (x + (x' - x)) by ring. eapply Rle_trans; [apply Rabs_triang|lra]. }
  assert (Y : Rabs y' <= M + C). { replace y' with (y + (y' - y)) by ring. eapply Rle_trans; [apply Rabs_triang|lra]. }
  assert (P : Rabs (x' * y') <= B) by (rewrite Rabs_mult; unfold B; apply Rmult_le_compat; try apply Rabs_pos; assumption).
  assert (Q : d * (1 + B) <= 1). { apply Rle_trans with (/ (1 + B) * (1 + B)); [apply Rmult_le_compat_r; lra|]. rewrite Rinv_l by lra. lra. }
  assert (Q2 : d * Rabs (x' * y') <= d * B) by (apply Rmult_le_compat_l; lra).
  destruct (acc_mul d A HA x' y') as (z & E & Hz); [lra|]. exists z. split; [exact E|].
  assert (E1 : x' * y' - x * y = x' * (y' - y) + (x' - x) * y) by ring.
  assert (E2 : Rabs (x' * y' - x * y) <= (2 * M + C) * C * d).
  { rewrite E1. eapply Rle_trans; [apply Rabs_triang|]. rewrite !Rabs_mult. assert (Rabs x' * Rabs (y' - y) <= (M + C) * (C * d)) by (apply Rmult_le_compat; try apply Rabs_pos; assumption). assert (Rabs (x' - x) * Rabs y <= C * d * M) by (apply Rmult_le_compat; try apply Rabs_pos; assumption). lra. }
  replace (z - x * y) with ((z - x' * y') + (x' * y' - x * y)) by ring. eapply Rle_trans; [apply Rabs_triang|]. lra.
Qed.
Lemma sub_u M C : 0 <= M -> 0 <= C -> exists r C', 0 < r /\ 0 <= C' /\ forall d A x y x' y', 0 <= d < r -> accurate d A -> Rabs x <= M -> Rabs y <= M -> Rabs (x' - x) <= C * d -> Rabs (y' - y) <= C * d ->
  exists z, a_sub A x' y' = Ok z /\ Rabs (z - (x - y)) <= C' * d.
Proof.
  intros HM HC. set (B := 2 * (M + C)). assert (HB : 0 <= B) by (unfold B; lra).
  exists (Rmin 1 (/ (1 + B))), (2 * C + (1 + B)). split; [apply Rmin_pos; [lra|apply Rinv_0_lt_compat; lra]|]. split; [lra|].
  intros d A x y x' y' Hd HA Hx Hy Hx' Hy'. assert (D1 := Rmin_l 1 (/ (1 + B))). assert (D2 := Rmin_r 1 (/ (1 + B))).
  assert (Cd : 0 <= C * d <= C) by (split; [apply Rmult_le_pos; lra|]; rewrite <- (Rmult_1_r C) at 2; apply Rmult_le_compat_l; lra).
  assert (E2 : Rabs ((x' - y') - (x - y)) <= 2 * C * d). { replace ((x' - y') - (x - y)) with ((x' - x) + - (y' - y)) by ring. eapply Rle_trans; [apply Rabs_triang|]. rewrite Rabs_Ropp. lra. }
  assert (P : Rabs (x' - y') <= B). { replace (x' - y') with (((x' - y') - (x - y)) + (x + - y)) by ring. eapply Rle_trans; [apply Rabs_triang|]. assert (Z := Rabs_triang x (- y)). rewrite Rabs_Ropp in Z. unfold B. lra. }
  assert (Q : d * (1 + B) <= 1). { apply Rle_trans with (/ (1 + B) * (1 + B)); [apply Rmult_le_compat_r; lra|]. rewrite Rinv_l by lra. lra. }
  assert (Q2 : d * Rabs (x' - y') <= d * B) by (apply Rmult_le_compat_l; lra).
  destruct (acc_sub d A HA x' y') as (z & E & Hz); [lra|]. exists z. split; [exact E|].
  replace (z - (x - y)) with ((z - (x' - y')) + ((x' - y') - (x - y))) by ring. eapply Rle_trans; [apply Rabs_triang|]. lra.
Qed.
Lemma div_u M m C : 0 <= M -> 0 < m -> 0 <= C -> exists r C', 0 < r /\ 0 <= C' /\ forall d A x y x' y', 0 <= d < r -> accurate d A -> Rabs x <= M -> m <= Rabs y -> Rabs (x' - x) <= C * d -> Rabs (y' - y) <= C * d ->
  y' <> 0 /\ exists z, a_div A x' y' = Ok z /\ Rabs (z - x / y) <= C' * d.
Proof.
  intros HM Hm HC. set (B := (M + C) * (2 / m)). assert (P2 : 0 < 2 / m) by (apply Rdiv_lt_0_compat; lra). assert (HB : 0 <= B) by (unfold B; apply Rmult_le_pos; lra).
  set (r1 := m / (2 * (C + 1))). assert (Hr1 : 0 < r1) by (unfold r1; apply Rdiv_lt_0_compat; lra).
  set (C1 := 2 / m * C + M * C * (2 / m * / m)). assert (HC1 : 0 <= C1). { unfold C1. assert (0 < / m) by (apply Rinv_0_lt_compat; lra). apply Rplus_le_le_0_compat; repeat apply Rmult_le_pos; lra. }
  exists (Rmin (Rmin 1 r1) (/ (1 + B))), (C1 + (1 + B)). split; [repeat apply Rmin_pos; try lra; apply Rinv_0_lt_compat; lra|]. split; [lra|].
  intros d A x y x' y' Hd HA Hx Hy Hx' Hy'. assert (D1 := Rmin_l (Rmin 1 r1) (/ (1 + B))). assert (D2 := Rmin_r (Rmin 1 r1) (/ (1 + B))). assert (D3 := Rmin_l 1 r1). assert (D4 := Rmin_r 1 r1).
  assert (Cd : 0 <= C * d <= C) by (split; [apply Rmult_le_pos; lra|]; rewrite <- (Rmult_1_r C) at 2; apply Rmult_le_compat_l; lra).
  assert (Cm : C * d <= m / 2). { apply Rle_trans with ((C + 1) * r1); [apply Rmult_le_compat; lra|]. unfold r1. right. field. lra. }
  assert (Y : m / 2 <= Rabs y'). { replace y with (y' + - (y' - y)) in Hy by ring. assert (Z := Rabs_triang y' (- (y' - y))). rewrite Rabs_Ropp in Z. lra. }
  assert (Ny' : y' <> 0) by (intros ->; rewrite Rabs_R0 in Y; lra). assert (Ny : y <> 0) by (intros ->; rewrite Rabs_R0 in Hy; lra). split; [exact Ny'|].
  assert (Iy' : Rabs (/ y') <= 2 / m). { rewrite Rabs_inv. replace (2 / m) with (/ (m / 2)) by (field; lra). apply Rinv_le_contravar; lra. }
  assert (Iy : Rabs (/ y) <= / m). { rewrite Rabs_inv. apply Rinv_le_contravar; lra. }
  assert (X : Rabs x' <= M + C). { replace x' with (x + (x' - x)) by ring. eapply Rle_trans; [apply Rabs_triang|lra]. }
  assert (P : Rabs (x' / y') <= B) by (unfold Rdiv; rewrite Rabs_mult; unfold B; apply Rmult_le_compat; try apply Rabs_pos; assumption).
  assert (Q : d * (1 + B) <= 1). { apply Rle_trans with (/ (1 + B) * (1 + B)); [apply Rmult_le_compat_r; lra|]. rewrite Rinv_l by lra. lra. }
  assert (Q2 : d * Rabs (x' / y') <= d * B) by (apply Rmult_le_compat_l; lra).
  destruct (acc_div d A HA x' y' Ny') as (z & E & Hz); [lra|]. exists z. split; [exact E|].
  assert (E2 : Rabs (x' / y' - x / y) <= C1 * d).
  { replace (x' / y' - x / y) with ((x' - x) * / y' + x * (- (y' - y)) * (/ y' * / y)) by (field; split; assumption).
    eapply Rle_trans; [apply Rabs_triang|]. rewrite !Rabs_mult, Rabs_Ropp. unfold C1. rewrite Rmult_plus_distr_r. apply Rplus_le_compat.
    - replace (2 / m * C * d) with (C * d * (2 / m)) by ring. apply Rmult_le_compat; try apply Rabs_pos; assumption.
    - replace (M * C * (2 / m * / m) * d) with (M * (C * d) * (2 / m * / m)) by ring. apply Rmult_le_compat; [apply Rmult_le_pos; apply Rabs_pos|apply Rmult_le_pos; apply Rabs_pos| |]; apply Rmult_le_compat; try apply Rabs_pos; assumption. }
  replace (z - x / y) with ((z - x' / y') + (x' / y' - x / y)) by ring. eapply Rle_trans; [apply Rabs_triang|]. lra.
Qed.
