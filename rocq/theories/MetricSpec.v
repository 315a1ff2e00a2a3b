(** Specification vocabulary for C32-C43: derivatives of a metric along paths, matrix inverse, Levi-Civita connection. *)
From Coq Require Import Reals List ZArith Lra Lia Bool.
From Coquelicot Require Import Coquelicot.
From Verif Require Import Base Calc MetricModel.
Open Scope R_scope.

Definition sum4 (f : nat -> R) : R := f 0%nat + f 1%nat + f 2%nat + f 3%nat.
(** entry (i,j) of the returned array; the value 0 on failure is never used: every specification also asks for success *)
Definition entry (r : Res M4) (i j : nat) : R := match r with Ok g => mnth g i j | Err _ => 0 end.
Definition is_inverse (g gi : M4) : Prop := mm g gi = id4 /\ mm gi g = id4.

(** x with coordinate k replaced by s *)
Definition upd (x : V4) (k : nat) (s : R) : V4 := q4tab (fun i => if Nat.eqb i k then s else q4nth x i).
(** p is a path through [p t] with velocity v at t *)
Definition has_velocity (p : R -> V4) (t : R) (v : V4) : Prop :=
  forall k, (k < 4)%nat -> is_derive (fun s => q4nth (p s) k) t (q4nth v k).
(** dg k i j = d g_ij / d x^k: the derivative of every entry along every differentiable path through x *)
Definition is_gradient (cov : V4 -> Res M4) (x : V4) (dg : arr3) : Prop :=
  forall (p : R -> V4) (t : R) (v : V4), p t = x -> has_velocity p t v ->
    locally t (fun s => exists g, cov (p s) = Ok g)
    /\ forall i j, (i < 4)%nat -> (j < 4)%nat ->
       is_derive (fun s => entry (cov (p s)) i j) t (sum4 (fun k => dg k i j * q4nth v k)).
(** dg k i j is the partial derivative *)
Definition is_partials (cov : V4 -> Res M4) (x : V4) (dg : arr3) : Prop :=
  forall k i j, (k < 4)%nat -> (i < 4)%nat -> (j < 4)%nat ->
    is_derive (fun s => entry (cov (upd x k s)) i j) (q4nth x k) (dg k i j).

Definition levi_civita (gi : M4) (dg : arr3) : arr3 := fun i k l =>
  / 2 * sum4 (fun m => mnth gi i m * (dg l m k + dg k m l - dg m k l)).
(** ch is the Levi-Civita connection of the metric at x *)
Definition is_connection (cov : V4 -> Res M4) (x : V4) (ch : arr3) : Prop :=
  exists g gi dg, cov x = Ok g /\ is_inverse g gi /\ is_gradient cov x dg
    /\ forall i k l, (i < 4)%nat -> (k < 4)%nat -> (l < 4)%nat -> ch i k l = levi_civita gi dg i k l.
(** - Gamma^i_kl v^k v^l *)
Definition geodesic_accel (ch : arr3) (v : V4) : V4 :=
  q4tab (fun i => - sum4 (fun k => sum4 (fun l => ch i k l * q4nth v k * q4nth v l))).
(** g(v,w) *)
Definition inner (g : M4) (v w : V4) : R := sum4 (fun i => sum4 (fun j => mnth g i j * q4nth v i * q4nth w j)).

Lemma gradient_partials cov x dg : is_gradient cov x dg -> is_partials cov x dg.
Proof.
  intros H k i j Hk Hi Hj.
  destruct (H (fun s => upd x k s) (q4nth x k) (q4tab (fun i => if Nat.eqb i k then 1 else 0))) as [_ D].
  - destruct x as [x0 x1 x2 x3]. destruct k as [|[|[|[|k]]]]; [..|lia]; reflexivity.
  - intros l Hl. unfold upd.
    assert (E : forall A (f : nat -> A) l, (l < 4)%nat -> q4nth (q4tab f) l = f l).
    { intros A f m Hm. destruct m as [|[|[|[|m]]]]; [..|lia]; reflexivity. }
    rewrite E by exact Hl. apply D_ext with (f := fun s => if Nat.eqb l k then s else q4nth x l).
    { intros s. rewrite E by exact Hl. reflexivity. }
    destruct (Nat.eqb l k); [apply D_id|apply D_const].
  - specialize (D i j Hi Hj). eapply D_eq; [exact D|].
    unfold sum4, q4tab. destruct k as [|[|[|[|k]]]]; [..|lia]; cbn [q4nth c0 c1 c2 c3 Nat.eqb]; ring.
Qed.

(** textbook Kerr-Newman metric (c restored, signature +---), Delta = r^2 - r_s r + a^2 + r_Q^2, rho^2 = r^2 + a^2 cos^2 *)
Definition kn_textbook (c al r_s rQ2 r th : R) : M4 :=
  let rho2 := r ^ 2 + (al * cos th) ^ 2 in
  let w := (r_s * r - rQ2) / rho2 in
  mkQ4 (mkQ4 (c ^ 2 * (1 - w)) 0 0 (c * al * sin th ^ 2 * w))
       (mkQ4 0 (- rho2 / (r ^ 2 - r_s * r + al ^ 2 + rQ2)) 0 0)
       (mkQ4 0 0 (- rho2) 0)
       (mkQ4 (c * al * sin th ^ 2 * w) 0 0 (- (r ^ 2 + al ^ 2 + al ^ 2 * sin th ^ 2 * w) * sin th ^ 2)).

(** dA k i = d A_i / d x^k, along every differentiable path through x *)
Definition ventry (r : Res V4) (i : nat) : R := match r with Ok a => q4nth a i | Err _ => 0 end.
Definition is_vgradient (A : V4 -> Res V4) (x : V4) (dA : nat -> nat -> R) : Prop :=
  forall (p : R -> V4) (t : R) (v : V4), p t = x -> has_velocity p t v ->
    locally t (fun s => exists a, A (p s) = Ok a)
    /\ forall i, (i < 4)%nat -> is_derive (fun s => ventry (A (p s)) i) t (sum4 (fun k => dA k i * q4nth v k)).
Definition antisymmetric4 (F : M4) : Prop := forall i j, (i < 4)%nat -> (j < 4)%nat -> mnth F i j = - mnth F j i.
