(** Textbook covariant line elements in M-units (G = c = M = 1), signature (-,+,+,+). *)
From Coq Require Import Reals.
From Verif Require Import Base DualModel DualSpec.
Open Scope R_scope.

Definition SigmaS (r th a : R) := r * r + a * a * (cos th * cos th).
Definition DeltaS (r a Q : R) := r * r - 2 * r + a * a + Q * Q.

(** Kerr-Newman, Boyer-Lindquist coordinates (t, r, theta, phi):
    ds2 = -(1 - (2r-Q2)/Sigma) dt2 - 2 (2r-Q2) a sin2/Sigma dt dphi + Sigma/Delta dr2 + Sigma dtheta2
          + sin2 (r2 + a2 + (2r-Q2) a2 sin2/Sigma) dphi2 *)
Definition kn_cov (a Q r th : R) : M4 :=
  let S := SigmaS r th a in let D := DeltaS r a Q in let s2 := sin th * sin th in
  let w := 2 * r - Q * Q in
  mkQ4 (mkQ4 (- (1 - w / S)) 0 0 (- (w * a * s2 / S)))
       (mkQ4 0 (S / D) 0 0)
       (mkQ4 0 0 S 0)
       (mkQ4 (- (w * a * s2 / S)) 0 0 (s2 * (r * r + a * a + w * (a * a) * s2 / S))).

(** Schwarzschild: -(1-2/r) dt2 + dr2/(1-2/r) + r2 dtheta2 + r2 sin2 dphi2 *)
Definition sch_cov (r th : R) : M4 :=
  mkQ4 (mkQ4 (- (1 - 2 / r)) 0 0 0)
       (mkQ4 0 (1 / (1 - 2 / r)) 0 0)
       (mkQ4 0 0 (r * r) 0)
       (mkQ4 0 0 0 (r * r * (sin th * sin th))).

(** Values of the entries of a metric program. *)
Definition metric_meaning (g : metricP) (q : nat -> R) : M4 := q4map (q4map (meaning q)) g.
Definition metric_defined (g : metricP) (q : nat -> R) : Prop :=
  forall i j, (i < 4)%nat -> (j < 4)%nat -> defined_at q (mnth g i j).
(** [f] with its k-th argument replaced *)
Definition upd (f : nat -> R) (k : nat) (s : R) : nat -> R := fun i => if Nat.eqb i k then s else f i.
