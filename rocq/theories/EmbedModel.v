(** Model of hypersurface/schwarzschildembedding.py.  M is the mass in units of 10^23 kg (M.value); r_init.value is
    3 M + 0.0001 (lines 38-44: the conversion to the unit m / M multiplies by M).
    numpy's nan and inf are [None]: they propagate and raise nothing. *)
From Coq Require Import Reals List Arith Lra.
Import ListNotations.
Open Scope R_scope.

Definition eadd (a b : option R) : option R := match a, b with Some x, Some y => Some (x + y) | _, _ => None end.
Definition emul (a b : option R) : option R := match a, b with Some x, Some y => Some (x * y) | _, _ => None end.
(** x / y *)
Definition ediv (x y : R) : option R := if Req_EM_T y 0 then None else Some (x / y).
Definition esqrt (x : R) : option R := if Rlt_dec x 0 then None else Some (sqrt x).
Definition obind {A B} (o : option A) (f : A -> option B) : option B := match o with Some a => f a | None => None end.
Notation "'do' x <- o ; k" := (obind o (fun x => k)) (at level 200, x name, o at level 100, k at level 200, right associativity).

(** lines 75-91 [r / np.sqrt(1 - 2M/r)] *)
Definition radial_coord (M r : R) : option R :=
  do q <- ediv (2 * M) r; do s <- esqrt (1 - q); ediv r s.
(** lines 46-73 *)
Definition gradient (M r : R) : option R :=
  do R <- radial_coord M r;
  do q3 <- ediv (3 * M) r;
  let num_one := 1 - q3 in
  do w <- ediv ((4 * M * r - 9 * M * M) * R) ((r - 3 * M) ^ 2);
  do num_two <- esqrt w;
  do q2 <- ediv (2 * M) r;
  do s <- esqrt (1 - q2);
  ediv (num_one * num_two) (s ^ 3).

(** a while loop: [wloop cond next out s l] holds when the loop entered in state s terminates having appended l *)
Inductive wloop {S O : Type} (cond : S -> Prop) (next : S -> S) (out : S -> O) : S -> list O -> Prop :=
| w_stop s : ~ cond s -> wloop cond next out s []
| w_go s l : cond s -> wloop cond next out (next s) l -> wloop cond next out s (out s :: l).

Definition r_init (M : R) : R := 3 * M + 1 / 10000.
Definition state := (R * option R)%type.   (* r, z *)
Definition emit (M : R) (s : state) : option R * option R := (radial_coord M (fst s), snd s).
(** z = z + gradient(r) * r_step; r = r +- r_step *)
Definition advance (M r_step sgn : R) (s : state) : state :=
  (fst s + sgn * r_step, eadd (snd s) (emul (gradient M (fst s)) (Some r_step))).
Definition start (M : R) : state := (r_init M, Some 0).
Definition loop_up (M alpha bound : R) := wloop (fun s : state => fst s < bound * M) (advance M (M / alpha) 1) (emit M) (start M).
Definition loop_down (M alpha : R) := wloop (fun s : state => fst s > 9 * M / 4) (advance M (M / alpha) (-1)) (emit M) (start M).
(** lines 93-132: the call returns (x_axis, y_axis) *)
Definition get_values (M alpha : R) (x_axis y_axis : list (option R)) : Prop :=
  exists l1 l2, loop_up M alpha 9 l1 /\ loop_down M alpha l2 /\ x_axis = map fst (l1 ++ l2) /\ y_axis = map snd (l1 ++ l2).
(** np.linspace(0, 2 pi, 60) *)
Definition phi_values : list R := map (fun k => INR k * (2 * PI / 59)) (seq 0 60).
(** lines 134-172: X and Y have shape (60, n); Z is one-dimensional: [Z.reshape(...)] on line 171 is not assigned *)
Definition get_values_surface (M alpha : R) (X Y : list (list (option R))) (Z : list (option R)) : Prop :=
  exists l, loop_up M alpha 20 l /\
  X = map (fun phi => map (fun o => emul (fst o) (Some (cos phi))) l) phi_values /\
  Y = map (fun phi => map (fun o => emul (fst o) (Some (sin phi))) l) phi_values /\
  Z = fold_left (fun Z _ => Z ++ map snd l) (seq 0 (List.length X - 1)) (map snd l).
