(** Floating-point model of the numeric metric classes (src/einsteinpy/metric): metric_covariant, christoffels and f_vec of Schwarzschild, Kerr and
    KerrNewman, operation by operation.  The arithmetic is a parameter ([arith] of FloatModel.v), and so is numpy.linalg.inv.
    Scalar code is a list of programs ([pexpr]) run by [runA]: variable 0 is lambda_, 1..4 are vec[0..3] (the position; r = 2, theta = 3), 5..8 are vec[4..7]
    (the velocity), and later variables hold intermediate values the code has stored.  A value used twice is written out twice: the operations are deterministic.
    np.zeros entries are [EConst 0]; M.value, a.value, Q.value, q.value and the constants are literals (converted to the float format by [a_num]). *)
From Coq Require Import String Reals List ZArith Lra Lia Bool.
From Coquelicot Require Import Coquelicot.
From Verif Require Import Base Calc DualModel GeoUtilsModel CoordModel ConvModel FantasyModel MetricModel MetricSpec FloatModel FloatRK.
Import ListNotations.
Open Scope R_scope.

(** what the code uses besides dictionaries and loops *)
Record fenv := mkfenv { fe_A : arith; fe_inv : M4 -> Res M4 }.
(** run a program on plain floats *)
Definition runF (A : arith) (env : nat -> R) (e : pexpr) : Res R := let* v := runA A (fun k => PF (env k)) e in pf_only v.
(** the stored variables: lambda_, vec, then l *)
Definition venv (t : R) (y : list R) (k : nat) : R := nth k (t :: y) 0.
Definition ext (n : nat) (env : nat -> R) (l : list R) (k : nat) : R := if Nat.ltb k n then env k else nth (k - n) l 0.
(** a 4x4 array computed entry by entry *)
Definition matF (A : arith) (env : nat -> R) (es : nat -> nat -> pexpr) : Res M4 := q4seq (q4tab (fun i => q4seq (q4tab (fun j => runF A env (es i j))))).
Definition mat_list (m : M4) : list R := map (fun k => mnth m (k / 4) (k mod 4)) (seq 0 16).

Notation "a .+ b" := (EAdd a b) (at level 50, left associativity).
Notation "a .- b" := (ESub a b) (at level 50, left associativity).
Notation "a .* b" := (EMul a b) (at level 40, left associativity).
Notation "a ./ b" := (EDiv a b) (at level 40, left associativity).
Notation "a .^ n" := (EPow a n%Z) (at level 30, right associativity).
Notation "# x" := (EConst x) (at level 5).

Section Model.
Variables (c G Cc : R) (o : mobj).
Let r := EVar 2.
Let th := EVar 3.
Let cE := EConst c.
Let GE := EConst G.
Let ME := EConst (q_val (mo_M o)).
Let aE := EConst (q_val (mo_a o)).

(** base_metric.py:214-231 *)
Definition schRadE : pexpr := #2 .* GE .* ME ./ cE .^ 2.
(** base_metric.py:233-266, after the range check *)
Definition alphaE : pexpr := aE .* (GE .* ME ./ cE .^ 2).
(** base_metric.py:125-152 *)
Definition sigmaE : pexpr := r .^ 2 .+ (alphaE .* ECos th) .^ 2.
(** base_metric.py:154-186, with Q = 0 *)
Definition deltaE : pexpr := r .^ 2 .- (#2 .* ME .* GE ./ cE .^ 2) .* r .+ alphaE .^ 2 .+ (#0 .^ 2 .* GE .* EConst Cc ./ cE .^ 4).
(** the check of base_metric.py:258-259 *)
Definition spin_check : Res unit := let* al := bm_alpha c G (NFloat (q_val (mo_M o))) (NFloat (q_val (mo_a o))) in Ok tt.

(** ---- schwarzschild.py ---- *)
(** schwarzschild.py:80-88 *)
Definition schCovE (i j : nat) : pexpr :=
  let tmp := #1 .- (schRadE ./ r) in
  match i, j with
  | 0, 0 => tmp .* cE .^ 2
  | 1, 1 => #(-1) ./ tmp
  | 2, 2 => ENeg (r .^ 2)
  | 3, 3 => ENeg ((r .* ESin th) .^ 2)
  | _, _ => #0
  end%nat.
(** schwarzschild.py:140-151; variable 9 holds 1 / np.tan(th) *)
Definition schChE (i j k : nat) : pexpr :=
  let rs := schRadE in
  let ch111 := #(/ 2) .* rs ./ (rs .* r .- r .^ 2) in
  match i, j, k with
  | 1, 0, 0 => #(/ 2) .* rs .* (r .- rs) .* cE .^ 2 ./ r .^ 3
  | 1, 1, 1 => ch111
  | 1, 2, 2 => rs .- r
  | 1, 3, 3 => (rs .- r) .* ESin th .^ 2
  | 0, 0, 1 | 0, 1, 0 => ENeg ch111
  | 2, 2, 1 | 2, 1, 2 | 3, 3, 1 | 3, 1, 3 => #1 ./ r
  | 2, 3, 3 => ENeg (ECos th) .* ESin th
  | 3, 3, 2 | 3, 2, 3 => EVar 9
  | _, _, _ => #0
  end%nat.
(** schwarzschild.py:211-222 *)
Definition schAccE (ch : nat -> nat -> nat -> pexpr) (i : nat) : pexpr :=
  let v4 := EVar 5 in let v5 := EVar 6 in let v6 := EVar 7 in let v7 := EVar 8 in
  match i with
  | 0 => #(-2) .* ch 0 0 1 .* v4 .* v5
  | 1 => #(-1) .* (ch 1 0 0 .* v4 .^ 2 .+ ch 1 1 1 .* v5 .^ 2 .+ ch 1 2 2 .* v6 .^ 2 .+ ch 1 3 3 .* v7 .^ 2)
  | 2 => #(-2) .* ch 2 2 1 .* v6 .* v5 .- #1 .* ch 2 3 3 .* v7 .^ 2
  | _ => #(-2) .* (ch 3 3 1 .* v7 .* v5 .+ ch 3 3 2 .* v7 .* v6)
  end%nat.

(** ---- kerr.py and kerrnewman.py: variable 9 is sigma (rho ** 2 in kerrnewman.py), 10 is delta, 11 .. 26 the entries of metric_contravariant ---- *)
Let sg := EVar 9.
Let dl := EVar 10.
Let al := alphaE.
(** kerr.py:132-143 *)
Definition kerrCovE (i j : nat) : pexpr :=
  match i, j with
  | 0, 0 => (#1 .- (schRadE .* r ./ sg)) .* cE .^ 2
  | 1, 1 => ENeg (sg ./ dl)
  | 2, 2 => ENeg sg
  | 3, 3 => ENeg ((r .^ 2 .+ al .^ 2 .+ (schRadE .* r .* (al .* ESin th) .^ 2) ./ sg) .* ESin th .^ 2)
  | 0, 3 | 3, 0 => (cE .* schRadE .* r .* al .* ESin th .^ 2) ./ sg
  | _, _ => #0
  end%nat.
(** kerr.py:177-207 *)
Definition kerrDgE (k i j : nat) : pexpr :=
  let rs := schRadE in
  let dsdr := #2 .* r in
  let dddr := #2 .* r .- rs in
  let tmp := rs .* (sg .- r .* dsdr) ./ sg .^ 2 in
  let s2 := ESin (#2 .* th) in
  let dsdth := ENeg (al .^ 2) .* s2 in
  match k, i, j with
  | 1, 0, 0 => ENeg tmp .* cE .^ 2
  | 1, 1, 1 => ENeg (dsdr .- (sg .* (dddr ./ dl))) ./ dl
  | 1, 2, 2 => ENeg dsdr
  | 1, 3, 3 => (#(-2) .* r .+ (al .* ESin th) .^ 2 .* tmp) .* ESin th .^ 2
  | 1, 0, 3 | 1, 3, 0 => cE .* al .* ESin th .^ 2 .* tmp
  | 2, 0, 0 => (cE ./ sg) .^ 2 .* rs .* r .* dsdth
  | 2, 1, 1 => ENeg (dsdth ./ dl)
  | 2, 2, 2 => ENeg dsdth
  | 2, 3, 3 => ENeg s2 .* (r .^ 2 .+ al .^ 2) .- (rs .* r .* al .^ 2) .* (ESin th ./ sg) .^ 2 .* (#2 .* sg .* s2 .- ESin th .^ 2 .* dsdth)
  | 2, 0, 3 | 2, 3, 0 => ((cE .* al .* rs .* r) ./ sg .^ 2) .* (sg .* s2 .- dsdth .* ESin th .^ 2)
  | _, _, _ => #0
  end%nat.
(** kerrnewman.py:143-152 *)
Definition knCovE (i j : nat) : pexpr :=
  match i, j with
  | 0, 0 => cE .^ 2 .* ((dl .- (al .* ESin th) .^ 2) ./ sg)
  | 1, 1 => ENeg sg ./ dl
  | 2, 2 => ENeg sg
  | 3, 3 => ENeg (ESin th .^ 2 .* (((r .^ 2 .+ al .^ 2) .^ 2 .- dl .* (al .* ESin th) .^ 2) ./ sg))
  | 0, 3 | 3, 0 => cE .* ((ENeg al .* ESin th .^ 2 .* (dl .- r .^ 2 .- al .^ 2)) ./ sg)
  | _, _ => #0
  end%nat.
(** kerrnewman.py:186-235 *)
Definition knDgE (k i j : nat) : pexpr :=
  let drh2dr := #2 .* r in
  let dddr := #2 .* r .- schRadE in
  let s2 := ESin (#2 .* th) in
  let drh2dth := ENeg (al .^ 2) .* s2 in
  let as2 := (al .* ESin th) .^ 2 in
  match k, i, j with
  | 1, 0, 0 => cE .^ 2 .* (dddr .* sg .- drh2dr .* (dl .- as2)) ./ sg .^ 2
  | 1, 1, 1 => (#(-1) ./ dl .^ 2) .* (drh2dr .* dl .- dddr .* sg)
  | 1, 2, 2 => ENeg drh2dr
  | 1, 3, 3 => (ESin th ./ sg) .^ 2 .* (((as2 .* dddr .- #4 .* r .^ 3 .- #4 .* (r .* al .^ 2)) .* sg) .- (drh2dr .* (as2 .* dl .- (r .^ 2 .+ al .^ 2) .^ 2)))
  | 1, 0, 3 | 1, 3, 0 => (cE .* ENeg al .* ESin th .^ 2 ./ sg .^ 2) .* ((dddr .- #2 .* r) .* sg .- drh2dr .* (dl .- r .^ 2 .- al .^ 2))
  | 2, 0, 0 => ENeg ((cE ./ sg) .^ 2) .* ((drh2dth .* (dl .- as2)) .+ (al .^ 2 .* sg .* s2))
  | 2, 1, 1 => ENeg drh2dth ./ dl
  | 2, 2, 2 => ENeg drh2dth
  | 2, 3, 3 => (#1 ./ sg .^ 2) .* ((dl .* as2) .* (#2 .* sg .* s2 .- drh2dth .* ESin th .^ 2) .- ((r .^ 2 .+ al .^ 2) .^ 2 .* (sg .* s2 .- drh2dth .* ESin th .^ 2)))
  | 2, 0, 3 | 2, 3, 0 => ((ENeg al .* cE .* (dl .- r .^ 2 .- al .^ 2)) ./ sg .^ 2) .* (s2 .* sg .- drh2dth .* ESin th .^ 2)
  | _, _, _ => #0
  end%nat.
Definition gcE (i j : nat) : pexpr := EVar (11 + (4 * i + j)).
End Model.
(** kerr.py:268-283 = kerrnewman.py:295-311 *)
Definition set3E (a : nat -> nat -> nat -> pexpr) (i j k : nat) (v : pexpr) : nat -> nat -> nat -> pexpr :=
  fun i' j' k' => if (Nat.eqb i i' && Nat.eqb j j' && Nat.eqb k k')%bool then v else a i' j' k'.
Definition set3sE (a : nat -> nat -> nat -> pexpr) (i j k : nat) (v : pexpr) := set3E (set3E a i j k v) i k j v.
Definition blChE (dg : nat -> nat -> nat -> pexpr) : nat -> nat -> nat -> pexpr :=
  let chl := fold_left (fun chl '(_, k, l) =>
    let val1 := dg l 0%nat k .+ dg k 0%nat l in
    let val2 := dg l 3%nat k .+ dg k 3%nat l in
    let chl := set3sE chl 0 k l (#(/ 2) .* (gcE 0 0 .* val1 .+ gcE 0 3 .* val2)) in
    set3sE chl 3 k l (#(/ 2) .* (gcE 3 0 .* val1 .+ gcE 3 3 .* val2))) (slice 0 4 nonzero_list) (fun _ _ _ => #0) in
  let chl := fold_left (fun chl '(i, k, l) =>
    set3E chl i k l (#(/ 2) .* (gcE i i .* (dg l i k .+ dg k i l .- dg i k l)))) (slice 8 16 nonzero_list) chl in
  fold_left (fun chl '(i, k, l) =>
    set3sE chl i k l (#(/ 2) .* (gcE i i .* (dg l i k .+ dg k i l .- dg i k l)))) (slice 16 20 nonzero_list) chl.
(** kerr.py:345-375 = kerrnewman.py:379-406 *)
Definition blAccE (ch : nat -> nat -> nat -> pexpr) (i : nat) : pexpr :=
  let v4 := EVar 5 in let v5 := EVar 6 in let v6 := EVar 7 in let v7 := EVar 8 in
  match i with
  | 0 | 3 => #(-2) .* (ch i 0 1 .* v4 .* v5 .+ ch i 0 2 .* v4 .* v6 .+ ch i 1 3 .* v5 .* v7 .+ ch i 2 3 .* v6 .* v7)
  | _ => #(-1) .* (ch i 0 0 .* v4 .* v4 .+ #2 .* ch i 0 3 .* v4 .* v7 .+ ch i 1 1 .* v5 .* v5 .+ #2 .* ch i 1 2 .* v5 .* v6
                   .+ ch i 2 2 .* v6 .* v6 .+ ch i 3 3 .* v7 .* v7)
  end%nat.
(** kerrnewman.py:483-507; variable 11 is r_Q *)
Definition emE (c G : R) (o : mobj) (i j : nat) : pexpr :=
  let r := EVar 2 in let th := EVar 3 in let rho2 := EVar 9 in let r_Q := EVar 11 in
  let al := alphaE c G o in
  let F01 := ENeg (r_Q .* (rho2 .- #2 .* r .* r)) ./ rho2 .^ 2 in
  let F02 := (r .* r_Q .* ENeg (al .^ 2 .* ESin (#2 .* th))) ./ rho2 .^ 2 in
  let F13 := (#1 ./ rho2 .^ 2) .* (al .* r_Q .* ESin th .^ 2) .* (rho2 .- #2 .* r .^ 2) in
  let F23 := (#1 ./ rho2 .^ 2) .* (al .* r_Q .* r .* ESin (#2 .* th)) .* (rho2 .+ (al .* ESin th) .^ 2) in
  match i, j with
  | 0, 1 => F01 | 1, 0 => ENeg F01
  | 0, 2 => F02 | 2, 0 => ENeg F02
  | 1, 3 => F13 | 3, 1 => ENeg F13
  | 2, 3 => F23 | 3, 2 => ENeg F23
  | _, _ => #0
  end%nat.

Section Run.
Variables (e : fenv) (c G Cc : R) (o : mobj).
Let A := fe_A e.
(** numpy a @ b of two 4x4 arrays: inner products *)
Definition mmA (m k : M4) : Res M4 := q4seq (q4tab (fun i => q4seq (q4tab (fun j => a_dot A (q4nth m i) (q4nth (transpose k) j))))).
(** the position part of vec *)
Definition xv (x : V4) : list R := [c0 x; c1 x; c2 x; c3 x].

(** schwarzschild.py:39-90 *)
Definition sch_covA (x : V4) : Res M4 :=
  match mo_sys o with Sph => matF A (venv 0 (xv x)) (schCovE c G o) | _ => Err CoordinateError end.
(** 1 / np.tan(th), schwarzschild.py:151 *)
Definition cotA (x : R) : Res R := let* t := a_tan A x in a_div A 1 t.
Definition arr3A (env : nat -> R) (es : nat -> nat -> nat -> pexpr) : Res (Q4 M4) := q4seq (q4tab (fun i => matF A env (es i))).
(** schwarzschild.py:92-153 *)
Definition sch_chA (x : V4) : Res (Q4 M4) :=
  match mo_sys o with
  | Sph => let* k := cotA (c2 x) in arr3A (ext 9 (venv 0 (xv x)) [k]) (schChE c G o)
  | _ => Err CoordinateError
  end.
(** schwarzschild.py:155-224: vals[:4] = vec[4:], then vals[4..7] *)
Definition sch_fA (lambda_ : R) (vec : list R) : Res (list R) :=
  match mo_sys o with
  | Sph =>
      let env := venv lambda_ vec in
      let* k := cotA (env 3%nat) in
      tabR 8 (fun i => if Nat.ltb i 4 then Ok (env (5 + i)%nat) else runF A (ext 9 env [k]) (schAccE (schChE c G o) (i - 4)))
  | _ => Err CoordinateError
  end.

(** kerr.py:127-130: sigma and delta *)
Definition kerr_parA (env : nat -> R) : Res (nat -> R) :=
  let* _ := spin_check c G o in
  let* sg := runF A env (sigmaE c G o) in let* dl := runF A env (deltaE c G Cc o) in Ok (ext 9 env [sg; dl]).
(** kerrnewman.py:136-139: rho ** 2 and delta; rho is np.sqrt of sigma (base_metric.py:188-212) *)
Definition kn_parA (env : nat -> R) : Res (nat -> R) :=
  let* _ := spin_check c G o in
  let* sg := runF A env (sigmaE c G o) in let* rh := a_sqrt A sg in let* rho2 := a_pow A rh 2 in
  let* dl := runF A env (deltaE c G Cc o) in Ok (ext 9 env [rho2; dl]).
(** kerr.py:79-145 / kerrnewman.py:88-154 *)
Definition bl_covA (par : (nat -> R) -> Res (nat -> R)) (cov : nat -> nat -> pexpr) (env : nat -> R) : Res M4 :=
  match mo_sys o with BL => let* env1 := par env in matF A env1 cov | _ => Err CoordinateError end.
(** base_metric.py:373-396 *)
Definition bl_invA (par : (nat -> R) -> Res (nat -> R)) (cov : nat -> nat -> pexpr) (env : nat -> R) : Res M4 :=
  let* g := bl_covA par cov env in fe_inv e g.
(** kerr.py:214-285 / kerrnewman.py:242-313: the variables after metric_contravariant has been computed *)
Definition bl_envA (par : (nat -> R) -> Res (nat -> R)) (cov : nat -> nat -> pexpr) (env : nat -> R) : Res (nat -> R) :=
  let* gc := bl_invA par cov env in
  let* env1 := par env in Ok (ext 11 env1 (mat_list gc)).
Definition bl_chA (par : (nat -> R) -> Res (nat -> R)) (cov : nat -> nat -> pexpr) (dg : nat -> nat -> nat -> pexpr) (env : nat -> R) : Res (Q4 M4) :=
  let* env2 := bl_envA par cov env in arr3A env2 (blChE dg).
(** the geodesic part of f_vec: kerr.py:321-377 = kerrnewman.py:375-406 *)
Definition bl_accA (par : (nat -> R) -> Res (nat -> R)) (cov : nat -> nat -> pexpr) (dg : nat -> nat -> nat -> pexpr) (env : nat -> R) : Res V4 :=
  let* env2 := bl_envA par cov env in q4seq (q4tab (fun i => runF A env2 (blAccE (blChE dg) i))).
Definition kerr_covA (x : V4) : Res M4 := bl_covA kerr_parA (kerrCovE c G o) (venv 0 (xv x)).
Definition kn_covA (x : V4) : Res M4 := bl_covA kn_parA (knCovE c G o) (venv 0 (xv x)).
Definition kerr_chA (x : V4) : Res (Q4 M4) := bl_chA kerr_parA (kerrCovE c G o) (kerrDgE c G o) (venv 0 (xv x)).
Definition kn_chA (x : V4) : Res (Q4 M4) := bl_chA kn_parA (knCovE c G o) (knDgE c G o) (venv 0 (xv x)).
Definition kerr_fA (lambda_ : R) (vec : list R) : Res (list R) :=
  let env := venv lambda_ vec in
  let* a := bl_accA kerr_parA (kerrCovE c G o) (kerrDgE c G o) env in
  Ok (map (fun i => if Nat.ltb i 4 then env (5 + i)%nat else q4nth a (i - 4)) (seq 0 8)).
(** kerrnewman.py:465-533 *)
Definition em_covA (env : nat -> R) : Res M4 :=
  let* env1 := kn_parA env in
  let* rQ2 := runF A env (#(q_val (mo_Q o)) .^ 2 .* EConst G .* EConst Cc ./ EConst c .^ 4) in
  let* rQ := a_sqrt A rQ2 in matF A (ext 11 env1 [rQ]) (emE c G o).
Definition em_contraA (env : nat -> R) : Res M4 :=
  let* F := em_covA env in let* gc := bl_invA kn_parA (knCovE c G o) env in
  let* m := mmA gc F in mmA m gc.
(** kerrnewman.py:349-410 *)
Definition kn_fA (lambda_ : R) (vec : list R) : Res (list R) :=
  let env := venv lambda_ vec in
  let v := q4tab (fun i => env (5 + i)%nat) in
  let* a := bl_accA kn_parA (knCovE c G o) (knDgE c G o) env in
  let* F := em_contraA env in
  let* g := bl_covA kn_parA (knCovE c G o) env in
  let* w := mvA A F v in let* w := mvA A (transpose g) w in
  let* q := a_num A (q_val (mo_q o)) in
  let* w := vscalA A q w in let* a := vsubA A a w in
  Ok (map (fun i => if Nat.ltb i 4 then env (5 + i)%nat else q4nth a (i - 4)) (seq 0 8)).
End Run.
(** base_metric.py:373-396: metric_contravariant *)
Definition contraA (e : fenv) (cov : V4 -> Res M4) (x : V4) : Res M4 := let* g := cov x in fe_inv e g.
