(** Model of src/einsteinpy/integrators/utils.py and integrators/fantasy.py (GeodesicIntegrator).
    Simplifications: exact reals; when a metric evaluation has no finite value the model stops with Err
    (the code raises ZeroDivisionError from the DualNumber evaluation, or carries inf/nan along). *)
From Coq Require Import Reals List ZArith Lra Bool.
From Verif Require Import Base DualModel GeoUtilsModel.
Import ListNotations.
Open Scope R_scope.

(** The two ways the flows use the metric callable. *)
Record metricfun := mkmetricfun { gval : V4 -> Res M4; gjac : V4 -> nat -> Res M4 }.

(** ... and how a metric program provides them (dual.py:204-238 and plain evaluation). *)
Definition metricfun_of (g : metricP) : metricfun :=
  mkmetricfun (metric_at g) (fun q k => jacobian_g g q (Z.of_nat k)).

(** A phase-space point of the doubled system: np.array([q1, p1, q2, p2]) *)
Definition state := Q4 V4.
Definition q1 (s : state) := c0 s. Definition p1 (s : state) := c1 s.
Definition q2 (s : state) := c2 s. Definition p2 (s : state) := c3 s.

(** integrators/utils.py:10-43  _PartHamFlow = J @ p @ p *)
Definition part_ham_flow (G : metricfun) (q p : V4) (wrt : nat) : Res R :=
  let* J := gjac G q wrt in Ok (dot (mv J p) p).

(** [0.5 * _PartHamFlow(...) for i in range(4)] *)
Definition ham_grad (G : metricfun) (q p : V4) : Res V4 :=
  q4seq (q4tab (fun i => mapR (fun x => / 2 * x) (part_ham_flow G q p i))).

(** integrators/utils.py:46-90  returns (q2_next, p1_next) *)
Definition flow_A (G : metricfun) (s : state) (delta : R) : Res (V4 * V4) :=
  let* dp1 := ham_grad G (q1 s) (p2 s) in
  let p1_next := vsub (p1 s) (vscal delta dp1) in
  let* g := gval G (q1 s) in
  let dq2 := mv g (p2 s) in
  let q2_next := vadd (q2 s) (vscal delta dq2) in
  Ok (q2_next, p1_next).

(** integrators/utils.py:93-149  returns (q1_next, p2_next) *)
Definition flow_B (G : metricfun) (s : state) (delta : R) : Res (V4 * V4) :=
  let* dp2 := ham_grad G (q2 s) (p1 s) in
  let p2_next := vsub (p2 s) (vscal delta dp2) in
  let* g := gval G (q2 s) in
  let dq1 := mv g (p1 s) in
  let q1_next := vadd (q1 s) (vscal delta dq1) in
  Ok (q1_next, p2_next).

(** integrators/utils.py:152-198 *)
Definition flow_mixed (s : state) (delta omega : R) : state :=
  let q_sum := vadd (q1 s) (q2 s) in
  let q_dif := vsub (q1 s) (q2 s) in
  let p_sum := vadd (p1 s) (p2 s) in
  let p_dif := vsub (p1 s) (p2 s) in
  let co := cos (2 * omega * delta) in
  let si := sin (2 * omega * delta) in
  mkQ4 (vscal (/ 2) (vadd (vadd q_sum (vscal co q_dif)) (vscal si p_dif)))
       (vscal (/ 2) (vsub (vadd p_sum (vscal co p_dif)) (vscal si q_dif)))
       (vscal (/ 2) (vsub (vsub q_sum (vscal co q_dif)) (vscal si p_dif)))
       (vscal (/ 2) (vadd (vsub p_sum (vscal co p_dif)) (vscal si q_dif))).

(** integrators/utils.py:201-219  (order is one of 4, 6, 8) *)
Definition Z01 (order : nat) : R * R :=
  let n := (INR order - 2) / 2 in
  let x := Rpower 2 (1 / (2 * n + 1)) in
  (- x / (2 - x), 1 / (2 - x)).

(** fantasy.py:160-167, 185-192 : HA block (rows q1, flow_A[1], flow_A[0], p2) *)
Definition apply_A (G : metricfun) (d : R) (s : state) : Res state :=
  let* qp := flow_A G s d in Ok (mkQ4 (q1 s) (snd qp) (fst qp) (p2 s)).
(** fantasy.py:168-175, 177-184 : HB block (rows flow_B[0], p1, q2, flow_B[1]) *)
Definition apply_B (G : metricfun) (d : R) (s : state) : Res state :=
  let* qp := flow_B G s d in Ok (mkQ4 (fst qp) (p1 s) (q2 s) (snd qp)).

(** fantasy.py:144-194 *)
Definition ord_2 (G : metricfun) (omega : R) (delta : R) (s : state) : Res state :=
  let* HA1 := apply_A G (/ 2 * delta) s in
  let* HB1 := apply_B G (/ 2 * delta) HA1 in
  let HC := flow_mixed HB1 delta omega in
  let* HB2 := apply_B G (/ 2 * delta) HC in
  apply_A G (/ 2 * delta) HB2.

(** Triple jump shared by _ord_4, _ord_6, _ord_8: the weights are _Z(self.order) in all three *)
Definition triple (order : nat) (f : R -> state -> Res state) (delta : R) (s : state) : Res state :=
  let Z := Z01 order in
  let* s1 := f (delta * snd Z) s in
  let* s2 := f (delta * fst Z) s1 in
  f (delta * snd Z) s2.

(** fantasy.py:196-215 *)
Definition ord_4 (G : metricfun) (omega : R) (order : nat) := triple order (ord_2 G omega).
(** fantasy.py:217-236 *)
Definition ord_6 (G : metricfun) (omega : R) (order : nat) := triple order (ord_4 G omega order).
(** fantasy.py:238-257 *)
Definition ord_8 (G : metricfun) (omega : R) (order : nat) := triple order (ord_6 G omega order).

(** fantasy.py:97-117: the ORDERS table *)
Definition integrator_of (order : nat) (G : metricfun) (omega : R) : Res (R -> state -> Res state) :=
  match order with
  | 2 => Ok (ord_2 G omega)
  | 4 => Ok (ord_4 G omega order)
  | 6 => Ok (ord_6 G omega order)
  | 8 => Ok (ord_8 G omega order)
  | _ => Err NotImplementedError
  end%nat.

(** fantasy.py:103-123: attributes of a GeodesicIntegrator that step() uses *)
Record integ := mkinteg {
  i_metric : metricfun; i_delta : R; i_omega : R; i_order : nat; i_rtol : R; i_atol : R;
  i_time_like : bool; i_suppress : bool;
  i_step_num : nat; i_res : state; i_results : list state }.

(** fantasy.py:25-123 *)
Definition mk_integrator (G : metricfun) (q0 p0 : V4) (time_like : bool) (delta rtol atol : R)
    (order : nat) (omega : R) (suppress : bool) : Res integ :=
  let* _ := integrator_of order G omega in
  Ok (mkinteg G delta omega order rtol atol time_like suppress 0 (mkQ4 q0 p0 q0 p0) []).

(** np.allclose(x, y, rtol, atol) for finite scalars *)
Definition np_allclose (x y rtol atol : R) : bool :=
  if Rle_dec (Rabs (x - y)) (atol + rtol * Rabs y) then true else false.

(** fantasy.py:271-286: is a warning due at this state?  A metric with no finite value there gives nan,
    which is never close. *)
Definition unstable (I : integ) (arr : state) : bool :=
  match gval (i_metric I) (q1 arr) with
  | Ok g => negb (np_allclose (dot (mv g (p1 arr)) (p1 arr)) (- b2R (i_time_like I)) (i_rtol I) (i_atol I))
  | Err _ => true
  end.

Inductive outcome := Done (warned : bool) | Raised (e : exn).

(** fantasy.py:259-292.  [strict] = the process turns warnings into errors (warnings.simplefilter("error")):
    then warnings.warn raises after res_list and step_num were updated but before results.append. *)
Definition step (strict : bool) (I : integ) : integ * outcome :=
  match integrator_of (i_order I) (i_metric I) (i_omega I) with
  | Err e => (I, Raised e)
  | Ok f =>
    match f (i_delta I) (i_res I) with
    | Err e => (I, Raised e)
    | Ok arr =>
      let I1 := mkinteg (i_metric I) (i_delta I) (i_omega I) (i_order I) (i_rtol I) (i_atol I) (i_time_like I)
                  (i_suppress I) (S (i_step_num I)) arr (i_results I) in
      let warn := negb (i_suppress I) && unstable I arr in
      if warn && strict then (I1, Raised RuntimeWarningExn)
      else (mkinteg (i_metric I) (i_delta I) (i_omega I) (i_order I) (i_rtol I) (i_atol I) (i_time_like I)
                  (i_suppress I) (S (i_step_num I)) arr (i_results I ++ [arr]), Done warn)
    end
  end.
