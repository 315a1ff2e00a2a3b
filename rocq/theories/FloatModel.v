(** Floating-point model of utils/dual.py, integrators/utils.py, integrators/fantasy.py and geodesic/geodesic.py: the same
    programs as DualModel.v, FantasyModel.v and GeodesicModel.v, with every arithmetic operation carried out by an arithmetic
    [A : arith] instead of on exact reals.  [exact] is the exact arithmetic; FloatExact.v proves that the programs below run on
    [exact] are the exact models.  FloatIEEE.v gives the IEEE formats as further instances.
    A float is represented by the real number it denotes; an operation whose result is inf or nan, or which raises, is [Err]. *)
From Coq Require Import Reals List ZArith Lra Bool.
From Verif Require Import Base DualModel GeoUtilsModel FantasyModel GeodesicModel.
Import ListNotations.
Open Scope R_scope.

(** The arithmetic the interpreter, numpy and libm provide.  [a_num] is the conversion of a literal or parameter to a float.
    [a_dot] is numpy's inner product of two vectors of length 4 (its summation order and use of FMA depend on the BLAS).
    Negation is exact in IEEE arithmetic and is not an operation here. *)
Record arith := mkarith {
  a_num : R -> Res R;
  a_add : R -> R -> Res R; a_sub : R -> R -> Res R; a_mul : R -> R -> Res R; a_div : R -> R -> Res R;
  a_pow : R -> Z -> Res R; a_powr : R -> R -> Res R;
  a_sin : R -> Res R; a_cos : R -> Res R; a_tan : R -> Res R; a_log : R -> Res R; a_exp : R -> Res R; a_sqrt : R -> Res R;
  a_dot : V4 -> V4 -> Res R }.

(** exact real arithmetic, with the exceptions of DualModel.v *)
Definition exact : arith := mkarith (fun x => Ok x) (fun x y => Ok (x + y)) (fun x y => Ok (x - y)) (fun x y => Ok (x * y)) fdiv
  fpowZ fpowR (fun x => Ok (sin x)) (fun x => Ok (cos x)) (fun x => fdiv (sin x) (cos x)) flog (fun x => Ok (exp x)) np_sqrt
  (fun v w => Ok (dot v w)).

(** What is assumed of an arithmetic with unit roundoff u: each operation returns a finite number within u (1 + |x|) of the exact
    result x (relative error u plus absolute error u: this includes rounding, gradual underflow and a libm accurate to a few ulp)
    whenever the exact result exists and is not larger than 1 / u in absolute value (so overflow is allowed beyond that). *)
Definition rounds (u : R) (r : Res R) (x : R) : Prop := exists v, r = Ok v /\ Rabs (v - x) <= u * (1 + Rabs x).
Definition absdot (v w : V4) : R := Rabs (c0 v * c0 w) + Rabs (c1 v * c1 w) + Rabs (c2 v * c2 w) + Rabs (c3 v * c3 w).
Record accurate (u : R) (A : arith) : Prop := mkacc {
  acc_num : forall x, u * Rabs x <= 1 -> rounds u (a_num A x) x;
  acc_add : forall x y, u * Rabs (x + y) <= 1 -> rounds u (a_add A x y) (x + y);
  acc_sub : forall x y, u * Rabs (x - y) <= 1 -> rounds u (a_sub A x y) (x - y);
  acc_mul : forall x y, u * Rabs (x * y) <= 1 -> rounds u (a_mul A x y) (x * y);
  acc_div : forall x y, y <> 0 -> u * Rabs (x / y) <= 1 -> rounds u (a_div A x y) (x / y);
  acc_pow : forall x n, x <> 0 \/ (0 <= n)%Z -> u * Rabs (powerRZ x n) <= 1 -> rounds u (a_pow A x n) (powerRZ x n);
  acc_powr : forall x p, 0 < x -> u * Rabs (Rpower x p) <= 1 -> rounds u (a_powr A x p) (Rpower x p);
  acc_sin : forall x, u * Rabs x <= 1 -> rounds u (a_sin A x) (sin x);
  acc_cos : forall x, u * Rabs x <= 1 -> rounds u (a_cos A x) (cos x);
  acc_tan : forall x, cos x <> 0 -> u * Rabs x <= 1 -> u * Rabs (tan x) <= 1 -> rounds u (a_tan A x) (tan x);
  acc_log : forall x, 0 < x -> u * Rabs (ln x) <= 1 -> rounds u (a_log A x) (ln x);
  acc_exp : forall x, u * exp x <= 1 -> rounds u (a_exp A x) (exp x);
  acc_sqrt : forall x, 0 <= x -> u * sqrt x <= 1 -> rounds u (a_sqrt A x) (sqrt x);
  acc_dot : forall v w, u * absdot v w <= 1 -> exists d, a_dot A v w = Ok d /\ Rabs (d - dot v w) <= u * (1 + absdot v w) }.

Section Programs.
Variable A : arith.

(** dual.py:43-49 *)
Definition d_addA (s : dual) (o : pyval) : Res dual :=
  match o with
  | PD o => let* v := a_add A (val s) (val o) in let* d := a_add A (deriv s) (deriv o) in Ok (mkdual v d)
  | PF o => let* v := a_add A (val s) o in Ok (mkdual v (deriv s))
  end.
(** dual.py:51-55 *)
Definition d_subA (s : dual) (o : pyval) : Res dual :=
  match o with
  | PD o => let* v := a_sub A (val s) (val o) in let* d := a_sub A (deriv s) (deriv o) in Ok (mkdual v d)
  | PF o => let* v := a_sub A (val s) o in Ok (mkdual v (deriv s))
  end.
(** dual.py:57-61 *)
Definition d_rsubA (s : dual) (o : pyval) : Res dual :=
  match o with
  | PD o => let* v := a_sub A (val o) (val s) in let* d := a_sub A (deriv o) (deriv s) in Ok (mkdual v d)
  | PF o => d_subA (mkdual o 0) (PD s)
  end.
(** dual.py:63-71 *)
Definition d_mulA (s : dual) (o : pyval) : Res dual :=
  match o with
  | PD o =>
      let* v := a_mul A (val s) (val o) in
      let* x := a_mul A (deriv s) (val o) in let* y := a_mul A (val s) (deriv o) in
      let* d := a_add A x y in Ok (mkdual v d)
  | PF o => let* v := a_mul A (val s) o in let* d := a_mul A (deriv s) o in Ok (mkdual v d)
  end.
(** dual.py:78-81: the quotient rule *)
Definition quotA (s o : dual) : Res dual :=
  let* v := a_div A (val s) (val o) in
  let* x := a_mul A (deriv s) (val o) in let* y := a_mul A (val s) (deriv o) in
  let* n := a_sub A x y in let* m := a_pow A (val o) 2 in
  let* d := a_div A n m in Ok (mkdual v d).
(** dual.py:73-83 *)
Definition d_truedivA (s : dual) (o : pyval) : Res dual :=
  match o with
  | PD o =>
      if Req_EM_T (val s) 0 then
        if Req_EM_T (val o) 0 then let* q := a_div A (deriv s) (deriv o) in Ok (mkdual q 0)
        else quotA s o
      else quotA s o
  | PF o => let* v := a_div A (val s) o in let* d := a_div A (deriv s) o in Ok (mkdual v d)
  end.
(** dual.py:85-95 (only reached with a float on the left) *)
Definition d_rtruedivA (s : dual) (o : R) : Res dual := d_truedivA (mkdual o 0) (PD s).
(** dual.py:106-109, integer power *)
Definition d_powZA (s : dual) (n : Z) : Res dual :=
  let* v := a_pow A (val s) n in
  let* k := a_num A (IZR n) in let* x := a_mul A (deriv s) k in let* w := a_pow A (val s) (n - 1) in
  let* d := a_mul A x w in Ok (mkdual v d).
(** dual.py:106-109, float power *)
Definition d_powRA (s : dual) (p : R) : Res dual :=
  let* v := a_powr A (val s) p in
  let* x := a_mul A (deriv s) p in let* p' := a_sub A p 1 in let* w := a_powr A (val s) p' in
  let* d := a_mul A x w in Ok (mkdual v d).
(** dual.py:111-124 *)
Definition d_sinA (s : dual) : Res dual :=
  let* v := a_sin A (val s) in let* x := a_cos A (val s) in let* d := a_mul A (deriv s) x in Ok (mkdual v d).
Definition d_cosA (s : dual) : Res dual :=
  let* v := a_cos A (val s) in let* x := a_sin A (val s) in let* d := a_mul A (- deriv s) x in Ok (mkdual v d).
Definition d_tanA (s : dual) : Res dual := let* x := d_sinA s in let* y := d_cosA s in d_truedivA x (PD y).
Definition d_logA (s : dual) : Res dual :=
  let* v := a_log A (val s) in let* d := a_div A (deriv s) (val s) in Ok (mkdual v d).
Definition d_expA (s : dual) : Res dual :=
  let* v := a_exp A (val s) in let* x := a_exp A (val s) in let* d := a_mul A (deriv s) x in Ok (mkdual v d).

(** operator dispatch, as in DualModel.v *)
Definition py_addA (a b : pyval) : Res pyval :=
  match a, b with
  | PF x, PF y => mapR PF (a_add A x y)
  | PD d, v => mapR PD (d_addA d v)
  | PF x, PD d => mapR PD (d_addA d (PF x))
  end.
Definition py_subA (a b : pyval) : Res pyval :=
  match a, b with
  | PF x, PF y => mapR PF (a_sub A x y)
  | PD d, v => mapR PD (d_subA d v)
  | PF x, PD d => mapR PD (d_rsubA d (PF x))
  end.
Definition py_mulA (a b : pyval) : Res pyval :=
  match a, b with
  | PF x, PF y => mapR PF (a_mul A x y)
  | PD d, v => mapR PD (d_mulA d v)
  | PF x, PD d => mapR PD (d_mulA d (PF x))
  end.
Definition py_divA (a b : pyval) : Res pyval :=
  match a, b with
  | PF x, PF y => mapR PF (a_div A x y)
  | PD d, v => mapR PD (d_truedivA d v)
  | PF x, PD d => mapR PD (d_rtruedivA d x)
  end.
Definition py_powZA (a : pyval) (n : Z) : Res pyval :=
  match a with PF x => mapR PF (a_pow A x n) | PD d => mapR PD (d_powZA d n) end.
Definition py_powRA (a : pyval) (p : R) : Res pyval :=
  match a with PF x => mapR PF (a_powr A x p) | PD d => mapR PD (d_powRA d p) end.
Definition py_sinA (a : pyval) : Res pyval := match a with PF x => mapR PF (a_sin A x) | PD d => mapR PD (d_sinA d) end.
Definition py_cosA (a : pyval) : Res pyval := match a with PF x => mapR PF (a_cos A x) | PD d => mapR PD (d_cosA d) end.
Definition py_tanA (a : pyval) : Res pyval := match a with PF x => mapR PF (a_tan A x) | PD d => mapR PD (d_tanA d) end.
Definition py_logA (a : pyval) : Res pyval := match a with PF x => mapR PF (a_log A x) | PD d => mapR PD (d_logA d) end.
Definition py_expA (a : pyval) : Res pyval := match a with PF x => mapR PF (a_exp A x) | PD d => mapR PD (d_expA d) end.

(** running a program on floats and/or DualNumbers *)
Fixpoint runA (env : nat -> pyval) (e : pexpr) : Res pyval :=
  match e with
  | EVar i => Ok (env i)
  | EConst x => mapR PF (a_num A x)
  | EAdd a b => let* u := runA env a in let* v := runA env b in py_addA u v
  | ESub a b => let* u := runA env a in let* v := runA env b in py_subA u v
  | EMul a b => let* u := runA env a in let* v := runA env b in py_mulA u v
  | EDiv a b => let* u := runA env a in let* v := runA env b in py_divA u v
  | ENeg a => let* u := runA env a in Ok (py_neg u)
  | EPow a n => let* u := runA env a in py_powZA u n
  | EPowR a p => let* u := runA env a in let* q := a_num A p in py_powRA u q
  | ESin a => let* u := runA env a in py_sinA u
  | ECos a => let* u := runA env a in py_cosA u
  | ETan a => let* u := runA env a in py_tanA u
  | ELog a => let* u := runA env a in py_logA u
  | EExp a => let* u := runA env a in py_expA u
  end.
(** calling a metric callable on an array of inputs *)
Definition run_metricA (g : metricP) (env : nat -> pyval) : Res (Q4 (Q4 pyval)) :=
  q4seq (q4map (fun row => q4seq (q4map (runA env) row)) g).
Definition metric_atA (g : metricP) (q : V4) : Res M4 :=
  let* m := run_metricA g (fun i => PF (q4nth q i)) in
  q4seq (q4map (fun row => q4seq (q4map pf_only row)) m).
(** dual.py:152-201 for the calls of _jacobian_g (two indices and a coordinate number in range) *)
Definition diff_gA (g : metricP) (coords : V4) (i j wrt : nat) : Res R :=
  let* m := run_metricA g (dual_coords coords wrt) in Ok (pderiv (mnth m i j)).
(** dual.py:229-237: J + J.T - np.diag(np.diag(J)) *)
Definition jacobian_gA (g : metricP) (coords : V4) (wrt : nat) : Res M4 :=
  let* J := q4seq (q4tab (fun i => q4seq (q4tab (fun j => if Nat.leb i j then diff_gA g coords i j wrt else Ok 0)))) in
  q4seq (q4tab (fun i => q4seq (q4tab (fun j =>
    let* s := a_add A (mnth J i j) (mnth J j i) in a_sub A s (if Nat.eqb i j then mnth J i i else 0))))).

(** elementwise numpy arithmetic and [M @ v] *)
Definition vaddA (v w : V4) : Res V4 := q4seq (q4map2 (a_add A) v w).
Definition vsubA (v w : V4) : Res V4 := q4seq (q4map2 (a_sub A) v w).
Definition vscalA (k : R) (v : V4) : Res V4 := q4seq (q4map (a_mul A k) v).
Definition mvA (m : M4) (v : V4) : Res V4 := q4seq (q4map (fun row => a_dot A row v) m).

(** integrators/utils.py:10-43 *)
Definition part_ham_flowA (g : metricP) (q p : V4) (wrt : nat) : Res R :=
  let* J := jacobian_gA g q wrt in let* v := mvA J p in a_dot A v p.
(** integrators/utils.py:80-81, 123-138 *)
Definition ham_gradA (g : metricP) (q p : V4) : Res V4 :=
  q4seq (q4tab (fun i => let* x := part_ham_flowA g q p i in a_mul A (/ 2) x)).
(** integrators/utils.py:46-90 and fantasy.py:160-167, 185-192 *)
Definition apply_AA (g : metricP) (d : R) (s : state) : Res state :=
  let* dp1 := ham_gradA g (q1 s) (p2 s) in
  let* x := vscalA d dp1 in let* p1_next := vsubA (p1 s) x in
  let* m := metric_atA g (q1 s) in let* dq2 := mvA m (p2 s) in
  let* y := vscalA d dq2 in let* q2_next := vaddA (q2 s) y in
  Ok (mkQ4 (q1 s) p1_next q2_next (p2 s)).
(** integrators/utils.py:93-149 and fantasy.py:168-175, 177-184 *)
Definition apply_BA (g : metricP) (d : R) (s : state) : Res state :=
  let* dp2 := ham_gradA g (q2 s) (p1 s) in
  let* x := vscalA d dp2 in let* p2_next := vsubA (p2 s) x in
  let* m := metric_atA g (q2 s) in let* dq1 := mvA m (p1 s) in
  let* y := vscalA d dq1 in let* q1_next := vaddA (q1 s) y in
  Ok (mkQ4 q1_next (p1 s) (q2 s) p2_next).
(** integrators/utils.py:184-198 *)
Definition flow_mixedA (s : state) (delta omega : R) : Res state :=
  let* q_sum := vaddA (q1 s) (q2 s) in
  let* q_dif := vsubA (q1 s) (q2 s) in
  let* p_sum := vaddA (p1 s) (p2 s) in
  let* p_dif := vsubA (p1 s) (p2 s) in
  let* wd := a_mul A 2 omega in let* ang := a_mul A wd delta in
  let* co := a_cos A ang in let* si := a_sin A ang in
  let* qc := vscalA co q_dif in let* ps := vscalA si p_dif in
  let* pc := vscalA co p_dif in let* qs := vscalA si q_dif in
  let* a := vaddA q_sum qc in let* a := vaddA a ps in let* q1_next := vscalA (/ 2) a in
  let* b := vaddA p_sum pc in let* b := vsubA b qs in let* p1_next := vscalA (/ 2) b in
  let* c := vsubA q_sum qc in let* c := vsubA c ps in let* q2_next := vscalA (/ 2) c in
  let* d := vsubA p_sum pc in let* d := vaddA d qs in let* p2_next := vscalA (/ 2) d in
  Ok (mkQ4 q1_next p1_next q2_next p2_next).
(** integrators/utils.py:201-219; (order - 2) / 2 and 2 n + 1 are exact for the orders 4, 6, 8 *)
Definition Z01A (order : nat) : Res (R * R) :=
  let* e := a_div A 1 (2 * ((INR order - 2) / 2) + 1) in
  let* x := a_powr A 2 e in
  let* y := a_sub A 2 x in let* z0 := a_div A (- x) y in let* z1 := a_div A 1 y in Ok (z0, z1).
(** fantasy.py:144-194 *)
Definition ord_2A (g : metricP) (omega : R) (delta : R) (s : state) : Res state :=
  let* h := a_mul A (/ 2) delta in
  let* HA1 := apply_AA g h s in
  let* HB1 := apply_BA g h HA1 in
  let* HC := flow_mixedA HB1 delta omega in
  let* HB2 := apply_BA g h HC in
  apply_AA g h HB2.
(** fantasy.py:196-257 *)
Definition tripleA (order : nat) (f : R -> state -> Res state) (delta : R) (s : state) : Res state :=
  let* Z := Z01A order in
  let* d1 := a_mul A delta (snd Z) in let* s1 := f d1 s in
  let* d0 := a_mul A delta (fst Z) in let* s2 := f d0 s1 in
  let* d2 := a_mul A delta (snd Z) in f d2 s2.
Definition integrator_ofA (order : nat) (g : metricP) (omega : R) : Res (R -> state -> Res state) :=
  match order with
  | 2 => Ok (ord_2A g omega)
  | 4 => Ok (tripleA order (ord_2A g omega))
  | 6 => Ok (tripleA order (tripleA order (ord_2A g omega)))
  | 8 => Ok (tripleA order (tripleA order (tripleA order (ord_2A g omega))))
  | _ => Err NotImplementedError
  end%nat.

(** fantasy.py:259-292, geodesic.py:229-230: [n] steps from [s], collecting the states.  The stability check of step() only issues
    a warning and is left out (warnings are not turned into errors). *)
Fixpoint statesA (f : state -> Res state) (n : nat) (s : state) : Res (list state) :=
  match n with
  | O => Ok []
  | S n => let* s' := f s in let* l := statesA f n s' in Ok (s' :: l)
  end.
(** geodesic.py:241-253 *)
Definition to_cartesianA (q : V4) : Res V4 :=
  let* st := a_sin A (c2 q) in let* ct := a_cos A (c2 q) in let* cp := a_cos A (c3 q) in let* sp := a_sin A (c3 q) in
  let* rs := a_mul A (c1 q) st in let* x := a_mul A rs cp in let* y := a_mul A rs sp in let* z := a_mul A (c1 q) ct in
  Ok (mkQ4 (c0 q) x y z).
Fixpoint seqR {B D} (f : B -> Res D) (l : list B) : Res (list D) :=
  match l with [] => Ok [] | b :: l => let* d := f b in let* t := seqR f l in Ok (d :: t) end.
(** geodesic.py:152-255: the rows of the returned array *)
Definition trajectoryA (g : metricP) (q0 p0 : V4) (cartesian : bool) (steps : nat) (delta : R) (order : nat) (omega : R) : Res (list row) :=
  let* f := integrator_ofA order g omega in
  let* l := statesA (f delta) steps (mkQ4 q0 p0 q0 p0) in
  match l with
  | [] => Err IndexError
  | _ => let rows := map (fun s => (q1 s, p1 s)) l in
         if cartesian then seqR (fun r => let* x := to_cartesianA (fst r) in Ok (x, snd r)) rows else Ok rows
  end.
(** geodesic/utils.py:43-54 *)
Definition P4A (g : metricP) (q : V4) (u1 u2 u3 : R) (time_like : bool) : Res V4 :=
  let* guu := metric_atA g q in
  let Ac := mnth guu 0 0 in
  let* b := a_mul A 2 (mnth guu 0 3) in let* B := a_mul A b u3 in
  let* x := a_mul A (mnth guu 1 1) u1 in let* x := a_mul A x u1 in
  let* y := a_mul A (mnth guu 2 2) u2 in let* y := a_mul A y u2 in
  let* z := a_mul A (mnth guu 3 3) u3 in let* z := a_mul A z u3 in
  let* s := a_add A x y in let* s := a_add A s z in let* C := a_add A s (b2R time_like) in
  let* bb := a_pow A B 2 in let* k := a_mul A 4 Ac in let* k := a_mul A k C in
  let* disc := a_sub A bb k in let* r := a_sqrt A disc in
  let* n := a_add A (- B) r in let* m := a_mul A 2 Ac in let* P0 := a_div A n m in
  Ok (mkQ4 P0 u1 u2 u3).
(** geodesic.py:18-126: Geodesic(metric, metric_params, position, momentum, ...): initial 4-momentum and trajectory *)
Definition geodesicA (m : metric_arg) (prms : list R) (pos mom : R * R * R) (tl cartesian : bool) (steps : nat) (delta : R) (order : nat) (omega : R)
    : Res (V4 * list row) :=
  let* call := resolve_metric m in
  let '(x1, x2, x3) := pos in
  let '(u1, u2, u3) := mom in
  let position := mkQ4 0 x1 x2 x3 in
  let* gP := call prms in
  let* momentum := P4A gP position u1 u2 u3 tl in
  let* gI := call (resolve_params m prms) in
  let* rows := trajectoryA gI position momentum cartesian steps delta order omega in
  Ok (momentum, rows).
End Programs.
