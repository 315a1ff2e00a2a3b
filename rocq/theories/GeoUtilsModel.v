(** Model of src/einsteinpy/geodesic/utils.py: _P, sigma, delta, _sch, _kerr, _kerrnewman (M-units).
    The metric callables are programs over the coordinates [x_vec[1]] = r, [x_vec[2]] = theta; numpy int
    literals are the corresponding reals; unset entries of np.zeros are 0. *)
From Coq Require Import Reals List ZArith Lra Bool.
From Verif Require Import Base DualModel.
Open Scope R_scope.

Definition Ec (x : R) : pexpr := EConst x.
Definition Esq (e : pexpr) : pexpr := EPow e 2.

(** utils.py:57-80 *)
Definition sigmaE (r th : pexpr) (a : R) : pexpr := EAdd (Esq r) (Esq (EMul (Ec a) (ECos th))).
(** utils.py:83-107 *)
Definition deltaE (r : pexpr) (a Q : R) : pexpr :=
  EAdd (EAdd (ESub (Esq r) (EMul (Ec 2) r)) (Esq (Ec a))) (Esq (Ec Q)).

Definition zeroE : pexpr := Ec 0.

(** utils.py:110-141 *)
Definition schE : metricP :=
  let r := EVar 1 in let th := EVar 2 in
  let tmp := ESub (Ec 1) (EDiv (Ec 2) r) in
  mkQ4 (mkQ4 (EDiv (Ec (-1)) tmp) zeroE zeroE zeroE)
       (mkQ4 zeroE tmp zeroE zeroE)
       (mkQ4 zeroE zeroE (EDiv (Ec 1) (Esq r)) zeroE)
       (mkQ4 zeroE zeroE zeroE (EDiv (Ec 1) (Esq (EMul r (ESin th))))).

(** utils.py:144-179 *)
Definition kerrE (a : R) : metricP :=
  let r := EVar 1 in let th := EVar 2 in
  let sg := sigmaE r th a in let dl := deltaE r a 0 in
  let g00 := EDiv (ENeg (EAdd (EAdd (Esq r) (Esq (Ec a)))
                 (EDiv (EMul (EMul (Ec 2) r) (Esq (EMul (Ec a) (ESin th)))) sg))) dl in
  let g11 := EDiv dl sg in
  let g22 := EDiv (Ec 1) sg in
  let g33 := EMul (EDiv (Ec 1) (EMul dl (Esq (ESin th)))) (ESub (Ec 1) (EDiv (EMul (Ec 2) r) sg)) in
  let g03 := EDiv (ENeg (EMul (EMul (Ec 2) r) (Ec a))) (EMul sg dl) in
  mkQ4 (mkQ4 g00 zeroE zeroE g03)
       (mkQ4 zeroE g11 zeroE zeroE)
       (mkQ4 zeroE zeroE g22 zeroE)
       (mkQ4 g03 zeroE zeroE g33).

(** utils.py:182-223 *)
Definition kerrnewmanE (a Q : R) : metricP :=
  let r := EVar 1 in let th := EVar 2 in
  let sg := sigmaE r th a in let dl := deltaE r a Q in
  let a2 := Esq (Ec a) in
  let r2 := Esq r in
  let sint2 := Esq (ESin th) in
  let csct2 := EDiv (Ec 1) sint2 in
  let csct4 := EDiv (Ec 1) (Esq sint2) in
  let denom := EMul dl (Esq (EAdd (EAdd a2 (EMul (Ec 2) r2)) (EMul a2 (ECos (EMul (Ec 2) th))))) in
  let g00 := ENeg (EDiv (EMul (EMul (Ec 4) sg) (ESub (Esq (EAdd a2 r2)) (EMul (EMul a2 dl) sint2))) denom) in
  let g11 := EDiv dl sg in
  let g22 := EDiv (Ec 1) sg in
  let g33 := EDiv (EMul (EMul sg csct4) (EAdd (ENeg a2) (EMul dl csct2)))
                  (EMul dl (Esq (ESub a2 (EMul (EAdd a2 r2) csct2)))) in
  let g03 := ENeg (EDiv (EMul (EMul (EMul (Ec 4) (Ec a)) (EAdd (ESub a2 dl) r2)) sg) denom) in
  mkQ4 (mkQ4 g00 zeroE zeroE g03)
       (mkQ4 zeroE g11 zeroE zeroE)
       (mkQ4 zeroE zeroE g22 zeroE)
       (mkQ4 g03 zeroE zeroE g33).

(** Evaluating a metric callable on plain numbers: [g(q, *g_prms)] *)
Definition pf_only (v : pyval) : Res R := match v with PF x => Ok x | PD _ => Err TypeError end.
Definition metric_at (g : metricP) (q : V4) : Res M4 :=
  let* m := run_metric g (fun i => PF (q4nth q i)) in
  q4seq (q4map (fun row => q4seq (q4map pf_only row)) m).

(** np.sqrt: nan below 0 *)
Definition np_sqrt (x : R) : Res R := if Rle_dec 0 x then Ok (sqrt x) else Err NonFinite.
(** numpy float64 division: inf/nan at 0 *)
Definition np_div (x y : R) : Res R := if Req_EM_T y 0 then Err NonFinite else Ok (x / y).

Definition b2R (b : bool) : R := if b then 1 else 0.

(** utils.py:13-54, lines 43-54, given the evaluated metric [guu] *)
Definition P_of_guu (guu : M4) (p1 p2 p3 : R) (time_like : bool) : Res V4 :=
  let A := mnth guu 0 0 in
  let B := 2 * mnth guu 0 3 * p3 in
  let C := mnth guu 1 1 * p1 * p1 + mnth guu 2 2 * p2 * p2 + mnth guu 3 3 * p3 * p3 + b2R time_like in
  let* s := np_sqrt (B * B - 4 * A * C) in
  let* p0 := np_div (- B + s) (2 * A) in
  Ok (mkQ4 p0 p1 p2 p3).

(** utils.py:13-54 *)
Definition P4 (g : metricP) (q : V4) (p1 p2 p3 : R) (time_like : bool) : Res V4 :=
  let* guu := metric_at g q in P_of_guu guu p1 p2 p3 time_like.
