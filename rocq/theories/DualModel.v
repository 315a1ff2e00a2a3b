(** Model of src/einsteinpy/utils/dual.py: DualNumber, _deriv, _diff_g, _jacobian_g.
    Simplifications: a Python float is an exact real; [DualNumber.__init__]'s float() is the identity;
    DualNumber.val is a Python float, so x/0.0 and 0.0**negative raise ZeroDivisionError. *)
From Coq Require Import Reals List ZArith Lra Bool.
From Verif Require Import Base.
Open Scope R_scope.

(** dual.py:22-35 *)
Record dual := mkdual { val : R; deriv : R }.

(** What a metric callable handles: a plain float or a DualNumber. *)
Inductive pyval := PF (x : R) | PD (d : dual).

(** Python float division x / y. *)
Definition fdiv (x y : R) : Res R :=
  if Req_EM_T y 0 then Err ZeroDivisionError else Ok (x / y).

(** Python float ** int. *)
Definition fpowZ (x : R) (n : Z) : Res R :=
  if Req_EM_T x 0 then (if Z.ltb n 0 then Err ZeroDivisionError else Ok (powerRZ x n))
  else Ok (powerRZ x n).

(** Python float ** float, for the bases used with fractional powers.  For a negative base Python returns a
    complex number (rejected by float() in DualNumber.__init__: TypeError). 0.0**p is 0, 1 or ZeroDivisionError. *)
Definition fpowR (x p : R) : Res R :=
  if Rlt_dec 0 x then Ok (Rpower x p)
  else if Req_EM_T x 0 then
    (if Rlt_dec 0 p then Ok 0 else if Req_EM_T p 0 then Ok 1 else Err ZeroDivisionError)
  else Err TypeError.

(** np.log on a float: -inf/nan (not an exception) outside x > 0. *)
Definition flog (x : R) : Res R := if Rlt_dec 0 x then Ok (ln x) else Err NonFinite.

(** dual.py:43-49 *)
Definition d_add (s : dual) (o : pyval) : dual :=
  match o with
  | PD o => mkdual (val s + val o) (deriv s + deriv o)
  | PF o => mkdual (val s + o) (deriv s)
  end.
Definition d_radd := d_add.

(** dual.py:51-55 *)
Definition d_sub (s : dual) (o : pyval) : dual :=
  match o with
  | PD o => mkdual (val s - val o) (deriv s - deriv o)
  | PF o => mkdual (val s - o) (deriv s)
  end.

(** dual.py:57-61 *)
Definition d_rsub (s : dual) (o : pyval) : dual :=
  match o with
  | PD o => mkdual (val o - val s) (deriv o - deriv s)
  | PF o => d_sub (mkdual o 0) (PD s)
  end.

(** dual.py:63-71 *)
Definition d_mul (s : dual) (o : pyval) : dual :=
  match o with
  | PD o => mkdual (val s * val o) (deriv s * val o + val s * deriv o)
  | PF o => mkdual (val s * o) (deriv s * o)
  end.
Definition d_rmul := d_mul.

(** dual.py:73-83; the test [self.val == 0 and other.val == 0] is line 75 *)
Definition d_truediv (s : dual) (o : pyval) : Res dual :=
  match o with
  | PD o =>
      if Req_EM_T (val s) 0 then
        if Req_EM_T (val o) 0 then
          let* q := fdiv (deriv s) (deriv o) in Ok (mkdual q 0)
        else
          let* v := fdiv (val s) (val o) in
          let* d := fdiv (deriv s * val o - val s * deriv o) (val o * val o) in Ok (mkdual v d)
      else
        let* v := fdiv (val s) (val o) in
        let* d := fdiv (deriv s * val o - val s * deriv o) (val o * val o) in Ok (mkdual v d)
  | PF o =>
      let* v := fdiv (val s) o in
      let* d := fdiv (deriv s) o in Ok (mkdual v d)
  end.

(** dual.py:85-95 *)
Definition d_rtruediv (s : dual) (o : pyval) : Res dual :=
  match o with
  | PD o =>
      if Req_EM_T (val s) 0 then
        if Req_EM_T (val o) 0 then
          let* q := fdiv (deriv o) (deriv s) in Ok (mkdual q 0)
        else
          let* v := fdiv (val o) (val s) in
          let* d := fdiv (deriv o * val s - val o * deriv s) (val s * val s) in Ok (mkdual v d)
      else
        let* v := fdiv (val o) (val s) in
        let* d := fdiv (deriv o * val s - val o * deriv s) (val s * val s) in Ok (mkdual v d)
  | PF o => d_truediv (mkdual o 0) (PD s)
  end.

(** dual.py:97-98 (against another DualNumber), as a decision *)
Definition d_eqb (s o : dual) : bool :=
  if Req_EM_T (val s) (val o) then (if Req_EM_T (deriv s) (deriv o) then true else false) else false.

(** dual.py:103-104 *)
Definition d_neg (s : dual) : dual := mkdual (- val s) (- deriv s).

(** dual.py:106-109, integer power *)
Definition d_powZ (s : dual) (n : Z) : Res dual :=
  let* v := fpowZ (val s) n in
  let* w := fpowZ (val s) (n - 1) in
  Ok (mkdual v (deriv s * IZR n * w)).

(** dual.py:106-109, float power *)
Definition d_powR (s : dual) (p : R) : Res dual :=
  let* v := fpowR (val s) p in
  let* w := fpowR (val s) (p - 1) in
  Ok (mkdual v (deriv s * p * w)).

(** dual.py:111-124 *)
Definition d_sin (s : dual) : dual := mkdual (sin (val s)) (deriv s * cos (val s)).
Definition d_cos (s : dual) : dual := mkdual (cos (val s)) (- deriv s * sin (val s)).
Definition d_tan (s : dual) : Res dual := d_truediv (d_sin s) (PD (d_cos s)).
Definition d_log (s : dual) : Res dual :=
  let* v := flog (val s) in
  let* d := fdiv (deriv s) (val s) in Ok (mkdual v d).
Definition d_exp (s : dual) : dual := mkdual (exp (val s)) (deriv s * exp (val s)).

(** Python's binary-operator dispatch: [a op b] calls a's method when a is a DualNumber, else b's reflected
    method when b is one, else plain float arithmetic. *)
Definition py_add (a b : pyval) : Res pyval :=
  match a, b with
  | PF x, PF y => Ok (PF (x + y))
  | PD d, v => Ok (PD (d_add d v))
  | PF x, PD d => Ok (PD (d_radd d (PF x)))
  end.
Definition py_sub (a b : pyval) : Res pyval :=
  match a, b with
  | PF x, PF y => Ok (PF (x - y))
  | PD d, v => Ok (PD (d_sub d v))
  | PF x, PD d => Ok (PD (d_rsub d (PF x)))
  end.
Definition py_mul (a b : pyval) : Res pyval :=
  match a, b with
  | PF x, PF y => Ok (PF (x * y))
  | PD d, v => Ok (PD (d_mul d v))
  | PF x, PD d => Ok (PD (d_rmul d (PF x)))
  end.
Definition py_div (a b : pyval) : Res pyval :=
  match a, b with
  | PF x, PF y => mapR PF (fdiv x y)
  | PD d, v => mapR PD (d_truediv d v)
  | PF x, PD d => mapR PD (d_rtruediv d (PF x))
  end.
Definition py_neg (a : pyval) : pyval :=
  match a with PF x => PF (- x) | PD d => PD (d_neg d) end.
Definition py_powZ (a : pyval) (n : Z) : Res pyval :=
  match a with PF x => mapR PF (fpowZ x n) | PD d => mapR PD (d_powZ d n) end.
Definition py_powR (a : pyval) (p : R) : Res pyval :=
  match a with PF x => mapR PF (fpowR x p) | PD d => mapR PD (d_powR d p) end.
(** np.sin etc. on a float compute the function, on an object call its method of that name.
    np.tan of a float at a pole is taken as undefined. *)
Definition py_sin (a : pyval) : pyval := match a with PF x => PF (sin x) | PD d => PD (d_sin d) end.
Definition py_cos (a : pyval) : pyval := match a with PF x => PF (cos x) | PD d => PD (d_cos d) end.
Definition py_tan (a : pyval) : Res pyval :=
  match a with PF x => mapR PF (fdiv (sin x) (cos x)) | PD d => mapR PD (d_tan d) end.
Definition py_log (a : pyval) : Res pyval :=
  match a with PF x => mapR PF (flog x) | PD d => mapR PD (d_log d) end.
Definition py_exp (a : pyval) : pyval := match a with PF x => PF (exp x) | PD d => PD (d_exp d) end.

(** The programs a metric callable may consist of (straight-line arithmetic on coordinates, numbers and
    np.sin/cos/tan/log/exp). *)
Inductive pexpr :=
| EVar (i : nat) | EConst (x : R)
| EAdd (a b : pexpr) | ESub (a b : pexpr) | EMul (a b : pexpr) | EDiv (a b : pexpr)
| ENeg (a : pexpr) | EPow (a : pexpr) (n : Z) | EPowR (a : pexpr) (p : R)
| ESin (a : pexpr) | ECos (a : pexpr) | ETan (a : pexpr) | ELog (a : pexpr) | EExp (a : pexpr).

(** Running such a program on floats and/or DualNumbers. *)
Fixpoint runP (env : nat -> pyval) (e : pexpr) : Res pyval :=
  match e with
  | EVar i => Ok (env i)
  | EConst x => Ok (PF x)
  | EAdd a b => let* u := runP env a in let* v := runP env b in py_add u v
  | ESub a b => let* u := runP env a in let* v := runP env b in py_sub u v
  | EMul a b => let* u := runP env a in let* v := runP env b in py_mul u v
  | EDiv a b => let* u := runP env a in let* v := runP env b in py_div u v
  | ENeg a => let* u := runP env a in Ok (py_neg u)
  | EPow a n => let* u := runP env a in py_powZ u n
  | EPowR a p => let* u := runP env a in py_powR u p
  | ESin a => let* u := runP env a in Ok (py_sin u)
  | ECos a => let* u := runP env a in Ok (py_cos u)
  | ETan a => let* u := runP env a in py_tan u
  | ELog a => let* u := runP env a in py_log u
  | EExp a => let* u := runP env a in Ok (py_exp u)
  end.

Definition pval (v : pyval) : R := match v with PF x => x | PD d => val d end.
(** dual.py:146-149: [_deriv] returns .deriv of a DualNumber and 0.0 of anything else *)
Definition pderiv (v : pyval) : R := match v with PF _ => 0 | PD d => deriv d end.

(** dual.py:127-149 for a one-argument program (variable 0) *)
Definition deriv_of_program (func : pexpr) (x : R) : Res R :=
  let* v := runP (fun _ => PD (mkdual x 1)) func in Ok (pderiv v).

(** A metric callable: a 4x4 array of programs (np.zeros entries are [EConst 0]). *)
Notation metricP := (Q4 (Q4 pexpr)).

Definition run_metric (g : metricP) (env : nat -> pyval) : Res (Q4 (Q4 pyval)) :=
  q4seq (q4map (fun row => q4seq (q4map (runP env) row)) g).

(** dual.py:191-199: coordinates lifted to duals, seed 1 at [wrt] *)
Definition dual_coords (coords : V4) (wrt : nat) : nat -> pyval :=
  fun i => PD (mkdual (q4nth coords i) (if Nat.eqb i wrt then 1 else 0)).

(** dual.py:152-201.  [wrt] is an arbitrary Python int; [indices] a tuple.  For two indices the tuple
    subscripts the array (out-of-range: IndexError). The whole metric is evaluated before subscripting. *)
Definition diff_g (g : metricP) (coords : V4) (indices : list nat) (wrt : Z) : Res R :=
  if negb ((wrt =? 0)%Z || (wrt =? 1)%Z || (wrt =? 2)%Z || (wrt =? 3)%Z) then Err ValueError
  else match indices with
  | (i :: j :: nil)%list =>
      let* m := run_metric g (dual_coords coords (Z.to_nat wrt)) in
      if (Nat.ltb i 4 && Nat.ltb j 4)%bool then Ok (pderiv (mnth m i j)) else Err IndexError
  | _ => Err ValueError
  end.

(** dual.py:204-238: fill the upper triangle, then J + J.T - diag(diag J) *)
Definition jac_upper (g : metricP) (coords : V4) (wrt : Z) : Res M4 :=
  q4seq (q4tab (fun i => q4seq (q4tab (fun j =>
    if Nat.leb i j then diff_g g coords (i :: j :: nil)%list wrt else Ok 0)))).
Definition jacobian_g (g : metricP) (coords : V4) (wrt : Z) : Res M4 :=
  let* J := jac_upper g coords wrt in
  Ok (mtab (fun i j => mnth J i j + mnth J j i - (if Nat.eqb i j then mnth J i i else 0))).
