(** Model of rays/shadow.py.  numpy's nan and inf are [None]: they propagate and raise nothing.
    M is mass.to(u.kg).value, fov is fov.to(u.km).value.  scipy.optimize.newton is a function argument (any outcome is
    possible: a complex number or RuntimeError); scipy.integrate.fixed_quad is the 5-point Gauss-Legendre rule it implements;
    scipy.interpolate.interp1d is an argument with its documented rejections. *)
From Coq Require Import Reals List Arith Lra.
From Verif Require Import Base EmbedModel.
Import ListNotations.
Open Scope R_scope.

(** np.linspace(a, b, n) *)
Definition linspace (a b : R) (n : nat) : list R :=
  match n with O => [] | 1%nat => [a] | _ => map (fun k => a + INR k * ((b - a) / INR (n - 1))) (seq 0 n) end.

(** x ** 0.5 and x ** (-1) on a numpy float *)
Definition ehalf (x : R) : option R := esqrt x.
Definition einv (x : R) : option R := ediv 1 x.

(** shadow.py:53-65 *)
Definition intensity_blue_sch (M r b : R) : option R :=
  do q <- ediv (2 * M) r; let GTT := 1 - q in
  do GRR <- einv (1 - q);
  do t1 <- ediv GTT GRR; do t2 <- ediv (b ^ 2 * GTT) (r ^ 2);
  do KRKText <- ehalf (t1 * (1 - t2));
  do u1 <- ediv 1 GTT; do u2 <- ediv GRR GTT; do u3 <- ediv (1 - GTT) (GTT * GRR); do u4 <- ehalf u3;
  do Gblue <- einv (u1 - KRKText * u2 * u4);
  do w1 <- ediv GTT (r ^ 2); do w2 <- ediv 1 KRKText;
  Some (- (Gblue ^ 3) * w1 * w2).
(** shadow.py:67-79 *)
Definition intensity_red_sch (M r b : R) : option R :=
  do q <- ediv (2 * M) r; let GTT := 1 - q in
  do GRR <- einv (1 - q);
  do t1 <- ediv GTT GRR; do t2 <- ediv (b ^ 2 * GTT) (r ^ 2);
  do KRKText <- ehalf (t1 * (1 - t2));
  do u1 <- ediv 1 GTT; do u2 <- ediv GRR GTT; do u3 <- ediv (1 - GTT) (GTT * GRR); do u4 <- ehalf u3;
  do Gred <- einv (u1 + KRKText * u2 * u4);
  do w1 <- ediv GTT (r ^ 2); do w2 <- ediv 1 KRKText;
  Some (Gred ^ 3 * w1 * w2).

(** scipy.integrate.fixed_quad(f, a, b), n = 5: (b - a)/2 * sum(w * f((b - a)*(x + 1)/2 + a)) *)
Definition gauss5 : list (R * R) :=
  let s1 := sqrt (5 - 2 * sqrt (10 / 7)) / 3 in let s2 := sqrt (5 + 2 * sqrt (10 / 7)) / 3 in
  let w1 := (322 + 13 * sqrt 70) / 900 in let w2 := (322 - 13 * sqrt 70) / 900 in
  [(- s2, w2); (- s1, w1); (0, 128 / 225); (s1, w1); (s2, w2)].
Definition esum_list (l : list (option R)) : option R := fold_right eadd (Some 0) l.
Definition fixed_quad (f : R -> option R) (a b : R) : option R :=
  emul (Some ((b - a) / 2)) (esum_list (map (fun xw => emul (Some (snd xw)) (f ((b - a) * (fst xw + 1) / 2 + a))) gauss5)).

Record shadow : Type := mkShadow {
  b_crit : R; rays : list R; bfin : list R; z : list (R * R); k0 : list (option R); k1 : list (option R);
  b2 : list R; intensity : list (option R); fb1 : list R; fb2 : list R }.

(** shadow.py:27-31 the loop over the rays; newton's result is (real part, imaginary part) *)
Fixpoint trace (newton : R -> Res (R * R)) (b : list R) (bfin : list R) (z : list (R * R)) : Res (list R * list (R * R)) :=
  match b with
  | [] => Ok (bfin, z)
  | i :: b => let* root := newton i in
              if Req_EM_T (snd root) 0 then trace newton b (bfin ++ [i]) (z ++ [(i, fst root)]) else trace newton b bfin z
  end.
(** shadow.py:81-97 *)
Definition intensity_far (M fov : R) (z : list (R * R)) : list (option R) :=
  map (fun zi => let b := fst zi in
        eadd (fixed_quad (fun r => intensity_blue_sch M r b) fov (snd zi)) (fixed_quad (fun r => intensity_red_sch M r b) (snd zi) fov)) z.
(** shadow.py:99-113; horizon = 2 * mass (line 22) *)
Definition intensity_from_event_horizon (M fov : R) (b2 : list R) : list (option R) :=
  map (fun i => fixed_quad (fun r => intensity_red_sch M r i) (2 * M) fov) b2.
(** shadow.py:16-38 *)
Definition Shadow (M : R) (n_rays : nat) (fov limit : R) (newton : R -> Res (R * R)) : Res shadow :=
  let b_crit := 3 * sqrt 3 * M in
  let b := linspace b_crit fov n_rays in
  let* bz := trace newton b [] [] in
  let bfin := fst bz in let z := snd bz in
  let k0 := intensity_far M fov z in
  let b2 := linspace limit b_crit (length bfin) in
  let k1 := intensity_from_event_horizon M fov b2 in
  Ok (mkShadow b_crit b bfin z k0 k1 b2 (k1 ++ k0) (b2 ++ bfin) (map Ropp b2 ++ map Ropp bfin)).

(** shadow.py:46-51 on real radii beyond 2 int(M): the value, with np.emath.sqrt real *)
Definition root_equation (M r_tp i : R) : R := r_tp / sqrt (1 - 2 * IZR (Int_part M) / r_tp) - i.

(** np.min / np.max of a list (ValueError on an empty one) *)
Definition np_min (l : list R) : Res R := match l with [] => Err ValueError | x :: l => Ok (fold_left Rmin l x) end.
Definition np_max (l : list R) : Res R := match l with [] => Err ValueError | x :: l => Ok (fold_left Rmax l x) end.
Fixpoint has_dup (l : list R) : bool :=
  match l with [] => false | x :: l => (if in_dec Req_EM_T x l then true else false) || has_dup l end.
(** interp1d(x, y, kind="cubic"): at least four points, no repeated abscissa; [spline] is the interpolant *)
Definition interp1d (spline : list R -> list (option R) -> R -> option R) (x : list R) (y : list (option R)) : Res (R -> option R) :=
  if Nat.ltb (length x) 4 then Err ValueError else if has_dup x then Err ValueError else Ok (spline x y).
(** shadow.py:115-125 *)
Definition smoothen (spline : list R -> list (option R) -> R -> option R) (points : nat) (s : shadow) : Res shadow :=
  let* lo := np_min (fb1 s) in let* hi := np_max (fb1 s) in
  let b_new := linspace lo hi points in
  let* interpolation := interp1d spline (fb1 s) (intensity s) in
  let smoothened := map interpolation b_new in
  Ok (mkShadow (b_crit s) (rays s) (bfin s) (z s) (k0 s) (k1 s) (b2 s) smoothened b_new (map (Rmult (-1)) b_new)).
