(** Model of src/einsteinpy/coordinates/utils.py (the conversion formulas, lorentz_factor, v0).
    Exact reals; [Err NonFinite] = the component is not a finite number (numpy inf/nan, or ZeroDivisionError when the
    inputs are Python floats or numba compiles the function).  The sign of a floating zero is ignored in arctan2. *)
From Coq Require Import Reals List ZArith Lra Bool.
From Verif Require Import Base GeoUtilsModel.
Import ListNotations.
Open Scope R_scope.

(** np.arctan2 *)
Definition atan2 (y x : R) : R :=
  if Rlt_dec 0 x then atan (y / x)
  else if Rlt_dec x 0 then (if Rle_dec 0 y then atan (y / x) + PI else atan (y / x) - PI)
  else if Rlt_dec 0 y then PI / 2 else if Rlt_dec y 0 then - (PI / 2) else 0.
(** np.hypot *)
Definition hypot (x y : R) : R := sqrt (x * x + y * y).
(** np.arccos: nan outside [-1,1] *)
Definition np_arccos (x : R) : Res R :=
  if Rle_dec (-1) x then (if Rle_dec x 1 then Ok (acos x) else Err NonFinite) else Err NonFinite.

Record V3 := mk3 { v1 : R; v2 : R; v3 : R }.

(** utils.py:37-49 cartesian_to_spherical_novel *)
Definition cart_to_sph (t x y z : R) : V4 :=
  let hxy := hypot x y in
  mkQ4 t (hypot hxy z) (atan2 hxy z) (atan2 y x).

(** utils.py:28-32: the velocity part of cartesian_to_spherical *)
Definition cart_to_sph_vel (x y z v_x v_y v_z : R) : Res V3 :=
  let n1 := x ^ 2 + y ^ 2 in
  let n2 := n1 + z ^ 2 in
  let* v_r := np_div (x * v_x + y * v_y + z * v_z) (sqrt n2) in
  let* v_th := np_div (z * (x * v_x + y * v_y) - n1 * v_z) (n2 * sqrt n1) in
  let* v_p := np_div (-1 * (v_x * y - x * v_y)) n1 in
  Ok (mk3 v_r v_th v_p).

(** utils.py:85-97 cartesian_to_bl_novel *)
Definition bl_w (x y z alpha : R) : R := (x ^ 2 + y ^ 2 + z ^ 2) - alpha ^ 2.
Definition bl_r (x y z alpha : R) : R :=
  let w := bl_w x y z alpha in sqrt (/ 2 * (w + sqrt (w ^ 2 + 4 * alpha ^ 2 * z ^ 2))).
Definition cart_to_bl (t x y z alpha : R) : Res V4 :=
  let r := bl_r x y z alpha in
  let* c := np_div z r in
  let* theta := np_arccos c in
  Ok (mkQ4 t r theta (atan2 y x)).

(** utils.py:71-80: the velocity part of cartesian_to_bl *)
Definition cart_to_bl_vel (x y z alpha v_x v_y v_z : R) : Res V3 :=
  let w := bl_w x y z alpha in
  let r := bl_r x y z alpha in
  let dw := 2 * (x * v_x + y * v_y + z * v_z) in
  let* i2r := np_div 1 (2 * r) in
  let* q := np_div (w * dw + 4 * alpha ^ 2 * z * v_z) (2 * sqrt (w ^ 2 + 4 * alpha ^ 2 * z ^ 2)) in
  let v_r := i2r * (dw / 2 + q) in
  let* zr := np_div z r in
  let* s := np_sqrt (1 - zr * zr) in
  let* is := np_div (-1) s in
  let* d := np_div (v_z * r - v_r * z) (r ^ 2) in
  let v_th := is * d in
  let* yx := np_div y x in
  let* ip := np_div 1 (1 + yx * yx) in
  let* e := np_div (v_y * x - v_x * y) (x ^ 2) in
  Ok (mk3 v_r v_th (ip * e)).

(** utils.py:133-144 spherical_to_cartesian_novel *)
Definition sph_to_cart (t r th p : R) : V4 :=
  mkQ4 t (r * cos p * sin th) (r * sin p * sin th) (r * cos th).
(** utils.py:118-128: velocity part *)
Definition sph_to_cart_vel (r th p v_r v_th v_p : R) : V3 :=
  mk3 (sin th * cos p * v_r - r * sin th * sin p * v_p + r * cos th * cos p * v_th)
      (sin th * sin p * v_r + r * cos th * sin p * v_th + r * sin th * cos p * v_p)
      (cos th * v_r - r * sin th * v_th).

(** utils.py:182-195 bl_to_cartesian_novel *)
Definition bl_to_cart (t r th p alpha : R) : V4 :=
  let xa := sqrt (r ^ 2 + alpha ^ 2) in
  let sin_norm := xa * sin th in
  mkQ4 t (sin_norm * cos p) (sin_norm * sin p) (r * cos th).
(** utils.py:167-177: velocity part *)
Definition bl_to_cart_vel (r th p alpha v_r v_th v_p : R) : Res V3 :=
  let xa := sqrt (r ^ 2 + alpha ^ 2) in
  let* a := np_div (r * v_r * sin th * cos p) xa in
  let* b := np_div (r * v_r * sin th * sin p) xa in
  Ok (mk3 (a + xa * cos th * cos p * v_th - xa * sin th * sin p * v_p)
          (b + xa * cos th * sin p * v_th + xa * sin th * cos p * v_p)
          (v_r * cos th - r * sin th * v_th)).

(** utils.py:198-221 lorentz_factor (c is einsteinpy.constant.c in SI) *)
Definition lorentz_factor (c a b d : R) : Res R :=
  let* s := np_sqrt (1 - (a * a + b * b + d * d) / c ^ 2) in np_div 1 s.

(** utils.py:224-264 v0 *)
Definition v0_coeffs (c : R) (g : M4) (a b d : R) : R * R * R :=
  let A := mnth g 0 0 in
  let B := 2 * (mnth g 0 1 * a + mnth g 0 2 * b + mnth g 0 3 * d) in
  let C := (mnth g 1 1 * a ^ 2 + mnth g 2 2 * b ^ 2 + mnth g 3 3 * d ^ 2)
           + 2 * a * (mnth g 1 2 * b + mnth g 1 3 * d) + 2 * b * mnth g 2 3 * d + -1 * c ^ 2 in
  (A, B, C).
Definition v0 (c : R) (g : M4) (a b d : R) : Res R :=
  let '(A, B, C) := v0_coeffs c g a b d in
  let* s := np_sqrt (B ^ 2 - 4 * A * C) in np_div (- B + s) (2 * A).
