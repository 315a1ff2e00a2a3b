(** Floating-point model of coordinates/utils.py: the conversion formulas of CoordModel.v with every operation carried out by an
    arithmetic, in the order in which Python evaluates them.  [exact2] is exact arithmetic (FloatCoord.v proves that the programs
    run on it are CoordModel.v's); FloatCoordIEEE.v gives the IEEE formats. *)
From Coq Require Import Reals List ZArith Lra Bool.
From Verif Require Import Base DualModel GeoUtilsModel CoordModel FloatModel.
Import ListNotations.
Open Scope R_scope.

(** the further library functions these formulas use: np.hypot, np.arctan2, np.arccos *)
Record arith2 := mkarith2 { b_ar : arith; b_hypot : R -> R -> Res R; b_atan2 : R -> R -> Res R; b_acos : R -> Res R }.
Definition exact2 : arith2 := mkarith2 exact (fun x y => Ok (hypot x y)) (fun y x => Ok (atan2 y x)) np_arccos.

(** What is assumed of them, in the style of [accurate].  On the cut of arctan2 (y = 0, x < 0) the result is pi or -pi according to
    the sign of the zero, which this model does not represent; nothing is assumed about arctan2(0, 0). *)
Record accurate2 (u : R) (B : arith2) : Prop := mkacc2 {
  acc_ar : accurate u (b_ar B);
  acc_hypot : forall x y, u * hypot x y <= 1 -> rounds u (b_hypot B x y) (hypot x y);
  acc_atan2 : forall y x, 0 < x \/ y <> 0 -> rounds u (b_atan2 B y x) (atan2 y x);
  acc_atan2_cut : forall x, x < 0 -> rounds u (b_atan2 B 0 x) PI \/ rounds u (b_atan2 B 0 x) (- PI);
  acc_acos : forall x, -1 <= x <= 1 -> rounds u (b_acos B x) (acos x) }.

Section Programs.
Variable B : arith2.
Let A := b_ar B.
Let add := a_add A.
Let sub := a_sub A.
Let mul := a_mul A.
Let div := a_div A.
Let sq (x : R) := a_pow A x 2.

(** utils.py:37-49 cartesian_to_spherical_novel *)
Definition cart_to_sphB (t x y z : R) : Res V4 :=
  let* hxy := b_hypot B x y in let* r := b_hypot B hxy z in
  let* theta := b_atan2 B hxy z in let* phi := b_atan2 B y x in Ok (mkQ4 t r theta phi).
(** x * v_x + y * v_y *)
Definition dot2B (x y v_x v_y : R) : Res R := let* a := mul x v_x in let* b := mul y v_y in add a b.
(** utils.py:28-32 (the velocity part of cartesian_to_spherical; its position part is the same as cartesian_to_spherical_novel) *)
Definition cart_to_sph_velB (x y z v_x v_y v_z : R) : Res V3 :=
  let* x2 := sq x in let* y2 := sq y in let* n1 := add x2 y2 in
  let* z2 := sq z in let* n2 := add n1 z2 in
  let* d := dot2B x y v_x v_y in let* e := mul z v_z in let* s := add d e in let* q := a_sqrt A n2 in let* v_r := div s q in
  let* d := dot2B x y v_x v_y in let* a := mul z d in let* b := mul n1 v_z in let* n := sub a b in
  let* s1 := a_sqrt A n1 in let* m := mul n2 s1 in let* v_th := div n m in
  let* a := mul v_x y in let* b := mul x v_y in let* n := sub a b in let* n := mul (-1) n in let* v_p := div n n1 in
  Ok (mk3 v_r v_th v_p).
(** utils.py:17-34 cartesian_to_spherical *)
Definition cart_to_sph_allB (t x y z v_x v_y v_z : R) : Res (V4 * V3) :=
  let* p := cart_to_sphB t x y z in let* v := cart_to_sph_velB x y z v_x v_y v_z in Ok (p, v).

(** utils.py:67, 92: w *)
Definition bl_wB (x y z alpha : R) : Res R :=
  let* x2 := sq x in let* y2 := sq y in let* a := add x2 y2 in let* z2 := sq z in let* b := add a z2 in
  let* al2 := sq alpha in sub b al2.
(** utils.py:68, 76, 93: np.sqrt((w**2) + (4 * (alpha**2) * (z**2))) *)
Definition bl_SB (w z alpha : R) : Res R :=
  let* w2 := sq w in let* al2 := sq alpha in let* a := mul 4 al2 in let* z2 := sq z in let* b := mul a z2 in
  let* s := add w2 b in a_sqrt A s.
(** utils.py:68, 93: r *)
Definition bl_rB (w z alpha : R) : Res R :=
  let* s := bl_SB w z alpha in let* a := add w s in let* h := mul (/ 2) a in a_sqrt A h.
(** utils.py:85-97 cartesian_to_bl_novel *)
Definition cart_to_blB (t x y z alpha : R) : Res V4 :=
  let* w := bl_wB x y z alpha in let* r := bl_rB w z alpha in
  let* c := div z r in let* theta := b_acos B c in let* phi := b_atan2 B y x in Ok (mkQ4 t r theta phi).
(** utils.py:71-80: the velocity part of cartesian_to_bl *)
Definition cart_to_bl_velB (x y z alpha v_x v_y v_z : R) : Res V3 :=
  let* w := bl_wB x y z alpha in let* r := bl_rB w z alpha in
  let* d := dot2B x y v_x v_y in let* e := mul z v_z in let* d := add d e in let* dw := mul 2 d in
  let* r2 := mul 2 r in let* i2r := div 1 r2 in
  let* hdw := div dw 2 in
  let* a := mul w dw in let* al2 := sq alpha in let* b := mul 4 al2 in let* b := mul b z in let* b := mul b v_z in
  let* n := add a b in let* s := bl_SB w z alpha in let* m := mul 2 s in let* q := div n m in
  let* h := add hdw q in let* v_r := mul i2r h in
  let* zr := div z r in let* zr2 := mul zr zr in let* o := sub 1 zr2 in let* s := a_sqrt A o in let* is := div (-1) s in
  let* a := mul v_z r in let* b := mul v_r z in let* n := sub a b in let* rr := sq r in let* d := div n rr in let* v_th := mul is d in
  let* yx := div y x in let* yx2 := mul yx yx in let* o := add 1 yx2 in let* ip := div 1 o in
  let* a := mul v_y x in let* b := mul v_x y in let* n := sub a b in let* xx := sq x in let* e := div n xx in let* v_p := mul ip e in
  Ok (mk3 v_r v_th v_p).
(** utils.py:60-82 cartesian_to_bl *)
Definition cart_to_bl_allB (t x y z alpha v_x v_y v_z : R) : Res (V4 * V3) :=
  let* p := cart_to_blB t x y z alpha in let* v := cart_to_bl_velB x y z alpha v_x v_y v_z in Ok (p, v).

(** r * np.cos(p) * np.sin(th) and the like: ((a * b) * c) *)
Definition mul3B (a b c : R) : Res R := let* m := mul a b in mul m c.
Definition mul4B (a b c d : R) : Res R := let* m := mul3B a b c in mul m d.
(** utils.py:133-144 spherical_to_cartesian_novel *)
Definition sph_to_cartB (t r th p : R) : Res V4 :=
  let* cp := a_cos A p in let* st := a_sin A th in let* x := mul3B r cp st in
  let* sp := a_sin A p in let* y := mul3B r sp st in
  let* ct := a_cos A th in let* z := mul r ct in Ok (mkQ4 t x y z).
(** utils.py:118-128: the velocity part of spherical_to_cartesian *)
Definition sph_to_cart_velB (r th p v_r v_th v_p : R) : Res V3 :=
  let* st := a_sin A th in let* ct := a_cos A th in let* sp := a_sin A p in let* cp := a_cos A p in
  let* a := mul3B st cp v_r in let* b := mul4B r st sp v_p in let* s := sub a b in let* c := mul4B r ct cp v_th in let* v_x := add s c in
  let* a := mul3B st sp v_r in let* b := mul4B r ct sp v_th in let* s := add a b in let* c := mul4B r st cp v_p in let* v_y := add s c in
  let* a := mul ct v_r in let* b := mul3B r st v_th in let* v_z := sub a b in Ok (mk3 v_x v_y v_z).
(** utils.py:108-130 spherical_to_cartesian *)
Definition sph_to_cart_allB (t r th p v_r v_th v_p : R) : Res (V4 * V3) :=
  let* q := sph_to_cartB t r th p in let* v := sph_to_cart_velB r th p v_r v_th v_p in Ok (q, v).

(** utils.py:162, 189: xa *)
Definition xaB (r alpha : R) : Res R := let* r2 := sq r in let* al2 := sq alpha in let* s := add r2 al2 in a_sqrt A s.
(** utils.py:182-195 bl_to_cartesian_novel *)
Definition bl_to_cartB (t r th p alpha : R) : Res V4 :=
  let* xa := xaB r alpha in let* st := a_sin A th in let* sn := mul xa st in
  let* cp := a_cos A p in let* x := mul sn cp in let* sp := a_sin A p in let* y := mul sn sp in
  let* ct := a_cos A th in let* z := mul r ct in Ok (mkQ4 t x y z).
(** utils.py:167-177: the velocity part of bl_to_cartesian *)
Definition bl_to_cart_velB (r th p alpha v_r v_th v_p : R) : Res V3 :=
  let* xa := xaB r alpha in
  let* st := a_sin A th in let* ct := a_cos A th in let* sp := a_sin A p in let* cp := a_cos A p in
  let* a := mul4B r v_r st cp in let* a := div a xa in let* b := mul4B xa ct cp v_th in let* s := add a b in
  let* c := mul4B xa st sp v_p in let* v_x := sub s c in
  let* a := mul4B r v_r st sp in let* a := div a xa in let* b := mul4B xa ct sp v_th in let* s := add a b in
  let* c := mul4B xa st cp v_p in let* v_y := add s c in
  let* a := mul v_r ct in let* b := mul3B r st v_th in let* v_z := sub a b in Ok (mk3 v_x v_y v_z).
(** utils.py:155-179 bl_to_cartesian *)
Definition bl_to_cart_allB (t r th p alpha v_r v_th v_p : R) : Res (V4 * V3) :=
  let* q := bl_to_cartB t r th p alpha in let* v := bl_to_cart_velB r th p alpha v_r v_th v_p in Ok (q, v).
End Programs.
