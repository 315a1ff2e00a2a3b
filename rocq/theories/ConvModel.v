(** Model of src/einsteinpy/coordinates/conversion.py, core.py, differential.py, src/einsteinpy/units.py and
    BaseMetric.alpha (metric/base_metric.py:233-266).
    An astropy Quantity is a value, the scale of its unit in SI and the physical dimension of its unit; [q.si.value] is
    value * scale.  astropy.units.quantity_input rejects a wrong dimension with UnitsError (a ValueError) and a plain
    number with TypeError. *)
From Coq Require Import String Reals List ZArith Lra Lia Bool.
From Verif Require Import Base GeoUtilsModel CoordModel.
Import ListNotations.
Open Scope R_scope.

Inductive dim := DTime | DLength | DAngle | DSpeed | DAngSpeed | DMass | DCharge | DOne.
Definition dim_eqb (a b : dim) : bool :=
  match a, b with
  | DTime, DTime | DLength, DLength | DAngle, DAngle | DSpeed, DSpeed | DAngSpeed, DAngSpeed
  | DMass, DMass | DCharge, DCharge | DOne, DOne => true
  | _, _ => false
  end.

Record quantity := mkqty { q_val : R; q_scale : R; q_dim : dim }.
(** astropy [q.si.value] *)
Definition si (q : quantity) : R := q_val q * q_scale q.
(** [x * u.s], [x * u.m] ...: a quantity in the SI unit of its dimension *)
Definition in_si (x : R) (d : dim) : quantity := mkqty x 1 d.

(** A Python argument: a plain number or a Quantity *)
Inductive pynum := NFloat (x : R) | NQty (q : quantity).

(** units.py:8-31, one item: [.value] of a Quantity, anything else unchanged *)
Definition prim (n : pynum) : R := match n with NFloat x => x | NQty q => q_val q end.
Definition primitive (l : list pynum) : list R := map prim l.

(** astropy.units.quantity_input on one argument *)
Definition qinput (d : dim) (n : pynum) : Res quantity :=
  match n with
  | NFloat _ => Err TypeError
  | NQty q => if dim_eqb (q_dim q) d then Ok q else Err ValueError
  end.

Section Constants.
(** constant.c.value and constant.G.value *)
Variables (c G : R).

(** metric/base_metric.py:233-266 *)
Definition bm_alpha (M a : pynum) : Res R :=
  let M := prim M in let a := prim a in
  if Rlt_dec a 0 then Err ValueError else if Rlt_dec 1 a then Err ValueError
  else Ok (a * (G * M / c ^ 2)).

(** ** conversion.py *)
Inductive system := Cart | Sph | BL.
Definition system_eqb (a b : system) : bool :=
  match a, b with Cart, Cart | Sph, Sph | BL, BL => true | _, _ => false end.

(** The three Conversion classes have the same constructor: four coordinates, three optional velocities
    (conversion.py:16-47, 161-192, 297-328) *)
Record conv := mkconv { cv_pos : V4; cv_v1 : option R; cv_v2 : option R; cv_v3 : option R }.
(** conversion.py:45-47, 190-192, 326-328 [_velocities_provided] *)
Definition velocities_provided (k : conv) : bool :=
  negb ((match cv_v1 k with None => true | _ => false end) || (match cv_v2 k with None => true | _ => false end)
        || (match cv_v3 k with None => true | _ => false end)).
(** the velocity arguments when all were given *)
Definition cv_vel (k : conv) : option V3 :=
  match cv_v1 k, cv_v2 k, cv_v3 k with Some a, Some b, Some d => Some (mk3 a b d) | _, _, _ => None end.

Definition l4 (p : V4) : list R := [c0 p; c1 p; c2 p; c3 p].
Definition l7 (p : V4) (v : V3) : list R := [c0 p; c1 p; c2 p; c3 p; v1 v; v2 v; v3 v].

(** conversion.py:49-72, 194-217, 330-353 *)
Definition cv_values (k : conv) : list R :=
  match velocities_provided k, cv_vel k with true, Some v => l7 (cv_pos k) v | _, _ => l4 (cv_pos k) end.

(** utils.py:9-14 / 52-57 / 100-105 / 147-152 dispatch: [*_fast] *)
Definition fast (k : conv) (pos : V4 -> Res V4) (vel : V4 -> V3 -> Res V3) : Res (list R) :=
  match velocities_provided k, cv_vel k with
  | true, Some v => let* p := pos (cv_pos k) in let* w := vel (cv_pos k) v in Ok (l7 p w)
  | _, _ => let* p := pos (cv_pos k) in Ok (l4 p)
  end.

(** conversion.py:74-99 *)
Definition cart_convert_spherical (k : conv) : Res (list R) :=
  fast k (fun p => Ok (cart_to_sph (c0 p) (c1 p) (c2 p) (c3 p)))
         (fun p v => cart_to_sph_vel (c1 p) (c2 p) (c3 p) (v1 v) (v2 v) (v3 v)).

(** keyword arguments: is M / a present? *)
Definition kwargs := (option pynum * option pynum)%type.
Definition get_M_a (kw : kwargs) : Res (pynum * pynum) :=
  match kw with (Some M, Some a) => Ok (M, a) | _ => Err KeyError end.

(** conversion.py:101-152 *)
Definition cart_convert_bl (k : conv) (kw : kwargs) : Res (list R) :=
  let* (M, a) := get_M_a kw in
  let* al := bm_alpha M a in
  fast k (fun p => cart_to_bl (c0 p) (c1 p) (c2 p) (c3 p) al)
         (fun p v => cart_to_bl_vel (c1 p) (c2 p) (c3 p) al (v1 v) (v2 v) (v3 v)).

(** conversion.py:219-244 *)
Definition sph_convert_cartesian (k : conv) : Res (list R) :=
  fast k (fun p => Ok (sph_to_cart (c0 p) (c1 p) (c2 p) (c3 p)))
         (fun p v => Ok (sph_to_cart_vel (c1 p) (c2 p) (c3 p) (v1 v) (v2 v) (v3 v))).

(** [CartesianConversion( *tuple )]: missing velocities default to None; any other arity is a TypeError *)
Definition conv_of_list (l : list R) : Res conv :=
  match l with
  | [t; x; y; z] => Ok (mkconv (mkQ4 t x y z) None None None)
  | [t; x; y; z; a; b; d] => Ok (mkconv (mkQ4 t x y z) (Some a) (Some b) (Some d))
  | _ => Err TypeError
  end.

(** conversion.py:246-288 *)
Definition sph_convert_bl (k : conv) (kw : kwargs) : Res (list R) :=
  let* (M, a) := get_M_a kw in
  let* l := sph_convert_cartesian k in
  let* cart := conv_of_list l in
  cart_convert_bl cart (Some M, Some a).

(** conversion.py:355-406 *)
Definition bl_convert_cartesian (k : conv) (kw : kwargs) : Res (list R) :=
  let* (M, a) := get_M_a kw in
  let* al := bm_alpha M a in
  fast k (fun p => Ok (bl_to_cart (c0 p) (c1 p) (c2 p) (c3 p) al))
         (fun p v => bl_to_cart_vel (c1 p) (c2 p) (c3 p) al (v1 v) (v2 v) (v3 v)).

(** conversion.py:408-450 *)
Definition bl_convert_spherical (k : conv) (kw : kwargs) : Res (list R) :=
  let* (M, a) := get_M_a kw in
  let* l := bl_convert_cartesian k (Some M, Some a) in
  let* cart := conv_of_list l in
  cart_convert_spherical cart.

(** ** core.py: Cartesian, Spherical, BoyerLindquist *)
Definition pos_dims (s : system) : Q4 dim :=
  match s with Cart => mkQ4 DTime DLength DLength DLength | _ => mkQ4 DTime DLength DAngle DAngle end.
Definition vel_dims (s : system) : dim * dim * dim :=
  match s with Cart => (DSpeed, DSpeed, DSpeed) | _ => (DSpeed, DAngSpeed, DAngSpeed) end.

Definition si4 (q : Q4 quantity) : V4 := q4map si q.

(** coordinates/core.py:21-51, 151-181, 287-317: a coordinate object keeps the quantities as given and their SI values *)
Record coord := mkcoord { co_sys : system; co_q : Q4 quantity; co_conv : conv }.
Definition qinput4 (d : Q4 dim) (n : Q4 pynum) : Res (Q4 quantity) := q4seq (q4map2 qinput d n).
Definition mk_coord (s : system) (n : Q4 pynum) : Res coord :=
  let* q := qinput4 (pos_dims s) n in
  Ok (mkcoord s q (mkconv (si4 q) None None None)).

(** coordinates/core.py:79-89, 209-224, 345-360 *)
Definition co_position (k : coord) : V4 :=
  let q := co_q k in mkQ4 (c * si (c0 q)) (si (c1 q)) (si (c2 q)) (si (c3 q)).

(** convert_* of an object of either family *)
Definition convert (from to : system) (k : conv) (kw : kwargs) : Res (list R) :=
  match from, to with
  | Cart, Sph => cart_convert_spherical k
  | Cart, BL => cart_convert_bl k kw
  | Sph, Cart => sph_convert_cartesian k
  | Sph, BL => sph_convert_bl k kw
  | BL, Cart => bl_convert_cartesian k kw
  | BL, Sph => bl_convert_spherical k kw
  | _, _ => Err AttributeError
  end.
(** does the method read kwargs["M"] and kwargs["a"]? *)
Definition needs_spin (from to : system) : bool :=
  match from, to with Cart, Sph | Sph, Cart => false | _, _ => true end.

(** coordinates/core.py:91-141, 226-277, 362-427: to_cartesian / to_spherical / to_bl *)
Definition to_sys (to : system) (k : coord) (kw : kwargs) : Res coord :=
  let* l := convert (co_sys k) to (co_conv k) kw in
  match l with
  | [t; x; y; z] =>
      let d := pos_dims to in
      mk_coord to (mkQ4 (NQty (in_si t (c0 d))) (NQty (in_si x (c1 d))) (NQty (in_si y (c2 d))) (NQty (in_si z (c3 d))))
  | _ => Err ValueError
  end.

(** *** __getitem__ (coordinates/core.py:61-77, 191-207, 327-343) *)
Inductive key := KInt (i : Z) | KStr (s : string).
Inductive item := IQty (q : quantity) | ISystem (s : system).
Definition names (s : system) : list string :=
  match s with Cart => ["t"; "x"; "y"; "z"]%string | _ => ["t"; "r"; "theta"; "phi"]%string end.
(** the dict [_dimension] as an association list in source order *)
Definition dimension (k : coord) : list (string * item) :=
  let q := co_q k in
  combine (names (co_sys k)) [IQty (c0 q); IQty (c1 q); IQty (c2 q); IQty (c3 q)] ++ [("system"%string, ISystem (co_sys k))].
Fixpoint dict_get (l : list (string * item)) (s : string) : Res item :=
  match l with [] => Err KeyError | (n, v) :: r => if String.eqb n s then Ok v else dict_get r s end.
(** Python tuple subscript: negative indices count from the end *)
Definition tuple_get {A} (l : list A) (i : Z) : Res A :=
  let n := Z.of_nat (List.length l) in
  let j := (if i <? 0 then i + n else i)%Z in
  if (j <? 0)%Z then Err IndexError
  else match nth_error l (Z.to_nat j) with Some a => Ok a | None => Err IndexError end.
Definition getitem (k : coord) (i : key) : Res item :=
  match i with
  | KInt i => let* n := tuple_get (names (co_sys k)) i in dict_get (dimension k) n
  | KStr s => dict_get (dimension k) s
  end.

(** ** differential.py *)
Record diffl := mkdiffl { df_sys : system; df_q : Q4 quantity; df_v : quantity * quantity * quantity;
                          df_conv : conv; df_vt : option quantity }.
(** differential.py:25-65, 232-272, 444-484 *)
Definition mk_diffl (s : system) (n : Q4 pynum) (a b d : pynum) : Res diffl :=
  let* q := qinput4 (pos_dims s) n in
  let '(d1, d2, d3) := vel_dims s in
  let* va := qinput d1 a in let* vb := qinput d2 b in let* vd := qinput d3 d in
  Ok (mkdiffl s q (va, vb, vd) (mkconv (si4 q) (Some (si va)) (Some (si vb)) (Some (si vd))) None).
Definition df_position (k : diffl) : V4 :=
  let q := df_q k in mkQ4 (c * si (c0 q)) (si (c1 q)) (si (c2 q)) (si (c3 q)).

(** what differential.py uses of a metric object: its coordinate system and metric_covariant *)
Record metric := mkmetric { me_sys : system; me_cov : V4 -> Res M4 }.

(** differential.py:97-126, 309-338, 521-550: the v_t setter.  A failing call raises before the only assignment. *)
Definition set_v_t (k : diffl) (g : metric) : Res diffl :=
  if system_eqb (df_sys k) (me_sys g) then
    let* m := me_cov g (df_position k) in
    let '(a, b, d) := df_v k in
    let* vt := v0 c m (si a) (si b) (si d) in
    Ok (mkdiffl (df_sys k) (df_q k) (df_v k) (df_conv k) (Some (in_si vt DSpeed)))
  else Err CoordinateError.
(** differential.py:128-151, 340-363, 552-575; the object after the call and what the call returns or raises *)
Definition velocity (k : diffl) (g : metric) : diffl * Res V4 :=
  match set_v_t k g with
  | Ok k' =>
      let '(a, b, d) := df_v k' in
      (k', match df_vt k' with Some q => Ok (mkQ4 (q_val q) (si a) (si b) (si d)) | None => Err AttributeError end)
  | Err e => (k, Err e)
  end.

(** differential.py:153-214, 365-426, 577-649: the *_differential conversions *)
Definition diff_to (to : system) (k : diffl) (kw : kwargs) : Res diffl :=
  let* l := convert (df_sys k) to (df_conv k) kw in
  match l with
  | [t; x; y; z; a; b; d] =>
      let pd := pos_dims to in let '(d1, d2, d3) := vel_dims to in
      mk_diffl to (mkQ4 (NQty (in_si t (c0 pd))) (NQty (in_si x (c1 pd))) (NQty (in_si y (c2 pd))) (NQty (in_si z (c3 pd))))
        (NQty (in_si a d1)) (NQty (in_si b d2)) (NQty (in_si d d3))
  | _ => Err ValueError
  end.
End Constants.
