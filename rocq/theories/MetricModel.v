(** Model of src/einsteinpy/metric/base_metric.py, schwarzschild.py, kerr.py, kerrnewman.py (SI units, exact reals).
    [Err NonFinite]: some denominator of the returned array is 0 (numpy would put inf/nan in some entries); the model
    then reports the whole array as non-finite.  np.linalg.inv is the adjugate inverse, LinAlgError when det = 0. *)
From Coq Require Import Reals List ZArith Lra Lia Bool.
From Verif Require Import Base GeoUtilsModel CoordModel ConvModel.
Import ListNotations.
Open Scope R_scope.

(** *** numpy arrays of shape (4,4,4) *)
Definition arr3 := nat -> nat -> nat -> R.
Definition zeros3 : arr3 := fun _ _ _ => 0.
(** [a[i,j,k] = v] *)
Definition set3 (a : arr3) (i j k : nat) (v : R) : arr3 :=
  fun i' j' k' => if Nat.eqb i i' && Nat.eqb j j' && Nat.eqb k k' then v else a i' j' k'.
(** [a[i,j,k] = a[i,k,j] = v] *)
Definition set3s (a : arr3) (i j k : nat) (v : R) : arr3 := set3 (set3 a i j k v) i k j v.

(** *** np.linalg.inv on a (4,4) array *)
Definition skip (i k : nat) : nat := if Nat.ltb k i then k else S k.
Definition minor4 (m : M4) (i j : nat) : R :=
  let e a b := mnth m (skip i a) (skip j b) in
  e 0%nat 0%nat * (e 1%nat 1%nat * e 2%nat 2%nat - e 1%nat 2%nat * e 2%nat 1%nat)
  - e 0%nat 1%nat * (e 1%nat 0%nat * e 2%nat 2%nat - e 1%nat 2%nat * e 2%nat 0%nat)
  + e 0%nat 2%nat * (e 1%nat 0%nat * e 2%nat 1%nat - e 1%nat 1%nat * e 2%nat 0%nat).
Definition sgn4 (i j : nat) : R := if Nat.even (i + j) then 1 else -1.
Definition det4 (m : M4) : R :=
  mnth m 0 0 * minor4 m 0 0 - mnth m 0 1 * minor4 m 0 1 + mnth m 0 2 * minor4 m 0 2 - mnth m 0 3 * minor4 m 0 3.
Definition adj4 (m : M4) : M4 := mtab (fun i j => sgn4 i j * minor4 m j i).
Definition np_inv (m : M4) : Res M4 :=
  if Req_EM_T (det4 m) 0 then Err LinAlgError
  else Ok (mtab (fun i j => mnth (adj4 m) i j / det4 m)).

(** all denominators non-zero, else non-finite entries *)
Definition finite_if {A} (dens : list R) (a : A) : Res A :=
  if existsb (fun d => if Req_EM_T d 0 then true else false) dens then Err NonFinite else Ok a.

Section SI.
(** constant.c.value, constant.G.value, constant.coulombs_const.value *)
Variables (c G Cc : R).

(** ** base_metric.py *)
(** base_metric.py:214-231 *)
Definition schwarzschild_radius (M : pynum) : R := 2 * G * prim M / c ^ 2.
(** base_metric.py:125-152 *)
Definition sigma (r th M a : pynum) : Res R :=
  let* al := bm_alpha c G (NFloat (prim M)) (NFloat (prim a)) in
  Ok (prim r ^ 2 + (al * cos (prim th)) ^ 2).
(** base_metric.py:154-186 *)
Definition delta (r M a Q : pynum) : Res R :=
  let r_s := 2 * prim M * G / c ^ 2 in
  let* al := bm_alpha c G (NFloat (prim M)) (NFloat (prim a)) in
  let r_Q2 := (prim Q ^ 2) * G * Cc / c ^ 4 in
  Ok (prim r ^ 2 - r_s * prim r + al ^ 2 + r_Q2).
(** base_metric.py:188-212 *)
Definition rho (r th M a : pynum) : Res R := let* s := sigma r th M a in np_sqrt s.

(** The objects: coordinate system and the quantities M, a, Q, q given to the constructor
    (base_metric.py:41-105, kerrnewman.py:19-49); sch_rad is computed by the constructor. *)
Inductive mname := NSchwarzschild | NKerr | NKerrNewman | NOther.
Record mobj := mkmobj { mo_name : mname; mo_sys : system; mo_M : quantity; mo_a : quantity; mo_Q : quantity; mo_q : quantity }.
Definition sch_rad (o : mobj) : R := schwarzschild_radius (NQty (mo_M o)).

(** base_metric.py:268-342; the ergosphere entries are functions of theta *)
Record sing := mksing { in_ergo : R -> Res R; in_hor : R; out_hor : R; out_ergo : R -> Res R }.
Definition singularities (o : mobj) : Res sing :=
  let M := q_val (mo_M o) in let a := q_val (mo_a o) in let Q := q_val (mo_Q o) in
  let r_s := 2 * M * G / c ^ 2 in
  let* al := bm_alpha c G (NFloat M) (NFloat a) in
  let r_Q2 := (Q ^ 2) * G * Cc / c ^ 4 in
  let inner th := let* s := np_sqrt (r_s ^ 2 - 4 * (al * cos th) ^ 2 - 4 * r_Q2) in Ok ((r_s - s) / 2) in
  let outer th := let* s := np_sqrt (r_s ^ 2 - 4 * (al * cos th) ^ 2 - 4 * r_Q2) in Ok ((r_s + s) / 2) in
  match mo_name o with
  | NKerr | NKerrNewman =>
      match mo_sys o with
      | BL => let* s := np_sqrt (r_s ^ 2 - 4 * al ^ 2 - 4 * r_Q2) in
              Ok (mksing inner ((r_s - s) / 2) ((r_s + s) / 2) outer)
      | _ => Err CoordinateError
      end
  | _ =>
      match mo_sys o with
      | Sph => Ok (mksing (fun _ => Ok 0) 0 r_s (fun _ => Ok r_s))
      | _ => Err CoordinateError
      end
  end.

(** base_metric.py:344-371: metric_covariant of a BaseMetric with callables metric_cov and perturbation *)
Definition base_metric_covariant (cov : V4 -> Res M4) (pert : option (V4 -> Res M4)) (x : V4) : Res M4 :=
  let* g := cov x in
  match pert with
  | Some p => let* h := p x in Ok (q4map2 (q4map2 Rplus) g h)
  | None => Ok g
  end.
(** base_metric.py:373-396 *)
Definition metric_contravariant (cov : V4 -> Res M4) (x : V4) : Res M4 := let* g := cov x in np_inv g.

(** ** schwarzschild.py *)
(** schwarzschild.py:39-90 *)
Definition sch_g (r_s r th : R) : M4 :=
  let tmp := 1 - r_s / r in
  mkQ4 (mkQ4 (tmp * c ^ 2) 0 0 0) (mkQ4 0 (-1 / tmp) 0 0) (mkQ4 0 0 (- (r ^ 2)) 0) (mkQ4 0 0 0 (- ((r * sin th) ^ 2))).
Definition sch_cov (o : mobj) (x : V4) : Res M4 :=
  match mo_sys o with
  | Sph => finite_if [c1 x; 1 - sch_rad o / c1 x] (sch_g (sch_rad o) (c1 x) (c2 x))
  | _ => Err CoordinateError
  end.
(** schwarzschild.py:92-153; [1 / np.tan(th)] is cos/sin (np.tan is never infinite in floats; at cos th = 0 the quotient
    is 0 up to rounding) *)
Definition sch_ch (r_s r th : R) : arr3 :=
  let chl := zeros3 in
  let chl := set3 chl 1 0 0 (/ 2 * r_s * (r - r_s) * c ^ 2 / r ^ 3) in
  let v111 := / 2 * r_s / (r_s * r - r ^ 2) in
  let chl := set3 chl 1 1 1 v111 in
  let chl := set3 chl 1 2 2 (r_s - r) in
  let chl := set3 chl 1 3 3 ((r_s - r) * sin th ^ 2) in
  let chl := set3s chl 0 0 1 (- v111) in
  let chl := set3s (set3s chl 2 2 1 (1 / r)) 3 3 1 (1 / r) in
  let chl := set3 chl 2 3 3 (- cos th * sin th) in
  set3s chl 3 3 2 (cos th / sin th).
Definition sch_christoffels (o : mobj) (x : V4) : Res arr3 :=
  match mo_sys o with
  | Sph => let r := c1 x in finite_if [r; sch_rad o * r - r ^ 2; sin (c2 x)] (sch_ch (sch_rad o) r (c2 x))
  | _ => Err CoordinateError
  end.
(** schwarzschild.py:155-224, given the Christoffel array; the state is (x, v) *)
Definition sch_accel (chl : arr3) (v : V4) : V4 :=
  let t := c0 v in let r := c1 v in let th := c2 v in let p := c3 v in
  mkQ4 (-2 * chl 0%nat 0%nat 1%nat * t * r)
       (-1 * (chl 1%nat 0%nat 0%nat * t ^ 2 + chl 1%nat 1%nat 1%nat * r ^ 2 + chl 1%nat 2%nat 2%nat * th ^ 2
              + chl 1%nat 3%nat 3%nat * p ^ 2))
       (-2 * chl 2%nat 2%nat 1%nat * th * r - 1 * chl 2%nat 3%nat 3%nat * p ^ 2)
       (-2 * (chl 3%nat 3%nat 1%nat * p * r + chl 3%nat 3%nat 2%nat * p * th)).
Definition sch_f_vec (o : mobj) (x v : V4) : Res (V4 * V4) :=
  match mo_sys o with
  | Sph => let* chl := sch_christoffels o x in Ok (v, sch_accel chl v)
  | _ => Err CoordinateError
  end.

(** ** kerr.py *)
(** kerr.py:109-145, with sg = sigma, dl = delta, al = alpha evaluated *)
Definition kerr_g (r_s al sg dl r th : R) : M4 :=
  let g03 := (c * r_s * r * al * sin th ^ 2) / sg in
  mkQ4 (mkQ4 ((1 - r_s * r / sg) * c ^ 2) 0 0 g03)
       (mkQ4 0 (- (sg / dl)) 0 0)
       (mkQ4 0 0 (- sg) 0)
       (mkQ4 g03 0 0 (- ((r ^ 2 + al ^ 2 + (r_s * r * (al * sin th) ^ 2) / sg) * sin th ^ 2))).
(** M.value, a.value, alpha, sigma, delta as read by kerr.py:127-130 and kerrnewman.py:136-139.
    [super().delta(r, M, a)] is called without Q in both files. *)
Definition bl_params (o : mobj) (x : V4) : Res (R * R * R) :=
  let M := NFloat (q_val (mo_M o)) in let a := NFloat (q_val (mo_a o)) in
  let* al := bm_alpha c G M a in
  let* sg := sigma (NFloat (c1 x)) (NFloat (c2 x)) M a in
  let* dl := delta (NFloat (c1 x)) M a (NFloat 0) in
  Ok (al, sg, dl).
(** kerr.py:79-107 *)
Definition kerr_cov (o : mobj) (x : V4) : Res M4 :=
  match mo_sys o with
  | BL => let* (al, sg, dl) := bl_params o x in
          finite_if [sg; dl] (kerr_g (sch_rad o) al sg dl (c1 x) (c2 x))
  | _ => Err CoordinateError
  end.
(** kerr.py:147-212 *)
Definition kerr_dg (r_s al sg dl r th : R) : arr3 :=
  let dgdx := zeros3 in
  let dsdr := 2 * r in
  let dddr := 2 * r - r_s in
  let tmp := r_s * (sg - r * dsdr) / sg ^ 2 in
  let dgdx := set3 dgdx 1 0 0 (- tmp * c ^ 2) in
  let dgdx := set3 dgdx 1 1 1 (- (dsdr - sg * (dddr / dl)) / dl) in
  let dgdx := set3 dgdx 1 2 2 (- dsdr) in
  let dgdx := set3 dgdx 1 3 3 ((-2 * r + (al * sin th) ^ 2 * tmp) * sin th ^ 2) in
  let dgdx := set3s dgdx 1 0 3 (c * al * sin th ^ 2 * tmp) in
  let dsdth := - (al ^ 2) * sin (2 * th) in
  let tmp := (c / sg) ^ 2 * r_s * r * dsdth in
  let dgdx := set3 dgdx 2 0 0 tmp in
  let dgdx := set3 dgdx 2 1 1 (- (dsdth / dl)) in
  let dgdx := set3 dgdx 2 2 2 (- dsdth) in
  let dgdx := set3 dgdx 2 3 3 (- sin (2 * th) * (r ^ 2 + al ^ 2)
                - (r_s * r * al ^ 2) * (sin th / sg) ^ 2 * (2 * sg * sin (2 * th) - sin th ^ 2 * dsdth)) in
  set3s dgdx 2 0 3 ((c * al * r_s * r) / sg ^ 2 * (sg * sin (2 * th) - dsdth * sin th ^ 2)).
Definition kerr_dgdx (o : mobj) (x : V4) : Res arr3 :=
  let* (al, sg, dl) := bl_params o x in
  finite_if [sg; dl] (kerr_dg (sch_rad o) al sg dl (c1 x) (c2 x)).

(** kerr.py:44-77 = kerrnewman.py:53-86 *)
Definition nonzero_list : list (nat * nat * nat) :=
  [ (0,0,1); (0,0,2); (0,1,3); (0,2,3); (0,1,0); (0,2,0); (0,3,1); (0,3,2);
    (1,0,0); (1,1,1); (1,2,2); (1,3,3); (2,0,0); (2,1,1); (2,2,2); (2,3,3);
    (1,0,3); (1,1,2); (2,0,3); (2,1,2); (1,2,1); (1,3,0); (2,2,1); (2,3,0);
    (3,0,1); (3,0,2); (3,1,0); (3,1,3); (3,2,0); (3,2,3); (3,3,1); (3,3,2) ]%nat.
(** Python [l[i:j]] *)
Definition slice {A} (i j : nat) (l : list A) : list A := skipn i (firstn j l).

(** kerr.py:244-285 = kerrnewman.py:272-313 *)
Definition bl_ch (gc : M4) (dg : arr3) : arr3 :=
  let chl := fold_left (fun (chl : arr3) '(_, k, l) =>
    let val1 := dg l 0%nat k + dg k 0%nat l in
    let val2 := dg l 3%nat k + dg k 3%nat l in
    let chl := set3s chl 0 k l (/ 2 * (mnth gc 0 0 * val1 + mnth gc 0 3 * val2)) in
    set3s chl 3 k l (/ 2 * (mnth gc 3 0 * val1 + mnth gc 3 3 * val2))) (slice 0 4 nonzero_list) zeros3 in
  let chl := fold_left (fun (chl : arr3) '(i, k, l) =>
    set3 chl i k l (/ 2 * (mnth gc i i * (dg l i k + dg k i l - dg i k l)))) (slice 8 16 nonzero_list) chl in
  fold_left (fun (chl : arr3) '(i, k, l) =>
    set3s chl i k l (/ 2 * (mnth gc i i * (dg l i k + dg k i l - dg i k l)))) (slice 16 20 nonzero_list) chl.
(** kerr.py:214-242 *)
Definition kerr_christoffels (o : mobj) (x : V4) : Res arr3 :=
  match mo_sys o with
  | BL => let* gc := metric_contravariant (kerr_cov o) x in let* dg := kerr_dgdx o x in Ok (bl_ch gc dg)
  | _ => Err CoordinateError
  end.
(** kerr.py:321-377 = kerrnewman.py:375-406 *)
Definition bl_accel (chl : arr3) (v : V4) : V4 :=
  let t := c0 v in let r := c1 v in let th := c2 v in let p := c3 v in
  mkQ4 (-2 * (chl 0%nat 0%nat 1%nat * t * r + chl 0%nat 0%nat 2%nat * t * th
              + chl 0%nat 1%nat 3%nat * r * p + chl 0%nat 2%nat 3%nat * th * p))
       (-1 * (chl 1%nat 0%nat 0%nat * t * t + 2 * chl 1%nat 0%nat 3%nat * t * p + chl 1%nat 1%nat 1%nat * r * r
              + 2 * chl 1%nat 1%nat 2%nat * r * th + chl 1%nat 2%nat 2%nat * th * th + chl 1%nat 3%nat 3%nat * p * p))
       (-1 * (chl 2%nat 0%nat 0%nat * t * t + 2 * chl 2%nat 0%nat 3%nat * t * p + chl 2%nat 1%nat 1%nat * r * r
              + 2 * chl 2%nat 1%nat 2%nat * r * th + chl 2%nat 2%nat 2%nat * th * th + chl 2%nat 3%nat 3%nat * p * p))
       (-2 * (chl 3%nat 0%nat 1%nat * t * r + chl 3%nat 0%nat 2%nat * t * th
              + chl 3%nat 1%nat 3%nat * r * p + chl 3%nat 2%nat 3%nat * th * p)).
(** kerr.py:287-319 *)
Definition kerr_f_vec (o : mobj) (x v : V4) : Res (V4 * V4) :=
  match mo_sys o with
  | BL => let* chl := kerr_christoffels o x in Ok (v, bl_accel chl v)
  | _ => Err CoordinateError
  end.

(** kerr.py:379-425 *)
Definition setb2 (a : nat -> nat -> bool) (i j : nat) : nat -> nat -> bool :=
  fun i' j' => if Nat.eqb i i' && Nat.eqb j j' then true else a i' j'.
Definition setb3 (a : nat -> nat -> nat -> bool) (i j k : nat) : nat -> nat -> nat -> bool :=
  fun i' j' k' => if Nat.eqb i i' && Nat.eqb j j' && Nat.eqb k k' then true else a i' j' k'.
Definition nz_contra : nat -> nat -> bool :=
  fold_left (fun a '(i, j) => setb2 a i j) [(3,0); (0,3); (0,0); (1,1); (2,2); (3,3)]%nat (fun _ _ => false).
Definition nz_dgdx : nat -> nat -> nat -> bool :=
  fold_left (fun a '(i, j, k) => setb3 a i j k)
    [(1,3,0); (1,0,3); (2,0,3); (2,3,0); (1,0,0); (1,1,1); (1,2,2); (1,3,3); (2,0,0); (2,1,1); (2,2,2); (2,3,3)]%nat
    (fun _ _ _ => false).
(** the loop over t; the accumulation [chl[i,j,k] |= ...] starts from False for every t because the triples are distinct *)
Definition nonzero_christoffels : list (nat * nat * nat) :=
  flat_map (fun t =>
    let i := ((t / 16) mod 4)%nat in let j := ((t / 4) mod 4)%nat in let k := (t mod 4)%nat in
    if fold_left (fun acc n => acc || (nz_contra i n && (nz_dgdx k n j || nz_dgdx j n k || nz_dgdx n j k)))
         (seq 0 4) false
    then [(i, j, k)] else []) (seq 0 64).

(** ** kerrnewman.py *)
(** kerrnewman.py:118-154, rho2 and dl evaluated *)
Definition kn_g (al rho2 dl r th : R) : M4 :=
  let g03 := c * ((- al * sin th ^ 2 * (dl - r ^ 2 - al ^ 2)) / rho2) in
  mkQ4 (mkQ4 (c ^ 2 * ((dl - (al * sin th) ^ 2) / rho2)) 0 0 g03)
       (mkQ4 0 (- rho2 / dl) 0 0)
       (mkQ4 0 0 (- rho2) 0)
       (mkQ4 g03 0 0 (- (sin th ^ 2 * (((r ^ 2 + al ^ 2) ^ 2 - dl * (al * sin th) ^ 2) / rho2)))).
(** [super().rho(r, th, M, a) ** 2] *)
Definition kn_params (o : mobj) (x : V4) : Res (R * R * R) :=
  let M := NFloat (q_val (mo_M o)) in let a := NFloat (q_val (mo_a o)) in
  let* al := bm_alpha c G M a in
  let* rh := rho (NFloat (c1 x)) (NFloat (c2 x)) M a in
  let* dl := delta (NFloat (c1 x)) M a (NFloat 0) in
  Ok (al, rh ^ 2, dl).
(** kerrnewman.py:88-116 *)
Definition kn_cov (o : mobj) (x : V4) : Res M4 :=
  match mo_sys o with
  | BL => let* (al, rho2, dl) := kn_params o x in finite_if [rho2; dl] (kn_g al rho2 dl (c1 x) (c2 x))
  | _ => Err CoordinateError
  end.
(** kerrnewman.py:156-240 *)
Definition kn_dg (r_s al rho2 dl r th : R) : arr3 :=
  let dgdx := zeros3 in
  let drh2dr := 2 * r in
  let dddr := 2 * r - r_s in
  let dgdx := set3 dgdx 1 0 0 (c ^ 2 * (dddr * rho2 - drh2dr * (dl - (al * sin th) ^ 2)) / rho2 ^ 2) in
  let dgdx := set3 dgdx 1 1 1 ((-1 / dl ^ 2) * (drh2dr * dl - dddr * rho2)) in
  let dgdx := set3 dgdx 1 2 2 (- drh2dr) in
  let dgdx := set3 dgdx 1 3 3 ((sin th / rho2) ^ 2 *
      ((((al * sin th) ^ 2 * dddr - 4 * r ^ 3 - 4 * (r * al ^ 2)) * rho2)
       - (drh2dr * ((al * sin th) ^ 2 * dl - (r ^ 2 + al ^ 2) ^ 2)))) in
  let dgdx := set3s dgdx 1 0 3 ((c * - al * sin th ^ 2 / rho2 ^ 2) *
      ((dddr - 2 * r) * rho2 - drh2dr * (dl - r ^ 2 - al ^ 2))) in
  let drh2dth := - (al ^ 2) * sin (2 * th) in
  let dgdx := set3 dgdx 2 0 0 (- ((c / rho2) ^ 2) *
      ((drh2dth * (dl - (al * sin th) ^ 2)) + (al ^ 2 * rho2 * sin (2 * th)))) in
  let dgdx := set3 dgdx 2 1 1 (- drh2dth / dl) in
  let dgdx := set3 dgdx 2 2 2 (- drh2dth) in
  let dgdx := set3 dgdx 2 3 3 ((1 / rho2 ^ 2) *
      ((dl * (al * sin th) ^ 2) * (2 * rho2 * sin (2 * th) - drh2dth * (sin th) ^ 2)
       - ((r ^ 2 + al ^ 2) ^ 2 * (rho2 * sin (2 * th) - drh2dth * (sin th) ^ 2)))) in
  set3s dgdx 2 0 3 ((- al * c * (dl - r ^ 2 - al ^ 2)) / rho2 ^ 2 * (sin (2 * th) * rho2 - drh2dth * sin th ^ 2)).
Definition kn_dgdx (o : mobj) (x : V4) : Res arr3 :=
  let* (al, rho2, dl) := kn_params o x in
  finite_if [rho2; dl] (kn_dg (sch_rad o) al rho2 dl (c1 x) (c2 x)).
(** kerrnewman.py:242-313 *)
Definition kn_christoffels (o : mobj) (x : V4) : Res arr3 :=
  match mo_sys o with
  | BL => let* gc := metric_contravariant (kn_cov o) x in let* dg := kn_dgdx o x in Ok (bl_ch gc dg)
  | _ => Err CoordinateError
  end.

(** kerrnewman.py:434, 486: sqrt((Q**2 * G * Cc) / c**4) *)
Definition r_Q (o : mobj) : Res R := np_sqrt ((q_val (mo_Q o) ^ 2 * G * Cc) / c ^ 4).
(** kerrnewman.py:412-441 *)
Definition em_A (al rQ rho2 r th : R) : V4 := mkQ4 (r * rQ / rho2) 0 0 (- r * al * rQ * sin th ^ 2 / rho2).
Definition em_potential_covariant (o : mobj) (x : V4) : Res V4 :=
  let M := NFloat (q_val (mo_M o)) in let a := NFloat (q_val (mo_a o)) in
  let* al := bm_alpha c G M a in
  let* rQ := r_Q o in
  let* rh := rho (NFloat (c1 x)) (NFloat (c2 x)) M a in
  finite_if [rh ^ 2] (em_A al rQ (rh ^ 2) (c1 x) (c2 x)).
(** kerrnewman.py:465-509 *)
Definition em_F (al rQ rho2 r th : R) : M4 :=
  let drho2_dr := 2 * r in
  let drho2_dtheta := - (al ^ 2 * sin (2 * th)) in
  let F01 := - (rQ * (rho2 - drho2_dr * r)) / rho2 ^ 2 in
  let F02 := (r * rQ * drho2_dtheta) / rho2 ^ 2 in
  let F13 := (1 / rho2 ^ 2) * (al * rQ * sin th ^ 2) * (rho2 - 2 * r ^ 2) in
  let F23 := (1 / rho2 ^ 2) * (al * rQ * r * sin (2 * th)) * (rho2 + (al * sin th) ^ 2) in
  mkQ4 (mkQ4 0 F01 F02 0) (mkQ4 (- F01) 0 0 F13) (mkQ4 (- F02) 0 0 F23) (mkQ4 0 (- F13) (- F23) 0).
Definition em_tensor_covariant (o : mobj) (x : V4) : Res M4 :=
  let M := NFloat (q_val (mo_M o)) in let a := NFloat (q_val (mo_a o)) in
  let* al := bm_alpha c G M a in
  let* rQ := r_Q o in
  let* rh := rho (NFloat (c1 x)) (NFloat (c2 x)) M a in
  finite_if [rh ^ 2] (em_F al rQ (rh ^ 2) (c1 x) (c2 x)).
(** kerrnewman.py:443-463 *)
Definition em_potential_contravariant (o : mobj) (x : V4) : Res V4 :=
  let* A := em_potential_covariant o x in
  let* gc := metric_contravariant (kn_cov o) x in
  Ok (mv gc A).
(** kerrnewman.py:511-533 *)
Definition em_tensor_contravariant (o : mobj) (x : V4) : Res M4 :=
  let* F := em_tensor_covariant o x in
  let* gc := metric_contravariant (kn_cov o) x in
  Ok (mm (mm gc F) gc).
(** numpy [v @ M] for a vector v *)
Definition vm (v : V4) (m : M4) : V4 := mv (transpose m) v.
(** kerrnewman.py:315-410; the last line is [F_contra @ v @ g_cov], parsed as (F_contra @ v) @ g_cov *)
Definition kn_f_vec (o : mobj) (x v : V4) : Res (V4 * V4) :=
  match mo_sys o with
  | BL =>
      let* chl := kn_christoffels o x in
      let* F := em_tensor_contravariant o x in
      let* g := kn_cov o x in
      Ok (v, vsub (bl_accel chl v) (vscal (q_val (mo_q o)) (vm (mv F v) g)))
  | _ => Err CoordinateError
  end.
End SI.
