(** Model of src/einsteinpy/symbolic: tensor.py (index gymnastics), metric.py (pure part), christoffel.py, riemann.py,
    ricci.py, einstein.py, stress_energy_momentum.py, weyl.py, schouten.py.
    A sympy.Array of shape (n,...,n) is a function from index lists to scalars (entries outside the shape are never
    read).  sympy.tensorproduct / tensorcontraction / permutedims / simplify act entrywise as documented by sympy.
    [int(t / dims**k)] is integer division here; that the floating-point quotient is truncated correctly is C67. *)
From Coq Require Import String Ascii List Arith Lia Bool.
From Verif Require Import Base SymAlg.
Import ListNotations.
Open Scope nat_scope.

(** configuration strings, as lists of characters *)
Definition config := list ascii.
Definition cf (s : string) : config := list_ascii_of_string s.
Definition chU : ascii := "u"%char.
Definition chL : ascii := "l"%char.
Definition cfg_eqb (a b : config) : bool := if list_eq_dec ascii_dec a b then true else false.

(** tensor.py:14-21 *)
Definition config_checker (c : config) : bool := forallb (fun ch => Ascii.eqb ch chL || Ascii.eqb ch chU) c.

(** Python list.insert *)
Definition insert_at {X} (k : nat) (x : X) (l : list X) : list X := firstn k l ++ x :: skipn k l.
Fixpoint index_of (a : nat) (l : list nat) : nat :=
  match l with [] => 0 | x :: r => if Nat.eqb a x then 0 else S (index_of a r) end.
Fixpoint idx_eqb (a b : list nat) : bool :=
  match a, b with [], [] => true | x :: a', y :: b' => Nat.eqb x y && idx_eqb a' b' | _, _ => false end.

Section Model.
Context {A : dops}.
Local Open Scope K_scope.

Definition arr := list nat -> A.
(** [a[i] = v] on a nested list *)
Definition aset (a : arr) (i : list nat) (v : A) : arr := fun j => if idx_eqb i j then v else a j.
Definition azero : arr := fun _ => 0.

(** sympy.tensorproduct(a, b) with rank a = ra *)
Definition tprod (ra : nat) (a b : arr) : arr := fun idx => a (firstn ra idx) * b (skipn ra idx).
(** sympy.tensorcontraction(a, (p, q)), p < q, every axis of length n *)
Definition tcontract (n p q : nat) (a : arr) : arr :=
  fun idx => ksum n (fun i => a (insert_at q i (insert_at p i idx))).
(** sympy.permutedims(a, dest): axis m of the result is axis dest[m] of a *)
Definition tperm (dest : list nat) (a : arr) : arr :=
  fun idx => a (map (fun m => nth (index_of m dest) idx 0%nat) (seq 0 (List.length dest))).
(** sympy.simplify on an Array *)
Definition tsimp (a : arr) : arr := fun idx => ksimp (a idx).

(** ** metric.py (without the inverse cache, which is modelled in SymCacheModel.v) *)
Record metric := mkmetric { m_n : nat; m_arr : arr; m_cfg : config }.
Definition mat_of (a : arr) : nat -> nat -> A := fun i j => a [i; j].
Definition arr_of (m : nat -> nat -> A) : arr := fun idx => match idx with [i; j] => m i j | _ => 0 end.
(** metric.py:45-80 *)
Definition m_change_config (m : metric) (new : config) : Res metric :=
  if cfg_eqb new (m_cfg m) then Ok m
  else if cfg_eqb new (cf "uu") || cfg_eqb new (cf "ll") then
    match kminv (m_n m) (mat_of (m_arr m)) with
    | Some gi => Ok (mkmetric (m_n m) (tsimp (arr_of gi)) new)
    | None => Err ValueError
    end
  else Err ValueError.
(** metric.py:82-98 *)
Definition m_inv (m : metric) : Res metric :=
  if cfg_eqb (m_cfg m) (cf "ll") then m_change_config m (cf "uu") else m_change_config m (cf "ll").
(** metric.py:100-113 *)
Definition m_lower (m : metric) : Res metric := if cfg_eqb (m_cfg m) (cf "ll") then Ok m else m_inv m.

(** ** tensor.py *)
(** tensor.py:24-34: None = 0, Some true = +1, Some false = -1 *)
Fixpoint difference_list (new old : config) : list (option bool) :=
  match new, old with
  | n :: new', o :: old' => (if Ascii.eqb n o then None else if Ascii.eqb n chU then Some true else Some false) :: difference_list new' old'
  | _, _ => []
  end.
(** tensor.py:56-63 and 443-449: contract axis 1 of [M] with axis i of [t] (rank r), put the free axis back in place i *)
Definition act_axis (n r : nat) (M : arr) (col : nat) (i : nat) (t : arr) : arr :=
  tperm (insert_at i 0%nat (seq 1 (r - 1))) (tsimp (tcontract n col (2 + i) (tprod 2 M t))).
(** tensor.py:49-64 *)
Definition chain_config_change (n r : nat) (g gi : arr) (diff : list (option bool)) (t : arr) : arr :=
  fold_left (fun t '(i, action) =>
    match action with
    | None => t
    | Some true => act_axis n r gi 1 i t
    | Some false => act_axis n r g 1 i t
    end) (combine (seq 0 (List.length diff)) diff) t.
(** tensor.py:37-66 *)
Definition change_config_arr (m : metric) (t : arr) (old new : config) : Res arr :=
  if Nat.eqb (List.length new) (List.length old) && config_checker new then
    let* g := m_lower m in
    let* gi := m_inv g in
    Ok (chain_config_change (m_n m) (List.length old) (m_arr g) (m_arr gi) (difference_list new old) t)
  else Err ValueError.

(** ** the curvature classes: an object is its dimension, array, configuration and parent metric *)
Record tens := mktens { t_n : nat; t_arr : arr; t_cfg : config; t_parent : option metric }.

(** christoffel.py:81-117 = riemann.py:109-145 = ricci.py:111-147 = einstein.py:64-100 = schouten.py:76-112 = weyl.py:110-146
    = stress_energy_momentum.py:66-102 *)
Definition t_change_config (t : tens) (new : config) (metric : option metric) : Res tens :=
  match (match metric with Some m => Some m | None => t_parent t end) with
  | None => Err PyException
  | Some m => let* a := change_config_arr m (t_arr t) (t_cfg t) new in Ok (mktens (t_n t) a new (Some m))
  end.

(** christoffel.py:49-79 *)
Definition chr_entry (n : nat) (g : arr) (gi : nat -> nat -> A) (i j k : nat) : A :=
  fold_left (fun tmp m => tmp + (gi i m / kofn 2) * (kd k (g [m; j]) + kd j (g [m; k]) - kd m (g [j; k]))) (seq 0 n) 0.
Definition chr_loop (n : nat) (g : arr) (gi : nat -> nat -> A) : arr :=
  fold_left (fun l t =>
    let k := (t mod n)%nat in let j := ((t / n) mod n)%nat in let i := ((t / n ^ 2) mod n)%nat in
    if Nat.leb k j then
      let v := chr_entry n g gi i j k in aset (aset l [i; k; j] v) [i; j; k] v
    else l) (seq 0 (n ^ 3)) azero.
Definition christoffels_from_metric (m : metric) : Res tens :=
  let* low := m_lower m in
  match kminv (m_n m) (mat_of (m_arr low)) with
  | None => Err ValueError
  | Some gi => Ok (mktens (m_n m) (chr_loop (m_n m) (m_arr low) gi) (cf "ull") (Some m))
  end.

(** riemann.py:55-93 *)
Definition riem_entry (n : nat) (G : arr) (t s r v : nat) : A :=
  fold_left (fun tmp p => tmp + (G [p; s; v] * G [t; p; r] - G [p; s; r] * G [t; p; v])) (seq 0 n)
    (kd r (G [t; s; v]) - kd v (G [t; s; r])).
Definition riem_loop (n : nat) (G : arr) : arr :=
  fold_left (fun l i =>
    let v := (i mod n)%nat in let r := ((i / n) mod n)%nat in let s := ((i / n ^ 2) mod n)%nat in let t := ((i / n ^ 3) mod n)%nat in
    aset l [t; s; r; v] (ksimp (riem_entry n G t s r v))) (seq 0 (n ^ 4)) azero.
Definition riemann_from_christoffels (chris : tens) (parent : option metric) : Res tens :=
  let* ch := (if cfg_eqb (t_cfg chris) (cf "ull") then Ok chris else t_change_config chris (cf "ull") parent) in
  Ok (mktens (t_n ch) (riem_loop (t_n ch) (t_arr ch)) (cf "ulll") (match parent with Some m => Some m | None => t_parent ch end)).
(** riemann.py:95-107 *)
Definition riemann_from_metric (m : metric) : Res tens :=
  let* ch := christoffels_from_metric m in riemann_from_christoffels ch None.

(** ricci.py:51-75; simplify_sympy_array simplifies entrywise (C60) *)
Definition ricci_from_riemann (riem : tens) (parent : option metric) : Res tens :=
  let* ri := (if cfg_eqb (t_cfg riem) (cf "ulll") then Ok riem else t_change_config riem (cf "ulll") parent) in
  Ok (mktens (t_n ri) (tsimp (tcontract (t_n ri) 0 2 (t_arr ri))) (cf "ll") (match parent with Some m => Some m | None => t_parent ri end)).
(** ricci.py:77-95 *)
Definition ricci_from_christoffels (chris : tens) (parent : option metric) : Res tens :=
  let* rt := riemann_from_christoffels chris parent in ricci_from_riemann rt None.
(** ricci.py:97-109 *)
Definition ricci_from_metric (m : metric) : Res tens :=
  let* ch := christoffels_from_metric m in ricci_from_christoffels ch None.

(** ricci.py:216-242; the object's array has rank 0 and its value [expr] is the entry at [] (ricci.py:208-214) *)
Definition scalar_from_ricci (ric : tens) (parent : option metric) : Res tens :=
  let* ri := (if cfg_eqb (t_cfg ric) (cf "ul") then Ok ric else t_change_config ric (cf "ul") parent) in
  Ok (mktens (t_n ri) (tsimp (tcontract (t_n ri) 0 1 (t_arr ri))) (cf "") (match parent with Some m => Some m | None => t_parent ri end)).
Definition scalar_expr (r : tens) : A := t_arr r [].
(** ricci.py:244-293 *)
Definition scalar_from_riemann (riem : tens) (parent : option metric) : Res tens :=
  let* cg := ricci_from_riemann riem parent in scalar_from_ricci cg None.
Definition scalar_from_christoffels (chris : tens) (parent : option metric) : Res tens :=
  let* rt := riemann_from_christoffels chris parent in scalar_from_riemann rt None.
Definition scalar_from_metric (m : metric) : Res tens :=
  let* ch := christoffels_from_metric m in scalar_from_christoffels ch None.

(** einstein.py:50-62; the float literal (1/2) is the number 1/2 *)
Definition einstein_from_metric (m : metric) : Res tens :=
  let* ric := ricci_from_metric m in
  let* sc := scalar_from_ricci ric (t_parent ric) in
  let* low := m_lower m in
  Ok (mktens (m_n m) (fun idx => t_arr ric idx - kinv 2 * m_arr low idx * scalar_expr sc) (cf "ll") (t_parent ric)).

(** stress_energy_momentum.py:56-64; symbols c, G, Lambda of constants.py and the number pi *)
Definition kpow4 (x : A) : A := x * x * x * x.
Definition stress_from_metric (c G Lam pi : A) (m : metric) : Res tens :=
  let* e := einstein_from_metric m in
  let* low := m_lower m in
  Ok (mktens (m_n m) (fun idx => kpow4 c / (kofn 8 * pi * G) * (t_arr e idx - Lam * m_arr low idx)) (cf "ll") (Some m)).

(** weyl.py:49-108 *)
Definition weyl_entry (n : nat) (Rm Rc g : arr) (R : A) (i k l m : nat) : A :=
  Rm [i; k; l; m] + ((Rc [i; m] * g [k; l] - Rc [i; l] * g [k; m] + Rc [k; l] * g [i; m] - Rc [k; m] * g [i; l]) / kofn (n - 2)
     + R * (g [i; l] * g [k; m] - g [i; m] * g [k; l]) / kofn ((n - 1) * (n - 2))).
Definition weyl_loop (n : nat) (Rm Rc g : arr) (R : A) : arr :=
  fold_left (fun l t =>
    let i := (t mod n)%nat in let k := ((t / n) mod n)%nat in let l' := ((t / n ^ 2) mod n)%nat in let m := ((t / n ^ 3) mod n)%nat in
    aset l [i; k; l'; m] (weyl_entry n Rm Rc g R i k l' m)) (seq 0 (n ^ 4)) azero.
Definition weyl_from_metric (m : metric) : Res tens :=
  if Nat.ltb 3 (m_n m) then
    let* low := m_lower m in
    let* rm := riemann_from_metric m in
    let* rmc := t_change_config rm (cf "llll") None in
    let* rc := ricci_from_riemann rm None in
    let* sc := scalar_from_ricci rc None in
    Ok (mktens (m_n m) (tsimp (weyl_loop (m_n low) (t_arr rmc) (t_arr rc) (m_arr low) (scalar_expr sc))) (cf "llll") (Some m))
  else if Nat.eqb (m_n m) 3 then Ok (mktens (m_n m) azero (cf "llll") (Some m))
  else Err ValueError.

(** schouten.py:49-74 *)
Definition schouten_from_metric (m : metric) : Res tens :=
  if Nat.leb 3 (m_n m) then
    let* rc := ricci_from_metric m in
    let* sc := scalar_from_ricci rc None in
    let* low := m_lower m in
    Ok (mktens (m_n m) (fun idx => (t_arr rc idx - (scalar_expr sc * m_arr low idx / kofn (2 * (m_n m - 1)))) / kofn (m_n m - 2)) (cf "ll") (Some m))
  else Err ValueError.
End Model.
Arguments arr A : clear implicits. Arguments metric A : clear implicits. Arguments tens A : clear implicits.
