(** Model of einsteinpy.symbolic.tensor / helpers / vector: tensor_product, lorentz_transform, construction checks, subs,
    simplify_sympy_array, TransformationMatrix. *)
From Coq Require Import String Ascii List Arith Lia Bool.
From Verif Require Import Base SymAlg SymModel.
Import ListNotations.
Open Scope nat_scope.

Section Model.
Context {A : dops}.
Local Open Scope K_scope.

(** Python [config[i]] with i = None or a non-negative integer *)
Definition getch (c : config) (i : option nat) : Res ascii :=
  match i with
  | None => Err TypeError
  | Some k => match nth_error c k with Some ch => Ok ch | None => Err IndexError end
  end.
Definition remove_at {X} (k : nat) (l : list X) : list X := firstn k l ++ skipn (S k) l.
(** Python truth value of [(i or j) is None]: i is None or 0, and j is None *)
Definition or_is_none (i j : option nat) : bool :=
  match i, j with
  | None, None => true
  | Some 0, None => true
  | _, _ => false
  end.
(** tensor.py:69-116.  Both tensors have the same dimension (the documented use); negative indices are not modelled. *)
Definition tensor_product (t1 t2 : tens A) (i j : option nat) : Res (tens A) :=
  let product := tprod (List.length (t_cfg t1)) (t_arr t1) (t_arr t2) in
  if or_is_none i j then Ok (mktens (t_n t1) product (t_cfg t1 ++ t_cfg t2) (t_parent t1))
  else
    let* ci := getch (t_cfg t1) i in
    let* cj := getch (t_cfg t2) j in
    if Ascii.eqb ci cj then Err ValueError
    else match i, j with
         | Some i, Some j =>
           Ok (mktens (t_n t1) (tsimp (tcontract (t_n t1) i (List.length (t_cfg t1) + j) product))
                 (remove_at i (t_cfg t1) ++ remove_at j (t_cfg t2)) (t_parent t1))
         | _, _ => Err TypeError
         end.

(** tensor.py:439-459; [lam] is the array of the transformation matrix *)
Definition lorentz_transform (t : tens A) (lam : arr A) : tens A :=
  mktens (t_n t)
    (fold_left (fun a '(i, ch) => act_axis (t_n t) (List.length (t_cfg t)) lam (if Ascii.eqb ch chU then 1 else 0) i a)
       (combine (seq 0 (List.length (t_cfg t))) (t_cfg t)) (t_arr t))
    (t_cfg t) None.

(** ** construction (tensor.py:124-167, 284-371; metric.py:12-43, christoffel.py:13-47, ... ) *)
(** the [arr] argument: a list, tuple, ndarray, number or sympy expression, or sympy Array (all with a shape), or anything else *)
Inductive arrarg := ArrLike (shape : list nat) | ArrOther.
Inductive cfgarg := CfgStr (s : config) | CfgOther.
(** the [syms] argument: a list or tuple, another object with a length, or an object without one *)
Inductive symsarg := SymsSeq (n : nat) | SymsSized (n : nat) | SymsUnsized.
(** variables / functions: a list, tuple or set, or anything else *)
Inductive collarg := Coll | CollOther.

(** tensor.py:148-167: returns the stored shape and configuration *)
Definition tensor_init (a : arrarg) (c : cfgarg) : Res (list nat * config) :=
  match a with
  | ArrOther => Err TypeError
  | ArrLike sh =>
    match c with
    | CfgOther => Err TypeError
    | CfgStr s => if config_checker s then (if negb (Nat.eqb (List.length sh) (List.length s)) then Err ValueError else Ok (sh, s)) else Err TypeError
    end
  end.
(** tensor.py:333-371 *)
Definition syms_len (s : symsarg) : Res nat := match s with SymsSeq n | SymsSized n => Ok n | SymsUnsized => Err TypeError end.
Definition base_init (a : arrarg) (s : symsarg) (c : cfgarg) (vars funs : collarg) : Res (list nat * config * nat) :=
  let* t := tensor_init a c in
  let '(sh, cfg) := t in
  let* _ := (match sh with
             | [] => Ok tt
             | d :: _ => let* n := syms_len s in if negb (Nat.eqb d n) then Err ValueError else Ok tt
             end) in
  match s with
  | SymsSeq n => match vars, funs with Coll, Coll => Ok (sh, cfg, n) | _, _ => Err TypeError end
  | _ => Err TypeError
  end.
(** the subclasses with a fixed order k: MetricTensor 2, ChristoffelSymbols 3, RiemannCurvatureTensor 4, RicciTensor 2,
    EinsteinTensor 2, StressEnergyMomentumTensor 2, WeylTensor 4, SchoutenTensor 2; variables and functions keep their defaults *)
Definition sub_init (k : nat) (a : arrarg) (s : symsarg) (c : cfgarg) : Res (list nat * config * nat) :=
  let* t := base_init a s c Coll Coll in
  let '(sh, cfg, n) := t in
  if negb (Nat.eqb (List.length cfg) k) then Err ValueError else Ok t.

(** ** tensor.py:221-237: Tensor(self.tensor().subs(args)) with the default config "ll" *)
Definition tensor_subs (rank : nat) (sub : A -> A) (a : arr A) (c : config) : Res (arr A * config) :=
  if negb (Nat.eqb rank (List.length (cf "ll"))) then Err ValueError else Ok ((fun idx => sub (a idx)), cf "ll").

(** ** helpers.py:12-18 on nested lists *)
Inductive nlist := NLeaf (x : A) | NList (l : list nlist).
Fixpoint flat1 (t : nlist) : list A :=
  match t with
  | NLeaf x => [x]
  | NList l => (fix go (l : list nlist) : list A := match l with
      | [] => []
      | NLeaf x :: r => [x] ++ go r
      | (NList _ as s) :: r => flat1 s ++ go r
      end) l
  end.
(** [_flatten_list seq] *)
Definition flatten_list (seq : list nlist) : list A := flat1 (NList seq).
(** sympy.Array.tolist() for rank >= 1 *)
Fixpoint tolist (shape : list nat) (a : arr A) : nlist :=
  match shape with
  | [] => NLeaf (a [])
  | d :: sh => NList (map (fun i => tolist sh (fun r => a (i :: r))) (seq 0 d))
  end.
(** position of a multi-index in row-major order *)
Fixpoint flat_pos (shape idx : list nat) : nat :=
  match shape, idx with
  | d :: sh, i :: r => i * fold_right Nat.mul 1%nat sh + flat_pos sh r
  | _, _ => 0
  end.
(** sympy.Array(flat, shape) *)
Definition from_flat (flat : list A) (shape : list nat) : arr A := fun idx => nth (flat_pos shape idx) flat 0.
(** helpers.py:39-46: the rank-0 case goes through the IndexError branch, simplify(sum(arr)) *)
Definition simplify_sympy_array (shape : list nat) (a : arr A) : arr A :=
  match tolist shape a with
  | NLeaf x => fun _ => ksimp x
  | NList l => from_flat (map ksimp (flatten_list l)) shape
  end.

(** ** TransformationMatrix (helpers.py:171-187): cached element-wise reciprocal *)
Record tmatrix := mktm { tm_n : nat; tm_arr : nat -> nat -> A; tm_inv : option (nat -> nat -> A) }.
Definition tm_inv_call (t : tmatrix) : tmatrix * (nat -> nat -> A) :=
  match tm_inv t with
  | Some v => (t, v)
  | None => let v := fun i j => 1 / tm_arr t i j in (mktm (tm_n t) (tm_arr t) (Some v), v)
  end.
End Model.
Arguments tmatrix A : clear implicits.
Arguments nlist A : clear implicits.
