(** Metric objects with their inverse cache (metric.py:12-113, tensor.py:239-259): a heap of objects addressed by creation order. *)
From Coq Require Import String Ascii List Arith Lia Bool.
From Verif Require Import Base SymAlg SymModel.
Import ListNotations.
Open Scope nat_scope.

Section M.
Context {A : dops}.
Variable n : nat.   (* the common dimension *)
(** metric.py: arr, config, _invmetric *)
Record mobj := mkobj { o_arr : arr A; o_cfg : config; o_inv : option nat }.
Definition heap := list mobj.
Definition hset (h : heap) (i : nat) (o : mobj) : heap := firstn i h ++ o :: skipn (S i) h.

(** metric.py:45-80; the identifier of the returned object *)
Definition h_change_config (h : heap) (i : nat) (new : config) : Res (heap * nat) :=
  match nth_error h i with
  | None => Err AttributeError
  | Some o =>
    if cfg_eqb new (o_cfg o) then Ok (h, i)
    else if cfg_eqb new (cf "uu") || cfg_eqb new (cf "ll") then
      match kminv n (mat_of (o_arr o)) with
      | None => Err ValueError
      | Some gi => Ok (h ++ [mkobj (tsimp (arr_of gi)) new (Some i)], List.length h)
      end
    else Err ValueError
  end.
(** metric.py:82-98 *)
Definition h_inv (h : heap) (i : nat) : Res (heap * nat) :=
  match nth_error h i with
  | None => Err AttributeError
  | Some o =>
    match o_inv o with
    | Some j => Ok (h, j)
    | None =>
      let* r := h_change_config h i (if cfg_eqb (o_cfg o) (cf "ll") then cf "uu" else cf "ll") in
      Ok (hset (fst r) i (mkobj (o_arr o) (o_cfg o) (Some (snd r))), snd r)
    end
  end.
(** metric.py:100-113 *)
Definition h_lower (h : heap) (i : nat) : Res (heap * nat) :=
  match nth_error h i with
  | None => Err AttributeError
  | Some o => if cfg_eqb (o_cfg o) (cf "ll") then Ok (h, i) else h_inv h i
  end.
(** metric.py:12-43 (shape already checked) *)
Definition h_new (h : heap) (a : arr A) (c : config) : Res (heap * nat) :=
  if config_checker c then (if Nat.eqb (List.length c) 2 then Ok (h ++ [mkobj a c None], List.length h) else Err ValueError) else Err TypeError.
(** tensor.py:239-259 with set_self=True *)
Definition h_simplify (h : heap) (i : nat) : Res (heap * nat) :=
  match nth_error h i with
  | None => Err AttributeError
  | Some o => Ok (hset h i (mkobj (tsimp (o_arr o)) (o_cfg o) (o_inv o)), i)
  end.

Inductive cmd := New (a : arr A) (c : config) | ChangeConfig (i : nat) (c : config) | Inv (i : nat) | Lower (i : nat) | Simplify (i : nat).
Definition exec (h : heap) (c : cmd) : Res (heap * nat) :=
  match c with
  | New a c => h_new h a c | ChangeConfig i c => h_change_config h i c | Inv i => h_inv h i | Lower i => h_lower h i | Simplify i => h_simplify h i
  end.
(** a call that raises leaves every object as it was *)
Definition after (h : heap) (c : cmd) : heap := match exec h c with Ok r => fst r | Err _ => h end.
Definition run (h : heap) (cs : list cmd) : heap := fold_left after cs h.
(** histories in which every metric is constructed with configuration ll or uu *)
Definition pure_cmd (c : cmd) : Prop := match c with New _ c => c = cf "ll" \/ c = cf "uu" | _ => True end.
End M.
Arguments mobj A : clear implicits.
Arguments heap A : clear implicits.
Arguments cmd A : clear implicits.
