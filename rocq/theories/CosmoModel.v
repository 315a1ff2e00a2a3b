(** Model of utils/scalar_factor.py. *)
From Coq Require Import String Reals List Lra.
From Verif Require Import Base CoordModel ConvModel.
Import ListNotations.
Open Scope R_scope.

(** numpy float64 power: 0**negative is inf, negative**fraction is nan *)
Definition np_pow (x e : R) : Res R :=
  if Rlt_dec 0 x then Ok (Rpower x e) else if Req_EM_T x 0 then (if Rlt_dec 0 e then Ok 0 else Err NonFinite) else Err NonFinite.
(** (constant.Cosmo_Const / 3) ** 0.5, scalar_factor.py:39 and 77; Lam is the value of Cosmo_Const in s^-2 (constant.py:19-29) *)
Definition hubble (Lam : R) : R := sqrt (Lam / 3).
(** scalar_factor.py:7-42; [u.quantity_input(t=u.s)] rejects other dimensions *)
Definition scalar_factor (Lam : R) (t : pynum) (era : string) (tuning_param : R) : Res R :=
  let* q := qinput DTime t in let T := si q in
  if String.eqb era "md" then let* p := np_pow T (2 / 3) in Ok (tuning_param * p)
  else if String.eqb era "rd" then let* p := np_pow T (1 / 2) in Ok (tuning_param * p)
  else if String.eqb era "ded" then Ok (tuning_param * exp (hubble Lam * T))
  else Err ValueError.
(** scalar_factor.py:45-80 *)
Definition scalar_factor_derivative (Lam : R) (t : pynum) (era : string) (tuning_param : R) : Res R :=
  let* q := qinput DTime t in let T := si q in
  if String.eqb era "md" then let* p := np_pow T (-1 / 3) in Ok (2 / 3 * tuning_param * p)
  else if String.eqb era "rd" then let* p := np_pow T (-1 / 2) in Ok (1 / 2 * tuning_param * p)
  else if String.eqb era "ded" then Ok (tuning_param * (hubble Lam * exp (hubble Lam * T)))
  else Err ValueError.
