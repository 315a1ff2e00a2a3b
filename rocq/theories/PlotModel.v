(** Model of plotting/geodesic/static.py, plotting/geodesic/interactive.py, plotting/geodesic/core.py and plotting/fractal.py.
    A figure is the sequence of artists (traces) handed to matplotlib / plotly with their data; styling arguments (colours,
    sizes, labels of axes, titles) are dropped.  numpy's nan is [None]. *)
From Coq Require Import String Reals List Arith ZArith Lra.
From Verif Require Import Base EmbedModel ShadowModel GeodesicModel.
Import ListNotations.
Open Scope R_scope.

(** ** The black hole *)
(** static.py:72, 136; interactive.py:47, 104: rh_outer = 1 + np.sqrt(1 - a**2) *)
Definition rh_outer (a : R) : option R := do s <- esqrt (1 - a ^ 2); Some (1 + s).
(** static.py:95, 147; interactive.py:68, 123: rE_outer = 1 + np.sqrt(1 - (a * np.cos(theta) ** 2)) *)
Definition rE_outer (a theta : R) : option R := do s <- esqrt (1 - a * cos theta ^ 2); Some (1 + s).

(** what is drawn: label and points *)
Inductive artist : Type :=
| Curve2 (name : string) (pts : list (option R * option R))
| Curve3 (name : string) (pts : list (R * R * R))
| Surface (name : string) (pts : list (list (option R * option R * option R))).

Definition scale2 (r : option R) (x y : R) : option R * option R := (emul r (Some x), emul r (Some y)).
Definition scale3 (r : option R) (x y z : R) : option R * option R * option R := (emul r (Some x), emul r (Some y), emul r (Some z)).
Definition horizon_name : string := "BH Event Horizon (Outer)".
Definition ergo_name : string := "BH Ergosphere (Outer)".
(** static.py:116-154; interactive.py:87-138 *)
Definition draw_bh_2D (draw_ergosphere : bool) (a : R) : list artist :=
  let theta := linspace 0 (2 * PI) 50 in
  Curve2 horizon_name (map (fun th => scale2 (rh_outer a) (sin th) (cos th)) theta) ::
  (if draw_ergosphere then [Curve2 ergo_name (map (fun th => scale2 (rE_outer a th) (sin th) (cos th)) theta)] else []).
(** static.py:46-114; interactive.py:29-85; meshgrid: rows run over phi, columns over theta *)
Definition draw_bh (draw_ergosphere : bool) (a : R) : list artist :=
  let theta := linspace 0 (2 * PI) 50 in let phi := linspace 0 PI 50 in
  Surface horizon_name (map (fun PHI => map (fun THETA => scale3 (rh_outer a) (sin PHI * cos THETA) (sin PHI * sin THETA) (cos PHI)) theta) phi) ::
  (if draw_ergosphere
   then [Surface ergo_name (map (fun PHI => map (fun THETA => scale3 (rE_outer a THETA) (sin PHI * sin THETA) (sin PHI * cos THETA) (cos PHI)) theta) phi)]
   else []).

(** ** What the plotters read from a geodesic: metric_params, kind, coords and trajectory = (lambdas, rows) *)
Record geo_view : Type := mkview { metric_params : list R; kind : string; g_coords : string; lambdas : list R; traj : list row }.
(** seq[0] *)
Definition first {A} (l : list A) : Res A := match l with [] => Err IndexError | x :: _ => Ok x end.
(** traj[:, A] *)
Definition column (t : list row) (A : nat) : list R := map (fun r => if Nat.ltb A 4 then q4nth (fst r) A else q4nth (snd r) (A - 4)) t.
Definition zip2 (xs ys : list R) : list (option R * option R) := map (fun p => (Some (fst p), Some (snd p))) (combine xs ys).
Definition zip3 (xs ys zs : list R) : list (R * R * R) := combine (combine xs ys) zs.
Definition label (g : geo_view) : string := (kind g ++ " Geodesic")%string.
Definition member (s : string) (l : list string) : bool := existsb (String.eqb s) l.
Definition static_aspects : list string := ["auto"; "equal"; "equalxy"; "equalyz"; "equalxz"]%string.
Definition interactive_aspects : list string := ["auto"; "data"; "manual"; "cube"]%string.
(** the check [A not in (1, 2, 3)] *)
Definition in123 (A : Z) : bool := (Z.eqb A 1 || Z.eqb A 2 || Z.eqb A 3)%bool.

(** A method call: the figure before, and the outcome with the figure after (an exception leaves what was drawn before it) *)
Definition effect := list artist -> Res unit * list artist.

(** interactive.py:140-213 (plot): traces are added to the one figure *)
Definition i_plot (ergo : bool) (g : geo_view) (aspect : string) : effect := fun fig =>
  if negb (member aspect interactive_aspects) then (Err ValueError, fig) else
  match first (metric_params g) with
  | Err e => (Err e, fig)
  | Ok a => (Ok tt, fig ++ draw_bh ergo a ++ [Curve3 (label g) (zip3 (column (traj g) 1) (column (traj g) 2) (column (traj g) 3))])
  end.
(** interactive.py:215-287 (plot2D): the black hole is added before the indices are checked *)
Definition i_plot2D (ergo : bool) (g : geo_view) (A B : Z) : effect := fun fig =>
  match first (metric_params g) with
  | Err e => (Err e, fig)
  | Ok a => let fig := fig ++ draw_bh_2D ergo a in
            if (negb (in123 A) || negb (in123 B))%bool then (Err IndexError, fig)
            else (Ok tt, fig ++ [Curve2 (label g) (zip2 (column (traj g) (Z.to_nat A)) (column (traj g) (Z.to_nat B)))])
  end.
Definition param_curve (g : geo_view) (k : nat) (nm : string) : artist :=
  Curve2 (nm ++ " (" ++ g_coords g ++ ")")%string (zip2 (lambdas g) (column (traj g) k)).
(** interactive.py:289-351 (parametric_plot) *)
Definition i_parametric (g : geo_view) : effect := fun fig =>
  (Ok tt, fig ++ [param_curve g 1 "X1"; param_curve g 2 "X2"; param_curve g 3 "X3"]).
(** interactive.py:364-370 (clear) *)
Definition i_clear : effect := fun _ => (Ok tt, []).

(** static.py:156-209 (plot): _draw_bh makes a new figure and axes each time *)
Definition s_plot (ergo : bool) (g : geo_view) (aspect : string) : effect := fun fig =>
  if negb (member aspect static_aspects) then (Err ValueError, fig) else
  match first (metric_params g) with
  | Err e => (Err e, fig)
  | Ok a => (Ok tt, draw_bh ergo a ++ [Curve3 (label g) (zip3 (column (traj g) 1) (column (traj g) 2) (column (traj g) 3))])
  end.
(** static.py:211-270 (plot2D) *)
Definition s_plot2D (ergo : bool) (g : geo_view) (A B : Z) : effect := fun fig =>
  match first (metric_params g) with
  | Err e => (Err e, fig)
  | Ok a => let fig := draw_bh_2D ergo a in
            if (negb (in123 A) || negb (in123 B))%bool then (Err IndexError, fig)
            else (Ok tt, fig ++ [Curve2 (label g) (zip2 (column (traj g) (Z.to_nat A)) (column (traj g) (Z.to_nat B)))])
  end.
(** static.py:272-314 (parametric_plot) *)
Definition s_parametric (g : geo_view) : effect := fun fig =>
  (Ok tt, [param_curve g 1 "X1"; param_curve g 2 "X2"; param_curve g 3 "X3"]).
(** static.py:391-396 (clear) *)
Definition s_clear : effect := fun _ => (Ok tt, []).

(** static.py:316-364 (animate): the axis limits and the frames; max/min of an empty sequence raise ValueError.
    FuncAnimation(fig, _update, N) calls _update(num) for num = 0 .. N-1, over and over *)
Definition limits (xs : list R) : Res (R * R) :=
  let* x_max := np_max xs in let* x_min := np_min xs in
  let margin := (x_max - x_min) * (2 / 10) in Ok (x_min - margin, x_max + margin).
Definition frames (t : list row) : list (list (R * R * R)) :=
  map (fun num => firstn num (zip3 (column t 1) (column t 2) (column t 3))) (seq 0 (List.length t)).
Record animation := mkanim { xlim : R * R; ylim : R * R; zlim : R * R; a_frames : list (list (R * R * R)) }.
Definition s_animate (g : geo_view) : Res animation :=
  let* _ := first (metric_params g) in
  let* xl := limits (column (traj g) 1) in let* yl := limits (column (traj g) 2) in let* zl := limits (column (traj g) 3) in
  Ok (mkanim xl yl zl (frames (traj g))).

(** core.py:7-17 (in_ipynb): the value of get_ipython().__class__.__name__, or None for NameError *)
Inductive backend := Interactive | Static.
Definition in_ipynb (shell : option string) : backend :=
  match shell with
  | Some s => if String.eqb s "ZMQInteractiveShell" then Interactive else if String.eqb s "TerminalInteractiveShell" then Static else Static
  | None => Static
  end.

(** ** fractal.py *)
Definition cadd (z w : R * R) : R * R := (fst z + fst w, snd z + snd w).
Definition csqr (z : R * R) : R * R := (fst z * fst z - snd z * snd z, 2 * fst z * snd z).
Definition cabs (z : R * R) : R := sqrt (fst z ^ 2 + snd z ^ 2).
(** plotting/fractal.py:19-23: the loop; [fuel] is iter_max - it *)
Fixpoint orbit (c : R * R) (zabs_max : R) (z : R * R) (it fuel : nat) : nat :=
  match fuel with
  | O => it
  | S fuel => if Rlt_dec (cabs z) zabs_max then orbit c zabs_max (cadd (csqr z) c) (S it) fuel else it
  end.
(** x ** 0.2 for x >= 0 *)
Definition pow02 (x : R) : R := if Req_EM_T x 0 then 0 else Rpower x (2 / 10).
(** plotting/fractal.py:20 *)
Definition start_z (i j width height : nat) (xr yr : R * R) : R * R :=
  (INR i / INR width * (snd xr - fst xr) + fst xr, INR j / INR height * (snd yr - fst yr) + fst yr).
(** plotting/fractal.py:13-24 (_julia): the value stored at A[i, j]; iter_max is a positive or zero integer *)
Definition julia (c : R * R) (zabs_max : R) (i j width height : nat) (xr yr : R * R) (iter_max : nat) : Res R :=
  let it := orbit c zabs_max (start_z i j width height xr yr) 0 iter_max in
  if Nat.eqb iter_max 0 then Err ZeroDivisionError else Ok (pow02 (INR it / INR iter_max)).
(** A[i, j] = v *)
Fixpoint upd {X} (l : list X) (i : nat) (v : X) : list X :=
  match l, i with [], _ => [] | _ :: l, O => v :: l | x :: l, S i => x :: upd l i v end.
Definition upd2 (A : list (list R)) (i j : nat) (v : R) : list (list R) := upd A i (upd (nth i A []) j v).
(** plotting/fractal.py:27-41 (_fractal_img): the two nested loops over the whole array, starting from np.zeros *)
Definition fractal_img (width height : nat) (angle zabs_max : R) (iter_max : nat) (xr yr : R * R) : Res (list (list R)) :=
  let c := (8 / 10 * cos angle, 8 / 10 * sin angle) in
  fold_left (fun A i =>
    fold_left (fun A j => let* A := A in let* v := julia c zabs_max i j width height xr yr iter_max in Ok (upd2 A i j v)) (seq 0 height) A)
    (seq 0 width) (Ok (repeat (repeat 0 height) width)).
(** plotting/fractal.py:87-91: the slider: step i shows exactly trace i *)
Definition slider_steps (n : nat) : list (list bool) := map (fun i => upd (repeat false n) i true) (seq 0 n).
