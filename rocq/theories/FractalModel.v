(** Model of fractal() of plotting/fractal.py: the figure it builds and what the slider of that figure does. *)
From Coq Require Import Reals List ZArith Lra Lia Bool.
From Verif Require Import Base PlotModel.
Import ListNotations.
Open Scope R_scope.

(** numpy.linspace(a, b, num = n) (external; as documented, exact reals): ValueError when n < 0, a alone when n = 1 *)
Definition linspace (a b : R) (n : Z) : Res (list R) :=
  if (n <? 0)%Z then Err ValueError
  else Ok (map (fun i => if (n =? 1)%Z then a else a + INR i * ((b - a) / IZR (n - 1))) (seq 0 (Z.to_nat n))).

(** A heatmap of the figure: its z and its attribute visible, None when it has not been set (plotly then shows it) *)
Record trace := mktrace { tr_z : list (list R); tr_visible : option bool }.
Definition shown (t : trace) : bool := match tr_visible t with Some b => b | None => true end.
(** layout.sliders[0]: the active position and, per step, the second element of args *)
Record slider := mkslider { sl_active : Z; sl_steps : list (list bool) }.
Record figure := mkfigure { fig_data : list trace; fig_slider : slider }.

Section Size.
(** the code has dims = (400, 400) (line 75) and iter_max = 64 (line 31); here they are any numbers *)
Variables (w iter_max : nat).
(** plotting/fractal.py:27-41 (_fractal_img) as called in line 75, with its defaults zabs_max = 20 and ranges (-1.6, 1.6) *)
Definition picture (angle : R) : Res (list (list R)) := fractal_img w w angle 20 iter_max (- (16 / 10), 16 / 10) (- (16 / 10), 16 / 10).
(** plotting/fractal.py:73-76: one heatmap per angle *)
Definition add_trace (acc : Res (list trace)) (angle : R) : Res (list trace) :=
  let* l := acc in
  let* z := picture angle in
  Ok (l ++ [mktrace z None]).
(** fig.data[active].visible = True, a Python index: from the end when negative, IndexError when out of range *)
Definition py_index (n : nat) (i : Z) : Res nat :=
  let k := if (i <? 0)%Z then (i + Z.of_nat n)%Z else i in
  if ((0 <=? k) && (k <? Z.of_nat n))%Z then Ok (Z.to_nat k) else Err IndexError.
Definition set_visible (t : trace) (b : bool) : trace := mktrace (tr_z t) (Some b).
(** plotting/fractal.py:44-133 (fractal): the figure returned (the texts printed, the layout's sizes and axes and fig.show() are left out) *)
Definition fractal (start_angle end_angle : R) (divs : Z) : Res figure :=
  let active := (divs - 1)%Z in
  let* angles := linspace start_angle end_angle divs in
  let* data := fold_left add_trace angles (Ok []) in
  let* k := py_index (length data) active in
  let data := upd data k (set_visible (nth k data (mktrace [] None)) true) in
  Ok (mkfigure data (mkslider active (slider_steps (length data)))).

End Size.
(** plotly's restyle (external; as documented): the k-th trace gets the k-th value of the array *)
Fixpoint restyle (l : list trace) (flags : list bool) : list trace :=
  match l, flags with
  | t :: l, b :: flags => set_visible t b :: restyle l flags
  | _, _ => l
  end.
(** the user moves the slider to position i (nothing happens beyond its last position) *)
Definition move (f : figure) (i : nat) : figure :=
  match nth_error (sl_steps (fig_slider f)) i with
  | Some flags => mkfigure (restyle (fig_data f) flags) (mkslider (Z.of_nat i) (sl_steps (fig_slider f)))
  | None => f
  end.
(** the indices of the heatmaps on the screen, from bottom to top; heatmaps of one size cover each other *)
Definition screen (f : figure) : list nat := map fst (filter (fun p => shown (snd p)) (combine (seq 0 (length (fig_data f))) (fig_data f))).
Definition on_top (f : figure) : option nat := last (map Some (screen f)) None.
