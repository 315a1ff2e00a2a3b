(** Property C131: the figure of fractal() and every history of its slider.
   [fractal w im a b n] is the model of fractal(start_angle = a, end_angle = b, divs = n) with dims = (w, w) and iter_max = im; the code has 400 and 64.
   A figure has traces [fig_data] (heatmaps, with their z and their attribute visible) and a slider; [moves l f] is the figure after the user has moved the slider to the positions l, in that order.
   [screen f]: the numbers of the heatmaps on the screen from bottom to top; [on_top f]: the one the user sees.
   [has_images w im a b n f]: f has n heatmaps and n slider positions, and its k-th heatmap is the image _fractal_img computes for [angle_of a b n k], the k-th of n angles evenly spaced from a to b. *)
From Coq Require Import Reals List ZArith Lra Lia Bool.
From Verif Require Import Base PlotModel PlotProofs FractalModel FractalProofs.
Import ListNotations.
Open Scope R_scope.

(** any number of steps n > 0: n images, all on the screen before the first move, the last of them, where the slider stands, on top *)
Theorem C131_figure : forall w im, (0 < im)%nat -> forall a b n, (0 < n)%nat ->
  exists f, fractal w im a b (Z.of_nat n) = Ok f /\ has_images w im a b n f /\ sl_steps (fig_slider f) = slider_steps n /\ sl_active (fig_slider f) = Z.of_nat (n - 1) /\ screen f = seq 0 n /\ on_top f = Some (n - 1)%nat.
Proof. exact FractalProofs.fractal_figure. Qed.
Print Assumptions C131_figure.
(** after any moves the image at the slider's position is the one seen, and, once the slider was moved, the only one shown *)
Theorem C131_history : forall w im, (0 < im)%nat -> forall a b n l f, (0 < n)%nat -> fractal w im a b (Z.of_nat n) = Ok f -> (forall i, In i l -> (i < n)%nat) ->
  let g := moves l f in has_images w im a b n g /\
  exists k, (k < n)%nat /\ sl_active (fig_slider g) = Z.of_nat k /\ on_top g = Some k /\ (l <> [] -> screen g = [k] /\ k = last l 0%nat) /\ (l = [] -> k = (n - 1)%nat).
Proof. exact FractalProofs.slider_history. Qed.
Print Assumptions C131_history.
@thm C131_angles FractalProofs.angle_ends
@thm C131_one_step FractalProofs.angle_single
@thm C131_no_steps FractalProofs.fractal_none
@thm C131_negative FractalProofs.fractal_negative
(** the code's sizes and defaults, and two moves of the slider *)
Example C131_nonvacuous : exists f, fractal 400 64 (PI / 3) PI 12 = Ok f /\ screen f = [0; 1; 2; 3; 4; 5; 6; 7; 8; 9; 10; 11]%nat /\ on_top f = Some 11%nat /\
  screen (moves [3; 7]%nat f) = [7]%nat /\ sl_active (fig_slider (moves [3; 7]%nat f)) = 7%Z.
Proof.
  assert (H64 : (0 < 64)%nat) by lia. assert (H12 : (0 < 12)%nat) by lia. destruct (C131_figure 400 64 H64 (PI / 3) PI 12 H12) as (f & E & _ & _ & _ & S1 & T1). exists f. change (Z.of_nat 12) with 12%Z in E. split; [exact E|]. split; [exact S1|]. split; [exact T1|].
  destruct (C131_history 400 64 H64 (PI / 3) PI 12 [3; 7]%nat f H12 E) as (_ & k & _ & A & _ & B & _); [intros i [<-|[<-|[]]]; lia|]. destruct (B ltac:(discriminate)) as [B1 B2]. cbn [last] in B2. subst k. split; [exact B1|exact A].
Qed.
