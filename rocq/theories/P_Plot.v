(* generated from tools/P/P_Plot.v.in by tools/genp.py: statements only, proofs are references *)
(** Properties C71-C74 and C83-C87: the shadow, the drawn black hole, the plotters and the fractal. *)
From Coq Require Import String Reals List Arith ZArith Lia Lra.
From Coquelicot Require Import Coquelicot.
From Verif Require Import Base EmbedModel ShadowModel ShadowProofs GeodesicModel PlotModel PlotProofs.
Import ListNotations.
Local Open Scope R_scope.

(** C71 *)
Theorem C71_aligned : forall M n fov limit newton s,
  Shadow M n fov limit newton = Ok s ->
  length (intensity s) = length (fb1 s) /\ length (fb2 s) = length (fb1 s) /\ fb2 s = map Ropp (fb1 s) /\
  (exists m, length (fb1 s) = (m + m)%nat /\
  (forall k b, (k < m)%nat -> nth_error (fb1 s) k = Some b -> nth_error (intensity s) k = Some (near_intensity M fov b)) /\
  (forall k b, (m <= k)%nat -> nth_error (fb1 s) k = Some b -> exists rt, newton b = Ok (rt, 0) /\ nth_error (intensity s) k = Some (far_intensity M fov rt b))).
Proof. exact ShadowProofs.shadow_aligned. Qed.
Print Assumptions C71_aligned.

(** which rays are kept; both halves increase strictly *)
Theorem C71_rays : forall M n fov limit newton s,
  Shadow M n fov limit newton = Ok s -> 3 * sqrt 3 * M < fov -> limit < 3 * sqrt 3 * M ->
  (forall b, In b (bfin s) <-> In b (linspace (3 * sqrt 3 * M) fov n) /\ exists rt, newton b = Ok (rt, 0)) /\
  increasing (bfin s) /\ increasing (b2 s) /\ fb1 s = b2 s ++ bfin s /\ length (b2 s) = length (bfin s) /\
  (forall b, In b (b2 s) -> limit <= b <= 3 * sqrt 3 * M) /\ (forall b, In b (bfin s) -> 3 * sqrt 3 * M <= b <= fov).
Proof. exact ShadowProofs.shadow_rays. Qed.
Print Assumptions C71_rays.

Theorem C71_raises : forall M n fov limit newton e,
  Shadow M n fov limit newton = Err e <->
  exists l1 b l2, linspace (3 * sqrt 3 * M) fov n = l1 ++ b :: l2 /\ newton b = Err e /\ forall c, In c l1 -> exists x, newton c = Ok x.
Proof. exact ShadowProofs.shadow_raises. Qed.
Print Assumptions C71_raises.

Theorem C71_smoothen : forall spline points s s',
  smoothen spline points s = Ok s' -> exists lo hi,
  In lo (fb1 s) /\ In hi (fb1 s) /\ (forall b, In b (fb1 s) -> lo <= b <= hi) /\
  fb1 s' = linspace lo hi points /\ fb2 s' = map Ropp (fb1 s') /\ intensity s' = map (spline (fb1 s) (intensity s)) (fb1 s') /\
  length (fb1 s') = points /\ length (fb2 s') = points /\ length (intensity s') = points.
Proof. exact ShadowProofs.smoothen_spec. Qed.
Print Assumptions C71_smoothen.

(** smoothen raises ValueError when the critical ray is kept, because its abscissa then occurs twice *)
Theorem C71_smoothen_defined : forall M n fov limit newton s spline points,
  Shadow M n fov limit newton = Ok s -> limit < 3 * sqrt 3 * M -> 3 * sqrt 3 * M < fov ->
  ((exists s', smoothen spline points s = Ok s') <-> (2 <= length (bfin s))%nat /\ ~ In (3 * sqrt 3 * M) (bfin s)) /\
  ((~ exists s', smoothen spline points s = Ok s') -> smoothen spline points s = Err ValueError).
Proof. exact ShadowProofs.smoothen_iff. Qed.
Print Assumptions C71_smoothen_defined.

Definition newton_id (b : R) : Res (R * R) := if Rlt_dec b 6 then Ok (b, 1) else Ok (b, 0).
Lemma b_crit_1 : 5 < 3 * sqrt 3 * 1 < 6.
Proof. assert (H := sqrt_between 3 (17 / 10) (19 / 10) ltac:(lra) ltac:(lra) ltac:(lra) ltac:(lra)). lra. Qed.
Example C71_nonvacuous : exists s, Shadow 1 3 10 (1 / 1000) newton_id = Ok s /\ bfin s <> [] /\ 1 / 1000 < 3 * sqrt 3 * 1 /\ 3 * sqrt 3 * 1 < 10.
Proof.
  assert (B := b_crit_1). destruct (Shadow 1 3 10 (1 / 1000) newton_id) as [s|e] eqn:E.
  - exists s. split; [reflexivity|]. split; [|lra]. assert (K : In 10 (bfin s)); [|intros N; rewrite N in K; contradiction].
    apply (C71_rays _ _ _ _ _ _ E); [lra|lra|]. split; [apply nth_error_In with 2%nat; apply (linspace_last (3 * sqrt 3 * 1) 10 3); lia|]. exists 10. unfold newton_id. destruct (Rlt_dec 10 6); [lra|reflexivity].
  - apply C71_raises in E. destruct E as [l1 [b [l2 [_ [H _]]]]]. unfold newton_id in H. destruct (Rlt_dec b 6); discriminate.
Qed.

(** C83 *)
Theorem C83_positive : forall M n fov limit newton s,
  Shadow M n fov limit newton = Ok s -> 0 < M -> 0 <= limit < 3 * sqrt 3 * M -> 3 * sqrt 3 * M < fov ->
  (forall b rt, In b (linspace (3 * sqrt 3 * M) fov n) -> newton b = Ok (rt, 0) -> 3 * M <= rt < fov /\ b ^ 2 * gtt M rt <= rt ^ 2) ->
  forall k b, nth_error (fb1 s) k = Some b -> (k < length (bfin s))%nat /\ b = 3 * sqrt 3 * M \/ exists v, nth_error (intensity s) k = Some (Some v) /\ 0 < v.
Proof. exact ShadowProofs.shadow_positive. Qed.
Print Assumptions C83_positive.

Theorem C83_quadrature_inside : forall xw,
  In xw gauss5 -> -1 < fst xw < 1 /\ 0 < snd xw.
Proof. exact ShadowProofs.gauss5_ok. Qed.
Print Assumptions C83_quadrature_inside.

(** the closed form of the red-shifted integrand *)
Theorem C83_red_value : forall M r b : R, 0 < M -> 2 * M < r -> b ^ 2 * gtt M r < r ^ 2 -> let t := sqrt (2 * M / r) in
  
  intensity_red_sch M r b = Some ((gtt M r / (1 + imp M r b * t)) ^ 3 / (r ^ 2 * imp M r b)).
Proof. intros; apply red_value; assumption. Qed.
Print Assumptions C83_red_value.

Theorem C83_blue_value : forall M r b : R, 0 < M -> 2 * M < r -> b ^ 2 * gtt M r < r ^ 2 -> let t := sqrt (2 * M / r) in
  
  intensity_blue_sch M r b = Some (- ((gtt M r / (1 - imp M r b * t)) ^ 3 / (r ^ 2 * imp M r b))).
Proof. intros; apply blue_value; assumption. Qed.
Print Assumptions C83_blue_value.

Theorem C83_below_critical : forall M r b,
  0 < M -> 2 * M < r -> 0 <= b -> b < 3 * sqrt 3 * M -> b ^ 2 * gtt M r < r ^ 2.
Proof. exact ShadowProofs.below_critical. Qed.
Print Assumptions C83_below_critical.

Theorem C83_beyond_turning : forall M rt r b,
  0 < M -> 3 * M <= rt -> b ^ 2 * gtt M rt <= rt ^ 2 -> rt < r -> b ^ 2 * gtt M r < r ^ 2.
Proof. exact ShadowProofs.beyond_turning. Qed.
Print Assumptions C83_beyond_turning.

Definition newton_far (b : R) : Res (R * R) := if Rlt_dec b 8 then Ok (5, 1) else Ok (8, 0).
Example C83_nonvacuous : exists s, Shadow 1 3 9 (1 / 1000) newton_far = Ok s /\
  3 * sqrt 3 * 1 < 9 /\ In 9 (bfin s) /\
  (forall b rt, In b (linspace (3 * sqrt 3 * 1) 9 3) -> newton_far b = Ok (rt, 0) -> 3 * 1 <= rt < 9 /\ b ^ 2 * gtt 1 rt <= rt ^ 2).
Proof.
  assert (B := b_crit_1). destruct (Shadow 1 3 9 (1 / 1000) newton_far) as [s|e] eqn:E.
  - exists s. split; [reflexivity|]. split; [lra|]. split.
    + apply (C71_rays _ _ _ _ _ _ E); [lra|lra|]. split; [apply nth_error_In with 2%nat; apply (linspace_last (3 * sqrt 3 * 1) 9 3); lia|]. exists 8. unfold newton_far. destruct (Rlt_dec 9 8); [lra|reflexivity].
    + intros b rt Hb. apply linspace_bounds in Hb; [|lra]. unfold newton_far. destruct (Rlt_dec b 8); intros H; inversion H; subst; [lra|].
      unfold gtt. split; [lra|]. replace (1 - 2 * 1 / 8) with (3 / 4) by field. nra.
  - apply C71_raises in E. destruct E as [l1 [b [l2 [_ [H _]]]]]. unfold newton_far in H. destruct (Rlt_dec b 8); discriminate.
Qed.

(** C84: a zero of the root equation is the turning point for the mass int(M) *)
Theorem C84_root_is_turning_point : forall M b r,
  0 <= M -> 0 < b -> 2 * IZR (Int_part M) < r -> 0 < r -> (root_equation M r b = 0 <-> turning (IZR (Int_part M)) b r).
Proof. exact ShadowProofs.root_turning. Qed.
Print Assumptions C84_root_is_turning_point.

Theorem C84_turning_iff : forall M b r,
  0 <= M -> 0 < b -> 2 * M < r -> root_equation M r b = 0 -> (turning M b r <-> exists n : Z, M = IZR n).
Proof. exact ShadowProofs.turning_iff. Qed.
Print Assumptions C84_turning_iff.

Theorem C84_turning_refuted : forall b,
  1 < b -> root_equation (1 / 2) b b = 0 /\ ~ turning (1 / 2) b b.
Proof. exact ShadowProofs.turning_refuted. Qed.
Print Assumptions C84_turning_refuted.

Theorem C84_safe : forall M b r,
  0 < M -> 0 < b -> 2 * M < r -> root_equation M r b = 0 -> b ^ 2 * gtt M r <= r ^ 2.
Proof. exact ShadowProofs.root_safe. Qed.
Print Assumptions C84_safe.

Example C84_nonvacuous : root_equation (1 / 2) 4 4 = 0 /\ ~ turning (1 / 2) 4 4 /\ 2 * (1 / 2) < 4.
Proof. destruct (C84_turning_refuted 4 ltac:(lra)) as [H1 H2]. split; [exact H1|]. split; [exact H2|lra]. Qed.

(** C72 *)
Theorem C72_horizon : forall a,
  0 <= a <= 1 -> exists r, rh_outer a = Some r /\ outer_horizon a r /\ 1 <= r <= 2.
Proof. exact PlotProofs.horizon_drawn. Qed.
Print Assumptions C72_horizon.

Theorem C72_ergosphere_value : forall a th,
  0 <= a <= 1 -> rE_outer a th = Some (1 + sqrt (1 - a * cos th ^ 2)).
Proof. exact PlotProofs.ergo_value. Qed.
Print Assumptions C72_ergosphere_value.

Theorem C72_true_ergosphere : forall a th,
  0 <= a <= 1 -> outer_ergosphere a th (1 + sqrt (1 - a ^ 2 * cos th ^ 2)).
Proof. exact PlotProofs.true_ergosphere. Qed.
Print Assumptions C72_true_ergosphere.

Theorem C72_drawn_iff : forall a th r,
  0 <= a <= 1 -> rE_outer a th = Some r -> (outer_ergosphere a th r <-> a = 0 \/ a = 1 \/ cos th = 0).
Proof. exact PlotProofs.ergo_iff. Qed.
Print Assumptions C72_drawn_iff.

Theorem C72_bounds : forall a th r,
  0 <= a <= 1 -> rE_outer a th = Some r -> 1 <= r <= 2 /\ forall rt, outer_ergosphere a th rt -> r <= rt.
Proof. exact PlotProofs.ergo_bounds. Qed.
Print Assumptions C72_bounds.

Theorem C72_inside_horizon_iff : forall a th r rh,
  0 <= a <= 1 -> rE_outer a th = Some r -> rh_outer a = Some rh -> (r < rh <-> 0 < a /\ a < cos th ^ 2).
Proof. exact PlotProofs.ergo_inside_iff. Qed.
Print Assumptions C72_inside_horizon_iff.

Theorem C72_2D_refuted : forall a,
  0 < a < 1 -> exists name pts h r, nth_error (draw_bh_2D true a) 1 = Some (Curve2 name pts) /\
  nth_error pts 0 = Some (Some 0, Some r) /\ rh_outer a = Some h /\ r < h /\ ~ outer_ergosphere a 0 r.
Proof. exact PlotProofs.ergo_2D_refuted. Qed.
Print Assumptions C72_2D_refuted.

Theorem C72_3D_refuted : forall a,
  0 < a <= 1 -> exists name pts row z0 z1, nth_error (draw_bh true a) 1 = Some (Surface name pts) /\ nth_error pts 0 = Some row /\
  nth_error row 0 = Some (Some 0, Some 0, Some z0) /\ nth_error row 1 = Some (Some 0, Some 0, Some z1) /\ z0 < z1.
Proof. exact PlotProofs.ergo_3D_refuted. Qed.
Print Assumptions C72_3D_refuted.

Example C72_nonvacuous : exists r rh, rE_outer (1 / 2) 0 = Some r /\ rh_outer (1 / 2) = Some rh /\ r < rh /\ 0 < 1 / 2 < 1.
Proof.
  destruct (C72_horizon (1 / 2)) as [rh [E _]]; [lra|]. eexists _, rh. split; [apply C72_ergosphere_value; lra|]. split; [exact E|]. split; [|lra].
  apply (C72_inside_horizon_iff (1 / 2) 0 _ rh); [lra|apply C72_ergosphere_value; lra|exact E|]. rewrite cos_0. lra.
Qed.

(** C73 *)
Theorem C73_static_plot : forall ergo g aspect fig,
  (~ In aspect ["auto"; "equal"; "equalxy"; "equalyz"; "equalxz"]%string -> s_plot ergo g aspect fig = (Err ValueError, fig)) /\
  (In aspect ["auto"; "equal"; "equalxy"; "equalyz"; "equalxz"]%string -> metric_params g = [] -> s_plot ergo g aspect fig = (Err IndexError, fig)) /\
  (forall a l, In aspect ["auto"; "equal"; "equalxy"; "equalyz"; "equalxz"]%string -> metric_params g = a :: l ->
  s_plot ergo g aspect fig = (Ok tt, draw_bh ergo a ++ [plotted3 g])).
Proof. exact PlotProofs.s_plot_spec. Qed.
Print Assumptions C73_static_plot.

Theorem C73_interactive_plot : forall ergo g aspect fig,
  (~ In aspect ["auto"; "data"; "manual"; "cube"]%string -> i_plot ergo g aspect fig = (Err ValueError, fig)) /\
  (In aspect ["auto"; "data"; "manual"; "cube"]%string -> metric_params g = [] -> i_plot ergo g aspect fig = (Err IndexError, fig)) /\
  (forall a l, In aspect ["auto"; "data"; "manual"; "cube"]%string -> metric_params g = a :: l ->
  i_plot ergo g aspect fig = (Ok tt, fig ++ draw_bh ergo a ++ [plotted3 g])).
Proof. exact PlotProofs.i_plot_spec. Qed.
Print Assumptions C73_interactive_plot.

Theorem C73_static_plot2D : forall ergo g A B fig a l,
  metric_params g = a :: l ->
  ((1 <= A <= 3)%Z /\ (1 <= B <= 3)%Z -> s_plot2D ergo g A B fig = (Ok tt, draw_bh_2D ergo a ++ [plotted2 g A B])) /\
  (~ ((1 <= A <= 3)%Z /\ (1 <= B <= 3)%Z) -> s_plot2D ergo g A B fig = (Err IndexError, draw_bh_2D ergo a)).
Proof. exact PlotProofs.s_plot2D_spec. Qed.
Print Assumptions C73_static_plot2D.

Theorem C73_interactive_plot2D : forall ergo g A B fig a l,
  metric_params g = a :: l ->
  ((1 <= A <= 3)%Z /\ (1 <= B <= 3)%Z -> i_plot2D ergo g A B fig = (Ok tt, fig ++ draw_bh_2D ergo a ++ [plotted2 g A B])) /\
  (~ ((1 <= A <= 3)%Z /\ (1 <= B <= 3)%Z) -> i_plot2D ergo g A B fig = (Err IndexError, fig ++ draw_bh_2D ergo a)).
Proof. exact PlotProofs.i_plot2D_spec. Qed.
Print Assumptions C73_interactive_plot2D.

Theorem C73_no_parameters : forall ergo g A B fig,
  metric_params g = [] -> s_plot2D ergo g A B fig = (Err IndexError, fig) /\ i_plot2D ergo g A B fig = (Err IndexError, fig).
Proof. exact PlotProofs.plot2D_no_params. Qed.
Print Assumptions C73_no_parameters.

Theorem C73_parametric : forall g fig,
  exists x1 x2 x3, s_parametric g fig = (Ok tt, [x1; x2; x3]) /\ i_parametric g fig = (Ok tt, fig ++ [x1; x2; x3]) /\
  forall k x, nth_error [x1; x2; x3] k = Some x -> exists nm, x = Curve2 nm (map (fun p => (Some (fst p), Some (q4nth (fst (snd p)) (S k)))) (combine (lambdas g) (traj g))).
Proof. exact PlotProofs.parametric_spec. Qed.
Print Assumptions C73_parametric.

Theorem C73_backend : forall shell,
  in_ipynb shell = Interactive <-> shell = Some "ZMQInteractiveShell"%string.
Proof. exact PlotProofs.ipynb_spec. Qed.
Print Assumptions C73_backend.

Definition sample_geo : geo_view := mkview [1 / 2] "Timelike" "Cartesian" [0; 1] [(mkQ4 0 1 2 3, mkQ4 4 5 6 7); (mkQ4 1 2 3 4, mkQ4 4 5 6 7)].
Example C73_nonvacuous : exists a l fig, metric_params sample_geo = a :: l /\ s_plot2D true sample_geo 1 3 [] = (Ok tt, fig) /\ List.length fig = 3%nat /\
  nth_error fig 2 = Some (Curve2 "Timelike Geodesic" [(Some 1, Some 3); (Some 2, Some 4)]).
Proof. eexists _, _, _. split; [reflexivity|]. split; [reflexivity|]. split; reflexivity. Qed.

(** C74 *)
Theorem C74_pixel : forall c zm i j w h xr yr n,
  (0 < n)%nat -> exists k, escape c zm (pixel i j w h (fst xr) (snd xr) (fst yr) (snd yr)) n k /\ julia c zm i j w h xr yr n = Ok (pow02 (INR k / INR n)).
Proof. exact PlotProofs.julia_value. Qed.
Print Assumptions C74_pixel.

Theorem C74_escape_unique : forall c zm z n k k',
  escape c zm z n k -> escape c zm z n k' -> k = k'.
Proof. exact PlotProofs.escape_unique. Qed.
Print Assumptions C74_escape_unique.

Theorem C74_range : forall c zm i j w h xr yr n v,
  julia c zm i j w h xr yr n = Ok v -> 0 <= v <= 1.
Proof. exact PlotProofs.julia_range. Qed.
Print Assumptions C74_range.

Theorem C74_one_iff : forall c zm i j w h xr yr n v,
  julia c zm i j w h xr yr n = Ok v -> (v = 1 <-> forall k, (k < n)%nat -> Cmod (quad_iter c (pixel i j w h (fst xr) (snd xr) (fst yr) (snd yr)) k) < zm).
Proof. exact PlotProofs.julia_one. Qed.
Print Assumptions C74_one_iff.

(** a pixel below 1 has an orbit that goes to infinity *)
Theorem C74_escape_sound : forall t zm i j w h xr yr n v,
  let c := (8 / 10 * cos t, 8 / 10 * sin t) in 2 <= zm -> julia c zm i j w h xr yr n = Ok v -> v < 1 ->
  exists k, (k < n)%nat /\ forall m, 2 * (16 / 10) ^ m <= Cmod (quad_iter c (pixel i j w h (fst xr) (snd xr) (fst yr) (snd yr)) (k + m)).
Proof. exact PlotProofs.julia_escapes. Qed.
Print Assumptions C74_escape_sound.

Theorem C74_image : forall w h t zm n xr yr,
  (0 < n)%nat -> exists A, fractal_img w h t zm n xr yr = Ok A /\ List.length A = w /\ (forall i row, nth_error A i = Some row -> List.length row = h) /\
  forall i j, (i < w)%nat -> (j < h)%nat -> exists row v, nth_error A i = Some row /\ nth_error row j = Some v /\ julia (8 / 10 * cos t, 8 / 10 * sin t) zm i j w h xr yr n = Ok v.
Proof. exact PlotProofs.fractal_spec. Qed.
Print Assumptions C74_image.

Theorem C74_zero_iterations : forall w h t zm xr yr,
  (0 < w)%nat -> (0 < h)%nat -> fractal_img w h t zm 0 xr yr = Err ZeroDivisionError.
Proof. exact PlotProofs.fractal_zero. Qed.
Print Assumptions C74_zero_iterations.

Theorem C74_slider : forall n i step,
  nth_error (slider_steps n) i = Some step -> List.length step = n /\ forall k, (k < n)%nat -> nth_error step k = Some (Nat.eqb k i).
Proof. exact PlotProofs.slider_spec. Qed.
Print Assumptions C74_slider.

Example C74_nonvacuous : exists A, fractal_img 2 3 1 20 64 (-1, 1) (-1, 1) = Ok A /\ List.length A = 2%nat.
Proof. destruct (C74_image 2 3 1 20 64 (-1, 1) (-1, 1)) as [A [E [L _]]]; [lia|]. exists A. auto. Qed.

(** C85 *)
Theorem C85_accumulates : forall ergo cs fig,
  no_clear cs -> history (run_i ergo) cs fig = fig ++ concat (map (added ergo) cs).
Proof. exact PlotProofs.history_accumulates. Qed.
Print Assumptions C85_accumulates.

Theorem C85_after_clear : forall ergo cs1 cs2 fig,
  no_clear cs2 -> history (run_i ergo) (cs1 ++ CClear :: cs2) fig = concat (map (added ergo) cs2).
Proof. exact PlotProofs.history_clear. Qed.
Print Assumptions C85_after_clear.

Theorem C85_failed_plot : forall ergo g s e fig fig',
  i_plot ergo g s fig = (Err e, fig') -> fig' = fig.
Proof. exact PlotProofs.failed_plot_keeps. Qed.
Print Assumptions C85_failed_plot.

Theorem C85_failed_plot2D_refuted : forall ergo g A B a l fig,
  metric_params g = a :: l -> ~ ((1 <= A <= 3)%Z /\ (1 <= B <= 3)%Z) ->
  exists fig', i_plot2D ergo g A B fig = (Err IndexError, fig') /\ fig' <> fig /\ (List.length fig < List.length fig')%nat.
Proof. exact PlotProofs.failed_plot2D_refuted. Qed.
Print Assumptions C85_failed_plot2D_refuted.

Theorem C85_static_last : forall ergo c fig fig2 u,
  fst (run_s ergo c fig) = Ok u -> run_s ergo c fig = run_s ergo c fig2.
Proof. exact PlotProofs.static_last. Qed.
Print Assumptions C85_static_last.

Example C85_nonvacuous : List.length (history (run_i true) [CPlot sample_geo "auto"; CClear; CPlot2D sample_geo 1 2; CPlot2D sample_geo 0 2] []) = 5%nat /\
  no_clear [CPlot2D sample_geo 1 2; CPlot2D sample_geo 0 2].
Proof. split; [reflexivity|]. intros c [<-|[<-|[]]]; discriminate. Qed.

(** C86 *)
Theorem C86_limits : forall g an,
  s_animate g = Ok an -> forall r, In r (traj g) ->
  (fst (xlim an) <= c1 (fst r) <= snd (xlim an)) /\ (fst (ylim an) <= c2 (fst r) <= snd (ylim an)) /\ (fst (zlim an) <= c3 (fst r) <= snd (zlim an)).
Proof. exact PlotProofs.animate_limits. Qed.
Print Assumptions C86_limits.

Theorem C86_margins : forall x0 l lo hi,
  limits (x0 :: l) = Ok (lo, hi) -> exists mn mx, In mn (x0 :: l) /\ In mx (x0 :: l) /\ (forall x, In x (x0 :: l) -> mn <= x <= mx) /\
  lo = mn - (mx - mn) / 5 /\ hi = mx + (mx - mn) / 5.
Proof. exact PlotProofs.limits_margin. Qed.
Print Assumptions C86_margins.

Theorem C86_defined_iff : forall g,
  (exists an, s_animate g = Ok an) <-> metric_params g <> [] /\ traj g <> [].
Proof. exact PlotProofs.animate_defined. Qed.
Print Assumptions C86_defined_iff.

Theorem C86_frames : forall g an,
  s_animate g = Ok an -> List.length (a_frames an) = List.length (traj g) /\
  forall k f, nth_error (a_frames an) k = Some f -> f = map (fun r => (c1 (fst r), c2 (fst r), c3 (fst r))) (firstn k (traj g)).
Proof. exact PlotProofs.animate_frames. Qed.
Print Assumptions C86_frames.

Theorem C86_last_point_refuted : forall g an,
  s_animate g = Ok an -> forall f, In f (a_frames an) -> (List.length f < List.length (traj g))%nat.
Proof. exact PlotProofs.animate_incomplete_refuted. Qed.
Print Assumptions C86_last_point_refuted.

Example C86_nonvacuous : exists an, s_animate sample_geo = Ok an /\ traj sample_geo <> [].
Proof. assert (K : traj sample_geo <> []) by discriminate. destruct (proj2 (C86_defined_iff sample_geo)) as [an H]; [split; [discriminate|exact K]|]. exists an. auto. Qed.
