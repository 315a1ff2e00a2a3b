(** Properties C71-C74 and C83-C87: the shadow, the drawn black hole, the plotters and the fractal. *)
From Coq Require Import String Reals List Arith ZArith Lia Lra.
From Coquelicot Require Import Coquelicot.
From Verif Require Import Base EmbedModel ShadowModel ShadowProofs GeodesicModel PlotModel PlotProofs.
Import ListNotations.
Local Open Scope R_scope.

@thm C71_aligned ShadowProofs.shadow_aligned -- C71
@thm C71_rays ShadowProofs.shadow_rays -- which rays are kept; both halves increase strictly
@thm C71_raises ShadowProofs.shadow_raises
@thm C71_smoothen ShadowProofs.smoothen_spec
@thm C71_smoothen_defined ShadowProofs.smoothen_iff -- smoothen raises ValueError when the critical ray is kept, because its abscissa then occurs twice
Definition newton_id (b : R) : Res (R * R) := if Rlt_dec b 6 then Ok (b, 1) else Ok (b, 0).
Lemma b_crit_1 : 5 < 3 * sqrt 3 * 1 < 6.
Proof. assert (H := sqrt_between 3 (17 / 10) (19 / 10) ltac:(lra) ltac:(lra) ltac:(lra) ltac:(lra)). lra. Qed.
Example C71_nonvacuous : exists s, Shadow 1 3 10 (1 / 1000) newton_id = Ok s /\ bfin s <> [] /\ 1 / 1000 < 3 * sqrt 3 * 1 /\ 3 * sqrt 3 * 1 < 10.
Proof.
  assert (B := b_crit_1). destruct (Shadow 1 3 10 (1 / 1000) newton_id) as [s|e] eqn:E.
  - exists s. split; [reflexivity|]. split; [|lra]. assert (K : In 10 (bfin s)); [|intros N; rewrite N in K; contradiction].
    apply (C71_rays _ _ _ _ _ _ E); [lra|lra|]. split; [apply nth_error_In with 2%nat; apply (linspace_last (3 * sqrt 3 * 1) 10 3); lia|]. exists 10. unfold newton_id. destruct (Rlt_dec 10 6); [lra|reflexivity].
  - apply C71_raises in E. destruct E as [l1 [b [l2 [_ [H _]]]]]. unfold newton_id in H. destruct (Rlt_dec b 6); discriminate.
Qed.

@thm C83_positive ShadowProofs.shadow_positive -- C83
@thm C83_quadrature_inside ShadowProofs.gauss5_ok
@sthm C83_red_value ShadowProofs.red_value | forall M r b : R, 0 < M -> 2 * M < r -> b ^ 2 * gtt M r < r ^ 2 -> let t := sqrt (2 * M / r) in | intros; apply red_value; assumption. | the closed form of the red-shifted integrand
@sthm C83_blue_value ShadowProofs.blue_value | forall M r b : R, 0 < M -> 2 * M < r -> b ^ 2 * gtt M r < r ^ 2 -> let t := sqrt (2 * M / r) in | intros; apply blue_value; assumption.
@thm C83_below_critical ShadowProofs.below_critical
@thm C83_beyond_turning ShadowProofs.beyond_turning
Definition newton_far (b : R) : Res (R * R) := if Rlt_dec b 8 then Ok (5, 1) else Ok (8, 0).
Example C83_nonvacuous : exists s, Shadow 1 3 9 (1 / 1000) newton_far = Ok s /\
  3 * sqrt 3 * 1 < 9 /\ In 9 (bfin s) /\
  (forall b rt, In b (linspace (3 * sqrt 3 * 1) 9 3) -> newton_far b = Ok (rt, 0) -> 3 * 1 <= rt < 9 /\ b ^ 2 * gtt 1 rt <= rt ^ 2).
Proof.
  assert (B := b_crit_1). destruct (Shadow 1 3 9 (1 / 1000) newton_far) as [s|e] eqn:E.
  - exists s. split; [reflexivity|]. split; [lra|]. split.
    + apply (C71_rays _ _ _ _ _ _ E); [lra|lra|]. split; [apply nth_error_In with 2%nat; apply (linspace_last (3 * sqrt 3 * 1) 9 3); lia|]. exists 8. unfold newton_far. destruct (Rlt_dec 9 8); [lra|reflexivity].
    + intros b rt Hb. apply linspace_bounds in Hb; [|lra]. unfold newton_far. destruct (Rlt_dec b 8); intros H; inversion H; subst; [lra|].
      unfold gtt. split; [lra|]. replace (1 - 2 * 1 / 8) with (3 / 4) by field. nra.
  - apply C71_raises in E. destruct E as [l1 [b [l2 [_ [H _]]]]]. unfold newton_far in H. destruct (Rlt_dec b 8); discriminate.
Qed.

@thm C84_root_is_turning_point ShadowProofs.root_turning -- C84: a zero of the root equation is the turning point for the mass int(M)
@thm C84_turning_iff ShadowProofs.turning_iff
@thm C84_turning_refuted ShadowProofs.turning_refuted
@thm C84_safe ShadowProofs.root_safe
Example C84_nonvacuous : root_equation (1 / 2) 4 4 = 0 /\ ~ turning (1 / 2) 4 4 /\ 2 * (1 / 2) < 4.
Proof. destruct (C84_turning_refuted 4 ltac:(lra)) as [H1 H2]. split; [exact H1|]. split; [exact H2|lra]. Qed.

@thm C72_horizon PlotProofs.horizon_drawn -- C72
@thm C72_ergosphere_value PlotProofs.ergo_value
@thm C72_true_ergosphere PlotProofs.true_ergosphere
@thm C72_drawn_iff PlotProofs.ergo_iff
@thm C72_bounds PlotProofs.ergo_bounds
@thm C72_inside_horizon_iff PlotProofs.ergo_inside_iff
@thm C72_2D_refuted PlotProofs.ergo_2D_refuted
@thm C72_3D_refuted PlotProofs.ergo_3D_refuted
Example C72_nonvacuous : exists r rh, rE_outer (1 / 2) 0 = Some r /\ rh_outer (1 / 2) = Some rh /\ r < rh /\ 0 < 1 / 2 < 1.
Proof.
  destruct (C72_horizon (1 / 2)) as [rh [E _]]; [lra|]. eexists _, rh. split; [apply C72_ergosphere_value; lra|]. split; [exact E|]. split; [|lra].
  apply (C72_inside_horizon_iff (1 / 2) 0 _ rh); [lra|apply C72_ergosphere_value; lra|exact E|]. rewrite cos_0. lra.
Qed.

@thm C73_static_plot PlotProofs.s_plot_spec -- C73
@thm C73_interactive_plot PlotProofs.i_plot_spec
@thm C73_static_plot2D PlotProofs.s_plot2D_spec
@thm C73_interactive_plot2D PlotProofs.i_plot2D_spec
@thm C73_no_parameters PlotProofs.plot2D_no_params
@thm C73_parametric PlotProofs.parametric_spec
@thm C73_backend PlotProofs.ipynb_spec
Definition sample_geo : geo_view := mkview [1 / 2] "Timelike" "Cartesian" [0; 1] [(mkQ4 0 1 2 3, mkQ4 4 5 6 7); (mkQ4 1 2 3 4, mkQ4 4 5 6 7)].
Example C73_nonvacuous : exists a l fig, metric_params sample_geo = a :: l /\ s_plot2D true sample_geo 1 3 [] = (Ok tt, fig) /\ List.length fig = 3%nat /\
  nth_error fig 2 = Some (Curve2 "Timelike Geodesic" [(Some 1, Some 3); (Some 2, Some 4)]).
Proof. eexists _, _, _. split; [reflexivity|]. split; [reflexivity|]. split; reflexivity. Qed.

@thm C74_pixel PlotProofs.julia_value -- C74
@thm C74_escape_unique PlotProofs.escape_unique
@thm C74_range PlotProofs.julia_range
@thm C74_one_iff PlotProofs.julia_one
@thm C74_escape_sound PlotProofs.julia_escapes -- a pixel below 1 has an orbit that goes to infinity
@thm C74_image PlotProofs.fractal_spec
@thm C74_zero_iterations PlotProofs.fractal_zero
@thm C74_slider PlotProofs.slider_spec
Example C74_nonvacuous : exists A, fractal_img 2 3 1 20 64 (-1, 1) (-1, 1) = Ok A /\ List.length A = 2%nat.
Proof. destruct (C74_image 2 3 1 20 64 (-1, 1) (-1, 1)) as [A [E [L _]]]; [lia|]. exists A. auto. Qed.

@thm C85_accumulates PlotProofs.history_accumulates -- C85
@thm C85_after_clear PlotProofs.history_clear
@thm C85_failed_plot PlotProofs.failed_plot_keeps
@thm C85_failed_plot2D_refuted PlotProofs.failed_plot2D_refuted
@thm C85_static_last PlotProofs.static_last
Example C85_nonvacuous : List.length (history (run_i true) [CPlot sample_geo "auto"; CClear; CPlot2D sample_geo 1 2; CPlot2D sample_geo 0 2] []) = 5%nat /\
  no_clear [CPlot2D sample_geo 1 2; CPlot2D sample_geo 0 2].
Proof. split; [reflexivity|]. intros c [<-|[<-|[]]]; discriminate. Qed.

@thm C86_limits PlotProofs.animate_limits -- C86
@thm C86_margins PlotProofs.limits_margin
@thm C86_defined_iff PlotProofs.animate_defined
@thm C86_frames PlotProofs.animate_frames
@thm C86_last_point_refuted PlotProofs.animate_incomplete_refuted
Example C86_nonvacuous : exists an, s_animate sample_geo = Ok an /\ traj sample_geo <> [].
Proof. assert (K : traj sample_geo <> []) by discriminate. destruct (proj2 (C86_defined_iff sample_geo)) as [an H]; [split; [discriminate|exact K]|]. exists an. auto. Qed.
