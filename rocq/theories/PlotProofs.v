From Coq Require Import String Reals List Arith ZArith Lra Lia Bool.
From Coquelicot Require Import Coquelicot.
From Verif Require Import Base EmbedModel ShadowModel ShadowProofs GeodesicModel PlotModel.
Import ListNotations.
Open Scope R_scope.

(** ** C72 horizon and ergosphere (lengths in units of the mass) *)
(** the outer event horizon: the larger zero of r^2 - 2 r + a^2 *)
Definition outer_horizon (a r : R) : Prop := r ^ 2 - 2 * r + a ^ 2 = 0 /\ forall r', r' ^ 2 - 2 * r' + a ^ 2 = 0 -> r' <= r.
(** the outer ergosphere: the larger zero of g_tt, r^2 - 2 r + a^2 cos^2 theta *)
Definition outer_ergosphere (a theta r : R) : Prop :=
  r ^ 2 - 2 * r + a ^ 2 * cos theta ^ 2 = 0 /\ forall r', r' ^ 2 - 2 * r' + a ^ 2 * cos theta ^ 2 = 0 -> r' <= r.
Lemma Some_inj {A} (x y : A) : Some x = Some y -> x = y. Proof. intros H; inversion H; reflexivity. Qed.
Lemma quad_outer q : q <= 1 -> let r := 1 + sqrt (1 - q) in r ^ 2 - 2 * r + q = 0 /\ forall r', r' ^ 2 - 2 * r' + q = 0 -> r' <= r.
Proof.
  intros H r. assert (S : sqrt (1 - q) * sqrt (1 - q) = 1 - q) by (apply sqrt_sqrt; lra). assert (P := sqrt_pos (1 - q)). unfold r. set (s := sqrt (1 - q)) in *. split; [lra|].
  intros r' Hr. destruct (Rle_dec r' (1 + s)) as [|N]; [assumption|]. exfalso. assert ((r' - 1) * (r' - 1) = s * s) by lra. nra.
Qed.
Lemma cos2_le x : cos x ^ 2 <= 1. Proof. assert (H := COS_bound x). nra. Qed.
Lemma ac_facts a x : 0 <= a <= 1 -> 0 <= a * cos x ^ 2 <= 1 /\ 0 <= a ^ 2 * cos x ^ 2 <= a * cos x ^ 2.
Proof. intros H. assert (K := cos2_le x). assert (K0 : 0 <= cos x ^ 2) by apply pow2_ge_0. set (c := cos x ^ 2) in *. clearbody c. assert (0 <= a ^ 2 <= a) by (simpl; nra). split; split; nra. Qed.
Lemma horizon_drawn a : 0 <= a <= 1 -> exists r, rh_outer a = Some r /\ outer_horizon a r /\ 1 <= r <= 2.
Proof.
  intros H. unfold rh_outer. rewrite esqrt_ok by nra. cbn [obind]. eexists. split; [reflexivity|]. split; [apply (quad_outer (a ^ 2)); nra|].
  assert (P := sqrt_pos (1 - a ^ 2)). assert (sqrt (1 - a ^ 2) <= 1); [|lra]. rewrite <- sqrt_1 at 2. apply sqrt_le_1; nra.
Qed.
Lemma true_ergosphere a th : 0 <= a <= 1 -> outer_ergosphere a th (1 + sqrt (1 - a ^ 2 * cos th ^ 2)).
Proof. intros H. apply (quad_outer (a ^ 2 * cos th ^ 2)). assert (K := ac_facts a th H). lra. Qed.
Lemma outer_unique a th r r' : outer_ergosphere a th r -> outer_ergosphere a th r' -> r = r'.
Proof. intros [A1 A2] [B1 B2]. specialize (A2 r' B1). specialize (B2 r A1). lra. Qed.
Lemma ergo_value a th : 0 <= a <= 1 -> rE_outer a th = Some (1 + sqrt (1 - a * cos th ^ 2)).
Proof. intros H. unfold rE_outer. assert (K := ac_facts a th H). rewrite esqrt_ok by lra. reflexivity. Qed.
(** the radius drawn is the ergosphere's exactly for a = 0, a = 1 or on the equator *)
Lemma ergo_iff a th r : 0 <= a <= 1 -> rE_outer a th = Some r -> (outer_ergosphere a th r <-> a = 0 \/ a = 1 \/ cos th = 0).
Proof.
  intros H E. rewrite ergo_value in E by exact H. apply Some_inj in E; subst r. assert (K := cos2_le th). assert (K0 : 0 <= cos th ^ 2) by apply pow2_ge_0. assert (AC := ac_facts a th H). assert (T := true_ergosphere a th H). split.
  - intros O. assert (Q := outer_unique _ _ _ _ O T). assert (S : sqrt (1 - a * cos th ^ 2) = sqrt (1 - a ^ 2 * cos th ^ 2)) by lra. apply sqrt_inj in S; [|lra|lra].
    assert (Z : a * ((1 - a) * (cos th * cos th)) = 0) by (replace (a * ((1 - a) * (cos th * cos th))) with (a * cos th ^ 2 - a ^ 2 * cos th ^ 2) by ring; lra). apply Rmult_integral in Z. destruct Z as [Z|Z]; [left; exact Z|]. apply Rmult_integral in Z. destruct Z as [Z|Z]; [right; left; lra|].
    right; right. apply Rmult_integral in Z. tauto.
  - intros D. replace (1 - a * cos th ^ 2) with (1 - a ^ 2 * cos th ^ 2); [exact T|]. destruct D as [-> |[-> | ->]]; ring.
Qed.
(** it is always between 1 and 2, never outside the true one, and inside the horizon exactly where cos^2 theta > a > 0 *)
Lemma ergo_bounds a th r : 0 <= a <= 1 -> rE_outer a th = Some r -> 1 <= r <= 2 /\ forall rt, outer_ergosphere a th rt -> r <= rt.
Proof.
  intros H E. rewrite ergo_value in E by exact H. apply Some_inj in E; subst r. assert (K := cos2_le th). assert (K0 : 0 <= cos th ^ 2) by apply pow2_ge_0. assert (AC := ac_facts a th H).
  assert (P := sqrt_pos (1 - a * cos th ^ 2)). split; [split; [lra|]|].
  - assert (sqrt (1 - a * cos th ^ 2) <= 1); [|lra]. rewrite <- sqrt_1 at 2. apply sqrt_le_1; lra.
  - intros rt O. rewrite (outer_unique _ _ _ _ O (true_ergosphere a th H)). apply Rplus_le_compat_l. apply sqrt_le_1; lra.
Qed.
Lemma ergo_inside_iff a th r rh : 0 <= a <= 1 -> rE_outer a th = Some r -> rh_outer a = Some rh -> (r < rh <-> 0 < a /\ a < cos th ^ 2).
Proof.
  intros H E Eh. rewrite ergo_value in E by exact H. apply Some_inj in E; subst r. unfold rh_outer in Eh. rewrite esqrt_ok in Eh by nra. cbn [obind] in Eh. apply Some_inj in Eh; subst rh.
  assert (K := cos2_le th). assert (K0 : 0 <= cos th ^ 2) by apply pow2_ge_0. assert (AC := ac_facts a th H). split.
  - intros L. assert (L' : sqrt (1 - a * cos th ^ 2) < sqrt (1 - a ^ 2)) by lra. apply sqrt_lt_0_alt in L'. split; [|]; nra.
  - intros [L1 L2]. apply Rplus_lt_compat_l. apply sqrt_lt_1; nra.
Qed.
(** the points actually drawn *)
Lemma ergo_2D_refuted a : 0 < a < 1 -> exists name pts h r, nth_error (draw_bh_2D true a) 1 = Some (Curve2 name pts) /\
  nth_error pts 0 = Some (Some 0, Some r) /\ rh_outer a = Some h /\ r < h /\ ~ outer_ergosphere a 0 r.
Proof.
  intros H. destruct (horizon_drawn a ltac:(lra)) as [h [Eh _]]. unfold draw_bh_2D. eexists _, _, h, (1 + sqrt (1 - a)). split; [reflexivity|].
  assert (E0 : rE_outer a 0 = Some (1 + sqrt (1 - a))) by (rewrite ergo_value, cos_0 by lra; do 2 f_equal; f_equal; ring).
  split; [|split; [exact Eh|split]].
  - rewrite nth_error_map, linspace_first by lia. cbn [option_map]. rewrite E0. unfold scale2. cbn [emul]. rewrite sin_0, cos_0, Rmult_0_r, Rmult_1_r. reflexivity.
  - apply (ergo_inside_iff a 0 _ h ltac:(lra) E0 Eh). rewrite cos_0. lra.
  - intros O. apply (ergo_iff a 0 _ ltac:(lra) E0) in O. rewrite cos_0 in O. lra.
Qed.
(** in 3D the radius follows the azimuth instead of the polar angle: on the axis the surface has several heights *)
Lemma ergo_3D_refuted a : 0 < a <= 1 -> exists name pts row z0 z1, nth_error (draw_bh true a) 1 = Some (Surface name pts) /\ nth_error pts 0 = Some row /\
  nth_error row 0 = Some (Some 0, Some 0, Some z0) /\ nth_error row 1 = Some (Some 0, Some 0, Some z1) /\ z0 < z1.
Proof.
  intros H. unfold draw_bh. set (t1 := 0 + INR 1 * ((2 * PI - 0) / INR (50 - 1))). eexists _, _, _, (1 + sqrt (1 - a * cos 0 ^ 2)), (1 + sqrt (1 - a * cos t1 ^ 2)).
  split; [reflexivity|]. split; [rewrite nth_error_map, linspace_first by lia; reflexivity|].
  split; [|split].
  - rewrite nth_error_map, linspace_first by lia. cbn [option_map]. rewrite ergo_value by lra. unfold scale3. cbn [emul]. rewrite sin_0, cos_0, !Rmult_0_l, !Rmult_0_r, Rmult_1_r. reflexivity.
  - rewrite nth_error_map, linspace_nth by lia. cbn [option_map]. fold t1. rewrite ergo_value by lra. unfold scale3. cbn [emul]. rewrite sin_0, cos_0, !Rmult_0_l, !Rmult_0_r, Rmult_1_r. reflexivity.
  - apply Rplus_lt_compat_l. rewrite cos_0. assert (E : t1 = 2 * PI / 49) by (unfold t1; replace (INR (50 - 1)) with 49 by (cbn; lra); cbn [INR]; field).
    assert (P := PI_RGT_0). assert (S : 0 < sin t1) by (rewrite E; apply sin_gt_0; lra). assert (Q := sin2_cos2 t1). unfold Rsqr in Q. assert (C := cos2_le t1). assert (C0 : 0 <= cos t1 ^ 2) by apply pow2_ge_0.
    assert (L : cos t1 ^ 2 < 1) by (simpl; nra). set (cc := cos t1 ^ 2) in *. assert (a * cc < a) by nra. assert (0 <= a * cc) by nra. replace (1 ^ 2) with 1 by ring. apply sqrt_lt_1; lra.
Qed.

(** ** C73 argument checks *)
Lemma member_iff s l : member s l = true <-> In s l.
Proof.
  unfold member. rewrite existsb_exists. split; [intros [x [H E]]; apply String.eqb_eq in E; subst; exact H|]. intros H. exists s. split; [exact H|apply String.eqb_refl].
Qed.
Lemma in123_iff A : in123 A = true <-> (1 <= A <= 3)%Z.
Proof. unfold in123. rewrite !orb_true_iff, !Z.eqb_eq. lia. Qed.
Definition plotted3 (g : geo_view) : artist := Curve3 (label g) (map (fun r => (c1 (fst r), c2 (fst r), c3 (fst r))) (traj g)).
Lemma zip3_columns t : zip3 (column t 1) (column t 2) (column t 3) = map (fun r => (c1 (fst r), c2 (fst r), c3 (fst r))) t.
Proof. unfold zip3, column. induction t as [|r t IH]; [reflexivity|]. cbn. f_equal. exact IH. Qed.
Lemma zip2_columns t A B : (A <= 3)%nat -> (B <= 3)%nat -> zip2 (column t A) (column t B) = map (fun r => (Some (q4nth (fst r) A), Some (q4nth (fst r) B))) t.
Proof.
  intros HA HB. unfold zip2, column. replace (A <? 4)%nat with true by (symmetry; apply Nat.ltb_lt; lia). replace (B <? 4)%nat with true by (symmetry; apply Nat.ltb_lt; lia).
  induction t as [|r t IH]; [reflexivity|]. cbn. f_equal. exact IH.
Qed.
Lemma s_plot_spec ergo g aspect fig :
  (~ In aspect ["auto"; "equal"; "equalxy"; "equalyz"; "equalxz"]%string -> s_plot ergo g aspect fig = (Err ValueError, fig)) /\
  (In aspect ["auto"; "equal"; "equalxy"; "equalyz"; "equalxz"]%string -> metric_params g = [] -> s_plot ergo g aspect fig = (Err IndexError, fig)) /\
  (forall a l, In aspect ["auto"; "equal"; "equalxy"; "equalyz"; "equalxz"]%string -> metric_params g = a :: l ->
     s_plot ergo g aspect fig = (Ok tt, draw_bh ergo a ++ [plotted3 g])).
Proof.
  unfold s_plot. destruct (member aspect static_aspects) eqn:E; cbn [negb].
  - apply member_iff in E. split; [intros N; contradiction|]. split; [intros _ ->; reflexivity|]. intros a l _ ->. cbn [first]. unfold plotted3. rewrite zip3_columns. reflexivity.
  - assert (N : ~ In aspect static_aspects) by (rewrite <- member_iff; congruence). split; [reflexivity|]. split; [intros K; contradiction|intros a l K; contradiction].
Qed.
Lemma i_plot_spec ergo g aspect fig :
  (~ In aspect ["auto"; "data"; "manual"; "cube"]%string -> i_plot ergo g aspect fig = (Err ValueError, fig)) /\
  (In aspect ["auto"; "data"; "manual"; "cube"]%string -> metric_params g = [] -> i_plot ergo g aspect fig = (Err IndexError, fig)) /\
  (forall a l, In aspect ["auto"; "data"; "manual"; "cube"]%string -> metric_params g = a :: l ->
     i_plot ergo g aspect fig = (Ok tt, fig ++ draw_bh ergo a ++ [plotted3 g])).
Proof.
  unfold i_plot. destruct (member aspect interactive_aspects) eqn:E; cbn [negb].
  - apply member_iff in E. split; [intros N; contradiction|]. split; [intros _ ->; reflexivity|]. intros a l _ ->. cbn [first]. unfold plotted3. rewrite zip3_columns. reflexivity.
  - assert (N : ~ In aspect interactive_aspects) by (rewrite <- member_iff; congruence). split; [reflexivity|]. split; [intros K; contradiction|intros a l K; contradiction].
Qed.
Definition plotted2 (g : geo_view) (A B : Z) : artist :=
  Curve2 (label g) (map (fun r => (Some (q4nth (fst r) (Z.to_nat A)), Some (q4nth (fst r) (Z.to_nat B)))) (traj g)).
Lemma bad_index A B : (negb (in123 A) || negb (in123 B))%bool = false <-> (1 <= A <= 3)%Z /\ (1 <= B <= 3)%Z.
Proof. rewrite orb_false_iff, !negb_false_iff, !in123_iff. reflexivity. Qed.
Lemma s_plot2D_spec ergo g A B fig a l : metric_params g = a :: l ->
  ((1 <= A <= 3)%Z /\ (1 <= B <= 3)%Z -> s_plot2D ergo g A B fig = (Ok tt, draw_bh_2D ergo a ++ [plotted2 g A B])) /\
  (~ ((1 <= A <= 3)%Z /\ (1 <= B <= 3)%Z) -> s_plot2D ergo g A B fig = (Err IndexError, draw_bh_2D ergo a)).
Proof.
  intros E. unfold s_plot2D. rewrite E. cbn [first]. destruct (negb (in123 A) || negb (in123 B))%bool eqn:K.
  - split; [intros H; apply bad_index in H; congruence|reflexivity].
  - apply bad_index in K. split; [intros _|intros N; contradiction]. unfold plotted2. rewrite zip2_columns by lia. reflexivity.
Qed.
Lemma i_plot2D_spec ergo g A B fig a l : metric_params g = a :: l ->
  ((1 <= A <= 3)%Z /\ (1 <= B <= 3)%Z -> i_plot2D ergo g A B fig = (Ok tt, fig ++ draw_bh_2D ergo a ++ [plotted2 g A B])) /\
  (~ ((1 <= A <= 3)%Z /\ (1 <= B <= 3)%Z) -> i_plot2D ergo g A B fig = (Err IndexError, fig ++ draw_bh_2D ergo a)).
Proof.
  intros E. unfold i_plot2D. rewrite E. cbn [first]. destruct (negb (in123 A) || negb (in123 B))%bool eqn:K.
  - split; [intros H; apply bad_index in H; congruence|reflexivity].
  - apply bad_index in K. split; [intros _|intros N; contradiction]. unfold plotted2. rewrite zip2_columns, <- app_assoc by lia. reflexivity.
Qed.
Lemma plot2D_no_params ergo g A B fig : metric_params g = [] -> s_plot2D ergo g A B fig = (Err IndexError, fig) /\ i_plot2D ergo g A B fig = (Err IndexError, fig).
Proof. intros E. unfold s_plot2D, i_plot2D. rewrite E. split; reflexivity. Qed.
Lemma parametric_spec g fig : exists x1 x2 x3, s_parametric g fig = (Ok tt, [x1; x2; x3]) /\ i_parametric g fig = (Ok tt, fig ++ [x1; x2; x3]) /\
  forall k x, nth_error [x1; x2; x3] k = Some x -> exists nm, x = Curve2 nm (map (fun p => (Some (fst p), Some (q4nth (fst (snd p)) (S k)))) (combine (lambdas g) (traj g))).
Proof.
  eexists _, _, _. split; [reflexivity|]. split; [reflexivity|].
  assert (G : forall k nm, (k <= 3)%nat -> exists nm', param_curve g k nm = Curve2 nm' (map (fun p => (Some (fst p), Some (q4nth (fst (snd p)) k))) (combine (lambdas g) (traj g)))).
  { intros k nm Hk. eexists. unfold param_curve. f_equal. unfold zip2, column. replace (k <? 4)%nat with true by (symmetry; apply Nat.ltb_lt; lia).
    generalize (lambdas g). induction (traj g) as [|r t IH]; intros [|x l]; try reflexivity. cbn. f_equal. apply IH. }
  intros [|[|[|k]]] x Hx; cbn in Hx; try (injection Hx as <-; apply G; lia). destruct k; discriminate.
Qed.

(** ** C85 the interactive figure over a history of calls *)
Inductive call := CPlot (g : geo_view) (aspect : string) | CPlot2D (g : geo_view) (A B : Z) | CParam (g : geo_view) | CClear.
Definition run_i (ergo : bool) (c : call) : effect :=
  match c with CPlot g s => i_plot ergo g s | CPlot2D g A B => i_plot2D ergo g A B | CParam g => i_parametric g | CClear => i_clear end.
Definition run_s (ergo : bool) (c : call) : effect :=
  match c with CPlot g s => s_plot ergo g s | CPlot2D g A B => s_plot2D ergo g A B | CParam g => s_parametric g | CClear => s_clear end.
(** the figure after a history (exceptions are caught by the caller) *)
Definition history (run : call -> effect) (cs : list call) (fig : list artist) : list artist := fold_left (fun f c => snd (run c f)) cs fig.
Definition no_clear (cs : list call) : Prop := forall c, In c cs -> c <> CClear.
Definition added (ergo : bool) (c : call) : list artist := snd (run_i ergo c []).
Lemma run_i_adds ergo c fig : c <> CClear -> run_i ergo c fig = (fst (run_i ergo c []), fig ++ added ergo c).
Proof.
  intros N. unfold added. destruct c as [g s|g A B|g|]; [| | |contradiction]; cbn [run_i].
  - unfold i_plot. destruct (negb _); [cbn; rewrite app_nil_r; reflexivity|]. destruct (first _); [reflexivity|cbn; rewrite app_nil_r; reflexivity].
  - unfold i_plot2D. destruct (first _); [|cbn; rewrite app_nil_r; reflexivity]. destruct (_ || _)%bool; [reflexivity|]. cbn [fst snd app]. rewrite app_assoc. reflexivity.
  - reflexivity.
Qed.
Lemma history_app run cs1 cs2 fig : history run (cs1 ++ cs2) fig = history run cs2 (history run cs1 fig).
Proof. apply fold_left_app. Qed.
Lemma history_accumulates ergo cs fig : no_clear cs -> history (run_i ergo) cs fig = fig ++ concat (map (added ergo) cs).
Proof.
  revert fig. induction cs as [|c cs IH]; intros fig H; [cbn; rewrite app_nil_r; reflexivity|].
  unfold history in *. cbn [fold_left map concat]. rewrite run_i_adds by (apply H; left; reflexivity). cbn [snd]. rewrite IH by (intros x Hx; apply H; right; exact Hx). rewrite app_assoc. reflexivity.
Qed.
Lemma history_clear ergo cs1 cs2 fig : no_clear cs2 -> history (run_i ergo) (cs1 ++ CClear :: cs2) fig = concat (map (added ergo) cs2).
Proof. intros H. rewrite history_app. change (history (run_i ergo) (CClear :: cs2) (history (run_i ergo) cs1 fig)) with (history (run_i ergo) cs2 []). apply history_accumulates. exact H. Qed.
(** a call that raises should leave the figure alone; plot2D does not *)
Lemma failed_plot_keeps ergo g s e fig fig' : i_plot ergo g s fig = (Err e, fig') -> fig' = fig.
Proof. unfold i_plot. destruct (negb _); [congruence|]. destruct (first _); congruence. Qed.
Lemma failed_plot2D_refuted ergo g A B a l fig : metric_params g = a :: l -> ~ ((1 <= A <= 3)%Z /\ (1 <= B <= 3)%Z) ->
  exists fig', i_plot2D ergo g A B fig = (Err IndexError, fig') /\ fig' <> fig /\ (List.length fig < List.length fig')%nat.
Proof.
  intros E N. rewrite (proj2 (i_plot2D_spec ergo g A B fig a l E) N). eexists. split; [reflexivity|].
  assert (L : (List.length fig < List.length (fig ++ draw_bh_2D ergo a))%nat) by (rewrite app_length; cbn; lia). split; [intros K; rewrite K in L; lia|exact L].
Qed.
(** the static plotter keeps only the last successful drawing *)
Lemma static_last ergo c fig fig2 u : fst (run_s ergo c fig) = Ok u -> run_s ergo c fig = run_s ergo c fig2.
Proof.
  destruct c as [g s|g A B|g|]; cbn [run_s]; try reflexivity.
  - unfold s_plot. destruct (negb _); [discriminate|]. destruct (first _); [reflexivity|discriminate].
  - unfold s_plot2D. destruct (first _); [reflexivity|discriminate].
Qed.
Lemma ipynb_spec shell : in_ipynb shell = Interactive <-> shell = Some "ZMQInteractiveShell"%string.
Proof.
  unfold in_ipynb. destruct shell as [s|]; [|split; discriminate]. destruct (String.eqb_spec s "ZMQInteractiveShell") as [-> |N]; [split; reflexivity|].
  destruct (String.eqb s "TerminalInteractiveShell"); split; intros H; try discriminate; injection H as ->; contradiction.
Qed.

(** ** C86 animate *)
Lemma limits_ok xs : xs <> [] -> exists lo hi, limits xs = Ok (lo, hi) /\ forall x, In x xs -> lo <= x <= hi.
Proof.
  intros N. destruct xs as [|x0 l]; [contradiction|]. unfold limits, np_max, np_min. cbn [bindR]. destruct (fold_min_in l x0) as [A1 A2]. destruct (fold_max_in l x0) as [C1 C2].
  eexists _, _. split; [reflexivity|]. intros x Hx. specialize (A2 x Hx). specialize (C2 x Hx). split; lra.
Qed.
Lemma limits_margin x0 l lo hi : limits (x0 :: l) = Ok (lo, hi) -> exists mn mx, In mn (x0 :: l) /\ In mx (x0 :: l) /\ (forall x, In x (x0 :: l) -> mn <= x <= mx) /\
  lo = mn - (mx - mn) / 5 /\ hi = mx + (mx - mn) / 5.
Proof.
  unfold limits, np_max, np_min. cbn [bindR]. intros H. apply Ok_inj in H. injection H as <- <-. destruct (fold_min_in l x0) as [A1 A2]. destruct (fold_max_in l x0) as [C1 C2].
  eexists _, _. split; [exact A1|]. split; [exact C1|]. split; [intros x Hx; split; [apply A2|apply C2]; exact Hx|]. split; field.
Qed.
Lemma animate_limits g an : s_animate g = Ok an -> forall r, In r (traj g) ->
  (fst (xlim an) <= c1 (fst r) <= snd (xlim an)) /\ (fst (ylim an) <= c2 (fst r) <= snd (ylim an)) /\ (fst (zlim an) <= c3 (fst r) <= snd (zlim an)).
Proof.
  unfold s_animate. destruct (first _); [|discriminate]. cbn [bindR]. intros H r Hr.
  assert (N : forall k, column (traj g) k <> []) by (intros k K; unfold column in K; apply map_eq_nil in K; rewrite K in Hr; contradiction).
  assert (I : forall k, In (if Nat.ltb k 4 then q4nth (fst r) k else q4nth (snd r) (k - 4)) (column (traj g) k)) by (intros k; unfold column; apply (in_map (fun r0 : row => if Nat.ltb k 4 then q4nth (fst r0) k else q4nth (snd r0) (k - 4))); exact Hr).
  destruct (limits_ok _ (N 1%nat)) as [l1 [h1 [E1 B1]]]. destruct (limits_ok _ (N 2%nat)) as [l2 [h2 [E2 B2]]]. destruct (limits_ok _ (N 3%nat)) as [l3 [h3 [E3 B3]]].
  rewrite E1, E2, E3 in H. cbn [bindR] in H. apply Ok_inj in H. subst an. cbn [xlim ylim zlim fst snd]. split; [|split]; [apply (B1 _ (I 1%nat))|apply (B2 _ (I 2%nat))|apply (B3 _ (I 3%nat))].
Qed.
Lemma animate_defined g : (exists an, s_animate g = Ok an) <-> metric_params g <> [] /\ traj g <> [].
Proof.
  unfold s_animate. destruct (metric_params g) as [|a l]; cbn [first bindR]; [split; [intros [an H]; discriminate|tauto]|]. destruct (traj g) as [|r t] eqn:T.
  - cbn. split; [intros [an H]; discriminate|tauto].
  - assert (N : forall k, column (r :: t) k <> []) by (intros k K; discriminate).
    destruct (limits_ok _ (N 1%nat)) as [l1 [h1 [E1 _]]]. destruct (limits_ok _ (N 2%nat)) as [l2 [h2 [E2 _]]]. destruct (limits_ok _ (N 3%nat)) as [l3 [h3 [E3 _]]]. rewrite E1, E2, E3. cbn [bindR].
    split; [intros _; split; discriminate|eauto].
Qed.
Lemma animate_frames g an : s_animate g = Ok an -> List.length (a_frames an) = List.length (traj g) /\
  forall k f, nth_error (a_frames an) k = Some f -> f = map (fun r => (c1 (fst r), c2 (fst r), c3 (fst r))) (firstn k (traj g)).
Proof.
  unfold s_animate. destruct (first _); [|discriminate]. cbn [bindR]. destruct (limits _); [|discriminate]. cbn [bindR]. destruct (limits _); [|discriminate]. cbn [bindR]. destruct (limits _); [|discriminate]. cbn [bindR].
  intros H. apply Ok_inj in H. subst an. cbn [a_frames]. unfold frames. rewrite map_length, seq_length. split; [reflexivity|]. intros k f Hf.
  rewrite nth_error_map in Hf. destruct (lt_dec k (List.length (traj g))) as [L|L].
  - rewrite (nth_error_nth' _ 0%nat) in Hf by (rewrite seq_length; exact L). rewrite seq_nth in Hf by exact L. cbn in Hf. injection Hf as <-. rewrite zip3_columns, firstn_map. reflexivity.
  - rewrite (proj2 (nth_error_None _ _)) in Hf by (rewrite seq_length; lia). discriminate.
Qed.
(** no frame ever contains the last point: every frame has fewer points than the trajectory *)
Lemma animate_incomplete_refuted g an : s_animate g = Ok an -> forall f, In f (a_frames an) -> (List.length f < List.length (traj g))%nat.
Proof.
  intros H f Hf. destruct (animate_frames g an H) as [L F]. apply In_nth_error in Hf. destruct Hf as [k Hk]. assert (K : (k < List.length (traj g))%nat) by (rewrite <- L; apply nth_error_Some; congruence).
  rewrite (F k f Hk), map_length, firstn_length. lia.
Qed.

(** ** C74 the fractal *)
Fixpoint zseq (c z : R * R) (k : nat) : R * R := match k with O => z | S k => cadd (csqr (zseq c z k)) c end.
Lemma zseq_shift c z k : zseq c (cadd (csqr z) c) k = zseq c z (S k).
Proof. induction k as [|k IH]; [reflexivity|]. cbn [zseq] in *. rewrite IH. reflexivity. Qed.
Lemma orbit_spec c zm : forall fuel z it, exists k, orbit c zm z it fuel = (it + k)%nat /\ (k <= fuel)%nat /\ (forall i, (i < k)%nat -> cabs (zseq c z i) < zm) /\ (k = fuel \/ zm <= cabs (zseq c z k)).
Proof.
  induction fuel as [|fuel IH]; intros z it; cbn [orbit].
  - exists 0%nat. repeat split; try lia; auto.
  - destruct (Rlt_dec (cabs z) zm) as [L|L].
    + destruct (IH (cadd (csqr z) c) (S it)) as [k [E [H1 [H2 H3]]]]. exists (S k). split; [rewrite E; lia|]. split; [lia|]. split.
      * intros [|i] Hi; [exact L|]. rewrite <- zseq_shift. apply H2. lia.
      * rewrite <- zseq_shift. destruct H3 as [-> |H3]; auto.
    + exists 0%nat. split; [lia|]. split; [lia|]. split; [intros; lia|]. right. cbn. lra.
Qed.
(** Specification, in Coquelicot's complex numbers: the iterates of z -> z^2 + c, the point of the grid a pixel stands for,
    and the escape count (k is the first iterate outside the disc, or iter_max) *)
Fixpoint quad_iter (c z : C) (k : nat) : C := match k with O => z | S k => let w := quad_iter c z k in Cplus (Cmult w w) c end.
Definition pixel (i j w h : nat) (x0 x1 y0 y1 : R) : C := (x0 + INR i / INR w * (x1 - x0), y0 + INR j / INR h * (y1 - y0)).
Definition escape (c : C) (zm : R) (z : C) (n k : nat) : Prop := (k <= n)%nat /\ (forall i, (i < k)%nat -> Cmod (quad_iter c z i) < zm) /\ (k = n \/ zm <= Cmod (quad_iter c z k)).
Lemma cabs_Cmod z : cabs z = Cmod z. Proof. reflexivity. Qed.
Lemma zseq_quad c z k : quad_iter c z k = zseq c z k.
Proof. induction k as [|k IH]; [reflexivity|]. cbn [zseq quad_iter]. rewrite IH. destruct (zseq c z k) as [x y], c as [a b]. unfold cadd, csqr, Cplus, Cmult. cbn. f_equal; ring. Qed.
Lemma start_pixel i j w h xr yr : pixel i j w h (fst xr) (snd xr) (fst yr) (snd yr) = start_z i j w h xr yr.
Proof. unfold pixel, start_z. f_equal; ring. Qed.
Lemma escape_unique c zm z n k k' : escape c zm z n k -> escape c zm z n k' -> k = k'.
Proof.
  intros [A1 [A2 A3]] [B1 [B2 B3]]. destruct (lt_eq_lt_dec k k') as [[L|E]|L]; [|exact E|].
  - specialize (B2 k L). destruct A3; [lia|lra].
  - specialize (A2 k' L). destruct B3; [lia|lra].
Qed.
Lemma julia_value c zm i j w h xr yr n : (0 < n)%nat -> exists k, escape c zm (pixel i j w h (fst xr) (snd xr) (fst yr) (snd yr)) n k /\ julia c zm i j w h xr yr n = Ok (pow02 (INR k / INR n)).
Proof.
  intros Hn. destruct (orbit_spec c zm n (start_z i j w h xr yr) 0) as [k [E [H1 [H2 H3]]]]. exists k. split.
  { rewrite start_pixel. split; [exact H1|]. split; [intros i0 Hi; rewrite zseq_quad; exact (H2 i0 Hi)|rewrite zseq_quad; exact H3]. }
  unfold julia. destruct (Nat.eqb_spec n 0); [lia|]. rewrite E. reflexivity.
Qed.
Lemma pow02_range x : 0 <= x <= 1 -> 0 <= pow02 x <= 1.
Proof.
  intros H. unfold pow02. destruct (Req_EM_T x 0); [lra|]. unfold Rpower. split; [apply Rlt_le, exp_pos|]. rewrite <- exp_0. 
  assert (L : ln x <= 0) by (rewrite <- ln_1; destruct (Req_EM_T x 1) as [-> |]; [lra|apply Rlt_le, ln_increasing; lra]).
  destruct (Rle_lt_or_eq_dec (2 / 10 * ln x) 0) as [K|K]; [lra|apply Rlt_le, exp_increasing, K|rewrite K; lra].
Qed.
Lemma frac_range k n : (0 < n)%nat -> (k <= n)%nat -> 0 <= INR k / INR n <= 1.
Proof.
  intros Hn Hk. assert (P : 0 < INR n) by (apply lt_0_INR; exact Hn). apply le_INR in Hk. assert (Q := pos_INR k). split.
  - apply Rmult_le_pos; [exact Q|apply Rlt_le, Rinv_0_lt_compat, P].
  - apply Rmult_le_reg_r with (INR n); [exact P|]. unfold Rdiv. rewrite Rmult_assoc, Rinv_l by lra. lra.
Qed.
Lemma julia_range c zm i j w h xr yr n v : julia c zm i j w h xr yr n = Ok v -> 0 <= v <= 1.
Proof.
  destruct n as [|n]; [discriminate|]. destruct (julia_value c zm i j w h xr yr (S n)) as [k [[K _] E]]; [lia|]. rewrite E. intros H. apply Ok_inj in H. subst v. apply pow02_range, frac_range; [lia|exact K].
Qed.
Lemma pow02_1 : pow02 1 = 1.
Proof. unfold pow02. destruct (Req_EM_T 1 0); [lra|]. unfold Rpower. rewrite ln_1, Rmult_0_r. apply exp_0. Qed.
Lemma pow02_lt x y : 0 <= x < y -> pow02 x < pow02 y.
Proof.
  intros H. unfold pow02. destruct (Req_EM_T y 0); [lra|]. destruct (Req_EM_T x 0); [apply exp_pos|]. apply exp_increasing. apply Rmult_lt_compat_l; [lra|]. apply ln_increasing; lra.
Qed.
(** a pixel is 1 exactly when its orbit stays inside the disc for iter_max iterations *)
Lemma julia_one c zm i j w h xr yr n v : julia c zm i j w h xr yr n = Ok v -> (v = 1 <-> forall k, (k < n)%nat -> Cmod (quad_iter c (pixel i j w h (fst xr) (snd xr) (fst yr) (snd yr)) k) < zm).
Proof.
  destruct n as [|n]; [discriminate|]. destruct (julia_value c zm i j w h xr yr (S n)) as [k [[K1 [K2 K3]] E]]; [lia|]. rewrite E. intros H. apply Ok_inj in H. subst v.
  assert (P : 0 < INR (S n)) by (apply lt_0_INR; lia). split.
  - intros V. destruct (Nat.eq_dec k (S n)) as [-> |N]; [exact K2|]. exfalso. assert (L : INR k / INR (S n) < 1) by (apply Rmult_lt_reg_r with (INR (S n)); [exact P|]; unfold Rdiv; rewrite Rmult_assoc, Rinv_l by lra; assert (INR k < INR (S n)) by (apply lt_INR; lia); lra).
    assert (B := frac_range k (S n) ltac:(lia) K1). assert (Z := pow02_lt _ 1 (conj (proj1 B) L)). rewrite pow02_1 in Z. lra.
  - intros A. destruct K3 as [-> |K3]; [replace (INR (S n) / INR (S n)) with 1 by (field; lra); apply pow02_1|]. destruct (Nat.eq_dec k (S n)) as [-> |N]; [replace (INR (S n) / INR (S n)) with 1 by (field; lra); apply pow02_1|].
    exfalso. specialize (A k ltac:(lia)). lra.
Qed.
(** leaving a disc of radius at least 2 means escaping to infinity *)
Lemma step_grows c z : cabs c = 8 / 10 -> 2 <= cabs z -> 16 / 10 * cabs z <= cabs (cadd (csqr z) c).
Proof.
  intros Hc Hz. rewrite !cabs_Cmod in *. assert (E : csqr z = Cmult z z) by (destruct z as [x y]; unfold csqr, Cmult; cbn; f_equal; ring).
  assert (T := Cmod_triangle (Cplus (Cmult z z) c) (Copp c)). rewrite Cmod_opp in T. replace (Cplus (Cplus (Cmult z z) c) (Copp c)) with (Cmult z z) in T by (destruct z, c; unfold Cplus, Cmult, Copp; cbn; f_equal; ring).
  rewrite Cmod_mult in T. change (cadd (csqr z) c) with (Cplus (csqr z) c). rewrite E. rewrite Hc in T. set (w := Cmod (Cplus (Cmult z z) c)) in *. change (cabs (Cplus (Cmult z z) c)) with w. set (m := Cmod z) in *. clearbody w m. assert (2 * m <= m * m) by nra. lra.
Qed.
Lemma escape_grows c z k : cabs c = 8 / 10 -> 2 <= cabs (zseq c z k) -> forall m, 2 * (16 / 10) ^ m <= cabs (zseq c z (k + m)).
Proof.
  intros Hc Hk. induction m as [|m IH]; [rewrite Nat.add_0_r; simpl; lra|]. replace (k + S m)%nat with (S (k + m)) by lia. cbn [zseq pow].
  assert (1 <= (16 / 10) ^ m) by (apply pow_R1_Rle; lra). assert (G := step_grows c (zseq c z (k + m)) Hc ltac:(lra)). lra.
Qed.
Lemma angle_modulus t : cabs (8 / 10 * cos t, 8 / 10 * sin t) = 8 / 10.
Proof.
  unfold cabs. cbn [fst snd]. assert (Q := sin2_cos2 t). unfold Rsqr in Q. replace ((8 / 10 * cos t) ^ 2 + (8 / 10 * sin t) ^ 2) with (8 / 10 * (8 / 10)) by (simpl; nra). apply sqrt_square. lra.
Qed.
Lemma julia_escapes t zm i j w h xr yr n v : let c := (8 / 10 * cos t, 8 / 10 * sin t) in 2 <= zm -> julia c zm i j w h xr yr n = Ok v -> v < 1 ->
  exists k, (k < n)%nat /\ forall m, 2 * (16 / 10) ^ m <= Cmod (quad_iter c (pixel i j w h (fst xr) (snd xr) (fst yr) (snd yr)) (k + m)).
Proof.
  intros c Hz H Hv. assert (N : ~ forall k, (k < n)%nat -> Cmod (quad_iter c (pixel i j w h (fst xr) (snd xr) (fst yr) (snd yr)) k) < zm) by (rewrite <- (julia_one _ _ _ _ _ _ _ _ _ _ H); lra).
  destruct n as [|n]; [discriminate|]. destruct (julia_value c zm i j w h xr yr (S n)) as [k [[K1 [K2 K3]] E]]; [lia|]. destruct (Nat.eq_dec k (S n)) as [-> |Nk]; [contradiction|].
  destruct K3 as [K3|K3]; [contradiction|]. exists k. split; [lia|]. intros m. rewrite zseq_quad. rewrite zseq_quad in K3. apply escape_grows; [apply angle_modulus|rewrite cabs_Cmod; lra].
Qed.
(** the array *)
Lemma upd_length {X} (l : list X) : forall i v, List.length (upd l i v) = List.length l.
Proof. induction l as [|x l IH]; intros [|i] v; cbn; try reflexivity. f_equal. apply IH. Qed.
Lemma upd_nth {X} (l : list X) : forall i v k, (i < List.length l)%nat -> nth_error (upd l i v) k = if Nat.eqb k i then Some v else nth_error l k.
Proof.
  induction l as [|x l IH]; intros [|i] v [|k] H; cbn in *; try lia; try reflexivity. apply IH. lia.
Qed.
Definition shape (A : list (list R)) (w h : nat) : Prop := List.length A = w /\ forall i row, nth_error A i = Some row -> List.length row = h.
Definition px (A : list (list R)) (i j : nat) : option R := match nth_error A i with Some row => nth_error row j | None => None end.
Lemma upd2_spec A w h i j v : shape A w h -> (i < w)%nat -> (j < h)%nat -> shape (upd2 A i j v) w h /\ forall k l, px (upd2 A i j v) k l = if (Nat.eqb k i && Nat.eqb l j)%bool then Some v else px A k l.
Proof.
  intros [S1 S2] Hi Hj. destruct (nth_error A i) as [row|] eqn:E; [|exfalso; apply nth_error_None in E; lia]. assert (Er := S2 i row E).
  assert (En : nth i A [] = row) by (apply nth_error_nth; exact E). unfold upd2. rewrite En. split.
  - split; [rewrite upd_length; exact S1|]. intros k r Hr. rewrite upd_nth in Hr by lia. destruct (Nat.eqb_spec k i); [injection Hr as <-; rewrite upd_length; exact Er|eapply S2; exact Hr].
  - intros k l. unfold px. rewrite upd_nth by lia. destruct (Nat.eqb_spec k i) as [-> |N]; [|reflexivity]. rewrite upd_nth by lia. destruct (Nat.eqb_spec l j); [reflexivity|]. cbn [andb]. rewrite E. reflexivity.
Qed.
Section Fill.
Variables (w h : nat) (f : nat -> nat -> R).
Let inner (i : nat) (A : Res (list (list R))) (js : list nat) := fold_left (fun A j => let* A := A in let* v := Ok (f i j) in Ok (upd2 A i j v)) js A.
Lemma inner_spec i : (i < w)%nat -> forall js A, (forall j, In j js -> (j < h)%nat) -> shape A w h -> exists A', inner i (Ok A) js = Ok A' /\ shape A' w h /\
  forall k l, px A' k l = if (Nat.eqb k i && existsb (Nat.eqb l) js)%bool then Some (f i l) else px A k l.
Proof.
  intros Hi. induction js as [|j js IH]; intros A Hj S.
  - exists A. split; [reflexivity|]. split; [exact S|]. intros k l. cbn. rewrite andb_false_r. reflexivity.
  - unfold inner. cbn [fold_left bindR]. destruct (upd2_spec A w h i j (f i j) S Hi (Hj j (or_introl eq_refl))) as [S1 P1].
    destruct (IH (upd2 A i j (f i j)) (fun x Hx => Hj x (or_intror Hx)) S1) as [A' [E [S2 P2]]]. exists A'. split; [exact E|]. split; [exact S2|]. intros k l. rewrite P2, P1. cbn [existsb].
    destruct (Nat.eqb_spec k i) as [-> |N]; cbn [andb]; [|reflexivity]. destruct (existsb (Nat.eqb l) js); [rewrite orb_true_r; reflexivity|]. rewrite orb_false_r.
    destruct (Nat.eqb_spec l j) as [-> |]; reflexivity.
Qed.
Lemma outer_spec : forall is A, (forall i, In i is -> (i < w)%nat) -> shape A w h -> exists A', fold_left (fun A i => inner i A (seq 0 h)) is (Ok A) = Ok A' /\ shape A' w h /\
  forall k l, px A' k l = if (existsb (Nat.eqb k) is && Nat.ltb l h)%bool then Some (f k l) else px A k l.
Proof.
  induction is as [|i is IH]; intros A Hi S.
  - exists A. split; [reflexivity|]. split; [exact S|]. reflexivity.
  - cbn [fold_left]. destruct (inner_spec i (Hi i (or_introl eq_refl)) (seq 0 h) A (fun j Hj => proj2 (proj1 (in_seq h 0 j) Hj)) S) as [A1 [E1 [S1 P1]]]. rewrite E1.
    destruct (IH A1 (fun x Hx => Hi x (or_intror Hx)) S1) as [A2 [E2 [S2 P2]]]. exists A2. split; [exact E2|]. split; [exact S2|]. intros k l. rewrite P2, P1. cbn [existsb].
    assert (X : existsb (Nat.eqb l) (seq 0 h) = Nat.ltb l h).
    { apply eq_true_iff_eq. rewrite existsb_exists, Nat.ltb_lt. split; [intros [x [Hx Ex]]; apply in_seq in Hx; apply Nat.eqb_eq in Ex; lia|intros L; exists l; split; [apply in_seq; lia|apply Nat.eqb_refl]]. }
    rewrite X. destruct (Nat.eqb_spec k i) as [-> |N]; cbn [orb andb]; [|reflexivity]. destruct (existsb (Nat.eqb i) is), (Nat.ltb l h); reflexivity.
Qed.
End Fill.
Lemma zeros_shape w h : shape (repeat (repeat 0 h) w) w h.
Proof. split; [apply repeat_length|]. intros i row Hr. apply nth_error_In, repeat_spec in Hr. subst. apply repeat_length. Qed.
Lemma fold_left_ext {X Y} (g1 g2 : X -> Y -> X) l : (forall a b, g1 a b = g2 a b) -> forall a, fold_left g1 l a = fold_left g2 l a.
Proof. intros H. induction l as [|b l IH]; intros a; [reflexivity|]. cbn. rewrite H. apply IH. Qed.
Lemma fractal_spec w h t zm n xr yr : (0 < n)%nat -> exists A, fractal_img w h t zm n xr yr = Ok A /\ List.length A = w /\ (forall i row, nth_error A i = Some row -> List.length row = h) /\
  forall i j, (i < w)%nat -> (j < h)%nat -> exists row v, nth_error A i = Some row /\ nth_error row j = Some v /\ julia (8 / 10 * cos t, 8 / 10 * sin t) zm i j w h xr yr n = Ok v.
Proof.
  intros Hn. set (c := (8 / 10 * cos t, 8 / 10 * sin t)). set (f := fun i j => pow02 (INR (orbit c zm (start_z i j w h xr yr) 0 n) / INR n)).
  assert (J : forall i j, julia c zm i j w h xr yr n = Ok (f i j)) by (intros; unfold julia; destruct (Nat.eqb_spec n 0); [lia|reflexivity]).
  destruct (outer_spec w h f (seq 0 w) _ (fun i Hi => proj2 (proj1 (in_seq w 0 i) Hi)) (zeros_shape w h)) as [A [E [S P]]]. exists A. split.
  - unfold fractal_img. fold c. rewrite <- E. apply fold_left_ext. intros A0 i. apply fold_left_ext. intros A1 j. rewrite J. reflexivity.
  - split; [apply S|]. split; [apply S|]. intros i j Hi Hj. specialize (P i j). assert (X : (existsb (Nat.eqb i) (seq 0 w) && Nat.ltb j h)%bool = true).
    { apply andb_true_iff. split; [apply existsb_exists; exists i; split; [apply in_seq; lia|apply Nat.eqb_refl]|apply Nat.ltb_lt; exact Hj]. }
    rewrite X in P. unfold px in P. destruct (nth_error A i) as [row|]; [|discriminate]. exists row, (f i j). split; [reflexivity|]. split; [exact P|apply J].
Qed.
Lemma fractal_zero w h t zm xr yr : (0 < w)%nat -> (0 < h)%nat -> fractal_img w h t zm 0 xr yr = Err ZeroDivisionError.
Proof.
  intros Hw Hh. unfold fractal_img. set (c := (8 / 10 * cos t, 8 / 10 * sin t)).
  assert (J : forall i j, julia c zm i j w h xr yr 0 = Err ZeroDivisionError) by reflexivity.
  assert (E1 : forall i js, fold_left (fun A j => let* A1 := A in let* v := julia c zm i j w h xr yr 0 in Ok (upd2 A1 i j v)) js (Err ZeroDivisionError) = Err ZeroDivisionError) by (intros i; induction js as [|j js IH]; [reflexivity|exact IH]).
  assert (E2 : forall is, fold_left (fun A i => fold_left (fun A0 j => let* A1 := A0 in let* v := julia c zm i j w h xr yr 0 in Ok (upd2 A1 i j v)) (seq 0 h) A) is (Err ZeroDivisionError) = Err ZeroDivisionError)
    by (induction is as [|i is IH]; [reflexivity|]; cbn [fold_left]; rewrite E1; exact IH).
  generalize (repeat (repeat 0 h) w). intros A0. revert E1 E2 J. generalize (fun i j => julia c zm i j w h xr yr 0). intros jl E1 E2 J.
  destruct w as [|w']; [lia|]. cbn [seq fold_left]. destruct h as [|h']; [lia|]. cbn [seq fold_left bindR] in *. rewrite J. cbn [bindR]. rewrite E1. exact (E2 _).
Qed.
Lemma slider_spec n i step : nth_error (slider_steps n) i = Some step -> List.length step = n /\ forall k, (k < n)%nat -> nth_error step k = Some (Nat.eqb k i).
Proof.
  unfold slider_steps. rewrite nth_error_map. destruct (lt_dec i n) as [L|L].
  - rewrite (nth_error_nth' _ 0%nat) by (rewrite seq_length; exact L). rewrite seq_nth by exact L. cbn. intros H. injection H as <-. split; [rewrite upd_length; apply repeat_length|].
    intros k Hk. rewrite upd_nth by (rewrite repeat_length; exact L). destruct (Nat.eqb k i); [reflexivity|]. rewrite (nth_error_nth' _ false) by (rewrite repeat_length; exact Hk). rewrite nth_repeat. reflexivity.
  - rewrite (proj2 (nth_error_None _ _)) by (rewrite seq_length; lia). discriminate.
Qed.
