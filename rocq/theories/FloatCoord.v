(** Rounding errors of the coordinate conversions: where the exact conversion is regular, the floating-point conversion succeeds for
    every small enough unit roundoff u, and differs from the exact one by at most a constant times u (phi possibly by a full turn). *)
From Coq Require Import Reals List ZArith Lra Lia Bool.
From Coquelicot Require Import Coquelicot.
From Verif Require Import Base Calc DualModel DualProofs GeoUtilsModel GeoUtilsProofs CoordModel CoordProofs CoordProofs2 CoordProofs3 CoordProofs4 CoordProofs5 CoordProofs6
  FloatModel FloatTrack.
From Verif Require Import FloatCoordModel.
Import ListNotations.
Open Scope R_scope.

Lemma loclip_atan l : loclip atan l.
Proof.
  apply (loclip_derive atan (fun x => 1 / (1 + x * x))).
  - apply filter_forall. intros x. apply (D_atan (fun s => s) x 1), D_id.
  - eapply (D_continuous (fun x => 1 / (1 + x * x))). apply (D_div (fun _ => 1) (fun x => 1 + x * x) l); [nra|apply D_const|apply D_plus; [apply D_const|apply D_mult; apply D_id]].
Qed.
Lemma loclip_acos l : -1 < l < 1 -> loclip acos l.
Proof.
  intros H. apply (loclip_derive acos (fun x => - 1 / sqrt (1 - x * x))).
  - apply (locally_R l _ (Rmin (1 - l) (l + 1))); [apply Rmin_pos; lra|]. intros x Hx. assert (Q : -1 < x < 1) by (apply Rabs_def2 in Hx; destruct Hx; generalize (Rmin_l (1 - l) (l + 1)) (Rmin_r (1 - l) (l + 1)); lra).
    apply (D_acos (fun s => s) x 1 Q), D_id.
  - assert (P : 0 < 1 - l * l) by nra. assert (Q := sqrt_lt_R0 _ P).
    eapply (D_continuous (fun x => - 1 / sqrt (1 - x * x))). apply (D_div (fun _ => - 1) (fun x => sqrt (1 - x * x)) l); [lra|apply D_const|]. apply (D_sqrt (fun x => 1 - x * x) l); [exact P|].
    apply D_minus; [apply D_const|apply D_mult; apply D_id].
Qed.
Lemma hypot_lip a b c d : Rabs (hypot a b - hypot c d) <= Rabs (a - c) + Rabs (b - d).
Proof.
  assert (Tri : forall a b c d, hypot a b <= hypot c d + (Rabs (a - c) + Rabs (b - d))).
  { clear. intros a b c d. assert (P := hypot_nonneg c d). assert (Q := hypot_sq c d). assert (P1 := Rabs_pos (a - c)). assert (P2 := Rabs_pos (b - d)).
    assert (Hc : Rabs c <= hypot c d) by (unfold hypot; rewrite <- (sqrt_Rsqr_abs c); unfold Rsqr; apply sqrt_le_1_alt; nra).
    assert (Hd : Rabs d <= hypot c d) by (unfold hypot; rewrite <- (sqrt_Rsqr_abs d); unfold Rsqr; apply sqrt_le_1_alt; nra).
    set (h := hypot c d) in *. set (m := Rabs (a - c)) in *. set (n := Rabs (b - d)) in *.
    assert (E : hypot a b <= sqrt (Rsqr (h + (m + n)))).
    { unfold hypot at 1. apply sqrt_le_1_alt. unfold Rsqr.
      assert (A1 : a * a <= c * c + 2 * (h * m) + m * m).
      { replace (a * a) with (c * c + 2 * (c * (a - c)) + (a - c) * (a - c)) by ring. assert (X : c * (a - c) <= h * m) by (eapply Rle_trans; [apply Rle_abs|]; rewrite Rabs_mult; apply Rmult_le_compat; try apply Rabs_pos; [exact Hc|apply Rle_refl]).
        assert (Y : (a - c) * (a - c) = m * m) by (unfold m; rewrite <- Rabs_mult; symmetry; apply Rabs_right; apply Rle_ge, Rle_0_sqr). lra. }
      assert (A2 : b * b <= d * d + 2 * (h * n) + n * n).
      { replace (b * b) with (d * d + 2 * (d * (b - d)) + (b - d) * (b - d)) by ring. assert (X : d * (b - d) <= h * n) by (eapply Rle_trans; [apply Rle_abs|]; rewrite Rabs_mult; apply Rmult_le_compat; try apply Rabs_pos; [exact Hd|apply Rle_refl]).
        assert (Y : (b - d) * (b - d) = n * n) by (unfold n; rewrite <- Rabs_mult; symmetry; apply Rabs_right; apply Rle_ge, Rle_0_sqr). lra. }
      assert (Z : 0 <= m * n) by (apply Rmult_le_pos; assumption). replace ((h + (m + n)) * (h + (m + n))) with (h * h + 2 * (h * m) + 2 * (h * n) + m * m + n * n + 2 * (m * n)) by ring. lra. }
    rewrite sqrt_Rsqr in E by lra. exact E. }
  apply Rabs_le. assert (T1 := Tri a b c d). assert (T2 := Tri c d a b). rewrite (Rabs_minus_sym c a), (Rabs_minus_sym d b) in T2. lra.
Qed.

(** v is within e of the angle p, up to full turns *)
Definition near_angle (e v p : R) : Prop := exists k : Z, (-1 <= k <= 1)%Z /\ Rabs (v - (p + 2 * IZR k * PI)) <= e.

Section Track.
Context {J : Type} (F : (J -> Prop) -> Prop) {FF : Filter F} (u : J -> R) (B : J -> arith2).
Hypothesis Hu0 : F (fun j => 0 <= u j).
Hypothesis Hu : filterlim u F (locally 0).
Hypothesis HB : F (fun j => accurate2 (u j) (B j)).
Let A (j : J) := b_ar (B j).
Lemma HA : F (fun j => accurate (u j) (A j)).
Proof. revert HB. apply filter_imp. intros j H. apply H. Qed.
(** v tracks the number l; the computation r succeeds and tracks l *)
Definition tr (v : J -> R) (l : R) : Prop := nr F u v (fun _ => l) l.
Definition ok (r : J -> Res R) (l : R) : Prop := okT F r (fun v => tr v l).
Lemma o_add v l w m : tr v l -> tr w m -> ok (fun j => a_add (A j) (v j) (w j)) (l + m).
Proof. intros H1 H2. exact (okto_add F u A Hu0 Hu HA _ _ _ _ _ _ H1 H2). Qed.
Lemma o_sub v l w m : tr v l -> tr w m -> ok (fun j => a_sub (A j) (v j) (w j)) (l - m).
Proof. intros H1 H2. exact (okto_sub F u A Hu0 Hu HA _ _ _ _ _ _ H1 H2). Qed.
Lemma o_mul v l w m : tr v l -> tr w m -> ok (fun j => a_mul (A j) (v j) (w j)) (l * m).
Proof. intros H1 H2. exact (okto_mul F u A Hu0 Hu HA _ _ _ _ _ _ H1 H2). Qed.
Lemma o_div v l w m : tr v l -> tr w m -> m <> 0 -> ok (fun j => a_div (A j) (v j) (w j)) (l / m).
Proof. intros H1 H2 Hm. exact (okto_div F u A Hu0 Hu HA _ _ _ _ _ _ Hm H1 H2). Qed.
Lemma o_sq v l : tr v l -> ok (fun j => a_pow (A j) (v j) 2) (l ^ 2).
Proof. intros H. assert (P : (0 <= 2)%Z \/ l <> 0) by (left; lia). exact (okto_pow F u A Hu0 Hu HA v (fun _ => l) l 2 P H). Qed.
Lemma o_sin v l : tr v l -> ok (fun j => a_sin (A j) (v j)) (sin l).
Proof. intros H. exact (okto_sin F u A Hu0 Hu HA v (fun _ => l) l H). Qed.
Lemma o_cos v l : tr v l -> ok (fun j => a_cos (A j) (v j)) (cos l).
Proof. intros H. exact (okto_cos F u A Hu0 Hu HA v (fun _ => l) l H). Qed.
Lemma o_sqrt v l : tr v l -> 0 < l -> ok (fun j => a_sqrt (A j) (v j)) (sqrt l).
Proof. intros H Hl. exact (okto_sqrt F u A Hu0 Hu HA v (fun _ => l) l Hl H). Qed.
Lemma tr_const c : tr (fun _ => c) c.
Proof. apply nr_const. exact FF. Qed.
Lemma tr_hypot v l w m : tr v l -> tr w m -> tr (fun j => hypot (v j) (w j)) (hypot l m).
Proof.
  intros [_ (C1 & P1 & E1)] [_ (C2 & P2 & E2)]. split; [apply filterlim_const|]. exists (C1 + C2). split; [lra|]. generalize (filter_and _ _ E1 E2). apply filter_imp. intros j [X1 X2].
  eapply Rle_trans; [apply hypot_lip|]. lra.
Qed.
Lemma o_hypot v l w m : tr v l -> tr w m -> ok (fun j => b_hypot (B j) (v j) (w j)) (hypot l m).
Proof.
  intros H1 H2. assert (N := tr_hypot _ _ _ _ H1 H2). apply (nr_round F u Hu0 Hu _ _ _ _ N). generalize (filter_and _ _ HB (nr_ub F u Hu0 Hu _ _ _ N)). apply filter_imp. intros j [X1 X2].
  rewrite Rabs_right in X2 by (apply Rle_ge, hypot_nonneg). apply (acc_hypot _ _ X1). exact X2.
Qed.
Lemma o_acos v l : -1 < l < 1 -> tr v l -> ok (fun j => b_acos (B j) (v j)) (acos l).
Proof.
  intros Hl H. assert (N := nr_fun F u Hu0 Hu acos _ _ _ (loclip_acos l Hl) H). apply (nr_round F u Hu0 Hu _ _ _ _ N).
  assert (D := nr_close F u Hu0 Hu _ _ _ (Rmin (1 - l) (l + 1)) ltac:(apply Rmin_pos; lra) H). generalize (filter_and _ _ HB D). apply filter_imp. intros j [X1 [X2 _]]. apply (acc_acos _ _ X1).
  apply Rabs_def2 in X2. generalize (Rmin_l (1 - l) (l + 1)) (Rmin_r (1 - l) (l + 1)). lra.
Qed.
(** v tracks the angle p up to full turns *)
Definition tra (v : J -> R) (p : R) : Prop := exists C, 0 <= C /\ F (fun j => near_angle (C * u j) (v j) p).
Lemma tr_tra v p : tr v p -> tra v p.
Proof. intros [_ (C & HC & H)]. exists C. split; [exact HC|]. revert H. apply filter_imp. intros j Hj. exists 0%Z. split; [lia|]. replace (p + 2 * 0 * PI) with p by ring. exact Hj. Qed.
Lemma tr_atan2 y p x q : 0 < q \/ p <> 0 -> tr y p -> tr x q -> tr (fun j => atan2 (y j) (x j)) (atan2 p q) /\ F (fun j => 0 < x j \/ y j <> 0).
Proof.
  intros H Hy Hx. destruct (Rlt_dec 0 q) as [Q|Q].
  - assert (P := nr_pos F u Hu0 Hu _ _ _ Q Hx). split; [|revert P; apply filter_imp; auto].
    assert (N := nr_fun F u Hu0 Hu atan _ _ _ (loclip_atan (p / q)) (nr_div F u Hu0 Hu _ _ _ _ _ _ (Rgt_not_eq _ _ Q) Hy Hx)). rewrite (atan2_pos_x p q Q).
    revert N. apply nr_ext; [exact FF| |apply filter_forall; reflexivity]. revert P. apply filter_imp. intros j Hj. symmetry. apply atan2_pos_x. exact Hj.
  - destruct H as [H|H]; [lra|]. assert (D := nr_ne0 F u Hu0 Hu _ _ _ H Hy). split; [|revert D; apply filter_imp; auto].
    destruct (Rlt_dec 0 p) as [Pp|Pp].
    + assert (P := nr_pos F u Hu0 Hu _ _ _ Pp Hy). assert (N := nr_fun F u Hu0 Hu atan _ _ _ (loclip_atan (q / p)) (nr_div F u Hu0 Hu _ _ _ _ _ _ H Hx Hy)).
      assert (N2 := nr_minus F u Hu0 Hu _ _ _ _ _ _ (tr_const (PI / 2)) N). rewrite (atan2_pos_y p q Pp). revert N2. apply nr_ext; [exact FF| |apply filter_forall; reflexivity].
      revert P. apply filter_imp. intros j Hj. symmetry. apply atan2_pos_y. exact Hj.
    + assert (Pn : p < 0) by (destruct (Rtotal_order p 0) as [L|[L|L]]; lra).
      assert (P := nr_pos F u Hu0 Hu _ _ (- p) ltac:(lra) (nr_opp F u Hu0 Hu _ _ _ Hy)). assert (N := nr_fun F u Hu0 Hu atan _ _ _ (loclip_atan (q / p)) (nr_div F u Hu0 Hu _ _ _ _ _ _ H Hx Hy)).
      assert (N2 := nr_minus F u Hu0 Hu _ _ _ _ _ _ (tr_const (- (PI / 2))) N). rewrite (atan2_neg_y p q Pn). revert N2. apply nr_ext; [exact FF| |apply filter_forall; reflexivity].
      revert P. apply filter_imp. intros j Hj. symmetry. apply atan2_neg_y. lra.
Qed.
Lemma o_atan2 y p x q : 0 < q \/ p <> 0 -> tr y p -> tr x q -> ok (fun j => b_atan2 (B j) (y j) (x j)) (atan2 p q).
Proof.
  intros H Hy Hx. destruct (tr_atan2 y p x q H Hy Hx) as [N D]. apply (nr_round F u Hu0 Hu _ _ _ _ N). generalize (filter_and _ _ HB D). apply filter_imp. intros j [X1 X2]. apply (acc_atan2 _ _ X1). exact X2.
Qed.
Lemma o_atan2_any y p x q : q <> 0 \/ p <> 0 -> tr y p -> tr x q ->
  okT F (fun j => b_atan2 (B j) (y j) (x j)) (fun v => tra v (atan2 p q) /\ (0 < q \/ p <> 0 -> tr v (atan2 p q))).
Proof.
  intros H Hy Hx. assert (Dq : 0 < q \/ p <> 0 \/ (q < 0 /\ p = 0)).
  { destruct (Rlt_dec 0 q); [left; assumption|]. destruct (Req_EM_T p 0) as [E|E]; [|right; left; exact E]. right; right. split; [destruct H as [H|H]; [|contradiction]; destruct (Rtotal_order q 0) as [L|[L|L]]; [exact L|contradiction|lra]|exact E]. }
  destruct Dq as [Dq|[Dq|[Q E]]].
  { generalize (o_atan2 y p x q (or_introl Dq) Hy Hx). apply okT_imp. intros v Hv. split; [apply tr_tra|intros _]; exact Hv. }
  { generalize (o_atan2 y p x q (or_intror Dq) Hy Hx). apply okT_imp. intros v Hv. split; [apply tr_tra|intros _]; exact Hv. }
  subst p. assert (E : atan2 0 q = PI). { unfold atan2. destruct (Rlt_dec 0 q); [lra|]. destruct (Rlt_dec q 0); [|lra]. destruct (Rle_dec 0 0); [|lra]. unfold Rdiv. rewrite Rmult_0_l, atan_0. ring. }
  assert (N := nr_fun F u Hu0 Hu atan _ _ _ (loclip_atan (0 / q)) (nr_div F u Hu0 Hu _ _ _ _ _ _ (Rlt_not_eq _ _ Q) Hy Hx)).
  destruct N as [_ (C & HC & N)]. assert (P := nr_pos F u Hu0 Hu _ _ (- q) ltac:(lra) (nr_opp F u Hu0 Hu _ _ _ Hx)). assert (PP := PI_RGT_0).
  assert (W : F (fun j => exists w, b_atan2 (B j) (y j) (x j) = Ok w /\ near_angle ((C + (1 + 4 * PI)) * u j) w PI)).
  { generalize (filter_and _ _ (filter_and _ _ HB Hu0) (filter_and _ _ N P)). apply filter_imp. intros j [[X1 X0] [X2 X3]].
    assert (Z0 : atan (0 / q) = 0) by (unfold Rdiv; rewrite Rmult_0_l; apply atan_0). rewrite Z0, Rminus_0_r in X2.
    destruct (Req_EM_T (y j) 0) as [Y|Y].
    - rewrite Y. assert (HX : x j < 0) by lra. assert (CU : 0 <= C * u j) by (apply Rmult_le_pos; assumption). destruct (acc_atan2_cut _ _ X1 (x j) HX) as [(w & -> & Hw)|(w & -> & Hw)]; exists w; (split; [reflexivity|]).
      + exists 0%Z. split; [lia|]. replace (w - (PI + 2 * 0 * PI)) with (w - PI) by ring. rewrite (Rabs_right PI) in Hw by lra. eapply Rle_trans; [exact Hw|]. rewrite (Rmult_plus_distr_r C). assert (0 <= u j * PI) by (apply Rmult_le_pos; lra). rewrite Rmult_plus_distr_r. lra.
      + exists (-1)%Z. split; [lia|]. replace (w - (PI + 2 * -1 * PI)) with (w - - PI) by ring. rewrite Rabs_Ropp, (Rabs_right PI) in Hw by lra. eapply Rle_trans; [exact Hw|]. rewrite (Rmult_plus_distr_r C). assert (0 <= u j * PI) by (apply Rmult_le_pos; lra). rewrite Rmult_plus_distr_r. lra.
    - destruct (acc_atan2 _ _ X1 (y j) (x j) (or_intror Y)) as (w & -> & Hw). exists w. split; [reflexivity|].
      assert (R1 := atan2_range (y j) (x j)). assert (R2 : Rabs (atan2 (y j) (x j)) <= PI) by (apply Rabs_le; lra).
      assert (Hw' : Rabs (w - atan2 (y j) (x j)) <= (1 + 4 * PI) * u j). { eapply Rle_trans; [exact Hw|]. rewrite Rmult_comm. apply Rmult_le_compat_r; lra. }
      assert (V : atan2 (y j) (x j) = PI + atan (y j / x j) \/ atan2 (y j) (x j) = - PI + atan (y j / x j)).
      { unfold atan2. destruct (Rlt_dec 0 (x j)); [lra|]. destruct (Rlt_dec (x j) 0); [|lra]. destruct (Rle_dec 0 (y j)); [left; ring|right; ring]. }
      rewrite Rmult_plus_distr_r.
      destruct V as [V|V]; [exists 0%Z|exists (-1)%Z]; (split; [lia|]).
      + replace (w - (PI + 2 * 0 * PI)) with (atan (y j / x j) + (w - atan2 (y j) (x j))) by (rewrite V; ring). eapply Rle_trans; [apply Rabs_triang|]. lra.
      + replace (w - (PI + 2 * -1 * PI)) with (atan (y j / x j) + (w - atan2 (y j) (x j))) by (rewrite V; ring). eapply Rle_trans; [apply Rabs_triang|]. lra. }
  exists (fun j => match b_atan2 (B j) (y j) (x j) with Ok w => w | Err _ => 0 end). split; [|split].
  - unfold evok. revert W. apply filter_imp. intros j (w & -> & _). reflexivity.
  - rewrite E. exists (C + (1 + 4 * PI)). split; [lra|]. revert W. apply filter_imp. intros j (w & -> & Hw). exact Hw.
  - intros [H0|H0]; [lra|]. contradiction H0; reflexivity.
Qed.

Ltac op := first [ eapply o_add | eapply o_sub | eapply o_mul | eapply o_sq | eapply o_sin | eapply o_cos | eapply o_hypot | eapply o_div | eapply o_sqrt ].
Ltac tk := cbv beta; lazymatch goal with |- tr _ _ => first [eassumption | apply tr_const] | _ => idtac end.
Ltac step := eapply (okT_bind F); [op; tk | cbv beta; let q := fresh "q" in let Hq := fresh "Hq" in intros q Hq].
Ltac fin := apply (okT_ok F); cbv beta; cbn [c0 c1 c2 c3 v1 v2 v3].

(** ---- to spherical ---- *)
Definition tr4 (v : J -> V4) (l : V4) : Prop := tr (fun j => c0 (v j)) (c0 l) /\ tr (fun j => c1 (v j)) (c1 l) /\ tr (fun j => c2 (v j)) (c2 l) /\ tr (fun j => c3 (v j)) (c3 l).
Definition tr3 (v : J -> V3) (l : V3) : Prop := tr (fun j => v1 (v j)) (v1 l) /\ tr (fun j => v2 (v j)) (v2 l) /\ tr (fun j => v3 (v j)) (v3 l).
(** as tr4, with the last component an angle *)
Definition tr4a (v : J -> V4) (l : V4) : Prop := tr (fun j => c0 (v j)) (c0 l) /\ tr (fun j => c1 (v j)) (c1 l) /\ tr (fun j => c2 (v j)) (c2 l) /\ tra (fun j => c3 (v j)) (c3 l).
Section Conv.
Variables (t x y z al vx vy vz : J -> R) (t' x' y' z' al' vx' vy' vz' : R).
Hypotheses (Ht : tr t t') (Hx : tr x x') (Hy : tr y y') (Hz : tr z z') (Hal : tr al al') (Hvx : tr vx vx') (Hvy : tr vy vy') (Hvz : tr vz vz').
Lemma t_cart_sph : x' <> 0 \/ y' <> 0 -> okT F (fun j => cart_to_sphB (B j) (t j) (x j) (y j) (z j))
  (fun v => tr4a v (cart_to_sph t' x' y' z') /\ (0 < x' \/ y' <> 0 -> tr4 v (cart_to_sph t' x' y' z'))).
Proof.
  intros H. assert (P := hypot_pos x' y' H). unfold cart_to_sphB, cart_to_sph. cbv zeta.
  eapply (okT_bind F); [eapply o_hypot; eassumption|]. cbv beta. intros h Hh.
  eapply (okT_bind F); [eapply o_hypot; eassumption|]. cbv beta. intros r Hr.
  eapply (okT_bind F); [eapply o_atan2; [right; apply Rgt_not_eq; exact P|eassumption|eassumption]|]. cbv beta. intros th Hth.
  eapply (okT_bind F); [apply (o_atan2_any y y' x x' H Hy Hx)|]. cbv beta. intros p [Hp1 Hp2].
  apply (okT_ok F). unfold tr4, tr4a. cbn [c0 c1 c2 c3]. split; [|intros Q; specialize (Hp2 Q)]; repeat (split; [assumption|]); assumption.
Qed.
Lemma t_dot2 a b c d a' b' c' d' : tr a a' -> tr b b' -> tr c c' -> tr d d' -> ok (fun j => dot2B (B j) (a j) (b j) (c j) (d j)) (a' * c' + b' * d').
Proof. intros. unfold dot2B. step. step. op; tk. Qed.
Lemma t_cart_sph_vel : x' <> 0 \/ y' <> 0 -> exists v', cart_to_sph_vel x' y' z' vx' vy' vz' = Ok v' /\ okT F (fun j => cart_to_sph_velB (B j) (x j) (y j) (z j) (vx j) (vy j) (vz j)) (fun v => tr3 v v').
Proof.
  intros H. assert (P := off_axis x' y' H). assert (P1 : 0 < x' ^ 2 + y' ^ 2) by nra. assert (P2 : 0 < x' ^ 2 + y' ^ 2 + z' ^ 2) by nra.
  assert (Q1 := sqrt_lt_R0 _ P1). assert (Q2 := sqrt_lt_R0 _ P2). assert (Q3 : 0 < (x' ^ 2 + y' ^ 2 + z' ^ 2) * sqrt (x' ^ 2 + y' ^ 2)) by (apply Rmult_lt_0_compat; assumption).
  eexists. split.
  { unfold cart_to_sph_vel. cbv zeta. rewrite np_div_ok by (apply Rgt_not_eq; exact Q2). cbn [bindR]. rewrite np_div_ok by (apply Rgt_not_eq; exact Q3). cbn [bindR]. rewrite np_div_ok by (apply Rgt_not_eq; exact P1). cbn [bindR]. reflexivity. }
  unfold cart_to_sph_velB. do 5 step.
  eapply (okT_bind F); [eapply t_dot2; [exact Hx|exact Hy|exact Hvx|exact Hvy]|cbv beta; intros d Hd]. do 2 step. step; [exact P2|]. step; [apply Rgt_not_eq; exact Q2|].
  eapply (okT_bind F); [eapply t_dot2; [exact Hx|exact Hy|exact Hvx|exact Hvy]|cbv beta; intros d2 Hd2]. do 3 step. step; [exact P1|]. step. step; [apply Rgt_not_eq; exact Q3|]. do 4 step. step; [apply Rgt_not_eq; exact P1|].
  fin. unfold tr3. cbn [v1 v2 v3]. repeat (split; [assumption|]). assumption.
Qed.
(** ---- to Boyer-Lindquist ---- *)
Lemma t_w : ok (fun j => bl_wB (B j) (x j) (y j) (z j) (al j)) (bl_w x' y' z' al').
Proof. unfold bl_wB, bl_w. do 6 step. op; tk. Qed.
Lemma t_S w w' : tr w w' -> 0 < w' ^ 2 + 4 * al' ^ 2 * z' ^ 2 -> ok (fun j => bl_SB (B j) (w j) (z j) (al j)) (sqrt (w' ^ 2 + 4 * al' ^ 2 * z' ^ 2)).
Proof. intros Hw P. unfold bl_SB. do 6 step. op; tk. exact P. Qed.
Lemma bl_S_arg : 0 < bl_r x' y' z' al' -> 0 < bl_w x' y' z' al' ^ 2 + 4 * al' ^ 2 * z' ^ 2.
Proof. intros H. assert (P := bl_S_pos _ _ _ _ H). rewrite <- bl_S_sq. nra. Qed.
Lemma t_r w : tr w (bl_w x' y' z' al') -> 0 < bl_r x' y' z' al' -> ok (fun j => bl_rB (B j) (w j) (z j) (al j)) (bl_r x' y' z' al').
Proof.
  intros Hw H. unfold bl_rB, bl_r. eapply (okT_bind F); [apply (t_S w _ Hw), bl_S_arg, H|]. cbv beta; intros s Hs. do 2 step. op; tk.
  assert (Q := bl_r_sq x' y' z' al'). unfold bl_S in Q. rewrite <- Q. nra.
Qed.
Lemma t_cart_bl : x' <> 0 \/ y' <> 0 -> 0 < bl_r x' y' z' al' -> exists s', cart_to_bl t' x' y' z' al' = Ok s' /\ okT F (fun j => cart_to_blB (B j) (t j) (x j) (y j) (z j) (al j))
  (fun v => tr4a v s' /\ (0 < x' \/ y' <> 0 -> tr4 v s')).
Proof.
  intros H Hr. eexists. split; [apply cart_to_bl_ok; exact Hr|]. unfold cart_to_blB. assert (Bz := sq_lt_bounds _ _ Hr (bl_z_lt_r x' y' z' al' Hr H)).
  eapply (okT_bind F); [apply t_w|]. cbv beta; intros w Hw. eapply (okT_bind F); [apply (t_r w Hw Hr)|]. cbv beta; intros r Hrr.
  step; [apply Rgt_not_eq; exact Hr|]. eapply (okT_bind F); [eapply o_acos; [exact Bz|eassumption]|]. cbv beta; intros th Hth.
  eapply (okT_bind F); [apply (o_atan2_any y y' x x' H Hy Hx)|]. cbv beta. intros p [Hp1 Hp2].
  apply (okT_ok F). unfold tr4, tr4a. cbn [c0 c1 c2 c3]. split; [|intros Q; specialize (Hp2 Q)]; repeat (split; [assumption|]); assumption.
Qed.
Lemma t_cart_bl_vel : x' <> 0 -> 0 < bl_r x' y' z' al' -> exists v', cart_to_bl_vel x' y' z' al' vx' vy' vz' = Ok v' /\
  okT F (fun j => cart_to_bl_velB (B j) (x j) (y j) (z j) (al j) (vx j) (vy j) (vz j)) (fun v => tr3 v v').
Proof.
  intros H Hr. assert (Bz := sq_lt_bounds _ _ Hr (bl_z_lt_r x' y' z' al' Hr (or_introl H))). assert (PS := bl_S_arg Hr). assert (QS := sqrt_lt_R0 _ PS).
  assert (P0 : 0 < 1 - z' / bl_r x' y' z' al' * (z' / bl_r x' y' z' al')) by nra. assert (Q0 := sqrt_lt_R0 _ P0).
  assert (N1 : 2 * bl_r x' y' z' al' <> 0) by lra. assert (N2 : 2 * sqrt (bl_w x' y' z' al' ^ 2 + 4 * al' ^ 2 * z' ^ 2) <> 0) by lra.
  assert (N3 : bl_r x' y' z' al' <> 0) by lra. assert (N4 : bl_r x' y' z' al' ^ 2 <> 0) by (apply pow_nonzero; exact N3). assert (N5 : x' ^ 2 <> 0) by (apply pow_nonzero; exact H).
  assert (N6 : 1 + y' / x' * (y' / x') <> 0) by (assert (0 <= y' / x' * (y' / x')) by (generalize (Rle_0_sqr (y' / x')); unfold Rsqr; auto); lra).
  eexists. split.
  { unfold cart_to_bl_vel. cbv zeta. rewrite np_div_ok by exact N1. cbn [bindR]. rewrite np_div_ok by exact N2. cbn [bindR]. rewrite np_div_ok by exact N3. cbn [bindR].
    rewrite np_sqrt_ok by lra. cbn [bindR]. rewrite np_div_ok by lra. cbn [bindR]. rewrite np_div_ok by exact N4. cbn [bindR]. rewrite np_div_ok by exact H. cbn [bindR].
    rewrite np_div_ok by exact N6. cbn [bindR]. rewrite np_div_ok by exact N5. cbn [bindR]. reflexivity. }
  unfold cart_to_bl_velB. eapply (okT_bind F); [apply t_w|]. cbv beta; intros w Hw. eapply (okT_bind F); [apply (t_r w Hw Hr)|]. cbv beta; intros r Hrr.
  eapply (okT_bind F); [eapply t_dot2; [exact Hx|exact Hy|exact Hvx|exact Hvy]|cbv beta; intros d Hd]. do 4 step. step; [exact N1|]. step; [lra|]. do 6 step.
  eapply (okT_bind F); [apply (t_S w _ Hw PS)|]. cbv beta; intros s Hs. step. step; [exact N2|]. do 2 step. step; [exact N3|]. do 2 step. step; [exact P0|]. step; [lra|]. do 4 step. step; [exact N4|]. step.
  step; [exact H|]. do 2 step. step; [exact N6|]. do 4 step. step; [exact N5|]. step.
  fin. unfold tr3. cbn [v1 v2 v3]. repeat (split; [assumption|]). assumption.
Qed.
End Conv.
(** ---- to Cartesian ---- *)
Section Back.
Variables (t r th p al vr vth vp : J -> R) (t' r' th' p' al' vr' vth' vp' : R).
Hypotheses (Ht : tr t t') (Hr : tr r r') (Hth : tr th th') (Hp : tr p p') (Hal : tr al al') (Hvr : tr vr vr') (Hvth : tr vth vth') (Hvp : tr vp vp').
Lemma t_mul3 a b c a' b' c' : tr a a' -> tr b b' -> tr c c' -> ok (fun j => mul3B (B j) (a j) (b j) (c j)) (a' * b' * c').
Proof. intros. unfold mul3B. step. op; tk. Qed.
Lemma t_mul4 a b c d a' b' c' d' : tr a a' -> tr b b' -> tr c c' -> tr d d' -> ok (fun j => mul4B (B j) (a j) (b j) (c j) (d j)) (a' * b' * c' * d').
Proof. intros. unfold mul4B. eapply (okT_bind F); [apply (t_mul3 a b c a' b' c'); assumption|]. cbv beta. intros m Hm. op; tk. Qed.
Ltac m3 := eapply (okT_bind F); [eapply t_mul3; eassumption|cbv beta; let q := fresh "q" in let Hq := fresh "Hq" in intros q Hq].
Ltac m4 := eapply (okT_bind F); [eapply t_mul4; eassumption|cbv beta; let q := fresh "q" in let Hq := fresh "Hq" in intros q Hq].
Lemma t_sph_cart : okT F (fun j => sph_to_cartB (B j) (t j) (r j) (th j) (p j)) (fun v => tr4 v (sph_to_cart t' r' th' p')).
Proof. unfold sph_to_cartB, sph_to_cart. do 2 step. m3. step. m3. do 2 step. fin. unfold tr4. cbn [c0 c1 c2 c3]. repeat (split; [assumption|]). assumption. Qed.
Lemma t_sph_cart_vel : okT F (fun j => sph_to_cart_velB (B j) (r j) (th j) (p j) (vr j) (vth j) (vp j)) (fun v => tr3 v (sph_to_cart_vel r' th' p' vr' vth' vp')).
Proof.
  unfold sph_to_cart_velB, sph_to_cart_vel. do 4 step. m3. m4. step. m4. step. m3. m4. step. m4. step. step. m3. step. fin. unfold tr3. cbn [v1 v2 v3]. repeat (split; [assumption|]). assumption.
Qed.
Lemma t_xa : 0 < r' ^ 2 + al' ^ 2 -> ok (fun j => xaB (B j) (r j) (al j)) (sqrt (r' ^ 2 + al' ^ 2)).
Proof. intros H. unfold xaB. do 3 step. op; tk. exact H. Qed.
Lemma t_bl_cart : 0 < r' ^ 2 + al' ^ 2 -> okT F (fun j => bl_to_cartB (B j) (t j) (r j) (th j) (p j) (al j)) (fun v => tr4 v (bl_to_cart t' r' th' p' al')).
Proof.
  intros H. unfold bl_to_cartB, bl_to_cart. cbv zeta. eapply (okT_bind F); [apply t_xa; exact H|]. cbv beta. intros xa Hxa. do 8 step. fin. unfold tr4. cbn [c0 c1 c2 c3]. repeat (split; [assumption|]). assumption.
Qed.
Lemma t_bl_cart_vel : 0 < r' ^ 2 + al' ^ 2 -> exists v', bl_to_cart_vel r' th' p' al' vr' vth' vp' = Ok v' /\
  okT F (fun j => bl_to_cart_velB (B j) (r j) (th j) (p j) (al j) (vr j) (vth j) (vp j)) (fun v => tr3 v v').
Proof.
  intros H. assert (N : sqrt (r' ^ 2 + al' ^ 2) <> 0) by (apply Rgt_not_eq, sqrt_lt_R0; exact H). eexists. split.
  { unfold bl_to_cart_vel. cbv zeta. rewrite np_div_ok by exact N. cbn [bindR]. rewrite np_div_ok by exact N. cbn [bindR]. reflexivity. }
  unfold bl_to_cart_velB. eapply (okT_bind F); [apply t_xa; exact H|]. cbv beta. intros xa Hxa. do 4 step. m4. step; [exact N|]. m4. step. m4. step. m4. step; [exact N|]. m4. step. m4. step. step. m3. step.
  fin. unfold tr3. cbn [v1 v2 v3]. repeat (split; [assumption|]). assumption.
Qed.
End Back.
End Track.
