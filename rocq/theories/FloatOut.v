(** Floating-point evaluation near a moving target: uniform error bounds on bounded sets, for the conversions back to Cartesian coordinates. *)
From Coq Require Import String Reals List ZArith Lra Lia Bool.
From Coquelicot Require Import Coquelicot.
From Verif Require Import Base Calc DualModel GeoUtilsModel CoordModel CoordProofs CoordProofs2 ConvModel GeodesicModel FloatModel FloatTrack FloatGlobal FloatCoordModel FloatCoord FloatCoordMain.
Import ListNotations.
Open Scope R_scope.

Section Bounded.
Context {J : Type} (F : (J -> Prop) -> Prop) {FF : Filter F} (d : J -> R) (A : J -> arith).
Hypothesis Hd0 : F (fun j => 0 <= d j).
Hypothesis Hd : filterlim d F (locally 0).
Hypothesis HA : F (fun j => accurate (d j) (A j)).
(** v stays within C d of the target x, and the target stays bounded *)
Definition bt (v x : J -> R) : Prop := exists C M, F (fun j => Rabs (v j - x j) <= C * d j /\ Rabs (x j) <= M).
Definition bok (r : J -> Res R) (x : J -> R) : Prop := okT F r (fun v => bt v x).
Lemma d_small e : 0 < e -> F (fun j => d j <= e).
Proof.
  intros He. assert (L : locally 0 (fun x => x <= e)). { exists (mkposreal e He). intros y Hy. unfold ball in Hy. cbn in Hy. unfold AbsRing_ball, abs, minus, plus, opp in Hy. cbn in Hy. rewrite Ropp_0, Rplus_0_r in Hy. apply Rabs_def2 in Hy. lra. }
  exact (Hd _ L).
Qed.
Lemma bt_pos v x : bt v x -> exists C M, 0 <= C /\ 0 <= M /\ F (fun j => Rabs (v j - x j) <= C * d j /\ Rabs (x j) <= M /\ Rabs (v j) <= M + C /\ 0 <= d j <= 1).
Proof.
  intros (C & M & H). exists (Rabs C), (Rabs M). split; [apply Rabs_pos|]. split; [apply Rabs_pos|].
  generalize (filter_and _ _ H (filter_and _ _ Hd0 (d_small 1 Rlt_0_1))). apply filter_imp. intros j ((H1 & H2) & H3 & H4).
  assert (Q := Rle_abs C). assert (Q' := Rle_abs M). assert (H5 : C * d j <= Rabs C * d j) by nra. assert (H6 : Rabs C * d j <= Rabs C) by (generalize (Rabs_pos C); nra).
  split; [lra|]. split; [lra|]. split; [|lra]. assert (T := Rabs_triang (v j - x j) (x j)). replace (v j - x j + x j) with (v j) in T by ring. lra.
Qed.
Lemma bt_bound v x M : F (fun j => Rabs (v j - x j) <= d j) -> F (fun j => Rabs (x j) <= M) -> bt v x.
Proof. intros H1 H2. exists 1, M. generalize (filter_and _ _ H1 H2). apply filter_imp. intros j (Q1 & Q2). split; [lra|exact Q2]. Qed.
Lemma bt_const c : bt (fun _ => c) (fun _ => c).
Proof. exists 0, (Rabs c). apply filter_forall. intros j. rewrite Rminus_eq_0, Rabs_R0. lra. Qed.
Lemma bt_plus v x w y : bt v x -> bt w y -> bt (fun j => v j + w j) (fun j => x j + y j).
Proof.
  intros (C & M & H) (C' & M' & H'). exists (C + C'), (M + M'). generalize (filter_and _ _ H H'). apply filter_imp. intros j ((H1 & H2) & H3 & H4).
  split; [replace (v j + w j - (x j + y j)) with ((v j - x j) + (w j - y j)) by ring|]; (eapply Rle_trans; [apply Rabs_triang|lra]).
Qed.
Lemma bt_minus v x w y : bt v x -> bt w y -> bt (fun j => v j - w j) (fun j => x j - y j).
Proof.
  intros (C & M & H) (C' & M' & H'). exists (C + C'), (M + M'). generalize (filter_and _ _ H H'). apply filter_imp. intros j ((H1 & H2) & H3 & H4).
  split; [replace (v j - w j - (x j - y j)) with ((v j - x j) + - (w j - y j)) by ring|unfold Rminus]; (eapply Rle_trans; [apply Rabs_triang|rewrite Rabs_Ropp; lra]).
Qed.
Lemma bt_mult v x w y : bt v x -> bt w y -> bt (fun j => v j * w j) (fun j => x j * y j).
Proof.
  intros H H'. apply bt_pos in H. apply bt_pos in H'. destruct H as (C & M & PC & PM & H). destruct H' as (C' & M' & PC' & PM' & H').
  exists (C * (M' + C') + M * C'), (M * M'). generalize (filter_and _ _ H H'). apply filter_imp. intros j ((H1 & H2 & H3 & H4) & H5 & H6 & H7 & _).
  split; [|rewrite Rabs_mult; apply Rmult_le_compat; try apply Rabs_pos; assumption].
  replace (v j * w j - x j * y j) with ((v j - x j) * w j + x j * (w j - y j)) by ring. eapply Rle_trans; [apply Rabs_triang|]. rewrite !Rabs_mult.
  assert (Q1 : Rabs (v j - x j) * Rabs (w j) <= C * d j * (M' + C')) by (apply Rmult_le_compat; try apply Rabs_pos; assumption).
  assert (Q2 : Rabs (x j) * Rabs (w j - y j) <= M * (C' * d j)) by (apply Rmult_le_compat; try apply Rabs_pos; assumption). lra.
Qed.
Lemma sin_lip a b : Rabs (sin a - sin b) <= Rabs (a - b).
Proof.
  destruct (MVT_gen sin b a cos) as (c & _ & E); [intros z _; apply is_derive_Reals; apply derivable_pt_lim_sin|intros z _; apply continuity_sin|].
  rewrite E, Rabs_mult. assert (Q : Rabs (cos c) <= 1) by (apply Rabs_le, COS_bound). generalize (Rabs_pos (a - b)). nra.
Qed.
Lemma cos_lip a b : Rabs (cos a - cos b) <= Rabs (a - b).
Proof.
  destruct (MVT_gen cos b a (fun z => - sin z)) as (c & _ & E); [intros z _; apply is_derive_Reals; apply derivable_pt_lim_cos|intros z _; apply continuity_cos|].
  rewrite E, Rabs_mult, Rabs_Ropp. assert (Q : Rabs (sin c) <= 1) by (apply Rabs_le, SIN_bound). generalize (Rabs_pos (a - b)). nra.
Qed.
Lemma bt_sin v x : bt v x -> bt (fun j => sin (v j)) (fun j => sin (x j)).
Proof. intros (C & M & H). exists C, 1. revert H. apply filter_imp. intros j (H1 & _). split; [eapply Rle_trans; [apply sin_lip|exact H1]|apply Rabs_le, SIN_bound]. Qed.
Lemma bt_cos v x : bt v x -> bt (fun j => cos (v j)) (fun j => cos (x j)).
Proof. intros (C & M & H). exists C, 1. revert H. apply filter_imp. intros j (H1 & _). split; [eapply Rle_trans; [apply cos_lip|exact H1]|apply Rabs_le, COS_bound]. Qed.
(** a target bounded away from zero *)
Lemma bt_away v x m : 0 < m -> bt v x -> F (fun j => m <= x j) -> F (fun j => m / 2 <= v j).
Proof.
  intros Hm H HX. apply bt_pos in H. destruct H as (C & M & PC & PM & H).
  assert (Q : 0 < m / (2 * (C + 1))) by (apply Rdiv_lt_0_compat; lra).
  generalize (filter_and _ _ (filter_and _ _ H HX) (d_small _ Q)). apply filter_imp. intros j (((H1 & _ & _ & H2) & H3) & H4).
  assert (Q2 : (C + 1) * d j <= m / 2). { apply Rmult_le_compat_l with (r := C + 1) in H4; [|lra]. replace ((C + 1) * (m / (2 * (C + 1)))) with (m / 2) in H4 by (field; lra). exact H4. }
  assert (C * d j <= m / 2) by nra. apply Rabs_le_between in H1. lra.
Qed.
Lemma bt_sqrt v x m : 0 < m -> bt v x -> F (fun j => m <= x j) -> bt (fun j => sqrt (v j)) (fun j => sqrt (x j)).
Proof.
  intros Hm H HX. assert (HV := bt_away v x m Hm H HX). apply bt_pos in H. destruct H as (C & M & PC & PM & H). exists (C / sqrt m), (1 + M).
  generalize (filter_and _ _ (filter_and _ _ H HX) HV). apply filter_imp. intros j (((H1 & H2 & _ & H4) & H5) & H6). assert (S0 := sqrt_lt_R0 m Hm). assert (S1 := sqrt_le_1 m (x j) ltac:(lra) ltac:(lra) H5). assert (S2 := sqrt_pos (v j)).
  assert (E : sqrt (v j) - sqrt (x j) = (v j - x j) / (sqrt (v j) + sqrt (x j))). { assert (W1 := sqrt_sqrt (v j) ltac:(lra)). assert (W2 := sqrt_sqrt (x j) ltac:(lra)). rewrite <- W1 at 2. rewrite <- W2 at 2. field. lra. }
  split.
  - rewrite E. unfold Rdiv. rewrite Rabs_mult, Rabs_inv, (Rabs_pos_eq (_ + _)) by lra. rewrite Rmult_assoc, (Rmult_comm (/ sqrt m)), <- Rmult_assoc. apply Rmult_le_compat; [apply Rabs_pos|apply Rlt_le, Rinv_0_lt_compat; lra|exact H1|]. apply Rinv_le_contravar; lra.
  - rewrite Rabs_pos_eq by lra. assert (X0 : 0 <= x j) by lra. apply Rabs_le_between in H2. destruct (Rle_dec (sqrt (x j)) 1) as [L|L]; [lra|]. assert (W := sqrt_sqrt (x j) X0). nra.
Qed.
Lemma bt_div v x w y m : 0 < m -> bt v x -> bt w y -> F (fun j => m <= y j) -> bt (fun j => v j / w j) (fun j => x j / y j).
Proof.
  intros Hm H H' HY. apply (bt_mult v x (fun j => / w j) (fun j => / y j)); [exact H|]. assert (HV := bt_away w y m Hm H' HY). destruct H' as (C & M & H'). exists (2 * Rabs C / m ^ 2), (/ m).
  generalize (filter_and _ _ (filter_and _ _ H' HY) (filter_and _ _ HV Hd0)). apply filter_imp. intros j (((H1 & H2) & H3) & H4 & H5).
  assert (C * d j <= Rabs C * d j) by (generalize (Rle_abs C); nra).
  split; [|rewrite Rabs_inv, Rabs_pos_eq by lra; apply Rinv_le_contravar; lra].
  replace (/ w j - / y j) with (- (w j - y j) * / (w j * y j)) by (field; lra). rewrite Rabs_mult, Rabs_Ropp, Rabs_inv, (Rabs_pos_eq (_ * _)) by nra.
  replace (2 * Rabs C / m ^ 2 * d j) with (Rabs C * d j * / (m / 2 * m)) by (field; lra).
  apply Rmult_le_compat; [apply Rabs_pos|apply Rlt_le, Rinv_0_lt_compat; nra|lra|]. apply Rinv_le_contravar; [nra|]. apply Rmult_le_compat; lra.
Qed.
Definition val0 (r : Res R) : R := match r with Ok v => v | Err _ => 0 end.
Lemma bround (f : J -> Res R) y x : bt y x -> F (fun j => d j * Rabs (y j) <= 1 -> rounds (d j) (f j) (y j)) -> bok f x.
Proof.
  intros H HR. apply bt_pos in H. destruct H as (C & M & PC & PM & H).
  assert (Q : 0 < / (M + C + 1)) by (apply Rinv_0_lt_compat; lra).
  assert (K : F (fun j => f j = Ok (val0 (f j)) /\ Rabs (val0 (f j) - x j) <= (1 + M + C + C) * d j /\ Rabs (x j) <= M)).
  { generalize (filter_and _ _ (filter_and _ _ H HR) (d_small _ Q)). apply filter_imp. intros j (((H1 & H2 & H3 & H4) & H5) & H6).
    assert (Y : d j * Rabs (y j) <= 1). { apply Rle_trans with (/ (M + C + 1) * (M + C + 1)); [|rewrite Rinv_l; lra]. apply Rmult_le_compat; [lra|apply Rabs_pos|lra|lra]. }
    destruct (H5 Y) as (z & E & B). rewrite E. cbn [val0]. split; [reflexivity|]. split; [|exact H2].
    replace (z - x j) with ((z - y j) + (y j - x j)) by ring. eapply Rle_trans; [apply Rabs_triang|]. assert (d j * (1 + Rabs (y j)) <= d j * (1 + (M + C))) by (apply Rmult_le_compat_l; lra). lra. }
  exists (fun j => val0 (f j)). split; [unfold evok; revert K; apply filter_imp; intros j (K & _); exact K|]. exists (1 + M + C + C), M. revert K. apply filter_imp. intros j (_ & K). exact K.
Qed.
Lemma b_mul v x w y : bt v x -> bt w y -> bok (fun j => a_mul (A j) (v j) (w j)) (fun j => x j * y j).
Proof. intros H H'. apply (bround _ (fun j => v j * w j)); [apply bt_mult; assumption|]. revert HA. apply filter_imp. intros j H1. apply (acc_mul _ _ H1). Qed.
Lemma b_add v x w y : bt v x -> bt w y -> bok (fun j => a_add (A j) (v j) (w j)) (fun j => x j + y j).
Proof. intros H H'. apply (bround _ (fun j => v j + w j)); [apply bt_plus; assumption|]. revert HA. apply filter_imp. intros j H1. apply (acc_add _ _ H1). Qed.
Lemma b_sub v x w y : bt v x -> bt w y -> bok (fun j => a_sub (A j) (v j) (w j)) (fun j => x j - y j).
Proof. intros H H'. apply (bround _ (fun j => v j - w j)); [apply bt_minus; assumption|]. revert HA. apply filter_imp. intros j H1. apply (acc_sub _ _ H1). Qed.
Lemma b_div v x w y m : 0 < m -> bt v x -> bt w y -> F (fun j => m <= y j) -> bok (fun j => a_div (A j) (v j) (w j)) (fun j => x j / y j).
Proof.
  intros Hm H H' HY. apply (bround _ (fun j => v j / w j)); [apply (bt_div v x w y m); assumption|]. generalize (filter_and _ _ HA (bt_away w y m Hm H' HY)). apply filter_imp. intros j (H1 & H2). apply (acc_div _ _ H1). lra.
Qed.
Lemma b_sq v x : bt v x -> bok (fun j => a_pow (A j) (v j) 2) (fun j => x j ^ 2).
Proof.
  intros H. apply (bround _ (fun j => powerRZ (v j) 2)); [|revert HA; apply filter_imp; intros j H1; apply (acc_pow _ _ H1); right; lia].
  destruct (bt_mult v x v x H H) as (C & M & K). exists C, M. revert K. apply filter_imp. intros j K. change (powerRZ (v j) 2) with (v j ^ 2). replace (v j ^ 2) with (v j * v j) by ring. replace (x j ^ 2) with (x j * x j) by ring. exact K.
Qed.
Lemma b_arg v x : bt v x -> F (fun j => d j * Rabs (v j) <= 1).
Proof.
  intros H. apply bt_pos in H. destruct H as (C & M & PC & PM & H). assert (Q : 0 < / (M + C + 1)) by (apply Rinv_0_lt_compat; lra).
  generalize (filter_and _ _ H (d_small _ Q)). apply filter_imp. intros j ((H1 & H2 & H3 & H4) & H5). apply Rle_trans with (/ (M + C + 1) * (M + C + 1)); [|rewrite Rinv_l; lra]. apply Rmult_le_compat; [lra|apply Rabs_pos|lra|lra].
Qed.
Lemma b_sin v x : bt v x -> bok (fun j => a_sin (A j) (v j)) (fun j => sin (x j)).
Proof. intros H. apply (bround _ (fun j => sin (v j))); [apply bt_sin; exact H|]. generalize (filter_and _ _ HA (b_arg v x H)). apply filter_imp. intros j (H1 & H2) _. apply (acc_sin _ _ H1 _ H2). Qed.
Lemma b_cos v x : bt v x -> bok (fun j => a_cos (A j) (v j)) (fun j => cos (x j)).
Proof. intros H. apply (bround _ (fun j => cos (v j))); [apply bt_cos; exact H|]. generalize (filter_and _ _ HA (b_arg v x H)). apply filter_imp. intros j (H1 & H2) _. apply (acc_cos _ _ H1 _ H2). Qed.
Lemma b_sqrt v x m : 0 < m -> bt v x -> F (fun j => m <= x j) -> bok (fun j => a_sqrt (A j) (v j)) (fun j => sqrt (x j)).
Proof.
  intros Hm H HX. apply (bround _ (fun j => sqrt (v j))); [apply (bt_sqrt v x m); assumption|]. generalize (filter_and _ _ HA (bt_away v x m Hm H HX)). apply filter_imp. intros j (H1 & H2) H3.
  apply (acc_sqrt _ _ H1); [lra|]. rewrite Rabs_pos_eq in H3 by apply sqrt_pos. exact H3.
Qed.
Lemma bt_ext v x y : bt v x -> (forall j, x j = y j) -> bt v y.
Proof. intros (C & M & H) E. exists C, M. revert H. apply filter_imp. intros j. rewrite E. exact (fun H => H). Qed.
Definition bt4 (v x : J -> V4) : Prop := bt (fun j => c0 (v j)) (fun j => c0 (x j)) /\ bt (fun j => c1 (v j)) (fun j => c1 (x j)) /\ bt (fun j => c2 (v j)) (fun j => c2 (x j)) /\ bt (fun j => c3 (v j)) (fun j => c3 (x j)).
Definition bt3 (v x : J -> V3) : Prop := bt (fun j => v1 (v j)) (fun j => v1 (x j)) /\ bt (fun j => v2 (v j)) (fun j => v2 (x j)) /\ bt (fun j => v3 (v j)) (fun j => v3 (x j)).
Ltac bstep := eapply (okT_bind F); [first [apply b_mul; eassumption|apply b_add; eassumption|apply b_sub; eassumption|apply b_sq; eassumption|apply b_sin; eassumption|apply b_cos; eassumption]|cbv beta; let q := fresh "q" in let H := fresh "HQ" in intros q H].
(** geodesic.py:241-253 *)
Lemma b_to_cartesian v x : bt4 v x -> okT F (fun j => to_cartesianA (A j) (v j)) (fun w => bt4 w (fun j => to_cartesian (x j))).
Proof.
  intros (H0 & H1 & H2 & H3). unfold to_cartesianA. do 8 bstep. refine (okT_ok F _ _ _). unfold bt4, to_cartesian. cbn [c0 c1 c2 c3]. split; [exact H0|]. split; [assumption|]. split; assumption.
Qed.
End Bounded.

(** the conversions of coordinates/utils.py *)
Section Coord.
Context {J : Type} (F : (J -> Prop) -> Prop) {FF : Filter F} (d : J -> R) (B : J -> arith2).
Hypothesis Hd0 : F (fun j => 0 <= d j).
Hypothesis Hd : filterlim d F (locally 0).
Hypothesis HB : F (fun j => accurate (d j) (b_ar (B j))).
Notation A := (fun j => b_ar (B j)).
Notation bt := (bt F d). Notation bt4 := (bt4 F d). Notation bt3 := (bt3 F d). Notation bok := (bok F d).
Ltac bstep := eapply (okT_bind F); [first [apply (b_mul F d A Hd0 Hd HB); eassumption|apply (b_add F d A Hd0 Hd HB); eassumption|apply (b_sub F d A Hd0 Hd HB); eassumption|apply (b_sq F d A Hd0 Hd HB); eassumption|apply (b_sin F d A Hd0 Hd HB); eassumption|apply (b_cos F d A Hd0 Hd HB); eassumption]|cbv beta; let q := fresh "q" in let H := fresh "HQ" in intros q H].
Lemma b_mul3 a b c a' b' c' : bt a a' -> bt b b' -> bt c c' -> bok (fun j => mul3B (B j) (a j) (b j) (c j)) (fun j => a' j * b' j * c' j).
Proof. intros H1 H2 H3. unfold mul3B. bstep. apply (b_mul F d A Hd0 Hd HB); assumption. Qed.
Lemma b_mul4 a b c e a' b' c' e' : bt a a' -> bt b b' -> bt c c' -> bt e e' -> bok (fun j => mul4B (B j) (a j) (b j) (c j) (e j)) (fun j => a' j * b' j * c' j * e' j).
Proof. intros H1 H2 H3 H4. unfold mul4B. eapply (okT_bind F); [apply b_mul3; eassumption|]. cbv beta. intros v Hv. apply (b_mul F d A Hd0 Hd HB); assumption. Qed.
Ltac b3 := eapply (okT_bind F); [apply b_mul3; eassumption|cbv beta; let q := fresh "q" in let H := fresh "HQ" in intros q H].
Ltac b4 := eapply (okT_bind F); [apply b_mul4; eassumption|cbv beta; let q := fresh "q" in let H := fresh "HQ" in intros q H].
Variables (p p' : J -> V4) (v v' : J -> V3) (al al' : J -> R).
Hypothesis Hp : bt4 p p'. Hypothesis Hv : bt3 v v'. Hypothesis Hal : bt al al'.
Lemma b_sph_cart : okT F (fun j => from_sph (B j) (p j) (v j) (al j))
  (fun w => bt4 (fun j => fst (w j)) (fun j => sph_to_cart (c0 (p' j)) (c1 (p' j)) (c2 (p' j)) (c3 (p' j))) /\ bt3 (fun j => snd (w j)) (fun j => sph_to_cart_vel (c1 (p' j)) (c2 (p' j)) (c3 (p' j)) (v1 (v' j)) (v2 (v' j)) (v3 (v' j)))).
Proof.
  destruct Hp as (P0 & P1 & P2 & P3). destruct Hv as (V1 & V2 & V3). unfold from_sph, sph_to_cart_allB.
  eapply (okT_bind F _ (fun w => bt4 w (fun j => sph_to_cart (c0 (p' j)) (c1 (p' j)) (c2 (p' j)) (c3 (p' j))))).
  - unfold sph_to_cartB. do 2 bstep. b3. bstep. b3. do 2 bstep. refine (okT_ok F _ _ _). unfold FloatOut.bt4, sph_to_cart. cbn [c0 c1 c2 c3]. split; [exact P0|]. split; [assumption|]. split; assumption.
  - intros q Hq. cbn beta. eapply (okT_bind F _ (fun w => bt3 w (fun j => sph_to_cart_vel (c1 (p' j)) (c2 (p' j)) (c3 (p' j)) (v1 (v' j)) (v2 (v' j)) (v3 (v' j))))).
    + unfold sph_to_cart_velB. do 4 bstep. b3. b4. bstep. b4. bstep. b3. b4. bstep. b4. bstep. bstep. b3. bstep. refine (okT_ok F _ _ _). unfold FloatOut.bt3, sph_to_cart_vel. cbn [v1 v2 v3]. split; [assumption|]. split; assumption.
    + intros w Hw. apply (okT_ok F (fun j => (q j, w j))). split; [exact Hq|exact Hw].
Qed.
Variable m : R. Hypothesis Hm : 0 < m. Hypothesis Hpos : F (fun j => m <= c1 (p' j) ^ 2 + al' j ^ 2).
Lemma b_xa : bok (fun j => xaB (B j) (c1 (p j)) (al j)) (fun j => sqrt (c1 (p' j) ^ 2 + al' j ^ 2)).
Proof. destruct Hp as (P0 & P1 & P2 & P3). unfold xaB. do 3 bstep. apply (b_sqrt F d A Hd0 Hd HB _ _ m); assumption. Qed.
Lemma xa_pos : F (fun j => sqrt m <= sqrt (c1 (p' j) ^ 2 + al' j ^ 2)).
Proof. revert Hpos. apply filter_imp. intros j H. apply sqrt_le_1; lra. Qed.
(** the exact velocity, where r^2 + al^2 > 0 *)
Definition bl_vel (r th ph a vr vth vp : R) : V3 := match bl_to_cart_vel r th ph a vr vth vp with Ok w => w | Err _ => mk3 0 0 0 end.
Lemma bl_vel_ok r th ph a vr vth vp : 0 < r ^ 2 + a ^ 2 -> bl_to_cart_vel r th ph a vr vth vp = Ok (bl_vel r th ph a vr vth vp) /\
  bl_vel r th ph a vr vth vp = let xa := sqrt (r ^ 2 + a ^ 2) in mk3 (r * vr * sin th * cos ph / xa + xa * cos th * cos ph * vth - xa * sin th * sin ph * vp) (r * vr * sin th * sin ph / xa + xa * cos th * sin ph * vth + xa * sin th * cos ph * vp) (vr * cos th - r * sin th * vth).
Proof.
  intros H. assert (N : sqrt (r ^ 2 + a ^ 2) <> 0) by (apply Rgt_not_eq, sqrt_lt_R0; exact H). unfold bl_vel, bl_to_cart_vel. cbv zeta. rewrite np_div_ok by exact N. cbn [bindR]. rewrite np_div_ok by exact N. cbn [bindR]. split; reflexivity.
Qed.
Lemma b_bl_cart : okT F (fun j => from_bl (B j) (p j) (v j) (al j))
  (fun w => bt4 (fun j => fst (w j)) (fun j => bl_to_cart (c0 (p' j)) (c1 (p' j)) (c2 (p' j)) (c3 (p' j)) (al' j)) /\
            exists y, bt3 (fun j => snd (w j)) y /\ F (fun j => y j = bl_vel (c1 (p' j)) (c2 (p' j)) (c3 (p' j)) (al' j) (v1 (v' j)) (v2 (v' j)) (v3 (v' j)))).
Proof.
  destruct Hp as (P0 & P1 & P2 & P3). destruct Hv as (V1 & V2 & V3). unfold from_bl, bl_to_cart_allB.
  eapply (okT_bind F _ (fun w => bt4 w (fun j => bl_to_cart (c0 (p' j)) (c1 (p' j)) (c2 (p' j)) (c3 (p' j)) (al' j)))).
  - unfold bl_to_cartB. eapply (okT_bind F); [apply b_xa|]. cbv beta. intros xa Hxa. do 8 bstep. refine (okT_ok F _ _ _). unfold FloatOut.bt4, bl_to_cart. cbn [c0 c1 c2 c3]. split; [exact P0|]. split; [assumption|]. split; assumption.
  - intros q Hq. cbn beta.
    set (xa' := fun j => sqrt (c1 (p' j) ^ 2 + al' j ^ 2)).
    set (y := fun j => mk3 (c1 (p' j) * v1 (v' j) * sin (c2 (p' j)) * cos (c3 (p' j)) / xa' j + xa' j * cos (c2 (p' j)) * cos (c3 (p' j)) * v2 (v' j) - xa' j * sin (c2 (p' j)) * sin (c3 (p' j)) * v3 (v' j))
      (c1 (p' j) * v1 (v' j) * sin (c2 (p' j)) * sin (c3 (p' j)) / xa' j + xa' j * cos (c2 (p' j)) * sin (c3 (p' j)) * v2 (v' j) + xa' j * sin (c2 (p' j)) * cos (c3 (p' j)) * v3 (v' j))
      (v1 (v' j) * cos (c2 (p' j)) - c1 (p' j) * sin (c2 (p' j)) * v2 (v' j))).
    eapply (okT_bind F _ (fun w => bt3 w y)).
    + unfold bl_to_cart_velB. eapply (okT_bind F); [apply b_xa|]. cbv beta. fold xa'. intros xa Hxa. do 4 bstep.
      assert (S0 := sqrt_lt_R0 m Hm).
      b4. eapply (okT_bind F); [eapply (b_div F d A Hd0 Hd HB _ _ _ _ (sqrt m) S0); [eassumption|exact Hxa|exact xa_pos]|cbv beta; let q := fresh "q" in let H := fresh "HQ" in intros q H].
      b4. bstep. b4. bstep. b4. eapply (okT_bind F); [eapply (b_div F d A Hd0 Hd HB _ _ _ _ (sqrt m) S0); [eassumption|exact Hxa|exact xa_pos]|cbv beta; let q := fresh "q" in let H := fresh "HQ" in intros q H].
      b4. bstep. b4. bstep. bstep. b3. bstep. refine (okT_ok F _ _ _). unfold FloatOut.bt3, y. cbn [v1 v2 v3]. split; [assumption|]. split; assumption.
    + intros w Hw. apply (okT_ok F (fun j => (q j, w j))). split; [exact Hq|]. exists y. split; [exact Hw|]. revert Hpos. apply filter_imp. intros j H. symmetry. apply bl_vel_ok. lra.
Qed.
End Coord.
