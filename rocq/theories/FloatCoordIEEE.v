(** IEEE 754 instances of the arithmetic of FloatCoordModel.v, and a binary64 computation: on the rotation axis the conversion to
    Boyer-Lindquist coordinates can fail because z / r is rounded to a number above 1. *)
From Coq Require Import Reals List ZArith Lra Lia Bool.
From Flocq Require Import Core.
From Verif Require Import Base DualModel GeoUtilsModel CoordModel CoordProofs CoordProofs4 FloatModel FloatIEEE.
From Verif Require Import FloatCoordModel.
Import ListNotations.
Open Scope R_scope.

Record libm2 := mklibm2 { l_hypot : R -> R -> Res R; l_atan2 : R -> R -> Res R; l_acos : R -> Res R }.
(** results within 4 ulp; arctan2 on its cut is pi or -pi according to the sign of the zero *)
Record libm2_ok (F : format) (M : libm2) : Prop := mklok2 {
  ok_hypot : forall x y, hypot x y <= bpow radix2 (emax F - 1) -> ulp4 F (l_hypot M x y) (hypot x y);
  ok_atan2 : forall y x, 0 < x \/ y <> 0 -> ulp4 F (l_atan2 M y x) (atan2 y x);
  ok_cut : forall x, x < 0 -> ulp4 F (l_atan2 M 0 x) PI \/ ulp4 F (l_atan2 M 0 x) (- PI);
  ok_acos : forall x, -1 <= x <= 1 -> ulp4 F (l_acos M x) (acos x) }.
(** np.arccos is nan outside [-1, 1] *)
Definition ieee2 (F : format) (L : libm) (M : libm2) : arith2 :=
  mkarith2 (ieee F L) (l_hypot M) (l_atan2 M) (fun x => if Rle_dec (-1) x then (if Rle_dec x 1 then l_acos M x else Err NonFinite) else Err NonFinite).
Theorem ieee2_accurate F L M : usable F -> libm_ok F L -> libm2_ok F M -> accurate2 (uF F) (ieee2 F L M).
Proof.
  intros HU HL HM. split; [apply ieee_accurate; assumption|..]; cbn [ieee2 b_hypot b_atan2 b_acos].
  - intros x y H. apply (ulp4_rounds F HU), (ok_hypot F M HM). rewrite <- (Rabs_right (hypot x y)) in H |- * by (apply Rle_ge, hypot_nonneg). apply (uF_big F HU). exact H.
  - intros y x H. apply (ulp4_rounds F HU), (ok_atan2 F M HM). exact H.
  - intros x H. destruct (ok_cut F M HM x H) as [Q|Q]; [left|right]; apply (ulp4_rounds F HU); exact Q.
  - intros x [H1 H2]. destruct (Rle_dec (-1) x); [|lra]. destruct (Rle_dec x 1); [|lra]. apply (ulp4_rounds F HU), (ok_acos F M HM). split; assumption.
Qed.
(** the correctly rounded one *)
Definition nearest_libm2 (F : format) : libm2 := mklibm2 (fun x y => Ok (rF F (hypot x y))) (fun y x => Ok (rF F (atan2 y x))) (fun x => Ok (rF F (acos x))).
Lemma nearest_libm2_ok F : usable F -> libm2_ok F (nearest_libm2 F).
Proof.
  intros HU. split; intros; cbn [nearest_libm2 l_hypot l_atan2 l_acos]; try apply (rF_ulp4 F HU). left. replace (atan2 0 x) with PI; [apply (rF_ulp4 F HU)|].
  unfold atan2. destruct (Rlt_dec 0 x); [lra|]. destruct (Rlt_dec x 0); [|lra]. destruct (Rle_dec 0 0); [|lra]. unfold Rdiv. rewrite Rmult_0_l, atan_0. ring.
Qed.

(** ---- rounding to binary64, computed ---- *)
Lemma rF_neg F x : rF F (- x) = - rF F x.
Proof. unfold rF. apply round_NE_opp. Qed.
Lemma rF64_pos x m e : (2 ^ 52 + 1 <= m <= 2 ^ 53 - 1)%Z -> (-1074 <= e)%Z -> Rabs (x - IZR m * bpow radix2 e) < bpow radix2 (e - 1) -> rF binary64 x = IZR m * bpow radix2 e.
Proof.
  intros Hm He H. assert (P := bpow_gt_0 radix2 e). assert (E1 : bpow radix2 (e - 1) = bpow radix2 e * / 2) by (unfold Zminus; rewrite bpow_plus; reflexivity). rewrite E1 in H.
  apply Rabs_def2 in H. assert (M1 : IZR (2 ^ 52) + 1 <= IZR m) by (rewrite <- plus_IZR; apply IZR_le; lia). assert (M2 : IZR m <= IZR (2 ^ 53) - 1) by (rewrite <- minus_IZR; apply IZR_le; lia).
  assert (B1 : bpow radix2 (e + 53 - 1) = IZR (2 ^ 52) * bpow radix2 e) by (replace (e + 53 - 1)%Z with (52 + e)%Z by lia; rewrite bpow_plus; f_equal).
  assert (B2 : bpow radix2 (e + 53) = IZR (2 ^ 53) * bpow radix2 e) by (replace (e + 53)%Z with (53 + e)%Z by lia; rewrite bpow_plus; f_equal).
  assert (X1 : IZR (2 ^ 52) * bpow radix2 e <= x). { apply Rle_trans with ((IZR m - 1) * bpow radix2 e); [apply Rmult_le_compat_r; lra|lra]. }
  assert (X2 : x < IZR (2 ^ 53) * bpow radix2 e). { apply Rlt_le_trans with ((IZR m + 1) * bpow radix2 e); [lra|apply Rmult_le_compat_r; lra]. }
  assert (X0 : 0 < x) by (eapply Rlt_le_trans; [|exact X1]; apply Rmult_lt_0_compat; [apply IZR_lt; reflexivity|exact P]).
  assert (Mg : (mag radix2 x = e + 53 :> Z)%Z) by (apply mag_unique_pos; rewrite B1, B2; split; assumption).
  unfold rF, round. assert (C : cexp radix2 (FLT_exp (emin binary64) (prec binary64)) x = e) by (unfold cexp, FLT_exp; rewrite Mg; cbn [prec emin binary64]; lia).
  unfold scaled_mantissa. rewrite C. unfold F2R; cbn [Fnum Fexp]. f_equal. f_equal. apply Znearest_imp.
  assert (Y : bpow radix2 e * bpow radix2 (- e) = 1) by (rewrite <- bpow_plus, Z.add_opp_diag_r; reflexivity). assert (Pn := bpow_gt_0 radix2 (- e)).
  assert (A1 : (x - IZR m * bpow radix2 e) * bpow radix2 (- e) < bpow radix2 e * / 2 * bpow radix2 (- e)) by (apply Rmult_lt_compat_r; lra).
  assert (A2 : - (bpow radix2 e * / 2) * bpow radix2 (- e) < (x - IZR m * bpow radix2 e) * bpow radix2 (- e)) by (apply Rmult_lt_compat_r; lra).
  replace ((x - IZR m * bpow radix2 e) * bpow radix2 (- e)) with (x * bpow radix2 (- e) - IZR m * (bpow radix2 e * bpow radix2 (- e))) in A1, A2 by ring.
  replace (bpow radix2 e * / 2 * bpow radix2 (- e)) with (bpow radix2 e * bpow radix2 (- e) * / 2) in A1 by ring. replace (- (bpow radix2 e * / 2) * bpow radix2 (- e)) with (- (bpow radix2 e * bpow radix2 (- e)) * / 2) in A2 by ring.
  rewrite Y in A1, A2. apply Rabs_def1; lra.
Qed.
Lemma fin64 x m e : (2 ^ 52 + 1 <= m <= 2 ^ 53 - 1)%Z -> (-1074 <= e <= 0)%Z -> Rabs (x - IZR m * bpow radix2 e) < bpow radix2 (e - 1) -> finF binary64 x = Ok (IZR m * bpow radix2 e).
Proof.
  intros Hm He H. unfold finF. rewrite (rF64_pos x m e Hm ltac:(lia) H). destruct (Rlt_dec _ _) as [L|L]; [reflexivity|]. exfalso. apply L. clear L. rewrite Rabs_right.
  - apply Rlt_le_trans with (bpow radix2 (53 + e)).
    + rewrite bpow_plus. apply Rmult_lt_compat_r; [apply bpow_gt_0|]. change (bpow radix2 53) with (IZR (2 ^ 53)). apply IZR_lt. lia.
    + apply bpow_le. cbn [emax binary64]. lia.
  - apply Rle_ge, Rmult_le_pos; [apply IZR_le; lia|apply bpow_ge_0].
Qed.
Lemma fin64_neg x m e : (2 ^ 52 + 1 <= m <= 2 ^ 53 - 1)%Z -> (-1074 <= e <= 0)%Z -> Rabs (- x - IZR m * bpow radix2 e) < bpow radix2 (e - 1) -> finF binary64 x = Ok (- (IZR m * bpow radix2 e)).
Proof.
  intros Hm He H. assert (Q := fin64 (- x) m e Hm He H). unfold finF in *. rewrite rF_neg, Rabs_Ropp in Q. destruct (Rlt_dec _ _) as [L|L]; [|discriminate]. apply Ok_inj in Q. rewrite <- Q, Ropp_involutive. reflexivity.
Qed.
Lemma fin64_0 : finF binary64 0 = Ok 0.
Proof. unfold finF, rF. rewrite round_0; [|typeclasses eauto]. rewrite Rabs_R0. destruct (Rlt_dec 0 (big binary64)) as [L|L]; [reflexivity|]. contradiction L. apply bpow_gt_0. Qed.
Lemma sqrt_between a b q : 0 <= a -> a * a < q -> q < b * b -> 0 <= b -> a < sqrt q < b.
Proof.
  intros Ha H1 H2 Hb. split.
  - rewrite <- (sqrt_Rsqr a Ha). apply sqrt_lt_1_alt. unfold Rsqr. split; [apply Rle_0_sqr|exact H1].
  - rewrite <- (sqrt_Rsqr b Hb). apply sqrt_lt_1_alt. unfold Rsqr. split; [|exact H2]. apply Rle_trans with (a * a); [apply (Rle_0_sqr a)|lra].
Qed.
(** the double nearest to 0.2, and the one nearest to 0.9 *)
Definition d02 : R := 7205759403792794 * bpow radix2 (-55).
Definition d09 : R := 8106479329266893 * bpow radix2 (-53).
Ltac bps := repeat match goal with |- context [bpow radix2 ?e] => let e' := eval vm_compute in e in let v := eval vm_compute in (2 ^ (- e'))%Z in change (bpow radix2 e) with (/ IZR v) end.
(** numpy squares a double by multiplying it with itself *)
Definition squares (F : format) (L : libm) : Prop := forall x, Rabs x <= 1 -> l_pow L x 2 = mulF F x x.
Lemma nearest_squares F : usable F -> squares F (nearest_libm F).
Proof.
  intros HU x Hx. cbn [nearest_libm l_pow]. change (powerRZ x 2) with (x ^ 2). replace (x ^ 2) with (x * x) by ring. unfold mulF. symmetry. apply (finF_ok F HU). rewrite Rabs_mult. apply Rle_trans with (1 * 1); [apply Rmult_le_compat; try apply Rabs_pos; assumption|].
  rewrite Rmult_1_l. change 1 with (bpow radix2 0). apply bpow_le. destruct HU as (H1 & H2 & H3). lia.
Qed.
Lemma d02_nearest : finF binary64 (2 / 10) = Ok d02.
Proof. unfold d02. apply fin64; [lia|lia|]. bps. apply Rabs_def1; lra. Qed.
Lemma d09_nearest : finF binary64 (9 / 10) = Ok d09.
Proof. unfold d09. apply fin64; [lia|lia|]. bps. apply Rabs_def1; lra. Qed.
Ltac fl m e := rewrite (fin64 _ m e); [cbn [bindR]|lia|lia|bps; try (apply Rabs_def1; lra)].
Lemma axis_nan L M t : squares binary64 L -> cart_to_blB (ieee2 binary64 L M) t 0 0 d02 d09 = Err NonFinite.
Proof.
  intros HS. unfold cart_to_blB, bl_wB, bl_rB, bl_SB. cbn [ieee2 ieee b_ar a_add a_sub a_mul a_div a_pow a_sqrt b_acos]. rewrite (HS 0), (HS d02), (HS d09) by (unfold d02, d09; bps; apply Rabs_le; lra). unfold mulF, addF.
  rewrite !Rmult_0_l, fin64_0. cbn [bindR]. rewrite Rplus_0_l, fin64_0. cbn [bindR]. unfold d02, d09.
  fl 5764607523034236%Z (-57)%Z. rewrite Rplus_0_l. fl 5764607523034236%Z (-57)%Z. fl 7295831396340204%Z (-53)%Z.
  rewrite (fin64_neg _ 6935543426150564 (-53)); [cbn [bindR]|lia|lia|bps; apply Rabs_def1; lra].
  rewrite HS by (bps; apply Rabs_le; lra). unfold mulF. fl 5340368438135934%Z (-53)%Z. fl 7295831396340204%Z (-51)%Z. fl 4669332093657731%Z (-55)%Z. fl 6507701461550367%Z (-53)%Z.
  destruct (Rle_dec 0 (6507701461550367 * bpow radix2 (-53))) as [_|N]; [|exfalso; apply N; bps; lra].
  fl 7656119366529843%Z (-53)%Z.
  2:{ destruct (sqrt_between (7656119366529842.5 * bpow radix2 (-53)) (7656119366529843.5 * bpow radix2 (-53)) (6507701461550367 * bpow radix2 (-53))) as [S1 S2]; try (bps; lra). revert S1 S2. bps. intros S1 S2. apply Rabs_def1; lra. }
  fl 5764607523034232%Z (-56)%Z. fl 5764607523034232%Z (-57)%Z.
  destruct (Rle_dec 0 (5764607523034232 * bpow radix2 (-57))) as [_|N]; [|exfalso; apply N; bps; lra].
  fl 7205759403792792%Z (-55)%Z.
  2:{ destruct (sqrt_between (7205759403792791.5 * bpow radix2 (-55)) (7205759403792792.5 * bpow radix2 (-55)) (5764607523034232 * bpow radix2 (-57))) as [S1 S2]; try (bps; lra). revert S1 S2. bps. intros S1 S2. apply Rabs_def1; lra. }
  destruct (Req_EM_T (7205759403792792 * bpow radix2 (-55)) 0) as [N|_]; [exfalso; revert N; bps; lra|].
  fl 4503599627370497%Z (-52)%Z.
  destruct (Rle_dec (-1) (4503599627370497 * bpow radix2 (-52))) as [_|N]; [|reflexivity].
  destruct (Rle_dec (4503599627370497 * bpow radix2 (-52)) 1) as [N|_]; [exfalso; revert N; bps; lra|]. reflexivity.
Qed.
(** while the exact conversion of every point on the axis but the origin succeeds *)
Lemma axis_exact t z al : z <> 0 -> cart_to_bl t 0 0 z al = Ok (mkQ4 t (Rabs z) (if Rlt_dec 0 z then 0 else PI) 0).
Proof.
  intros Z. assert (AZ := Rabs_pos_lt z Z). assert (R1 : bl_r 0 0 z al = Rabs z).
  { unfold bl_r. assert (S1 : sqrt (bl_w 0 0 z al ^ 2 + 4 * al ^ 2 * z ^ 2) = z ^ 2 + al ^ 2).
    { replace (bl_w 0 0 z al ^ 2 + 4 * al ^ 2 * z ^ 2) with (Rsqr (z ^ 2 + al ^ 2)) by (unfold bl_w, Rsqr; ring). apply sqrt_Rsqr. apply Rplus_le_le_0_compat; apply pow2_ge_0. }
    rewrite S1. unfold bl_w. replace (/ 2 * (0 ^ 2 + 0 ^ 2 + z ^ 2 - al ^ 2 + (z ^ 2 + al ^ 2))) with (Rsqr z) by (unfold Rsqr; field). apply sqrt_Rsqr_abs. }
  rewrite cart_to_bl_ok by (rewrite R1; exact AZ). rewrite R1. f_equal. f_equal; [|unfold atan2; destruct (Rlt_dec 0 0); [lra|]; reflexivity].
  destruct (Rlt_dec 0 z) as [P|P].
  - rewrite Rabs_right by lra. replace (z / z) with 1 by (field; lra). apply acos_1.
  - rewrite Rabs_left by lra. replace (z / - z) with (-1) by (field; lra). apply acos_opp_1 || (replace (-1) with (- (1)) by ring; rewrite acos_opp, acos_1; ring).
Qed.
