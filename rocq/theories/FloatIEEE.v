(** IEEE 754 arithmetic as an instance of the arithmetic of FloatModel.v (Flocq): +, -, *, /, sqrt are correctly rounded to nearest
    even with gradual underflow; a result that would be infinite is [Err NonFinite]; inner products are accumulated from left to
    right; the elementary functions come from a libm accurate to 4 ulp (glibc, numpy's vectorised loops).
    A format has precision p, smallest exponent emin and overflow threshold 2^emax; binary64 (numpy's float64, Python's float) is
    p = 53, emin = -1074, emax = 1024, binary128 is p = 113, emin = -16494, emax = 16384. *)
From Coq Require Import Reals List ZArith Lra Lia Bool.
From Flocq Require Import Core.
Require Import Flocq.Prop.Relative.
From Verif Require Import Base DualModel GeoUtilsModel FloatModel.
Import ListNotations.
Open Scope R_scope.

Record format := mkfmt { prec : Z; emin : Z; emax : Z }.
(** enough precision and exponent range *)
Definition usable (F : format) : Prop := (11 <= prec F /\ emin F <= - (2 * prec F) /\ 2 * prec F <= emax F)%Z.
Definition binary64 : format := mkfmt 53 (-1074) 1024.
Definition binary128 : format := mkfmt 113 (-16494) 16384.

Record libm := mklibm { l_pow : R -> Z -> Res R; l_powr : R -> R -> Res R; l_sin : R -> Res R; l_cos : R -> Res R; l_tan : R -> Res R; l_log : R -> Res R; l_exp : R -> Res R }.

Section Format.
Variable F : format.
Definition rF (x : R) : R := round radix2 (FLT_exp (emin F) (prec F)) ZnearestE x.
(** 2^emax: the first magnitude that overflows *)
Definition big : R := bpow radix2 (emax F).
Definition finF (x : R) : Res R := if Rlt_dec (Rabs (rF x)) big then Ok (rF x) else Err NonFinite.
(** a libm: results within 4 ulp of the exact value *)
Definition ulp4 (r : Res R) (x : R) : Prop := exists v, r = Ok v /\ Rabs (v - x) <= bpow radix2 (3 - prec F) * Rabs x + bpow radix2 (emin F + 2).
Record libm_ok (L : libm) : Prop := mklok {
  ok_pow : forall x n, x <> 0 \/ (0 <= n)%Z -> Rabs (powerRZ x n) <= bpow radix2 (emax F - 1) -> ulp4 (l_pow L x n) (powerRZ x n);
  ok_powr : forall x p, 0 < x -> Rabs (Rpower x p) <= bpow radix2 (emax F - 1) -> ulp4 (l_powr L x p) (Rpower x p);
  ok_sin : forall x, ulp4 (l_sin L x) (sin x);
  ok_cos : forall x, ulp4 (l_cos L x) (cos x);
  ok_tan : forall x, cos x <> 0 -> Rabs (tan x) <= bpow radix2 (emax F - 1) -> ulp4 (l_tan L x) (tan x);
  ok_log : forall x, 0 < x -> Rabs (ln x) <= bpow radix2 (emax F - 1) -> ulp4 (l_log L x) (ln x);
  ok_exp : forall x, exp x <= bpow radix2 (emax F - 1) -> ulp4 (l_exp L x) (exp x) }.
Definition mulF (x y : R) : Res R := finF (x * y).
Definition addF (x y : R) : Res R := finF (x + y).
Definition dotF (v w : V4) : Res R :=
  let* a := mulF (c0 v) (c0 w) in let* b := mulF (c1 v) (c1 w) in let* s := addF a b in
  let* c := mulF (c2 v) (c2 w) in let* s := addF s c in
  let* d := mulF (c3 v) (c3 w) in addF s d.
Definition ieee (L : libm) : arith := mkarith finF addF (fun x y => finF (x - y)) mulF
  (fun x y => if Req_EM_T y 0 then Err ZeroDivisionError else finF (x / y))
  (l_pow L) (l_powr L) (l_sin L) (l_cos L) (l_tan L) (l_log L) (l_exp L)
  (fun x => if Rle_dec 0 x then finF (sqrt x) else Err NonFinite) dotF.
(** the unit roundoff of this arithmetic, with room for 4 ulp *)
Definition uF : R := bpow radix2 (4 - prec F).

Hypothesis HU : usable F.
Local Lemma HU1 : (11 <= prec F)%Z. Proof. apply HU. Qed.
Local Lemma HU2 : (emin F <= - (2 * prec F))%Z. Proof. apply HU. Qed.
Local Lemma HU3 : (2 * prec F <= emax F)%Z. Proof. apply HU. Qed.
Ltac u := pose proof HU1; pose proof HU2; pose proof HU3; lia.
Lemma bp a b : (a <= b)%Z -> bpow radix2 a <= bpow radix2 b.
Proof. apply bpow_le. Qed.
Lemma rF_error x : Rabs (rF x - x) <= bpow radix2 (- prec F) * Rabs x + bpow radix2 (emin F - 1).
Proof.
  assert (HP : (0 < prec F)%Z) by u. destruct (error_N_FLT radix2 (emin F) (prec F) HP (fun x => negb (Z.even x)) x) as (eps & eta & H1 & H2 & _ & E). unfold rF. rewrite E.
  replace (x * (1 + eps) + eta - x) with (eps * x + eta) by ring. eapply Rle_trans; [apply Rabs_triang|]. rewrite Rabs_mult.
  apply Rplus_le_compat.
  - apply Rmult_le_compat_r; [apply Rabs_pos|]. eapply Rle_trans; [exact H1|]. right. change (/ 2) with (bpow radix2 (-1)). rewrite <- bpow_plus. f_equal. u.
  - eapply Rle_trans; [exact H2|]. right. change (/ 2) with (bpow radix2 (-1)). rewrite <- bpow_plus. f_equal. u.
Qed.
Lemma finF_ok x : Rabs x <= bpow radix2 (emax F - 1) -> finF x = Ok (rF x).
Proof.
  intros H. unfold finF. destruct (Rlt_dec (Rabs (rF x)) big) as [L|L]; [reflexivity|]. exfalso. apply L. clear L.
  assert (E := rF_error x). assert (T := Rabs_triang (rF x - x) x). replace (rF x - x + x) with (rF x) in T by ring.
  assert (B1 : bpow radix2 (- prec F) <= / 4) by (change (/ 4) with (bpow radix2 (-2)); apply bp; u).
  assert (B2 : bpow radix2 (emin F - 1) <= bpow radix2 (emax F - 1) * / 4) by (change (/ 4) with (bpow radix2 (-2)); rewrite <- bpow_plus; apply bp; u).
  assert (B3 : big = 2 * bpow radix2 (emax F - 1)) by (unfold big; change 2 with (bpow radix2 1); rewrite <- bpow_plus; f_equal; u).
  assert (P := Rabs_pos x). assert (P0 := bpow_gt_0 radix2 (emax F - 1)). assert (P1 := bpow_gt_0 radix2 (- prec F)).
  rewrite B3. generalize dependent (bpow radix2 (emax F - 1)). intros m. intros. nra.
Qed.
Lemma uF_vals : uF = 16 * bpow radix2 (- prec F) /\ uF = 2 * bpow radix2 (3 - prec F) /\ bpow radix2 (emin F + 2) <= bpow radix2 (- prec F - 7) /\ bpow radix2 (- prec F - 7) <= uF / 2 /\ bpow radix2 (emin F - 1) <= bpow radix2 (- prec F - 7).
Proof.
  unfold uF. split; [change 16 with (bpow radix2 4); rewrite <- bpow_plus; f_equal; u|]. split; [change 2 with (bpow radix2 1); rewrite <- bpow_plus; f_equal; u|].
  split; [apply bp; u|]. split; [|apply bp; u]. unfold Rdiv. change (/ 2) with (bpow radix2 (-1)). rewrite <- bpow_plus. apply bp. u.
Qed.
Lemma uF_big x : uF * Rabs x <= 1 -> Rabs x <= bpow radix2 (emax F - 1).
Proof.
  intros H. apply Rle_trans with (bpow radix2 (prec F - 4)); [|apply bp; u]. apply Rmult_le_reg_l with uF; [apply bpow_gt_0|]. unfold uF in *. rewrite <- bpow_plus. replace (4 - prec F + (prec F - 4))%Z with 0%Z by u. exact H.
Qed.
Lemma rF_rounds x : uF * Rabs x <= 1 -> rounds uF (finF x) x.
Proof.
  intros H. exists (rF x). split; [apply finF_ok, uF_big, H|]. eapply Rle_trans; [apply rF_error|]. destruct uF_vals as (A & _ & B & C & D). assert (P := bpow_gt_0 radix2 (- prec F)). assert (Q := Rabs_pos x).
  assert (E : bpow radix2 (- prec F) <= uF) by lra. rewrite Rmult_plus_distr_l. assert (F0 : 0 < uF) by apply bpow_gt_0. assert (G : bpow radix2 (- prec F) * Rabs x <= uF * Rabs x) by (apply Rmult_le_compat_r; assumption). lra.
Qed.
Lemma ulp4_rounds r x : ulp4 r x -> rounds uF r x.
Proof.
  intros (v & E & H). exists v. split; [exact E|]. eapply Rle_trans; [exact H|]. destruct uF_vals as (_ & A & B & C & _). assert (P := bpow_gt_0 radix2 (3 - prec F)). assert (Q := Rabs_pos x).
  assert (F0 : 0 < uF) by apply bpow_gt_0. assert (G : bpow radix2 (3 - prec F) * Rabs x <= uF * Rabs x) by (apply Rmult_le_compat_r; lra). lra.
Qed.
(** a bound on a rounded result *)
Lemma rF_step x B : Rabs x <= B -> B <= 2 * bpow radix2 (prec F - 4) + 2 -> exists v, finF x = Ok v /\ Rabs (v - x) <= bpow radix2 (- prec F) * B + bpow radix2 (- prec F - 7).
Proof.
  intros H HB. exists (rF x). assert (L : B <= bpow radix2 (emax F - 1)). { eapply Rle_trans; [exact HB|]. apply Rle_trans with (bpow radix2 (prec F - 3) + bpow radix2 (prec F - 3)); [apply Rplus_le_compat; [right; change 2 with (bpow radix2 1); rewrite <- bpow_plus; f_equal; u|change 2 with (bpow radix2 1); apply bp; u]|].
    replace (bpow radix2 (prec F - 3) + bpow radix2 (prec F - 3)) with (bpow radix2 (prec F - 2)); [apply bp; u|]. replace (prec F - 2)%Z with (1 + (prec F - 3))%Z by u. rewrite bpow_plus. change (bpow radix2 1) with 2. ring. }
  split; [apply finF_ok; lra|]. eapply Rle_trans; [apply rF_error|]. destruct uF_vals as (_ & _ & _ & _ & D). apply Rplus_le_compat; [|exact D]. apply Rmult_le_compat_l; [apply bpow_ge_0|exact H].
Qed.
Lemma dotF_ok v w : uF * absdot v w <= 1 -> exists d, dotF v w = Ok d /\ Rabs (d - dot v w) <= uF * (1 + absdot v w).
Proof.
  intros H. destruct uF_vals as (A & _ & _ & C0 & _).
  set (S := absdot v w) in *. set (e := bpow radix2 (- prec F)) in *. set (t := bpow radix2 (- prec F - 7)) in *.
  assert (M : bpow radix2 (prec F - 4) * uF = 1) by (unfold uF; rewrite <- bpow_plus; replace (prec F - 4 + (4 - prec F))%Z with 0%Z by u; reflexivity).
  assert (PB : 0 < bpow radix2 (prec F - 4)) by apply bpow_gt_0.
  assert (HS : S <= bpow radix2 (prec F - 4)). { apply Rmult_le_compat_l with (r := bpow radix2 (prec F - 4)) in H; [|lra]. rewrite <- Rmult_assoc, M in H. lra. }
  assert (Pe : 0 < e) by apply bpow_gt_0. assert (Pt : 0 < t) by apply bpow_gt_0.
  assert (e1 : e <= / 1024) by (unfold e; change (/ 1024) with (bpow radix2 (-10)); apply bp; u).
  assert (t1 : t <= / 1024) by (unfold t; change (/ 1024) with (bpow radix2 (-10)); apply bp; u).
  assert (te : t <= e / 64) by (unfold t, e, Rdiv; change (/ 64) with (bpow radix2 (-6)); rewrite <- bpow_plus; apply bp; u).
  unfold dotF, mulF, addF.
  set (x0 := c0 v * c0 w) in *. set (x1 := c1 v * c1 w) in *. set (x2 := c2 v * c2 w) in *. set (x3 := c3 v * c3 w) in *.
  assert (ES : S = Rabs x0 + Rabs x1 + Rabs x2 + Rabs x3) by reflexivity.
  assert (ED : dot v w = x0 + x1 + x2 + x3) by reflexivity. rewrite ED. clearbody S x0 x1 x2 x3. clear ED.
  assert (P0 := Rabs_pos x0). assert (P1 := Rabs_pos x1). assert (P2 := Rabs_pos x2). assert (P3 := Rabs_pos x3).
  assert (SP : 0 <= S) by lra.
  set (W := 2 * S + 1). set (dd := e * W + t).
  assert (Z0 : 0 <= e * S) by (apply Rmult_le_pos; lra).
  assert (Z1 : e * S <= / 1024 * S) by (apply Rmult_le_compat_r; lra).
  assert (EW : dd = 2 * (e * S) + e + t) by (unfold dd, W; ring).
  assert (D1 : 7 * dd <= uF * (1 + S)). { rewrite A, EW. replace (16 * e * (1 + S)) with (16 * (e * S) + 16 * e) by ring. lra. }
  assert (D2 : 7 * dd <= S + 1) by lra. assert (D0 : 0 <= dd) by lra. clear Z0 Z1 EW.
  assert (St : forall x, Rabs x <= W -> exists v, finF x = Ok v /\ Rabs (v - x) <= dd) by (intros x Hx; apply (rF_step x W Hx); unfold W; lra).
  assert (WS : W = S + (S + 1)) by (unfold W; ring).
  clearbody dd W. clear A C0 M H e t Pe Pt e1 t1 te.
  assert (ab : forall x, - Rabs x <= x <= Rabs x) by (intros x; split; [generalize (Rle_abs (- x)); rewrite Rabs_Ropp; lra|apply Rle_abs]).
  assert (A0 := ab x0). assert (A1 := ab x1). assert (A2 := ab x2). assert (A3 := ab x3).
  assert (iv : forall a b, Rabs (a - b) <= dd -> b - dd <= a <= b + dd) by (intros a b Hab; assert (Q := ab (a - b)); lra).
  assert (ub : forall x, - W <= x <= W -> Rabs x <= W) by (intros x Hx; apply Rabs_le; exact Hx).
  destruct (St x0 ltac:(lra)) as (a & -> & Ea). apply iv in Ea. cbn [bindR].
  destruct (St x1 ltac:(lra)) as (b & -> & Eb). apply iv in Eb. cbn [bindR].
  destruct (St (a + b) (ub (a + b) ltac:(lra))) as (s1 & -> & Es1). apply iv in Es1. cbn [bindR].
  destruct (St x2 ltac:(lra)) as (c & -> & Ec). apply iv in Ec. cbn [bindR].
  destruct (St (s1 + c) (ub (s1 + c) ltac:(lra))) as (s2 & -> & Es2). apply iv in Es2. cbn [bindR].
  destruct (St x3 ltac:(lra)) as (d & -> & Ed). apply iv in Ed. cbn [bindR].
  destruct (St (s2 + d) (ub (s2 + d) ltac:(lra))) as (s3 & -> & Es3). apply iv in Es3.
  exists s3. split; [reflexivity|]. apply Rabs_le. lra.
Qed.
Lemma ieee_ok L : libm_ok L -> accurate uF (ieee L).
Proof.
  intros H. assert (X : forall x, 0 <= x -> uF * x <= 1 -> x <= bpow radix2 (emax F - 1)) by (intros x Hx Q; rewrite <- (Rabs_right x) in Q |- * by lra; apply uF_big; exact Q).
  split; cbn [ieee a_num a_add a_sub a_mul a_div a_pow a_powr a_sin a_cos a_tan a_log a_exp a_sqrt a_dot]; unfold addF, mulF; intros; try (apply rF_rounds; assumption).
  - destruct (Req_EM_T y 0) as [E|E]; [contradiction|]. apply rF_rounds; assumption.
  - apply ulp4_rounds, (ok_pow L H); [assumption|apply uF_big; assumption].
  - apply ulp4_rounds, (ok_powr L H); [assumption|apply uF_big; assumption].
  - apply ulp4_rounds, (ok_sin L H).
  - apply ulp4_rounds, (ok_cos L H).
  - apply ulp4_rounds, (ok_tan L H); [assumption|apply uF_big; assumption].
  - apply ulp4_rounds, (ok_log L H); [assumption|apply uF_big; assumption].
  - apply ulp4_rounds, (ok_exp L H). apply X; [apply Rlt_le, exp_pos|assumption].
  - destruct (Rle_dec 0 x) as [E|E]; [|contradiction]. apply rF_rounds. rewrite Rabs_right by (apply Rle_ge, sqrt_pos). assumption.
  - apply dotF_ok. assumption.
Qed.
(** such a libm exists: the correctly rounded one *)
Definition nearest_libm : libm := mklibm (fun x n => Ok (rF (powerRZ x n))) (fun x p => Ok (rF (Rpower x p))) (fun x => Ok (rF (sin x))) (fun x => Ok (rF (cos x))) (fun x => Ok (rF (tan x)))
  (fun x => Ok (rF (ln x))) (fun x => Ok (rF (exp x))).
Lemma rF_ulp4 x : ulp4 (Ok (rF x)) x.
Proof.
  exists (rF x). split; [reflexivity|]. eapply Rle_trans; [apply rF_error|]. apply Rplus_le_compat; [apply Rmult_le_compat_r; [apply Rabs_pos|apply bp; u]|apply bp; u].
Qed.
Lemma nearest_libm_ok : libm_ok nearest_libm.
Proof. split; intros; apply rF_ulp4. Qed.
End Format.

(** every usable IEEE format with a 4-ulp libm is an accurate arithmetic, with unit roundoff 2^(4-p) *)
Theorem ieee_accurate F L : usable F -> libm_ok F L -> accurate (uF F) (ieee F L).
Proof. intros H. exact (ieee_ok F H L). Qed.
Lemma binary64_usable : usable binary64.
Proof. cbv. repeat split; discriminate. Qed.
Lemma binary128_usable : usable binary128.
Proof. cbv. repeat split; discriminate. Qed.
(** formats of every precision exist, so the unit roundoff can be as small as desired *)
Lemma uF_small r : 0 < r -> exists p0, (11 <= p0)%Z /\ forall F, (p0 <= prec F)%Z -> 0 < uF F < r.
Proof.
  intros H. exists (Z.max 11 (5 - mag radix2 r + 1)). split; [lia|]. intros F HF. unfold uF. split; [apply bpow_gt_0|].
  assert (He := bpow_mag_le radix2 r (Rgt_not_eq _ _ H)). rewrite Rabs_right in He by lra.
  eapply Rlt_le_trans; [|exact He]. apply bpow_lt. lia.
Qed.
