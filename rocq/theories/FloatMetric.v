(** Rounding errors of the numeric metric classes. *)
From Coq Require Import String Reals List ZArith Lra Lia Bool.
From Coquelicot Require Import Coquelicot.
From Verif Require Import Base Calc DualModel DualSpec DualProofs DualDiff GeoUtilsModel GeoUtilsSpec GeoUtilsProofs CoordModel CoordProofs2 ConvModel ConvProofs FantasyModel FantasyHam ProgCont FantasyOrder FantasyGlobal FantasyGlobal2 FantasyGlobal3
  RKModel RKProofs RKOrder RKOrder2 RKGlobal RKGlobal2 RKProg
  MetricModel MetricSpec MetricProofs MetricProofs3 FloatModel FloatExact FloatTrack FloatGlobal FloatTraj FloatRK FloatRK2.
From Verif Require Import FloatRKG FloatMetricModel.
From Verif Require Import FloatLU FloatLU5.
Import ListNotations.
Open Scope R_scope.

(** ** what is assumed of np.tan and np.linalg.inv *)
(** np.tan keeps its relative accuracy where the tangent is large, and is huge where there is none (no float is such a point) *)
Definition tan_ok (u : R) (A : arith) : Prop := forall x, u * Rabs x <= 1 ->
  (cos x <> 0 -> 1 <= Rabs (tan x) -> exists t, a_tan A x = Ok t /\ Rabs (t - tan x) <= u * Rabs (tan x)) /\
  (cos x = 0 -> exists t, a_tan A x = Ok t /\ 1 <= u * Rabs t).
(** sum of the absolute values of the entries *)
Definition nrm (m : M4) : R := sum4 (fun i => sum4 (fun j => Rabs (mnth m i j))).
(** the inverse is computed with relative error K u cond(m): the textbook bound for Gaussian elimination with partial pivoting *)
Definition inv_ok (K u : R) (inv : M4 -> Res M4) : Prop := forall m mi, is_inverse m mi -> K * u * (nrm m * nrm mi) <= 1 ->
  exists w, inv m = Ok w /\ forall i j, (i < 4)%nat -> (j < 4)%nat -> Rabs (mnth w i j - mnth mi i j) <= K * u * (nrm m * nrm mi) * nrm mi.
(** operations on zero are exact *)
Definition zero_ok (A : arith) : Prop := a_num A 0 = Ok 0 /\ a_pow A 0 2 = Ok 0 /\ (forall y, a_mul A 0 y = Ok 0) /\ (forall y, y <> 0 -> a_div A 0 y = Ok 0) /\ a_sqrt A 0 = Ok 0.
(** np.linalg.inv is either LAPACK's elimination carried out in the same arithmetic (FloatLU.v), or any other inverse with the textbook bound *)
Definition inverts (K u : R) (e : fenv) : Prop := (forall m, fe_inv e m = lu_inv (fe_A e) m) \/ inv_ok K u (fe_inv e).
Definition good (K u : R) (e : fenv) : Prop := accurate u (fe_A e) /\ tan_ok u (fe_A e) /\ inverts K u e /\ zero_ok (fe_A e).
Definition inv4 (m : M4) : M4 := mtab (fun i j => mnth (adj4 m) i j / det4 m).
Lemma inv4_inverse m : det4 m <> 0 -> is_inverse m (inv4 m).
Proof. intros H. apply np_inv_ok. unfold np_inv. destruct (Req_EM_T (det4 m) 0); [contradiction|reflexivity]. Qed.

Section Track.
Context {J : Type} (F : (J -> Prop) -> Prop) {FF : Filter F} (u : J -> R) (K : R) (e : J -> fenv).
Hypothesis HK : 0 <= K.
Hypothesis Hu0 : F (fun j => 0 <= u j).
Hypothesis Hu : filterlim u F (locally 0).
Hypothesis HE : F (fun j => good K (u j) (e j)).
Definition AA (j : J) := fe_A (e j).
Lemma HAA : F (fun j => accurate (u j) (AA j)).
Proof. generalize HE. apply filter_imp. intros j H. apply H. Qed.
Notation nrF := (nr F u).
Notation oktoF := (okto F u).
Definition nrE (n : nat) (q x : J -> nat -> R) (l : nat -> R) : Prop := forall i, (i < n)%nat -> nrF (fun j => q j i) (fun j => x j i) (l i).

Lemma runF_ok n q x l p : nrE n q x l -> below n p = true -> defined_at l p -> oktoF (fun j => runF (AA j) (q j) p) (fun j => meaning (x j) p) (meaning l p).
Proof.
  intros H Hb Hd. destruct (run_ok F u AA Hu0 Hu HAA false n 0 (fun k j => q j k) (fun k j => x j k) l H p Hb Hd) as (w & E & v & Ew & N & _).
  unfold runF. apply (okT_bind F _ (fun w => exists v, (forall j, w j = PF (v j)) /\ nrF v (fun j => meaning (x j) p) (meaning l p))).
  - exists w. split; [exact E|]. exists v. split; [exact Ew|exact N].
  - intros w' (v' & Ew' & N'). exists v'. split; [|exact N']. unfold evok. apply filter_forall. intros j. rewrite Ew'. reflexivity.
Qed.
Lemma ext_ok n m q x l (w z : J -> list R) (a : list R) : nrE n q x l -> (forall i, (i < m)%nat -> nrF (fun j => nth i (w j) 0) (fun j => nth i (z j) 0) (nth i a 0)) ->
  nrE (n + m) (fun j => ext n (q j) (w j)) (fun j => ext n (x j) (z j)) (ext n l a).
Proof. intros H1 H2 i Hi. unfold ext. destruct (Nat.ltb_spec i n) as [L|L]; [apply H1; exact L|]. apply H2. lia. Qed.
Lemma matF_ok n q x l es : nrE n q x l -> (forall i j, (i < 4)%nat -> (j < 4)%nat -> below n (es i j) = true /\ defined_at l (es i j)) ->
  oktoM F u (fun j => matF (AA j) (q j) es) (fun j => mtab (fun a b => meaning (x j) (es a b))) (mtab (fun a b => meaning l (es a b))).
Proof.
  intros H Hd. destruct (evok_mat F (fun a b j => runF (AA j) (q j) (es a b)) (fun a b v => nrF v (fun j => meaning (x j) (es a b)) (meaning l (es a b)))) as (v & Ev & Hv).
  { intros a b Ha Hb. destruct (Hd a b Ha Hb). apply (runF_ok n); assumption. }
  exists (fun j => mtab (fun a b => v a b j)). split; [exact Ev|]. intros a b Ha Hb. rewrite mnth_tab' by assumption. generalize (Hv a b Ha Hb).
  apply nr_ext_all; [exact FF|intros j; rewrite mnth_tab' by assumption; reflexivity|intros j; rewrite mnth_tab' by assumption; reflexivity].
Qed.

(** ** the inverse *)
Ltac nrauto := repeat first [apply (nr_minus F u Hu0 Hu)|apply (nr_plus F u)|apply (nr_mult F u Hu0 Hu)|apply (nr_const F u)].
Lemma nrM_minor v x l a b : (a < 4)%nat -> (b < 4)%nat -> nrM F u v x l -> nrF (fun j => minor4 (v j) a b) (fun j => minor4 (x j) a b) (minor4 l a b).
Proof.
  intros Ha Hb H. assert (S : forall i k, (i < 4)%nat -> (k < 3)%nat -> (skip i k < 4)%nat) by (intros i k Hi Hk; unfold skip; destruct (Nat.ltb k i); lia).
  unfold minor4. nrauto; apply H; apply S; lia.
Qed.
Lemma nrM_det v x l : nrM F u v x l -> nrF (fun j => det4 (v j)) (fun j => det4 (x j)) (det4 l).
Proof. intros H. unfold det4. repeat first [apply H; lia|apply nrM_minor; [lia|lia|exact H]|apply (nr_minus F u Hu0 Hu)|apply (nr_plus F u)|apply (nr_mult F u Hu0 Hu)]. Qed.
Lemma nrM_inv v x l : det4 l <> 0 -> nrM F u v x l -> nrM F u (fun j => inv4 (v j)) (fun j => inv4 (x j)) (inv4 l).
Proof.
  intros D H a b Ha Hb. unfold inv4. rewrite mnth_tab' by assumption.
  apply (nr_ext_all F u (fun j => mnth (adj4 (v j)) a b / det4 (v j)) (fun j => mnth (adj4 (x j)) a b / det4 (x j))).
  { intros j. rewrite mnth_tab' by assumption. reflexivity. } { intros j. rewrite mnth_tab' by assumption. reflexivity. }
  apply (nr_div F u Hu0 Hu); [exact D| |apply nrM_det; exact H]. unfold adj4. rewrite mnth_tab' by assumption.
  apply (nr_ext_all F u (fun j => sgn4 a b * minor4 (v j) b a) (fun j => sgn4 a b * minor4 (x j) b a)).
  { intros j. rewrite mnth_tab' by assumption. reflexivity. } { intros j. rewrite mnth_tab' by assumption. reflexivity. }
  apply (nr_mult F u Hu0 Hu); [apply (nr_const F u)|]. apply nrM_minor; assumption.
Qed.
Lemma nrM_nrm v x l : nrM F u v x l -> nrF (fun j => nrm (v j)) (fun j => nrm (x j)) (nrm l).
Proof. intros H. unfold nrm, sum4. repeat apply (nr_plus F u); apply (nr_fun F u Hu0 Hu Rabs); try apply loclip_abs; apply H; lia. Qed.
Lemma inv_track v x l : det4 l <> 0 -> nrM F u v x l -> oktoM F u (fun j => fe_inv (e j) (v j)) (fun j => inv4 (x j)) (inv4 l).
Proof.
  intros D H. assert (N := nrM_inv v x l D H). assert (N1 := nrM_nrm _ _ _ H). assert (N2 := nrM_nrm _ _ _ N).
  set (B1 := Rabs (nrm l) + 1). set (B2 := Rabs (nrm (inv4 l)) + 1). assert (P1 : 0 < B1) by (unfold B1; assert (Z := Rabs_pos (nrm l)); lra). assert (P2 : 0 < B2) by (unfold B2; assert (Z := Rabs_pos (nrm (inv4 l))); lra).
  assert (Q0 : forall m, 0 <= nrm m) by (intros m; unfold nrm, sum4; repeat apply Rplus_le_le_0_compat; apply Rabs_pos).
  assert (Bd : F (fun j => K * u j * (nrm (v j) * nrm (inv4 (v j))) <= K * (B1 * B2) * u j /\ nrm (inv4 (v j)) <= B2 /\ 0 <= u j)).
  { generalize (filter_and _ _ (filter_and _ _ (nr_bound F u Hu0 Hu _ _ _ N1) (nr_bound F u Hu0 Hu _ _ _ N2)) Hu0). apply filter_imp. intros j [[[X1 _] [X2 _]] X0]. fold B1 in X1. fold B2 in X2.
    rewrite Rabs_right in X1 by (apply Rle_ge, Q0). rewrite Rabs_right in X2 by (apply Rle_ge, Q0). split; [|split; [exact X2|exact X0]].
    replace (K * (B1 * B2) * u j) with (K * u j * (B1 * B2)) by ring. apply Rmult_le_compat_l; [apply Rmult_le_pos; assumption|]. apply Rmult_le_compat; try apply Q0; assumption. }
  assert (P3 : 0 < K * (B1 * B2) + 1). { assert (0 <= K * (B1 * B2)) by (apply Rmult_le_pos; [exact HK|]; apply Rmult_le_pos; lra). lra. }
  destruct (lu_local l (inv4 l) (inv4_inverse l D)) as (rl & Cl & Prl & PCl & HL). assert (KB : 0 <= K * (B1 * B2) * B2) by (repeat apply Rmult_le_pos; lra).
  assert (Cs : F (fun j => forall a b, (a < 4)%nat -> (b < 4)%nat -> Rabs (mnth (v j) a b - mnth l a b) <= rl)).
  { assert (G : forall a b, (a < 4)%nat -> (b < 4)%nat -> F (fun j => Rabs (mnth (v j) a b - mnth l a b) <= rl)).
    { intros a b Ha Hb. generalize (nr_close F u Hu0 Hu _ _ _ rl Prl (H a b Ha Hb)). apply filter_imp. intros j [X _]. left. exact X. }
    assert (G4 : forall n, (n <= 4)%nat -> F (fun j => forall a b, (a < n)%nat -> (b < 4)%nat -> Rabs (mnth (v j) a b - mnth l a b) <= rl)).
    { induction n as [|n IH]; intros Hn; [apply filter_forall; intros j a b Ha; lia|]. assert (T := IH ltac:(lia)). assert (T0 := G n 0%nat ltac:(lia) ltac:(lia)). assert (T1 := G n 1%nat ltac:(lia) ltac:(lia)). assert (T2 := G n 2%nat ltac:(lia) ltac:(lia)). assert (T3 := G n 3%nat ltac:(lia) ltac:(lia)). generalize (filter_and _ _ T (filter_and _ _ (filter_and _ _ T0 T1) (filter_and _ _ T2 T3))).
      apply filter_imp. intros j [X [[Y0 Y1] [Y2 Y3]]] a b Ha Hb. destruct (Nat.eq_dec a n) as [->|Ne]; [|apply X; lia]. destruct b as [|[|[|[|b]]]]; try assumption; lia. }
    apply (G4 4%nat). lia. }
  assert (W : F (fun j => exists w, fe_inv (e j) (v j) = Ok w /\ forall a b, (a < 4)%nat -> (b < 4)%nat -> Rabs (mnth w a b - mnth (inv4 (v j)) a b) <= (K * (B1 * B2) * B2 + Cl) * u j)).
  { assert (U1 := u_small F u Hu (rl / 2) ltac:(lra)). assert (U2 := u_small F u Hu (/ (K * (B1 * B2) + 1)) ltac:(apply Rinv_0_lt_compat; exact P3)). assert (U3 := nr_ne0 F u Hu0 Hu _ _ _ D (nrM_det _ _ _ H)).
    generalize (filter_and _ _ (filter_and _ _ (filter_and _ _ Bd HE) (filter_and _ _ Cs U1)) (filter_and _ _ U3 U2)).
    apply filter_imp. intros j [[[[X1 [X2 X0]] (XA & _ & [XL|X3] & _)] [XC XU]] [X4 X5]].
    { destruct (HL (u j) (fe_A (e j)) (v j) (inv4 (v j)) ltac:(lra) XA XC (inv4_inverse _ X4)) as (w & Ew & Hw). exists w. split; [rewrite XL; exact Ew|]. intros a b Ha Hb. eapply Rle_trans; [apply Hw; assumption|]. apply Rmult_le_compat_r; lra. }
    assert (S : K * u j * (nrm (v j) * nrm (inv4 (v j))) <= 1).
    { eapply Rle_trans; [exact X1|]. apply Rle_trans with ((K * (B1 * B2) + 1) * u j); [apply Rmult_le_compat_r; lra|]. apply Rle_trans with ((K * (B1 * B2) + 1) * / (K * (B1 * B2) + 1)); [apply Rmult_le_compat_l; lra|]. rewrite Rinv_r by lra. lra. }
    destruct (X3 (v j) (inv4 (v j)) (inv4_inverse _ X4) S) as (w & E & Hw). exists w. split; [exact E|]. intros a b Ha Hb. eapply Rle_trans; [apply Hw; assumption|].
    apply Rle_trans with (K * (B1 * B2) * B2 * u j); [|apply Rmult_le_compat_r; lra].
    replace (K * (B1 * B2) * B2 * u j) with (K * (B1 * B2) * u j * B2) by ring. apply Rmult_le_compat; [| |exact X1|exact X2]; [|apply Q0]. apply Rmult_le_pos; [apply Rmult_le_pos; assumption|apply Rmult_le_pos; apply Q0]. }
  exists (fun j => match fe_inv (e j) (v j) with Ok w => w | Err _ => inv4 (v j) end). split.
  { unfold evok. revert W. apply filter_imp. intros j (w & E & _). rewrite E. reflexivity. }
  intros a b Ha Hb. destruct (N a b Ha Hb) as [L (C & HC & N')]. split; [exact L|]. exists (K * (B1 * B2) * B2 + Cl + C). split; [lra|].
  generalize (filter_and _ _ W N'). apply filter_imp. intros j [(w & E & Hw) N3]. rewrite E. specialize (Hw a b Ha Hb).
  replace (mnth w a b - mnth (inv4 (x j)) a b) with ((mnth w a b - mnth (inv4 (v j)) a b) + (mnth (inv4 (v j)) a b - mnth (inv4 (x j)) a b)) by ring.
  eapply Rle_trans; [apply Rabs_triang|]. rewrite Rmult_plus_distr_r. lra.
Qed.
Lemma nth_mat_list m k : (k < 16)%nat -> nth k (mat_list m) 0 = mnth m (k / 4) (k mod 4).
Proof. intros H. unfold mat_list. do 16 (destruct k as [|k]; [reflexivity|]). lia. Qed.
Lemma mat_list_ok v x l : nrM F u v x l -> forall k, (k < 16)%nat -> nrF (fun j => nth k (mat_list (v j)) 0) (fun j => nth k (mat_list (x j)) 0) (nth k (mat_list l) 0).
Proof.
  intros H k Hk. rewrite nth_mat_list by exact Hk. apply (nr_ext_all F u (fun j => mnth (v j) (k / 4) (k mod 4)) (fun j => mnth (x j) (k / 4) (k mod 4))).
  { intros j. rewrite nth_mat_list by exact Hk. reflexivity. } { intros j. rewrite nth_mat_list by exact Hk. reflexivity. }
  apply H; [apply Nat.div_lt_upper_bound; lia|apply Nat.mod_upper_bound; lia].
Qed.
(** ** 1 / np.tan *)
Lemma cot_pole A w v : 0 <= w <= / 2 -> accurate w A -> tan_ok w A -> w * Rabs v <= 1 -> Rabs (cos v) <= / 2 -> exists k, (let* t := a_tan A v in a_div A 1 t) = Ok k /\ Rabs (k - cos v / sin v) <= 6 * w.
Proof.
  intros Hw HA HT Hv Hc. assert (SC := sin2_cos2 v). unfold Rsqr in SC.
  assert (C2 : Rabs (cos v) * Rabs (cos v) = cos v * cos v) by (rewrite <- Rabs_mult; apply Rabs_right; apply Rle_ge, Rle_0_sqr).
  assert (S2 : Rabs (sin v) * Rabs (sin v) = sin v * sin v) by (rewrite <- Rabs_mult; apply Rabs_right; apply Rle_ge, Rle_0_sqr).
  assert (Pc := Rabs_pos (cos v)). assert (Ps := Rabs_pos (sin v)). assert (Sn : / 2 <= Rabs (sin v)) by nra. assert (S0 : sin v <> 0) by (intros E; rewrite E, Rabs_R0 in Sn; lra).
  destruct (HT v Hv) as [H1 H2].
  assert (D : forall t, t <> 0 -> Rabs (/ t) <= 2 -> exists k, a_div A 1 t = Ok k /\ Rabs (k - / t) <= 3 * w).
  { intros t Ht Hi. destruct (acc_div _ _ HA 1 t Ht) as (k & E & B). { unfold Rdiv. rewrite Rmult_1_l. nra. } exists k. split; [exact E|]. unfold Rdiv in B. rewrite Rmult_1_l in B. eapply Rle_trans; [exact B|]. nra. }
  destruct (Req_dec (cos v) 0) as [E0|E0].
  - destruct (H2 E0) as (t & Et & Bt). rewrite Et. cbn [bindR]. assert (Ht : t <> 0) by (intros E; rewrite E, Rabs_R0, Rmult_0_r in Bt; lra).
    assert (Pt : 0 < Rabs t) by (apply Rabs_pos_lt; exact Ht). assert (It : Rabs (/ t) <= w). { rewrite Rabs_inv. apply (Rmult_le_reg_r (Rabs t)); [exact Pt|]. rewrite Rinv_l by lra. exact Bt. }
    destruct (D t Ht ltac:(lra)) as (k & Ek & Bk). exists k. split; [exact Ek|]. rewrite E0. unfold Rdiv. rewrite Rmult_0_l.
    replace (k - 0) with ((k - / t) + / t) by ring. eapply Rle_trans; [apply Rabs_triang|]. lra.
  - assert (PC : 0 < Rabs (cos v)) by (apply Rabs_pos_lt; exact E0).
    assert (T1 : 1 <= Rabs (tan v)). { unfold tan, Rdiv. rewrite Rabs_mult, Rabs_inv. apply (Rmult_le_reg_r (Rabs (cos v))); [exact PC|]. rewrite Rmult_assoc, Rinv_l by lra. lra. }
    destruct (H1 E0 T1) as (t & Et & Bt). rewrite Et. cbn [bindR]. assert (LT : / 2 <= Rabs t).
    { replace (tan v) with (t - (t - tan v)) in T1 by ring. assert (Z := Rabs_triang t (- (t - tan v))). rewrite Rabs_Ropp in Z. replace (t + - (t - tan v)) with (tan v) in Z by ring.
      assert (Q : w * Rabs (tan v) <= / 2 * Rabs (tan v)) by (apply Rmult_le_compat_r; [apply Rabs_pos|lra]). replace (t - (t - tan v)) with (tan v) in T1 by ring. lra. }
    assert (Ht : t <> 0) by (intros E; rewrite E, Rabs_R0 in LT; lra). assert (It : Rabs (/ t) <= 2). { rewrite Rabs_inv. rewrite <- (Rinv_inv 2). apply Rinv_le_contravar; lra. }
    destruct (D t Ht It) as (k & Ek & Bk). exists k. split; [exact Ek|]. assert (T0 : tan v <> 0) by (intros E; rewrite E, Rabs_R0 in T1; lra).
    assert (Ec : cos v / sin v = / tan v) by (unfold tan; field; split; assumption). rewrite Ec.
    assert (B2 : Rabs (/ t - / tan v) <= 2 * w).
    { replace (/ t - / tan v) with (- ((t - tan v) * (/ t * / tan v))) by (field; split; assumption). rewrite Rabs_Ropp, !Rabs_mult.
      assert (Pt : 0 < Rabs (tan v)) by lra. apply Rle_trans with (w * Rabs (tan v) * (2 * Rabs (/ tan v))).
      - apply Rmult_le_compat; [apply Rabs_pos| |exact Bt|apply Rmult_le_compat_r; [apply Rabs_pos|exact It]]. apply Rmult_le_pos; apply Rabs_pos.
      - rewrite Rabs_inv. apply Req_le. field. lra. }
    replace (k - / tan v) with ((k - / t) + (/ t - / tan v)) by ring. eapply Rle_trans; [apply Rabs_triang|]. lra.
Qed.
Lemma cot_ok v x l : sin l <> 0 -> nrF v x l -> oktoF (fun j => cotA (e j) (v j)) (fun j => cos (x j) / sin (x j)) (cos l / sin l).
Proof.
  intros S N.
  assert (Nc := nr_fun F u Hu0 Hu cos v x l (loclip_cos l) N). assert (Ns := nr_fun F u Hu0 Hu sin v x l (loclip_sin l) N).
  assert (Nq := nr_div F u Hu0 Hu _ _ _ _ _ _ S Nc Ns).
  destruct (Req_dec (cos l) 0) as [C0|C0].
  - (* the tangent has a pole at l *)
    destruct Nq as [Lq (C & HC & Bq)]. assert (H2p : 0 < / 2) by lra.
    assert (W : F (fun j => exists k, cotA (e j) (v j) = Ok k /\ Rabs (k - cos (v j) / sin (v j)) <= 6 * u j)).
    { generalize (filter_and _ _ (filter_and _ _ (filter_and _ _ HE Hu0) (nr_close F u Hu0 Hu _ _ _ (/ 2) H2p Nc)) (filter_and _ _ (nr_ub F u Hu0 Hu _ _ _ N) (u_small F u Hu (/ 2) H2p))).
      apply filter_imp. intros j [[[(X1 & X2 & _) X3] [X4 _]] [X5 X6]]. rewrite C0, Rminus_0_r in X4. unfold cotA. apply cot_pole; try assumption; lra. }
    exists (fun j => match cotA (e j) (v j) with Ok w => w | Err _ => 0 end). split.
    { unfold evok. revert W. apply filter_imp. intros j (w & E & _). rewrite E. reflexivity. }
    split; [exact Lq|]. exists (6 + C). split; [lra|]. generalize (filter_and _ _ W Bq). apply filter_imp. intros j [(k & E & B) B2]. rewrite E.
    replace (k - cos (x j) / sin (x j)) with ((k - cos (v j) / sin (v j)) + (cos (v j) / sin (v j) - cos (x j) / sin (x j))) by ring.
    eapply Rle_trans; [apply Rabs_triang|]. rewrite Rmult_plus_distr_r. lra.
  - unfold cotA. apply (okT_bind F _ (fun w => nrF w (fun j => tan (x j)) (tan l))). { apply (okto_tan F u AA Hu0 Hu HAA); assumption. }
    intros w Nw. assert (T0 : tan l <> 0). { unfold tan. apply Rmult_integral_contrapositive_currified; [exact S|apply Rinv_neq_0_compat; exact C0]. }
    assert (Q := okto_div F u AA Hu0 Hu HAA (fun _ => 1) (fun _ => 1) 1 w (fun j => tan (x j)) (tan l) T0 (nr_const F u 1) Nw). destruct Q as (z & Ez & Nz). exists z. split; [exact Ez|].
    apply (nr_lim F u _ _ (1 / tan l)). { unfold tan. field. split; assumption. }
    revert Nz. apply (nr_ext F u). { apply filter_forall. intros j. reflexivity. }
    generalize (filter_and _ _ (nr_ne0 F u Hu0 Hu _ _ _ S (nr_self F u _ _ (proj1 Ns))) (nr_ne0 F u Hu0 Hu _ _ _ C0 (nr_self F u _ _ (proj1 Nc)))). apply filter_imp. intros j [A1 A2]. unfold tan. field. split; assumption.
Qed.

(** ** Boyer-Lindquist metrics *)
Section BL.
Variables (c G Cc : R) (o : mobj).
Hypothesis Hc : c <> 0.
Definition sgv (z : nat -> R) : R := meaning z (sigmaE c G o).
Definition dlv (z : nat -> R) : R := meaning z (deltaE c G Cc o).
Definition E1 (z : nat -> R) : nat -> R := ext 9 z [sgv z; dlv z].
Definition gM (cov : nat -> nat -> pexpr) (z : nat -> R) : M4 := mtab (fun a b => meaning (E1 z) (cov a b)).
Definition E2 (cov : nat -> nat -> pexpr) (z : nat -> R) : nat -> R := ext 11 (E1 z) (mat_list (inv4 (gM cov z))).
Lemma c2ne : powerRZ c 2 <> 0. Proof. apply powerRZ_NOR. exact Hc. Qed.
Lemma c4ne : powerRZ c 4 <> 0. Proof. apply powerRZ_NOR. exact Hc. Qed.
Ltac defs := cbn [defined_at meaning]; repeat match goal with |- _ /\ _ => split end; try exact I; try (left; reflexivity); try (left; discriminate); first [exact c2ne|exact c4ne|idtac].
Lemma sigma_ok q x l : nrE 9 q x l -> oktoF (fun j => runF (AA j) (q j) (sigmaE c G o)) (fun j => sgv (x j)) (sgv l).
Proof. intros H. apply (runF_ok 9); [exact H|reflexivity|]. unfold sigmaE, alphaE. defs. Qed.
Lemma delta_ok q x l : nrE 9 q x l -> oktoF (fun j => runF (AA j) (q j) (deltaE c G Cc o)) (fun j => dlv (x j)) (dlv l).
Proof. intros H. apply (runF_ok 9); [exact H|reflexivity|]. unfold deltaE, alphaE. defs. Qed.
Definition parok (par : J -> (nat -> R) -> Res (nat -> R)) : Prop := forall q x l, nrE 9 q x l -> sgv l <> 0 -> okT F (fun j => par j (q j)) (fun w => nrE 11 w (fun j => E1 (x j)) (E1 l)).
Lemma sgv_sq z : sgv z = (z 2%nat) ^ 2 + (meaning z (alphaE c G o) * cos (z 3%nat)) ^ 2.
Proof. unfold sgv, sigmaE. cbn [meaning]. reflexivity. Qed.
Lemma sgv_ge z : 0 <= sgv z.
Proof. rewrite sgv_sq. apply Rplus_le_le_0_compat; apply pow2_ge_0. Qed.
Lemma pair_ok q x l a b (va vb : J -> R) : nrE 9 q x l -> nrF va (fun j => a (x j)) (a l) -> nrF vb (fun j => b (x j)) (b l) ->
  nrE 11 (fun j => ext 9 (q j) [va j; vb j]) (fun j => ext 9 (x j) [a (x j); b (x j)]) (ext 9 l [a l; b l]).
Proof. intros H Ha Hb. apply (ext_ok 9 2 q x l _ (fun j => [a (x j); b (x j)])); [exact H|]. intros [|[|i]] Hi; cbn [nth]; [exact Ha|exact Hb|lia]. Qed.
Lemma spin_eq : valid_spin o -> spin_check c G o = Ok tt.
Proof.
  intros [A B]. unfold spin_check, bm_alpha. cbn [prim]. destruct (Rlt_dec (q_val (mo_a o)) 0); [lra|]. destruct (Rlt_dec 1 (q_val (mo_a o))); [lra|]. reflexivity.
Qed.
Lemma kerr_par_ok : valid_spin o -> parok (fun j => kerr_parA (e j) c G Cc o).
Proof.
  intros S q x l H _. unfold kerr_parA. rewrite spin_eq by exact S. cbn [bindR]. apply (okT_bind F _ _ _ _ (sigma_ok q x l H)). intros va Na. apply (okT_bind F _ _ _ _ (delta_ok q x l H)). intros vb Nb.
  apply (okT_ok F). apply (pair_ok q x l sgv dlv); assumption.
Qed.
Lemma kn_par_ok : valid_spin o -> parok (fun j => kn_parA (e j) c G Cc o).
Proof.
  intros S q x l H D. assert (P : 0 < sgv l) by (destruct (sgv_ge l); [assumption|congruence]). unfold kn_parA. rewrite spin_eq by exact S. cbn [bindR]. apply (okT_bind F _ _ _ _ (sigma_ok q x l H)). intros va Na.
  apply (okT_bind F _ _ _ _ (okto_sqrt F u AA Hu0 Hu HAA _ _ _ P Na)). intros vr Nr.
  assert (Z2 : (0 <= 2)%Z) by lia. apply (okT_bind F _ _ _ _ (okto_pow F u AA Hu0 Hu HAA _ _ _ 2 (or_introl Z2) Nr)). intros vs Ns.
  apply (okT_bind F _ _ _ _ (delta_ok q x l H)). intros vb Nb. apply (okT_ok F). apply (pair_ok q x l sgv dlv); [exact H| |exact Nb].
  assert (Q : forall z, powerRZ (sqrt (sgv z)) 2 = sgv z) by (intros z; change (sqrt (sgv z) ^ 2 = sgv z); apply pow2_sqrt; apply sgv_ge).
  rewrite <- (Q l). revert Ns. apply (nr_ext_all F u); [reflexivity|]. intros j. apply Q.
Qed.
Lemma cov_ok par cov q x l : parok par -> nrE 9 q x l -> sgv l <> 0 -> mo_sys o = BL -> (forall i j, (i < 4)%nat -> (j < 4)%nat -> below 11 (cov i j) = true /\ defined_at (E1 l) (cov i j)) ->
  oktoM F u (fun j => bl_covA (e j) o (par j) cov (q j)) (fun j => gM cov (x j)) (gM cov l).
Proof.
  intros Hp H D Sy Hd. unfold bl_covA. rewrite Sy. apply (okT_bind F _ _ _ _ (Hp q x l H D)). intros w N. apply (matF_ok 11 w (fun j => E1 (x j)) (E1 l) cov N Hd).
Qed.
Lemma env_ok par cov q x l : parok par -> nrE 9 q x l -> sgv l <> 0 -> mo_sys o = BL -> (forall i j, (i < 4)%nat -> (j < 4)%nat -> below 11 (cov i j) = true /\ defined_at (E1 l) (cov i j)) ->
  det4 (gM cov l) <> 0 -> okT F (fun j => bl_envA (e j) o (par j) cov (q j)) (fun w => nrE 27 w (fun j => E2 cov (x j)) (E2 cov l)).
Proof.
  intros Hp H D Sy Hd Dt. unfold bl_envA, bl_invA.
  apply (okT_bind F _ (fun v => nrM F u v (fun j => inv4 (gM cov (x j))) (inv4 (gM cov l)))).
  { apply (okT_bind F _ _ _ _ (cov_ok par cov q x l Hp H D Sy Hd)). intros v N. apply inv_track; assumption. }
  intros v N. apply (okT_bind F _ _ _ _ (Hp q x l H D)). intros w Nw. apply (okT_ok F). apply (ext_ok 11 16); [exact Nw|]. apply (mat_list_ok v (fun j => inv4 (gM cov (x j)))). exact N.
Qed.
Lemma vec_ok n q x l es : nrE n q x l -> (forall i, (i < 4)%nat -> below n (es i) = true /\ defined_at l (es i)) ->
  oktoV F u (fun j => q4seq (q4tab (fun i => runF (AA j) (q j) (es i)))) (fun j => q4tab (fun i => meaning (x j) (es i))) (q4tab (fun i => meaning l (es i))).
Proof.
  intros H Hd. apply (oktoV_tab F u (fun i j => runF (AA j) (q j) (es i))). intros i Hi. destruct (Hd i Hi). rewrite q4nth_tab by exact Hi.
  destruct (runF_ok n q x l (es i) H) as (v & E & N); [assumption|assumption|]. exists v. split; [exact E|]. revert N. apply (nr_ext_all F u); [reflexivity|]. intros j. rewrite q4nth_tab by exact Hi. reflexivity.
Qed.
Definition nr3 (v : J -> Q4 M4) (x : J -> arr3) (l : arr3) : Prop := forall i a b, (i < 4)%nat -> (a < 4)%nat -> (b < 4)%nat -> nrF (fun j => mnth (q4nth (v j) i) a b) (fun j => x j i a b) (l i a b).
Lemma arr3_ok n q x l es : nrE n q x l -> (forall i a b, (i < 4)%nat -> (a < 4)%nat -> (b < 4)%nat -> below n (es i a b) = true /\ defined_at l (es i a b)) ->
  okT F (fun j => arr3A (e j) (q j) es) (fun v => nr3 v (fun j i a b => meaning (x j) (es i a b)) (fun i a b => meaning l (es i a b))).
Proof.
  intros H Hd. assert (M : forall i, (i < 4)%nat -> exists v, evok F (fun j => matF (AA j) (q j) (es i)) v /\ nrM F u v (fun j => mtab (fun a b => meaning (x j) (es i a b))) (mtab (fun a b => meaning l (es i a b)))).
  { intros i Hi. apply (matF_ok n); [exact H|]. intros a b. apply Hd. exact Hi. }
  destruct (M 0%nat ltac:(lia)) as (v0 & A0 & B0), (M 1%nat ltac:(lia)) as (v1 & A1 & B1), (M 2%nat ltac:(lia)) as (v2 & A2 & B2), (M 3%nat ltac:(lia)) as (v3 & A3 & B3).
  exists (fun j => q4tab (fun i => match i with O => v0 | 1 => v1 | 2 => v2 | _ => v3 end%nat j)). split.
  { unfold arr3A. apply (evok_seqV F (fun i j => matF (AA j) (q j) (es i)) (fun i j => match i with O => v0 | 1 => v1 | 2 => v2 | _ => v3 end%nat j)). intros [|[|[|[|i]]]] Hi; try assumption; lia. }
  intros i a b Hi Ha Hb. assert (Q : nrF (fun j => mnth (match i with O => v0 | 1 => v1 | 2 => v2 | _ => v3 end%nat j) a b) (fun j => mnth (mtab (fun a b => meaning (x j) (es i a b))) a b) (mnth (mtab (fun a b => meaning l (es i a b))) a b)).
  { destruct i as [|[|[|[|i]]]]; [apply B0|apply B1|apply B2|apply B3|lia]; assumption. }
  rewrite mnth_tab' in Q by assumption. revert Q. apply (nr_ext_all F u); intros j; [rewrite q4nth_tab by exact Hi; reflexivity|rewrite mnth_tab' by assumption; reflexivity].
Qed.
End BL.
End Track.
