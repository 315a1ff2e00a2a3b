(** C127: geodesics around a black hole that a potential barrier keeps away from the horizon exist for all parameter values. *)
From Coq Require Import String Reals List ZArith Lra Lia Bool.
From Coquelicot Require Import Coquelicot.
From Verif Require Import Base Calc DualModel DualSpec DualProofs DualDiff GeoUtilsModel GeoUtilsSpec GeoUtilsProofs GeodesicModel GeodesicProofs CoordModel CoordProofs2 ConvModel ConvProofs
  FantasyModel FantasyProofs FantasyProofs2 FantasyProofs3 FantasyHam FantasyOrder FantasyGlobal FantasyGlobal2 FantasyGlobal3 FantasyShell FantasyCyclic FantasyCircular FloatModel FantasyCarter FloatPlane ProgCont
  MetricModel MetricSpec MetricProofs MetricProofs2 MetricProofs3 MetricHamilton MetricHamilton2 MetricRK Picard PicardProg.
From Verif Require Import Contin Leave GlobalHole.
Import ListNotations.
Open Scope R_scope.

Lemma eta4 (x : V4) : mk4 (c0 x) (c1 x) (c2 x) (c3 x) = x. Proof. destruct x; reflexivity. Qed.
Section Global.
Variables (g : metricP) (a Q : R) (q0 p0 : V4) (r1 : R).
Hypothesis Hh : hole g a Q.
Hypothesis I0 : independent_of g 0.
Hypothesis I3 : independent_of g 3.
Hypothesis Hr1 : 1 <= r1 < c1 q0.
Hypothesis HD1 : 0 < DeltaS r1 a Q.
Hypothesis Hth : 0 < c2 q0 < PI.
Hypothesis HL : c3 p0 <> 0.
Let H2 := 2 * Ham g q0 p0.
Let B := ap_B g a (fun _ => q0) (fun _ => p0).
Let V := ap_V g a Q (fun _ => q0) (fun _ => p0).
Let s := ap_s g a (fun _ => q0) (fun _ => p0).
Definition B1 (T : R) : R := (c1 q0 + V * T) * (c1 q0 + V * T) * V / DeltaS r1 a Q.

Lemma V_pos : 1 <= V. Proof. apply ap_Vpos. Qed.
Lemma s_pos : 0 < s < 1. Proof. apply ap_spos. exact HL. Qed.
Lemma th_range th : 0 < th < PI -> s <= sin th -> asin s <= th <= PI - asin s.
Proof.
  intros Ht Hs. assert (SP := s_pos). assert (AB := asin_bound s). assert (SA : sin (asin s) = s) by (apply sin_asin; lra).
  assert (AP : 0 <= asin s). { apply Rnot_lt_le. intros Hn. assert (X := sin_lt_0_var (asin s)). assert (PI > 0) by apply PI_RGT_0. specialize (X ltac:(lra) Hn). lra. }
  split; apply Rnot_lt_le; intros Hn.
  - assert (X := sin_increasing_1 th (asin s) ltac:(lra) ltac:(lra) ltac:(lra) ltac:(lra) Hn). lra.
  - assert (X := sin_increasing_1 (PI - th) (asin s) ltac:(lra) ltac:(lra) ltac:(lra) ltac:(lra) ltac:(lra)). rewrite sin_PI_x in X. lra.
Qed.
Lemma th_sin th : asin s <= th <= PI - asin s -> 0 < sin th.
Proof.
  intros Ht. assert (SP := s_pos). assert (SA : sin (asin s) = s) by (apply sin_asin; lra). assert (AB := asin_bound s). assert (PP := PI_RGT_0).
  assert (AP : 0 < asin s). { apply Rnot_le_lt. intros Hn. destruct (Rle_lt_or_eq_dec _ _ Hn) as [Z|Z]; [assert (X := sin_lt_0_var (asin s) ltac:(lra) Z); lra|rewrite Z, sin_0 in SA; lra]. }
  apply sin_gt_0; lra.
Qed.
Lemma box_metric (z : nat -> R) : r1 <= z 1%nat -> asin s <= z 2%nat <= PI - asin s -> metric_defined g z /\ metric_meaning g z = kn_con a Q (z 1%nat) (z 2%nat).
Proof.
  intros Hr Ht. assert (Hs := th_sin _ Ht). assert (DM := delta_mono a Q r1 (z 1%nat) ltac:(lra)). assert (SG := sigma_ge (z 1%nat) (z 2%nat) a).
  destruct Hh as [(W & Sy & KK) _]. destruct (KK (z 0%nat) (z 1%nat) (z 2%nat) (z 3%nat)) as [D M]; [nra|lra|lra|].
  assert (EX : forall i, (i < 4)%nat -> q4nth (mk4 (z 0%nat) (z 1%nat) (z 2%nat) (z 3%nat)) i = z i) by (intros i Hi; nat4 i Hi; reflexivity).
  split; [apply (metric_defined_ext g (q4nth (mk4 (z 0%nat) (z 1%nat) (z 2%nat) (z 3%nat)))); assumption|]. rewrite <- M. symmetry. unfold metric_meaning.
  assert (EE : forall i j, (i < 4)%nat -> (j < 4)%nat -> meaning (q4nth (mk4 (z 0%nat) (z 1%nat) (z 2%nat) (z 3%nat))) (q4nth (q4nth g i) j) = meaning z (q4nth (q4nth g i) j)) by (intros i j Hi Hj; apply (meaning_ext_b 4); [apply (below4 g W i j Hi Hj)|exact EX]).
  apply Q4_eq; apply Q4_eq; cbn [q4map c0 c1 c2 c3];
  [apply (EE 0 0)%nat|apply (EE 0 1)%nat|apply (EE 0 2)%nat|apply (EE 0 3)%nat|apply (EE 1 0)%nat|apply (EE 1 1)%nat|apply (EE 1 2)%nat|apply (EE 1 3)%nat
  |apply (EE 2 0)%nat|apply (EE 2 1)%nat|apply (EE 2 2)%nat|apply (EE 2 3)%nat|apply (EE 3 0)%nat|apply (EE 3 1)%nat|apply (EE 3 2)%nat|apply (EE 3 3)%nat]; lia.
Qed.
Lemma hamP_con z k : (k < 4)%nat -> metric_meaning g z = kn_con a Q (z 1%nat) (z 2%nat) -> meaning z (hamP g k) = q4nth (mv (kn_con a Q (z 1%nat) (z 2%nat)) (vel z)) k.
Proof.
  intros Hk E. assert (W : well_formed g) by apply Hh. assert (EP : metric_meaning g (q4nth (pos z)) = metric_meaning g z).
  { unfold metric_meaning. assert (EE : forall i j, (i < 4)%nat -> (j < 4)%nat -> meaning (q4nth (pos z)) (q4nth (q4nth g i) j) = meaning z (q4nth (q4nth g i) j)).
    { intros i j Hi Hj. apply (meaning_ext_b 4); [apply (below4 g W i j Hi Hj)|]. intros l Hl. unfold pos. apply q4nth_tab'. exact Hl. }
    apply Q4_eq; apply Q4_eq; cbn [q4map c0 c1 c2 c3];
    [apply (EE 0 0)%nat|apply (EE 0 1)%nat|apply (EE 0 2)%nat|apply (EE 0 3)%nat|apply (EE 1 0)%nat|apply (EE 1 1)%nat|apply (EE 1 2)%nat|apply (EE 1 3)%nat
    |apply (EE 2 0)%nat|apply (EE 2 1)%nat|apply (EE 2 2)%nat|apply (EE 2 3)%nat|apply (EE 3 0)%nat|apply (EE 3 1)%nat|apply (EE 3 2)%nat|apply (EE 3 3)%nat]; lia. }
  rewrite <- E, <- EP, mv_sum by exact Hk. unfold hamP. destruct (Nat.ltb_spec k 4); [|lia]. rewrite sum4_meaning. apply sum4_ext. intros c Hc. cbn [meaning]. f_equal.
  - apply (meaning_ext_b 4); [apply (below4 g W k c Hk Hc)|]. intros l Hl. unfold pos. symmetry. apply q4nth_tab'. exact Hl.
  - unfold vel. rewrite q4nth_tab' by exact Hc. reflexivity.
Qed.
(** the conclusions of GlobalHole for a geodesic from (q0, p0) *)
Lemma bounds q p S : 0 <= S -> q 0 = q0 -> p 0 = p0 -> geodesic_on g q p S -> (forall t, 0 <= t <= S -> r1 < c1 (q t)) -> forall t, 0 <= t <= S ->
  r1 < c1 (q t) <= c1 q0 + V * t /\ 0 < c2 (q t) < PI /\ s <= sin (c2 (q t)) /\ c0 (p t) = c0 p0 /\ c3 (p t) = c3 p0 /\ Rabs (c2 (p t)) <= B /\ Rabs (c1 (p t)) <= B1 t /\
  (forall k, (k < 4)%nat -> is_derive (fun u => q4nth (q u) k) t (q4nth (mv (kn_con a Q (c1 (q t)) (c2 (q t))) (p t)) k)).
Proof.
  intros HS Eq Ep HG Hab t Ht.
  assert (EB : ap_B g a q p = B) by (unfold B, ap_B; cbv beta; rewrite Eq, Ep; reflexivity). assert (EV : ap_V g a Q q p = V) by (unfold V, ap_V; cbv beta; rewrite Eq, Ep; reflexivity). assert (ES : ap_s g a q p = s) by (unfold s, ap_s, ap_B; cbv beta; rewrite Eq, Ep; reflexivity).
  assert (Hr1' : 1 <= r1 < c1 (q 0)) by (rewrite Eq; exact Hr1). assert (Hth' : 0 < c2 (q 0) < PI) by (rewrite Eq; exact Hth). assert (HL' : c3 (p 0) <> 0) by (rewrite Ep; exact HL).
  assert (A1 := Hab t Ht). assert (A2 := ap_grow g a Q q p S r1 Hh I0 I3 HG Hr1' HD1 Hab t Ht). rewrite EV, Eq in A2.
  assert (A3 := ap_th g a Q q p S Hh HG HS Hth' t Ht). assert (A4 := ap_sin g a Q q p S Hh I0 I3 HG HS Hth' HL' t Ht). rewrite ES in A4.
  destruct (ap_consts g a Q q p S Hh I0 I3 HG t Ht) as (A5 & A6 & _). rewrite Ep in A5, A6.
  destruct (ap_theta g a Q q p S Hh I0 I3 HG t Ht) as [A7 _]. rewrite EB in A7. apply sq_le in A7; [|apply ap_Bpos].
  assert (A8 := ap_pr g a Q q p S r1 Hh I0 I3 HG Hr1' HD1 Hab t Ht). rewrite EV in A8. assert (A9 := ap_delta a Q q S r1 Hr1' Hab t Ht).
  split; [lra|]. split; [exact A3|]. split; [exact A4|]. split; [exact A5|]. split; [exact A6|]. split; [exact A7|]. split.
  - rewrite Rabs_mult, (Rabs_right (DeltaS _ _ _)) in A8 by lra. unfold B1. assert (VP := V_pos). apply Rmult_le_reg_r with (DeltaS r1 a Q); [exact HD1|]. unfold Rdiv. rewrite Rmult_assoc, Rinv_l, Rmult_1_r by lra.
    apply Rle_trans with (DeltaS (c1 (q t)) a Q * Rabs (c1 (p t))); [rewrite Rmult_comm; apply Rmult_le_compat_r; [apply Rabs_pos|exact A9]|]. apply Rle_trans with (1 := A8). apply Rmult_le_compat_r; [lra|]. nra.
  - intros k Hk. apply (ap_deriv g a Q q p S Hh HG t k Ht Hk).
Qed.
(** box: coordinates t and phi within m of their start *)
Definition lo (T m : R) (t0 f0 : R) (i : nat) : R := match i with 0%nat => t0 - m | 1%nat => r1 | 2%nat => asin s | 3%nat => f0 - m | 4%nat => c0 p0 | 5%nat => - B1 T | 6%nat => - B | _ => c3 p0 end.
Definition hi (T m : R) (t0 f0 : R) (i : nat) : R := match i with 0%nat => t0 + m | 1%nat => c1 q0 + V * T | 2%nat => PI - asin s | 3%nat => f0 + m | 4%nat => c0 p0 | 5%nat => B1 T | 6%nat => B | _ => c3 p0 end.
Lemma box_defined T m t0 f0 z : in_box 8 (lo T m t0 f0) (hi T m t0 f0) z -> metric_defined g z /\ metric_meaning g z = kn_con a Q (z 1%nat) (z 2%nat).
Proof. intros H. apply box_metric; [apply (H 1%nat ltac:(lia))|apply (H 2%nat ltac:(lia))]. Qed.
Lemma B1_pos T : 0 <= T -> 0 <= B1 T.
Proof. intros HT. assert (VP := V_pos). unfold B1. apply Rmult_le_pos; [|left; apply Rinv_0_lt_compat; exact HD1]. apply Rmult_le_pos; [apply Rle_0_sqr|lra]. Qed.
Lemma B1_mono t T : 0 <= t <= T -> B1 t <= B1 T.
Proof. intros Ht. assert (VP := V_pos). unfold B1. apply Rmult_le_compat_r; [left; apply Rinv_0_lt_compat; exact HD1|]. apply Rmult_le_compat_r; [lra|]. assert (0 <= V * t) by (apply Rmult_le_pos; lra). assert (V * t <= V * T) by (apply Rmult_le_compat_l; lra). nra. Qed.
(** speeds are bounded *)
Lemma speed_bound T : 0 <= T -> exists M, 0 < M /\ forall z, in_box 8 (lo T 0 0 0) (hi T 0 0 0) z -> forall k, (k < 4)%nat -> Rabs (meaning z (hamP g k)) <= M.
Proof.
  intros HT. assert (W : well_formed g) by apply Hh. assert (VP := V_pos). assert (SP := s_pos). assert (AB := asin_bound s).
  destruct (uniform_box 8 (lo T 0 0 0) (hi T 0 0 0) (fun d z => forall k, (k < 4)%nat -> Rabs (meaning z (hamP g k)) <= / d)) as (d & Hd & H).
  - intros i Hi. assert (0 <= V * T) by (apply Rmult_le_pos; lra). assert (BP := B1_pos T HT). assert (BB : 1 <= B) by apply ap_Bpos. do 8 (destruct i as [|i]; [cbn [lo hi]; lra|]). lia.
  - intros d d' z Hdd H k Hk. apply Rle_trans with (1 := H k Hk). apply Rinv_le_contravar; lra.
  - intros z z' d E H k Hk. rewrite <- (meaning_ext_b 8 (hamP g k) z z'); [apply H; exact Hk|apply hamP_below; [exact W|lia]|exact E].
  - intros z Hz. destruct (box_defined T 0 0 0 z Hz) as [D _].
    destruct (uniform_below (fun i r M => forall z', near 8 r z z' -> Rabs (meaning z' (hamP g i)) <= M) 4) as (r & M & Hr & HM & H1).
    { intros i r r' M M' _ H Hr HM z' Hz'. assert (A := H z' (near_le _ _ _ _ _ Hr Hz')). lra. }
    { intros i Hi. destruct (prog_bounded 8 (hamP g i) z) as (r & M & Hr & HM & H1); [apply hamP_below; [exact W|lia]|apply hamP_defined; [exact D|lia]|]. exists r, M. split; [exact Hr|]. split; [exact HM|]. intros z' Hz'. apply H1. exact Hz'. }
    exists r, (/ (M + 1)). split; [exact Hr|]. split; [apply Rinv_0_lt_compat; lra|]. intros z' Hz' k Hk. rewrite Rinv_inv. assert (A := H1 k Hk z' Hz'). lra.
  - exists (/ d). split; [apply Rinv_0_lt_compat; exact Hd|exact H].
Qed.
(** The geodesic from (q0, p0) exists on [0, T], outside r1, or until it reaches r1. *)
Theorem hole_reach T : 0 <= T ->
  (exists q p, q 0 = q0 /\ p 0 = p0 /\ geodesic_on g q p T /\ forall t, 0 <= t <= T -> r1 < c1 (q t) /\ 0 < c2 (q t) < PI) \/
  (exists S q p, 0 < S <= T /\ q 0 = q0 /\ p 0 = p0 /\ geodesic_on g q p S /\ c1 (q S) = r1 /\ (forall t, 0 <= t < S -> r1 < c1 (q t)) /\ forall t, 0 <= t <= S -> 0 < c2 (q t) < PI).
Proof.
  intros HT. assert (W : well_formed g) by apply Hh. destruct (speed_bound T HT) as (M & HM & HB).
  assert (HS0 : 0 < sin (c2 q0)) by (apply sin_gt_0; apply Hth).
  assert (MD : metric_defined g (q4nth q0)).
  { destruct Hh as [(_ & _ & KK) _]. assert (DM := delta_mono a Q r1 (c1 q0) ltac:(lra)). assert (SG := sigma_ge (c1 q0) (c2 q0) a). rewrite <- (eta4 q0). apply KK; [nra|lra|lra]. }
  destruct (leaves 8 (hamP g) (join q0 p0) (lo T (M * T) (c0 q0) (c3 q0)) (hi T (M * T) (c0 q0) (c3 q0)) T 1 r1) as [(y & Hy & Ha)|(S & y & HS & Hy & Ha & Hx)].
  - lia.
  - apply hamP_below. exact W.
  - exact HT.
  - apply Hr1.
  - apply hamP_defined. apply (metric_defined_ext g (q4nth q0)); [exact W| |exact MD]. intros i Hi. nat4 i Hi; reflexivity.
  - intros z Hz. apply hamP_defined. apply (box_defined T _ _ _ z Hz).
  - intros S y HS Hy Ha. destruct (solves_geodesic g q0 p0 S y W Hy) as (Eq & Ep & HG). assert (BD := bounds _ _ S (proj1 HS) Eq Ep HG Ha).
    assert (VP := V_pos).
    assert (INB : forall t, 0 <= t <= S -> in_box 8 (lo T 0 0 0) (hi T 0 0 0) (fun i => match i with 0%nat => 0 | 3%nat => 0 | _ => y t i end)).
    { intros t Ht. destruct (BD t Ht) as (X1 & X2 & X3 & X4 & X5 & X6 & X7 & _). unfold pos, vel in X1, X2, X3, X4, X5, X6, X7. cbn [q4tab c0 c1 c2 c3 q4nth] in X1, X2, X3, X4, X5, X6, X7. cbn [Nat.add] in X4, X5, X6, X7.
      assert (X8 := th_range _ X2 X3). assert (X9 := B1_mono t T ltac:(lra)). assert (V * t <= V * T) by (apply Rmult_le_compat_l; lra). apply Rabs_le_between in X6. apply Rabs_le_between in X7.
      intros i Hi. do 8 (destruct i as [|i]; [cbn [lo hi]; lra|]). lia. }
    assert (SP : forall k, (k = 0 \/ k = 3)%nat -> Rabs (y S k - y 0 k) <= M * T).
    { intros k Hk. apply Rle_trans with (M * S); [|apply Rmult_le_compat_l; lra].
      apply (grows_slowly (fun u => y u k) (fun u => q4nth (mv (kn_con a Q (c1 (pos (y u))) (c2 (pos (y u)))) (vel (y u))) k) M S); [| |lra].
      - intros t Ht. destruct (BD t Ht) as (_ & _ & _ & _ & _ & _ & _ & X). assert (k4 : (k < 4)%nat) by lia. apply (is_derive_ext (fun u => q4nth (pos (y u)) k)); [intros u; unfold pos; apply q4nth_tab'; exact k4|]. apply X. exact k4.
      - intros t Ht. assert (k4 : (k < 4)%nat) by lia. assert (IB := INB t Ht). destruct (box_defined _ _ _ _ _ IB) as [_ MM]. assert (HBk := HB _ IB k k4). rewrite (hamP_con _ k k4 MM) in HBk. exact HBk. }
    destruct (BD S ltac:(lra)) as (X1 & X2 & X3 & X4 & X5 & X6 & X7 & _). unfold pos, vel in X1, X2, X3, X4, X5, X6, X7. cbn [q4tab c0 c1 c2 c3 q4nth] in X1, X2, X3, X4, X5, X6, X7. cbn [Nat.add] in X4, X5, X6, X7.
    assert (X8 := th_range _ X2 X3). assert (X9 := B1_mono S T ltac:(lra)). assert (V * S <= V * T) by (apply Rmult_le_compat_l; lra). apply Rabs_le_between in X6. apply Rabs_le_between in X7.
    assert (Y0 := SP 0%nat ltac:(lia)). assert (Y3 := SP 3%nat ltac:(lia)). destruct Hy as [E0 _]. rewrite (E0 0%nat) in Y0 by lia. rewrite (E0 3%nat) in Y3 by lia. change (join q0 p0 0%nat) with (c0 q0) in Y0. change (join q0 p0 3%nat) with (c3 q0) in Y3. apply Rabs_le_between in Y0. apply Rabs_le_between in Y3.
    intros i Hi. do 8 (destruct i as [|i]; [cbn [lo hi]; lra|]). lia.
  - left. destruct (solves_geodesic g q0 p0 T y W Hy) as (Eq & Ep & HG). exists (fun u => pos (y u)), (fun u => vel (y u)). split; [exact Eq|]. split; [exact Ep|]. split; [exact HG|].
    intros t Ht. destruct (bounds _ _ T HT Eq Ep HG Ha t Ht) as (X1 & X2 & _). split; [lra|exact X2].
  - right. destruct (solves_geodesic g q0 p0 S y W Hy) as (Eq & Ep & HG). exists S, (fun u => pos (y u)), (fun u => vel (y u)). split; [exact HS|]. split; [exact Eq|]. split; [exact Ep|]. split; [exact HG|].
    split; [exact Hx|]. split; [exact Ha|]. intros t Ht. apply (ap_th g a Q (fun u => pos (y u)) (fun u => vel (y u)) S Hh HG); [lra|cbv beta; rewrite Eq; exact Hth|exact Ht].
Qed.
(** A potential barrier at r1: it exists on [0, T] for every T. *)
Hypothesis Hbar : radial a Q (c0 p0) (c3 p0) (carter a q0 p0 H2) H2 r1 < 0.
Theorem hole_global T : 0 <= T -> exists q p, q 0 = q0 /\ p 0 = p0 /\ geodesic_on g q p T /\ forall t, 0 <= t <= T -> r1 < c1 (q t) /\ 0 < c2 (q t) < PI.
Proof.
  intros HT. destruct (hole_reach T HT) as [H|(S & q & p & HS & Eq & Ep & HG & Hx & _)]; [exact H|exfalso].
  assert (Hr1' : 1 <= r1 < c1 (q 0)) by (rewrite Eq; exact Hr1).
  assert (Hbar' : radial a Q (c0 (p 0)) (c3 (p 0)) (carter a (q 0) (p 0) (2 * Ham g (q 0) (p 0))) (2 * Ham g (q 0) (p 0)) r1 < 0) by (rewrite Eq, Ep; exact Hbar).
  assert (A := ap_r g a Q q p S r1 Hh I0 I3 HG ltac:(lra) Hr1' Hbar' S ltac:(lra)). lra.
Qed.
End Global.
