(** C115: the theorems. *)
From Coq Require Import String Reals List ZArith Lra Lia Bool.
From Coquelicot Require Import Coquelicot.
From Verif Require Import Base Calc DualModel DualSpec DualProofs DualDiff GeoUtilsModel GeoUtilsSpec GeoUtilsProofs CoordModel CoordProofs2 ConvModel ConvProofs FantasyModel FantasyHam ProgCont FantasyOrder
  MetricModel MetricSpec MetricProofs MetricProofs2 MetricProofs3 MetricProofs4 FloatModel FloatTrack FloatRK.
From Verif Require Import FloatMetricModel FloatMetric FloatMetric2 FloatMetric3 FloatMetric4 FloatMetric5.
Import ListNotations.
Open Scope R_scope.

(** *** specification *)
Definition near4 (d : R) (x' x : V4) : Prop := forall i, (i < 4)%nat -> Rabs (q4nth x' i - q4nth x i) <= d.
Definition near44 (d : R) (m' m : M4) : Prop := forall i j, (i < 4)%nat -> (j < 4)%nat -> Rabs (mnth m' i j - mnth m i j) <= d.
Definition near444 (d : R) (a' : Q4 M4) (a : arr3) : Prop := forall i j k, (i < 4)%nat -> (j < 4)%nat -> (k < 4)%nat -> Rabs (mnth (q4nth a' i) j k - a i j k) <= d.
(** vec: position and velocity *)
Definition vec8 (x v : V4) : list R := xv x ++ xv v.
(** for every small unit roundoff u, every environment that has it, and inputs within Kin u of x: Q (C u) holds, one constant C for all *)
Definition rounded4 (K Kin : R) (x : V4) (Q : R -> fenv -> V4 -> Prop) : Prop :=
  exists C r, 0 <= C /\ 0 < r /\ forall u e x', 0 <= u < r -> good K u e -> near4 (Kin * u) x' x -> Q (C * u) e x'.
Definition rounded8 (K Kin : R) (x v : V4) (Q : R -> fenv -> V4 -> V4 -> Prop) : Prop :=
  exists C r, 0 <= C /\ 0 < r /\ forall u e x' v', 0 <= u < r -> good K u e -> near4 (Kin * u) x' x -> near4 (Kin * u) v' v -> Q (C * u) e x' v'.

(** *** the filter *)
Record ti := mkti { t_u : R; t_e : fenv; t_x : V4; t_v : V4 }.
Definition inI (K Kin : R) (x v : V4) (r : R) (j : ti) : Prop := 0 <= t_u j < r /\ good K (t_u j) (t_e j) /\ near4 (Kin * t_u j) (t_x j) x /\ near4 (Kin * t_u j) (t_v j) v.
Definition FI K Kin x v (P : ti -> Prop) : Prop := exists r, 0 < r /\ forall j, inI K Kin x v r j -> P j.
Lemma inI_le K Kin x v r r' j : r <= r' -> inI K Kin x v r j -> inI K Kin x v r' j.
Proof. intros H (H1 & H2). split; [lra|]. assumption. Qed.
Global Instance FI_filter K Kin x v : Filter (FI K Kin x v).
Proof.
  split.
  - exists 1. split; [lra|]. auto.
  - intros P Q (r1 & R1 & H1) (r2 & R2 & H2). exists (Rmin r1 r2). split; [apply Rmin_pos; assumption|]. intros j Hj.
    split; [apply H1; eapply inI_le; [apply Rmin_l|exact Hj]|apply H2; eapply inI_le; [apply Rmin_r|exact Hj]].
  - intros P Q H (r & Hr & HP). exists r. split; [exact Hr|]. intros j Hj. apply H, HP, Hj.
Qed.
Section FI.
Variables (K Kin : R) (x v : V4).
Hypothesis HKin : 0 <= Kin.
Let F := FI K Kin x v.
Lemma FI_u0 : F (fun j => 0 <= t_u j).
Proof. exists 1. split; [lra|]. intros j Hj. apply Hj. Qed.
Lemma FI_u : filterlim t_u F (locally 0).
Proof.
  intros P [e HP]. exists e. split; [apply cond_pos|]. intros j Hj. apply HP. destruct Hj as ((H1 & H2) & _). unfold ball; cbn; unfold AbsRing_ball, abs, minus, plus, opp; cbn.
  rewrite Ropp_0, Rplus_0_r, Rabs_right by lra. exact H2.
Qed.
Lemma FI_E : F (fun j => good K (t_u j) (t_e j)).
Proof. exists 1. split; [lra|]. intros j Hj. apply Hj. Qed.
Definition zvec (t : R) (y : V4) (w : V4) : nat -> R := venv t (vec8 y w).
Lemma FI_in t : nrE F t_u 9 (fun j => zvec t (t_x j) (t_v j)) (fun _ => zvec t x v) (zvec t x v).
Proof.
  intros i Hi. split; [apply filterlim_const|]. exists Kin. split; [exact HKin|]. exists 1. split; [lra|]. intros j (H0 & _ & H1 & H2).
  destruct i as [|i]. { cbn [zvec venv nth]. unfold zvec, venv. cbn [nth]. rewrite Rminus_eq_0, Rabs_R0. apply Rmult_le_pos; lra. }
  assert (A0 := H1 0%nat ltac:(lia)). assert (A1 := H1 1%nat ltac:(lia)). assert (A2 := H1 2%nat ltac:(lia)). assert (A3 := H1 3%nat ltac:(lia)).
  assert (B0 := H2 0%nat ltac:(lia)). assert (B1 := H2 1%nat ltac:(lia)). assert (B2 := H2 2%nat ltac:(lia)). assert (B3 := H2 3%nat ltac:(lia)).
  do 8 (destruct i as [|i]; [assumption|]). lia.
Qed.
(** the position alone *)
Definition zpos (y : V4) : nat -> R := venv 0 (xv y).
Lemma FI_pos : nrE F t_u 9 (fun j => zpos (t_x j)) (fun _ => zpos x) (zpos x).
Proof.
  intros i Hi. split; [apply filterlim_const|]. exists Kin. split; [exact HKin|]. exists 1. split; [lra|]. intros j (H0 & _ & H1 & H2).
  assert (Z : Rabs (0 - 0) <= Kin * t_u j) by (rewrite Rminus_eq_0, Rabs_R0; apply Rmult_le_pos; lra).
  destruct i as [|i]; [exact Z|].
  assert (A0 := H1 0%nat ltac:(lia)). assert (A1 := H1 1%nat ltac:(lia)). assert (A2 := H1 2%nat ltac:(lia)). assert (A3 := H1 3%nat ltac:(lia)).
  do 4 (destruct i as [|i]; [assumption|]). do 4 (destruct i as [|i]; [exact Z|]). lia.
Qed.
Lemma finite_bound n (d : nat -> ti -> R) : (forall i, (i < n)%nat -> exists C, 0 <= C /\ F (fun j => Rabs (d i j) <= C * t_u j)) -> exists C, 0 <= C /\ F (fun j => forall i, (i < n)%nat -> Rabs (d i j) <= C * t_u j).
Proof.
  induction n as [|n IH]; intros H. { exists 0. split; [lra|]. exists 1. split; [lra|]. intros; lia. }
  destruct IH as (C1 & P1 & X1). { intros i Hi. apply H. lia. } destruct (H n ltac:(lia)) as (C2 & P2 & X2). exists (C1 + C2). split; [lra|].
  generalize (filter_and _ _ (filter_and _ _ X1 X2) FI_u0). apply filter_imp. intros j [[Y1 Y2] Y0] i Hi. destruct (Nat.eq_dec i n) as [-> |]; [|assert (Z := Y1 i ltac:(lia))]; nra.
Qed.
Lemma outM (r : ti -> Res M4) g : oktoM F t_u r (fun _ => g) g -> exists C, 0 <= C /\ F (fun j => exists g', r j = Ok g' /\ near44 (C * t_u j) g' g).
Proof.
  intros (w & E & N). destruct (finite_bound 16 (fun i j => mnth (w j) (i / 4) (i mod 4) - mnth g (i / 4) (i mod 4))) as (C & P & X).
  { intros i Hi. destruct (N (i / 4)%nat (i mod 4)%nat) as [_ (C & HC & B)]; [apply Nat.div_lt_upper_bound; lia|apply Nat.mod_upper_bound; lia|]. exists C. split; assumption. }
  exists C. split; [exact P|]. unfold evok in E. generalize (filter_and _ _ E X). apply filter_imp. intros j [E1 B]. exists (w j). split; [exact E1|]. intros a b Ha Hb. assert (Q := B (4 * a + b)%nat ltac:(lia)).
  replace ((4 * a + b) / 4)%nat with a in Q by (apply (Nat.div_unique _ 4 a b); lia). replace ((4 * a + b) mod 4)%nat with b in Q by (apply (Nat.mod_unique _ 4 a b); lia). exact Q.
Qed.
Lemma out3 (r : ti -> Res (Q4 M4)) a : okT F r (fun w => nr3 F t_u w (fun _ => a) a) -> exists C, 0 <= C /\ F (fun j => exists a', r j = Ok a' /\ near444 (C * t_u j) a' a).
Proof.
  intros (w & E & N). destruct (finite_bound 64 (fun i j => mnth (q4nth (w j) (i / 16)) ((i mod 16) / 4) ((i mod 16) mod 4) - a (i / 16)%nat ((i mod 16) / 4)%nat ((i mod 16) mod 4)%nat)) as (C & P & X).
  { intros i Hi. assert (M := Nat.mod_upper_bound i 16 ltac:(lia)). destruct (N (i / 16)%nat (i mod 16 / 4)%nat ((i mod 16) mod 4)%nat) as [_ (C & HC & B)]; [apply Nat.div_lt_upper_bound; lia|apply Nat.div_lt_upper_bound; lia|apply Nat.mod_upper_bound; lia|]. exists C. split; assumption. }
  exists C. split; [exact P|]. unfold evok in E. generalize (filter_and _ _ E X). apply filter_imp. intros j [E1 B]. exists (w j). split; [exact E1|]. intros p q s Hp Hq Hs. assert (Q := B (16 * p + (4 * q + s))%nat ltac:(lia)).
  replace ((16 * p + (4 * q + s)) / 16)%nat with p in Q by (apply (Nat.div_unique _ 16 p (4 * q + s)); lia). replace ((16 * p + (4 * q + s)) mod 16)%nat with (4 * q + s)%nat in Q by (apply (Nat.mod_unique _ 16 p (4 * q + s)); lia).
  replace ((4 * q + s) / 4)%nat with q in Q by (apply (Nat.div_unique _ 4 q s); lia). replace ((4 * q + s) mod 4)%nat with s in Q by (apply (Nat.mod_unique _ 4 q s); lia). exact Q.
Qed.
Lemma out8L (r : ti -> Res (list R)) a t : okT F r (fun w => nr8 F t_u w (fun _ => out8 (zvec t x v) a) (out8 (zvec t x v) a)) ->
  exists C, 0 <= C /\ F (fun j => exists w, r j = Ok w /\ forall i, (i < 4)%nat -> Rabs (nth i w 0 - q4nth v i) <= C * t_u j /\ Rabs (nth (4 + i) w 0 - q4nth a i) <= C * t_u j).
Proof.
  intros (w & E & N). destruct (finite_bound 8 (fun i j => nth i (w j) 0 - nth i (out8 (zvec t x v) a) 0)) as (C & P & X).
  { intros i Hi. destruct (N i Hi) as [_ (C & HC & B)]. exists C. split; assumption. }
  exists C. split; [exact P|]. unfold evok in E. generalize (filter_and _ _ E X). apply filter_imp. intros j [E1 B]. exists (w j). split; [exact E1|]. intros i Hi.
  split; [assert (Q := B i ltac:(lia))|assert (Q := B (4 + i)%nat ltac:(lia))]; rewrite nth_out8 in Q by lia.
  - replace (Nat.ltb i 4) with true in Q by (symmetry; apply Nat.ltb_lt; exact Hi). replace (zvec t x v (5 + i)%nat) with (q4nth v i) in Q; [exact Q|]. nat4' i Hi; reflexivity.
  - replace (Nat.ltb (4 + i) 4) with false in Q by (symmetry; apply Nat.ltb_ge; lia). replace (4 + i - 4)%nat with i in Q by lia. exact Q.
Qed.
End FI.
Lemma use4 K Kin x (Q : R -> fenv -> V4 -> Prop) : 0 <= Kin -> (exists C, 0 <= C /\ FI K Kin x x (fun j => Q (C * t_u j) (t_e j) (t_x j))) -> rounded4 K Kin x Q.
Proof. intros HK (C & HC & r & Hr & H). exists C, r. split; [exact HC|]. split; [exact Hr|]. intros u e x' Hu HE Hx. apply (H (mkti u e x' x')). split; [exact Hu|]. split; [exact HE|]. split; exact Hx. Qed.
Lemma use8 K Kin x v (Q : R -> fenv -> V4 -> V4 -> Prop) : (exists C, 0 <= C /\ FI K Kin x v (fun j => Q (C * t_u j) (t_e j) (t_x j) (t_v j))) -> rounded8 K Kin x v Q.
Proof. intros (C & HC & r & Hr & H). exists C, r. split; [exact HC|]. split; [exact Hr|]. intros u e x' v' Hu HE Hx Hv. apply (H (mkti u e x' v')). split; [exact Hu|]. split; [exact HE|]. split; assumption. Qed.

Lemma xz_pos x : xz (zpos x) = x. Proof. destruct x; reflexivity. Qed.
Lemma xz_vec t x v : xz (zvec t x v) = x. Proof. destruct x; reflexivity. Qed.
Lemma velz_vec t x v : velz (zvec t x v) = v. Proof. destruct v; reflexivity. Qed.

Section Theorems.
Variables (K Kin c G Cc : R) (o : mobj) (x v : V4).
Hypothesis HK : 0 <= K.
Hypothesis HKin : 0 <= Kin.
Hypothesis Hc : c <> 0.
Let F4 := FI K Kin x x.
Let F8 := FI K Kin x v.
Let u40 := FI_u0 K Kin x x.
Let u4 := FI_u K Kin x x.
Let e4 := FI_E K Kin x x.
Let p4 := FI_pos K Kin x x HKin.
Let u80 := FI_u0 K Kin x v.
Let u8 := FI_u K Kin x v.
Let e8 := FI_E K Kin x v.
Lemma sch_metric_rounded g : MetricModel.sch_cov c G o x = Ok g -> rounded4 K Kin x (fun d e x' => exists g', sch_covA e c G o x' = Ok g' /\ near44 d g' g).
Proof.
  intros H. rewrite <- (xz_pos x) in H. apply sch_cov_inv in H. destruct H as (S & D1 & D2 & ->). apply use4; [exact HKin|]. apply (outM K Kin x x (fun j => sch_covA (t_e j) c G o (t_x j))).
  unfold sch_covA. rewrite S. exact (sch_cov_track F4 t_u K t_e u40 u4 e4 c G o Hc _ _ _ p4 D1 D2).
Qed.
Lemma sch_contra_rounded gi : metric_contravariant (MetricModel.sch_cov c G o) x = Ok gi -> rounded4 K Kin x (fun d e x' => exists g', contraA e (sch_covA e c G o) x' = Ok g' /\ near44 d g' gi).
Proof.
  intros H. rewrite <- (xz_pos x) in H. apply bindR_Ok in H. destruct H as (g & H1 & H2). apply sch_cov_inv in H1. destruct H1 as (S & D1 & D2 & ->). apply np_inv_inv4 in H2. destruct H2 as [D3 ->].
  apply use4; [exact HKin|]. apply (outM K Kin x x (fun j => contraA (t_e j) (sch_covA (t_e j) c G o) (t_x j))).
  unfold contraA, sch_covA. rewrite S. apply (okT_bind F4 _ _ _ _ (sch_cov_track F4 t_u K t_e u40 u4 e4 c G o Hc _ _ _ p4 D1 D2)). intros w N. exact (inv_track F4 t_u K t_e HK u40 u4 e4 w (fun _ => _) _ D3 N).
Qed.
Lemma nr3_ext {J} (F : (J -> Prop) -> Prop) {FF : Filter F} u (w : J -> Q4 M4) a b : (forall i j k, (i < 4)%nat -> (j < 4)%nat -> (k < 4)%nat -> a i j k = b i j k) -> nr3 F u w (fun _ => a) a -> nr3 F u w (fun _ => b) b.
Proof. intros E H i j k Hi Hj Hk. rewrite <- E by assumption. exact (H i j k Hi Hj Hk). Qed.
Lemma sch_ch_rounded ch : sch_christoffels c G o x = Ok ch -> rounded4 K Kin x (fun d e x' => exists ch', sch_chA e c G o x' = Ok ch' /\ near444 d ch' ch).
Proof.
  intros H. rewrite <- (xz_pos x) in H. apply sch_ch_inv in H. destruct H as (S & D & E). apply use4; [exact HKin|]. apply (out3 K Kin x x (fun j => sch_chA (t_e j) c G o (t_x j))).
  unfold sch_chA. rewrite S. refine (okT_imp F4 _ _ _ _ (sch_ch_track F4 t_u K t_e u40 u4 e4 c G o Hc (fun j => c2 (t_x j)) _ _ _ (fun _ => eq_refl) p4 D)). intros w. apply (nr3_ext F4). exact E.
Qed.
Lemma sch_f_rounded w a t : sch_f_vec c G o x v = Ok (w, a) -> w = v /\ rounded8 K Kin x v (fun d e x' v' => exists y, sch_fA e c G o t (vec8 x' v') = Ok y /\
  forall i, (i < 4)%nat -> Rabs (nth i y 0 - q4nth v i) <= d /\ Rabs (nth (4 + i) y 0 - q4nth a i) <= d).
Proof.
  intros H. assert (H' : sch_f_vec c G o (xz (zvec t x v)) (velz (zvec t x v)) = Ok (w, a)) by (rewrite xz_vec, velz_vec; exact H). clear H. rename H' into H. apply sch_f_inv in H. destruct H as (S & D & -> & ->). split; [apply velz_vec|]. apply use8.
  apply (out8L K Kin x v (fun j => sch_fA (t_e j) c G o t (vec8 (t_x j) (t_v j))) _ t).
  exact (sch_f_track F8 t_u K t_e u80 u8 e8 c G o Hc S (fun _ => t) (fun j => vec8 (t_x j) (t_v j)) _ _ _ (fun _ => eq_refl) (FI_in K Kin x v HKin t) D).
Qed.
Notation kp := (fun j : ti => kerr_parA (t_e j) c G Cc o).
Notation np := (fun j : ti => kn_parA (t_e j) c G Cc o).
Lemma kerr_metric_rounded g : kerr_cov c G Cc o x = Ok g -> rounded4 K Kin x (fun d e x' => exists g', kerr_covA e c G Cc o x' = Ok g' /\ near44 d g' g).
Proof.
  intros H. rewrite <- (xz_pos x) in H. apply kerr_cov_inv in H. destruct H as ((S & V & D1 & D2) & ->). apply use4; [exact HKin|]. apply (outM K Kin x x (fun j => kerr_covA (t_e j) c G Cc o (t_x j))).
  exact (cov_track F4 t_u K t_e u40 u4 e4 c G Cc o kp _ _ (kerr_par_ok F4 t_u K t_e u40 u4 e4 c G Cc o Hc V) (kerr_class c G o Hc) S _ _ _ p4 D1 D2).
Qed.
Lemma kn_metric_rounded g : MetricModel.kn_cov c G Cc o x = Ok g -> rounded4 K Kin x (fun d e x' => exists g', kn_covA e c G Cc o x' = Ok g' /\ near44 d g' g).
Proof.
  intros H. rewrite <- (xz_pos x) in H. apply kn_cov_inv in H. destruct H as ((S & V & D1 & D2) & ->). apply use4; [exact HKin|]. apply (outM K Kin x x (fun j => kn_covA (t_e j) c G Cc o (t_x j))).
  exact (cov_track F4 t_u K t_e u40 u4 e4 c G Cc o np _ _ (kn_par_ok F4 t_u K t_e u40 u4 e4 c G Cc o Hc V) (kn_class c G o Hc) S _ _ _ p4 D1 D2).
Qed.
Lemma kerr_contra_rounded gi : metric_contravariant (kerr_cov c G Cc o) x = Ok gi -> rounded4 K Kin x (fun d e x' => exists g', contraA e (kerr_covA e c G Cc o) x' = Ok g' /\ near44 d g' gi).
Proof.
  intros H. rewrite <- (xz_pos x) in H. apply kerr_contra_inv in H. destruct H as ((S & V & D1 & D2) & D3 & ->). apply use4; [exact HKin|]. apply (outM K Kin x x (fun j => contraA (t_e j) (kerr_covA (t_e j) c G Cc o) (t_x j))).
  exact (inv_track' F4 t_u K t_e HK u40 u4 e4 c G Cc o kp _ _ (kerr_par_ok F4 t_u K t_e u40 u4 e4 c G Cc o Hc V) (kerr_class c G o Hc) S _ _ _ p4 D1 D2 D3).
Qed.
Lemma kn_contra_rounded gi : metric_contravariant (MetricModel.kn_cov c G Cc o) x = Ok gi -> rounded4 K Kin x (fun d e x' => exists g', contraA e (kn_covA e c G Cc o) x' = Ok g' /\ near44 d g' gi).
Proof.
  intros H. rewrite <- (xz_pos x) in H. apply kn_contra_inv in H. destruct H as ((S & V & D1 & D2) & D3 & ->). apply use4; [exact HKin|]. apply (outM K Kin x x (fun j => contraA (t_e j) (kn_covA (t_e j) c G Cc o) (t_x j))).
  exact (inv_track' F4 t_u K t_e HK u40 u4 e4 c G Cc o np _ _ (kn_par_ok F4 t_u K t_e u40 u4 e4 c G Cc o Hc V) (kn_class c G o Hc) S _ _ _ p4 D1 D2 D3).
Qed.
Lemma kerr_ch_rounded ch : kerr_christoffels c G Cc o x = Ok ch -> rounded4 K Kin x (fun d e x' => exists ch', kerr_chA e c G Cc o x' = Ok ch' /\ near444 d ch' ch).
Proof.
  intros H. rewrite <- (xz_pos x) in H. apply kerr_ch_inv in H. destruct H as ((S & V & D1 & D2) & D3 & E). apply use4; [exact HKin|]. apply (out3 K Kin x x (fun j => kerr_chA (t_e j) c G Cc o (t_x j))).
  refine (okT_imp F4 _ _ _ _ (ch_track F4 t_u K t_e HK u40 u4 e4 c G Cc o kp _ _ (kerr_par_ok F4 t_u K t_e u40 u4 e4 c G Cc o Hc V) (kerr_class c G o Hc) S _ _ _ p4 D1 D2 D3)). intros w. apply (nr3_ext F4). exact E.
Qed.
Lemma kn_ch_rounded ch : kn_christoffels c G Cc o x = Ok ch -> rounded4 K Kin x (fun d e x' => exists ch', kn_chA e c G Cc o x' = Ok ch' /\ near444 d ch' ch).
Proof.
  intros H. rewrite <- (xz_pos x) in H. apply kn_ch_inv in H. destruct H as ((S & V & D1 & D2) & D3 & E). apply use4; [exact HKin|]. apply (out3 K Kin x x (fun j => kn_chA (t_e j) c G Cc o (t_x j))).
  refine (okT_imp F4 _ _ _ _ (ch_track F4 t_u K t_e HK u40 u4 e4 c G Cc o np _ _ (kn_par_ok F4 t_u K t_e u40 u4 e4 c G Cc o Hc V) (kn_class c G o Hc) S _ _ _ p4 D1 D2 D3)). intros w. apply (nr3_ext F4). exact E.
Qed.
Lemma kerr_f_rounded w a t : kerr_f_vec c G Cc o x v = Ok (w, a) -> w = v /\ rounded8 K Kin x v (fun d e x' v' => exists y, kerr_fA e c G Cc o t (vec8 x' v') = Ok y /\
  forall i, (i < 4)%nat -> Rabs (nth i y 0 - q4nth v i) <= d /\ Rabs (nth (4 + i) y 0 - q4nth a i) <= d).
Proof.
  intros H. assert (H' : kerr_f_vec c G Cc o (xz (zvec t x v)) (velz (zvec t x v)) = Ok (w, a)) by (rewrite xz_vec, velz_vec; exact H). clear H. rename H' into H. apply kerr_f_inv in H. destruct H as ((S & V & D1 & D2) & D3 & -> & ->). split; [apply velz_vec|]. apply use8.
  apply (out8L K Kin x v (fun j => kerr_fA (t_e j) c G Cc o t (vec8 (t_x j) (t_v j))) _ t).
  exact (kerr_f_track F8 t_u K t_e HK u80 u8 e8 c G Cc o Hc (fun _ => t) (fun j => vec8 (t_x j) (t_v j)) _ _ _ (fun _ => eq_refl) V S (FI_in K Kin x v HKin t) D1 D2 D3).
Qed.
Lemma em_rounded f : 0 < G -> 0 < Cc -> em_tensor_contravariant c G Cc o x = Ok f -> rounded4 K Kin x (fun d e x' => exists f', em_contraA e c G Cc o (venv 0 (xv x')) = Ok f' /\ near44 d f' f).
Proof.
  intros HG HC H. rewrite <- (xz_pos x) in H. apply em_contra_inv in H. destruct H as ((S & V & D1 & D2) & D3 & ->). apply use4; [exact HKin|]. apply (outM K Kin x x (fun j => em_contraA (t_e j) c G Cc o (venv 0 (xv (t_x j))))).
  exact (em_contra_track F4 t_u K t_e HK u40 u4 e4 c G Cc o Hc HG HC _ _ _ V S p4 D1 D2 D3).
Qed.
Lemma em_cov_rounded f : 0 < G -> 0 < Cc -> mo_sys o = BL -> em_tensor_covariant c G Cc o x = Ok f -> (exists g, MetricModel.kn_cov c G Cc o x = Ok g) -> rounded4 K Kin x (fun d e x' => exists f', em_covA e c G Cc o (venv 0 (xv x')) = Ok f' /\ near44 d f' f).
Proof.
  intros HG HC S H [g Hg]. rewrite <- (xz_pos x) in H, Hg. apply kn_cov_inv in Hg. destruct Hg as [D _]. apply em_inv in H; [|exact D]. subst f. destruct D as (_ & V & D1 & D2).
  apply use4; [exact HKin|]. apply (outM K Kin x x (fun j => em_covA (t_e j) c G Cc o (venv 0 (xv (t_x j))))).
  exact (em_cov_track F4 t_u K t_e u40 u4 e4 c G Cc o Hc HG HC _ _ _ V p4 D1).
Qed.
Lemma kn_f_rounded w a t : 0 < G -> 0 < Cc -> kn_f_vec c G Cc o x v = Ok (w, a) -> w = v /\ rounded8 K Kin x v (fun d e x' v' => exists y, kn_fA e c G Cc o t (vec8 x' v') = Ok y /\
  forall i, (i < 4)%nat -> Rabs (nth i y 0 - q4nth v i) <= d /\ Rabs (nth (4 + i) y 0 - q4nth a i) <= d).
Proof.
  intros HG HC H. assert (H' : kn_f_vec c G Cc o (xz (zvec t x v)) (velz (zvec t x v)) = Ok (w, a)) by (rewrite xz_vec, velz_vec; exact H). clear H. rename H' into H. apply kn_f_inv in H. destruct H as ((S & V & D1 & D2) & D3 & -> & ->). split; [apply velz_vec|]. apply use8.
  apply (out8L K Kin x v (fun j => kn_fA (t_e j) c G Cc o t (vec8 (t_x j) (t_v j))) _ t).
  exact (kn_f_track F8 t_u K t_e HK u80 u8 e8 c G Cc o Hc HG HC (fun _ => t) (fun j => vec8 (t_x j) (t_v j)) _ _ _ (fun _ => eq_refl) V S (FI_in K Kin x v HKin t) D1 D2 D3).
Qed.
End Theorems.
