(** C105: the two solvers describe the same motion. Geodesic (geodesic/geodesic.py, integrators/fantasy.py) integrates Hamilton's
    equations of 1/2 g^ij p_i p_j in units G = c = M = 1; the metric classes (metric/*.py) hand f_vec, the geodesic equation in SI
    units, to the Runge-Kutta integrators. *)
From Coq Require Import String Reals List ZArith Lra Lia Bool.
From Coquelicot Require Import Coquelicot.
From Verif Require Import Base Calc DualModel DualSpec DualProofs DualDiff GeoUtilsModel GeoUtilsSpec GeoUtilsProofs
  FantasyModel FantasyProofs FantasyProofs2 FantasyProofs3 FantasyHam FantasySymp FantasyOrder FantasyGlobal3 MetricModel MetricSpec MetricProofs.
Import ListNotations.
Open Scope R_scope.

Definition delta4 (i j : nat) : R := if Nat.eqb i j then 1 else 0.
Lemma q4nth_tab' {A} (f : nat -> A) l : (l < 4)%nat -> q4nth (q4tab f) l = f l.
Proof. intros H. destruct l as [|[|[|[|l]]]]; [..|lia]; reflexivity. Qed.
Ltac nat4 k Hk := destruct k as [|[|[|[|k]]]]; [| | | |exfalso; lia].

(** *** algebra *)
Section Algebra.
Variables (Gm N : nat -> nat -> R) (dG dN : nat -> nat -> nat -> R) (W P : nat -> R).
Hypothesis inv : forall a c, (a < 4)%nat -> (c < 4)%nat -> sum4 (fun b => Gm a b * N b c) = delta4 a c.
Hypothesis sym : forall a b, (a < 4)%nat -> (b < 4)%nat -> Gm a b = Gm b a.
Hypothesis dinv : forall k a c, (k < 4)%nat -> (a < 4)%nat -> (c < 4)%nat -> sum4 (fun b => dG k a b * N b c) + sum4 (fun b => Gm a b * dN k b c) = 0.
Hypothesis vel : forall b, (b < 4)%nat -> W b = sum4 (fun c => N b c * P c).
Lemma lower a : (a < 4)%nat -> P a = sum4 (fun b => Gm a b * W b).
Proof.
  intros Ha. transitivity (sum4 (fun c => delta4 a c * P c)); [nat4 a Ha; unfold sum4, delta4; cbn [Nat.eqb]; ring|].
  unfold sum4 at 1. rewrite <- !inv by lia. unfold sum4. rewrite !vel by lia. unfold sum4. ring.
Qed.
Lemma raise_gradient k : (k < 4)%nat -> sum4 (fun b => sum4 (fun c => dN k b c * P b * P c)) = - sum4 (fun b => sum4 (fun c => dG k b c * W b * W c)).
Proof.
  intros Hk.
  transitivity (sum4 (fun c => P c * sum4 (fun d => W d * sum4 (fun b => Gm d b * dN k b c)))).
  - transitivity (sum4 (fun b => sum4 (fun c => dN k b c * sum4 (fun d => Gm d b * W d) * P c))).
    + apply sum4_ext. intros b Hb. apply sum4_ext. intros c Hc. do 2 f_equal. rewrite (lower b Hb) at 1. apply sum4_ext. intros d Hd. rewrite (sym b d) by assumption. reflexivity.
    + unfold sum4. ring.
  - transitivity (sum4 (fun c => P c * sum4 (fun d => W d * - sum4 (fun b => dG k d b * N b c)))).
    + apply sum4_ext. intros c Hc. f_equal. apply sum4_ext. intros d Hd. f_equal. assert (E := dinv k d c Hk Hd Hc). lra.
    + transitivity (- sum4 (fun b => sum4 (fun c => dG k b c * W b * sum4 (fun d => N c d * P d)))).
      * unfold sum4. ring.
      * f_equal. apply sum4_ext. intros b Hb. apply sum4_ext. intros c Hc. rewrite (vel c Hc). reflexivity.
Qed.
End Algebra.
Section Algebra2.
Variables (Gm gi : nat -> nat -> R) (dG : nat -> nat -> nat -> R) (W W' : nat -> R).
Definition force (a : nat) : R := / 2 * sum4 (fun c => sum4 (fun d => dG a c d * W c * W d)) - sum4 (fun b => sum4 (fun k => dG k a b * W k) * W b).
Definition accel (i : nat) : R := - sum4 (fun k => sum4 (fun l => (/ 2 * sum4 (fun m => gi i m * (dG l m k + dG k m l - dG m k l))) * W k * W l)).
Lemma accel_force i : accel i = sum4 (fun m => gi i m * force m).
Proof. unfold accel, force, sum4. field. Qed.
Lemma to_accel : (forall a c, (a < 4)%nat -> (c < 4)%nat -> sum4 (fun b => gi a b * Gm b c) = delta4 a c) ->
  (forall a, (a < 4)%nat -> sum4 (fun b => Gm a b * W' b) = force a) -> forall i, (i < 4)%nat -> W' i = accel i.
Proof.
  intros inv H i Hi. rewrite accel_force. transitivity (sum4 (fun m => gi i m * sum4 (fun b => Gm m b * W' b))).
  - transitivity (sum4 (fun c => sum4 (fun b => gi i b * Gm b c) * W' c)); [|unfold sum4; ring].
    transitivity (sum4 (fun c => delta4 i c * W' c)); [nat4 i Hi; unfold sum4, delta4; cbn [Nat.eqb]; ring|]. apply sum4_ext. intros c Hc. rewrite inv by assumption. reflexivity.
  - apply sum4_ext. intros m Hm. rewrite H by exact Hm. reflexivity.
Qed.
Lemma of_accel : (forall a c, (a < 4)%nat -> (c < 4)%nat -> sum4 (fun b => Gm a b * gi b c) = delta4 a c) ->
  (forall i, (i < 4)%nat -> W' i = accel i) -> forall a, (a < 4)%nat -> sum4 (fun b => Gm a b * W' b) = force a.
Proof.
  intros inv H a Ha. transitivity (sum4 (fun b => Gm a b * sum4 (fun m => gi b m * force m))).
  - apply sum4_ext. intros b Hb. rewrite H, accel_force by exact Hb. reflexivity.
  - transitivity (sum4 (fun m => sum4 (fun b => Gm a b * gi b m) * force m)); [generalize force; intros f; unfold sum4; ring|].
    transitivity (sum4 (fun m => delta4 a m * force m)); [apply sum4_ext; intros m Hm; rewrite inv by assumption; reflexivity|].
    generalize force; intros f. nat4 a Ha; unfold sum4, delta4; cbn [Nat.eqb]; ring.
Qed.
End Algebra2.

(** *** calculus *)
Lemma D_sum4 (f : nat -> R -> R) (d : nat -> R) t : (forall k, (k < 4)%nat -> is_derive (f k) t (d k)) -> is_derive (fun u => sum4 (fun k => f k u)) t (sum4 d).
Proof. intros H. unfold sum4. repeat apply D_plus; apply H; lia. Qed.
Lemma D_ext_loc (f g : R -> R) (t a : R) : locally t (fun s => f s = g s) -> is_derive f t a -> is_derive g t a.
Proof. intros H D. eapply is_derive_ext_loc; [exact H|exact D]. Qed.

(** componentwise rescaling of coordinates *)
Definition scaled (s x : V4) : V4 := q4tab (fun k => q4nth s k * q4nth x k).
Lemma scaled_nth s x k : (k < 4)%nat -> q4nth (scaled s x) k = q4nth s k * q4nth x k.
Proof. intros H. unfold scaled. rewrite q4nth_tab' by exact H. reflexivity. Qed.
(** the contravariant metric of the program, in the rescaled coordinates and multiplied by 1/kap *)
Definition contraS (g : metricP) (s : V4) (kap : R) (x : V4) (b c : nat) : R := q4nth s b * q4nth s c * meaning (q4nth x) (mnth g b c) / kap.
(** the array [cov] of the metric class at the rescaled position is the inverse of [contraS], on an open set [dom] of positions *)
Definition same_metric (g : metricP) (cov : V4 -> Res M4) (s : V4) (kap : R) (dom : V4 -> Prop) : Prop :=
  (forall x, dom x -> metric_defined g (q4nth x) /\ exists m, cov (scaled s x) = Ok m
     /\ (forall a b, (a < 4)%nat -> (b < 4)%nat -> mnth m a b = mnth m b a)
     /\ forall a c, (a < 4)%nat -> (c < 4)%nat -> sum4 (fun b => mnth m a b * contraS g s kap x b c) = delta4 a c)
  /\ (forall (y : R -> V4) t v, has_velocity y t v -> dom (y t) -> locally t (fun u => dom (y u))).

Section Solve.
Variables (g : metricP) (cov : V4 -> Res M4) (s : V4) (kap : R) (dom : V4 -> Prop).
Hypothesis Hwf : well_formed g.
Hypothesis Hsame : same_metric g cov s kap dom.
Hypothesis Hs : forall k, (k < 4)%nat -> q4nth s k <> 0.
Hypothesis Hk : kap <> 0.

Lemma below4 a b : (a < 4)%nat -> (b < 4)%nat -> below 4 (mnth g a b) = true.
Proof. intros A B. rewrite <- below_vars. apply Hwf; assumption. Qed.
Definition dcontra (x : V4) (k b c : nat) : R := q4nth s b * q4nth s c * meaning (q4nth x) (pd k (mnth g b c)) / kap / q4nth s k.
Lemma contra_path y t v b c : has_velocity y t v -> dom (y t) -> (b < 4)%nat -> (c < 4)%nat ->
  is_derive (fun u => contraS g s kap (y u) b c) t (sum4 (fun k => dcontra (y t) k b c * (q4nth s k * q4nth v k))).
Proof.
  intros Hv Hd Hb Hc. destruct Hsame as [S1 _]. destruct (S1 _ Hd) as [Hdef _].
  assert (P := pd_path 4 (mnth g b c) (below4 b c Hb Hc) (fun i u => q4nth (y u) i) (q4nth v) t Hv (Hdef b c Hb Hc)).
  unfold contraS. eapply D_eq; [eapply D_ext; [|apply (D_scal _ t (q4nth s b * q4nth s c / kap) _ P)]|].
  - intros u. cbv beta. change (fun i : nat => q4nth (y u) i) with (q4nth (y u)). field. exact Hk.
  - unfold sum4, dcontra. cbn [rsum]. change (fun i : nat => q4nth (y t) i) with (q4nth (y t)). field. split; [exact Hk|]. repeat split; apply Hs; lia.
Qed.
Lemma scaled_velocity y t v : has_velocity y t v -> has_velocity (fun u => scaled s (y u)) t (scaled s v).
Proof.
  intros H k K. rewrite scaled_nth by exact K. eapply D_ext; [|apply (D_scal _ t (q4nth s k) _ (H k K))].
  intros u. cbv beta. rewrite scaled_nth by exact K. reflexivity.
Qed.
Lemma inv_path y t v : has_velocity y t v -> dom (y t) -> locally t (fun u => forall a c, (a < 4)%nat -> (c < 4)%nat ->
  sum4 (fun b => entry (cov (scaled s (y u))) a b * contraS g s kap (y u) b c) = delta4 a c).
Proof.
  intros Hv Hd. destruct Hsame as [S1 S2]. generalize (S2 y t v Hv Hd). apply filter_imp. intros u Hu a c Ha Hc.
  destruct (S1 _ Hu) as (_ & m & E & _ & I). rewrite E. cbn [entry]. apply I; assumption.
Qed.
(** derivative of G G^-1 = 1 in the k-th coordinate *)
Lemma dinv_point x dg k a c : dom x -> is_gradient cov (scaled s x) dg -> (k < 4)%nat -> (a < 4)%nat -> (c < 4)%nat ->
  sum4 (fun b => dg k a b * contraS g s kap x b c) + sum4 (fun b => entry (cov (scaled s x)) a b * dcontra x k b c) = 0.
Proof.
  intros Hd Hg K Ha Hc.
  set (e := q4tab (fun i => if Nat.eqb i k then / q4nth s k else 0)).
  set (y := fun u : R => q4tab (fun i => q4nth x i + u * q4nth e i)).
  assert (Y0 : y 0 = x) by (unfold y; destruct x as [x0 x1 x2 x3]; unfold q4tab; cbn [q4nth c0 c1 c2 c3]; f_equal; ring).
  assert (Hv : has_velocity y 0 e).
  { intros i Hi. unfold y. eapply D_ext with (f := fun u => q4nth x i + u * q4nth e i); [intros u; rewrite q4nth_tab' by exact Hi; reflexivity|].
    auto_derive; [exact I|ring]. }
  assert (Se : scaled s e = q4tab (fun i => delta4 i k)).
  { unfold scaled, e. nat4 k K; unfold q4tab, delta4; cbn [q4nth c0 c1 c2 c3 Nat.eqb]; f_equal; try ring; apply Rinv_r; first [exact (Hs 0%nat ltac:(lia))|exact (Hs 1%nat ltac:(lia))|exact (Hs 2%nat ltac:(lia))|exact (Hs 3%nat ltac:(lia))]. }
  destruct (Hg (fun u => scaled s (y u)) 0 (scaled s e)) as [_ GD]; [rewrite Y0; reflexivity|apply scaled_velocity; exact Hv|].
  assert (L := inv_path y 0 e Hv ltac:(rewrite Y0; exact Hd)).
  assert (D1 : is_derive (fun u => sum4 (fun b => entry (cov (scaled s (y u))) a b * contraS g s kap (y u) b c)) 0
    (sum4 (fun b => sum4 (fun k' => dg k' a b * q4nth (scaled s e) k') * contraS g s kap (y 0) b c + entry (cov (scaled s (y 0))) a b * sum4 (fun k' => dcontra (y 0) k' b c * (q4nth s k' * q4nth e k'))))).
  { apply D_sum4. intros b Hb. apply D_mult; [apply GD; assumption|]. apply contra_path; [exact Hv|rewrite Y0; exact Hd|exact Hb|exact Hc]. }
  assert (D2 : is_derive (fun u => sum4 (fun b => entry (cov (scaled s (y u))) a b * contraS g s kap (y u) b c)) 0 0).
  { eapply D_ext_loc; [|apply (D_const (delta4 a c) 0)]. revert L. apply filter_imp. intros u L. symmetry. apply L; assumption. }
  assert (E := D_unique _ _ _ _ D1 D2). rewrite Y0 in E. rewrite <- E. clear - Se K Hs.
  assert (T : forall k', (k' < 4)%nat -> q4nth s k' * q4nth e k' = delta4 k' k). { intros k' K'. rewrite <- scaled_nth by exact K'. rewrite Se. apply (q4nth_tab' (fun i => delta4 i k)). exact K'. }
  rewrite Se. unfold sum4 at 1 2. unfold sum4 at 1. unfold sum4. rewrite !T by lia. rewrite !q4nth_tab' by lia. nat4 k K; unfold delta4; cbn [Nat.eqb]; ring.
Qed.

Lemma mm_nth x b c : (b < 4)%nat -> (c < 4)%nat -> mnth (metric_meaning g (q4nth x)) b c = meaning (q4nth x) (mnth g b c).
Proof. intros Hb Hc. unfold metric_meaning, mnth. nat4 b Hb; (nat4 c Hc); reflexivity. Qed.
Lemma Ham_sum x p : Ham g x p = / 2 * sum4 (fun b => sum4 (fun c => meaning (q4nth x) (mnth g b c) * q4nth p b * q4nth p c)).
Proof.
  unfold Ham, quad, sum4. f_equal. rewrite <- !mm_nth by lia. destruct (metric_meaning g (q4nth x)) as [[m00 m01 m02 m03] [m10 m11 m12 m13] [m20 m21 m22 m23] [m30 m31 m32 m33]]. destruct p as [p0 p1 p2 p3].
  unfold mv, dot, q4map, mnth. cbn [q4nth c0 c1 c2 c3]. ring.
Qed.
Lemma mv_sum x p k : (k < 4)%nat -> q4nth (mv (metric_meaning g (q4nth x)) p) k = sum4 (fun c => meaning (q4nth x) (mnth g k c) * q4nth p c).
Proof.
  intros K. unfold sum4. rewrite <- !mm_nth by lia. destruct (metric_meaning g (q4nth x)) as [[m00 m01 m02 m03] [m10 m11 m12 m13] [m20 m21 m22 m23] [m30 m31 m32 m33]]. destruct p as [p0 p1 p2 p3].
  unfold mv, dot, q4map, mnth. nat4 k K; cbn [q4nth c0 c1 c2 c3]; ring.
Qed.
Lemma Ham_partial x p k : dom x -> (k < 4)%nat ->
  is_derive (fun z => Ham g (vupd x k z) p) (q4nth x k) (/ 2 * sum4 (fun b => sum4 (fun c => meaning (q4nth x) (pd k (mnth g b c)) * q4nth p b * q4nth p c))).
Proof.
  intros Hd K. destruct Hsame as [S1 _]. destruct (S1 _ Hd) as [Hdef _].
  eapply D_ext; [intros z; symmetry; apply Ham_sum|]. apply D_scal. apply D_sum4. intros b Hb. apply D_sum4. intros c Hc.
  assert (P := pd_partial 4 (mnth g b c) (q4nth x) k (below4 b c Hb Hc) (Hdef b c Hb Hc) K).
  eapply D_eq; [eapply D_ext; [|apply (D_scal _ _ (q4nth p b * q4nth p c) _ P)]|ring].
  intros z. cbv beta. replace (meaning (GeoUtilsSpec.upd (q4nth x) k z) (mnth g b c)) with (meaning (q4nth (vupd x k z)) (mnth g b c)); [ring|].
  apply (meaning_ext_b 4 _ _ _ (below4 b c Hb Hc)). intros i Hi. apply vupd_nth. exact Hi.
Qed.

(** momentum in the rescaled coordinates *)
Definition mom (p : V4) (a : nat) : R := kap * q4nth p a / q4nth s a.
Lemma vel_sum x p b : (b < 4)%nat -> q4nth (scaled s (mv (metric_meaning g (q4nth x)) p)) b = sum4 (fun c => contraS g s kap x b c * mom p c).
Proof.
  intros Hb. rewrite scaled_nth, mv_sum by exact Hb. unfold sum4, contraS, mom. field. repeat split; first [exact Hk|apply Hs; lia].
Qed.
(** Hamilton's equations and the geodesic equation are the same statement *)
Lemma hamilton_iff_geodesic q p t ch : dom (q t) -> is_connection cov (scaled s (q t)) ch ->
  let W u := scaled s (mv (metric_meaning g (q4nth (q u))) (p u)) in
  hamilton g q p t <-> has_velocity (fun u => scaled s (q u)) t (W t) /\ has_velocity W t (geodesic_accel ch (W t)).
Proof.
  intros Hd (m & gi & dg & Em & [I1 I2] & Hg & Hch) W.
  destruct (proj1 Hsame _ Hd) as (Hdef & m' & Em' & Sym & Inv). rewrite Em in Em'. apply Ok_inj in Em'. subst m'.
  assert (J1 : forall a c, (a < 4)%nat -> (c < 4)%nat -> sum4 (fun b => mnth m a b * mnth gi b c) = delta4 a c).
  { intros a c Ha Hc. assert (E : mnth (mm m gi) a c = mnth id4 a c) by (rewrite I1; reflexivity). clear -E Ha Hc.
    destruct m as [[m00 m01 m02 m03] [m10 m11 m12 m13] [m20 m21 m22 m23] [m30 m31 m32 m33]], gi as [[h00 h01 h02 h03] [h10 h11 h12 h13] [h20 h21 h22 h23] [h30 h31 h32 h33]].
    nat4 a Ha; (nat4 c Hc); cbv -[Rplus Rmult IZR] in E; cbv -[Rplus Rmult IZR]; rewrite <- E; ring. }
  assert (J2 : forall a c, (a < 4)%nat -> (c < 4)%nat -> sum4 (fun b => mnth gi a b * mnth m b c) = delta4 a c).
  { intros a c Ha Hc. assert (E : mnth (mm gi m) a c = mnth id4 a c) by (rewrite I2; reflexivity). clear -E Ha Hc.
    destruct m as [[m00 m01 m02 m03] [m10 m11 m12 m13] [m20 m21 m22 m23] [m30 m31 m32 m33]], gi as [[h00 h01 h02 h03] [h10 h11 h12 h13] [h20 h21 h22 h23] [h30 h31 h32 h33]].
    nat4 a Ha; (nat4 c Hc); cbv -[Rplus Rmult IZR] in E; cbv -[Rplus Rmult IZR]; rewrite <- E; ring. }
  assert (Vt : forall b, (b < 4)%nat -> q4nth (W t) b = sum4 (fun c => contraS g s kap (q t) b c * mom (p t) c)) by (intros b Hb; apply vel_sum; exact Hb).
  assert (Dinv : forall k a c, (k < 4)%nat -> (a < 4)%nat -> (c < 4)%nat ->
     sum4 (fun b => dg k a b * contraS g s kap (q t) b c) + sum4 (fun b => mnth m a b * dcontra (q t) k b c) = 0).
  { intros k a c K Ha Hc. assert (E := dinv_point (q t) dg k a c Hd Hg K Ha Hc). rewrite Em in E. exact E. }
  set (P := mom (p t)) in *.
  assert (Force : forall k, (k < 4)%nat -> / 2 * sum4 (fun b => sum4 (fun c => meaning (q4nth (q t)) (pd k (mnth g b c)) * q4nth (p t) b * q4nth (p t) c))
     = - (q4nth s k / kap) * (/ 2 * sum4 (fun c => sum4 (fun d => dg k c d * q4nth (W t) c * q4nth (W t) d)))).
  { intros k K. assert (E := raise_gradient (mnth m) (contraS g s kap (q t)) dg (dcontra (q t)) (q4nth (W t)) P Inv Sym Dinv Vt k K).
    transitivity ((q4nth s k / kap) * (/ 2 * sum4 (fun b => sum4 (fun c => dcontra (q t) k b c * P b * P c)))).
    - rewrite <- !Rmult_assoc, (Rmult_comm (q4nth s k / kap)), !Rmult_assoc. f_equal.
      assert (S0 : forall f u, u * sum4 f = sum4 (fun i => u * f i)) by (intros; unfold sum4; ring).
      rewrite S0. apply sum4_ext. intros b Hb. rewrite S0. apply sum4_ext. intros c Hc. unfold dcontra, P, mom. field. repeat split; first [exact Hk|apply Hs; assumption].
    - rewrite E. ring. }
  assert (Loc : forall v, has_velocity q t v -> locally t (fun u => forall a, (a < 4)%nat -> mom (p u) a = sum4 (fun b => entry (cov (scaled s (q u))) a b * q4nth (W u) b))).
  { intros v Hv. generalize (proj2 Hsame q t v Hv Hd). apply filter_imp. intros u Hu a Ha. destruct (proj1 Hsame _ Hu) as (_ & mu & Eu & _ & Iu). rewrite Eu. cbn [entry].
    apply (lower (mnth mu) (contraS g s kap (q u)) (q4nth (W u)) (mom (p u)) Iu); [|exact Ha]. intros b Hb. apply vel_sum. exact Hb. }
  assert (Mix : forall W', has_velocity (fun u => scaled s (q u)) t (W t) -> has_velocity W t W' -> forall a, (a < 4)%nat ->
     is_derive (fun u => sum4 (fun b => entry (cov (scaled s (q u))) a b * q4nth (W u) b)) t
       (sum4 (fun b => sum4 (fun k => dg k a b * q4nth (W t) k) * q4nth (W t) b) + sum4 (fun b => mnth m a b * q4nth W' b))).
  { intros W' HX HW a Ha. destruct (Hg (fun u => scaled s (q u)) t (W t) eq_refl HX) as [_ GD].
    eapply D_eq; [apply D_sum4; intros b Hb; apply D_mult; [apply GD; assumption|apply HW; exact Hb]|]. cbv beta. rewrite Em. cbn [entry]. unfold sum4. ring. }
  split.
  - intros Hh.
    assert (Hv : has_velocity q t (mv (metric_meaning g (q4nth (q t))) (p t))) by (intros k K; apply (Hh k K)).
    assert (HX : has_velocity (fun u => scaled s (q u)) t (W t)) by (apply scaled_velocity; exact Hv).
    split; [exact HX|].
    assert (HP : forall a, (a < 4)%nat -> is_derive (fun u => mom (p u) a) t (/ 2 * sum4 (fun c => sum4 (fun d => dg a c d * q4nth (W t) c * q4nth (W t) d)))).
    { intros a Ha. destruct (Hh a Ha) as [_ (D & D1 & D2)]. assert (E := D_unique _ _ _ _ D1 (Ham_partial (q t) (p t) a Hd Ha)). rewrite (Force a Ha) in E.
      unfold mom. eapply D_eq; [eapply D_ext; [|apply (D_scal _ t (kap / q4nth s a) _ D2)]|].
      - intros u. cbv beta. field. apply Hs; exact Ha.
      - rewrite E. field. repeat split; first [exact Hk|apply Hs; assumption]. }
    assert (HW : exists W', has_velocity W t W').
    { exists (q4tab (fun b => sum4 (fun c => sum4 (fun k => dcontra (q t) k b c * (q4nth s k * q4nth (mv (metric_meaning g (q4nth (q t))) (p t)) k)) * mom (p t) c
         + contraS g s kap (q t) b c * (/ 2 * sum4 (fun c' => sum4 (fun d => dg c c' d * q4nth (W t) c' * q4nth (W t) d)))))).
      intros b Hb. rewrite q4nth_tab' by exact Hb. eapply D_ext; [intros u; symmetry; apply (vel_sum (q u) (p u) b Hb)|].
      apply D_sum4. intros c Hc. apply (D_mult (fun u => contraS g s kap (q u) b c) (fun u => mom (p u) c)); [|apply HP; exact Hc].
      apply contra_path; assumption. }
    destruct HW as [W' HW]. intros i Hi. eapply D_eq; [apply HW; exact Hi|].
    unfold geodesic_accel. rewrite q4nth_tab' by exact Hi.
    transitivity (accel (mnth gi) dg (q4nth (W t)) i).
    + apply (to_accel (mnth m) (mnth gi) dg (q4nth (W t)) (q4nth W') J2); [|exact Hi]. intros a Ha. unfold force.
      assert (D1 := Mix W' HX HW a Ha). assert (D2 : is_derive (fun u => mom (p u) a) t (sum4 (fun b => sum4 (fun k => dg k a b * q4nth (W t) k) * q4nth (W t) b) + sum4 (fun b => mnth m a b * q4nth W' b))).
      { eapply D_ext_loc; [|exact D1]. generalize (Loc _ Hv). apply filter_imp. intros u Hu. symmetry. apply Hu. exact Ha. }
      assert (E := D_unique _ _ _ _ D2 (HP a Ha)). lra.
    + unfold accel. f_equal. apply sum4_ext. intros k K. apply sum4_ext. intros l Hl. rewrite (Hch i k l Hi K Hl). reflexivity.
  - intros [HX HW].
    assert (Hv : has_velocity q t (mv (metric_meaning g (q4nth (q t))) (p t))).
    { intros k K. eapply D_eq; [eapply D_ext; [|apply (D_scal _ t (/ q4nth s k) _ (HX k K))]|].
      - intros u. cbv beta. rewrite scaled_nth by exact K. field. apply Hs; exact K.
      - unfold W. rewrite scaled_nth by exact K. field. apply Hs; exact K. }
    intros k K. split; [apply Hv; exact K|]. eexists. split; [apply Ham_partial; assumption|]. rewrite (Force k K).
    assert (HF : sum4 (fun b => mnth m k b * q4nth (geodesic_accel ch (W t)) b) = force dg (q4nth (W t)) k).
    { apply (of_accel (mnth m) (mnth gi) dg (q4nth (W t)) (q4nth (geodesic_accel ch (W t))) J1); [|exact K]. intros i Hi. unfold geodesic_accel. rewrite q4nth_tab' by exact Hi.
      unfold accel. f_equal. apply sum4_ext. intros k' K'. apply sum4_ext. intros l Hl. rewrite (Hch i k' l Hi K' Hl). reflexivity. }
    assert (D1 := Mix _ HX HW k K). rewrite HF in D1. unfold force in D1.
    assert (D2 : is_derive (fun u => mom (p u) k) t (/ 2 * sum4 (fun c => sum4 (fun d => dg k c d * q4nth (W t) c * q4nth (W t) d)))).
    { eapply D_eq; [eapply D_ext_loc; [|exact D1]|ring]. generalize (Loc _ Hv). apply filter_imp. intros u Hu. symmetry. apply Hu. exact K. }
    eapply D_eq; [eapply D_ext; [|apply (D_scal _ t (q4nth s k / kap) _ D2)]|].
    + intros u. unfold mom. cbv beta. field. repeat split; first [exact Hk|apply Hs; assumption].
    + ring.
Qed.
End Solve.
