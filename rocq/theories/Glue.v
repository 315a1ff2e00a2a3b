(** Solutions on every [0, T] and uniqueness give one solution on [0, oo). *)
From Coq Require Import Reals List ZArith Lra Lia.
From Coquelicot Require Import Coquelicot.
From Verif Require Import Base Calc DualModel DualSpec DualProofs DualDiff GeoUtilsModel GeoUtilsSpec GeoUtilsProofs GeodesicModel GeodesicProofs FantasyModel FantasyProofs FantasyProofs2 FantasyProofs3 FantasyHam FantasyOrder FantasyGlobal FantasyGlobal2 FantasyGlobal3 CoordModel MetricModel MetricSpec MetricHamilton2 PicardProg.
Import ListNotations.
Open Scope R_scope.

Section Glue.
Variable L : (R -> V4) -> (R -> V4) -> R -> Prop.
Hypothesis germ : forall q p q' p' t, locally t (fun u => q u = q' u /\ p u = p' u) -> L q p t -> L q' p' t.
Variables (q0 p0 : V4).
Definition sol (q p : R -> V4) (T : R) : Prop := q 0 = q0 /\ p 0 = p0 /\ forall t, 0 <= t <= T -> L q p t.
Hypothesis uniq : forall q p q' p' T, 0 <= T -> sol q p T -> sol q' p' T -> forall t, 0 <= t <= T -> q t = q' t /\ p t = p' t.
Hypothesis exi : forall T, 0 < T -> exists q p, sol q p T.
Lemma sol_le q p T T' : T' <= T -> sol q p T -> sol q p T'.
Proof. intros H (A & B & C). split; [exact A|]. split; [exact B|]. intros t Ht. apply C. lra. Qed.
Definition val (s : V4 -> V4 -> R) (t : R) : R := iota (fun x => exists T q p, t < T /\ sol q p T /\ s (q t) (p t) = x).
Lemma val_ok s t q p T : 0 <= t < T -> sol q p T -> val s t = s (q t) (p t).
Proof.
  intros Ht HS. assert (U : exists T q p, t < T /\ sol q p T /\ s (q t) (p t) = val s t).
  { unfold val. apply (iota_correct (fun x => exists T q p, t < T /\ sol q p T /\ s (q t) (p t) = x)). exists (s (q t) (p t)). split.
    - exists T, q, p. split; [lra|]. split; [exact HS|reflexivity].
    - intros x (T' & q' & p' & HT & HS' & <-). destruct (uniq q p q' p' (Rmin T T')) with (t := t) as [E1 E2]; [apply Rmin_glb; lra|eapply sol_le; [apply Rmin_l|exact HS]|eapply sol_le; [apply Rmin_r|exact HS']|split; [lra|apply Rmin_glb; lra]|].
      rewrite E1, E2. reflexivity. }
  destruct U as (T' & q' & p' & HT & HS' & <-). destruct (uniq q p q' p' (Rmin T T')) with (t := t) as [E1 E2]; [apply Rmin_glb; lra|eapply sol_le; [apply Rmin_l|exact HS]|eapply sol_le; [apply Rmin_r|exact HS']|split; [lra|apply Rmin_glb; lra]|].
  rewrite E1, E2. reflexivity.
Qed.
Theorem glue : exists q p, q 0 = q0 /\ p 0 = p0 /\ forall t, 0 <= t -> L q p t.
Proof.
  destruct (exi 1 Rlt_0_1) as (qa & pa & HA).
  set (q := fun t => if Rle_dec t 0 then qa t else mkQ4 (val (fun x _ => c0 x) t) (val (fun x _ => c1 x) t) (val (fun x _ => c2 x) t) (val (fun x _ => c3 x) t)).
  set (p := fun t => if Rle_dec t 0 then pa t else mkQ4 (val (fun _ x => c0 x) t) (val (fun _ x => c1 x) t) (val (fun _ x => c2 x) t) (val (fun _ x => c3 x) t)).
  assert (AG : forall q' p' T u, 0 < u < T -> sol q' p' T -> q' u = q u /\ p' u = p u).
  { intros q' p' T u Hu HS. unfold q, p. destruct (Rle_dec u 0); [lra|]. rewrite !(fun s => val_ok s u q' p' T ltac:(lra) HS). destruct (q' u), (p' u). split; reflexivity. }
  assert (NG : forall u, u <= 0 -> qa u = q u /\ pa u = p u) by (intros u Hu; unfold q, p; destruct (Rle_dec u 0); [split; reflexivity|contradiction]).
  exists q, p. destruct (NG 0 (Rle_refl 0)) as [N1 N2]. split; [rewrite <- N1; apply HA|]. split; [rewrite <- N2; apply HA|]. intros t Ht.
  destruct (Req_dec t 0) as [->|Hn].
  - apply (germ qa pa); [|apply HA; lra]. exists (mkposreal 1 Rlt_0_1). intros u Hu. apply Rabs_def2 in Hu. cbn in Hu. unfold minus, plus, opp in Hu. cbn in Hu. destruct (Rle_lt_dec u 0) as [Hl|Hl]; [apply NG; exact Hl|]. apply (AG qa pa 1); [lra|exact HA].
  - destruct (exi (t + 1)) as (q' & p' & HS); [lra|]. apply (germ q' p'); [|apply HS; lra]. assert (P : 0 < Rmin t 1) by (apply Rmin_glb_lt; lra). exists (mkposreal _ P). intros u Hu. apply Rabs_def2 in Hu. cbn in Hu. unfold minus, plus, opp in Hu. cbn in Hu.
    assert (M1 := Rmin_l t 1). assert (M2 := Rmin_r t 1). apply (AG q' p' (t + 1)); [lra|exact HS].
Qed.
End Glue.

(** geodesics of a metric program *)
Lemma hamilton_germ g q p q' p' t : locally t (fun u => q u = q' u /\ p u = p' u) -> hamilton g q p t -> hamilton g q' p' t.
Proof.
  intros H Hh k Hk. destruct (locally_singleton _ _ H) as [E1 E2]. destruct (Hh k Hk) as (A & D & B & C). rewrite <- E1, <- E2. split.
  - apply (is_derive_ext_loc (fun u => q4nth (q u) k)); [generalize H; apply filter_imp; intros u [X _]; rewrite X; reflexivity|exact A].
  - exists D. split; [exact B|]. apply (is_derive_ext_loc (fun u => q4nth (p u) k)); [generalize H; apply filter_imp; intros u [_ X]; rewrite X; reflexivity|exact C].
Qed.
Theorem geodesic_forever g q0 p0 : well_formed g -> symmetric_program g -> (forall T, 0 < T -> exists q p, q 0 = q0 /\ p 0 = p0 /\ geodesic_on g q p T) ->
  exists q p, q 0 = q0 /\ p 0 = p0 /\ (forall T, geodesic_on g q p T) /\
  forall q' p' T, q' 0 = q0 -> p' 0 = p0 -> geodesic_on g q' p' T -> forall t, 0 <= t <= T -> q t = q' t /\ p t = p' t.
Proof.
  intros W Sy HE. set (L := fun q p t => metric_defined g (q4nth (q t)) /\ locally t (hamilton g q p)).
  destruct (glue L) with (q0 := q0) (p0 := p0) as (q & p & E1 & E2 & H).
  - intros q p q' p' t Hl [A B]. split; [destruct (locally_singleton _ _ Hl) as [E _]; rewrite <- E; exact A|]. generalize (filter_and _ _ (locally_locally _ _ Hl) B). apply filter_imp. intros u [X Y]. exact (hamilton_germ g q p q' p' u X Y).
  - intros q p q' p' T HT (A1 & A2 & A3) (B1 & B2 & B3) t Ht. apply (geodesic_unique g q p q' p' T W Sy A3 B3); congruence || exact Ht.
  - exact HE.
  - exists q, p. split; [exact E1|]. split; [exact E2|]. split; [intros T t Ht; apply H; lra|]. intros q' p' T F1 F2 G. apply (geodesic_unique g q p q' p' T W Sy); [intros t Ht; apply H; lra|exact G|congruence|congruence].
Qed.
(** motions of the SI classes *)
Lemma moves_germ f X W X' W' t : locally t (fun u => X u = X' u /\ W u = W' u) -> moves f X W t -> moves f X' W' t.
Proof.
  intros H (acc & A & B & C). destruct (locally_singleton _ _ H) as [E1 E2]. exists acc. rewrite <- E1, <- E2. split; [|split; [exact B|]]; intros k Hk.
  - apply (is_derive_ext_loc (fun u => q4nth (X u) k)); [generalize H; apply filter_imp; intros u [Y _]; rewrite Y; reflexivity|exact (A k Hk)].
  - apply (is_derive_ext_loc (fun u => q4nth (W u) k)); [generalize H; apply filter_imp; intros u [_ Y]; rewrite Y; reflexivity|exact (C k Hk)].
Qed.
Theorem motion_forever f x w : 
  (forall X W X' W' t, X 0 = X' 0 -> W 0 = W' 0 -> (forall u, Rmin 0 t <= u <= Rmax 0 t -> locally u (moves f X W) /\ locally u (moves f X' W')) -> X t = X' t /\ W t = W' t) ->
  (forall T, 0 < T -> exists X W, X 0 = x /\ W 0 = w /\ forall t, 0 <= t <= T -> locally t (moves f X W)) ->
  exists X W, X 0 = x /\ W 0 = w /\ (forall t, 0 <= t -> locally t (moves f X W)) /\
  forall X' W' T, X' 0 = x -> W' 0 = w -> (forall t, 0 <= t <= T -> locally t (moves f X' W')) -> forall t, 0 <= t <= T -> X t = X' t /\ W t = W' t.
Proof.
  intros U HE. assert (UQ : forall q p q' p' T, 0 <= T -> sol (fun X W t => locally t (moves f X W)) x w q p T -> sol (fun X W t => locally t (moves f X W)) x w q' p' T -> forall t, 0 <= t <= T -> q t = q' t /\ p t = p' t).
  { intros q p q' p' T HT (A1 & A2 & A3) (B1 & B2 & B3) t Ht. apply U; [congruence|congruence|]. rewrite Rmin_left, Rmax_right by lra. intros u Hu. split; [apply A3|apply B3]; lra. }
  destruct (glue (fun X W t => locally t (moves f X W))) with (q0 := x) (p0 := w) as (X & W & E1 & E2 & H).
  - intros q p q' p' t Hl B. generalize (filter_and _ _ (locally_locally _ _ Hl) B). apply filter_imp. intros u [A Y]. exact (moves_germ f q p q' p' u A Y).
  - exact UQ.
  - exact HE.
  - exists X, W. split; [exact E1|]. split; [exact E2|]. split; [exact H|]. intros X' W' T F1 F2 G t Ht. apply (UQ X W X' W' T); [lra| | |exact Ht]; split; auto. split; [exact E2|]. intros u Hu. apply H. lra.
Qed.
