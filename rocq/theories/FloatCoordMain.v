(** The statements: the floating-point conversions against the exact ones, and their round trips. *)
From Coq Require Import Reals List ZArith Lra Lia Bool.
From Coquelicot Require Import Coquelicot.
From Verif Require Import Base Calc GeoUtilsModel CoordModel CoordProofs CoordProofs2 CoordProofs3 CoordProofs4 CoordProofs6 FloatModel FloatTrack.
From Verif Require Import FloatCoordModel FloatCoord.
Import ListNotations.
Open Scope R_scope.

Definition close (e v l : R) : Prop := Rabs (v - l) <= e.
Definition close4 (e : R) (v l : V4) : Prop := close e (c0 v) (c0 l) /\ close e (c1 v) (c1 l) /\ close e (c2 v) (c2 l) /\ close e (c3 v) (c3 l).
Definition close3 (e : R) (v l : V3) : Prop := close e (v1 v) (v1 l) /\ close e (v2 v) (v2 l) /\ close e (v3 v) (v3 l).
(** the last component is an angle, compared up to full turns *)
Definition close_sph (e : R) (v l : V4) : Prop := close e (c0 v) (c0 l) /\ close e (c1 v) (c1 l) /\ close e (c2 v) (c2 l) /\ near_angle e (c3 v) (c3 l).

Record cin := mkcin { k_u : R; k_B : arith2; k_p : V4; k_v : V3; k_al : R }.
Definition inK (K : R) (p : V4) (v : V3) (al : R) (r : R) (j : cin) : Prop :=
  0 <= k_u j < r /\ accurate2 (k_u j) (k_B j) /\ close4 (K * k_u j) (k_p j) p /\ close3 (K * k_u j) (k_v j) v /\ close (K * k_u j) (k_al j) al.
Definition FK K p v al (P : cin -> Prop) : Prop := exists r, 0 < r /\ forall j, inK K p v al r j -> P j.
Lemma inK_le K p v al r r' j : r <= r' -> inK K p v al r j -> inK K p v al r' j.
Proof. intros H (H1 & H2). split; [lra|]. assumption. Qed.
Global Instance FK_filter K p v al : Filter (FK K p v al).
Proof.
  split.
  - exists 1. split; [lra|]. auto.
  - intros P Q (r1 & R1 & H1) (r2 & R2 & H2). exists (Rmin r1 r2). split; [apply Rmin_pos; assumption|]. intros j Hj.
    split; [apply H1; eapply inK_le; [apply Rmin_l|exact Hj]|apply H2; eapply inK_le; [apply Rmin_r|exact Hj]].
  - intros P Q H (r & Hr & HP). exists r. split; [exact Hr|]. intros j Hj. apply H, HP, Hj.
Qed.
Section FK.
Variables (K : R) (p : V4) (v : V3) (al : R).
Hypothesis HK : 0 <= K.
Let F := FK K p v al.
Lemma FK_u0 : F (fun j => 0 <= k_u j).
Proof. exists 1. split; [lra|]. intros j Hj. apply Hj. Qed.
Lemma FK_u : filterlim k_u F (locally 0).
Proof.
  intros P [e HP]. exists e. split; [apply cond_pos|]. intros j Hj. apply HP. destruct Hj as ((H1 & H2) & _). unfold ball; cbn; unfold AbsRing_ball, abs, minus, plus, opp; cbn.
  rewrite Ropp_0, Rplus_0_r, Rabs_right by lra. exact H2.
Qed.
Lemma FK_B : F (fun j => accurate2 (k_u j) (k_B j)).
Proof. exists 1. split; [lra|]. intros j Hj. apply Hj. Qed.
Lemma FK_tr (f : cin -> R) l : (forall r j, inK K p v al r j -> Rabs (f j - l) <= K * k_u j) -> tr F k_u f l.
Proof. intros H. split; [apply filterlim_const|]. exists K. split; [exact HK|]. exists 1. split; [lra|]. intros j Hj. exact (H _ _ Hj). Qed.
Lemma FK_p : tr4 F k_u k_p p.
Proof. repeat split; try apply filterlim_const; exists K; (split; [exact HK|]); exists 1; (split; [lra|]); intros j (_ & _ & H & _); apply H. Qed.
Lemma FK_v : tr3 F k_u k_v v.
Proof. repeat split; try apply filterlim_const; exists K; (split; [exact HK|]); exists 1; (split; [lra|]); intros j (_ & _ & _ & H & _); apply H. Qed.
Lemma FK_al : tr F k_u k_al al.
Proof. apply FK_tr. intros r j (_ & _ & _ & _ & H). exact H. Qed.
End FK.

Section Out.
Context {J : Type} (F : (J -> Prop) -> Prop) {FF : Filter F} (u : J -> R).
Hypothesis Hu0 : F (fun j => 0 <= u j).
Lemma close_le e e' v l : e <= e' -> close e v l -> close e' v l.
Proof. unfold close. lra. Qed.
Lemma near_le e e' v l : e <= e' -> near_angle e v l -> near_angle e' v l.
Proof. intros H (k & Hk & Q). exists k. split; [exact Hk|]. lra. Qed.
Lemma out3 v l : tr3 F u v l -> exists C, 0 <= C /\ F (fun j => close3 (C * u j) (v j) l).
Proof.
  intros ([_ (C1 & P1 & E1)] & [_ (C2 & P2 & E2)] & [_ (C3 & P3 & E3)]). exists (C1 + C2 + C3). split; [lra|].
  generalize (filter_and _ _ (filter_and _ _ E1 E2) (filter_and _ _ E3 Hu0)). apply filter_imp. intros j [[X1 X2] [X3 X0]].
  assert (0 <= C1 * u j) by (apply Rmult_le_pos; assumption). assert (0 <= C2 * u j) by (apply Rmult_le_pos; assumption). assert (0 <= C3 * u j) by (apply Rmult_le_pos; assumption).
  unfold close3, close. split; [|split]; lra.
Qed.
Lemma out4 v l : tr4 F u v l -> exists C, 0 <= C /\ F (fun j => close4 (C * u j) (v j) l).
Proof.
  intros ([_ (C1 & P1 & E1)] & [_ (C2 & P2 & E2)] & [_ (C3 & P3 & E3)] & [_ (C4 & P4 & E4)]). exists (C1 + C2 + C3 + C4). split; [lra|].
  generalize (filter_and _ _ (filter_and _ _ E1 E2) (filter_and _ _ E3 (filter_and _ _ E4 Hu0))). apply filter_imp. intros j [[X1 X2] [X3 [X4 X0]]].
  assert (0 <= C1 * u j) by (apply Rmult_le_pos; assumption). assert (0 <= C2 * u j) by (apply Rmult_le_pos; assumption). assert (0 <= C3 * u j) by (apply Rmult_le_pos; assumption). assert (0 <= C4 * u j) by (apply Rmult_le_pos; assumption).
  unfold close4, close. split; [|split; [|split]]; lra.
Qed.
Lemma out4a v l : tr4a F u v l -> exists C, 0 <= C /\ F (fun j => close_sph (C * u j) (v j) l).
Proof.
  intros ([_ (C1 & P1 & E1)] & [_ (C2 & P2 & E2)] & [_ (C3 & P3 & E3)] & (C4 & P4 & E4)). exists (C1 + C2 + C3 + C4). split; [lra|].
  generalize (filter_and _ _ (filter_and _ _ E1 E2) (filter_and _ _ E3 (filter_and _ _ E4 Hu0))). apply filter_imp. intros j [[X1 X2] [X3 [X4 X0]]].
  assert (0 <= C1 * u j) by (apply Rmult_le_pos; assumption). assert (0 <= C2 * u j) by (apply Rmult_le_pos; assumption). assert (0 <= C3 * u j) by (apply Rmult_le_pos; assumption). assert (0 <= C4 * u j) by (apply Rmult_le_pos; assumption).
  unfold close_sph, close. split; [lra|]. split; [lra|]. split; [lra|]. eapply near_le; [|exact X4]. lra.
Qed.
Lemma out4b v l (P : Prop) : tr4a F u v l /\ (P -> tr4 F u v l) -> exists C, 0 <= C /\ F (fun j => close_sph (C * u j) (v j) l /\ (P -> close4 (C * u j) (v j) l)).
Proof.
  intros [H1 H2]. destruct (out4a _ _ H1) as (C1 & P1 & E1). destruct (Classical_Prop.classic P) as [HP|HP].
  - destruct (out4 _ _ (H2 HP)) as (C2 & P2 & E2). exists (C1 + C2). split; [lra|]. generalize (filter_and _ _ (filter_and _ _ E1 E2) Hu0). apply filter_imp. intros j [[X1 X2] X0].
    assert (0 <= C1 * u j) by (apply Rmult_le_pos; assumption). assert (0 <= C2 * u j) by (apply Rmult_le_pos; assumption).
    unfold close_sph, close4, close in *. destruct X1 as (A1 & A2 & A3 & A4), X2 as (B1 & B2 & B3 & B4). split.
    + split; [lra|]. split; [lra|]. split; [lra|]. eapply near_le; [|exact A4]. lra.
    + intros _. split; [|split; [|split]]; lra.
  - exists C1. split; [exact P1|]. revert E1. apply filter_imp. intros j X. split; [exact X|]. intros Q. contradiction.
Qed.
End Out.

(** regular points: the conversions to spherical and Boyer-Lindquist coordinates are differentiable there *)
Definition off_z_axis (p : V4) : Prop := c1 p <> 0 \/ c2 p <> 0.
(** off the half-plane on which phi jumps from pi to -pi *)
Definition off_cut (p : V4) : Prop := 0 < c1 p \/ c2 p <> 0.

(** the setting of every theorem: for every small unit roundoff and every arithmetic with it, and all float inputs within K u of the
    exact position p, velocity v and spin parameter al *)
Definition eventually_rounded (K : R) (p : V4) (v : V3) (al : R) (claim : R -> R -> arith2 -> V4 -> V3 -> R -> Prop) : Prop :=
  exists r C, 0 < r /\ 0 <= C /\ forall u B fp fv fal, 0 <= u < r -> accurate2 u B -> close4 (K * u) fp p -> close3 (K * u) fv v -> close (K * u) fal al -> claim C u B fp fv fal.

Lemma use_FK K p v al (Q : R -> cin -> Prop) : (exists C, 0 <= C /\ FK K p v al (Q C)) -> eventually_rounded K p v al (fun C u B fp fv fal => Q C (mkcin u B fp fv fal)).
Proof. intros (C & HC & r & Hr & H). exists r, C. split; [exact Hr|]. split; [exact HC|]. intros u B fp fv fal Hu HB Hp Hv Ha. apply H. split; [exact Hu|]. split; [exact HB|]. split; [exact Hp|]. split; [exact Hv|exact Ha]. Qed.

Lemma ev_imp K p v al (Q Q' : R -> R -> arith2 -> V4 -> V3 -> R -> Prop) : (forall C u B fp fv fal, Q C u B fp fv fal -> Q' C u B fp fv fal) -> eventually_rounded K p v al Q -> eventually_rounded K p v al Q'.
Proof. intros H (r & C & Hr & HC & HQ). exists r, C. split; [exact Hr|]. split; [exact HC|]. intros. apply H. apply HQ; assumption. Qed.


Lemma join_sph K p v al (rp : cin -> Res V4) (rv : cin -> Res V3) l w' (P : Prop) :
  okT (FK K p v al) rp (fun s => tr4a (FK K p v al) k_u s l /\ (P -> tr4 (FK K p v al) k_u s l)) -> okT (FK K p v al) rv (fun w => tr3 (FK K p v al) k_u w w') ->
  exists C, 0 <= C /\ FK K p v al (fun j => exists s w, rp j = Ok s /\ rv j = Ok w /\ close_sph (C * k_u j) s l /\ (P -> close4 (C * k_u j) s l) /\ close3 (C * k_u j) w w').
Proof.
  intros (s & Es & Ts) (w & Ew & Tw). assert (U0 := FK_u0 K p v al).
  destruct (out4b _ _ U0 _ _ _ Ts) as (C1 & P1 & X1). destruct (out3 _ _ U0 _ _ Tw) as (C2 & P2 & X2).
  exists (C1 + C2). split; [lra|]. unfold evok in *. generalize (filter_and _ _ (filter_and _ _ (filter_and _ _ Es Ew) (filter_and _ _ X1 X2)) U0). apply filter_imp.
  intros j [[[Z1 Z2] [[Y1 Y1'] Y2]] Z0]. exists (s j), (w j). split; [exact Z1|]. split; [exact Z2|].
  assert (0 <= C1 * k_u j) by (apply Rmult_le_pos; assumption). assert (0 <= C2 * k_u j) by (apply Rmult_le_pos; assumption).
  split; [|split].
  - destruct Y1 as (A1 & A2 & A3 & A4). unfold close in *. split; [|split; [|split]]; unfold close; try lra. eapply near_le; [|exact A4]. lra.
  - intros Q. destruct (Y1' Q) as (A1 & A2 & A3 & A4). unfold close in *. split; [|split; [|split]]; unfold close; lra.
  - destruct Y2 as (A1 & A2 & A3). unfold close in *. split; [|split]; unfold close; lra.
Qed.
Lemma join_cart K p v al (rp : cin -> Res V4) (rv : cin -> Res V3) l w' :
  okT (FK K p v al) rp (fun s => tr4 (FK K p v al) k_u s l) -> okT (FK K p v al) rv (fun w => tr3 (FK K p v al) k_u w w') ->
  exists C, 0 <= C /\ FK K p v al (fun j => exists s w, rp j = Ok s /\ rv j = Ok w /\ close4 (C * k_u j) s l /\ close3 (C * k_u j) w w').
Proof.
  intros (s & Es & Ts) (w & Ew & Tw). assert (U0 := FK_u0 K p v al).
  destruct (out4 _ _ U0 _ _ Ts) as (C1 & P1 & X1). destruct (out3 _ _ U0 _ _ Tw) as (C2 & P2 & X2).
  exists (C1 + C2). split; [lra|]. unfold evok in *. generalize (filter_and _ _ (filter_and _ _ (filter_and _ _ Es Ew) (filter_and _ _ X1 X2)) U0). apply filter_imp.
  intros j [[[Z1 Z2] [Y1 Y2]] Z0]. exists (s j), (w j). split; [exact Z1|]. split; [exact Z2|].
  assert (0 <= C1 * k_u j) by (apply Rmult_le_pos; assumption). assert (0 <= C2 * k_u j) by (apply Rmult_le_pos; assumption).
  split.
  - destruct Y1 as (A1 & A2 & A3 & A4). unfold close in *. split; [|split; [|split]]; unfold close; lra.
  - destruct Y2 as (A1 & A2 & A3). unfold close in *. split; [|split]; unfold close; lra.
Qed.
Ltac start K p v al HK := destruct (FK_p K p v al HK) as (Hp0 & Hp1 & Hp2 & Hp3); destruct (FK_v K p v al HK) as (Hv1 & Hv2 & Hv3); assert (Hal := FK_al K p v al HK);
  assert (U0 := FK_u0 K p v al); assert (U := FK_u K p v al); assert (UB := FK_B K p v al).

(** ---- the four conversions ---- *)
Lemma cart_to_sph_rounded K p v al : 0 <= K -> off_z_axis p -> exists w', cart_to_sph_vel (c1 p) (c2 p) (c3 p) (v1 v) (v2 v) (v3 v) = Ok w' /\
  eventually_rounded K p v al (fun C u B fp fv _ => exists s w,
    cart_to_sphB B (c0 fp) (c1 fp) (c2 fp) (c3 fp) = Ok s /\
    cart_to_sph_allB B (c0 fp) (c1 fp) (c2 fp) (c3 fp) (v1 fv) (v2 fv) (v3 fv) = Ok (s, w) /\
    close_sph (C * u) s (cart_to_sph (c0 p) (c1 p) (c2 p) (c3 p)) /\ (off_cut p -> close4 (C * u) s (cart_to_sph (c0 p) (c1 p) (c2 p) (c3 p))) /\ close3 (C * u) w w').
Proof.
  intros HK H. start K p v al HK.
  assert (Ts := t_cart_sph (FK K p v al) k_u k_B U0 U UB _ _ _ _ _ _ _ _ Hp0 Hp1 Hp2 Hp3 H).
  destruct (t_cart_sph_vel (FK K p v al) k_u k_B U0 U UB _ _ _ _ _ _ _ _ _ _ _ _ Hp1 Hp2 Hp3 Hv1 Hv2 Hv3 H) as (w' & Ew' & Tw).
  exists w'. split; [exact Ew'|]. generalize (use_FK K p v al _ (join_sph _ _ _ _ _ _ _ _ _ Ts Tw)). apply ev_imp. intros C u B fp fv fal. cbn [k_u k_B k_p k_v k_al].
  intros (s & w & E1 & E2 & Q). exists s, w. split; [exact E1|]. split; [unfold cart_to_sph_allB; rewrite E1; cbn [bindR]; rewrite E2; reflexivity|exact Q].
Qed.
Lemma cart_to_bl_rounded K p v al : 0 <= K -> off_z_axis p -> 0 < bl_r (c1 p) (c2 p) (c3 p) al -> exists s', cart_to_bl (c0 p) (c1 p) (c2 p) (c3 p) al = Ok s' /\
  eventually_rounded K p v al (fun C u B fp _ fal => exists s,
    cart_to_blB B (c0 fp) (c1 fp) (c2 fp) (c3 fp) fal = Ok s /\ close_sph (C * u) s s' /\ (off_cut p -> close4 (C * u) s s')).
Proof.
  intros HK H Hr. start K p v al HK.
  destruct (t_cart_bl (FK K p v al) k_u k_B U0 U UB _ _ _ _ _ _ _ _ _ _ Hp0 Hp1 Hp2 Hp3 Hal H Hr) as (s' & Es' & Ts).
  exists s'. split; [exact Es'|]. generalize (use_FK K p v al _ (join_sph _ _ _ _ _ _ _ _ _ Ts (ex_intro _ k_v (conj (filter_forall _ (fun j => eq_refl)) (FK_v K p v al HK))))). apply ev_imp. intros C u B fp fv fal. cbn [k_u k_B k_p k_v k_al].
  intros (s & w & E1 & E2 & Q1 & Q2 & _). exists s. split; [exact E1|]. split; assumption.
Qed.
Lemma cart_to_bl_vel_rounded K p v al : 0 <= K -> c1 p <> 0 -> 0 < bl_r (c1 p) (c2 p) (c3 p) al -> exists s' w', cart_to_bl (c0 p) (c1 p) (c2 p) (c3 p) al = Ok s' /\
  cart_to_bl_vel (c1 p) (c2 p) (c3 p) al (v1 v) (v2 v) (v3 v) = Ok w' /\
  eventually_rounded K p v al (fun C u B fp fv fal => exists s w,
    cart_to_bl_allB B (c0 fp) (c1 fp) (c2 fp) (c3 fp) fal (v1 fv) (v2 fv) (v3 fv) = Ok (s, w) /\ close_sph (C * u) s s' /\ (off_cut p -> close4 (C * u) s s') /\ close3 (C * u) w w').
Proof.
  intros HK H Hr. start K p v al HK.
  destruct (t_cart_bl (FK K p v al) k_u k_B U0 U UB _ _ _ _ _ _ _ _ _ _ Hp0 Hp1 Hp2 Hp3 Hal (or_introl H) Hr) as (s' & Es' & Ts).
  destruct (t_cart_bl_vel (FK K p v al) k_u k_B U0 U UB _ _ _ _ _ _ _ _ _ _ _ _ _ _ Hp1 Hp2 Hp3 Hal Hv1 Hv2 Hv3 H Hr) as (w' & Ew' & Tw).
  exists s', w'. split; [exact Es'|]. split; [exact Ew'|]. generalize (use_FK K p v al _ (join_sph _ _ _ _ _ _ _ _ _ Ts Tw)). apply ev_imp. intros C u B fp fv fal. cbn [k_u k_B k_p k_v k_al].
  intros (s & w & E1 & E2 & Q). exists s, w. split; [unfold cart_to_bl_allB; rewrite E1; cbn [bindR]; rewrite E2; reflexivity|exact Q].
Qed.
Lemma sph_to_cart_rounded K p v al : 0 <= K ->
  eventually_rounded K p v al (fun C u B fp fv _ => exists s w,
    sph_to_cartB B (c0 fp) (c1 fp) (c2 fp) (c3 fp) = Ok s /\
    sph_to_cart_allB B (c0 fp) (c1 fp) (c2 fp) (c3 fp) (v1 fv) (v2 fv) (v3 fv) = Ok (s, w) /\
    close4 (C * u) s (sph_to_cart (c0 p) (c1 p) (c2 p) (c3 p)) /\ close3 (C * u) w (sph_to_cart_vel (c1 p) (c2 p) (c3 p) (v1 v) (v2 v) (v3 v))).
Proof.
  intros HK. start K p v al HK.
  assert (Ts := t_sph_cart (FK K p v al) k_u k_B U0 U UB _ _ _ _ _ _ _ _ Hp0 Hp1 Hp2 Hp3).
  assert (Tw := t_sph_cart_vel (FK K p v al) k_u k_B U0 U UB _ _ _ _ _ _ _ _ _ _ _ _ Hp1 Hp2 Hp3 Hv1 Hv2 Hv3).
  generalize (use_FK K p v al _ (join_cart _ _ _ _ _ _ _ _ Ts Tw)). apply ev_imp. intros C u B fp fv fal. cbn [k_u k_B k_p k_v k_al].
  intros (s & w & E1 & E2 & Q). exists s, w. split; [exact E1|]. split; [unfold sph_to_cart_allB; rewrite E1; cbn [bindR]; rewrite E2; reflexivity|exact Q].
Qed.
Lemma bl_to_cart_rounded K p v al : 0 <= K -> c1 p <> 0 \/ al <> 0 -> exists w', bl_to_cart_vel (c1 p) (c2 p) (c3 p) al (v1 v) (v2 v) (v3 v) = Ok w' /\
  eventually_rounded K p v al (fun C u B fp fv fal => exists s w,
    bl_to_cartB B (c0 fp) (c1 fp) (c2 fp) (c3 fp) fal = Ok s /\
    bl_to_cart_allB B (c0 fp) (c1 fp) (c2 fp) (c3 fp) fal (v1 fv) (v2 fv) (v3 fv) = Ok (s, w) /\
    close4 (C * u) s (bl_to_cart (c0 p) (c1 p) (c2 p) (c3 p) al) /\ close3 (C * u) w w').
Proof.
  intros HK H. assert (P := off_axis _ _ H). assert (P' : 0 < c1 p ^ 2 + al ^ 2) by (replace (c1 p ^ 2 + al ^ 2) with (c1 p * c1 p + al * al) by ring; exact P). start K p v al HK.
  assert (Ts := t_bl_cart (FK K p v al) k_u k_B U0 U UB _ _ _ _ _ _ _ _ _ _ Hp0 Hp1 Hp2 Hp3 Hal P').
  destruct (t_bl_cart_vel (FK K p v al) k_u k_B U0 U UB _ _ _ _ _ _ _ _ _ _ _ _ _ _ Hp1 Hp2 Hp3 Hal Hv1 Hv2 Hv3 P') as (w' & Ew' & Tw).
  exists w'. split; [exact Ew'|]. generalize (use_FK K p v al _ (join_cart _ _ _ _ _ _ _ _ Ts Tw)). apply ev_imp. intros C u B fp fv fal. cbn [k_u k_B k_p k_v k_al].
  intros (s & w & E1 & E2 & Q). exists s, w. split; [exact E1|]. split; [unfold bl_to_cart_allB; rewrite E1; cbn [bindR]; rewrite E2; reflexivity|exact Q].
Qed.

(** ---- round trips ---- *)
(** a full turn in phi changes nothing *)
Definition turn (k : Z) (p : V4) : V4 := mkQ4 (c0 p) (c1 p) (c2 p) (c3 p + 2 * IZR k * PI).
Lemma turn_cos p k : cos (p + 2 * IZR k * PI) = cos p.
Proof. destruct k as [|k|k]; [f_equal; ring| |]. 
  - rewrite <- (cos_period p (Pos.to_nat k)). f_equal. rewrite INR_IPR. reflexivity.
  - rewrite <- (cos_period (p + 2 * IZR (Z.neg k) * PI) (Pos.to_nat k)). f_equal. rewrite INR_IPR. change (IZR (Z.neg k)) with (- IPR k). ring.
Qed.
Lemma turn_sin p k : sin (p + 2 * IZR k * PI) = sin p.
Proof. destruct k as [|k|k]; [f_equal; ring| |]. 
  - rewrite <- (sin_period p (Pos.to_nat k)). f_equal. rewrite INR_IPR. reflexivity.
  - rewrite <- (sin_period (p + 2 * IZR (Z.neg k) * PI) (Pos.to_nat k)). f_equal. rewrite INR_IPR. change (IZR (Z.neg k)) with (- IPR k). ring.
Qed.
Lemma sph_turn e s p : close_sph e s p -> exists k, (k = -1 \/ k = 0 \/ k = 1)%Z /\ close4 e s (turn k p).
Proof. intros (H0 & H1 & H2 & k' & Hk & H3). exists k'. split; [lia|]. unfold turn. split; [exact H0|]. split; [exact H1|]. split; [exact H2|exact H3]. Qed.
Lemma close4_le e e' v l : e <= e' -> close4 e v l -> close4 e' v l.
Proof. intros H (A1 & A2 & A3 & A4). unfold close in *. split; [|split; [|split]]; unfold close; lra. Qed.
Lemma close3_le e e' v l : e <= e' -> close3 e v l -> close3 e' v l.
Proof. intros H (A1 & A2 & A3). unfold close in *. split; [|split]; unfold close; lra. Qed.
Lemma close_sph_le e e' v l : e <= e' -> close_sph e v l -> close_sph e' v l.
Proof. intros H (A1 & A2 & A3 & A4). unfold close in *. split; [|split; [|split]]; unfold close; try lra. eapply near_le; [exact H|exact A4]. Qed.
(** first to angles, then back *)
Lemma there_and_back K p v al s' w' (f g : arith2 -> V4 -> V3 -> R -> Res (V4 * V3)) : 0 <= K ->
  eventually_rounded K p v al (fun C u B fp fv fal => exists s w, f B fp fv fal = Ok (s, w) /\ close_sph (C * u) s s' /\ close3 (C * u) w w') ->
  (forall K' k, 0 <= K' -> eventually_rounded K' (turn k s') w' al (fun C u B fp fv fal => exists q x, g B fp fv fal = Ok (q, x) /\ close4 (C * u) q p /\ close3 (C * u) x v)) ->
  eventually_rounded K p v al (fun C u B fp fv fal => exists s w q x, f B fp fv fal = Ok (s, w) /\ g B s w fal = Ok (q, x) /\ close4 (C * u) q p /\ close3 (C * u) x v).
Proof.
  intros HK (r1 & C1 & R1 & P1 & H1) G. assert (HK' : 0 <= C1 + K) by lra.
  destruct (G (C1 + K) (-1)%Z HK') as (ra & Ca & Ra & Pa & Ga). destruct (G (C1 + K) 0%Z HK') as (rb & Cb & Rb & Pb & Gb). destruct (G (C1 + K) 1%Z HK') as (rc & Cc & Rc & Pc & Gc).
  exists (Rmin (Rmin r1 ra) (Rmin rb rc)), (Ca + Cb + Cc). split; [repeat apply Rmin_pos; assumption|]. split; [lra|]. intros u B fp fv fal Hu HB Hp Hv Ha.
  assert (M : u < r1 /\ u < ra /\ u < rb /\ u < rc). { destruct Hu as [_ Hu]. generalize (Rmin_l (Rmin r1 ra) (Rmin rb rc)) (Rmin_r (Rmin r1 ra) (Rmin rb rc)) (Rmin_l r1 ra) (Rmin_r r1 ra) (Rmin_l rb rc) (Rmin_r rb rc). lra. }
  destruct M as (M1 & Ma & Mb & Mc). destruct Hu as [Hu _].
  destruct (H1 u B fp fv fal (conj Hu M1) HB Hp Hv Ha) as (s & w & E & Qs & Qw).
  assert (0 <= K * u) by (apply Rmult_le_pos; assumption). assert (0 <= C1 * u) by (apply Rmult_le_pos; assumption).
  assert (L1 : C1 * u <= (C1 + K) * u) by (rewrite Rmult_plus_distr_r; lra).
  assert (Qw' := close3_le _ _ _ _ L1 Qw). assert (Ha' : close ((C1 + K) * u) fal al) by (unfold close in *; rewrite Rmult_plus_distr_r; lra).
  destruct (sph_turn _ _ _ Qs) as (k & Hk & Qk). assert (Qk' := close4_le _ _ _ _ L1 Qk).
  assert (Fin : exists q x, g B s w fal = Ok (q, x) /\ close4 ((Ca + Cb + Cc) * u) q p /\ close3 ((Ca + Cb + Cc) * u) x v).
  { assert (0 <= Ca * u) by (apply Rmult_le_pos; assumption). assert (0 <= Cb * u) by (apply Rmult_le_pos; assumption). assert (0 <= Cc * u) by (apply Rmult_le_pos; assumption).
    assert (X : exists C q x, C * u <= (Ca + Cb + Cc) * u /\ g B s w fal = Ok (q, x) /\ close4 (C * u) q p /\ close3 (C * u) x v).
    { rewrite !Rmult_plus_distr_r. destruct Hk as [-> |[-> | ->]].
      - exists Ca. destruct (Ga u B s w fal (conj Hu Ma) HB Qk' Qw' Ha') as (q & x & Q). exists q, x. split; [lra|exact Q].
      - exists Cb. destruct (Gb u B s w fal (conj Hu Mb) HB Qk' Qw' Ha') as (q & x & Q). exists q, x. split; [lra|exact Q].
      - exists Cc. destruct (Gc u B s w fal (conj Hu Mc) HB Qk' Qw' Ha') as (q & x & Q). exists q, x. split; [lra|exact Q]. }
    destruct X as (C & q & x & L & Eq & X1 & X2). exists q, x. split; [exact Eq|]. split; [eapply close4_le; [exact L|exact X1]|eapply close3_le; [exact L|exact X2]]. }
  destruct Fin as (q & x & Eq & Q). exists s, w, q, x. split; [exact E|]. split; [exact Eq|exact Q].
Qed.
(** first to Cartesian, then back *)
Lemma back_and_there K p v al s' w' (f g : arith2 -> V4 -> V3 -> R -> Res (V4 * V3)) (P : Prop) : 0 <= K ->
  eventually_rounded K p v al (fun C u B fp fv fal => exists s w, f B fp fv fal = Ok (s, w) /\ close4 (C * u) s s' /\ close3 (C * u) w w') ->
  (forall K', 0 <= K' -> eventually_rounded K' s' w' al (fun C u B fp fv fal => exists q x, g B fp fv fal = Ok (q, x) /\ close_sph (C * u) q p /\ (P -> close4 (C * u) q p) /\ close3 (C * u) x v)) ->
  eventually_rounded K p v al (fun C u B fp fv fal => exists s w q x, f B fp fv fal = Ok (s, w) /\ g B s w fal = Ok (q, x) /\ close_sph (C * u) q p /\ (P -> close4 (C * u) q p) /\ close3 (C * u) x v).
Proof.
  intros HK (r1 & C1 & R1 & P1 & H1) G. assert (HK' : 0 <= C1 + K) by lra.
  destruct (G (C1 + K) HK') as (ra & Ca & Ra & Pa & Ga).
  exists (Rmin r1 ra), Ca. split; [apply Rmin_pos; assumption|]. split; [exact Pa|]. intros u B fp fv fal Hu HB Hp Hv Ha.
  assert (M : u < r1 /\ u < ra). { destruct Hu as [_ Hu]. generalize (Rmin_l r1 ra) (Rmin_r r1 ra). lra. }
  destruct M as (M1 & Ma). destruct Hu as [Hu _].
  destruct (H1 u B fp fv fal (conj Hu M1) HB Hp Hv Ha) as (s & w & E & Qs & Qw).
  assert (0 <= K * u) by (apply Rmult_le_pos; assumption). assert (0 <= C1 * u) by (apply Rmult_le_pos; assumption).
  assert (L1 : C1 * u <= (C1 + K) * u) by (rewrite Rmult_plus_distr_r; lra).
  assert (Qw' := close3_le _ _ _ _ L1 Qw). assert (Qs' := close4_le _ _ _ _ L1 Qs). assert (Ha' : close ((C1 + K) * u) fal al) by (unfold close in *; rewrite Rmult_plus_distr_r; lra).
  destruct (Ga u B s w fal (conj Hu Ma) HB Qs' Qw' Ha') as (q & x & Eq & Q). exists s, w, q, x. split; [exact E|]. split; [exact Eq|exact Q].
Qed.
Lemma eta4 (p : V4) : mkQ4 (c0 p) (c1 p) (c2 p) (c3 p) = p.
Proof. destruct p; reflexivity. Qed.
Lemma eta3 (v : V3) : mk3 (v1 v) (v2 v) (v3 v) = v.
Proof. destruct v; reflexivity. Qed.
Definition to_sph B (p : V4) (v : V3) (_ : R) := cart_to_sph_allB B (c0 p) (c1 p) (c2 p) (c3 p) (v1 v) (v2 v) (v3 v).
Definition from_sph B (p : V4) (v : V3) (_ : R) := sph_to_cart_allB B (c0 p) (c1 p) (c2 p) (c3 p) (v1 v) (v2 v) (v3 v).
Definition to_bl B (p : V4) (v : V3) (al : R) := cart_to_bl_allB B (c0 p) (c1 p) (c2 p) (c3 p) al (v1 v) (v2 v) (v3 v).
Definition from_bl B (p : V4) (v : V3) (al : R) := bl_to_cart_allB B (c0 p) (c1 p) (c2 p) (c3 p) al (v1 v) (v2 v) (v3 v).

Lemma cart_sph_cart_rounded K p v al : 0 <= K -> off_z_axis p ->
  eventually_rounded K p v al (fun C u B fp fv fal => exists s w q x, to_sph B fp fv fal = Ok (s, w) /\ from_sph B s w fal = Ok (q, x) /\ close4 (C * u) q p /\ close3 (C * u) x v).
Proof.
  intros HK H. destruct (cart_to_sph_rounded K p v al HK H) as (w' & Ew & H1).
  destruct (cart_sph_cart (c0 p) (c1 p) (c2 p) (c3 p)) as (Q1 & _). destruct (vel_cart_sph_cart (c0 p) (c1 p) (c2 p) (c3 p) (v1 v) (v2 v) (v3 v) H) as (w2 & Ew2 & Q2). rewrite Ew in Ew2. apply Ok_inj in Ew2. subst w2.
  rewrite eta4 in Q1. rewrite eta3 in Q2. set (s' := cart_to_sph (c0 p) (c1 p) (c2 p) (c3 p)) in *.
  refine (there_and_back K p v al s' w' to_sph from_sph HK _ _).
  - revert H1. apply ev_imp. intros C u B fp fv fal (s & w & _ & E & X1 & _ & X2). exists s, w. split; [exact E|]. split; assumption.
  - intros K' k HK'. generalize (sph_to_cart_rounded K' (turn k s') w' al HK'). apply ev_imp. intros C u B fp fv fal (q & x & _ & E & X1 & X2). exists q, x. split; [exact E|].
    rewrite <- Q1, <- Q2. replace (sph_to_cart (c0 s') (c1 s') (c2 s') (c3 s')) with (sph_to_cart (c0 (turn k s')) (c1 (turn k s')) (c2 (turn k s')) (c3 (turn k s'))).
    replace (sph_to_cart_vel (c1 s') (c2 s') (c3 s') (v1 w') (v2 w') (v3 w')) with (sph_to_cart_vel (c1 (turn k s')) (c2 (turn k s')) (c3 (turn k s')) (v1 w') (v2 w') (v3 w')); [split; assumption|].
    unfold turn, sph_to_cart_vel; cbn [c0 c1 c2 c3]; rewrite turn_cos, turn_sin; reflexivity. unfold turn, sph_to_cart; cbn [c0 c1 c2 c3]; rewrite turn_cos, turn_sin; reflexivity.
Qed.
Lemma cart_bl_cart_rounded K p v al : 0 <= K -> c1 p <> 0 -> 0 < bl_r (c1 p) (c2 p) (c3 p) al ->
  eventually_rounded K p v al (fun C u B fp fv fal => exists s w q x, to_bl B fp fv fal = Ok (s, w) /\ from_bl B s w fal = Ok (q, x) /\ close4 (C * u) q p /\ close3 (C * u) x v).
Proof.
  intros HK H Hr. destruct (cart_to_bl_vel_rounded K p v al HK H Hr) as (s' & w' & Es & Ew & H1).
  destruct (cart_bl_cart (c0 p) (c1 p) (c2 p) (c3 p) al Hr) as (s2 & Es2 & Q1 & Pr & _). rewrite Es in Es2. apply Ok_inj in Es2. subst s2.
  destruct (vel_cart_bl_cart (c0 p) (c1 p) (c2 p) (c3 p) al (v1 v) (v2 v) (v3 v) H Hr) as (s2 & w2 & Es2 & Ew2 & Q2). rewrite Es in Es2. apply Ok_inj in Es2. subst s2. rewrite Ew in Ew2. apply Ok_inj in Ew2. subst w2.
  rewrite eta4 in Q1. rewrite eta3 in Q2.
  refine (there_and_back K p v al s' w' to_bl from_bl HK _ _).
  - revert H1. apply ev_imp. intros C u B fp fv fal (s & w & E & X1 & _ & X2). exists s, w. split; [exact E|]. split; assumption.
  - intros K' k HK'. destruct (bl_to_cart_rounded K' (turn k s') w' al HK' (or_introl (Rgt_not_eq _ _ Pr))) as (w3 & E3 & H3).
    assert (E4 : bl_to_cart_vel (c1 (turn k s')) (c2 (turn k s')) (c3 (turn k s')) al (v1 w') (v2 w') (v3 w') = bl_to_cart_vel (c1 s') (c2 s') (c3 s') al (v1 w') (v2 w') (v3 w')) by (unfold turn, bl_to_cart_vel; cbn [c0 c1 c2 c3]; rewrite turn_cos, turn_sin; reflexivity).
    rewrite E4, Q2 in E3. apply Ok_inj in E3. subst w3.
    revert H3. apply ev_imp. intros C u B fp fv fal (q & x & _ & E & X1 & X2). exists q, x. split; [exact E|]. split; [|exact X2].
    rewrite <- Q1. replace (bl_to_cart (c0 s') (c1 s') (c2 s') (c3 s') al) with (bl_to_cart (c0 (turn k s')) (c1 (turn k s')) (c2 (turn k s')) (c3 (turn k s')) al); [exact X1|].
    unfold turn, bl_to_cart; cbn [c0 c1 c2 c3]; rewrite turn_cos, turn_sin; reflexivity.
Qed.
(** regular spherical coordinates *)
Definition regular_sph (p : V4) : Prop := 0 < c1 p /\ 0 < c2 p < PI /\ - PI < c3 p <= PI.
Lemma trig_zero p : - PI < p < PI -> cos p <= 0 -> sin p <> 0.
Proof.
  intros H Hc Hs. assert (P := PI_RGT_0). destruct (Rtotal_order p 0) as [L|[L|L]].
  - assert (X : 0 < sin (- p)) by (apply sin_gt_0; lra). rewrite sin_neg in X. lra.
  - subst p. rewrite cos_0 in Hc. lra.
  - assert (X : 0 < sin p) by (apply sin_gt_0; lra). lra.
Qed.
Lemma sph_cart_sph_rounded K p v al : 0 <= K -> regular_sph p ->
  eventually_rounded K p v al (fun C u B fp fv fal => exists s w q x, from_sph B fp fv fal = Ok (s, w) /\ to_sph B s w fal = Ok (q, x) /\
    close_sph (C * u) q p /\ (c3 p < PI -> close4 (C * u) q p) /\ close3 (C * u) x v).
Proof.
  intros HK (Hr & Hth & Hp). assert (Q1 := sph_cart_sph (c0 p) (c1 p) (c2 p) (c3 p) Hr Hth Hp). assert (Q2 := vel_sph_cart_sph (c1 p) (c2 p) (c3 p) (v1 v) (v2 v) (v3 v) Hr Hth).
  cbv zeta in Q1, Q2. rewrite eta4 in Q1. rewrite eta3 in Q2.
  set (w' := sph_to_cart_vel (c1 p) (c2 p) (c3 p) (v1 v) (v2 v) (v3 v)) in *.
  assert (Q2' : cart_to_sph_vel (c1 (sph_to_cart (c0 p) (c1 p) (c2 p) (c3 p))) (c2 (sph_to_cart (c0 p) (c1 p) (c2 p) (c3 p))) (c3 (sph_to_cart (c0 p) (c1 p) (c2 p) (c3 p))) (v1 w') (v2 w') (v3 w') = Ok v) by exact Q2. clear Q2.
  assert (Sth : 0 < sin (c2 p)) by (apply sin_gt_0; lra).
  assert (X1 : c1 (sph_to_cart (c0 p) (c1 p) (c2 p) (c3 p)) = c1 p * sin (c2 p) * cos (c3 p)) by (cbn; ring). assert (X2 : c2 (sph_to_cart (c0 p) (c1 p) (c2 p) (c3 p)) = c1 p * sin (c2 p) * sin (c3 p)) by (cbn; ring).
  assert (RS : 0 < c1 p * sin (c2 p)) by (apply Rmult_lt_0_compat; assumption).
  set (s' := sph_to_cart (c0 p) (c1 p) (c2 p) (c3 p)) in *.
  assert (OA : off_z_axis s'). { unfold off_z_axis. rewrite X1, X2. destruct (Req_EM_T (cos (c3 p)) 0) as [Z|Z]; [right|left; apply Rmult_integral_contrapositive_currified; lra]. apply Rmult_integral_contrapositive_currified; [lra|]. intros Y. generalize (sin2_cos2 (c3 p)). rewrite Y, Z. unfold Rsqr. lra. }
  assert (OC : c3 p < PI -> off_cut s'). { intros Lt. unfold off_cut. rewrite X1, X2. destruct (Rlt_dec 0 (cos (c3 p))) as [Z|Z]; [left; apply Rmult_lt_0_compat; assumption|right]. apply Rmult_integral_contrapositive_currified; [lra|]. apply trig_zero; lra. }
  refine (back_and_there K p v al s' w' from_sph to_sph (c3 p < PI) HK _ _).
  - generalize (sph_to_cart_rounded K p v al HK). apply ev_imp. intros C u B fp fv fal (q & x & _ & E & Y1 & Y2). exists q, x. split; [exact E|]. split; assumption.
  - intros K' HK'. destruct (cart_to_sph_rounded K' s' w' al HK' OA) as (v' & Ev & H1). rewrite Q2' in Ev. apply Ok_inj in Ev. subst v'. rewrite Q1 in H1.
    revert H1. apply ev_imp. intros C u B fp fv fal (q & x & _ & E & Y1 & Y2 & Y3). exists q, x. split; [exact E|]. split; [exact Y1|]. split; [intros L; apply Y2, OC, L|exact Y3].
Qed.
Lemma bl_cart_bl_rounded K p v al : 0 <= K -> regular_sph p -> cos (c3 p) <> 0 ->
  eventually_rounded K p v al (fun C u B fp fv fal => exists s w q x, from_bl B fp fv fal = Ok (s, w) /\ to_bl B s w fal = Ok (q, x) /\
    close_sph (C * u) q p /\ (c3 p < PI -> close4 (C * u) q p) /\ close3 (C * u) x v).
Proof.
  intros HK (Hr & Hth & Hp) Hc. assert (Q1 := bl_cart_bl (c0 p) (c1 p) (c2 p) (c3 p) al Hr Hth Hp). cbv zeta in Q1. rewrite eta4 in Q1.
  destruct (vel_bl_cart_bl (c0 p) (c1 p) (c2 p) (c3 p) al (v1 v) (v2 v) (v3 v) Hr Hth Hp Hc) as (w' & Ew & Q2). rewrite eta3 in Q2.
  destruct (bl_cart_r (c0 p) (c1 p) (c2 p) (c3 p) al ltac:(lra)) as [_ R1].
  assert (Sth : 0 < sin (c2 p)) by (apply sin_gt_0; lra).
  assert (XA : 0 < sqrt (c1 p ^ 2 + al ^ 2)) by (apply sqrt_lt_R0; nra).
  assert (X1 : c1 (bl_to_cart (c0 p) (c1 p) (c2 p) (c3 p) al) = sqrt (c1 p ^ 2 + al ^ 2) * sin (c2 p) * cos (c3 p)) by (cbv [bl_to_cart c1]; ring). assert (X2 : c2 (bl_to_cart (c0 p) (c1 p) (c2 p) (c3 p) al) = sqrt (c1 p ^ 2 + al ^ 2) * sin (c2 p) * sin (c3 p)) by (cbv [bl_to_cart c2]; ring).
  assert (RS : 0 < sqrt (c1 p ^ 2 + al ^ 2) * sin (c2 p)) by (apply Rmult_lt_0_compat; assumption).
  set (s' := bl_to_cart (c0 p) (c1 p) (c2 p) (c3 p) al) in *.
  assert (NX : c1 s' <> 0) by (rewrite X1; apply Rmult_integral_contrapositive_currified; lra).
  assert (OC : c3 p < PI -> off_cut s'). { intros Lt. unfold off_cut. rewrite X1, X2. destruct (Rlt_dec 0 (cos (c3 p))) as [Z|Z]; [left; apply Rmult_lt_0_compat; assumption|right]. apply Rmult_integral_contrapositive_currified; [lra|]. apply trig_zero; lra. }
  refine (back_and_there K p v al s' w' from_bl to_bl (c3 p < PI) HK _ _).
  - destruct (bl_to_cart_rounded K p v al HK (or_introl (Rgt_not_eq _ _ Hr))) as (w2 & E2 & H2). rewrite Ew in E2. apply Ok_inj in E2. subst w2.
    revert H2. apply ev_imp. intros C u B fp fv fal (q & x & _ & E & Y1 & Y2). exists q, x. split; [exact E|]. split; assumption.
  - intros K' HK'. destruct (cart_to_bl_vel_rounded K' s' w' al HK' NX) as (p2 & v2' & Ep & Ev & H1). { cbv zeta in R1. rewrite R1. exact Hr. }
    rewrite Q1 in Ep. apply Ok_inj in Ep. subst p2. rewrite Q2 in Ev. apply Ok_inj in Ev. subst v2'.
    revert H1. apply ev_imp. intros C u B fp fv fal (q & x & E & Y1 & Y2 & Y3). exists q, x. split; [exact E|]. split; [exact Y1|]. split; [intros L; apply Y2, OC, L|exact Y3].
Qed.
