(** Chains of conversions between coordinate objects in floating point: ConvPath.v's chains, every hop carried out by an arithmetic of unit roundoff u. *)
From Coq Require Import Reals List ZArith Lra Lia Bool.
From Coquelicot Require Import Coquelicot.
From Verif Require Import Base Calc GeoUtilsModel CoordModel CoordProofs CoordProofs2 CoordProofs3 CoordProofs4 CoordProofs6 ConvModel ConvPath FloatModel FloatTrack.
From Verif Require Import FloatCoordModel FloatCoord FloatCoordMain.
Import ListNotations.
Open Scope R_scope.

(** ** the programs *)
(** one conversion of a seven-tuple in the arithmetic B: conversion.py:74-152 (CartesianConversion.convert_spherical, convert_bl), 219-288 (SphericalConversion.convert_cartesian, convert_bl), 355-450 (BoyerLindquistConversion.convert_cartesian, convert_spherical);
    the conversions between the two angular systems go through Cartesian coordinates.  alpha is the spin length as the code computed it.  All values are in SI units; a conversion to the own system does not exist and is not used ([hops]). *)
Definition hopB (B : arith2) (al : R) (from to : system) (x : V4 * V3) : Res (V4 * V3) :=
  match from, to with
  | Cart, Sph => to_sph B (fst x) (snd x) al
  | Cart, BL => to_bl B (fst x) (snd x) al
  | Sph, Cart => from_sph B (fst x) (snd x) al
  | BL, Cart => from_bl B (fst x) (snd x) al
  | Sph, BL => let* y := from_sph B (fst x) (snd x) al in to_bl B (fst y) (snd y) al
  | BL, Sph => let* y := from_bl B (fst x) (snd x) al in to_sph B (fst y) (snd y) al
  | _, _ => Ok x
  end.
(** core.py:180-215, 388-423, 600-635 and their differential counterparts: each hop makes a new object of the converted values *)
Fixpoint walkB (B : arith2) (al : R) (from : system) (path : list system) (x : V4 * V3) : Res (V4 * V3) :=
  match path with [] => Ok x | to :: path => let* y := hopB B al from to x in walkB B al to path y end.
(** the same for tuples without velocities *)
Definition hopP (B : arith2) (al : R) (from to : system) (p : V4) : Res V4 :=
  let c_s p := cart_to_sphB B (c0 p) (c1 p) (c2 p) (c3 p) in let c_b p := cart_to_blB B (c0 p) (c1 p) (c2 p) (c3 p) al in
  let s_c p := sph_to_cartB B (c0 p) (c1 p) (c2 p) (c3 p) in let b_c p := bl_to_cartB B (c0 p) (c1 p) (c2 p) (c3 p) al in
  match from, to with
  | Cart, Sph => c_s p | Cart, BL => c_b p | Sph, Cart => s_c p | BL, Cart => b_c p
  | Sph, BL => let* y := s_c p in c_b y
  | BL, Sph => let* y := b_c p in c_s y
  | _, _ => Ok p
  end.
Fixpoint walkP (B : arith2) (al : R) (from : system) (path : list system) (p : V4) : Res V4 :=
  match path with [] => Ok p | to :: path => let* y := hopP B al from to p in walkP B al to path y end.

(** ** closeness: the azimuth of the angular systems is an angle *)
Definition close_in (s : system) (e : R) (q l : V4) : Prop := match s with Cart => close4 e q l | _ => close_sph e q l end.

Lemma close_in_le s e e' q l : e <= e' -> close_in s e q l -> close_in s e' q l.
Proof. destruct s; cbn [close_in]; [apply close4_le|apply close_sph_le|apply close_sph_le]. Qed.
Definition turn_in (s : system) (k : Z) (p : V4) : V4 := match s with Cart => p | _ => turn k p end.
Lemma close_turn s e q l : close_in s e q l -> exists k, (k = -1 \/ k = 0 \/ k = 1)%Z /\ close4 e q (turn_in s k l).
Proof. destruct s; cbn [close_in turn_in]; [|apply sph_turn|apply sph_turn]. intros H. exists 0%Z. split; [lia|exact H]. Qed.
Lemma place_turn al s k p : place al s (turn_in s k p) = place al s p.
Proof. destruct s; cbn [turn_in place]; [reflexivity| |]; unfold turn; cbn [c0 c1 c2 c3]; rewrite turn_cos, turn_sin; reflexivity. Qed.
Lemma vplace_turn al s k p v : vplace al s (turn_in s k p) v = vplace al s p v.
Proof. destruct s; cbn [turn_in vplace]; [reflexivity| |]; cbv zeta; unfold turn; cbn [c0 c1 c2 c3]; rewrite turn_cos, turn_sin; reflexivity. Qed.

Lemma Rmin3 r a b c u : u < Rmin (Rmin r a) (Rmin b c) -> u < r /\ u < a /\ u < b /\ u < c.
Proof. generalize (Rmin_l (Rmin r a) (Rmin b c)) (Rmin_r (Rmin r a) (Rmin b c)) (Rmin_l r a) (Rmin_r r a) (Rmin_l b c) (Rmin_r b c). lra. Qed.
(** ** chaining two programs: the second starts from what the first returned, which is right up to a full turn *)
Lemma chain (X Y : Type) K p v al (f : arith2 -> V4 -> V3 -> R -> Res X) (fp_ : X -> V4) (fv_ : X -> V3) (g : arith2 -> X -> R -> Res Y) s s' w' (P : R -> Y -> Prop) : 0 <= K ->
  (forall e e' y, e <= e' -> P e y -> P e' y) ->
  eventually_rounded K p v al (fun C u B fp fv fal => exists x, f B fp fv fal = Ok x /\ close_in s (C * u) (fp_ x) s' /\ close3 (C * u) (fv_ x) w') ->
  (forall K' k, 0 <= K' -> eventually_rounded K' (turn_in s k s') w' al (fun C u B fp fv fal => forall x, fp_ x = fp -> fv_ x = fv -> exists y, g B x fal = Ok y /\ P (C * u) y)) ->
  eventually_rounded K p v al (fun C u B fp fv fal => exists x y, f B fp fv fal = Ok x /\ g B x fal = Ok y /\ P (C * u) y).
Proof.
  intros HK Mono (r1 & C1 & R1 & P1 & H1) G. assert (HK' : 0 <= C1 + K) by lra.
  destruct (G (C1 + K) (-1)%Z HK') as (ra & Ca & Ra & Pa & Ga). destruct (G (C1 + K) 0%Z HK') as (rb & Cb & Rb & Pb & Gb). destruct (G (C1 + K) 1%Z HK') as (rc & Cc & Rc & Pc & Gc).
  exists (Rmin (Rmin r1 ra) (Rmin rb rc)), (Ca + Cb + Cc). split; [repeat apply Rmin_pos; assumption|]. split; [lra|]. intros u B fp fv fal Hu HB Hp Hv Ha.
  destruct Hu as [Hu Hm]. destruct (Rmin3 _ _ _ _ _ Hm) as (M1 & Ma & Mb & Mc).
  destruct (H1 u B fp fv fal (Logic.conj Hu M1) HB Hp Hv Ha) as (x & E & Qs & Qw).
  assert (0 <= K * u) by (apply Rmult_le_pos; assumption). assert (0 <= C1 * u) by (apply Rmult_le_pos; assumption).
  assert (L1 : C1 * u <= (C1 + K) * u) by (rewrite Rmult_plus_distr_r; lra).
  assert (Qw' := close3_le _ _ _ _ L1 Qw). assert (Ha' : close ((C1 + K) * u) fal al) by (unfold close in *; rewrite Rmult_plus_distr_r; lra).
  destruct (close_turn _ _ _ _ Qs) as (k & Hk & Qk). assert (Qk' := close4_le _ _ _ _ L1 Qk).
  assert (0 <= Ca * u) by (apply Rmult_le_pos; assumption). assert (0 <= Cb * u) by (apply Rmult_le_pos; assumption). assert (0 <= Cc * u) by (apply Rmult_le_pos; assumption).
  assert (Z : exists C y, C * u <= (Ca + Cb + Cc) * u /\ g B x fal = Ok y /\ P (C * u) y).
  { rewrite !Rmult_plus_distr_r. destruct Hk as [-> |[-> | ->]].
    - exists Ca. destruct (Ga u B _ _ fal (Logic.conj Hu Ma) HB Qk' Qw' Ha' x eq_refl eq_refl) as (y & Q). exists y. split; [lra|exact Q].
    - exists Cb. destruct (Gb u B _ _ fal (Logic.conj Hu Mb) HB Qk' Qw' Ha' x eq_refl eq_refl) as (y & Q). exists y. split; [lra|exact Q].
    - exists Cc. destruct (Gc u B _ _ fal (Logic.conj Hu Mc) HB Qk' Qw' Ha' x eq_refl eq_refl) as (y & Q). exists y. split; [lra|exact Q]. }
  destruct Z as (C & y & L & Ey & Py). exists x, y. split; [exact E|]. split; [exact Ey|]. eapply Mono; [exact L|exact Py].
Qed.

(** what is claimed of a result: close to the exact coordinates; where the azimuth does not jump, without allowing for a full turn *)
Definition right (s : system) (P : Prop) (q : V4) (x : V3) (e : R) (y : V4 * V3) : Prop := close_in s e (fst y) q /\ (P -> close4 e (fst y) q) /\ close3 e (snd y) x.
Lemma right_mono s P q x e e' y : e <= e' -> right s P q x e y -> right s P q x e' y.
Proof. intros H (A1 & A2 & A3). split; [eapply close_in_le; eassumption|]. split; [intros Q; eapply close4_le; [exact H|apply A2, Q]|eapply close3_le; eassumption]. Qed.
Lemma right_close s P q x e y : right s P q x e y -> close_in s e (fst y) q /\ close3 e (snd y) x.
Proof. intros (A1 & _ & A3). split; assumption. Qed.

(** ** one hop *)
Definition fits (al : R) (s : system) (e : V4) : Prop := (c1 e <> 0 \/ c2 e <> 0) /\ (s = BL -> c1 e <> 0 /\ ~ on_disc al e).
Lemma from_cart K e w al to : 0 <= K -> to <> Cart -> fits al to e -> exists q x, coords al to e = Ok q /\ vcoords al to e w = Ok x /\
  eventually_rounded K e w al (fun C u B fp fv fal => exists y, hopB B fal Cart to (fp, fv) = Ok y /\ right to (off_cut e) q x (C * u) y).
Proof.
  intros HK Ht (Ho & Hb). destruct to; [contradiction| |].
  - destruct (cart_to_sph_rounded K e w al HK Ho) as (w' & Ew & H). eexists. exists w'. split; [reflexivity|]. split; [exact Ew|].
    revert H. apply ev_imp. intros C u B fp fv fal (s & w0 & _ & E & X1 & X2 & X3). exists (s, w0). split; [exact E|]. split; [exact X1|]. split; assumption.
  - destruct (Hb eq_refl) as (Hx & Hd). destruct (cart_to_bl_vel_rounded K e w al HK Hx (disc_pos al e Hd)) as (s' & w' & Es & Ew & H). exists s', w'. split; [exact Es|]. split; [exact Ew|].
    revert H. apply ev_imp. intros C u B fp fv fal (s & w0 & E & X1 & X2 & X3). exists (s, w0). split; [exact E|]. split; [exact X1|]. split; assumption.
Qed.
Lemma spin_off al p : (let e := place al BL p in c1 e <> 0 \/ c2 e <> 0) -> c1 p <> 0 \/ al <> 0.
Proof.
  cbv zeta. cbn [place c1 c2]. intros H. destruct (Req_EM_T (c1 p) 0) as [Z|Z]; [|left; exact Z]. destruct (Req_EM_T al 0) as [Z2|Z2]; [|right; exact Z2]. exfalso.
  rewrite Z, Z2 in H. replace (0 * 0 + 0 * 0) with 0 in H by ring. rewrite sqrt_0 in H. destruct H as [H|H]; apply H; ring.
Qed.
Lemma to_cart K s p v al : 0 <= K -> s <> Cart -> (let e := place al s p in c1 e <> 0 \/ c2 e <> 0) ->
  eventually_rounded K p v al (fun C u B fp fv fal => exists y, hopB B fal s Cart (fp, fv) = Ok y /\ right Cart (off_cut (place al s p)) (place al s p) (vplace al s p v) (C * u) y).
Proof.
  intros HK Hs Ho. destruct s; [contradiction| |].
  - generalize (sph_to_cart_rounded K p v al HK). apply ev_imp. intros C u B fp fv fal (q & x & _ & E & X1 & X2). exists (q, x). split; [exact E|]. rewrite place_sph, vplace_sph. split; [exact X1|]. split; [intros _; exact X1|exact X2].
  - assert (NZ := spin_off al p Ho). destruct (bl_to_cart_rounded K p v al HK NZ) as (w' & Ew & H).
    assert (A : sqrt (c1 p * c1 p + al * al) <> 0). { apply Rgt_not_eq, sqrt_lt_R0. destruct NZ as [N|N]; [|]; assert (N2 := Rsqr_pos_lt _ N); unfold Rsqr in N2; assert (Q1 := Rle_0_sqr (c1 p)); assert (Q2 := Rle_0_sqr al); unfold Rsqr in Q1, Q2; lra. }
    rewrite (vplace_bl al p v A) in Ew. apply Ok_inj in Ew. subst w'.
    revert H. apply ev_imp. intros C u B fp fv fal (q & x & _ & E & X1 & X2). exists (q, x). split; [exact E|]. rewrite place_bl. split; [exact X1|]. split; [intros _; exact X1|exact X2].
Qed.
Lemma hopB_via B al s to x : s <> Cart -> to <> Cart -> s <> to -> hopB B al s to x = let* y := hopB B al s Cart x in hopB B al Cart to y.
Proof. intros H1 H2 H3. destruct s, to; try contradiction; reflexivity. Qed.
Lemma pair_eta {X Y} (x : X * Y) : x = (fst x, snd x). Proof. destruct x; reflexivity. Qed.
Lemma sys_cart s : s = Cart \/ s <> Cart. Proof. destruct s; [left; reflexivity|right; discriminate|right; discriminate]. Qed.
Lemma hop_rounded K s p v al to : 0 <= K -> s <> to -> fits al to (place al s p) -> let e := place al s p in exists q x, coords al to e = Ok q /\ vcoords al to e (vplace al s p v) = Ok x /\ place al to q = e /\ vplace al to q x = vplace al s p v /\
  eventually_rounded K p v al (fun C u B fp fv fal => exists y, hopB B fal s to (fp, fv) = Ok y /\ right to (off_cut e) q x (C * u) y).
Proof.
  intros HK Hne Hf e. destruct (vcoords_ok al to e (vplace al s p v) (proj1 Hf) (proj2 Hf)) as (q & x & Eq & Ex & Hq & Hx & _). exists q, x. split; [exact Eq|]. split; [exact Ex|]. split; [exact Hq|]. split; [exact Hx|].
  destruct (sys_cart to) as [Ht|Ht]; [|destruct (sys_cart s) as [Es|Es]].
  - subst to. cbn [coords vcoords] in Eq, Ex. apply Ok_inj in Eq. apply Ok_inj in Ex. subst q x. apply to_cart; [exact HK|exact Hne|exact (proj1 Hf)].
  - subst s. destruct (from_cart K e v al to HK Ht Hf) as (q' & x' & Eq' & Ex' & H). cbn [vplace] in Ex. rewrite Eq in Eq'. rewrite Ex in Ex'. apply Ok_inj in Eq'. apply Ok_inj in Ex'. subst q' x'. exact H.
  - assert (Z := chain _ _ K p v al (fun B fp fv fal => hopB B fal s Cart (fp, fv)) fst snd (fun B y fal => hopB B fal Cart to y) Cart e (vplace al s p v) (right to (off_cut e) q x) HK (right_mono to (off_cut e) q x)).
    cbv beta in Z. lapply Z; [clear Z; intros Z; lapply Z; clear Z|].
    + apply ev_imp. intros C u B fp fv fal (y & z & E1 & E2 & R2). exists z. split; [|exact R2]. rewrite hopB_via by assumption. rewrite E1. exact E2.
    + intros K' k HK'. cbn [turn_in]. destruct (from_cart K' e (vplace al s p v) al to HK' Ht Hf) as (q' & x' & Eq' & Ex' & H). rewrite Eq in Eq'. rewrite Ex in Ex'. apply Ok_inj in Eq'. apply Ok_inj in Ex'. subst q' x'.
      revert H. apply ev_imp. intros C u B fp fv fal H y <- <-. rewrite <- pair_eta in H. exact H.
    + generalize (to_cart K s p v al HK Es (proj1 Hf)). apply ev_imp. intros C u B fp fv fal (y & E & R). exists y. split; [exact E|]. exact (right_close _ _ _ _ _ _ R).
Qed.
(** ** a chain *)
Lemma walkB_rounded al path : forall K s p v, 0 <= K -> path <> [] -> hops s path -> let e := place al s p in (c1 e <> 0 \/ c2 e <> 0) -> (In BL path -> c1 e <> 0 /\ ~ on_disc al e) ->
  exists q x, coords al (last path s) e = Ok q /\ vcoords al (last path s) e (vplace al s p v) = Ok x /\
  eventually_rounded K p v al (fun C u B fp fv fal => exists y, walkB B fal s path (fp, fv) = Ok y /\ right (last path s) (off_cut e) q x (C * u) y).
Proof.
  induction path as [|to path IH]; intros K s p v HK Hn Hh e Ho Hd; [contradiction|]. destruct Hh as (Hs & Hh). assert (Hf : fits al to e) by (split; [exact Ho|intros ->; apply Hd; left; reflexivity]).
  destruct (hop_rounded K s p v al to HK Hs Hf) as (q & x & Eq & Ex & Hq & Hx & H). fold e in Eq, Ex, Hq, H. rewrite last_cons. destruct path as [|s' path].
  - exists q, x. cbn [last]. split; [exact Eq|]. split; [exact Ex|]. revert H. apply ev_imp. intros C u B fp fv fal (y & E & R). exists y. split; [|exact R]. cbn [walkB]. rewrite E. reflexivity.
  - assert (Hd' : In BL (s' :: path) -> c1 e <> 0 /\ ~ on_disc al e) by (intros Q; apply Hd; right; exact Q).
    assert (IH' := fun K' k HK' => IH K' to (turn_in to k q) x HK' ltac:(discriminate) Hh). cbv zeta in IH'.
    assert (IH2 : forall K' k, 0 <= K' -> exists q0 x0, coords al (last (s' :: path) to) e = Ok q0 /\ vcoords al (last (s' :: path) to) e (vplace al s p v) = Ok x0 /\
      eventually_rounded K' (turn_in to k q) x al (fun C u B fp fv fal => exists y, walkB B fal to (s' :: path) (fp, fv) = Ok y /\ right (last (s' :: path) to) (off_cut e) q0 x0 (C * u) y)).
    { intros K' k HK'. specialize (IH' K' k HK'). rewrite place_turn, vplace_turn, Hq, Hx in IH'. exact (IH' Ho Hd'). }
    clear IH IH'. destruct (IH2 0 0%Z (Rle_refl 0)) as (q0 & x0 & E0 & F0 & _). exists q0, x0. split; [exact E0|]. split; [exact F0|].
    assert (Z := chain _ _ K p v al (fun B fp fv fal => hopB B fal s to (fp, fv)) fst snd (fun B y fal => walkB B fal to (s' :: path) y) to q x (right (last (s' :: path) to) (off_cut e) q0 x0) HK (right_mono _ _ _ _)).
    cbv beta in Z. lapply Z; [clear Z; intros Z; lapply Z; clear Z|].
    + apply ev_imp. intros C u B fp fv fal (y & z & E1 & E2 & R2). exists z. split; [|exact R2]. change (walkB B fal s (to :: s' :: path) (fp, fv)) with (let* y := hopB B fal s to (fp, fv) in walkB B fal to (s' :: path) y). rewrite E1. exact E2.
    + intros K' k HK'. destruct (IH2 K' k HK') as (q1 & x1 & E1 & F1 & H1). rewrite E0 in E1. rewrite F0 in F1. apply Ok_inj in E1. apply Ok_inj in F1. subst q1 x1.
      revert H1. apply ev_imp. intros C u B fp fv fal H1 y <- <-. rewrite <- pair_eta in H1. exact H1.
    + revert H. apply ev_imp. intros C u B fp fv fal (y & E & R). exists y. split; [exact E|]. exact (right_close _ _ _ _ _ _ R).
Qed.

(** ** the spin length *)
(** base_metric.py:261-266 BaseMetric.alpha, on the values of M and a *)
Definition alphaB (B : arith2) (c G M a : R) : Res R :=
  if Rlt_dec a 0 then Err ValueError else if Rlt_dec 1 a then Err ValueError
  else let* m := a_mul (b_ar B) G M in let* c2 := a_pow (b_ar B) c 2 in let* h := a_div (b_ar B) m c2 in a_mul (b_ar B) a h.
Lemma alphaB_rounded c G M a (p : V4) (v : V3) : c <> 0 -> 0 <= a <= 1 -> let al := a * (G * M / c ^ 2) in
  exists K, 0 <= K /\ exists r, 0 < r /\ forall u B, 0 <= u < r -> accurate2 u B -> exists fal, alphaB B c G M a = Ok fal /\ close (K * u) fal al.
Proof.
  intros Hc Ha al. assert (HK : 0 <= 0) by lra. assert (U0 := FK_u0 0 p v al). assert (U := FK_u 0 p v al). assert (UB := FK_B 0 p v al). assert (Hc2 : c ^ 2 <> 0) by (apply pow_nonzero; exact Hc).
  assert (H : okT (FK 0 p v al) (fun j => alphaB (k_B j) c G M a) (fun w => tr (FK 0 p v al) k_u w al)).
  { unfold alphaB. destruct (Rlt_dec a 0); [lra|]. destruct (Rlt_dec 1 a); [lra|].
    assert (T : forall x : R, tr (FK 0 p v al) k_u (fun _ => x) x) by (intros x; apply tr_const; typeclasses eauto).
    eapply (okT_bind (FK 0 p v al)); [exact (o_mul _ _ _ U0 U UB _ _ _ _ (T G) (T M))|]. cbv beta. intros m Hm.
    eapply (okT_bind (FK 0 p v al)); [exact (o_sq _ _ _ U0 U UB _ _ (T c))|]. cbv beta. intros d Hd.
    eapply (okT_bind (FK 0 p v al)); [exact (o_div _ _ _ U0 U UB _ _ _ _ Hm Hd Hc2)|]. cbv beta. intros h Hh.
    exact (o_mul _ _ _ U0 U UB _ _ _ _ (T a) Hh). }
  destruct H as (w & Ew & [_ (C & PC & HC)]). unfold evok in Ew. destruct (filter_and _ _ Ew HC) as (r & Hr & X). exists C. split; [exact PC|]. exists r. split; [exact Hr|]. intros u B Hu HB.
  specialize (X (mkcin u B p v al)). destruct X as (X1 & X2).
  { unfold inK. cbn [k_u k_B k_p k_v k_al]. split; [exact Hu|]. split; [exact HB|]. unfold close4, close3, close. rewrite !Rminus_eq_0, !Rabs_R0, !Rmult_0_l. repeat split; lra. }
  cbn [k_u k_B] in X1, X2. eexists. split; [exact X1|exact X2].
Qed.

(** ** the statements *)
(** for every small unit roundoff, every arithmetic with it and all float inputs within K u of p and v *)
Definition rounded_inputs (K : R) (p : V4) (v : V3) (claim : R -> R -> arith2 -> V4 -> V3 -> Prop) : Prop :=
  exists r C, 0 < r /\ 0 <= C /\ forall u B fp fv, 0 <= u < r -> accurate2 u B -> close4 (K * u) fp p -> close3 (K * u) fv v -> claim C u B fp fv.
Lemma with_alpha K p v c G M a (claim : R -> R -> arith2 -> V4 -> V3 -> R -> Prop) : 0 <= K -> c <> 0 -> 0 <= a <= 1 -> (forall K', 0 <= K' -> eventually_rounded K' p v (a * (G * M / c ^ 2)) claim) ->
  rounded_inputs K p v (fun C u B fp fv => exists fal, alphaB B c G M a = Ok fal /\ claim C u B fp fv fal).
Proof.
  intros HK Hc Ha H. destruct (alphaB_rounded c G M a p v Hc Ha) as (K1 & PK & r1 & R1 & H1). destruct (H (K + K1) ltac:(lra)) as (r & C & Hr & HC & H2).
  exists (Rmin r r1), C. split; [apply Rmin_pos; assumption|]. split; [exact HC|]. intros u B fp fv Hu HB Hp Hv. destruct Hu as [Hu Hm]. assert (L1 := Rmin_l r r1). assert (L2 := Rmin_r r r1).
  destruct (H1 u B ltac:(lra) HB) as (fal & E & Ha'). exists fal. split; [exact E|]. assert (0 <= K * u) by (apply Rmult_le_pos; assumption). assert (0 <= K1 * u) by (apply Rmult_le_pos; assumption).
  apply H2; [lra|exact HB| | |]; [eapply close4_le; [|exact Hp]|eapply close3_le; [|exact Hv]|eapply close_le; [|exact Ha']]; rewrite Rmult_plus_distr_r; lra.
Qed.
(** a chain of conversions from start to end: BaseMetric.alpha, then the hops *)
Definition chainB (B : arith2) (c G M a : R) (s : system) (path : list system) (fp : V4) (fv : V3) : Res (V4 * V3) := let* al := alphaB B c G M a in walkB B al s path (fp, fv).
Definition chainP (B : arith2) (c G M a : R) (s : system) (path : list system) (fp : V4) : Res V4 := let* al := alphaB B c G M a in walkP B al s path fp.

Theorem chain_vel_rounded K c G M a path s n x y z k : 0 <= K -> c <> 0 -> 0 <= prim a <= 1 -> let al := prim a * (G * prim M / c ^ 2) in mk_diffl s n x y z = Ok k -> path <> [] -> hops s path ->
  let e := place al s (si4 (df_q k)) in (c1 e <> 0 \/ c2 e <> 0) -> (In BL path -> c1 e <> 0 /\ ~ on_disc al e) ->
  exists k', walkv c G M a path k = Ok k' /\
    rounded_inputs K (si4 (df_q k)) (si3 (df_v k)) (fun C u B fp fv => exists q w, chainB B c G (prim M) (prim a) s path fp fv = Ok (q, w) /\
      close_in (last path s) (C * u) q (si4 (df_q k')) /\ (off_cut e -> close4 (C * u) q (si4 (df_q k'))) /\ close3 (C * u) w (si3 (df_v k'))).
Proof.
  intros HK Hc Ha al Hk Hne Hh e Ho Hd. destruct (mk_freshv _ _ _ _ _ _ Hk) as (Es & Hf). subst s.
  destruct (walkv_last c G M a path k Ha Hf Hne Hh Ho Hd) as (q & w & Eq & Ew & E). exists (made (last path (df_sys k)) q w). split; [exact E|]. destruct (made_vals (last path (df_sys k)) q w) as (-> & -> & _).
  assert (Z : forall K', 0 <= K' -> eventually_rounded K' (si4 (df_q k)) (si3 (df_v k)) al (fun C u B fp fv fal => exists y, walkB B fal (df_sys k) path (fp, fv) = Ok y /\ right (last path (df_sys k)) (off_cut e) q w (C * u) y)).
  { intros K' HK'. destruct (walkB_rounded al path K' (df_sys k) (si4 (df_q k)) (si3 (df_v k)) HK' Hne Hh Ho Hd) as (q' & w' & Eq' & Ew' & H). fold al in Eq, Ew. rewrite Eq in Eq'. rewrite Ew in Ew'. apply Ok_inj in Eq'. apply Ok_inj in Ew'. subst q' w'. exact H. }
  destruct (with_alpha K _ _ c G (prim M) (prim a) _ HK Hc Ha Z) as (r & C & Hr & HC & H). exists r, C. split; [exact Hr|]. split; [exact HC|]. intros u B fp fv Hu HB Hp Hv. destruct (H u B fp fv Hu HB Hp Hv) as (fal & E1 & (q1 & w1) & E2 & A1 & A2 & A3).
  exists q1, w1. split; [unfold chainB; rewrite E1; exact E2|]. split; [exact A1|]. split; assumption.
Qed.
Theorem closed_vel_rounded K c G M a path s n x y z k : 0 <= K -> c <> 0 -> 0 <= prim a <= 1 -> let al := prim a * (G * prim M / c ^ 2) in mk_diffl s n x y z = Ok k -> path <> [] -> hops s path -> last path s = s ->
  inner s (si4 (df_q k)) -> (s = BL -> cos (c3 (si4 (df_q k))) <> 0) -> let e := place al s (si4 (df_q k)) in (c1 e <> 0 \/ c2 e <> 0) -> (In BL path -> c1 e <> 0 /\ ~ on_disc al e) ->
  rounded_inputs K (si4 (df_q k)) (si3 (df_v k)) (fun C u B fp fv => exists q w, chainB B c G (prim M) (prim a) s path fp fv = Ok (q, w) /\
    close_in s (C * u) q (si4 (df_q k)) /\ (off_cut e -> close4 (C * u) q (si4 (df_q k))) /\ close3 (C * u) w (si3 (df_v k))).
Proof.
  intros HK Hc Ha al Hk Hne Hh Hl Hi Hcos e Ho Hd. destruct (chain_vel_rounded K c G M a path s n x y z k HK Hc Ha Hk Hne Hh Ho Hd) as (k' & E & H).
  destruct (walkv_closed c G M a path s n x y z k Ha Hk Hne Hh Hl Hi Hcos Ho Hd) as (k2 & E2 & _ & V1 & V2). rewrite E in E2. apply Ok_inj in E2. subst k2. rewrite V1, V2, Hl in H. exact H.
Qed.

(** ** without velocities *)
Definition right4 (s : system) (P : Prop) (q : V4) (e : R) (y : V4) : Prop := close_in s e y q /\ (P -> close4 e y q).
Lemma right4_mono s P q e e' y : e <= e' -> right4 s P q e y -> right4 s P q e' y.
Proof. intros H (A1 & A2). split; [eapply close_in_le; eassumption|]. intros Q; eapply close4_le; [exact H|apply A2, Q]. Qed.
Definition fits4 (al : R) (s : system) (e : V4) : Prop := (c1 e <> 0 \/ c2 e <> 0) /\ (s = BL -> ~ on_disc al e).
Lemma close_self C u (l : R) : 0 <= C -> 0 <= u -> close (C * u) l l.
Proof. intros HC Hu. unfold close. rewrite Rminus_eq_0, Rabs_R0. apply Rmult_le_pos; assumption. Qed.
Lemma chain4 K p al (f g : arith2 -> V4 -> R -> Res V4) s s' (P : R -> V4 -> Prop) v : 0 <= K -> (forall e e' y, e <= e' -> P e y -> P e' y) ->
  eventually_rounded K p v al (fun C u B fp fv fal => exists x, f B fp fal = Ok x /\ close_in s (C * u) x s') ->
  (forall K' k, 0 <= K' -> eventually_rounded K' (turn_in s k s') v al (fun C u B fp fv fal => exists y, g B fp fal = Ok y /\ P (C * u) y)) ->
  eventually_rounded K p v al (fun C u B fp fv fal => exists y, (let* x := f B fp fal in g B x fal) = Ok y /\ P (C * u) y).
Proof.
  intros HK Mono H G. assert (Z := chain V4 V4 K p v al (fun B fp fv fal => f B fp fal) (fun x => x) (fun _ => v) g s s' v P HK Mono). lapply Z; [clear Z; intros Z; lapply Z; clear Z|].
  - apply ev_imp. intros C u B fp fv fal (x & y & E1 & E2 & R2). exists y. split; [rewrite E1; exact E2|exact R2].
  - intros K' k HK'. generalize (G K' k HK'). apply ev_imp. intros C u B fp fv fal (y & E & R) x -> _. exists y. split; assumption.
  - destruct H as (r & C & Hr & HC & H). exists r, C. split; [exact Hr|]. split; [exact HC|]. intros u B fp fv fal Hu HB Hp Hv Hfa. destruct (H u B fp fv fal Hu HB Hp Hv Hfa) as (x & E & X). exists x. split; [exact E|]. split; [exact X|].
    destruct Hu as [Hu _]. split; [|split]; apply close_self; assumption.
Qed.
Lemma from_cart4 K e v al to : 0 <= K -> to <> Cart -> fits4 al to e -> exists q, coords al to e = Ok q /\
  eventually_rounded K e v al (fun C u B fp fv fal => exists y, hopP B fal Cart to fp = Ok y /\ right4 to (off_cut e) q (C * u) y).
Proof.
  intros HK Ht (Ho & Hb). destruct to; [contradiction| |].
  - destruct (cart_to_sph_rounded K e v al HK Ho) as (w' & Ew & H). eexists. split; [reflexivity|].
    revert H. apply ev_imp. intros C u B fp fv fal (s & w0 & E & _ & X1 & X2 & X3). exists s. split; [exact E|]. split; assumption.
  - destruct (cart_to_bl_rounded K e v al HK Ho (disc_pos al e (Hb eq_refl))) as (s' & Es & H). exists s'. split; [exact Es|].
    revert H. apply ev_imp. intros C u B fp fv fal (s & E & X1 & X2). exists s. split; [exact E|]. split; assumption.
Qed.
Lemma to_cart4 K s p v al : 0 <= K -> s <> Cart -> (let e := place al s p in c1 e <> 0 \/ c2 e <> 0) ->
  eventually_rounded K p v al (fun C u B fp fv fal => exists y, hopP B fal s Cart fp = Ok y /\ right4 Cart (off_cut (place al s p)) (place al s p) (C * u) y).
Proof.
  intros HK Hs Ho. destruct s; [contradiction| |].
  - generalize (sph_to_cart_rounded K p v al HK). apply ev_imp. intros C u B fp fv fal (q & x & E & _ & X1 & X2). exists q. split; [exact E|]. rewrite place_sph. split; [exact X1|]. intros _; exact X1.
  - destruct (bl_to_cart_rounded K p v al HK (spin_off al p Ho)) as (w' & Ew & H).
    revert H. apply ev_imp. intros C u B fp fv fal (q & x & E & _ & X1 & X2). exists q. split; [exact E|]. rewrite place_bl. split; [exact X1|]. intros _; exact X1.
Qed.
Lemma hopP_via B al s to x : s <> Cart -> to <> Cart -> s <> to -> hopP B al s to x = let* y := hopP B al s Cart x in hopP B al Cart to y.
Proof. intros H1 H2 H3. destruct s, to; try contradiction; reflexivity. Qed.
Lemma hop4_rounded K s p v al to : 0 <= K -> s <> to -> fits4 al to (place al s p) -> let e := place al s p in exists q, coords al to e = Ok q /\ place al to q = e /\
  eventually_rounded K p v al (fun C u B fp fv fal => exists y, hopP B fal s to fp = Ok y /\ right4 to (off_cut e) q (C * u) y).
Proof.
  intros HK Hne Hf e. destruct (coords_ok al to e (proj2 Hf)) as (q & Eq & Hq & _). exists q. split; [exact Eq|]. split; [exact Hq|].
  destruct (sys_cart to) as [Ht|Ht]; [|destruct (sys_cart s) as [Es|Es]].
  - subst to. cbn [coords] in Eq. apply Ok_inj in Eq. subst q. apply to_cart4; [exact HK|exact Hne|exact (proj1 Hf)].
  - subst s. destruct (from_cart4 K e v al to HK Ht Hf) as (q' & Eq' & H). rewrite Eq in Eq'. apply Ok_inj in Eq'. subst q'. exact H.
  - assert (Z := chain4 K p al (fun B fp fal => hopP B fal s Cart fp) (fun B y fal => hopP B fal Cart to y) Cart e (right4 to (off_cut e) q) v HK (right4_mono to (off_cut e) q)).
    cbv beta in Z. lapply Z; [clear Z; intros Z; lapply Z; clear Z|].
    + apply ev_imp. intros C u B fp fv fal (z & E1 & R2). exists z. split; [|exact R2]. rewrite hopP_via by assumption. exact E1.
    + intros K' k HK'. cbn [turn_in]. destruct (from_cart4 K' e v al to HK' Ht Hf) as (q' & Eq' & H). rewrite Eq in Eq'. apply Ok_inj in Eq'. subst q'. exact H.
    + generalize (to_cart4 K s p v al HK Es (proj1 Hf)). apply ev_imp. intros C u B fp fv fal (y & E & R & _). exists y. split; [exact E|exact R].
Qed.
Lemma walkP_rounded al path : forall K s p v, 0 <= K -> path <> [] -> hops s path -> let e := place al s p in (c1 e <> 0 \/ c2 e <> 0) -> (In BL path -> ~ on_disc al e) ->
  exists q, coords al (last path s) e = Ok q /\ eventually_rounded K p v al (fun C u B fp fv fal => exists y, walkP B fal s path fp = Ok y /\ right4 (last path s) (off_cut e) q (C * u) y).
Proof.
  induction path as [|to path IH]; intros K s p v HK Hn Hh e Ho Hd; [contradiction|]. destruct Hh as (Hs & Hh). assert (Hf : fits4 al to e) by (split; [exact Ho|intros ->; apply Hd; left; reflexivity]).
  destruct (hop4_rounded K s p v al to HK Hs Hf) as (q & Eq & Hq & H). fold e in Eq, Hq, H. rewrite last_cons. destruct path as [|s' path].
  - exists q. cbn [last]. split; [exact Eq|]. revert H. apply ev_imp. intros C u B fp fv fal (y & E & R). exists y. split; [|exact R]. cbn [walkP]. rewrite E. reflexivity.
  - assert (Hd' : In BL (s' :: path) -> ~ on_disc al e) by (intros Q; apply Hd; right; exact Q).
    assert (IH2 : forall K' k, 0 <= K' -> exists q0, coords al (last (s' :: path) to) e = Ok q0 /\
      eventually_rounded K' (turn_in to k q) v al (fun C u B fp fv fal => exists y, walkP B fal to (s' :: path) fp = Ok y /\ right4 (last (s' :: path) to) (off_cut e) q0 (C * u) y)).
    { intros K' k HK'. assert (Y := IH K' to (turn_in to k q) v HK' ltac:(discriminate) Hh). cbv zeta in Y. rewrite place_turn, Hq in Y. exact (Y Ho Hd'). }
    clear IH. destruct (IH2 0 0%Z (Rle_refl 0)) as (q0 & E0 & _). exists q0. split; [exact E0|].
    assert (Z := chain4 K p al (fun B fp fal => hopP B fal s to fp) (fun B y fal => walkP B fal to (s' :: path) y) to q (right4 (last (s' :: path) to) (off_cut e) q0) v HK (right4_mono _ _ _)).
    cbv beta in Z. lapply Z; [clear Z; intros Z; lapply Z; clear Z|].
    + intros X; exact X.
    + intros K' k HK'. destruct (IH2 K' k HK') as (q1 & E1 & H1). rewrite E0 in E1. apply Ok_inj in E1. subst q1. exact H1.
    + revert H. apply ev_imp. intros C u B fp fv fal (y & E & R & _). exists y. split; [exact E|exact R].
Qed.
(** for every small unit roundoff, every arithmetic with it and all float positions within K u of p *)
Definition rounded_input (K : R) (p : V4) (claim : R -> R -> arith2 -> V4 -> Prop) : Prop :=
  exists r C, 0 < r /\ 0 <= C /\ forall u B fp, 0 <= u < r -> accurate2 u B -> close4 (K * u) fp p -> claim C u B fp.
Theorem chain_rounded K c G M a path s n k : 0 <= K -> c <> 0 -> 0 <= prim a <= 1 -> let al := prim a * (G * prim M / c ^ 2) in mk_coord s n = Ok k -> path <> [] -> hops s path ->
  let e := place al s (si4 (co_q k)) in (c1 e <> 0 \/ c2 e <> 0) -> (In BL path -> ~ on_disc al e) ->
  exists k', walk c G M a path k = Ok k' /\
    rounded_input K (si4 (co_q k)) (fun C u B fp => exists q, chainP B c G (prim M) (prim a) s path fp = Ok q /\ close_in (last path s) (C * u) q (si4 (co_q k')) /\ (off_cut e -> close4 (C * u) q (si4 (co_q k')))).
Proof.
  intros HK Hc Ha al Hk Hne Hh e Ho Hd. destruct (mk_fresh _ _ _ Hk) as (Es & Hf). subst s.
  destruct (walk_last c G M a path k Ha Hf Hne Hh Hd) as (q & k' & Eq & E & Ek). exists k'. split; [exact E|].
  assert (Vq : si4 (co_q k') = q). { subst k'. cbn [co_q]. unfold si4, q4map, q4map2, si, in_si. cbn [c0 c1 c2 c3 q_val q_scale]. rewrite !Rmult_1_r. apply q4_eta. } rewrite Vq.
  set (v := mk3 0 0 0).
  assert (Z : forall K', 0 <= K' -> eventually_rounded K' (si4 (co_q k)) v al (fun C u B fp fv fal => exists y, walkP B fal (co_sys k) path fp = Ok y /\ right4 (last path (co_sys k)) (off_cut e) q (C * u) y)).
  { intros K' HK'. destruct (walkP_rounded al path K' (co_sys k) (si4 (co_q k)) v HK' Hne Hh Ho Hd) as (q' & Eq' & H). fold al in Eq. unfold vals in Eq. rewrite Eq in Eq'. apply Ok_inj in Eq'. subst q'. exact H. }
  destruct (with_alpha K _ _ c G (prim M) (prim a) _ HK Hc Ha Z) as (r & C & Hr & HC & H). exists r, C. split; [exact Hr|]. split; [exact HC|]. intros u B fp Hu HB Hp.
  destruct (H u B fp v Hu HB Hp) as (fal & E1 & q1 & E2 & A1 & A2). { destruct Hu as [Hu _]. split; [|split]; apply close_self; assumption. }
  exists q1. split; [unfold chainP; rewrite E1; exact E2|]. split; assumption.
Qed.
Theorem closed_rounded K c G M a path s n k : 0 <= K -> c <> 0 -> 0 <= prim a <= 1 -> let al := prim a * (G * prim M / c ^ 2) in mk_coord s n = Ok k -> path <> [] -> hops s path -> last path s = s -> inner s (si4 (co_q k)) ->
  let e := place al s (si4 (co_q k)) in (c1 e <> 0 \/ c2 e <> 0) -> (In BL path -> ~ on_disc al e) ->
  rounded_input K (si4 (co_q k)) (fun C u B fp => exists q, chainP B c G (prim M) (prim a) s path fp = Ok q /\ close_in s (C * u) q (si4 (co_q k)) /\ (off_cut e -> close4 (C * u) q (si4 (co_q k)))).
Proof.
  intros HK Hc Ha al Hk Hne Hh Hl Hi e Ho Hd. destruct (chain_rounded K c G M a path s n k HK Hc Ha Hk Hne Hh Ho Hd) as (k' & E & H).
  destruct (walk_closed c G M a path s n k Ha Hk Hne Hh Hl Hi Hd) as (k2 & E2 & _ & V). rewrite E in E2. apply Ok_inj in E2. subst k2. rewrite V, Hl in H. exact H.
Qed.
