(** Chains of conversions between coordinate objects. *)
From Coq Require Import String Reals List ZArith Lra Lia Bool.
From Coquelicot Require Import Coquelicot.
From Verif Require Import Base GeoUtilsModel CoordModel CoordProofs CoordProofs2 CoordProofs3 CoordProofs4 CoordProofs6 ConvModel ConvProofs ConvProofs3.
Import ListNotations.
Open Scope R_scope.

(** ** specification *)
(** the event (t, x, y, z) a coordinate tuple of a system stands for; al is the spin length a G M / c^2 *)
Definition place (al : R) (s : system) (p : V4) : V4 :=
  match s with
  | Cart => p
  | Sph => mkQ4 (c0 p) (c1 p * sin (c2 p) * cos (c3 p)) (c1 p * sin (c2 p) * sin (c3 p)) (c1 p * cos (c2 p))
  | BL => mkQ4 (c0 p) (sqrt (c1 p * c1 p + al * al) * sin (c2 p) * cos (c3 p)) (sqrt (c1 p * c1 p + al * al) * sin (c2 p) * sin (c3 p)) (c1 p * cos (c2 p))
  end.
(** a tuple whose radius and angles are in the usual range *)
Definition in_range (s : system) (p : V4) : Prop := match s with Cart => True | _ => 0 <= c1 p /\ 0 <= c2 p <= PI /\ - PI < c3 p <= PI end.
(** the disc of radius al in the plane z = 0, where Boyer-Lindquist coordinates degenerate (for al = 0, the origin) *)
Definition on_disc (al : R) (e : V4) : Prop := c3 e = 0 /\ c1 e * c1 e + c2 e * c2 e <= al * al.
(** a path never asks an object for its own system (there is no such method) *)
Fixpoint hops (s : system) (path : list system) : Prop := match path with [] => True | s' :: path => s <> s' /\ hops s' path end.
Fixpoint walk (c G : R) (M a : pynum) (path : list system) (k : coord) : Res coord :=
  match path with [] => Ok k | s :: path => let* k' := to_sys c G s k (Some M, Some a) in walk c G M a path k' end.

Lemma place_sph al p : place al Sph p = sph_to_cart (c0 p) (c1 p) (c2 p) (c3 p).
Proof. unfold place, sph_to_cart. f_equal; ring. Qed.
Lemma place_bl al p : place al BL p = bl_to_cart (c0 p) (c1 p) (c2 p) (c3 p) al.
Proof. unfold place, bl_to_cart. cbv zeta. replace (c1 p ^ 2 + al ^ 2) with (c1 p * c1 p + al * al) by ring. reflexivity. Qed.
(** the coordinates of an event in a system *)
Definition coords (al : R) (s : system) (e : V4) : Res V4 :=
  match s with Cart => Ok e | Sph => Ok (cart_to_sph (c0 e) (c1 e) (c2 e) (c3 e)) | BL => cart_to_bl (c0 e) (c1 e) (c2 e) (c3 e) al end.
Lemma q4_eta (p : V4) : mkQ4 (c0 p) (c1 p) (c2 p) (c3 p) = p. Proof. destruct p; reflexivity. Qed.
Lemma coords_ok al s e : (s = BL -> ~ on_disc al e) -> exists p, coords al s e = Ok p /\ place al s p = e /\ in_range s p.
Proof.
  intros H. destruct s; cbn [coords].
  - exists e. repeat split.
  - eexists. split; [reflexivity|]. rewrite place_sph. destruct (cart_sph_cart (c0 e) (c1 e) (c2 e) (c3 e)) as (E & R). rewrite E, q4_eta. split; [reflexivity|exact R].
  - assert (P : 0 < bl_r (c1 e) (c2 e) (c3 e) al).
    { destruct (Rle_lt_or_eq_dec 0 (bl_r (c1 e) (c2 e) (c3 e) al)) as [L|L]; [unfold bl_r; apply sqrt_pos|exact L|]. exfalso. apply (H eq_refl). symmetry in L. apply bl_r_zero_iff in L. exact L. }
    destruct (cart_bl_cart (c0 e) (c1 e) (c2 e) (c3 e) al P) as (p & E & E2 & R1 & R2). exists p. split; [exact E|]. rewrite place_bl, E2, q4_eta. split; [reflexivity|]. split; [lra|exact R2].
Qed.
Definition vals (k : coord) : V4 := si4 (co_q k).
Definition fresh (k : coord) : Prop := co_conv k = mkconv (vals k) None None None.
Lemma mk_fresh s n k : mk_coord s n = Ok k -> co_sys k = s /\ fresh k.
Proof. unfold mk_coord. intros H. apply bindR_Ok in H. destruct H as (q & _ & H). apply Ok_inj in H. subst k. split; reflexivity. Qed.
(** one conversion depends on the event only *)
Lemma hop_ok c G M a to k : 0 <= prim a <= 1 -> let al := prim a * (G * prim M / c ^ 2) in fresh k -> co_sys k <> to -> (to = BL -> ~ on_disc al (place al (co_sys k) (vals k))) ->
  exists k' p, to_sys c G to k (Some M, Some a) = Ok k' /\ co_sys k' = to /\ fresh k' /\ coords al to (place al (co_sys k) (vals k)) = Ok p /\ vals k' = p /\
    co_q k' = q4map2 in_si p (pos_dims to) /\ place al to p = place al (co_sys k) (vals k) /\ in_range to p.
Proof.
  intros Ha al Hf Hne Hd. destruct (coords_ok al to (place al (co_sys k) (vals k)) Hd) as (p & E & Hp & Hr). destruct k as [s q cv]. unfold fresh, vals in *. cbn [co_sys co_q co_conv] in *.
  assert (CV : convert c G s to cv (Some M, Some a) = Ok (l4 p)).
  { rewrite Hf. destruct (si4 q) as [t x y z]. destruct (convert_direct c G s to t x y z) as (D1 & D2 & D3). destruct (D3 M a Ha) as (D4 & D5 & D6 & D7). fold al in D4, D5, D6, D7. clear D3.
    destruct s, to; try (exfalso; apply Hne; reflexivity).
    - rewrite D1 by (split; reflexivity). cbn [coords place] in E. apply Ok_inj in E. subst p. reflexivity.
    - rewrite D4 by (split; reflexivity). cbn [coords place c0 c1 c2 c3] in E. rewrite E. reflexivity.
    - rewrite D2 by (split; reflexivity). cbn [coords] in E. rewrite place_sph in E. apply Ok_inj in E. subst p. reflexivity.
    - rewrite D6 by (split; reflexivity). cbn [coords] in E. rewrite place_sph in E. cbn [c0 c1 c2 c3] in E. cbv zeta. rewrite E. reflexivity.
    - rewrite D5 by (split; reflexivity). cbn [coords] in E. rewrite place_bl in E. apply Ok_inj in E. subst p. reflexivity.
    - rewrite D7 by (split; reflexivity). cbn [coords] in E. rewrite place_bl in E. cbn [c0 c1 c2 c3] in E. apply Ok_inj in E. subst p. reflexivity. }
  unfold to_sys. cbn [co_sys co_conv]. rewrite CV. cbn [bindR l4]. rewrite mk_coord_si. eexists. exists p. split; [reflexivity|]. cbn [co_sys co_conv co_q].
  assert (SI : si4 (mkQ4 (in_si (c0 p) (c0 (pos_dims to))) (in_si (c1 p) (c1 (pos_dims to))) (in_si (c2 p) (c2 (pos_dims to))) (in_si (c3 p) (c3 (pos_dims to)))) = p).
  { unfold si4, q4map, si, in_si. cbn [c0 c1 c2 c3 q_val q_scale]. rewrite !Rmult_1_r. apply q4_eta. }
  split; [reflexivity|]. rewrite SI. split; [rewrite q4_eta; reflexivity|]. split; [exact E|]. split; [reflexivity|]. split; [reflexivity|]. split; assumption.
Qed.
Lemma last_cons {A} (x : A) l d : last (x :: l) d = last l x.
Proof. revert x d. induction l as [|y l IH]; intros x d; [reflexivity|]. change (last (x :: y :: l) d) with (last (y :: l) d). rewrite !IH. reflexivity. Qed.
(** any chain of conversions succeeds, stands for the same event, and is in range *)
Theorem walk_ok c G M a path : forall s n k, 0 <= prim a <= 1 -> let al := prim a * (G * prim M / c ^ 2) in mk_coord s n = Ok k -> hops s path -> (In BL path -> ~ on_disc al (place al s (si4 (co_q k)))) ->
  exists k', walk c G M a path k = Ok k' /\ co_sys k' = last path s /\ place al (last path s) (si4 (co_q k')) = place al s (si4 (co_q k)) /\ (path <> [] -> in_range (last path s) (si4 (co_q k'))).
Proof.
  intros s n k Ha al Hk. destruct (mk_fresh s n k Hk) as (<- & Hf). clear n Hk. revert k Hf. induction path as [|to path IH]; intros k Hf Hh Hd.
  - exists k. repeat split. intros X; contradiction.
  - destruct Hh as (Hne & Hh). destruct (hop_ok c G M a to k Ha Hf Hne) as (k1 & p & E & Es & Hf1 & Ec & Ev & _ & Hp & Hr). { intros ->. apply Hd. left; reflexivity. } fold al in Ec, Hp.
    cbn [walk]. rewrite E. cbn [bindR]. subst to. destruct (IH k1 Hf1 Hh) as (k' & E' & Es' & Hp' & Hr'). { intros HB. unfold vals in Ev. rewrite Ev, Hp. apply Hd. right; exact HB. }
    exists k'. split; [exact E'|]. rewrite last_cons. split; [exact Es'|]. unfold vals in Ev. split; [rewrite Hp', Ev; exact Hp|]. intros _. destruct path as [|s' path]; [|apply Hr'; discriminate].
    cbn [walk] in E'. apply Ok_inj in E'. subst k'. cbn [last]. rewrite Ev. exact Hr.
Qed.
(** the result depends only on the last system: two chains from objects of the same event give the same object *)
Lemma walk_last c G M a path : forall k, 0 <= prim a <= 1 -> let al := prim a * (G * prim M / c ^ 2) in fresh k -> path <> [] -> hops (co_sys k) path -> (In BL path -> ~ on_disc al (place al (co_sys k) (vals k))) ->
  exists p k', coords al (last path (co_sys k)) (place al (co_sys k) (vals k)) = Ok p /\ walk c G M a path k = Ok k' /\ k' = mkcoord (last path (co_sys k)) (q4map2 in_si p (pos_dims (last path (co_sys k)))) (mkconv p None None None).
Proof.
  induction path as [|to path IH]; intros k Ha al Hf Hne Hh Hd; [contradiction|]. destruct Hh as (Hs & Hh).
  destruct (hop_ok c G M a to k Ha Hf Hs) as (k1 & p & E & Es & Hf1 & Ec & Ev & Eq & Hp & Hr). { intros ->. apply Hd. left; reflexivity. } fold al in Ec, Hp.
  cbn [walk]. rewrite E. cbn [bindR]. rewrite last_cons. subst to. destruct path as [|s' path].
  - exists p, k1. cbn [last walk]. split; [exact Ec|]. split; [reflexivity|]. unfold fresh in Hf1. destruct k1 as [s1 q1 cv1]. cbn [co_sys co_q co_conv] in *. rewrite Hf1, Ev, Eq. reflexivity.
  - destruct (IH k1 Ha Hf1 ltac:(discriminate) Hh) as (p' & k' & Ec' & E' & Ek'). { rewrite Ev. fold al. rewrite Hp. intros HB. apply Hd. right; exact HB. }
    exists p', k'. fold al in Ec'. rewrite Ev, Hp in Ec'. split; [exact Ec'|]. split; [exact E'|exact Ek'].
Qed.
Theorem walk_unique c G M a path1 path2 s1 s2 n1 n2 k1 k2 : 0 <= prim a <= 1 -> let al := prim a * (G * prim M / c ^ 2) in mk_coord s1 n1 = Ok k1 -> mk_coord s2 n2 = Ok k2 ->
  place al s1 (si4 (co_q k1)) = place al s2 (si4 (co_q k2)) -> hops s1 path1 -> hops s2 path2 -> path1 <> [] -> path2 <> [] -> last path1 s1 = last path2 s2 ->
  (In BL (path1 ++ path2) -> ~ on_disc al (place al s1 (si4 (co_q k1)))) -> exists k, walk c G M a path1 k1 = Ok k /\ walk c G M a path2 k2 = Ok k.
Proof.
  intros Ha al H1 H2 HE Hh1 Hh2 N1 N2 HL Hd. destruct (mk_fresh _ _ _ H1) as (<- & F1). destruct (mk_fresh _ _ _ H2) as (<- & F2).
  destruct (walk_last c G M a path1 k1 Ha F1 N1 Hh1) as (p1 & r1 & C1 & W1 & E1). { intros HB. apply Hd. apply in_or_app. left; exact HB. }
  destruct (walk_last c G M a path2 k2 Ha F2 N2 Hh2) as (p2 & r2 & C2 & W2 & E2). { intros HB. unfold vals. fold al. rewrite <- HE. apply Hd. apply in_or_app. right; exact HB. }
  fold al in C1, C2. unfold vals in C1, C2. rewrite HL, HE, C2 in C1. apply Ok_inj in C1. subst p2. exists r1. split; [exact W1|]. rewrite W2, E1, E2, HL. reflexivity.
Qed.

(** ** with velocities *)
Definition vplace (al : R) (s : system) (p : V4) (v : V3) : V3 :=
  let r := c1 p in let th := c2 p in let ph := c3 p in let A := sqrt (r * r + al * al) in
  match s with
  | Cart => v
  | Sph => mk3 (v1 v * sin th * cos ph + r * (cos th * v2 v) * cos ph - r * sin th * (sin ph * v3 v)) (v1 v * sin th * sin ph + r * (cos th * v2 v) * sin ph + r * sin th * (cos ph * v3 v)) (v1 v * cos th - r * (sin th * v2 v))
  | BL => mk3 (r * v1 v / A * sin th * cos ph + A * (cos th * v2 v) * cos ph - A * sin th * (sin ph * v3 v)) (r * v1 v / A * sin th * sin ph + A * (cos th * v2 v) * sin ph + A * sin th * (cos ph * v3 v)) (v1 v * cos th - r * (sin th * v2 v))
  end.
Lemma sph_flow (r th ph : R -> R) t0 dr dth dph : is_derive r t0 dr -> is_derive th t0 dth -> is_derive ph t0 dph ->
  is_derive (fun t => r t * sin (th t) * cos (ph t)) t0 (dr * sin (th t0) * cos (ph t0) + r t0 * (cos (th t0) * dth) * cos (ph t0) - r t0 * sin (th t0) * (sin (ph t0) * dph)) /\
  is_derive (fun t => r t * sin (th t) * sin (ph t)) t0 (dr * sin (th t0) * sin (ph t0) + r t0 * (cos (th t0) * dth) * sin (ph t0) + r t0 * sin (th t0) * (cos (ph t0) * dph)) /\
  is_derive (fun t => r t * cos (th t)) t0 (dr * cos (th t0) - r t0 * (sin (th t0) * dth)).
Proof.
  intros H1 H2 H3. assert (X1 : ex_derive r t0) by (eexists; exact H1). assert (X2 : ex_derive th t0) by (eexists; exact H2). assert (X3 : ex_derive ph t0) by (eexists; exact H3).
  assert (E1 := is_derive_unique _ _ _ H1). assert (E2 := is_derive_unique _ _ _ H2). assert (E3 := is_derive_unique _ _ _ H3).
  refine (Logic.conj _ (Logic.conj _ _)); (auto_derive; [tauto|]); cbv beta in *; change (fun x : R => r x) with r; change (fun x : R => th x) with th; change (fun x : R => ph x) with ph; rewrite ?E1, ?E2, ?E3; ring.
Qed.
Lemma bl_flow al (r th ph : R -> R) t0 dr dth dph : 0 < r t0 * r t0 + al * al -> is_derive r t0 dr -> is_derive th t0 dth -> is_derive ph t0 dph -> let A := sqrt (r t0 * r t0 + al * al) in
  is_derive (fun t => sqrt (r t * r t + al * al) * sin (th t) * cos (ph t)) t0 (r t0 * dr / A * sin (th t0) * cos (ph t0) + A * (cos (th t0) * dth) * cos (ph t0) - A * sin (th t0) * (sin (ph t0) * dph)) /\
  is_derive (fun t => sqrt (r t * r t + al * al) * sin (th t) * sin (ph t)) t0 (r t0 * dr / A * sin (th t0) * sin (ph t0) + A * (cos (th t0) * dth) * sin (ph t0) + A * sin (th t0) * (cos (ph t0) * dph)) /\
  is_derive (fun t => r t * cos (th t)) t0 (dr * cos (th t0) - r t0 * (sin (th t0) * dth)).
Proof.
  intros P H1 H2 H3 A.
  assert (HA : is_derive (fun t => sqrt (r t * r t + al * al)) t0 (r t0 * dr / A)).
  { assert (X1 : ex_derive r t0) by (eexists; exact H1). assert (E1 := is_derive_unique _ _ _ H1). assert (Q : A <> 0) by (apply Rgt_not_eq, sqrt_lt_R0; exact P).
    auto_derive; [tauto|]. change (fun x : R => r x) with r. rewrite E1. fold A. field. exact Q. }
  assert (S1 := sph_flow (fun t => sqrt (r t * r t + al * al)) th ph t0 _ _ _ HA H2 H3). assert (S2 := sph_flow r th ph t0 _ _ _ H1 H2 H3). exact (Logic.conj (proj1 S1) (Logic.conj (proj1 (proj2 S1)) (proj2 (proj2 S2)))).
Qed.
(** it is the velocity of the event the moving coordinates stand for *)
Lemma vplace_velocity al s (p : R -> V4) t0 v : is_derive (fun t => c1 (p t)) t0 (v1 v) -> is_derive (fun t => c2 (p t)) t0 (v2 v) -> is_derive (fun t => c3 (p t)) t0 (v3 v) -> (s = BL -> c1 (p t0) <> 0 \/ al <> 0) ->
  let w := vplace al s (p t0) v in is_derive (fun t => c1 (place al s (p t))) t0 (v1 w) /\ is_derive (fun t => c2 (place al s (p t))) t0 (v2 w) /\ is_derive (fun t => c3 (place al s (p t))) t0 (v3 w).
Proof.
  intros H1 H2 H3 Hb w. unfold w. destruct s; cbn [place vplace c1 c2 c3 v1 v2 v3].
  - exact (Logic.conj H1 (Logic.conj H2 H3)).
  - assert (L := fun r th ph => sph_flow r th ph t0 (v1 v) (v2 v) (v3 v)). exact (L (fun t => c1 (p t)) (fun t => c2 (p t)) (fun t => c3 (p t)) H1 H2 H3).
  - assert (P : 0 < c1 (p t0) * c1 (p t0) + al * al). { destruct (Hb eq_refl); nra. }
    exact (bl_flow al (fun t => c1 (p t)) (fun t => c2 (p t)) (fun t => c3 (p t)) t0 (v1 v) (v2 v) (v3 v) P H1 H2 H3).
Qed.
Fixpoint walkv (c G : R) (M a : pynum) (path : list system) (k : diffl) : Res diffl :=
  match path with [] => Ok k | s :: path => let* k' := diff_to c G s k (Some M, Some a) in walkv c G M a path k' end.
Definition si3 (v : quantity * quantity * quantity) : V3 := let '(a, b, d) := v in mk3 (si a) (si b) (si d).
Definition vcoords (al : R) (s : system) (e : V4) (w : V3) : Res V3 :=
  match s with Cart => Ok w | Sph => cart_to_sph_vel (c1 e) (c2 e) (c3 e) (v1 w) (v2 w) (v3 w) | BL => cart_to_bl_vel (c1 e) (c2 e) (c3 e) al (v1 w) (v2 w) (v3 w) end.
Lemma v3_eta (v : V3) : mk3 (v1 v) (v2 v) (v3 v) = v. Proof. destruct v; reflexivity. Qed.
Lemma vplace_sph al p v : vplace al Sph p v = sph_to_cart_vel (c1 p) (c2 p) (c3 p) (v1 v) (v2 v) (v3 v).
Proof. unfold vplace, sph_to_cart_vel. cbv zeta. f_equal; ring. Qed.
Lemma vplace_bl al p v : sqrt (c1 p * c1 p + al * al) <> 0 -> bl_to_cart_vel (c1 p) (c2 p) (c3 p) al (v1 v) (v2 v) (v3 v) = Ok (vplace al BL p v).
Proof.
  intros H. unfold bl_to_cart_vel, vplace. cbv zeta. replace (c1 p ^ 2 + al ^ 2) with (c1 p * c1 p + al * al) by ring. unfold np_div. destruct (Req_EM_T _ 0) as [Z|_]; [contradiction|]. cbn [bindR]. f_equal. f_equal; field; exact H.
Qed.
Lemma disc_pos al e : ~ on_disc al e -> 0 < bl_r (c1 e) (c2 e) (c3 e) al.
Proof. intros H. destruct (Rle_lt_or_eq_dec 0 (bl_r (c1 e) (c2 e) (c3 e) al)) as [L|L]; [unfold bl_r; apply sqrt_pos|exact L|]. exfalso. apply H. symmetry in L. apply bl_r_zero_iff in L. exact L. Qed.
Lemma vcoords_ok al s e w : (c1 e <> 0 \/ c2 e <> 0) -> (s = BL -> c1 e <> 0 /\ ~ on_disc al e) -> exists p v, coords al s e = Ok p /\ vcoords al s e w = Ok v /\ place al s p = e /\ vplace al s p v = w /\ in_range s p.
Proof.
  intros Ha Hd. destruct (coords_ok al s e) as (p & E & Hp & Hr). { intros E. apply Hd. exact E. } exists p. destruct s; cbn [vcoords].
  - cbn [coords] in E. apply Ok_inj in E. subst p. exists w. repeat split.
  - destruct (vel_cart_sph_cart (c0 e) (c1 e) (c2 e) (c3 e) (v1 w) (v2 w) (v3 w) Ha) as (v & Ev & Hv). exists v. cbn [coords] in E. split; [exact E|]. apply Ok_inj in E. subst p. split; [exact Ev|]. split; [exact Hp|]. split; [|exact Hr]. rewrite vplace_sph. cbv zeta in Hv. rewrite Hv. apply v3_eta.
  - destruct (Hd eq_refl) as (Hx & Hn). destruct (vel_cart_bl_cart (c0 e) (c1 e) (c2 e) (c3 e) al (v1 w) (v2 w) (v3 w) Hx (disc_pos al e Hn)) as (s & v & Es & Ev & Hv). cbn [coords] in E. rewrite Es in E. apply Ok_inj in E. subst s.
    exists v. split; [exact Es|]. split; [exact Ev|]. split; [exact Hp|]. split; [|exact Hr].
    rewrite vplace_bl in Hv; [apply Ok_inj in Hv; rewrite Hv; apply v3_eta|]. intros Z. rewrite <- Hp in Hx. cbn [place c1] in Hx. rewrite Z in Hx. apply Hx. ring.
Qed.
Definition freshv (k : diffl) : Prop := let v := si3 (df_v k) in df_conv k = mkconv (si4 (df_q k)) (Some (v1 v)) (Some (v2 v)) (Some (v3 v)).
Lemma mk_freshv s n a b d k : mk_diffl s n a b d = Ok k -> df_sys k = s /\ freshv k.
Proof.
  unfold mk_diffl. intros H. apply bindR_Ok in H. destruct H as (q & _ & H). destruct (vel_dims s) as [[d1 d2] d3]. apply bindR_Ok in H. destruct H as (va & _ & H). apply bindR_Ok in H. destruct H as (vb & _ & H). apply bindR_Ok in H. destruct H as (vd & _ & H). apply Ok_inj in H. subst k. split; reflexivity.
Qed.
Definition made (s : system) (p : V4) (v : V3) : diffl :=
  mkdiffl s (q4map2 in_si p (pos_dims s)) (let '(d1, d2, d3) := vel_dims s in (in_si (v1 v) d1, in_si (v2 v) d2, in_si (v3 v) d3)) (mkconv p (Some (v1 v)) (Some (v2 v)) (Some (v3 v))) None.
Lemma mk_diffl_si s p v : let d := pos_dims s in let '(d1, d2, d3) := vel_dims s in
  mk_diffl s (mkQ4 (NQty (in_si (c0 p) (c0 d))) (NQty (in_si (c1 p) (c1 d))) (NQty (in_si (c2 p) (c2 d))) (NQty (in_si (c3 p) (c3 d)))) (NQty (in_si (v1 v) d1)) (NQty (in_si (v2 v) d2)) (NQty (in_si (v3 v) d3)) = Ok (made s p v).
Proof.
  destruct p as [t x y z]. cbv zeta. unfold mk_diffl, qinput4, q4seq, q4map2, made. destruct s; simpl; unfold si4, q4map, si; simpl; rewrite !Rmult_1_r; reflexivity.
Qed.
Lemma made_vals s p v : si4 (df_q (made s p v)) = p /\ si3 (df_v (made s p v)) = v /\ df_sys (made s p v) = s.
Proof.
  destruct p as [t x y z], v as [a b d]. refine (Logic.conj _ (Logic.conj _ _)); [| |reflexivity]; unfold made; destruct s; cbn; unfold si4, q4map, si; cbn; rewrite !Rmult_1_r; reflexivity.
Qed.
Lemma made_fresh s p v : freshv (made s p v).
Proof. unfold freshv. cbv zeta. destruct (made_vals s p v) as (-> & -> & _). reflexivity. Qed.
Lemma hopv_ok c G M a to k : 0 <= prim a <= 1 -> let al := prim a * (G * prim M / c ^ 2) in let e := place al (df_sys k) (si4 (df_q k)) in let w := vplace al (df_sys k) (si4 (df_q k)) (si3 (df_v k)) in
  freshv k -> df_sys k <> to -> (c1 e <> 0 \/ c2 e <> 0) -> (to = BL -> c1 e <> 0 /\ ~ on_disc al e) ->
  exists p v, diff_to c G to k (Some M, Some a) = Ok (made to p v) /\ coords al to e = Ok p /\ vcoords al to e w = Ok v /\ place al to p = e /\ vplace al to p v = w /\ in_range to p.
Proof.
  intros Ha al e w Hf Hne Hx Hd. destruct (vcoords_ok al to e w Hx Hd) as (p & v & E & Ev & Hp & Hv & Hr). exists p, v. split; [|repeat split; assumption].
  assert (CV : convert c G (df_sys k) to (df_conv k) (Some M, Some a) = Ok (l7 p v)).
  { rewrite Hf. unfold w, e in *. clear w e Hf. destruct k as [s q v0 cv vt]. cbn [df_sys df_q df_v] in *. destruct (si4 q) as [t x y z]. destruct (si3 v0) as [u1 u2 u3]. cbn [v1 v2 v3].
    destruct (convert_direct_vel c G s to t x y z u1 u2 u3) as (D1 & D2 & D3). destruct (D3 M a Ha) as (D4 & D5 & D6 & D7). fold al in D4, D5, D6, D7. clear D3.
    assert (NZ : s = BL -> sqrt (x * x + al * al) <> 0). { intros -> Z. cbn [place c1 c2 c3] in Hx. rewrite Z in Hx. destruct Hx as [Hx|Hx]; apply Hx; ring. }
    destruct s, to; try (exfalso; apply Hne; reflexivity).
    - rewrite D1 by (split; reflexivity). cbn [coords vcoords place vplace c0 c1 c2 c3 v1 v2 v3] in E, Ev. rewrite Ev. cbn [bindR]. apply Ok_inj in E. subst p. reflexivity.
    - rewrite D4 by (split; reflexivity). cbn [coords vcoords place vplace c0 c1 c2 c3 v1 v2 v3] in E, Ev. rewrite E. cbn [bindR]. rewrite Ev. reflexivity.
    - rewrite D2 by (split; reflexivity). cbn [coords vcoords] in E, Ev. rewrite place_sph in E. rewrite vplace_sph in Ev. apply Ok_inj in E. apply Ok_inj in Ev. subst p v. reflexivity.
    - rewrite D6 by (split; reflexivity). cbn [coords vcoords] in E, Ev. rewrite place_sph in E. rewrite place_sph, vplace_sph in Ev. cbn [c0 c1 c2 c3 v1 v2 v3] in E, Ev. cbv zeta. rewrite E. cbn [bindR]. rewrite Ev. reflexivity.
    - rewrite D5 by (split; reflexivity). cbn [coords vcoords] in E, Ev. rewrite place_bl in E. apply Ok_inj in E. apply Ok_inj in Ev. subst p v. assert (B := vplace_bl al (mkQ4 t x y z) (mk3 u1 u2 u3) (NZ eq_refl)). cbn [c0 c1 c2 c3 v1 v2 v3] in B. rewrite B. reflexivity.
    - rewrite D7 by (split; reflexivity). assert (B := vplace_bl al (mkQ4 t x y z) (mk3 u1 u2 u3) (NZ eq_refl)). cbn [c0 c1 c2 c3 v1 v2 v3] in B. rewrite B. cbv zeta. cbn [bindR]. cbn [coords vcoords] in E, Ev. rewrite place_bl in E, Ev. cbn [c0 c1 c2 c3] in E, Ev. rewrite Ev. apply Ok_inj in E. subst p. reflexivity. }
  unfold diff_to. rewrite CV. cbn [bindR l7]. assert (Z := mk_diffl_si to p v). cbv zeta in Z. destruct (vel_dims to) as [[d1 d2] d3]. exact Z.
Qed.
Theorem walkv_ok c G M a path : forall s n x y z k, 0 <= prim a <= 1 -> let al := prim a * (G * prim M / c ^ 2) in mk_diffl s n x y z = Ok k -> hops s path ->
  let e := place al s (si4 (df_q k)) in (c1 e <> 0 \/ c2 e <> 0) -> (In BL path -> c1 e <> 0 /\ ~ on_disc al e) ->
  exists k', walkv c G M a path k = Ok k' /\ df_sys k' = last path s /\ place al (last path s) (si4 (df_q k')) = e /\
    vplace al (last path s) (si4 (df_q k')) (si3 (df_v k')) = vplace al s (si4 (df_q k)) (si3 (df_v k)) /\ (path <> [] -> in_range (last path s) (si4 (df_q k'))).
Proof.
  intros s n x y z k Ha al Hk. destruct (mk_freshv _ _ _ _ _ _ Hk) as (<- & Hf). clear n x y z Hk. revert k Hf. induction path as [|to path IH]; intros k Hf Hh e Hx Hd.
  - exists k. repeat split. intros X; contradiction.
  - destruct Hh as (Hne & Hh). destruct (hopv_ok c G M a to k Ha Hf Hne Hx) as (p & v & E & Ec & Ev & Hp & Hv & Hr). { intros ->. apply Hd. left; reflexivity. } fold al e in Ec, Ev, Hp, Hv.
    destruct (made_vals to p v) as (V1 & V2 & V3).
    cbn [walkv]. rewrite E. cbn [bindR]. specialize (IH (made to p v) (made_fresh to p v)). cbv zeta in IH. rewrite V1, V2, V3, Hp, Hv in IH. destruct (IH Hh Hx) as (k' & E' & Es' & Hp' & Hv' & Hr'). { intros HB. apply Hd. right; exact HB. }
    exists k'. split; [exact E'|]. rewrite last_cons. split; [exact Es'|]. split; [exact Hp'|]. split; [exact Hv'|]. intros _. destruct path as [|s' path]; [|apply Hr'; discriminate].
    cbn [walkv] in E'. apply Ok_inj in E'. subst k'. cbn [last]. rewrite V1. exact Hr.
Qed.
Lemma walkv_last c G M a path : forall k, 0 <= prim a <= 1 -> let al := prim a * (G * prim M / c ^ 2) in let e := place al (df_sys k) (si4 (df_q k)) in let w := vplace al (df_sys k) (si4 (df_q k)) (si3 (df_v k)) in
  freshv k -> path <> [] -> hops (df_sys k) path -> (c1 e <> 0 \/ c2 e <> 0) -> (In BL path -> c1 e <> 0 /\ ~ on_disc al e) ->
  exists p v, coords al (last path (df_sys k)) e = Ok p /\ vcoords al (last path (df_sys k)) e w = Ok v /\ walkv c G M a path k = Ok (made (last path (df_sys k)) p v).
Proof.
  induction path as [|to path IH]; intros k Ha al e w Hf Hne Hh Hx Hd; [contradiction|]. destruct Hh as (Hs & Hh).
  destruct (hopv_ok c G M a to k Ha Hf Hs Hx) as (p & v & E & Ec & Ev & Hp & Hv & Hr). { intros ->. apply Hd. left; reflexivity. } fold al e in Ec, Ev, Hp, Hv. fold w in Ev, Hv.
  cbn [walkv]. rewrite E. cbn [bindR]. rewrite last_cons. destruct path as [|s' path].
  - exists p, v. cbn [last walkv]. repeat split; assumption.
  - destruct (made_vals to p v) as (V1 & V2 & V3). specialize (IH (made to p v) Ha). cbv zeta in IH. fold al in IH. rewrite V1, V2, V3, Hp, Hv in IH. apply IH; [apply made_fresh|discriminate|exact Hh|exact Hx|]. intros HB. apply Hd. right; exact HB.
Qed.
Theorem walkv_unique c G M a path1 path2 s1 s2 n1 n2 x1 y1 z1 x2 y2 z2 k1 k2 : 0 <= prim a <= 1 -> let al := prim a * (G * prim M / c ^ 2) in mk_diffl s1 n1 x1 y1 z1 = Ok k1 -> mk_diffl s2 n2 x2 y2 z2 = Ok k2 ->
  let e := place al s1 (si4 (df_q k1)) in e = place al s2 (si4 (df_q k2)) -> vplace al s1 (si4 (df_q k1)) (si3 (df_v k1)) = vplace al s2 (si4 (df_q k2)) (si3 (df_v k2)) ->
  hops s1 path1 -> hops s2 path2 -> path1 <> [] -> path2 <> [] -> last path1 s1 = last path2 s2 -> (c1 e <> 0 \/ c2 e <> 0) -> (In BL (path1 ++ path2) -> c1 e <> 0 /\ ~ on_disc al e) ->
  exists k, walkv c G M a path1 k1 = Ok k /\ walkv c G M a path2 k2 = Ok k.
Proof.
  intros Ha al H1 H2 e HE HV Hh1 Hh2 N1 N2 HL Hx Hd. destruct (mk_freshv _ _ _ _ _ _ H1) as (<- & F1). destruct (mk_freshv _ _ _ _ _ _ H2) as (<- & F2).
  destruct (walkv_last c G M a path1 k1 Ha F1 N1 Hh1 Hx) as (p1 & w1 & C1 & D1 & W1). { intros HB. apply Hd. apply in_or_app. left; exact HB. }
  destruct (walkv_last c G M a path2 k2 Ha F2 N2 Hh2) as (p2 & w2 & C2 & D2 & W2). { fold al. rewrite <- HE. exact Hx. } { fold al. rewrite <- HE. intros HB. apply Hd. apply in_or_app. right; exact HB. }
  fold al in C1, D1, C2, D2. fold e in C1, D1. rewrite <- HE, <- HL in C2, D2. rewrite <- HV in D2. rewrite C2 in C1. apply Ok_inj in C1. subst p2. rewrite D2 in D1. apply Ok_inj in D1. subst w2.
  eexists. split; [exact W1|]. rewrite W2, HL. reflexivity.
Qed.

(** ** closed chains *)
(** off the coordinate singularities and with the azimuth in (-pi, pi] *)
Definition inner (s : system) (p : V4) : Prop := match s with Cart => True | _ => 0 < c1 p /\ 0 < c2 p < PI /\ - PI < c3 p <= PI end.
Lemma coords_place al s p : inner s p -> coords al s (place al s p) = Ok p.
Proof.
  intros H. destruct p as [t r th ph]. destruct s; cbn [inner c1 c2 c3] in H; cbn [coords]; [reflexivity| |]; destruct H as (H1 & H2 & H3).
  - rewrite place_sph. f_equal. exact (sph_cart_sph t r th ph H1 H2 H3).
  - rewrite place_bl. exact (bl_cart_bl t r th ph al H1 H2 H3).
Qed.
Theorem walk_closed c G M a path s n k : 0 <= prim a <= 1 -> let al := prim a * (G * prim M / c ^ 2) in mk_coord s n = Ok k -> path <> [] -> hops s path -> last path s = s -> inner s (si4 (co_q k)) -> (In BL path -> ~ on_disc al (place al s (si4 (co_q k)))) ->
  exists k', walk c G M a path k = Ok k' /\ co_sys k' = s /\ si4 (co_q k') = si4 (co_q k).
Proof.
  intros Ha al Hk Hne Hh Hl Hi Hd. destruct (mk_fresh _ _ _ Hk) as (<- & F). destruct (walk_last c G M a path k Ha F Hne Hh Hd) as (p & k' & Ec & E & Ek). rewrite Hl in Ec, Ek. fold al in Ec. rewrite (coords_place al (co_sys k) (vals k) Hi) in Ec. apply Ok_inj in Ec. subst p.
  exists k'. split; [exact E|]. subst k'. cbn [co_sys co_q]. split; [reflexivity|]. unfold vals. destruct (si4 (co_q k)) as [t x y z]. destruct (co_sys k); unfold si4, q4map, q4map2, si, in_si; cbn [c0 c1 c2 c3 q_val q_scale]; rewrite !Rmult_1_r; reflexivity.
Qed.
Lemma vcoords_place al s p v : inner s p -> (s = BL -> cos (c3 p) <> 0) -> vcoords al s (place al s p) (vplace al s p v) = Ok v.
Proof.
  intros H Hc. destruct p as [t r th ph], v as [a b d]. destruct s; cbn [inner c1 c2 c3] in H, Hc; cbn [vcoords]; [reflexivity| |]; destruct H as (H1 & H2 & H3).
  - rewrite place_sph, vplace_sph. exact (vel_sph_cart_sph r th ph a b d H1 H2).
  - assert (A : sqrt (c1 (mkQ4 t r th ph) * c1 (mkQ4 t r th ph) + al * al) <> 0). { apply Rgt_not_eq, sqrt_lt_R0. cbn [c1]. nra. }
    destruct (vel_bl_cart_bl t r th ph al a b d H1 H2 H3 (Hc eq_refl)) as (w & E1 & E2). assert (B := vplace_bl al (mkQ4 t r th ph) (mk3 a b d) A). cbn [c0 c1 c2 c3 v1 v2 v3] in B. rewrite B in E1. apply Ok_inj in E1. rewrite place_bl, E1. exact E2.
Qed.
Theorem walkv_closed c G M a path s n x y z k : 0 <= prim a <= 1 -> let al := prim a * (G * prim M / c ^ 2) in mk_diffl s n x y z = Ok k -> path <> [] -> hops s path -> last path s = s -> inner s (si4 (df_q k)) -> (s = BL -> cos (c3 (si4 (df_q k))) <> 0) ->
  let e := place al s (si4 (df_q k)) in (c1 e <> 0 \/ c2 e <> 0) -> (In BL path -> c1 e <> 0 /\ ~ on_disc al e) ->
  exists k', walkv c G M a path k = Ok k' /\ df_sys k' = s /\ si4 (df_q k') = si4 (df_q k) /\ si3 (df_v k') = si3 (df_v k).
Proof.
  intros Ha al Hk Hne Hh Hl Hi Hc e Hx Hd. destruct (mk_freshv _ _ _ _ _ _ Hk) as (<- & F). destruct (walkv_last c G M a path k Ha F Hne Hh Hx Hd) as (p & v & Ec & Ev & E). rewrite Hl in Ec, Ev, E. fold al in Ec, Ev.
  rewrite (coords_place al _ _ Hi) in Ec. apply Ok_inj in Ec. subst p. rewrite (vcoords_place al _ _ _ Hi Hc) in Ev. apply Ok_inj in Ev. subst v.
  eexists. split; [exact E|]. destruct (made_vals (df_sys k) (si4 (df_q k)) (si3 (df_v k))) as (A1 & A2 & A3). rewrite A1, A2, A3. repeat split.
Qed.
(** ** witnesses *)
Definition ex_coord : Res coord := mk_coord Cart (mkQ4 (NQty (mkqty 0 1 DTime)) (NQty (mkqty 3 1 DLength)) (NQty (mkqty 4 1 DLength)) (NQty (mkqty 2 1 DLength))).
Definition ex_diffl : Res diffl := mk_diffl Cart (mkQ4 (NQty (mkqty 0 1 DTime)) (NQty (mkqty 3 1 DLength)) (NQty (mkqty 4 1 DLength)) (NQty (mkqty 2 1 DLength))) (NQty (mkqty 1 1 DSpeed)) (NQty (mkqty 2 1 DSpeed)) (NQty (mkqty 5 1 DSpeed)).
Lemma ex_hyps : let M := NFloat 1 in let a := NFloat (/ 2) in let al := prim a * (1 * prim M / 1 ^ 2) in let path := [Sph; BL; Cart; BL; Sph; Cart] in
  exists k kv, ex_coord = Ok k /\ ex_diffl = Ok kv /\ 0 <= prim a <= 1 /\ hops Cart path /\ si4 (co_q k) = mkQ4 0 3 4 2 /\ si4 (df_q kv) = mkQ4 0 3 4 2 /\ si3 (df_v kv) = mk3 1 2 5 /\
    let e := place al Cart (si4 (df_q kv)) in c1 e <> 0 /\ ~ on_disc al e.
Proof.
  cbv zeta. do 2 eexists. split; [reflexivity|]. split; [reflexivity|]. split; [cbn; lra|]. split; [repeat (split; [discriminate|]); exact Logic.I|].
  assert (E : forall q d, si (mkqty q 1 d) = q) by (intros; unfold si; cbn [q_val q_scale]; ring).
  unfold si4, q4map, si3. cbn [co_q df_q df_v c0 c1 c2 c3]. rewrite !E. split; [reflexivity|]. split; [reflexivity|]. split; [reflexivity|]. unfold place, on_disc. cbn [c1 c2 c3]. split; lra.
Qed.
