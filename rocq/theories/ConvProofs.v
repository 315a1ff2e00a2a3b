From Coq Require Import String Reals List ZArith Lra Lia Bool.
From Verif Require Import Base GeoUtilsModel GeoUtilsProofs CoordModel CoordProofs CoordProofs2 CoordProofs3 CoordProofs4 ConvModel.
Import ListNotations.
Open Scope R_scope.

Lemma provided_spec k :
  (velocities_provided k = true /\ exists a b d, cv_v1 k = Some a /\ cv_v2 k = Some b /\ cv_v3 k = Some d /\ cv_vel k = Some (mk3 a b d))
  \/ (velocities_provided k = false /\ (cv_v1 k = None \/ cv_v2 k = None \/ cv_v3 k = None)).
Proof.
  destruct k as [p [a|] [b|] [d|]]; unfold velocities_provided, cv_vel; simpl; [left; split; eauto 8|right; split; auto ..].
Qed.

(** C26 *)
Lemma values_spec p a b d :
  cv_values (mkconv p (Some a) (Some b) (Some d)) = [c0 p; c1 p; c2 p; c3 p; a; b; d]
  /\ forall o1 o2 o3, o1 = None \/ o2 = None \/ o3 = None -> cv_values (mkconv p o1 o2 o3) = [c0 p; c1 p; c2 p; c3 p].
Proof.
  split; [reflexivity|]. intros o1 o2 o3 H. unfold cv_values.
  destruct o1, o2, o3; try reflexivity. destruct H as [H|[H|H]]; discriminate.
Qed.

Lemma fast_length k pos vel l : fast k pos vel = Ok l ->
  length l = (if velocities_provided k then 7 else 4)%nat.
Proof.
  unfold fast. destruct (provided_spec k) as [[E [a [b [d [_ [_ [_ V]]]]]]]|[E _]]; rewrite E.
  - rewrite V. intros H. apply bindR_Ok in H. destruct H as [p [_ H]]. apply bindR_Ok in H. destruct H as [w [_ H]].
    injection H as <-. reflexivity.
  - intros H. apply bindR_Ok in H. destruct H as [p [_ H]]. injection H as <-. reflexivity.
Qed.

Lemma conv_of_list_provided l k : conv_of_list l = Ok k -> velocities_provided k = Nat.eqb (length l) 7.
Proof.
  destruct l as [|x1 [|x2 [|x3 [|x4 [|x5 [|x6 [|x7 [|]]]]]]]]; simpl; intros H; try discriminate; injection H as <-; reflexivity.
Qed.

Lemma kw_ok kw M a : get_M_a kw = Ok (M, a) -> kw = (Some M, Some a).
Proof. destruct kw as [[m|] [b|]]; simpl; intros H; inversion H; reflexivity. Qed.

Lemma convert_length c G from to k kw l : convert c G from to k kw = Ok l ->
  length l = (if velocities_provided k then 7 else 4)%nat.
Proof.
  destruct from, to; simpl; intros H; try discriminate.
  - apply fast_length in H. exact H.
  - unfold cart_convert_bl in H. apply bindR_Ok in H. destruct H as [[M a] [_ H]]. apply bindR_Ok in H. destruct H as [al [_ H]].
    apply fast_length in H. exact H.
  - apply fast_length in H. exact H.
  - unfold sph_convert_bl in H. apply bindR_Ok in H. destruct H as [[M a] [_ H]]. apply bindR_Ok in H. destruct H as [l1 [E1 H]].
    apply bindR_Ok in H. destruct H as [k1 [E2 H]]. unfold cart_convert_bl in H. simpl in H.
    apply bindR_Ok in H. destruct H as [al [_ H]]. apply fast_length in H. apply fast_length in E1.
    apply conv_of_list_provided in E2. rewrite H, E2, E1. destruct (velocities_provided k); reflexivity.
  - unfold bl_convert_cartesian in H. apply bindR_Ok in H. destruct H as [[M a] [_ H]]. apply bindR_Ok in H. destruct H as [al [_ H]].
    apply fast_length in H. exact H.
  - unfold bl_convert_spherical in H. apply bindR_Ok in H. destruct H as [[M a] [_ H]]. apply bindR_Ok in H. destruct H as [l1 [E1 H]].
    apply bindR_Ok in H. destruct H as [k1 [E2 H]]. apply fast_length in H.
    unfold bl_convert_cartesian in E1. simpl in E1. apply bindR_Ok in E1. destruct E1 as [al [_ E1]]. apply fast_length in E1.
    apply conv_of_list_provided in E2. rewrite H, E2, E1. destruct (velocities_provided k); reflexivity.
Qed.

Lemma convert_missing_kwargs c G from to k kw : from <> to -> needs_spin from to = true ->
  fst kw = None \/ snd kw = None -> convert c G from to k kw = Err KeyError.
Proof.
  intros N S H. assert (E : get_M_a kw = Err KeyError).
  { destruct kw as [[m|] [b|]]; simpl in *; try reflexivity. destruct H; discriminate. }
  destruct from, to; simpl in *; try congruence;
    unfold cart_convert_bl, sph_convert_bl, bl_convert_cartesian, bl_convert_spherical; rewrite E; reflexivity.
Qed.

Lemma bm_alpha_invalid c G M a : prim a < 0 \/ 1 < prim a -> bm_alpha c G M a = Err ValueError.
Proof.
  intros H. unfold bm_alpha. destruct (Rlt_dec (prim a) 0); [reflexivity|].
  destruct (Rlt_dec 1 (prim a)); [reflexivity|]. lra.
Qed.
Lemma bm_alpha_valid c G M a : 0 <= prim a <= 1 -> bm_alpha c G M a = Ok (prim a * (G * prim M / c ^ 2)).
Proof.
  intros H. unfold bm_alpha. destruct (Rlt_dec (prim a) 0); [lra|]. destruct (Rlt_dec 1 (prim a)); [lra|reflexivity].
Qed.

Lemma convert_invalid_spin c G from to k M a : from <> to -> needs_spin from to = true ->
  prim a < 0 \/ 1 < prim a -> convert c G from to k (Some M, Some a) = Err ValueError.
Proof.
  intros N S H. assert (E := bm_alpha_invalid c G M a H).
  destruct from, to; simpl in *; try congruence.
  - unfold cart_convert_bl. simpl. rewrite E. reflexivity.
  - unfold sph_convert_bl. simpl. destruct (sph_convert_cartesian k) as [l|e] eqn:F.
    + simpl. unfold sph_convert_cartesian in F. assert (F' := F). apply fast_length in F.
      destruct l as [|x1 [|x2 [|x3 [|x4 [|x5 [|x6 [|x7 [|]]]]]]]]; simpl in F; destruct (velocities_provided k); try discriminate; simpl;
        unfold cart_convert_bl; simpl; rewrite E; reflexivity.
    + exfalso. revert F. unfold sph_convert_cartesian, fast. destruct (velocities_provided k), (cv_vel k); simpl; discriminate.
  - unfold bl_convert_cartesian. simpl. rewrite E. reflexivity.
  - unfold bl_convert_spherical. simpl. unfold bl_convert_cartesian. simpl. rewrite E. reflexivity.
Qed.

(** Positions: every conversion is the stated formula, indirect ones through Cartesian; velocities likewise. *)
Lemma convert_direct c G from to t a b d :
  let k := mkconv (mkQ4 t a b d) None None None in
  (from = Cart /\ to = Sph -> forall kw, convert c G from to k kw = Ok (l4 (cart_to_sph t a b d)))
  /\ (from = Sph /\ to = Cart -> forall kw, convert c G from to k kw = Ok (l4 (sph_to_cart t a b d)))
  /\ (forall M s, 0 <= prim s <= 1 -> let al := prim s * (G * prim M / c ^ 2) in
      (from = Cart /\ to = BL -> convert c G from to k (Some M, Some s) = mapR l4 (cart_to_bl t a b d al))
      /\ (from = BL /\ to = Cart -> convert c G from to k (Some M, Some s) = Ok (l4 (bl_to_cart t a b d al)))
      /\ (from = Sph /\ to = BL -> convert c G from to k (Some M, Some s) =
            let q := sph_to_cart t a b d in mapR l4 (cart_to_bl (c0 q) (c1 q) (c2 q) (c3 q) al))
      /\ (from = BL /\ to = Sph -> convert c G from to k (Some M, Some s) =
            let q := bl_to_cart t a b d al in Ok (l4 (cart_to_sph (c0 q) (c1 q) (c2 q) (c3 q))))).
Proof.
  cbv zeta. split; [intros [-> ->]; reflexivity|]. split; [intros [-> ->]; reflexivity|]. intros M s Hs.
  assert (E := bm_alpha_valid c G M s Hs).
  split; [|split; [|split]]; intros [-> ->]; unfold convert.
  - unfold cart_convert_bl. cbn [get_M_a bindR]. rewrite E. unfold fast. cbn [bindR velocities_provided cv_vel cv_v1 cv_v2 cv_v3 cv_pos orb negb c0 c1 c2 c3].
    destruct cart_to_bl; reflexivity.
  - unfold bl_convert_cartesian. cbn [get_M_a bindR]. rewrite E. reflexivity.
  - unfold sph_convert_bl, sph_convert_cartesian, fast. cbn [get_M_a bindR velocities_provided cv_vel cv_v1 cv_v2 cv_v3 cv_pos orb negb c0 c1 c2 c3 l4 conv_of_list].
    unfold cart_convert_bl. cbn [get_M_a bindR]. rewrite E. unfold fast. cbn [bindR velocities_provided cv_vel cv_v1 cv_v2 cv_v3 cv_pos orb negb c0 c1 c2 c3].
    destruct cart_to_bl; reflexivity.
  - unfold bl_convert_spherical, bl_convert_cartesian. cbn [get_M_a bindR]. rewrite E. reflexivity.
Qed.

Lemma convert_direct_vel c G from to t a b d u v w :
  let k := mkconv (mkQ4 t a b d) (Some u) (Some v) (Some w) in
  (from = Cart /\ to = Sph -> forall kw, convert c G from to k kw =
      let* x := cart_to_sph_vel a b d u v w in Ok (l7 (cart_to_sph t a b d) x))
  /\ (from = Sph /\ to = Cart -> forall kw, convert c G from to k kw =
      Ok (l7 (sph_to_cart t a b d) (sph_to_cart_vel a b d u v w)))
  /\ (forall M s, 0 <= prim s <= 1 -> let al := prim s * (G * prim M / c ^ 2) in
      (from = Cart /\ to = BL -> convert c G from to k (Some M, Some s) =
         let* p := cart_to_bl t a b d al in let* x := cart_to_bl_vel a b d al u v w in Ok (l7 p x))
      /\ (from = BL /\ to = Cart -> convert c G from to k (Some M, Some s) =
         let* x := bl_to_cart_vel a b d al u v w in Ok (l7 (bl_to_cart t a b d al) x))
      /\ (from = Sph /\ to = BL -> convert c G from to k (Some M, Some s) =
            let q := sph_to_cart t a b d in let y := sph_to_cart_vel a b d u v w in
            let* p := cart_to_bl (c0 q) (c1 q) (c2 q) (c3 q) al in
            let* x := cart_to_bl_vel (c1 q) (c2 q) (c3 q) al (v1 y) (v2 y) (v3 y) in Ok (l7 p x))
      /\ (from = BL /\ to = Sph -> convert c G from to k (Some M, Some s) =
            let q := bl_to_cart t a b d al in
            let* y := bl_to_cart_vel a b d al u v w in
            let* x := cart_to_sph_vel (c1 q) (c2 q) (c3 q) (v1 y) (v2 y) (v3 y) in
            Ok (l7 (cart_to_sph (c0 q) (c1 q) (c2 q) (c3 q)) x))).
Proof.
  cbv zeta. split; [intros [-> ->]; reflexivity|]. split; [intros [-> ->]; reflexivity|]. intros M s Hs.
  assert (E := bm_alpha_valid c G M s Hs).
  split; [|split; [|split]]; intros [-> ->]; unfold convert.
  - unfold cart_convert_bl. cbn [get_M_a bindR]. rewrite E. reflexivity.
  - unfold bl_convert_cartesian. cbn [get_M_a bindR]. rewrite E. reflexivity.
  - unfold sph_convert_bl, sph_convert_cartesian, fast.
    cbn [get_M_a bindR velocities_provided cv_vel cv_v1 cv_v2 cv_v3 cv_pos orb negb c0 c1 c2 c3 l7 conv_of_list].
    unfold cart_convert_bl. cbn [get_M_a bindR]. rewrite E. reflexivity.
  - unfold bl_convert_spherical, bl_convert_cartesian. cbn [get_M_a bindR]. rewrite E. unfold fast.
    cbn [get_M_a bindR velocities_provided cv_vel cv_v1 cv_v2 cv_v3 cv_pos orb negb c0 c1 c2 c3].
    destruct bl_to_cart_vel; reflexivity.
Qed.

(** C27 *)
Definition same_arg (m n : pynum) : Prop :=
  match m, n with
  | NFloat x, NFloat y => x = y
  | NQty p, NQty q => q_dim p = q_dim q /\ si p = si q
  | _, _ => False
  end.
Definition same4 (m n : Q4 pynum) : Prop :=
  same_arg (c0 m) (c0 n) /\ same_arg (c1 m) (c1 n) /\ same_arg (c2 m) (c2 n) /\ same_arg (c3 m) (c3 n).

Definition same_q (p q : quantity) : Prop := q_dim p = q_dim q /\ si p = si q.
Lemma qinput_same d m n : same_arg m n ->
  match qinput d m, qinput d n with Ok p, Ok q => same_q p q | Err e, Err e' => e = e' | _, _ => False end.
Proof.
  destruct m as [x|p], n as [y|q]; simpl; intros H; try contradiction; [reflexivity|].
  destruct H as [H1 H2]. rewrite H1. destruct (dim_eqb (q_dim q) d); [split; assumption|reflexivity].
Qed.

Lemma qinput4_same d m n : same4 m n ->
  match qinput4 d m, qinput4 d n with
  | Ok p, Ok q => same_q (c0 p) (c0 q) /\ same_q (c1 p) (c1 q) /\ same_q (c2 p) (c2 q) /\ same_q (c3 p) (c3 q)
  | Err e, Err e' => e = e' | _, _ => False end.
Proof.
  intros [H0 [H1 [H2 H3]]]. unfold qinput4, q4seq, q4map2. cbn [c0 c1 c2 c3].
  apply (qinput_same (c0 d)) in H0. apply (qinput_same (c1 d)) in H1. apply (qinput_same (c2 d)) in H2. apply (qinput_same (c3 d)) in H3.
  destruct (qinput (c0 d) (c0 m)), (qinput (c0 d) (c0 n)); cbn [bindR]; try contradiction; [|exact H0].
  destruct (qinput (c1 d) (c1 m)), (qinput (c1 d) (c1 n)); cbn [bindR]; try contradiction; [|exact H1].
  destruct (qinput (c2 d) (c2 m)), (qinput (c2 d) (c2 n)); cbn [bindR]; try contradiction; [|exact H2].
  destruct (qinput (c3 d) (c3 m)), (qinput (c3 d) (c3 n)); cbn [bindR]; try contradiction; [|exact H3].
  cbn [c0 c1 c2 c3]. tauto.
Qed.

Lemma si4_same p q : same_q (c0 p) (c0 q) /\ same_q (c1 p) (c1 q) /\ same_q (c2 p) (c2 q) /\ same_q (c3 p) (c3 q) -> si4 p = si4 q.
Proof.
  intros [[_ H0] [[_ H1] [[_ H2] [_ H3]]]]. unfold si4, q4map. rewrite H0, H1, H2, H3. reflexivity.
Qed.

Lemma units_position c G s m n : same4 m n ->
  match mk_coord s m, mk_coord s n with
  | Ok k, Ok k' => co_position c k = co_position c k' /\ forall to kw, to_sys c G to k kw = to_sys c G to k' kw
  | Err e, Err e' => e = e'
  | _, _ => False
  end.
Proof.
  intros H. unfold mk_coord. apply (qinput4_same (pos_dims s)) in H.
  destruct (qinput4 (pos_dims s) m) as [p|], (qinput4 (pos_dims s) n) as [q|]; cbn [bindR]; try contradiction; [|exact H].
  split.
  - unfold co_position. cbn [co_q]. destruct H as [[_ H0] [[_ H1] [[_ H2] [_ H3]]]]. rewrite H0, H1, H2, H3. reflexivity.
  - intros to kw. unfold to_sys. cbn [co_sys co_conv]. rewrite (si4_same p q H). reflexivity.
Qed.

Lemma units_velocity c G s m n a b d a' b' d' : same4 m n -> same_arg a a' -> same_arg b b' -> same_arg d d' ->
  match mk_diffl s m a b d, mk_diffl s n a' b' d' with
  | Ok k, Ok k' =>
      df_position c k = df_position c k' /\ (forall to kw, diff_to c G to k kw = diff_to c G to k' kw)
      /\ forall g, snd (velocity c k g) = snd (velocity c k' g)
                   /\ df_vt (fst (velocity c k g)) = df_vt (fst (velocity c k' g))
  | Err e, Err e' => e = e'
  | _, _ => False
  end.
Proof.
  intros H Ha Hb Hd. unfold mk_diffl. apply (qinput4_same (pos_dims s)) in H.
  destruct (qinput4 (pos_dims s) m) as [p|], (qinput4 (pos_dims s) n) as [q|]; cbn [bindR]; try contradiction; [|exact H].
  destruct (vel_dims s) as [[d1 d2] d3].
  apply (qinput_same d1) in Ha. apply (qinput_same d2) in Hb. apply (qinput_same d3) in Hd.
  destruct (qinput d1 a) as [u|], (qinput d1 a') as [u'|]; cbn [bindR]; try contradiction; [|exact Ha].
  destruct (qinput d2 b) as [v|], (qinput d2 b') as [v'|]; cbn [bindR]; try contradiction; [|exact Hb].
  destruct (qinput d3 d) as [w|], (qinput d3 d') as [w'|]; cbn [bindR]; try contradiction; [|exact Hd].
  destruct Ha as [_ Ha], Hb as [_ Hb], Hd as [_ Hd].
  assert (S := si4_same p q H).
  assert (P : forall sy cv cv' vt vt', df_position c (mkdiffl sy p (u, v, w) cv vt) = df_position c (mkdiffl sy q (u', v', w') cv' vt')).
  { intros. unfold df_position. cbn [df_q]. destruct H as [[_ H0] [[_ H1] [[_ H2] [_ H3]]]]. rewrite H0, H1, H2, H3. reflexivity. }
  split; [apply P|]. split.
  - intros to kw. unfold diff_to. cbn [df_sys df_conv]. rewrite S, Ha, Hb, Hd. reflexivity.
  - intros g. unfold velocity, set_v_t. cbn [df_sys df_v]. destruct (system_eqb s (me_sys g)); [|split; reflexivity].
    rewrite (P s _ (mkconv (si4 q) (Some (si u')) (Some (si v')) (Some (si w'))) None None). destruct (me_cov g _) as [mt|e]; cbn [bindR]; [|split; reflexivity]. rewrite Ha, Hb, Hd.
    destruct (v0 c mt (si u') (si v') (si w')); cbn [bindR]; split; cbn [df_vt df_v]; try reflexivity. cbn [fst snd df_v df_vt]. rewrite Ha, Hb, Hd. reflexivity.
Qed.

(** rescaling the unit: value v in a unit of scale k is the same argument as v*k SI units *)
Lemma same_arg_rescale v k d : same_arg (NQty (mkqty v k d)) (NQty (mkqty (v * k) 1 d)).
Proof. split; [reflexivity|]. unfold si; simpl. ring. Qed.

(** Round trips of the user-level objects *)
Lemma mk_coord_si s t x y z : 
  let d := pos_dims s in
  mk_coord s (mkQ4 (NQty (in_si t (c0 d))) (NQty (in_si x (c1 d))) (NQty (in_si y (c2 d))) (NQty (in_si z (c3 d))))
  = Ok (mkcoord s (mkQ4 (in_si t (c0 d)) (in_si x (c1 d)) (in_si y (c2 d)) (in_si z (c3 d)))
        (mkconv (mkQ4 t x y z) None None None)).
Proof.
  cbv zeta. unfold mk_coord, qinput4, q4seq, q4map2.
  destruct s; simpl; unfold si4, q4map, si; simpl; rewrite !Rmult_1_r; reflexivity.
Qed.

Lemma coord_round_trip c G n k kw : mk_coord Cart n = Ok k ->
  exists k1 k2, to_sys c G Sph k kw = Ok k1 /\ to_sys c G Cart k1 kw = Ok k2 /\ co_position c k2 = co_position c k.
Proof.
  unfold mk_coord. intros H. apply bindR_Ok in H. destruct H as [q [Hq H]]. injection H as <-.
  unfold to_sys at 1. cbn [co_sys co_conv convert]. unfold cart_convert_spherical, fast.
  cbn [velocities_provided cv_vel cv_v1 cv_v2 cv_v3 cv_pos orb negb bindR l4].
  rewrite mk_coord_si. eexists. eexists. split; [reflexivity|].
  unfold to_sys. cbn [co_sys co_conv convert]. unfold sph_convert_cartesian, fast.
  cbn [velocities_provided cv_vel cv_v1 cv_v2 cv_v3 cv_pos orb negb bindR l4 c0 c1 c2 c3].
  rewrite mk_coord_si. split; [reflexivity|].
  set (p := si4 q). destruct (cart_sph_cart (c0 p) (c1 p) (c2 p) (c3 p)) as [E _]. cbv zeta in E.
  unfold co_position. cbn [co_q c0 c1 c2 c3]. unfold si at 1 2 3 4, in_si. cbn [q_val q_scale]. rewrite !Rmult_1_r.
  rewrite E. reflexivity.
Qed.

Lemma coord_round_trip_bl c G n k M a : mk_coord Cart n = Ok k -> 0 <= prim a <= 1 ->
  0 < bl_r (si (c1 (co_q k))) (si (c2 (co_q k))) (si (c3 (co_q k))) (prim a * (G * prim M / c ^ 2)) ->
  exists k1 k2, to_sys c G BL k (Some M, Some a) = Ok k1 /\ to_sys c G Cart k1 (Some M, Some a) = Ok k2
    /\ co_position c k2 = co_position c k.
Proof.
  unfold mk_coord. intros H Ha Hr. apply bindR_Ok in H. destruct H as [q [Hq H]]. injection H as <-.
  cbn [co_q] in Hr.
  assert (E := bm_alpha_valid c G M a Ha). set (al := prim a * (G * prim M / c ^ 2)) in *.
  destruct (cart_bl_cart (si (c0 q)) _ _ _ al Hr) as [s [E1 [E2 _]]].
  unfold to_sys at 1. cbn [co_sys co_conv convert]. unfold cart_convert_bl, fast. cbn [get_M_a bindR]. rewrite E.
  cbn [velocities_provided cv_vel cv_v1 cv_v2 cv_v3 cv_pos orb negb bindR l4].
  change (c0 (si4 q)) with (si (c0 q)). change (c1 (si4 q)) with (si (c1 q)). change (c2 (si4 q)) with (si (c2 q)). change (c3 (si4 q)) with (si (c3 q)).
  rewrite E1. cbn [bindR l4]. rewrite mk_coord_si. eexists. eexists. split; [reflexivity|].
  unfold to_sys. cbn [co_sys co_conv convert]. unfold bl_convert_cartesian, fast. cbn [get_M_a bindR]. rewrite E.
  cbn [velocities_provided cv_vel cv_v1 cv_v2 cv_v3 cv_pos orb negb bindR l4 c0 c1 c2 c3].
  rewrite mk_coord_si. split; [reflexivity|].
  unfold co_position. cbn [co_q c0 c1 c2 c3]. unfold si at 1 2 3 4, in_si. cbn [q_val q_scale]. rewrite !Rmult_1_r.
  rewrite E2. reflexivity.
Qed.
