(** Without spin the whole angular momentum vector is a constant of motion: computed orbits of any inclination stay in a plane through the centre. *)
From Coq Require Import String Reals List ZArith Lra Lia Bool.
From Coquelicot Require Import Coquelicot.
From Verif Require Import Base Calc DualModel DualSpec DualProofs DualDiff GeoUtilsModel GeoUtilsSpec GeoUtilsProofs GeodesicModel GeodesicProofs
  FantasyModel FantasyProofs FantasyProofs2 FantasyProofs3 FantasyHam FantasySymp ProgCont WordSeries WordOrder FantasyOrder FantasyOrder2 FantasyOrder3 FantasyOrder4 FantasyGlobal FantasyGlobal2 FantasyGlobal3
  FantasyShell FantasyCyclic FantasyCircular PicardProg FloatModel FloatExact FloatTrack FloatGlobal FloatTraj FloatMain FantasyCarter FloatCarter.
Import ListNotations.
Open Scope R_scope.

(** Cartesian components of the angular momentum of momentum p at q = (t, r, theta, phi) *)
Definition Lx (q p : V4) : R := - (sin (c3 q) * c2 p) - cos (c3 q) * (cos (c2 q) / sin (c2 q)) * c3 p.
Definition Ly (q p : V4) : R := cos (c3 q) * c2 p - sin (c3 q) * (cos (c2 q) / sin (c2 q)) * c3 p.
Definition LxE : pexpr := ESub (ENeg (EMul (ESin (EVar 3)) (EVar 6))) (EMul (EMul (ECos (EVar 3)) (EDiv (ECos (EVar 2)) (ESin (EVar 2)))) (EVar 7)).
Definition LyE : pexpr := ESub (EMul (ECos (EVar 3)) (EVar 6)) (EMul (EMul (ESin (EVar 3)) (EDiv (ECos (EVar 2)) (ESin (EVar 2)))) (EVar 7)).
Lemma L_spec q p : quantity_of LxE q p = Lx q p /\ quantity_of LyE q p = Ly q p.
Proof. destruct q, p. split; reflexivity. Qed.
(** unit vector from the centre to q *)
Definition ray (q : V4) : R * R * R := (sin (c2 q) * cos (c3 q), sin (c2 q) * sin (c3 q), cos (c2 q)).
Definition planeE (l1 l2 l3 : R) : pexpr :=
  EAdd (EAdd (EMul (EMul (ESin (EVar 2)) (ECos (EVar 3))) (EConst l1)) (EMul (EMul (ESin (EVar 2)) (ESin (EVar 3))) (EConst l2))) (EMul (ECos (EVar 2)) (EConst l3)).
Lemma planeE_spec l1 l2 l3 q p : quantity_of (planeE l1 l2 l3) q p = sin (c2 q) * cos (c3 q) * l1 + sin (c2 q) * sin (c3 q) * l2 + cos (c2 q) * l3.
Proof. destruct q, p. reflexivity. Qed.
Lemma ray_perp q p : sin (c2 q) <> 0 -> let '(x, y, z) := ray q in x * Lx q p + y * Ly q p + z * c3 p = 0.
Proof.
  intros Hs. unfold ray, Lx, Ly. set (s := sin (c2 q)) in *. set (c := cos (c2 q)). assert (E := sin2_cos2 (c3 q)). unfold Rsqr in E. set (sp := sin (c3 q)) in *. set (cp := cos (c3 q)) in *. clearbody s c sp cp.
  replace (s * cp * (- (sp * c2 p) - cp * (c / s) * c3 p) + s * sp * (cp * c2 p - sp * (c / s) * c3 p) + c * c3 p) with (c * c3 p * (1 - (sp * sp + cp * cp))) by (field; exact Hs). rewrite E. ring.
Qed.
Lemma round_motion g Q q p t : hole g 0 Q -> metric_defined g (q4nth (q t)) -> independent_of g 3 -> hamilton g q p t ->
  let r := c1 (q t) in let th := c2 (q t) in sin th <> 0 /\ r <> 0 /\
  is_derive (fun u => c2 (q u)) t (c2 (p t) / (r * r)) /\ is_derive (fun u => c3 (q u)) t (c3 (p t) / (r * r * (sin th * sin th))) /\
  is_derive (fun u => c2 (p u)) t (c3 (p t) * c3 (p t) * cos th / (r * r * (sin th * sin th * sin th))) /\ is_derive (fun u => c3 (p u)) t 0.
Proof.
  intros Hh Hd I3 HH. assert (Hh' := Hh). destruct Hh' as [(W & Sy & K) Dom].
  destruct (HH 2%nat ltac:(lia)) as [Th (D & D1 & D2)]. destruct (HH 3%nat ltac:(lia)) as [Ph (D3 & D31 & D32)].
  assert (D3 = 0). { rewrite <- (is_derive_unique _ _ _ D31). apply is_derive_unique. apply (D_ext (fun _ => Ham g (q t) (p t))); [|apply D_const]. intros s. symmetry. apply Ham_indep; [exact W|lia|exact I3]. }
  subst D3. rewrite Ropp_0 in D32.
  destruct (q t) as [qt r th ph] eqn:Eq. destruct (Dom qt r th ph Hd) as (HS & HD & Hs).
  assert (ES : SigmaS r th 0 = r * r) by (unfold SigmaS; ring). assert (Hr : r <> 0) by (intros ->; apply HS; unfold SigmaS; ring).
  assert (EM : metric_meaning g (q4nth (mkQ4 qt r th ph)) = kn_con 0 Q r th) by exact (proj2 (K qt r th ph HS HD Hs)).
  rewrite EM in Th, Ph. cbn [q4nth] in Th, Ph, D1, D2, D32. set (P := p t) in *. cbn [c1 c2]. cbv zeta.
  assert (Th' : c2 (mv (kn_con 0 Q r th) P) = c2 P / (r * r)). { destruct P as [P0 P1 P2 P3]. unfold kn_con, mv, dot. cbv zeta. cbn [q4map q4nth c0 c1 c2 c3]. rewrite ES. field. exact Hr. }
  assert (Ph' : c3 (mv (kn_con 0 Q r th) P) = c3 P / (r * r * (sin th * sin th))). { destruct P as [P0 P1 P2 P3]. unfold kn_con, mv, dot. cbv zeta. cbn [q4map q4nth c0 c1 c2 c3]. rewrite ES. field. repeat split; assumption. }
  rewrite Th' in Th. rewrite Ph' in Ph.
  set (B := DeltaS r 0 Q * (c1 P * c1 P) - ((r * r + 0 * 0) * c0 P + 0 * c3 P) * ((r * r + 0 * 0) * c0 P + 0 * c3 P) / DeltaS r 0 Q + c2 P * c2 P).
  assert (HF := theta_derivative 0 r th P HS Hs B). cbv zeta in HF.
  assert (ED : D = - (c3 P * c3 P * cos th / (r * r * (sin th * sin th * sin th)))).
  { rewrite <- (is_derive_unique _ _ _ D1). apply is_derive_unique. eapply D_eq; [eapply is_derive_ext_loc; [|exact HF]|].
    - generalize (near_domain r 0 th HS Hs). apply filter_imp. intros x [X1 X2].
      assert (Hx : vupd (mkQ4 qt r th ph) 2 x = mkQ4 qt r x ph) by reflexivity. rewrite Hx. destruct (K qt r x ph X1 HD X2) as [Dx _].
      rewrite (hole_ham g 0 Q Hh (mkQ4 qt r x ph) P Dx). cbn [c1 c2]. rewrite kn_separated by assumption. unfold B. reflexivity.
    - rewrite ES. field. split; assumption. }
  rewrite ED, Ropp_involutive in D2. split; [exact Hs|]. split; [exact Hr|]. split; [exact Th|]. split; [exact Ph|]. split; [exact D2|exact D32].
Qed.
Lemma L_derivative g Q q p t : hole g 0 Q -> metric_defined g (q4nth (q t)) -> independent_of g 3 -> hamilton g q p t ->
  is_derive (fun u => Lx (q u) (p u)) t 0 /\ is_derive (fun u => Ly (q u) (p u)) t 0.
Proof.
  intros Hh Hd I3 HH. destruct (round_motion g Q q p t Hh Hd I3 HH) as (Hs & Hr & G1 & G2 & G3 & G4). unfold Lx, Ly.
  assert (S1 := D_sin (fun u => c3 (q u)) t _ G2). assert (S2 := D_cos (fun u => c3 (q u)) t _ G2). assert (S3 := D_sin (fun u => c2 (q u)) t _ G1). assert (S4 := D_cos (fun u => c2 (q u)) t _ G1). cbv beta in S1, S2, S3, S4.
  assert (S5 := D_div _ _ t _ _ Hs S4 S3). cbv beta in S5. split.
  - refine (D_eq _ _ _ _ (D_minus _ _ _ _ _ (D_opp _ _ _ (D_mult _ _ _ _ _ S1 G3)) (D_mult _ _ _ _ _ (D_mult _ _ _ _ _ S2 S5) G4)) _). cbv beta.
    assert (E := sin2_cos2 (c2 (q t))). unfold Rsqr in E. replace (- sin (c2 (q t)) * sin (c2 (q t))) with (cos (c2 (q t)) * cos (c2 (q t)) - 1) by lra.
    field_simplify_eq; [|split; assumption]. replace (cos (c2 (q t)) ^ 2) with (1 - sin (c2 (q t)) ^ 2) by (cbn [pow]; lra). ring.
  - refine (D_eq _ _ _ _ (D_minus _ _ _ _ _ (D_mult _ _ _ _ _ S2 G3) (D_mult _ _ _ _ _ (D_mult _ _ _ _ _ S1 S5) G4)) _). cbv beta.
    field_simplify_eq; [|split; assumption]. assert (E := sin2_cos2 (c2 (q t))). unfold Rsqr in E. replace (cos (c2 (q t)) ^ 2) with (1 - sin (c2 (q t)) ^ 2) by (cbn [pow]; lra). ring.
Qed.
Lemma const_of_derivative (f : R -> R) T : (forall u, 0 <= u <= T -> is_derive f u 0) -> forall t, 0 <= t <= T -> f t = f 0.
Proof.
  intros D t Ht. destruct (MVT_gen f 0 t (fun _ => 0)) as (c & Hc & E).
  - intros u Hu. rewrite Rmin_left, Rmax_right in Hu by lra. apply D. lra.
  - intros u Hu. rewrite Rmin_left, Rmax_right in Hu by lra. assert (Hu' : 0 <= u <= T) by lra. apply continuity_pt_filterlim. exact (D_continuous _ _ _ (D u Hu')).
  - cbv beta in E. lra.
Qed.
Theorem L_exact s prms g q p T : named_hole s prms g 0 -> geodesic_on g q p T -> forall t, 0 <= t <= T ->
  Lx (q t) (p t) = Lx (q 0) (p 0) /\ Ly (q t) (p t) = Ly (q 0) (p 0) /\ c3 (p t) = c3 (p 0).
Proof.
  intros HN Hg t Ht. destruct (named_hole_spec _ _ _ _ HN) as (_ & Q & Hh & I0 & I3).
  assert (D : forall u, 0 <= u <= T -> is_derive (fun u => Lx (q u) (p u)) u 0 /\ is_derive (fun u => Ly (q u) (p u)) u 0).
  { intros u Hu. destruct (Hg u Hu) as [A B]. apply (L_derivative g Q); [exact Hh|exact A|exact I3|exact (locally_singleton _ _ B)]. }
  split; [apply (const_of_derivative (fun u => Lx (q u) (p u)) T); [intros u Hu; apply D; exact Hu|exact Ht]|].
  split; [apply (const_of_derivative (fun u => Ly (q u) (p u)) T); [intros u Hu; apply D; exact Hu|exact Ht]|].
  assert (W : well_formed g) by apply Hh. exact (cyclic_constant g q p T 3 W (le_n _) I3 Hg t Ht).
Qed.
Lemma trig_le x : Rabs (sin x) <= 1 /\ Rabs (cos x) <= 1.
Proof. split; apply Rabs_le; [apply SIN_bound|apply COS_bound]. Qed.
(** rows computed without spin: angular momentum vector and orbital plane *)
Theorem plane_of_motion s prms g cov out x1 x2 x3 u1 u2 u3 tl order w n : named_hole s prms g 0 -> book s prms cov out -> out x1 x2 -> tl = true \/ u1 <> 0 \/ u2 <> 0 \/ u3 <> 0 ->
  In order [2; 4; 6; 8]%nat -> n = 2%nat \/ (order = 4 /\ n = 4)%nat ->
  exists T K r, 0 < T /\ 0 <= K /\ 0 < r /\
    forall u A, 0 <= u -> accurate u A -> forall h N, 0 < h <= r -> u / h <= r -> (0 < N)%nat -> INR N * h <= T ->
    exists P' rows, geodesicA A (MName s) prms (x1, x2, x3) (u1, u2, u3) tl false N h order w = Ok (P', rows) /\ length rows = N /\
    forall q p, In (q, p) rows -> let B := K * (h ^ n + u / h) in let l1 := Lx (mkQ4 0 x1 x2 x3) (mkQ4 0 u1 u2 u3) in let l2 := Ly (mkQ4 0 x1 x2 x3) (mkQ4 0 u1 u2 u3) in
      Rabs (Lx q p - l1) <= B /\ Rabs (Ly q p - l2) <= B /\ Rabs (c3 p - u3) <= B /\
      let '(x, y, z) := ray q in Rabs (x * l1 + y * l2 + z * u3) <= B.
Proof.
  intros HN HB Ho Hm Hor Hn. destruct (named_motion s prms g 0 cov out x1 x2 x3 u1 u2 u3 tl order w n HN HB Ho Hm Hor Hn) as (Q & guu & E & T & q & p & K & r & Hh & I0 & I3 & Hinv & Hshell & HT & HK & Hr0 & Hg & Q0 & P0 & HamP & DT & H).
  assert (n0 : (0 < n)%nat) by (destruct Hn as [-> |[_ ->]]; lia). assert (W : well_formed g) by apply Hh.
  assert (C := L_exact s prms g q p T HN Hg).
  assert (DD : forall t, 0 <= t <= T -> defined_at (pt8 (q t) (p t)) LxE /\ defined_at (pt8 (q t) (p t)) LyE).
  { intros t Ht. assert (X := DT t Ht). unfold LxE, LyE. cbn [defined_at meaning]. destruct (q t) as [y0 y1 y2 y3]. cbn [pt8 Nat.ltb Nat.leb q4nth c2] in *. tauto. }
  destruct (kept_rows (EVar 7) g q p T n K eq_refl HT Hg (fun _ _ => I) (fun t Ht => cyclic_constant g q p T 3 W (le_n _) I3 Hg t Ht) n0 HK) as (K1 & r1 & HK1 & Pr1 & H1).
  destruct (kept_rows LxE g q p T n K eq_refl HT Hg (fun t Ht => proj1 (DD t Ht))) as (K2 & r2 & HK2 & Pr2 & H2); [intros t Ht; rewrite (proj1 (L_spec (q t) (p t))), (proj1 (L_spec (q 0) (p 0))); apply C; exact Ht|exact n0|exact HK|].
  destruct (kept_rows LyE g q p T n K eq_refl HT Hg (fun t Ht => proj2 (DD t Ht))) as (K3 & r3 & HK3 & Pr3 & H3); [intros t Ht; rewrite (proj2 (L_spec (q t) (p t))), (proj2 (L_spec (q 0) (p 0))); apply C; exact Ht|exact n0|exact HK|].
  set (l1 := Lx (mkQ4 0 x1 x2 x3) (mkQ4 0 u1 u2 u3)). set (l2 := Ly (mkQ4 0 x1 x2 x3) (mkQ4 0 u1 u2 u3)).
  assert (E1 : Lx (q 0) (p 0) = l1) by (rewrite Q0, P0; reflexivity). assert (E2 : Ly (q 0) (p 0) = l2) by (rewrite Q0, P0; reflexivity). assert (E3 : c3 (p 0) = u3) by (rewrite P0; reflexivity).
  assert (CP : forall t, 0 <= t <= T -> quantity_of (planeE l1 l2 u3) (q t) (p t) = 0).
  { intros t Ht. rewrite planeE_spec. destruct (C t Ht) as (C1 & C2 & C3). rewrite E1 in C1. rewrite E2 in C2. rewrite E3 in C3. assert (X := ray_perp (q t) (p t) (DT t Ht)). unfold ray in *. rewrite C1, C2, C3 in X. exact X. }
  assert (T0 : 0 <= 0 <= T) by lra.
  destruct (kept_rows (planeE l1 l2 u3) g q p T n K eq_refl HT Hg) as (K4 & r4 & HK4 & Pr4 & H4); [intros t Ht; cbn; tauto|intros t Ht; rewrite !CP by assumption; reflexivity|exact n0|exact HK|].
  set (KK := Rmax (Rmax K1 K2) (Rmax K3 K4)). set (rr := Rmin r (Rmin (Rmin r1 r2) (Rmin r3 r4))).
  assert (A1 : K1 <= KK) by (unfold KK; eapply Rle_trans; [apply Rmax_l|apply Rmax_l]). assert (A2 : K2 <= KK) by (unfold KK; eapply Rle_trans; [apply Rmax_r|apply Rmax_l]).
  assert (A3 : K3 <= KK) by (unfold KK; eapply Rle_trans; [apply Rmax_l|apply Rmax_r]). assert (A4 : K4 <= KK) by (unfold KK; eapply Rle_trans; [apply Rmax_r|apply Rmax_r]).
  assert (B0 : rr <= r) by apply Rmin_l.
  assert (B1 : rr <= r1) by (unfold rr; eapply Rle_trans; [apply Rmin_r|]; eapply Rle_trans; [apply Rmin_l|apply Rmin_l]). assert (B2 : rr <= r2) by (unfold rr; eapply Rle_trans; [apply Rmin_r|]; eapply Rle_trans; [apply Rmin_l|apply Rmin_r]).
  assert (B3 : rr <= r3) by (unfold rr; eapply Rle_trans; [apply Rmin_r|]; eapply Rle_trans; [apply Rmin_r|apply Rmin_l]). assert (B4 : rr <= r4) by (unfold rr; eapply Rle_trans; [apply Rmin_r|]; eapply Rle_trans; [apply Rmin_r|apply Rmin_r]).
  assert (Prr : 0 < rr) by (unfold rr; repeat apply Rmin_pos; assumption). clearbody KK rr.
  exists T, KK, rr. split; [exact HT|]. split; [lra|]. split; [exact Prr|].
  intros u A Hu HA h N Hh1 Huh HNp HNT. destruct (H u A Hu HA h N ltac:(lra) ltac:(lra) HNp HNT) as (P' & rows & EG & _ & Ll & Hrows). exists P', rows. split; [exact EG|]. split; [exact Ll|].
  intros q' p' Hin. cbv zeta.
  assert (PB : 0 <= h ^ n + u / h). { apply Rplus_le_le_0_compat; [apply pow_le; lra|]. apply Rmult_le_pos; [exact Hu|apply Rlt_le, Rinv_0_lt_compat; lra]. }
  assert (MB : forall k, k <= KK -> k * (h ^ n + u / h) <= KK * (h ^ n + u / h)) by (intros k Hk; apply Rmult_le_compat_r; assumption).
  assert (Z1 := H1 u h N rows Hu ltac:(lra) ltac:(lra) HNp HNT Ll Hrows (q', p') Hin). assert (Z2 := H2 u h N rows Hu ltac:(lra) ltac:(lra) HNp HNT Ll Hrows (q', p') Hin).
  assert (Z3 := H3 u h N rows Hu ltac:(lra) ltac:(lra) HNp HNT Ll Hrows (q', p') Hin). assert (Z4 := H4 u h N rows Hu ltac:(lra) ltac:(lra) HNp HNT Ll Hrows (q', p') Hin).
  cbn [fst snd] in Z1, Z2, Z3, Z4. rewrite (CP 0 T0), Rminus_0_r, planeE_spec in Z4. rewrite (proj1 (L_spec q' p')), (proj1 (L_spec (q 0) (p 0))), E1 in Z2. rewrite (proj2 (L_spec q' p')), (proj2 (L_spec (q 0) (p 0))), E2 in Z3. unfold quantity_of in Z1. cbn [meaning] in Z1.
  change (pt8 q' p' 7) with (c3 p') in Z1. change (pt8 (q 0) (p 0) 7) with (c3 (p 0)) in Z1. rewrite E3 in Z1.
  assert (Y1 := MB _ A1). assert (Y2 := MB _ A2). assert (Y3 := MB _ A3). assert (Y4 := MB _ A4). fold l1 l2. unfold ray.
  split; [lra|]. split; [lra|]. split; lra.
Qed.
