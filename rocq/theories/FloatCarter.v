(** Energy, axial angular momentum, mass and Carter's constant along the rows Geodesic computes in floating point for the built-in black holes. *)
From Coq Require Import String Reals List ZArith Lra Lia Bool.
From Coquelicot Require Import Coquelicot.
From Verif Require Import Base Calc DualModel DualSpec DualProofs DualDiff GeoUtilsModel GeoUtilsSpec GeoUtilsProofs GeodesicModel GeodesicProofs
  FantasyModel FantasyProofs FantasyProofs2 FantasyProofs3 FantasyHam FantasySymp ProgCont WordSeries WordOrder FantasyOrder FantasyOrder2 FantasyOrder3 FantasyOrder4 FantasyGlobal FantasyGlobal2 FantasyGlobal3
  FantasyShell FantasyCyclic FantasyCircular PicardProg FloatModel FloatExact FloatTrack FloatGlobal FloatTraj FloatMain FantasyCarter.
Import ListNotations.
Open Scope R_scope.

Lemma kept_rows e g q p T n K : below 8 e = true -> 0 < T -> geodesic_on g q p T -> (forall t, 0 <= t <= T -> defined_at (pt8 (q t) (p t)) e) -> conserved e q p T -> (0 < n)%nat -> 0 <= K ->
  exists K' r, 0 <= K' /\ 0 < r /\ forall u h N (rows : list (V4 * V4)), 0 <= u -> 0 < h <= r -> u / h <= r -> (0 < N)%nat -> INR N * h <= T -> length rows = N ->
  (forall k row, nth_error rows k = Some row -> vclose (K * (h ^ n + u / h)) (fst row) (q (INR (S k) * h)) /\ vclose (K * (h ^ n + u / h)) (snd row) (p (INR (S k) * h))) ->
  forall row, In row rows -> Rabs (quantity_of e (fst row) (snd row) - quantity_of e (q 0) (p 0)) <= K' * (h ^ n + u / h).
Proof.
  intros Hb HT Hg Hdef Hc n0 HK. destruct (q_compact e g q p T Hb HT Hg Hdef) as (rho & L & Hr & HL & HS).
  set (d := rho / (4 * (K + 1))). assert (Pd : 0 < d) by (apply Rdiv_lt_0_compat; lra).
  exists (L * K), (Rmin 1 d). split; [apply Rmult_le_pos; assumption|]. split; [apply Rmin_pos; lra|]. intros u h N rows Hu Hh Huh HN HNT Hlen Hrow row Hin.
  assert (M3 := Rmin_l 1 d). assert (M4 := Rmin_r 1 d).
  apply In_nth_error in Hin as (k & Hk). assert (kN : (k < N)%nat) by (rewrite <- Hlen; apply nth_error_Some; rewrite Hk; discriminate).
  assert (Ht := step_time T N h k ltac:(lra) HN HNT kN). destruct (Hrow k row Hk) as [B1 B2]. set (t := INR (S k) * h) in *. rewrite <- (Hc t Ht). rewrite Rmult_assoc. apply (HS t Ht).
  - assert (Hp : h ^ n <= d). { destruct n as [|m]; [lia|]. cbn [pow]. assert (Q : h ^ m <= 1) by (rewrite <- (pow1 m); apply pow_incr; lra). assert (Q0 : 0 <= h ^ m) by (apply pow_le; lra). nra. }
    apply Rle_lt_trans with (K * (2 * d)); [apply Rmult_le_compat_l; lra|]. unfold d. apply Rmult_lt_reg_r with (4 * (K + 1)); [lra|].
    replace (K * (2 * (rho / (4 * (K + 1)))) * (4 * (K + 1))) with (2 * K * rho) by (field; lra). nra.
  - intros i Hi. split; [apply B1; exact Hi|apply B2; exact Hi].
Qed.
(** Carter's quantity of a particle of mass 1 (m = -1) or 0 (m = 0) *)
Definition carterM (a m : R) : pexpr :=
  let th := EVar 2 in let x := EAdd (EMul (EMul (EConst a) (ESin th)) (EVar 4)) (EDiv (EVar 7) (ESin th)) in
  ESub (EAdd (EMul (EVar 6) (EVar 6)) (EMul x x)) (EMul (EMul (EConst (a * a)) (EMul (ECos th) (ECos th))) (EConst m)).
Lemma carterM_spec a m q p : quantity_of (carterM a m) q p = carter a q p m.
Proof. destruct q as [q0 q1 q2 q3], p as [p0 p1 p2 p3]. reflexivity. Qed.
(** the motion of a named black hole and the rows computed for it *)
Lemma named_motion s prms g a cov out x1 x2 x3 u1 u2 u3 tl order w n : named_hole s prms g a -> book s prms cov out -> out x1 x2 -> tl = true \/ u1 <> 0 \/ u2 <> 0 \/ u3 <> 0 ->
  In order [2; 4; 6; 8]%nat -> n = 2%nat \/ (order = 4 /\ n = 4)%nat ->
  exists Q guu E T q p K r, hole g a Q /\ independent_of g 0 /\ independent_of g 3 /\ inverse_of guu (cov x1 x2) /\ on_shell_future guu (mkQ4 (- E) u1 u2 u3) u1 u2 u3 tl /\ 0 < T /\ 0 <= K /\ 0 < r /\
    geodesic_on g q p T /\ q 0 = mkQ4 0 x1 x2 x3 /\ p 0 = mkQ4 (- E) u1 u2 u3 /\ 2 * Ham g (q 0) (p 0) = - b2R tl /\ (forall t, 0 <= t <= T -> sin (c2 (q t)) <> 0) /\
    forall u A, 0 <= u -> accurate u A -> forall h N, 0 < h <= r -> u / h <= r -> (0 < N)%nat -> INR N * h <= T ->
    exists P' rows, geodesicA A (MName s) prms (x1, x2, x3) (u1, u2, u3) tl false N h order w = Ok (P', rows) /\ vclose (K * u) P' (p 0) /\ length rows = N /\
    forall k row, nth_error rows k = Some row ->
      vclose (K * (h ^ n + u / h)) (fst row) (q (INR (S k) * h)) /\ vclose (K * (h ^ n + u / h)) (snd row) (p (INR (S k) * h)).
Proof.
  intros HN HB Ho Hm Hor Hn. destruct (book_kn_metric _ _ _ _ _ _ HB Ho) as (call & g' & a' & Q' & E1 & E2 & E3 & (W & Sy & Hkn) & Rg & Hr & HQ & HD & Hs & Hinv).
  destruct (named_hole_spec _ _ _ _ HN) as ((call' & C1 & C2 & _) & Q & Hh & I0 & I3). rewrite E1 in C1. apply Ok_inj in C1. subst call'. rewrite E2 in C2. apply Ok_inj in C2. subst g'.
  assert (HS := sigma_pos x1 x2 a' Hr). destruct (Hkn 0 x1 x2 x3 HS (Rgt_not_eq _ _ HD) Hs) as [Hdef Hmean].
  assert (Hat : metric_at g (mk4 0 x1 x2 x3) = Ok (kn_con a' Q' x1 x2)) by (rewrite metric_at_Ok by exact Hdef; rewrite Hmean; reflexivity).
  destruct (P4_kn_con g a' Q' _ x1 x2 u1 u2 u3 tl Hat Hr HQ HD Hs) as (P & HP & Hshell). change (mk4 0 x1 x2 x3) with (mkQ4 0 x1 x2 x3) in *.
  assert (Hdisc : 0 < discriminant g (mkQ4 0 x1 x2 x3) u1 u2 u3 tl).
  { unfold discriminant. rewrite Hmean. assert (X := kn_discr_strict a' Q' x1 x2 u1 u2 u3 tl Hr HQ HD Hs Hm). unfold discr in X. cbv zeta.
    replace ((2 * mnth (kn_con a' Q' x1 x2) 0 3 * u3) ^ 2) with ((2 * mnth (kn_con a' Q' x1 x2) 0 3 * u3) * (2 * mnth (kn_con a' Q' x1 x2) 0 3 * u3)) by (cbn [pow]; ring).
    replace (mnth (kn_con a' Q' x1 x2) 1 1 * u1 ^ 2) with (mnth (kn_con a' Q' x1 x2) 1 1 * u1 * u1) by (cbn [pow]; ring).
    replace (mnth (kn_con a' Q' x1 x2) 2 2 * u2 ^ 2) with (mnth (kn_con a' Q' x1 x2) 2 2 * u2 * u2) by (cbn [pow]; ring).
    replace (mnth (kn_con a' Q' x1 x2) 3 3 * u3 ^ 2) with (mnth (kn_con a' Q' x1 x2) 3 3 * u3 * u3) by (cbn [pow]; ring). exact X. }
  destruct (geodesic_solved g (mkQ4 0 x1 x2 x3) P W Sy Hdef) as (T & q & p & HT & Q0 & P0 & Hg & _ & _).
  assert (Hf : exists f, integrator_of order (metricfun_of g) w = Ok f) by (destruct Hor as [<- |[<- |[<- |[<- |[]]]]]; eexists; reflexivity). destruct Hf as [f Hf].
  destruct (geodesic_rounded (MName s) prms x1 x2 x3 u1 u2 u3 tl order w f n call g g P q p T E1 E2 E3 W Rg W Sy HP Hdisc Hf Hn HT Hg Q0 P0) as (K & r & HK & Hr0 & H).
  assert (HamP : 2 * Ham g (q 0) (p 0) = - b2R tl). { rewrite Q0, P0. unfold Ham. rewrite Hmean. destruct Hshell as (X & _). lra. }
  assert (EP : P = mkQ4 (- (- c0 P)) u1 u2 u3). { destruct Hshell as (_ & X1 & X2 & X3 & _). destruct P as [w0 w1 w2 w3]. cbn [c0 c1 c2 c3] in *. rewrite X1, X2, X3, Ropp_involutive. reflexivity. }
  exists Q, (kn_con a' Q' x1 x2), (- c0 P), T, q, p, K, r. rewrite <- EP, P0. repeat (split; [assumption|]). split; [reflexivity|]. rewrite P0 in HamP. split; [exact HamP|]. split; [|exact H].
  intros t Ht. destruct (Hg t Ht) as [D _]. destruct (q t) as [y0 y1 y2 y3]. destruct (proj2 Hh y0 y1 y2 y3 D) as (_ & _ & X). exact X.
Qed.
(** the four constants of motion of a named black hole *)
Theorem constants_of_motion s prms g a cov out x1 x2 x3 u1 u2 u3 tl order w n : named_hole s prms g a -> book s prms cov out -> out x1 x2 -> tl = true \/ u1 <> 0 \/ u2 <> 0 \/ u3 <> 0 ->
  In order [2; 4; 6; 8]%nat -> n = 2%nat \/ (order = 4 /\ n = 4)%nat ->
  exists guu E T K r, inverse_of guu (cov x1 x2) /\ on_shell_future guu (mkQ4 (- E) u1 u2 u3) u1 u2 u3 tl /\ 0 < T /\ 0 <= K /\ 0 < r /\
    forall u A, 0 <= u -> accurate u A -> forall h N, 0 < h <= r -> u / h <= r -> (0 < N)%nat -> INR N * h <= T ->
    exists P' rows, geodesicA A (MName s) prms (x1, x2, x3) (u1, u2, u3) tl false N h order w = Ok (P', rows) /\ length rows = N /\
    forall q p, In (q, p) rows -> let B := K * (h ^ n + u / h) in
      Rabs (c0 p + E) <= B /\ Rabs (c3 p - u3) <= B /\ Rabs (2 * Ham g q p + b2R tl) <= B /\
      Rabs (carter a q p (- b2R tl) - carter a (mkQ4 0 x1 x2 x3) (mkQ4 (- E) u1 u2 u3) (- b2R tl)) <= B.
Proof.
  intros HN HB Ho Hm Hor Hn. destruct (named_motion s prms g a cov out x1 x2 x3 u1 u2 u3 tl order w n HN HB Ho Hm Hor Hn) as (Q & guu & E & T & q & p & K & r & Hh & I0 & I3 & Hinv & Hshell & HT & HK & Hr0 & Hg & Q0 & P0 & HamP & DT & H).
  assert (n0 : (0 < n)%nat) by (destruct Hn as [-> |[_ ->]]; lia). assert (W : well_formed g) by apply Hh. assert (Sy : symmetric_program g) by apply Hh. assert (V3 : u3 = u3) by reflexivity.
  assert (CC : conserved (carterM a (- b2R tl)) q p T).
  { intros t Ht. rewrite !carterM_spec. assert (X := carter_exact s prms g a q p T HN Hg t Ht). rewrite (shell_constant g q p T W Sy Hg t Ht), HamP in X. exact X. }
  destruct (kept_rows (EVar 4) g q p T n K eq_refl HT Hg (fun _ _ => I) (fun t Ht => cyclic_constant g q p T 0 W (Nat.lt_0_succ _) I0 Hg t Ht) n0 HK) as (K1 & r1 & HK1 & Pr1 & H1).
  destruct (kept_rows (EVar 7) g q p T n K eq_refl HT Hg (fun _ _ => I) (fun t Ht => cyclic_constant g q p T 3 W (le_n _) I3 Hg t Ht) n0 HK) as (K2 & r2 & HK2 & Pr2 & H2).
  destruct (kept_rows (EMul (EConst 2) (shellE g)) g q p T n K) as (K3 & r3 & HK3 & Pr3 & H3);
    [cbn [below]; rewrite (shell8 g W); reflexivity|exact HT|exact Hg|intros t Ht; split; [exact I|apply (shell_defined g _ _ W), Hg, Ht]| |exact n0|exact HK|].
  { intros t Ht. unfold quantity_of. cbn [meaning]. rewrite <- !(Ham_shell g _ _ W). rewrite (shell_constant g q p T W Sy Hg t Ht). reflexivity. }
  destruct (kept_rows (carterM a (- b2R tl)) g q p T n K) as (K4 & r4 & HK4 & Pr4 & H4); [reflexivity|exact HT|exact Hg| |exact CC|exact n0|exact HK|].
  { intros t Ht. assert (X := DT t Ht). unfold carterM. cbv zeta. cbn [defined_at meaning]. destruct (q t) as [y0 y1 y2 y3]. cbn [pt8 Nat.ltb Nat.leb q4nth c2] in *. tauto. }
  set (KK := Rmax (Rmax K1 K2) (Rmax K3 K4)). set (rr := Rmin r (Rmin (Rmin r1 r2) (Rmin r3 r4))).
  assert (A1 : K1 <= KK) by (unfold KK; eapply Rle_trans; [apply Rmax_l|apply Rmax_l]). assert (A2 : K2 <= KK) by (unfold KK; eapply Rle_trans; [apply Rmax_r|apply Rmax_l]).
  assert (A3 : K3 <= KK) by (unfold KK; eapply Rle_trans; [apply Rmax_l|apply Rmax_r]). assert (A4 : K4 <= KK) by (unfold KK; eapply Rle_trans; [apply Rmax_r|apply Rmax_r]).
  assert (B0 : rr <= r) by apply Rmin_l.
  assert (B1 : rr <= r1) by (unfold rr; eapply Rle_trans; [apply Rmin_r|]; eapply Rle_trans; [apply Rmin_l|apply Rmin_l]). assert (B2 : rr <= r2) by (unfold rr; eapply Rle_trans; [apply Rmin_r|]; eapply Rle_trans; [apply Rmin_l|apply Rmin_r]).
  assert (B3 : rr <= r3) by (unfold rr; eapply Rle_trans; [apply Rmin_r|]; eapply Rle_trans; [apply Rmin_r|apply Rmin_l]). assert (B4 : rr <= r4) by (unfold rr; eapply Rle_trans; [apply Rmin_r|]; eapply Rle_trans; [apply Rmin_r|apply Rmin_r]).
  assert (Prr : 0 < rr) by (unfold rr; repeat apply Rmin_pos; assumption). clearbody KK rr.
  exists guu, E, T, KK, rr. split; [exact Hinv|]. split; [exact Hshell|]. split; [exact HT|]. split; [lra|]. split; [exact Prr|].
  intros u A Hu HA h N Hh1 Huh HNp HNT. destruct (H u A Hu HA h N ltac:(lra) ltac:(lra) HNp HNT) as (P' & rows & EG & _ & Ll & Hrows). exists P', rows. split; [exact EG|]. split; [exact Ll|].
  intros q' p' Hin. cbv zeta.
  assert (PB : 0 <= h ^ n + u / h). { apply Rplus_le_le_0_compat; [apply pow_le; lra|]. apply Rmult_le_pos; [exact Hu|apply Rlt_le, Rinv_0_lt_compat; lra]. }
  assert (MB : forall k, k <= KK -> k * (h ^ n + u / h) <= KK * (h ^ n + u / h)) by (intros k Hk; apply Rmult_le_compat_r; assumption).
  assert (Z1 := H1 u h N rows Hu ltac:(lra) ltac:(lra) HNp HNT Ll Hrows (q', p') Hin). assert (Z2 := H2 u h N rows Hu ltac:(lra) ltac:(lra) HNp HNT Ll Hrows (q', p') Hin).
  assert (Z3 := H3 u h N rows Hu ltac:(lra) ltac:(lra) HNp HNT Ll Hrows (q', p') Hin). assert (Z4 := H4 u h N rows Hu ltac:(lra) ltac:(lra) HNp HNT Ll Hrows (q', p') Hin).
  cbn [fst snd] in Z1, Z2, Z3, Z4. rewrite !carterM_spec in Z4. unfold quantity_of in Z1, Z2, Z3. cbn [meaning] in Z1, Z2, Z3. rewrite <- !(Ham_shell g _ _ W) in Z3. rewrite HamP in Z3. rewrite Q0, P0 in Z1, Z2, Z4.
  change (pt8 q' p' 4) with (c0 p') in Z1. change (pt8 q' p' 7) with (c3 p') in Z2. change (pt8 (mkQ4 0 x1 x2 x3) (mkQ4 (- E) u1 u2 u3) 4) with (- E) in Z1. change (pt8 (mkQ4 0 x1 x2 x3) (mkQ4 (- E) u1 u2 u3) 7) with u3 in Z2.
  assert (Y1 := MB _ A1). assert (Y2 := MB _ A2). assert (Y3 := MB _ A3). assert (Y4 := MB _ A4).
  split; [replace (c0 p' + E) with (c0 p' - - E) by ring; lra|]. split; [lra|]. split; [replace (2 * Ham g q' p' + b2R tl) with (2 * Ham g q' p' - - b2R tl) by ring; lra|lra].
Qed.
