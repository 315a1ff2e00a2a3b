(** C127: Geodesic(..) over any parameter interval. *)
From Coq Require Import String Reals List ZArith Lra Lia Bool.
From Coquelicot Require Import Coquelicot.
From Verif Require Import Base Calc DualModel DualSpec DualProofs DualDiff GeoUtilsModel GeoUtilsSpec GeoUtilsProofs GeodesicModel GeodesicProofs FantasyModel FantasyProofs FantasyProofs2 FantasyProofs3 FantasyOrder FantasyGlobal FantasyGlobal2 FantasyGlobal3
  FantasyShell FantasyCyclic FantasyCircular PicardProg FloatModel FloatExact FloatTrack FloatGlobal FloatTraj FloatMain FantasyCarter FloatCarter.
From Verif Require Import Contin GlobalHole GlobalHole2 GlobalMotion.
Import ListNotations.
Open Scope R_scope.

(** The barrier for a body released at (r, theta) with p_t = - E and spatial momentum (u1, u2, u3): mass 1 (tl) or 0. *)
Definition barrier (a Q r1 r th E u1 u2 u3 : R) (tl : bool) : Prop :=
  let m2 := if tl then 1 else 0 in
  let K := u2 * u2 + (u3 / sin th - a * sin th * E) * (u3 / sin th - a * sin th * E) + a * a * (cos th * cos th) * m2 in
  let D := r1 * r1 - 2 * r1 + a * a + Q * Q in
  let P := (r1 * r1 + a * a) * E - a * u3 in
  1 <= r1 < r /\ 0 < D /\ 0 < th < PI /\ u3 <> 0 /\ P * P < D * (K + m2 * (r1 * r1)).

Theorem geodesic_global s prms g a Q cov out x1 x2 x3 u1 u2 u3 tl order w n r1 : named_bh s prms g a Q -> book s prms cov out -> out x1 x2 ->
  In order [2; 4; 6; 8]%nat -> n = 2%nat \/ (order = 4 /\ n = 4)%nat ->
  (forall guu E, inverse_of guu (cov x1 x2) -> on_shell_future guu (mkQ4 (- E) u1 u2 u3) u1 u2 u3 tl -> barrier a Q r1 x1 x2 E u1 u2 u3 tl) ->
  exists guu E, inverse_of guu (cov x1 x2) /\ on_shell_future guu (mkQ4 (- E) u1 u2 u3) u1 u2 u3 tl /\
  forall T, 0 < T -> exists q p K r, 0 <= K /\ 0 < r /\
    geodesic_on g q p T /\ q 0 = mkQ4 0 x1 x2 x3 /\ p 0 = mkQ4 (- E) u1 u2 u3 /\ (forall t, 0 <= t <= T -> r1 < c1 (q t)) /\
    forall u A, 0 <= u -> accurate u A -> forall h N, 0 < h <= r -> u / h <= r -> (0 < N)%nat -> INR N * h <= T ->
    exists P' rows, geodesicA A (MName s) prms (x1, x2, x3) (u1, u2, u3) tl false N h order w = Ok (P', rows) /\ vclose (K * u) P' (p 0) /\ length rows = N /\
    forall k row, nth_error rows k = Some row ->
      vclose (K * (h ^ n + u / h)) (fst row) (q (INR (S k) * h)) /\ vclose (K * (h ^ n + u / h)) (snd row) (p (INR (S k) * h)) /\ r1 - K * (h ^ n + u / h) < c1 (fst row).
Proof.
  intros HN HB Ho Hor Hn Hbar. destruct (book_kn_metric _ _ _ _ _ _ HB Ho) as (call & g' & a' & Q' & E1 & E2 & E3 & (W & Sy & Hkn) & Rg & Hr & HQ & HD & Hs & Hinv).
  destruct (named_bh_spec _ _ _ _ _ HN) as ((call' & C1 & C2 & _) & Hh & I0 & I3). rewrite E1 in C1. apply Ok_inj in C1. subst call'. rewrite E2 in C2. apply Ok_inj in C2. subst g'.
  assert (HS := sigma_pos x1 x2 a' Hr). destruct (Hkn 0 x1 x2 x3 HS (Rgt_not_eq _ _ HD) Hs) as [Hdef Hmean].
  assert (Hat : metric_at g (mk4 0 x1 x2 x3) = Ok (kn_con a' Q' x1 x2)) by (rewrite metric_at_Ok by exact Hdef; rewrite Hmean; reflexivity).
  destruct (P4_kn_con g a' Q' _ x1 x2 u1 u2 u3 tl Hat Hr HQ HD Hs) as (P & HP & Hshell). change (mk4 0 x1 x2 x3) with (mkQ4 0 x1 x2 x3) in *.
  assert (EP : P = mkQ4 (- (- c0 P)) u1 u2 u3). { destruct Hshell as (_ & X1 & X2 & X3 & _). destruct P as [w0 w1 w2 w3]. cbn [c0 c1 c2 c3] in *. rewrite X1, X2, X3, Ropp_involutive. reflexivity. }
  set (E := - c0 P) in *. exists (kn_con a' Q' x1 x2), E. rewrite <- EP. split; [exact Hinv|]. split; [exact Hshell|]. intros T HT.
  assert (HBr := Hbar _ E Hinv ltac:(rewrite <- EP; exact Hshell)). destruct HBr as (B1 & B2 & B3 & B4 & B5).
  assert (Hdisc : 0 < discriminant g (mkQ4 0 x1 x2 x3) u1 u2 u3 tl).
  { unfold discriminant. rewrite Hmean. assert (X := kn_discr_strict a' Q' x1 x2 u1 u2 u3 tl Hr HQ HD Hs (or_intror (or_intror (or_intror B4)))). unfold discr in X. cbv zeta.
    replace ((2 * mnth (kn_con a' Q' x1 x2) 0 3 * u3) ^ 2) with ((2 * mnth (kn_con a' Q' x1 x2) 0 3 * u3) * (2 * mnth (kn_con a' Q' x1 x2) 0 3 * u3)) by (cbn [pow]; ring).
    replace (mnth (kn_con a' Q' x1 x2) 1 1 * u1 ^ 2) with (mnth (kn_con a' Q' x1 x2) 1 1 * u1 * u1) by (cbn [pow]; ring).
    replace (mnth (kn_con a' Q' x1 x2) 2 2 * u2 ^ 2) with (mnth (kn_con a' Q' x1 x2) 2 2 * u2 * u2) by (cbn [pow]; ring).
    replace (mnth (kn_con a' Q' x1 x2) 3 3 * u3 ^ 2) with (mnth (kn_con a' Q' x1 x2) 3 3 * u3 * u3) by (cbn [pow]; ring). exact X. }
  assert (HamP : 2 * Ham g (mkQ4 0 x1 x2 x3) P = - b2R tl). { unfold Ham. rewrite Hmean. destruct Hshell as (X & _). lra. }
  assert (BR : barred g a Q r1 (mkQ4 0 x1 x2 x3) P).
  { unfold barred. rewrite HamP. rewrite EP. cbn [c0 c1 c2 c3]. split; [exact B1|]. split; [exact B2|]. split; [exact B3|]. split; [exact B4|].
    unfold radial, carter, DeltaS. cbn [c0 c1 c2 c3]. assert (Bm : b2R tl = if tl then 1 else 0) by (destruct tl; reflexivity). rewrite Bm. clear - B5. revert B5. generalize (if tl then 1 else 0) (u3 / sin x2) (sin x2) (cos x2). intros m z s c B5.
    match goal with |- ?l < 0 => match type of B5 with ?x < ?y => replace l with (x - y) by ring end end. lra. }
  destruct (named_global _ _ _ _ _ _ _ _ HN BR T ltac:(lra)) as (q & p & Q0 & P0 & Hg & HR).
  assert (Hf : exists f, integrator_of order (metricfun_of g) w = Ok f) by (destruct Hor as [<- |[<- |[<- |[<- |[]]]]]; eexists; reflexivity). destruct Hf as [f Hf].
  destruct (geodesic_rounded (MName s) prms x1 x2 x3 u1 u2 u3 tl order w f n call g g P q p T E1 E2 E3 W Rg W Sy HP Hdisc Hf Hn HT Hg Q0 P0) as (K & r & HK & Hr0 & H).
  exists q, p, K, r. split; [exact HK|]. split; [exact Hr0|]. split; [exact Hg|]. split; [exact Q0|]. split; [exact P0|]. split; [intros t Ht; apply (HR t Ht)|].
  intros u A Hu HA h N Hh1 Huh HNp HNT. destruct (H u A Hu HA h N Hh1 Huh HNp HNT) as (P' & rows & EG & HV & Ll & Hrows). exists P', rows. split; [exact EG|]. rewrite P0. split; [exact HV|]. split; [exact Ll|].
  intros k row Hk. destruct (Hrows k row Hk) as [V1 V2]. split; [exact V1|]. split; [exact V2|].
  assert (kN : (k < N)%nat) by (rewrite <- Ll; apply nth_error_Some; rewrite Hk; discriminate).
  assert (Ht := step_time T N h k ltac:(lra) HNp HNT kN). assert (R := proj1 (HR _ Ht)). assert (V := V1 1%nat ltac:(lia)). cbn [q4nth] in V. apply Rabs_le_between in V. lra.
Qed.
