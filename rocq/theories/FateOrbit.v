(** C130: Geodesic(..) for captured, escaping and bound bodies. *)
From Coq Require Import String Reals List ZArith Lra Lia Bool.
From Coquelicot Require Import Coquelicot.
From Verif Require Import Base Calc DualModel DualSpec DualProofs DualDiff GeoUtilsModel GeoUtilsSpec GeoUtilsProofs GeodesicModel GeodesicProofs FantasyModel FantasyProofs FantasyProofs2 FantasyProofs3 FantasyOrder FantasyGlobal FantasyGlobal2 FantasyGlobal3
  FantasyShell FantasyCyclic FantasyCircular PicardProg FloatModel FloatExact FloatTrack FloatGlobal FloatTraj FloatMain FantasyCarter FloatCarter.
From Verif Require Import Contin Leave GlobalHole GlobalHole2 GlobalMotion GlobalOrbit.
From Verif Require Import Fate.
Import ListNotations.
Open Scope R_scope.

(** The radial potential of a body released at angle th with p_t = - E, p_theta = u2, p_phi = u3: mass 1 (tl) or 0. *)
Definition pot (a Q th E u2 u3 : R) (tl : bool) (r : R) : R :=
  let m2 := if tl then 1 else 0 in
  let K := u2 * u2 + (u3 / sin th - a * sin th * E) * (u3 / sin th - a * sin th * E) + a * a * (cos th * cos th) * m2 in
  let D := r * r - 2 * r + a * a + Q * Q in
  let P := (r * r + a * a) * E - a * u3 in
  P * P - D * (K + m2 * (r * r)).
(** The rows Geodesic(s, ..) computes in any arithmetic accurate enough are close to (q, p) on [0, S]. *)
Definition rows_follow (s : string) (prms : list R) (x1 x2 x3 u1 u2 u3 : R) (tl : bool) (order : nat) (w : R) (n : nat) (q p : R -> V4) (S : R) : Prop :=
  exists K r, 0 <= K /\ 0 < r /\ forall u A, 0 <= u -> accurate u A -> forall h N, 0 < h <= r -> u / h <= r -> (0 < N)%nat -> INR N * h <= S ->
    exists P' rows, geodesicA A (MName s) prms (x1, x2, x3) (u1, u2, u3) tl false N h order w = Ok (P', rows) /\ vclose (K * u) P' (p 0) /\ length rows = N /\
    forall k row, nth_error rows k = Some row -> vclose (K * (h ^ n + u / h)) (fst row) (q (INR (Datatypes.S k) * h)) /\ vclose (K * (h ^ n + u / h)) (snd row) (p (INR (Datatypes.S k) * h)).
Definition released (a Q r1 r th u3 : R) : Prop := 1 <= r1 < r /\ 0 < r1 * r1 - 2 * r1 + a * a + Q * Q /\ 0 < th < PI /\ u3 <> 0.

Lemma geodesic_start s prms g a Q cov out x1 x2 x3 u1 u2 u3 tl order w n : named_bh s prms g a Q -> book s prms cov out -> out x1 x2 -> sin x2 <> 0 -> u3 <> 0 ->
  In order [2; 4; 6; 8]%nat -> n = 2%nat \/ (order = 4 /\ n = 4)%nat ->
  exists guu E, inverse_of guu (cov x1 x2) /\ on_shell_future guu (mkQ4 (- E) u1 u2 u3) u1 u2 u3 tl /\
  2 * Ham g (mkQ4 0 x1 x2 x3) (mkQ4 (- E) u1 u2 u3) = - (if tl then 1 else 0) /\
  (forall r, potential g a Q (mkQ4 0 x1 x2 x3) (mkQ4 (- E) u1 u2 u3) r = pot a Q x2 E u2 u3 tl r) /\
  forall S q p, 0 < S -> geodesic_on g q p S -> q 0 = mkQ4 0 x1 x2 x3 -> p 0 = mkQ4 (- E) u1 u2 u3 -> rows_follow s prms x1 x2 x3 u1 u2 u3 tl order w n q p S.
Proof.
  intros HN HB Ho Hsx Hu3 Hor Hn. destruct (book_kn_metric _ _ _ _ _ _ HB Ho) as (call & g' & a' & Q' & E1 & E2 & E3 & (W & Sy & Hkn) & Rg & Hr & HQ & HD & Hs & Hinv).
  destruct (named_bh_spec _ _ _ _ _ HN) as ((call' & C1 & C2 & _) & Hh & I0 & I3). rewrite E1 in C1. apply Ok_inj in C1. subst call'. rewrite E2 in C2. apply Ok_inj in C2. subst g'.
  assert (HS := sigma_pos x1 x2 a' Hr). destruct (Hkn 0 x1 x2 x3 HS (Rgt_not_eq _ _ HD) Hs) as [Hdef Hmean].
  assert (Hat : metric_at g (mk4 0 x1 x2 x3) = Ok (kn_con a' Q' x1 x2)) by (rewrite metric_at_Ok by exact Hdef; rewrite Hmean; reflexivity).
  destruct (P4_kn_con g a' Q' _ x1 x2 u1 u2 u3 tl Hat Hr HQ HD Hs) as (P & HP & Hshell). change (mk4 0 x1 x2 x3) with (mkQ4 0 x1 x2 x3) in *.
  assert (EP : P = mkQ4 (- (- c0 P)) u1 u2 u3). { destruct Hshell as (_ & X1 & X2 & X3 & _). destruct P as [w0 w1 w2 w3]. cbn [c0 c1 c2 c3] in *. rewrite X1, X2, X3, Ropp_involutive. reflexivity. }
  set (E := - c0 P) in *. exists (kn_con a' Q' x1 x2), E. rewrite <- EP. split; [exact Hinv|]. split; [exact Hshell|].
  assert (HamP : 2 * Ham g (mkQ4 0 x1 x2 x3) P = - (if tl then 1 else 0)). { unfold Ham. rewrite Hmean. destruct Hshell as (X & _). assert (Bm : b2R tl = if tl then 1 else 0) by (destruct tl; reflexivity). rewrite Bm in X. lra. }
  split; [exact HamP|]. split.
  - intros r. unfold potential. rewrite HamP. rewrite EP. unfold pot, radial, carter, DeltaS. cbn [c0 c1 c2 c3]. generalize (if tl then 1 else 0) (u3 / sin x2) (sin x2) (cos x2). intros m z sx cx. ring.
  - intros S q p HS0 Hg Q0 P0.
    assert (Hdisc : 0 < discriminant g (mkQ4 0 x1 x2 x3) u1 u2 u3 tl).
    { unfold discriminant. rewrite Hmean. assert (X := kn_discr_strict a' Q' x1 x2 u1 u2 u3 tl Hr HQ HD Hs (or_intror (or_intror (or_intror Hu3)))). unfold discr in X. cbv zeta.
      replace ((2 * mnth (kn_con a' Q' x1 x2) 0 3 * u3) ^ 2) with ((2 * mnth (kn_con a' Q' x1 x2) 0 3 * u3) * (2 * mnth (kn_con a' Q' x1 x2) 0 3 * u3)) by (cbn [pow]; ring).
      replace (mnth (kn_con a' Q' x1 x2) 1 1 * u1 ^ 2) with (mnth (kn_con a' Q' x1 x2) 1 1 * u1 * u1) by (cbn [pow]; ring).
      replace (mnth (kn_con a' Q' x1 x2) 2 2 * u2 ^ 2) with (mnth (kn_con a' Q' x1 x2) 2 2 * u2 * u2) by (cbn [pow]; ring).
      replace (mnth (kn_con a' Q' x1 x2) 3 3 * u3 ^ 2) with (mnth (kn_con a' Q' x1 x2) 3 3 * u3 * u3) by (cbn [pow]; ring). exact X. }
    assert (Hf : exists f, integrator_of order (metricfun_of g) w = Ok f) by (destruct Hor as [<- |[<- |[<- |[<- |[]]]]]; eexists; reflexivity). destruct Hf as [f Hf].
    destruct (geodesic_rounded (MName s) prms x1 x2 x3 u1 u2 u3 tl order w f n call g g P q p S E1 E2 E3 W Rg W Sy HP Hdisc Hf Hn HS0 Hg Q0 P0) as (K & r & HK & Hr0 & H).
    exists K, r. split; [exact HK|]. split; [exact Hr0|]. rewrite P0. exact H.
Qed.
Section API.
Variables (s : string) (prms : list R) (g : metricP) (a Q : R) (cov : R -> R -> M4) (out : R -> R -> Prop) (x1 x2 x3 u1 u2 u3 : R) (tl : bool) (order : nat) (w : R) (n : nat) (r1 : R).
Hypothesis HN : named_bh s prms g a Q.
Hypothesis HB : book s prms cov out.
Hypothesis Ho : out x1 x2.
Hypothesis Hor : In order [2; 4; 6; 8]%nat.
Hypothesis Hn : n = 2%nat \/ (order = 4 /\ n = 4)%nat.
Hypothesis HR : released a Q r1 x1 x2 u3.
Lemma rel_sin : sin x2 <> 0. Proof. apply Rgt_not_eq, sin_gt_0; apply HR. Qed.
Lemma rel_ext E : exterior a Q r1 (mkQ4 0 x1 x2 x3) (mkQ4 (- E) u1 u2 u3).
Proof. exact HR. Qed.
(** every body released outside the horizon: over any interval, it is followed to the end or to r1 *)
Theorem geodesic_reach : exists guu E, inverse_of guu (cov x1 x2) /\ on_shell_future guu (mkQ4 (- E) u1 u2 u3) u1 u2 u3 tl /\
  forall T, 0 < T -> exists S q p, 0 < S <= T /\ q 0 = mkQ4 0 x1 x2 x3 /\ p 0 = mkQ4 (- E) u1 u2 u3 /\ geodesic_on g q p S /\ (forall t, 0 <= t < S -> r1 < c1 (q t)) /\
    (S = T /\ r1 < c1 (q S) \/ c1 (q S) = r1) /\ rows_follow s prms x1 x2 x3 u1 u2 u3 tl order w n q p S.
Proof.
  destruct (geodesic_start s prms g a Q cov out x1 x2 x3 u1 u2 u3 tl order w n HN HB Ho rel_sin (proj2 (proj2 (proj2 HR))) Hor Hn) as (guu & E & Hinv & Hsh & HH & HP & HF).
  exists guu, E. split; [exact Hinv|]. split; [exact Hsh|]. intros T HT.
  destruct (named_reach s prms g a Q r1 _ _ HN (rel_ext E) T ltac:(lra)) as [(q & p & Q0 & P0 & HG & Hab)|(S & q & p & HS & Q0 & P0 & HG & Hx & Hbef & _)].
  - exists T, q, p. split; [lra|]. split; [exact Q0|]. split; [exact P0|]. split; [exact HG|]. split; [intros t Ht; apply Hab; lra|]. split; [left; split; [reflexivity|apply Hab; lra]|]. exact (HF T q p HT HG Q0 P0).
  - exists S, q, p. split; [exact HS|]. split; [exact Q0|]. split; [exact P0|]. split; [exact HG|]. split; [exact Hbef|]. split; [right; exact Hx|]. exact (HF S q p ltac:(lra) HG Q0 P0).
Qed.
(** captured *)
Theorem geodesic_captured : u1 < 0 ->
  (forall guu E, inverse_of guu (cov x1 x2) -> on_shell_future guu (mkQ4 (- E) u1 u2 u3) u1 u2 u3 tl -> forall r, r1 <= r <= x1 -> 0 < pot a Q x2 E u2 u3 tl r) ->
  exists guu E S q p, inverse_of guu (cov x1 x2) /\ on_shell_future guu (mkQ4 (- E) u1 u2 u3) u1 u2 u3 tl /\
    0 < S /\ q 0 = mkQ4 0 x1 x2 x3 /\ p 0 = mkQ4 (- E) u1 u2 u3 /\ geodesic_on g q p S /\ c1 (q S) = r1 /\ (forall t u, 0 <= t < u -> u <= S -> c1 (q u) < c1 (q t)) /\ rows_follow s prms x1 x2 x3 u1 u2 u3 tl order w n q p S.
Proof.
  intros Hin Hpot. destruct (geodesic_start s prms g a Q cov out x1 x2 x3 u1 u2 u3 tl order w n HN HB Ho rel_sin (proj2 (proj2 (proj2 HR))) Hor Hn) as (guu & E & Hinv & Hsh & HH & HP & HF).
  destruct (named_captured s prms g a Q r1 _ _ HN (rel_ext E) Hin) as (S & q & p & HS & Q0 & P0 & HG & Hx & Mono & _).
  { intros r Hr. rewrite HP. exact (Hpot guu E Hinv Hsh r Hr). }
  exists guu, E, S, q, p. split; [exact Hinv|]. split; [exact Hsh|]. split; [exact HS|]. split; [exact Q0|]. split; [exact P0|]. split; [exact HG|]. split; [exact Hx|]. split; [exact Mono|]. exact (HF S q p HS HG Q0 P0).
Qed.
(** escapes *)
Theorem geodesic_escapes : 0 < u1 ->
  (forall guu E, inverse_of guu (cov x1 x2) -> on_shell_future guu (mkQ4 (- E) u1 u2 u3) u1 u2 u3 tl -> (if tl then 1 else 0) < E * E /\ forall r, x1 <= r -> 0 < pot a Q x2 E u2 u3 tl r) ->
  exists guu E k, inverse_of guu (cov x1 x2) /\ on_shell_future guu (mkQ4 (- E) u1 u2 u3) u1 u2 u3 tl /\ 0 < k /\
    forall T, 0 < T -> exists q p, q 0 = mkQ4 0 x1 x2 x3 /\ p 0 = mkQ4 (- E) u1 u2 u3 /\ geodesic_on g q p T /\ (forall t, 0 <= t <= T -> x1 + k * t <= c1 (q t)) /\ rows_follow s prms x1 x2 x3 u1 u2 u3 tl order w n q p T.
Proof.
  intros Hout Hpot. destruct (geodesic_start s prms g a Q cov out x1 x2 x3 u1 u2 u3 tl order w n HN HB Ho rel_sin (proj2 (proj2 (proj2 HR))) Hor Hn) as (guu & E & Hinv & Hsh & HH & HP & HF).
  destruct (Hpot guu E Hinv Hsh) as [HE Hpos].
  destruct (named_escapes s prms g a Q r1 _ _ HN (rel_ext E) Hout) as (k & Hk & H).
  { intros r Hr. rewrite HP. exact (Hpos r Hr). }
  { rewrite HH. cbn [c0]. lra. }
  exists guu, E, k. split; [exact Hinv|]. split; [exact Hsh|]. split; [exact Hk|]. intros T HT. destruct (H T ltac:(lra)) as (q & p & Q0 & P0 & HG & _ & Lin). exists q, p. split; [exact Q0|]. split; [exact P0|]. split; [exact HG|].
  split; [intros t Ht; apply Lin; exact Ht|]. exact (HF T q p HT HG Q0 P0).
Qed.
(** bound: E^2 < 1 and a barrier at r1 *)
Theorem geodesic_bound : tl = true ->
  (forall guu E, inverse_of guu (cov x1 x2) -> on_shell_future guu (mkQ4 (- E) u1 u2 u3) u1 u2 u3 tl -> E * E < 1 /\ pot a Q x2 E u2 u3 tl r1 < 0) ->
  exists guu E r2, inverse_of guu (cov x1 x2) /\ on_shell_future guu (mkQ4 (- E) u1 u2 u3) u1 u2 u3 tl /\
    forall T, 0 < T -> exists q p, q 0 = mkQ4 0 x1 x2 x3 /\ p 0 = mkQ4 (- E) u1 u2 u3 /\ geodesic_on g q p T /\ (forall t, 0 <= t <= T -> r1 < c1 (q t) < r2) /\ rows_follow s prms x1 x2 x3 u1 u2 u3 tl order w n q p T.
Proof.
  intros Etl Hpot. destruct (geodesic_start s prms g a Q cov out x1 x2 x3 u1 u2 u3 tl order w n HN HB Ho rel_sin (proj2 (proj2 (proj2 HR))) Hor Hn) as (guu & E & Hinv & Hsh & HH & HP & HF).
  destruct (Hpot guu E Hinv Hsh) as [HE Hneg]. rewrite <- HP in Hneg. destruct HR as (B1 & B2 & B3 & B4).
  destruct (named_bound s prms g a Q r1 (mkQ4 0 x1 x2 x3) (mkQ4 (- E) u1 u2 u3) HN) as (r2 & H).
  { split; [exact B1|]. split; [exact B2|]. split; [exact B3|]. split; [exact B4|]. exact Hneg. }
  { rewrite HH, Etl. cbn [c0]. lra. }
  exists guu, E, r2. split; [exact Hinv|]. split; [exact Hsh|]. intros T HT. destruct (H T ltac:(lra)) as (q & p & Q0 & P0 & HG & HR'). exists q, p. split; [exact Q0|]. split; [exact P0|]. split; [exact HG|].
  split; [intros t Ht; apply HR'; exact Ht|]. exact (HF T q p HT HG Q0 P0).
Qed.
End API.
