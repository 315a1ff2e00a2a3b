(** C130: Geodesic(..) for bodies that turn around. *)
From Coq Require Import String Reals List ZArith Lra Lia Bool.
From Coquelicot Require Import Coquelicot.
From Verif Require Import Base Calc DualModel DualSpec DualProofs DualDiff GeoUtilsModel GeoUtilsSpec GeoUtilsProofs GeodesicModel GeodesicProofs FantasyModel FantasyProofs FantasyProofs2 FantasyProofs3 FantasyOrder FantasyGlobal FantasyGlobal2 FantasyGlobal3
  FantasyShell FantasyCyclic FantasyCircular PicardProg FloatModel FloatExact FloatTrack FloatGlobal FloatTraj FloatMain FantasyCarter FloatCarter.
From Verif Require Import Contin Leave GlobalHole GlobalHole2 GlobalMotion GlobalOrbit.
From Verif Require Import Fate FateOrbit Scatter.
Import ListNotations.
Open Scope R_scope.

(** rt is a simple root of V, and V is positive further out *)
Definition turning_point (V : R -> R) (rt : R) : Prop := V rt = 0 /\ (exists l, 0 < l /\ is_derive V rt l) /\ forall r, rt < r -> 0 < V r.
Lemma turning_simple g a Q q0 p0 rt : turning_point (potential g a Q q0 p0) rt -> potential g a Q q0 p0 rt = 0 /\ 0 < dpotential g a Q q0 p0 rt /\ forall r, rt < r -> 0 < potential g a Q q0 p0 r.
Proof.
  intros (A & (l & Hl & D) & B). split; [exact A|]. split; [|exact B]. assert (E := is_derive_unique _ _ _ (radial_deriv a Q (c0 p0) (c3 p0) (carter a q0 p0 (2 * Ham g q0 p0)) (2 * Ham g q0 p0) rt)).
  change (Derive (potential g a Q q0 p0) rt = dpotential g a Q q0 p0 rt) in E. rewrite <- E, (is_derive_unique _ _ _ D). exact Hl.
Qed.
Theorem named_flyby s prms g a Q r1 rt q0 p0 : named_bh s prms g a Q -> barred g a Q r1 q0 p0 -> c1 p0 < 0 -> rt < c1 q0 -> turning_point (potential g a Q q0 p0) rt -> 0 < c0 p0 * c0 p0 + 2 * Ham g q0 p0 ->
  exists x y k, 0 < x < y /\ 0 < k /\ forall T, y <= T -> exists q p, q 0 = q0 /\ p 0 = p0 /\ geodesic_on g q p T /\ c1 (q x) = rt /\
    (forall t u, 0 <= t < u -> u <= x -> c1 (q u) < c1 (q t)) /\ (forall t u, x <= t < u -> u <= T -> c1 (q t) < c1 (q u)) /\
    forall t, y <= t <= T -> rt + k * (t - y) < c1 (q t).
Proof. intros HN HB Hin Hrt Ht He. destruct (turning_simple _ _ _ _ _ _ Ht) as (A & B & C). exact (named_scattered s prms g a Q r1 rt q0 p0 HN HB Hin Hrt A B C He). Qed.

Theorem geodesic_scattered s prms g a Q cov out x1 x2 x3 u1 u2 u3 tl order w n r1 : named_bh s prms g a Q -> book s prms cov out -> out x1 x2 ->
  In order [2; 4; 6; 8]%nat -> n = 2%nat \/ (order = 4 /\ n = 4)%nat -> released a Q r1 x1 x2 u3 -> u1 < 0 -> forall rt, rt < x1 ->
  (forall guu E, inverse_of guu (cov x1 x2) -> on_shell_future guu (mkQ4 (- E) u1 u2 u3) u1 u2 u3 tl ->
    (if tl then 1 else 0) < E * E /\ pot a Q x2 E u2 u3 tl r1 < 0 /\ turning_point (pot a Q x2 E u2 u3 tl) rt) ->
  exists guu E x y k, inverse_of guu (cov x1 x2) /\ on_shell_future guu (mkQ4 (- E) u1 u2 u3) u1 u2 u3 tl /\ 0 < x < y /\ 0 < k /\
    forall T, y <= T -> exists q p, q 0 = mkQ4 0 x1 x2 x3 /\ p 0 = mkQ4 (- E) u1 u2 u3 /\ geodesic_on g q p T /\ c1 (q x) = rt /\
      (forall t u, 0 <= t < u -> u <= x -> c1 (q u) < c1 (q t)) /\ (forall t u, x <= t < u -> u <= T -> c1 (q t) < c1 (q u)) /\ (forall t, y <= t <= T -> rt + k * (t - y) < c1 (q t)) /\
      rows_follow s prms x1 x2 x3 u1 u2 u3 tl order w n q p T.
Proof.
  intros HN HB Ho Hor Hn HR Hin rt Hrt Hpot. destruct (geodesic_start s prms g a Q cov out x1 x2 x3 u1 u2 u3 tl order w n HN HB Ho (rel_sin _ _ _ _ _ _ HR) (proj2 (proj2 (proj2 HR))) Hor Hn) as (guu & E & Hinv & Hsh & HH & HP & HF).
  destruct (Hpot guu E Hinv Hsh) as (HE & Hneg & Hroot & (l & Hl & Hd) & Hpos). rewrite <- HP in Hneg. destruct HR as (B1 & B2 & B3 & B4).
  destruct (named_flyby s prms g a Q r1 rt (mkQ4 0 x1 x2 x3) (mkQ4 (- E) u1 u2 u3) HN) as (x & y & k & Hxy & Hk & H).
  { split; [exact B1|]. split; [exact B2|]. split; [exact B3|]. split; [exact B4|]. exact Hneg. }
  { exact Hin. }
  { exact Hrt. }
  { split; [rewrite HP; exact Hroot|]. split; [|intros r Hr; rewrite HP; apply Hpos; exact Hr]. exists l. split; [exact Hl|]. apply (is_derive_ext (pot a Q x2 E u2 u3 tl)); [intros r; symmetry; apply HP|exact Hd]. }
  { rewrite HH. cbn [c0]. lra. }
  exists guu, E, x, y, k. split; [exact Hinv|]. split; [exact Hsh|]. split; [exact Hxy|]. split; [exact Hk|]. intros T HT. destruct (H T HT) as (q & p & Q0 & P0 & HG & Hx & Dec & Inc & Far). exists q, p.
  split; [exact Q0|]. split; [exact P0|]. split; [exact HG|]. split; [exact Hx|]. split; [exact Dec|]. split; [exact Inc|]. split; [exact Far|]. exact (HF T q p ltac:(lra) HG Q0 P0).
Qed.
