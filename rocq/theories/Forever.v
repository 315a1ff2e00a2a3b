(** C132: one orbit for all parameter values. *)
From Coq Require Import String Reals List ZArith Lra Lia Bool.
From Coquelicot Require Import Coquelicot.
From Verif Require Import Base Calc DualModel DualSpec DualProofs DualDiff GeoUtilsModel GeoUtilsSpec GeoUtilsProofs GeodesicModel GeodesicProofs FantasyModel FantasyProofs FantasyProofs2 FantasyProofs3 FantasyOrder FantasyGlobal FantasyGlobal2 FantasyGlobal3
  FantasyShell FantasyCyclic FantasyCircular PicardProg FloatModel FloatExact FloatTrack FloatGlobal FloatTraj FloatMain FantasyCarter FloatCarter.
From Verif Require Import Contin Leave GlobalHole GlobalHole2 GlobalMotion GlobalOrbit Fate Scatter FateOrbit FateOrbit2.
From Verif Require Import Glue.
Import ListNotations.
Open Scope R_scope.

(** (q, p) is a geodesic on [0, oo) starting at (q0, p0) *)
Definition orbit_of (g : metricP) (q0 p0 : V4) (q p : R -> V4) : Prop := q 0 = q0 /\ p 0 = p0 /\ forall T, geodesic_on g q p T.
(** r grows beyond every bound *)
Definition runs_off (r : R -> R) : Prop := forall B, exists s, forall t, s <= t -> B < r t.

Lemma runs_off_lin (r : R -> R) A k s : 0 < k -> (forall t, s <= t -> A + k * (t - s) <= r t) -> runs_off r.
Proof.
  intros Hk H B. exists (Rmax s (s + (B - A) / k + 1)). intros t Ht. assert (M1 := Rmax_l s (s + (B - A) / k + 1)). assert (M2 := Rmax_r s (s + (B - A) / k + 1)). specialize (H t ltac:(lra)).
  assert (X : k * ((B - A) / k + 1) <= k * (t - s)) by (apply Rmult_le_compat_l; lra). replace (k * ((B - A) / k + 1)) with (B - A + k) in X by (field; lra). lra.
Qed.
Section Named.
Variables (s : string) (prms : list R) (g : metricP) (a Q : R) (q0 p0 : V4).
Hypothesis HN : named_bh s prms g a Q.
Lemma one_orbit : (forall T, 0 < T -> exists q p, q 0 = q0 /\ p 0 = p0 /\ geodesic_on g q p T) -> exists q p, orbit_of g q0 p0 q p /\ forall q' p' T, q' 0 = q0 -> p' 0 = p0 -> geodesic_on g q' p' T -> forall t, 0 <= t <= T -> q t = q' t /\ p t = p' t.
Proof.
  intros H. destruct (named_bh_spec _ _ _ _ _ HN) as (_ & ((W & Sy & _) & _) & _). destruct (geodesic_forever g q0 p0 W Sy H) as (q & p & E1 & E2 & HG & U).
  exists q, p. split; [split; [exact E1|split; [exact E2|exact HG]]|exact U].
Qed.
(** it is the only one *)
Theorem orbit_unique q p q' p' : orbit_of g q0 p0 q p -> orbit_of g q0 p0 q' p' -> forall t, 0 <= t -> q t = q' t /\ p t = p' t.
Proof.
  intros (A1 & A2 & A3) (B1 & B2 & B3) t Ht. destruct (named_bh_spec _ _ _ _ _ HN) as (_ & ((W & Sy & _) & _) & _). apply (geodesic_unique g q p q' p' t W Sy (A3 t) (B3 t)); [congruence|congruence|lra].
Qed.
Theorem barred_forever r1 : barred g a Q r1 q0 p0 -> exists q p, orbit_of g q0 p0 q p /\ forall t, 0 <= t -> r1 < c1 (q t) /\ 0 < c2 (q t) < PI.
Proof.
  intros HB. assert (H := named_global s prms g a Q r1 q0 p0 HN HB).
  destruct one_orbit as (q & p & HO & U); [intros T HT; destruct (H T ltac:(lra)) as (q & p & A & B & C & _); exists q, p; split; [exact A|split; [exact B|exact C]]|].
  exists q, p. split; [exact HO|]. intros t Ht. destruct (H t Ht) as (q' & p' & A & B & C & D). destruct (U q' p' t A B C t ltac:(lra)) as [-> _]. apply D. lra.
Qed.
Theorem escapes_forever r1 : exterior a Q r1 q0 p0 -> 0 < c1 p0 -> (forall r, c1 q0 <= r -> 0 < potential g a Q q0 p0 r) -> 0 < c0 p0 * c0 p0 + 2 * Ham g q0 p0 ->
  exists q p, orbit_of g q0 p0 q p /\ (forall t u, 0 <= t < u -> c1 (q t) < c1 (q u)) /\ (exists k, 0 < k /\ forall t, 0 <= t -> c1 q0 + k * t <= c1 (q t)) /\ runs_off (fun t => c1 (q t)).
Proof.
  intros HX Hout HR He. destruct (named_escapes s prms g a Q r1 q0 p0 HN HX Hout HR He) as (k & Hk & H).
  destruct one_orbit as (q & p & HO & U); [intros T HT; destruct (H T ltac:(lra)) as (q & p & A & B & C & _); exists q, p; split; [exact A|split; [exact B|exact C]]|].
  assert (LIN : forall t, 0 <= t -> c1 q0 + k * t <= c1 (q t)). { intros t Ht. destruct (H t Ht) as (q' & p' & A & B & C & _ & D). destruct (U q' p' t A B C t ltac:(lra)) as [-> _]. apply D. lra. }
  exists q, p. split; [exact HO|]. split; [|split; [exists k; split; [exact Hk|exact LIN]|]].
  - intros t u Htu. destruct (H u ltac:(lra)) as (q' & p' & A & B & C & D & _). destruct (U q' p' u A B C t ltac:(lra)) as [-> _]. destruct (U q' p' u A B C u ltac:(lra)) as [-> _]. apply D; lra.
  - apply (runs_off_lin _ (c1 q0) k 0 Hk). intros t Ht. rewrite Rminus_0_r. apply LIN. exact Ht.
Qed.
Theorem flyby_forever r1 rt : barred g a Q r1 q0 p0 -> c1 p0 < 0 -> rt < c1 q0 -> turning_point (potential g a Q q0 p0) rt -> 0 < c0 p0 * c0 p0 + 2 * Ham g q0 p0 ->
  exists q p x, orbit_of g q0 p0 q p /\ 0 < x /\ c1 (q x) = rt /\ (forall t u, 0 <= t < u -> u <= x -> c1 (q u) < c1 (q t)) /\ (forall t u, x <= t < u -> c1 (q t) < c1 (q u)) /\ runs_off (fun t => c1 (q t)).
Proof.
  intros HB Hin Hrt Ht He. destruct (named_flyby s prms g a Q r1 rt q0 p0 HN HB Hin Hrt Ht He) as (x & y & k & Hxy & Hk & H).
  destruct one_orbit as (q & p & HO & U).
  { intros T HT. destruct (H (Rmax y T) (Rmax_l _ _)) as (q & p & A & B & C & _). exists q, p. split; [exact A|split; [exact B|]]. intros t Ht'. apply C. assert (M := Rmax_r y T). lra. }
  assert (AG : forall T, y <= T -> exists q', (forall t, 0 <= t <= T -> q t = q' t) /\ c1 (q' x) = rt /\ (forall t u, 0 <= t < u -> u <= x -> c1 (q' u) < c1 (q' t)) /\ (forall t u, x <= t < u -> u <= T -> c1 (q' t) < c1 (q' u)) /\ forall t, y <= t <= T -> rt + k * (t - y) < c1 (q' t)).
  { intros T HT. destruct (H T HT) as (q' & p' & A & B & C & D1 & D2 & D3 & D4). exists q'. split; [intros t Ht'; apply (U q' p' T A B C t Ht')|]. split; [exact D1|]. split; [exact D2|]. split; [exact D3|exact D4]. }
  exists q, p, x. split; [exact HO|]. split; [lra|]. destruct (AG y (Rle_refl y)) as (q' & E & D1 & D2 & _).
  split; [rewrite E by lra; exact D1|]. split; [intros t u Htu Hu; rewrite !E by lra; apply D2; assumption|]. split.
  - intros t u Htu. destruct (AG (Rmax y u) (Rmax_l _ _)) as (q2 & E2 & _ & _ & D3 & _). assert (M := Rmax_r y u). rewrite !E2 by lra. apply D3; lra.
  - apply (runs_off_lin _ rt k y Hk). intros t Ht'. destruct (AG t Ht') as (q2 & E2 & _ & _ & _ & D4). rewrite E2 by lra. left. apply D4. lra.
Qed.
Theorem bound_forever r1 : barred g a Q r1 q0 p0 -> c0 p0 * c0 p0 + 2 * Ham g q0 p0 < 0 ->
  exists q p r2, orbit_of g q0 p0 q p /\ forall t, 0 <= t -> r1 < c1 (q t) < r2 /\ 0 < c2 (q t) < PI.
Proof.
  intros HB He. destruct (named_bound s prms g a Q r1 q0 p0 HN HB He) as (r2 & H).
  destruct one_orbit as (q & p & HO & U); [intros T HT; destruct (H T ltac:(lra)) as (q & p & A & B & C & _); exists q, p; split; [exact A|split; [exact B|exact C]]|].
  exists q, p, r2. split; [exact HO|]. intros t Ht. destruct (H t Ht) as (q' & p' & A & B & C & D). destruct (U q' p' t A B C t ltac:(lra)) as [-> _]. apply D. lra.
Qed.
End Named.

Section API.
Variables (s : string) (prms : list R) (g : metricP) (a Q : R) (cov : R -> R -> M4) (out : R -> R -> Prop) (x1 x2 x3 u1 u2 u3 : R) (tl : bool) (order : nat) (w : R) (n : nat) (r1 : R).
Hypothesis HN : named_bh s prms g a Q.
Hypothesis HB : book s prms cov out.
Hypothesis Ho : out x1 x2.
Hypothesis Hor : In order [2; 4; 6; 8]%nat.
Hypothesis Hn : n = 2%nat \/ (order = 4 /\ n = 4)%nat.
Hypothesis HR : released a Q r1 x1 x2 u3.
(** whatever the body does: if it has an orbit for all parameter values, the rows follow it over every interval *)
Theorem orbit_rows : exists guu E, inverse_of guu (cov x1 x2) /\ on_shell_future guu (mkQ4 (- E) u1 u2 u3) u1 u2 u3 tl /\
  forall q p, orbit_of g (mkQ4 0 x1 x2 x3) (mkQ4 (- E) u1 u2 u3) q p -> forall T, 0 < T -> rows_follow s prms x1 x2 x3 u1 u2 u3 tl order w n q p T.
Proof.
  destruct (geodesic_start s prms g a Q cov out x1 x2 x3 u1 u2 u3 tl order w n HN HB Ho (rel_sin _ _ _ _ _ _ HR) (proj2 (proj2 (proj2 HR))) Hor Hn) as (guu & E & Hinv & Hsh & _ & _ & HF).
  exists guu, E. split; [exact Hinv|]. split; [exact Hsh|]. intros q p (A & B & C) T HT. exact (HF T q p HT (C T) A B).
Qed.
Theorem geodesic_barred_forever : (forall guu E, inverse_of guu (cov x1 x2) -> on_shell_future guu (mkQ4 (- E) u1 u2 u3) u1 u2 u3 tl -> pot a Q x2 E u2 u3 tl r1 < 0) ->
  exists guu E q p, inverse_of guu (cov x1 x2) /\ on_shell_future guu (mkQ4 (- E) u1 u2 u3) u1 u2 u3 tl /\ orbit_of g (mkQ4 0 x1 x2 x3) (mkQ4 (- E) u1 u2 u3) q p /\
    (forall t, 0 <= t -> r1 < c1 (q t)) /\ forall T, 0 < T -> rows_follow s prms x1 x2 x3 u1 u2 u3 tl order w n q p T.
Proof.
  intros Hpot. destruct (geodesic_start s prms g a Q cov out x1 x2 x3 u1 u2 u3 tl order w n HN HB Ho (rel_sin _ _ _ _ _ _ HR) (proj2 (proj2 (proj2 HR))) Hor Hn) as (guu & E & Hinv & Hsh & HH & HP & HF).
  assert (Hneg := Hpot guu E Hinv Hsh). rewrite <- HP in Hneg. destruct HR as (B1 & B2 & B3 & B4).
  destruct (barred_forever s prms g a Q (mkQ4 0 x1 x2 x3) (mkQ4 (- E) u1 u2 u3) HN r1) as (q & p & HO & D).
  { split; [exact B1|]. split; [exact B2|]. split; [exact B3|]. split; [exact B4|]. exact Hneg. }
  exists guu, E, q, p. split; [exact Hinv|]. split; [exact Hsh|]. split; [exact HO|]. split; [intros t Ht; apply D; exact Ht|]. destruct HO as (A & B & C). intros T HT. exact (HF T q p HT (C T) A B).
Qed.
Theorem geodesic_escapes_forever : 0 < u1 ->
  (forall guu E, inverse_of guu (cov x1 x2) -> on_shell_future guu (mkQ4 (- E) u1 u2 u3) u1 u2 u3 tl -> (if tl then 1 else 0) < E * E /\ forall r, x1 <= r -> 0 < pot a Q x2 E u2 u3 tl r) ->
  exists guu E q p, inverse_of guu (cov x1 x2) /\ on_shell_future guu (mkQ4 (- E) u1 u2 u3) u1 u2 u3 tl /\ orbit_of g (mkQ4 0 x1 x2 x3) (mkQ4 (- E) u1 u2 u3) q p /\
    (forall t u, 0 <= t < u -> c1 (q t) < c1 (q u)) /\ runs_off (fun t => c1 (q t)) /\ forall T, 0 < T -> rows_follow s prms x1 x2 x3 u1 u2 u3 tl order w n q p T.
Proof.
  intros Hout Hpot. destruct (geodesic_start s prms g a Q cov out x1 x2 x3 u1 u2 u3 tl order w n HN HB Ho (rel_sin _ _ _ _ _ _ HR) (proj2 (proj2 (proj2 HR))) Hor Hn) as (guu & E & Hinv & Hsh & HH & HP & HF).
  destruct (Hpot guu E Hinv Hsh) as [HE Hpos].
  destruct (escapes_forever s prms g a Q (mkQ4 0 x1 x2 x3) (mkQ4 (- E) u1 u2 u3) HN r1 (rel_ext a Q x1 x2 x3 u1 u2 u3 r1 HR E) Hout) as (q & p & HO & Inc & _ & Off).
  { intros r Hr. rewrite HP. exact (Hpos r Hr). }
  { rewrite HH. cbn [c0]. lra. }
  exists guu, E, q, p. split; [exact Hinv|]. split; [exact Hsh|]. split; [exact HO|]. split; [exact Inc|]. split; [exact Off|]. destruct HO as (A & B & C). intros T HT. exact (HF T q p HT (C T) A B).
Qed.
Theorem geodesic_flyby_forever : u1 < 0 -> forall rt, rt < x1 ->
  (forall guu E, inverse_of guu (cov x1 x2) -> on_shell_future guu (mkQ4 (- E) u1 u2 u3) u1 u2 u3 tl ->
    (if tl then 1 else 0) < E * E /\ pot a Q x2 E u2 u3 tl r1 < 0 /\ turning_point (pot a Q x2 E u2 u3 tl) rt) ->
  exists guu E q p x, inverse_of guu (cov x1 x2) /\ on_shell_future guu (mkQ4 (- E) u1 u2 u3) u1 u2 u3 tl /\ orbit_of g (mkQ4 0 x1 x2 x3) (mkQ4 (- E) u1 u2 u3) q p /\
    0 < x /\ c1 (q x) = rt /\ (forall t u, 0 <= t < u -> u <= x -> c1 (q u) < c1 (q t)) /\ (forall t u, x <= t < u -> c1 (q t) < c1 (q u)) /\ runs_off (fun t => c1 (q t)) /\
    forall T, 0 < T -> rows_follow s prms x1 x2 x3 u1 u2 u3 tl order w n q p T.
Proof.
  intros Hin rt Hrt Hpot. destruct (geodesic_start s prms g a Q cov out x1 x2 x3 u1 u2 u3 tl order w n HN HB Ho (rel_sin _ _ _ _ _ _ HR) (proj2 (proj2 (proj2 HR))) Hor Hn) as (guu & E & Hinv & Hsh & HH & HP & HF).
  destruct (Hpot guu E Hinv Hsh) as (HE & Hneg & Hroot & (l & Hl & Hd) & Hpos). rewrite <- HP in Hneg. destruct HR as (B1 & B2 & B3 & B4).
  destruct (flyby_forever s prms g a Q (mkQ4 0 x1 x2 x3) (mkQ4 (- E) u1 u2 u3) HN r1 rt) as (q & p & x & HO & F).
  { split; [exact B1|]. split; [exact B2|]. split; [exact B3|]. split; [exact B4|]. exact Hneg. }
  { exact Hin. }
  { exact Hrt. }
  { split; [rewrite HP; exact Hroot|]. split; [|intros r Hr; rewrite HP; apply Hpos; exact Hr]. exists l. split; [exact Hl|]. apply (is_derive_ext (pot a Q x2 E u2 u3 tl)); [intros r; symmetry; apply HP|exact Hd]. }
  { rewrite HH. cbn [c0]. lra. }
  destruct F as (F1 & F2 & F3 & F4 & F5). exists guu, E, q, p, x. split; [exact Hinv|]. split; [exact Hsh|]. split; [exact HO|]. split; [exact F1|]. split; [exact F2|]. split; [exact F3|]. split; [exact F4|]. split; [exact F5|].
  destruct HO as (A & B & C). intros T HT. exact (HF T q p HT (C T) A B).
Qed.
Theorem geodesic_bound_forever : tl = true ->
  (forall guu E, inverse_of guu (cov x1 x2) -> on_shell_future guu (mkQ4 (- E) u1 u2 u3) u1 u2 u3 tl -> E * E < 1 /\ pot a Q x2 E u2 u3 tl r1 < 0) ->
  exists guu E q p r2, inverse_of guu (cov x1 x2) /\ on_shell_future guu (mkQ4 (- E) u1 u2 u3) u1 u2 u3 tl /\ orbit_of g (mkQ4 0 x1 x2 x3) (mkQ4 (- E) u1 u2 u3) q p /\
    (forall t, 0 <= t -> r1 < c1 (q t) < r2) /\ forall T, 0 < T -> rows_follow s prms x1 x2 x3 u1 u2 u3 tl order w n q p T.
Proof.
  intros Etl Hpot. destruct (geodesic_start s prms g a Q cov out x1 x2 x3 u1 u2 u3 tl order w n HN HB Ho (rel_sin _ _ _ _ _ _ HR) (proj2 (proj2 (proj2 HR))) Hor Hn) as (guu & E & Hinv & Hsh & HH & HP & HF).
  destruct (Hpot guu E Hinv Hsh) as [HE Hneg]. rewrite <- HP in Hneg. destruct HR as (B1 & B2 & B3 & B4).
  destruct (bound_forever s prms g a Q (mkQ4 0 x1 x2 x3) (mkQ4 (- E) u1 u2 u3) HN r1) as (q & p & r2 & HO & D).
  { split; [exact B1|]. split; [exact B2|]. split; [exact B3|]. split; [exact B4|]. exact Hneg. }
  { rewrite HH, Etl. cbn [c0]. lra. }
  exists guu, E, q, p, r2. split; [exact Hinv|]. split; [exact Hsh|]. split; [exact HO|]. split; [intros t Ht; apply D; exact Ht|]. destruct HO as (A & B & C). intros T HT. exact (HF T q p HT (C T) A B).
Qed.
End API.
