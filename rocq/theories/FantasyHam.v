(** Specification side of the Fantasy integrator: the doubled Hamiltonian as a program in the 16 phase-space coordinates
    (q1, p1, q2, p2), its Hamiltonian vector fields, and the stages of a step in these coordinates. *)
From Coq Require Import Reals List ZArith Lra Lia Bool.
From Coquelicot Require Import Coquelicot.
From Verif Require Import Base Calc DualModel DualSpec DualProofs DualDiff GeoUtilsModel GeoUtilsSpec GeoUtilsProofs
  FantasyModel FantasyProofs FantasyProofs2 FantasyProofs3.
Import ListNotations.
Open Scope R_scope.

(** coordinate i of a phase-space point: 0-3 q1, 4-7 p1, 8-11 q2, 12-15 p2 *)
Definition flat (s : state) (i : nat) : R := q4nth (q4nth s (i / 4)) (i mod 4).
Definition unflat (x : nat -> R) : state := q4tab (fun a => q4tab (fun b => x (4 * a + b)%nat)).

Lemma lt16 (P : nat -> Prop) : P 0%nat -> P 1%nat -> P 2%nat -> P 3%nat -> P 4%nat -> P 5%nat -> P 6%nat -> P 7%nat ->
  P 8%nat -> P 9%nat -> P 10%nat -> P 11%nat -> P 12%nat -> P 13%nat -> P 14%nat -> P 15%nat -> forall i, (i < 16)%nat -> P i.
Proof. intros. do 16 (destruct i as [|i]; [assumption|]). lia. Qed.
Lemma flat_unflat x i : (i < 16)%nat -> flat (unflat x) i = x i.
Proof. revert i. apply lt16; reflexivity. Qed.
Lemma unflat_flat s : unflat (flat s) = s.
Proof. destruct s as [[] [] [] []]. reflexivity. Qed.
Lemma flat_inj s s' : (forall i, (i < 16)%nat -> flat s i = flat s' i) -> s = s'.
Proof.
  intros H. rewrite <- (unflat_flat s), <- (unflat_flat s'). unfold unflat, q4tab. rewrite !H by lia. reflexivity.
Qed.

(** variables of a program shifted by b *)
Fixpoint ren (b : nat) (e : pexpr) : pexpr :=
  match e with
  | EVar i => EVar (b + i)
  | EConst c => EConst c
  | EAdd x y => EAdd (ren b x) (ren b y) | ESub x y => ESub (ren b x) (ren b y) | EMul x y => EMul (ren b x) (ren b y) | EDiv x y => EDiv (ren b x) (ren b y)
  | ENeg x => ENeg (ren b x) | EPow x n => EPow (ren b x) n | EPowR x p => EPowR (ren b x) p
  | ESin x => ESin (ren b x) | ECos x => ECos (ren b x) | ETan x => ETan (ren b x) | ELog x => ELog (ren b x) | EExp x => EExp (ren b x)
  end.
Lemma ren_meaning b e x : meaning x (ren b e) = meaning (fun i => x (b + i)%nat) e.
Proof. induction e; cbn [ren meaning]; rewrite ?IHe, ?IHe1, ?IHe2; reflexivity. Qed.
Lemma ren_defined b e x : defined_at x (ren b e) <-> defined_at (fun i => x (b + i)%nat) e.
Proof. induction e; cbn [ren defined_at]; rewrite ?ren_meaning, ?IHe, ?IHe1, ?IHe2; tauto. Qed.
Lemma ren_below b e N M : below N e = true -> (b + N <= M)%nat -> below M (ren b e) = true.
Proof.
  intros H L. induction e; cbn [ren below] in *; try (apply andb_prop in H as [H1 H2]; rewrite IHe1, IHe2 by assumption; reflexivity); auto.
  apply Nat.ltb_lt in H. apply Nat.ltb_lt. lia.
Qed.
Lemma ren_mentions b e k N : below N e = true -> (k < b \/ b + N <= k)%nat -> mentions k (ren b e) = false.
Proof.
  intros H L. induction e; cbn [ren below mentions] in *; try (apply andb_prop in H as [H1 H2]; rewrite IHe1, IHe2 by assumption; reflexivity); auto.
  apply Nat.ltb_lt in H. apply Nat.eqb_neq. lia.
Qed.
Lemma below_vars e : vars_below4 e = below 4 e.
Proof. induction e; cbn [vars_below4 below]; congruence. Qed.
Lemma pd_unmentioned x k e : mentions k e = false -> meaning x (pd k e) = 0.
Proof.
  induction e; cbn [mentions]; intros H; try (apply orb_false_iff in H as [H1 H2]); try (cbn [pd meaning]; rewrite ?IHe, ?IHe1, ?IHe2 by assumption; unfold Rdiv; ring).
  - cbn [pd meaning]. rewrite Nat.eqb_sym, H. reflexivity.
  - rewrite pd_pow, IHe by assumption. ring.
Qed.
Lemma mentions_pd k l e : mentions k e = false -> mentions k (pd l e) = false.
Proof.
  induction e; cbn [mentions]; intros H; try (apply orb_false_iff in H as [H1 H2]); try (cbn [pd mentions]; rewrite ?IHe, ?IHe1, ?IHe2, ?H, ?H1, ?H2 by assumption; reflexivity).
  cbn [pd]. destruct (n =? 0)%Z; [reflexivity|]. destruct (n =? 1)%Z; [apply IHe; exact H|]. cbn [mentions]. rewrite IHe, H by assumption. reflexivity.
Qed.

(** sums of programs *)
Fixpoint esum (n : nat) (f : nat -> pexpr) : pexpr := match n with O => EConst 0 | S m => EAdd (esum m f) (f m) end.
Lemma esum_meaning n f x : meaning x (esum n f) = rsum n (fun i => meaning x (f i)).
Proof. induction n as [|n IH]; cbn [esum meaning rsum]; rewrite ?IH; reflexivity. Qed.
Lemma esum_defined n f x : (forall i, (i < n)%nat -> defined_at x (f i)) -> defined_at x (esum n f).
Proof. induction n as [|n IH]; intros H; cbn [esum defined_at]; [exact I|]. split; [apply IH; intros; apply H; lia|apply H; lia]. Qed.
Lemma esum_below n f N : (forall i, (i < n)%nat -> below N (f i) = true) -> below N (esum n f) = true.
Proof. induction n as [|n IH]; intros H; cbn [esum below]; [reflexivity|]. rewrite IH, H by (intros; try apply H; lia). reflexivity. Qed.
Lemma esum_mentions n f k : (forall i, (i < n)%nat -> mentions k (f i) = false) -> mentions k (esum n f) = false.
Proof. induction n as [|n IH]; intros H; cbn [esum mentions]; [reflexivity|]. rewrite IH, H by (intros; try apply H; lia). reflexivity. Qed.

(** 1/2 g^{ij}(q) p_i p_j with q at the variables qb.. and p at pb.. *)
Definition hamE (g : metricP) (qb pb : nat) : pexpr :=
  EMul (EConst (/ 2)) (esum 4 (fun i => esum 4 (fun j => EMul (EMul (ren qb (mnth g i j)) (EVar (pb + i))) (EVar (pb + j))))).
Lemma hamE_meaning g qb pb x :
  meaning x (hamE g qb pb) = / 2 * quad (metric_meaning g (fun i => x (qb + i)%nat)) (q4tab (fun i => x (pb + i)%nat)).
Proof.
  unfold hamE. cbn [meaning]. f_equal. rewrite esum_meaning. rewrite quad_sum. cbn [sum_f_R0 rsum]. rewrite !esum_meaning. cbn [rsum].
  cbn [meaning]. rewrite !ren_meaning. unfold metric_meaning. cbn [mnth]. rewrite !mnth_map by lia. cbn [q4nth q4tab c0 c1 c2 c3]. ring.
Qed.
Lemma hamE_defined g qb pb x : metric_defined g (fun i => x (qb + i)%nat) -> defined_at x (hamE g qb pb).
Proof.
  intros H. unfold hamE. cbn [defined_at]. split; [exact I|]. apply esum_defined. intros i Hi. apply esum_defined. intros j Hj.
  cbn [defined_at]. repeat split. apply ren_defined. apply H; assumption.
Qed.
Lemma hamE_below g qb pb : well_formed g -> (qb + 4 <= 16)%nat -> (pb + 4 <= 16)%nat -> below 16 (hamE g qb pb) = true.
Proof.
  intros H L1 L2. unfold hamE. cbn [below]. cbn [andb]. apply esum_below. intros i Hi. apply esum_below. intros j Hj. cbn [below].
  rewrite (ren_below qb _ 4 16) by (rewrite <- ?below_vars; auto; apply H; assumption). cbn [andb].
  apply andb_true_intro; split; apply Nat.ltb_lt; lia.
Qed.
Lemma hamE_mentions g qb pb k : well_formed g -> (k < qb \/ qb + 4 <= k)%nat -> (k < pb \/ pb + 4 <= k)%nat -> mentions k (hamE g qb pb) = false.
Proof.
  intros H L1 L2. unfold hamE. cbn [mentions orb]. apply esum_mentions. intros i Hi. apply esum_mentions. intros j Hj. cbn [mentions].
  rewrite (ren_mentions qb _ k 4) by (rewrite <- ?below_vars; auto; apply H; assumption). cbn [orb].
  apply orb_false_iff; split; apply Nat.eqb_neq; lia.
Qed.
(** a partial derivative of a program is the derivative of its value *)
Lemma pd_partial N e x k : below N e = true -> defined_at x e -> (k < N)%nat ->
  is_derive (fun t => meaning (upd x k t) e) (x k) (meaning x (pd k e)).
Proof.
  intros Hb Hd Hk.
  assert (X : forall i, upd x k (x k) i = x i) by (apply upd_same).
  eapply D_eq.
  - apply (pd_path N e Hb (fun i t => upd x k t i) (fun i => if Nat.eqb i k then 1 else 0) (x k)).
    + intros i Hi. unfold upd. destruct (Nat.eqb i k); [apply D_id|apply D_const].
    + apply (defined_ext e x); [intros i; symmetry; apply X|exact Hd].
  - rewrite (rsum_ext N _ (fun i => meaning x (pd i e) * (if Nat.eqb i k then 1 else 0))).
    + apply (rsum_pick N k (fun i => meaning x (pd i e))). exact Hk.
    + intros i Hi. rewrite (meaning_ext (pd i e) (fun i0 => upd x k (x k) i0) x) by exact X. ring.
Qed.

(** the quantities the flows use are the partial derivatives of the Hamiltonian program *)
Lemma ham_parts g (q p : V4) : well_formed g -> symmetric_program g -> metric_defined g (q4nth q) ->
  exists grad, ham_grad (metricfun_of g) q p = Ok grad /\ gval (metricfun_of g) q = Ok (metric_meaning g (q4nth q)) /\
  forall x qb pb, (forall i, (i < 4)%nat -> x (qb + i)%nat = q4nth q i) -> (forall i, (i < 4)%nat -> x (pb + i)%nat = q4nth p i) ->
    (qb + 4 <= 16)%nat -> (pb + 4 <= 16)%nat -> (qb + 4 <= pb \/ pb + 4 <= qb)%nat ->
    defined_at x (hamE g qb pb) /\
    forall k, (k < 4)%nat -> q4nth grad k = meaning x (pd (qb + k) (hamE g qb pb))
       /\ q4nth (mv (metric_meaning g (q4nth q)) p) k = meaning x (pd (pb + k) (hamE g qb pb)).
Proof.
  intros Hwf Hsym Hdef.
  destruct (Ham_dq g q p 0 Hwf Hsym Hdef ltac:(lia)) as (J0 & HJ0 & D0).
  destruct (Ham_dq g q p 1 Hwf Hsym Hdef ltac:(lia)) as (J1 & HJ1 & D1).
  destruct (Ham_dq g q p 2 Hwf Hsym Hdef ltac:(lia)) as (J2 & HJ2 & D2).
  destruct (Ham_dq g q p 3 Hwf Hsym Hdef ltac:(lia)) as (J3 & HJ3 & D3).
  set (grad := mkQ4 (/ 2 * quad J0 p) (/ 2 * quad J1 p) (/ 2 * quad J2 p) (/ 2 * quad J3 p)).
  exists grad. split; [|split].
  { unfold ham_grad, part_ham_flow, metricfun_of, q4seq, q4tab. cbn [gjac c0 c1 c2 c3]. rewrite HJ0, HJ1, HJ2, HJ3. reflexivity. }
  { exact (metric_at_Ok g q Hdef). }
  intros x qb pb Hq Hp L1 L2 L3.
  assert (Hd : defined_at x (hamE g qb pb)).
  { apply hamE_defined. intros i j Hi Hj. specialize (Hdef i j Hi Hj). specialize (Hwf i j Hi Hj). revert Hdef Hwf. generalize (mnth g i j). clear -Hq.
    induction p; cbn [defined_at vars_below4]; intros Hd Hw; try exact I; try (apply andb_prop in Hw as [W1 W2]); try tauto.
    - destruct Hd as [A [B C]]. repeat split; auto. rewrite (meaning_ext4 p2 _ (q4nth q) W2) by (intros; apply Hq; assumption). exact C.
    - destruct Hd as [A C]. split; auto. rewrite (meaning_ext4 p _ (q4nth q) Hw) by (intros; apply Hq; assumption). exact C.
    - destruct Hd as [A C]. split; auto. rewrite (meaning_ext4 p _ (q4nth q) Hw) by (intros; apply Hq; assumption). exact C.
    - destruct Hd as [A C]. split; auto. rewrite (meaning_ext4 p _ (q4nth q) Hw) by (intros; apply Hq; assumption). exact C.
    - destruct Hd as [A C]. split; auto. rewrite (meaning_ext4 p _ (q4nth q) Hw) by (intros; apply Hq; assumption). exact C. }
  split; [exact Hd|].
  assert (Hb := hamE_below g qb pb Hwf L1 L2).
  assert (EM : forall (y : nat -> R) (v : V4), (forall i, (i < 4)%nat -> y (qb + i)%nat = q4nth v i) -> metric_meaning g (fun i => y (qb + i)%nat) = metric_meaning g (q4nth v)).
  { intros y v Hy. unfold metric_meaning. assert (E : forall i j, (i < 4)%nat -> (j < 4)%nat -> meaning (fun i0 => y (qb + i0)%nat) (mnth g i j) = meaning (q4nth v) (mnth g i j)).
    { intros i j Hi Hj. apply meaning_ext4; [apply Hwf; assumption|exact Hy]. }
    clear -E. destruct g as [[g00 g01 g02 g03] [g10 g11 g12 g13] [g20 g21 g22 g23] [g30 g31 g32 g33]]. unfold q4map. cbn [c0 c1 c2 c3].
    f_equal; f_equal;
    first [ exact (E 0 0 ltac:(lia) ltac:(lia))%nat | exact (E 0 1 ltac:(lia) ltac:(lia))%nat | exact (E 0 2 ltac:(lia) ltac:(lia))%nat | exact (E 0 3 ltac:(lia) ltac:(lia))%nat
          | exact (E 1 0 ltac:(lia) ltac:(lia))%nat | exact (E 1 1 ltac:(lia) ltac:(lia))%nat | exact (E 1 2 ltac:(lia) ltac:(lia))%nat | exact (E 1 3 ltac:(lia) ltac:(lia))%nat
          | exact (E 2 0 ltac:(lia) ltac:(lia))%nat | exact (E 2 1 ltac:(lia) ltac:(lia))%nat | exact (E 2 2 ltac:(lia) ltac:(lia))%nat | exact (E 2 3 ltac:(lia) ltac:(lia))%nat
          | exact (E 3 0 ltac:(lia) ltac:(lia))%nat | exact (E 3 1 ltac:(lia) ltac:(lia))%nat | exact (E 3 2 ltac:(lia) ltac:(lia))%nat | exact (E 3 3 ltac:(lia) ltac:(lia))%nat ]. }
  assert (EP : forall (y : nat -> R) (v : V4), (forall i, (i < 4)%nat -> y (pb + i)%nat = q4nth v i) -> q4tab (fun i => y (pb + i)%nat) = v).
  { intros y v Hy. unfold q4tab. rewrite !Hy by lia. destruct v; reflexivity. }
  intros k Hk. split.
  - assert (P := pd_partial 16 (hamE g qb pb) x (qb + k) Hb Hd ltac:(lia)).
    assert (Q : is_derive (fun t => meaning (upd x (qb + k) t) (hamE g qb pb)) (x (qb + k)%nat) (q4nth grad k)).
    { apply (D_ext (fun t => Ham g (vupd q k t) p)).
      - intros t. rewrite hamE_meaning. unfold Ham. f_equal.
        rewrite (EM (upd x (qb + k) t) (vupd q k t)), (EP (upd x (qb + k) t) p).
        + reflexivity.
        + intros i Hi. unfold upd. destruct (Nat.eqb_spec (pb + i) (qb + k)); [lia|]. apply Hp. exact Hi.
        + intros i Hi. rewrite vupd_nth by exact Hi. unfold upd. destruct (Nat.eqb_spec (qb + i) (qb + k)); destruct (Nat.eqb_spec i k); try lia; [reflexivity|]. apply Hq. exact Hi.
      - rewrite Hq by exact Hk. revert k Hk P. clear -D0 D1 D2 D3. intros k Hk _. revert k Hk. apply q4_cases; assumption. }
    transitivity (Derive (fun t => meaning (upd x (qb + k) t) (hamE g qb pb)) (x (qb + k)%nat)); [symmetry|]; apply is_derive_unique; assumption.
  - assert (P := pd_partial 16 (hamE g qb pb) x (pb + k) Hb Hd ltac:(lia)).
    assert (Q : is_derive (fun t => meaning (upd x (pb + k) t) (hamE g qb pb)) (x (pb + k)%nat) (q4nth (mv (metric_meaning g (q4nth q)) p) k)).
    { apply (D_ext (fun t => Ham g q (vupd p k t))).
      - intros t. rewrite hamE_meaning. unfold Ham. f_equal.
        rewrite (EM (upd x (pb + k) t) q), (EP (upd x (pb + k) t) (vupd p k t)).
        + reflexivity.
        + intros i Hi. rewrite vupd_nth by exact Hi. unfold upd. destruct (Nat.eqb_spec (pb + i) (pb + k)); destruct (Nat.eqb_spec i k); try lia; [reflexivity|]. apply Hp. exact Hi.
        + intros i Hi. unfold upd. destruct (Nat.eqb_spec (qb + i) (pb + k)); [lia|]. apply Hq. exact Hi.
      - rewrite Hp by exact Hk. apply Ham_dp; assumption. }
    transitivity (Derive (fun t => meaning (upd x (pb + k) t) (hamE g qb pb)) (x (pb + k)%nat)); [symmetry|]; apply is_derive_unique; assumption.
Qed.

(** conjugate coordinate and sign: X_i = sgn i * dH/d(conj i) is the Hamiltonian vector field *)
Definition conj (i : nat) : nat := if Nat.even (i / 4) then (i + 4)%nat else (i - 4)%nat.
Definition sgn (i : nat) : R := if Nat.even (i / 4) then 1 else -1.
Definition field (H : pexpr) (i : nat) : pexpr := EMul (EConst (sgn i)) (pd (conj i) H).
Definition HA (g : metricP) : pexpr := hamE g 0 12.
Definition HB (g : metricP) : pexpr := hamE g 8 4.

Lemma stage_A g d s : well_formed g -> symmetric_program g -> metric_defined g (q4nth (q1 s)) ->
  defined_at (flat s) (HA g) /\
  exists s', apply_A (metricfun_of g) d s = Ok s' /\ forall i, (i < 16)%nat -> flat s' i = flat s i + d * meaning (flat s) (field (HA g) i).
Proof.
  intros Hwf Hsym Hdef. destruct (ham_parts g (q1 s) (p2 s) Hwf Hsym Hdef) as (grad & Hg & Hv & Hk).
  destruct (Hk (flat s) 0%nat 12%nat) as [Hd Hp].
  { apply q4_cases; reflexivity. } { apply q4_cases; reflexivity. } { lia. } { lia. } { lia. }
  split; [exact Hd|]. unfold apply_A, flow_A. rewrite Hg. cbn [bindR]. rewrite Hv. cbn [bindR fst snd]. eexists. split; [reflexivity|].
  unfold HA in *. set (h := hamE g 0 12) in *. set (m := mv (metric_meaning g (q4nth (q1 s))) (p2 s)) in *.
  assert (Z : forall k, ((k < 16) /\ (4 <= k < 12))%nat -> meaning (flat s) (pd k h) = 0).
  { intros k Lk. apply pd_unmentioned. apply hamE_mentions; [exact Hwf|lia|lia]. }
  clearbody m h. clear Hg Hv Hk Hd Hdef Hwf Hsym g.
  set (Y := fun k => meaning (flat s) (pd k h)) in *.
  assert (F : forall i, flat s i + d * meaning (flat s) (field h i) = flat s i + d * (sgn i * Y (conj i))) by reflexivity.
  assert (P0 := Hp 0%nat ltac:(lia)). assert (P1 := Hp 1%nat ltac:(lia)). assert (P2 := Hp 2%nat ltac:(lia)). assert (P3 := Hp 3%nat ltac:(lia)).
  change (q4nth grad 0 = Y 0%nat /\ q4nth m 0 = Y 12%nat) in P0. change (q4nth grad 1 = Y 1%nat /\ q4nth m 1 = Y 13%nat) in P1.
  change (q4nth grad 2 = Y 2%nat /\ q4nth m 2 = Y 14%nat) in P2. change (q4nth grad 3 = Y 3%nat /\ q4nth m 3 = Y 15%nat) in P3.
  assert (Z' : forall k, ((k < 16) /\ (4 <= k < 12))%nat -> Y k = 0) by exact Z.
  clearbody Y. clear Hp Z.
  intros i Hi. rewrite F. clear F. revert i Hi.
  destruct s as [[a0 a1 a2 a3] [b0 b1 b2 b3] [e0 e1 e2 e3] [f0 f1 f2 f3]], grad as [u0 u1 u2 u3], m as [m0 m1 m2 m3].
  cbn [q4nth c0 c1 c2 c3] in P0, P1, P2, P3. destruct P0 as [P0 Q0], P1 as [P1 Q1], P2 as [P2 Q2], P3 as [P3 Q3].
  assert (Z4 := Z' 4%nat ltac:(lia)). assert (Z5 := Z' 5%nat ltac:(lia)). assert (Z6 := Z' 6%nat ltac:(lia)). assert (Z7 := Z' 7%nat ltac:(lia)).
  assert (Z8 := Z' 8%nat ltac:(lia)). assert (Z9 := Z' 9%nat ltac:(lia)). assert (Z10 := Z' 10%nat ltac:(lia)). assert (Z11 := Z' 11%nat ltac:(lia)).
  clear Z'.
  apply lt16; cbv [conj sgn flat Nat.even Nat.div Nat.divmod Nat.modulo fst snd Nat.sub Nat.add q4nth q1 p1 q2 p2 c0 c1 c2 c3 vsub vadd vscal q4map2 q4map];
  rewrite ?Z4, ?Z5, ?Z6, ?Z7, ?Z8, ?Z9, ?Z10, ?Z11, <- ?P0, <- ?P1, <- ?P2, <- ?P3, <- ?Q0, <- ?Q1, <- ?Q2, <- ?Q3; ring.
Qed.

Lemma stage_B g d s : well_formed g -> symmetric_program g -> metric_defined g (q4nth (q2 s)) ->
  defined_at (flat s) (HB g) /\
  exists s', apply_B (metricfun_of g) d s = Ok s' /\ forall i, (i < 16)%nat -> flat s' i = flat s i + d * meaning (flat s) (field (HB g) i).
Proof.
  intros Hwf Hsym Hdef. destruct (ham_parts g (q2 s) (p1 s) Hwf Hsym Hdef) as (grad & Hg & Hv & Hk).
  destruct (Hk (flat s) 8%nat 4%nat) as [Hd Hp].
  { apply q4_cases; reflexivity. } { apply q4_cases; reflexivity. } { lia. } { lia. } { lia. }
  split; [exact Hd|]. unfold apply_B, flow_B. rewrite Hg. cbn [bindR]. rewrite Hv. cbn [bindR fst snd]. eexists. split; [reflexivity|].
  unfold HB in *. set (h := hamE g 8 4) in *. set (m := mv (metric_meaning g (q4nth (q2 s))) (p1 s)) in *.
  assert (Z : forall k, ((k < 16) /\ (k < 4 \/ 12 <= k))%nat -> meaning (flat s) (pd k h) = 0).
  { intros k Lk. apply pd_unmentioned. apply hamE_mentions; [exact Hwf|lia|lia]. }
  clearbody m h. clear Hg Hv Hk Hd Hdef Hwf Hsym g.
  set (Y := fun k => meaning (flat s) (pd k h)) in *.
  assert (F : forall i, flat s i + d * meaning (flat s) (field h i) = flat s i + d * (sgn i * Y (conj i))) by reflexivity.
  assert (P0 := Hp 0%nat ltac:(lia)). assert (P1 := Hp 1%nat ltac:(lia)). assert (P2 := Hp 2%nat ltac:(lia)). assert (P3 := Hp 3%nat ltac:(lia)).
  change (q4nth grad 0 = Y 8%nat /\ q4nth m 0 = Y 4%nat) in P0. change (q4nth grad 1 = Y 9%nat /\ q4nth m 1 = Y 5%nat) in P1.
  change (q4nth grad 2 = Y 10%nat /\ q4nth m 2 = Y 6%nat) in P2. change (q4nth grad 3 = Y 11%nat /\ q4nth m 3 = Y 7%nat) in P3.
  assert (Z' : forall k, ((k < 16) /\ (k < 4 \/ 12 <= k))%nat -> Y k = 0) by exact Z.
  clearbody Y. clear Hp Z.
  intros i Hi. rewrite F. clear F. revert i Hi.
  destruct s as [[a0 a1 a2 a3] [b0 b1 b2 b3] [e0 e1 e2 e3] [f0 f1 f2 f3]], grad as [u0 u1 u2 u3], m as [m0 m1 m2 m3].
  cbn [q4nth c0 c1 c2 c3] in P0, P1, P2, P3. destruct P0 as [P0 Q0], P1 as [P1 Q1], P2 as [P2 Q2], P3 as [P3 Q3].
  assert (Z4 := Z' 0%nat ltac:(lia)). assert (Z5 := Z' 1%nat ltac:(lia)). assert (Z6 := Z' 2%nat ltac:(lia)). assert (Z7 := Z' 3%nat ltac:(lia)).
  assert (Z8 := Z' 12%nat ltac:(lia)). assert (Z9 := Z' 13%nat ltac:(lia)). assert (Z10 := Z' 14%nat ltac:(lia)). assert (Z11 := Z' 15%nat ltac:(lia)).
  clear Z'.
  apply lt16; cbv [conj sgn flat Nat.even Nat.div Nat.divmod Nat.modulo fst snd Nat.sub Nat.add q4nth q1 p1 q2 p2 c0 c1 c2 c3 vsub vadd vscal q4map2 q4map];
  rewrite ?Z4, ?Z5, ?Z6, ?Z7, ?Z8, ?Z9, ?Z10, ?Z11, <- ?P0, <- ?P1, <- ?P2, <- ?P3, <- ?Q0, <- ?Q1, <- ?Q2, <- ?Q3; ring.
Qed.
