(** The value of a program depends continuously on its inputs, jointly, and a program defined at a point is defined and
    bounded near it. *)
From Coq Require Import Reals List ZArith Lra Lia Bool.
From Coquelicot Require Import Coquelicot.
From Verif Require Import Base Calc DualModel DualSpec DualProofs DualDiff.
Open Scope R_scope.

Definition near (N : nat) (r : R) (z y : nat -> R) : Prop := forall i, (i < N)%nat -> Rabs (y i - z i) < r.
Definition nearf (N : nat) (z : nat -> R) (P : (nat -> R) -> Prop) : Prop := exists r, 0 < r /\ forall y, near N r z y -> P y.
Global Instance nearf_filter N z : Filter (nearf N z).
Proof.
  constructor.
  - exists 1. split; [lra|auto].
  - intros P Q (r1 & R1 & H1) (r2 & R2 & H2). exists (Rmin r1 r2). split; [apply Rmin_pos; assumption|].
    intros y Hy. split; [apply H1|apply H2]; intros i Hi; eapply Rlt_le_trans; try apply Hy; auto using Rmin_l, Rmin_r.
  - intros P Q HPQ (r & R1 & H). exists r. split; [exact R1|]. auto.
Qed.
Lemma near_self N r z : 0 < r -> near N r z z.
Proof. intros Hr i _. rewrite Rminus_eq_0, Rabs_R0. exact Hr. Qed.
Lemma near_le N r r' z y : r <= r' -> near N r z y -> near N r' z y.
Proof. intros H Hn i Hi. eapply Rlt_le_trans; [apply Hn; exact Hi|exact H]. Qed.

Lemma lim_ne0 {T} (F : (T -> Prop) -> Prop) {FF : Filter F} (f : T -> R) (l : R) : filterlim f F (locally l) -> l <> 0 -> F (fun x => f x <> 0).
Proof.
  intros H Hl. apply (H (fun y => y <> 0)). exists (mkposreal (Rabs l) (Rabs_pos_lt l Hl)). intros y Hy E. subst y.
  unfold ball in Hy; cbn in Hy. unfold AbsRing_ball, abs, minus, plus, opp in Hy; cbn in Hy. rewrite Rplus_0_l, Rabs_Ropp in Hy. lra.
Qed.
Lemma lim_pos {T} (F : (T -> Prop) -> Prop) {FF : Filter F} (f : T -> R) (l : R) : filterlim f F (locally l) -> 0 < l -> F (fun x => 0 < f x).
Proof.
  intros H Hl. apply (H (fun y => 0 < y)). exists (mkposreal l Hl). intros y Hy.
  unfold ball in Hy; cbn in Hy. unfold AbsRing_ball, abs, minus, plus, opp in Hy; cbn in Hy. apply Rabs_def2 in Hy. lra.
Qed.
Lemma cont_id_derive (f : R -> R) (x l : R) : is_derive f x l -> filterlim f (locally x) (locally (f x)).
Proof. exact (D_continuous f x l). Qed.

Lemma lim_plus {T} (F : (T -> Prop) -> Prop) {FF : Filter F} (f g : T -> R) (a b : R) :
  filterlim f F (locally a) -> filterlim g F (locally b) -> filterlim (fun x => f x + g x) F (locally (a + b)).
Proof. intros H1 H2. eapply filterlim_comp_2; [exact H1|exact H2|]. apply (filterlim_plus a b). Qed.
Lemma lim_mult {T} (F : (T -> Prop) -> Prop) {FF : Filter F} (f g : T -> R) (a b : R) :
  filterlim f F (locally a) -> filterlim g F (locally b) -> filterlim (fun x => f x * g x) F (locally (a * b)).
Proof. intros H1 H2. eapply filterlim_comp_2; [exact H1|exact H2|]. apply (filterlim_mult a b). Qed.
Lemma lim_opp {T} (F : (T -> Prop) -> Prop) {FF : Filter F} (f : T -> R) (a : R) :
  filterlim f F (locally a) -> filterlim (fun x => - f x) F (locally (- a)).
Proof. intros H1. eapply filterlim_comp; [exact H1|]. apply (filterlim_opp a). Qed.

Lemma prog_cont N e z : below N e = true -> defined_at z e ->
  filterlim (fun y => meaning y e) (nearf N z) (locally (meaning z e)) /\ nearf N z (fun y => defined_at y e).
Proof.
  induction e; cbn [below defined_at meaning]; intros Hb Hd; try (apply andb_prop in Hb as [Hb1 Hb2]).
  - split; [|exists 1; split; [lra|exact (fun _ _ => I)]].
    intros P [eps HP]. exists eps. split; [apply cond_pos|]. intros y Hy. apply HP. unfold ball; cbn. unfold AbsRing_ball, abs, minus, plus, opp; cbn.
    apply Hy. apply Nat.ltb_lt. exact Hb.
  - split; [apply filterlim_const|exists 1; split; [lra|exact (fun _ _ => I)]].
  - destruct Hd as [D1 D2]. destruct (IHe1 Hb1 D1) as [L1 N1]. destruct (IHe2 Hb2 D2) as [L2 N2]. split; [|apply filter_and; assumption].
    first [exact (lim_plus _ _ _ _ _ L1 L2) | exact (lim_plus _ _ _ _ _ L1 L3)].
  - destruct Hd as [D1 D2]. destruct (IHe1 Hb1 D1) as [L1 N1]. destruct (IHe2 Hb2 D2) as [L2 N2]. split; [|apply filter_and; assumption].
    assert (L3 : filterlim (fun y => - meaning y e2) (nearf N z) (locally (- meaning z e2))) by exact (lim_opp _ _ _ L2).
    first [exact (lim_plus _ _ _ _ _ L1 L2) | exact (lim_plus _ _ _ _ _ L1 L3)].
  - destruct Hd as [D1 D2]. destruct (IHe1 Hb1 D1) as [L1 N1]. destruct (IHe2 Hb2 D2) as [L2 N2]. split; [|apply filter_and; assumption].
    first [exact (lim_mult _ _ _ _ _ L1 L2) | exact (lim_mult _ _ _ _ _ L1 L3)].
  - destruct Hd as (D1 & D2 & D3). destruct (IHe1 Hb1 D1) as [L1 N1]. destruct (IHe2 Hb2 D2) as [L2 N2].
    split; [|apply filter_and; [exact N1|apply filter_and; [exact N2|]]].
    + assert (L3 : filterlim (fun y => / meaning y e2) (nearf N z) (locally (/ meaning z e2))).
      { apply (filterlim_comp _ _ _ _ Rinv _ _ _ L2). eapply cont_id_derive. apply (D_inv (fun s => s) (meaning z e2) 1); [exact D3|apply D_id]. }
      first [exact (lim_mult _ _ _ _ _ L1 L2) | exact (lim_mult _ _ _ _ _ L1 L3)].
    + apply (lim_ne0 _ _ _ L2 D3).
  - destruct (IHe Hb Hd) as [L1 N1]. split; [|exact N1]. exact (lim_opp _ _ _ L1).
  - destruct Hd as (D1 & D2). destruct (IHe Hb D1) as [L1 N1]. split; [|apply filter_and; [exact N1|]].
    + apply (filterlim_comp _ _ _ _ (fun s => powerRZ s n) _ _ _ L1). eapply cont_id_derive. apply (D_powerRZ (fun s => s) (meaning z e) 1 n); [exact D2|apply D_id].
    + destruct D2 as [D2|D2]; [apply filter_forall; intros; left; exact D2|]. generalize (lim_ne0 _ _ _ L1 D2). apply filter_imp. intros x Hx. right. exact Hx.
  - destruct Hd as (D1 & D2). destruct (IHe Hb D1) as [L1 N1]. split; [|apply filter_and; [exact N1|apply (lim_pos _ _ _ L1 D2)]].
    apply (filterlim_comp _ _ _ _ (fun s => Rpower s p) _ _ _ L1). eapply (cont_id_derive (fun s => Rpower s p) (meaning z e)). apply (D_Rpower (fun s => s) (meaning z e) p 1); [exact D2|apply D_id].
  - destruct (IHe Hb Hd) as [L1 N1]. split; [|exact N1]. apply (filterlim_comp _ _ _ _ sin _ _ _ L1). eapply cont_id_derive. apply (D_sin (fun s => s) (meaning z e) 1), D_id.
  - destruct (IHe Hb Hd) as [L1 N1]. split; [|exact N1]. apply (filterlim_comp _ _ _ _ cos _ _ _ L1). eapply cont_id_derive. apply (D_cos (fun s => s) (meaning z e) 1), D_id.
  - destruct Hd as (D1 & D2). destruct (IHe Hb D1) as [L1 N1]. split; [|apply filter_and; [exact N1|]].
    + apply (filterlim_comp _ _ _ _ tan _ _ _ L1). eapply cont_id_derive. apply (D_tan (fun s => s) (meaning z e) 1); [exact D2|apply D_id].
    + assert (L2 : filterlim (fun y => cos (meaning y e)) (nearf N z) (locally (cos (meaning z e)))).
      { apply (filterlim_comp _ _ _ _ cos _ _ _ L1). eapply cont_id_derive. apply (D_cos (fun s => s) (meaning z e) 1), D_id. }
      apply (lim_ne0 _ _ _ L2 D2).
  - destruct Hd as (D1 & D2). destruct (IHe Hb D1) as [L1 N1]. split; [|apply filter_and; [exact N1|apply (lim_pos _ _ _ L1 D2)]].
    apply (filterlim_comp _ _ _ _ ln _ _ _ L1). eapply cont_id_derive. apply (D_ln (fun s => s) (meaning z e) 1); [exact D2|apply D_id].
  - destruct (IHe Hb Hd) as [L1 N1]. split; [|exact N1]. apply (filterlim_comp _ _ _ _ exp _ _ _ L1). eapply cont_id_derive. apply (D_exp (fun s => s) (meaning z e) 1), D_id.
Qed.
(** near a point where it is defined a program is defined, bounded and close to its value there *)
Lemma prog_near N e z : below N e = true -> defined_at z e -> forall eps, 0 < eps ->
  exists r, 0 < r /\ forall y, near N r z y -> defined_at y e /\ Rabs (meaning y e - meaning z e) < eps.
Proof.
  intros Hb Hd eps He. destruct (prog_cont N e z Hb Hd) as [L Nd].
  assert (L' : nearf N z (fun y => Rabs (meaning y e - meaning z e) < eps)).
  { apply (L (fun v => Rabs (v - meaning z e) < eps)). exists (mkposreal eps He). intros v Hv. exact Hv. }
  exact (filter_and _ _ Nd L').
Qed.
Lemma prog_bounded N e z : below N e = true -> defined_at z e ->
  exists r M, 0 < r /\ 0 <= M /\ forall y, near N r z y -> defined_at y e /\ Rabs (meaning y e) <= M.
Proof.
  intros Hb Hd. destruct (prog_near N e z Hb Hd 1 ltac:(lra)) as (r & Hr & H). exists r, (Rabs (meaning z e) + 1).
  split; [exact Hr|]. split; [generalize (Rabs_pos (meaning z e)); lra|]. intros y Hy. destruct (H y Hy) as [A B]. split; [exact A|].
  replace (meaning y e) with (meaning z e + (meaning y e - meaning z e)) by ring. eapply Rle_trans; [apply Rabs_triang|]. lra.
Qed.
(** Taylor's formula with the crude remainder bound *)
Lemma taylor_bound n : forall (f : nat -> R -> R) r M, 0 <= M ->
  (forall k t, (k <= n)%nat -> Rabs t < r -> is_derive (f k) t (f (S k) t)) -> (forall t, Rabs t < r -> Rabs (f (S n) t) <= M) ->
  forall t, Rabs t < r -> Rabs (f 0%nat t - rsum (S n) (fun k => t ^ k / INR (fact k) * f k 0)) <= M * Rabs t ^ S n.
Proof.
  induction n as [|n IH]; intros f r M HM Hd Hb t Ht.
  all: assert (Hmvt : forall (g g' : R -> R) K, 0 <= K -> (forall s, Rabs s <= Rabs t -> is_derive g s (g' s)) -> (forall s, Rabs s <= Rabs t -> Rabs (g' s) <= K) -> Rabs (g t - g 0) <= K * Rabs t)
    by (intros g g' K HK Hg Hg'; destruct (MVT_gen g 0 t g') as (c & Hc & E);
        [ intros x Hx; apply Hg; revert Hx; unfold Rmin, Rmax; destruct (Rle_dec 0 t); intros Hx; unfold Rabs; destruct (Rcase_abs x), (Rcase_abs t); lra
        | intros x Hx; apply continuity_pt_filterlim, (D_continuous g x (g' x)), Hg; revert Hx; unfold Rmin, Rmax; destruct (Rle_dec 0 t); intros Hx; unfold Rabs; destruct (Rcase_abs x), (Rcase_abs t); lra
        | rewrite E, Rminus_0_r, Rabs_mult; apply Rmult_le_compat_r; [apply Rabs_pos|]; apply Hg'; revert Hc; unfold Rmin, Rmax; destruct (Rle_dec 0 t); intros Hx; unfold Rabs; destruct (Rcase_abs c), (Rcase_abs t); lra ]).
  - cbn [rsum]. replace (0 + t ^ 0 / INR (fact 0) * f 0%nat 0) with (f 0%nat 0) by (cbn; field). rewrite pow_1.
    apply (Hmvt (f 0%nat) (f 1%nat) M HM); intros s Hs; [apply Hd; [lia|lra]|apply Hb; lra].
  - set (g := fun s => f 0%nat s - rsum (S (S n)) (fun k => s ^ k / INR (fact k) * f k 0)).
    assert (G0 : g 0 = 0).
    { unfold g. assert (E : forall m, rsum (S m) (fun k => 0 ^ k / INR (fact k) * f k 0) = f 0%nat 0).
      { induction m as [|m IHm]; [cbn; field|]. change (rsum (S (S m)) (fun k => 0 ^ k / INR (fact k) * f k 0)) with (rsum (S m) (fun k => 0 ^ k / INR (fact k) * f k 0) + 0 ^ S m / INR (fact (S m)) * f (S m) 0).
        rewrite IHm, pow_i by lia. unfold Rdiv. ring. }
      rewrite E. ring. }
    set (g' := fun s => f 1%nat s - rsum (S n) (fun k => s ^ k / INR (fact k) * f (S k) 0)).
    assert (Gd : forall s, Rabs s < r -> is_derive g s (g' s)).
    { intros s Hs. unfold g, g'. apply D_minus; [apply Hd; [lia|exact Hs]|].
      assert (E : forall m, is_derive (fun s => rsum (S m) (fun k => s ^ k / INR (fact k) * f k 0)) s (rsum m (fun k => s ^ k / INR (fact k) * f (S k) 0))).
      { induction m as [|m IHm].
        - cbn [rsum]. apply (D_ext (fun _ => f 0%nat 0)); [intros; cbn; field|apply D_const].
        - change (is_derive (fun s => rsum (S m) (fun k => s ^ k / INR (fact k) * f k 0) + s ^ S m / INR (fact (S m)) * f (S m) 0) s (rsum m (fun k => s ^ k / INR (fact k) * f (S k) 0) + s ^ m / INR (fact m) * f (S m) 0)).
          apply (D_plus (fun s => rsum (S m) (fun k => s ^ k / INR (fact k) * f k 0))); [exact IHm|].
          apply (D_ext (fun s => (f (S m) 0 / INR (fact (S m))) * s ^ S m)); [intros; unfold Rdiv; ring|].
          eapply D_eq; [apply D_scal, (D_pow (fun s => s) s (S m) 1), D_id|].
          cbn [pred]. rewrite fact_simpl, mult_INR. field. split; [apply INR_fact_neq_0|apply not_0_INR; lia]. }
      apply E. }
    change (Rabs (g t) <= M * Rabs t ^ S (S n)). replace (g t) with (g t - g 0) by (rewrite G0; ring).
    replace (M * Rabs t ^ S (S n)) with ((M * Rabs t ^ S n) * Rabs t) by (cbn; ring).
    apply (Hmvt g g').
    + apply Rmult_le_pos; [exact HM|apply pow_le, Rabs_pos].
    + intros s Hs. apply Gd. lra.
    + intros s Hs. unfold g'. eapply Rle_trans.
      * apply (IH (fun k => f (S k)) r M HM); [|exact Hb|lra]. intros k u Hk Hu. apply Hd; [lia|exact Hu].
      * apply Rmult_le_compat_l; [exact HM|]. apply pow_incr. split; [apply Rabs_pos|exact Hs].
Qed.
