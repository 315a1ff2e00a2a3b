(** Rounding errors: a computed quantity tracks an exact one when their distance is at most a constant times the unit roundoff.
    Everything depends on an index j (the arithmetic, its unit roundoff, the input), "eventually" in a filter F on indices. *)
From Coq Require Import Reals List ZArith Lra Lia Bool.
From Coquelicot Require Import Coquelicot.
From Verif Require Import Base Calc DualModel DualSpec DualProofs DualDiff GeoUtilsModel GeoUtilsSpec FantasyModel FantasyProofs3 ProgCont GeodesicModel FloatModel.
Import ListNotations.
Open Scope R_scope.

(** locally Lipschitz *)
Definition loclip (f : R -> R) (l : R) : Prop := exists r L, 0 < r /\ 0 <= L /\ forall a b, Rabs (a - l) < r -> Rabs (b - l) < r -> Rabs (f a - f b) <= L * Rabs (a - b).
Lemma loclip_derive (f f' : R -> R) l : locally l (fun x => is_derive f x (f' x)) -> continuous f' l -> loclip f l.
Proof.
  intros [e He] Hc. destruct (Hc (fun y => Rabs (y - f' l) < 1)) as [e' He']. { exists (mkposreal 1 Rlt_0_1). intros y Hy. exact Hy. }
  set (r := Rmin e e'). assert (Hr : 0 < r) by (apply Rmin_pos; apply cond_pos).
  assert (B : forall x, Rabs (x - l) < r -> is_derive f x (f' x) /\ Rabs (f' x) <= Rabs (f' l) + 1).
  { intros x Hx. split; [apply He; unfold ball; cbn; unfold AbsRing_ball, abs, minus, plus, opp; cbn; eapply Rlt_le_trans; [exact Hx|apply Rmin_l]|].
    assert (Q : Rabs (f' x - f' l) < 1) by (apply He'; unfold ball; cbn; unfold AbsRing_ball, abs, minus, plus, opp; cbn; eapply Rlt_le_trans; [exact Hx|apply Rmin_r]).
    replace (f' x) with (f' l + (f' x - f' l)) by ring. eapply Rle_trans; [apply Rabs_triang|]. lra. }
  exists r, (Rabs (f' l) + 1). split; [exact Hr|]. split; [generalize (Rabs_pos (f' l)); lra|]. intros a b Ha Hb.
  assert (M : forall x, Rmin b a <= x <= Rmax b a -> Rabs (x - l) < r).
  { intros x. apply Rabs_def2 in Ha. apply Rabs_def2 in Hb. unfold Rmin, Rmax. destruct (Rle_dec b a); intros; apply Rabs_def1; lra. }
  destruct (MVT_gen f b a f') as (c & Hc1 & E).
  - intros x Hx. apply B, M. lra.
  - intros x Hx. apply continuity_pt_filterlim. eapply D_continuous. apply B, M. exact Hx.
  - rewrite E, Rabs_mult. apply Rmult_le_compat_r; [apply Rabs_pos|]. apply B, M, Hc1.
Qed.
Lemma locally_R l (P : R -> Prop) r : 0 < r -> (forall x, Rabs (x - l) < r -> P x) -> locally l P.
Proof. intros Hr H. exists (mkposreal r Hr). intros x Hx. apply H. exact Hx. Qed.
Lemma loclip_sin l : loclip sin l.
Proof. apply (loclip_derive sin cos); [apply filter_forall; intros x; eapply D_eq; [apply (D_sin (fun s => s) x 1), D_id|ring]|eapply D_continuous, (D_cos (fun s => s) l 1), D_id]. Qed.
Lemma loclip_cos l : loclip cos l.
Proof.
  apply (loclip_derive cos (fun x => - sin x)); [apply filter_forall; intros x; eapply D_eq; [apply (D_cos (fun s => s) x 1), D_id|ring]|].
  eapply (D_continuous (fun x => - sin x)). apply D_opp. apply (D_sin (fun s => s) l 1), D_id.
Qed.
Lemma loclip_exp l : loclip exp l.
Proof. apply (loclip_derive exp exp); [apply filter_forall; intros x; eapply D_eq; [apply (D_exp (fun s => s) x 1), D_id|ring]|eapply D_continuous, (D_exp (fun s => s) l 1), D_id]. Qed.
Lemma loclip_ln l : 0 < l -> loclip ln l.
Proof.
  intros H. apply (loclip_derive ln Rinv).
  - apply (locally_R l _ l H). intros x Hx. apply Rabs_def2 in Hx. eapply D_eq; [apply (D_ln (fun s => s) x 1); [lra|apply D_id]|ring].
  - eapply (D_continuous Rinv). apply (D_inv (fun s => s) l 1); [lra|apply D_id].
Qed.
Lemma loclip_inv l : l <> 0 -> loclip Rinv l.
Proof.
  intros H. apply (loclip_derive Rinv (fun x => -1 / (x * x))).
  - apply (locally_R l _ (Rabs l) (Rabs_pos_lt l H)). intros x Hx. apply (D_inv (fun s => s) x 1); [|apply D_id]. intros ->. rewrite Rminus_0_l, Rabs_Ropp in Hx. lra.
  - eapply (D_continuous (fun x => -1 / (x * x))). apply (D_div (fun _ => -1) (fun x => x * x) l); [nra|apply D_const|apply D_mult; apply D_id].
Qed.
Lemma loclip_sqrt l : 0 < l -> loclip sqrt l.
Proof.
  intros H. apply (loclip_derive sqrt (fun x => 1 / (2 * sqrt x))).
  - apply (locally_R l _ l H). intros x Hx. apply Rabs_def2 in Hx. apply (D_sqrt (fun s => s) x 1); [lra|apply D_id].
  - eapply (D_continuous (fun x => 1 / (2 * sqrt x))). assert (Q := sqrt_lt_R0 l H). apply (D_div (fun _ => 1) (fun x => 2 * sqrt x) l); [nra|apply D_const|apply D_scal, (D_sqrt (fun s => s) l 1); [exact H|apply D_id]].
Qed.
Lemma loclip_tan l : cos l <> 0 -> loclip tan l.
Proof.
  intros H. apply (loclip_derive tan (fun x => 1 / (cos x * cos x))).
  - assert (L : locally l (fun s => cos s <> 0)) by (apply (locally_nonzero cos); [eapply D_continuous, (D_cos (fun s => s) l 1), D_id|exact H]).
    revert L. apply filter_imp. intros x Hx. eapply D_eq; [apply (D_tan (fun s => s) x 1); [exact Hx|apply D_id]|]. try reflexivity; field; exact Hx.
  - eapply (D_continuous (fun x => 1 / (cos x * cos x))). apply (D_div (fun _ => 1) (fun x => cos x * cos x) l); [apply Rmult_integral_contrapositive_currified; exact H|apply D_const|].
    apply D_mult; apply (D_cos (fun s => s) l 1), D_id.
Qed.
Lemma loclip_const c l : loclip (fun _ => c) l.
Proof. exists 1, 0. split; [lra|]. split; [lra|]. intros. rewrite Rminus_eq_0, Rabs_R0. lra. Qed.
Lemma loclip_ext (f g : R -> R) l : (forall x, f x = g x) -> loclip f l -> loclip g l.
Proof. intros E (r & L & A & B & H). exists r, L. split; [exact A|]. split; [exact B|]. intros a b Ha Hb. rewrite <- !E. apply H; assumption. Qed.
Lemma loclip_powerRZ n l : (0 <= n)%Z \/ l <> 0 -> loclip (fun x => powerRZ x n) l.
Proof.
  intros H. destruct (Z.eq_dec n 0) as [-> |N]. { apply (loclip_ext (fun _ => 1)); [reflexivity|apply loclip_const]. }
  destruct (Z.eq_dec n 1) as [-> |N1]. { apply (loclip_ext (fun x => x)); [intros x; symmetry; apply powerRZ_1|]. exists 1, 1. split; [lra|]. split; [lra|]. intros. lra. }
  assert (H' : (1 <= n - 1)%Z \/ l <> 0) by (destruct H; [left; lia|right; assumption]).
  apply (loclip_derive (fun x => powerRZ x n) (fun x => IZR n * powerRZ x (n - 1))).
  - assert (L : locally l (fun s => (1 <= n)%Z \/ s <> 0)).
    { destruct H as [H|H]; [apply filter_forall; intros; left; lia|]. apply (locally_R l _ (Rabs l) (Rabs_pos_lt l H)). intros x Hx. right. intros ->. rewrite Rminus_0_l, Rabs_Ropp in Hx. lra. }
    revert L. apply filter_imp. intros x Hx. eapply D_eq; [apply (D_powerRZ (fun s => s) x 1 n Hx), D_id|ring].
  - eapply (D_continuous (fun x => IZR n * powerRZ x (n - 1))). apply D_scal. apply (D_powerRZ (fun s => s) l 1 (n - 1) H'), D_id.
Qed.

(** The exact maps, as total functions of the state (they are the values of the exact models where the metric is defined). *)
Definition upM (g : metricP) (q : V4) (k : nat) : M4 := mtab (fun a b => if Nat.leb a b then meaning (q4nth q) (pd k (mnth g a b)) else 0).
Definition jacM (g : metricP) (q : V4) (k : nat) : M4 := mtab (fun a b => mnth (upM g q k) a b + mnth (upM g q k) b a - (if Nat.eqb a b then mnth (upM g q k) a a else 0)).
Definition gradM (g : metricP) (q p : V4) : V4 := q4tab (fun k => / 2 * dot (mv (jacM g q k) p) p).
Definition mapA (g : metricP) (d : R) (s : state) : state :=
  mkQ4 (q1 s) (vsub (p1 s) (vscal d (gradM g (q1 s) (p2 s)))) (vadd (q2 s) (vscal d (mv (metric_meaning g (q4nth (q1 s))) (p2 s)))) (p2 s).
Definition mapB (g : metricP) (d : R) (s : state) : state :=
  mkQ4 (vadd (q1 s) (vscal d (mv (metric_meaning g (q4nth (q2 s))) (p1 s)))) (p1 s) (q2 s) (vsub (p2 s) (vscal d (gradM g (q2 s) (p1 s)))).
Definition map2 (g : metricP) (w d : R) (s : state) : state :=
  mapA g (/ 2 * d) (mapB g (/ 2 * d) (flow_mixed (mapB g (/ 2 * d) (mapA g (/ 2 * d) s)) d w)).
(** the metric is defined wherever such a step evaluates it *)
Definition def2 (g : metricP) (w d : R) (s : state) : Prop :=
  let s1 := mapA g (/ 2 * d) s in let s2 := mapB g (/ 2 * d) s1 in let s3 := flow_mixed s2 d w in let s4 := mapB g (/ 2 * d) s3 in
  metric_defined g (q4nth (q1 s)) /\ metric_defined g (q4nth (q2 s1)) /\ metric_defined g (q4nth (q2 s3)) /\ metric_defined g (q4nth (q1 s4)).
Definition map3 (order : nat) (f : R -> state -> state) (d : R) (s : state) : state :=
  f (d * snd (Z01 order)) (f (d * fst (Z01 order)) (f (d * snd (Z01 order)) s)).
Definition def3 (order : nat) (f : R -> state -> state) (D : R -> state -> Prop) (d : R) (s : state) : Prop :=
  let s1 := f (d * snd (Z01 order)) s in let s2 := f (d * fst (Z01 order)) s1 in
  D (d * snd (Z01 order)) s /\ D (d * fst (Z01 order)) s1 /\ D (d * snd (Z01 order)) s2.
Definition mapN (order : nat) (g : metricP) (w : R) : R -> state -> state :=
  match order with
  | 4 => map3 4 (map2 g w) | 6 => map3 6 (map3 6 (map2 g w)) | 8 => map3 8 (map3 8 (map3 8 (map2 g w))) | _ => map2 g w
  end%nat.
Definition defN (order : nat) (g : metricP) (w : R) : R -> state -> Prop :=
  match order with
  | 4 => def3 4 (map2 g w) (def2 g w)
  | 6 => def3 6 (map3 6 (map2 g w)) (def3 6 (map2 g w) (def2 g w))
  | 8 => def3 8 (map3 8 (map3 8 (map2 g w))) (def3 8 (map3 8 (map2 g w)) (def3 8 (map2 g w) (def2 g w)))
  | _ => def2 g w
  end%nat.

Section Track.
Context {J : Type} (F : (J -> Prop) -> Prop) {FF : Filter F} (u : J -> R) (A : J -> arith).
Hypothesis Hu0 : F (fun j => 0 <= u j).
Hypothesis Hu : filterlim u F (locally 0).
Hypothesis HA : F (fun j => accurate (u j) (A j)).

Definition nr (v x : J -> R) (l : R) : Prop := filterlim x F (locally l) /\ exists C, 0 <= C /\ F (fun j => Rabs (v j - x j) <= C * u j).
(** eventually the computation succeeds with value v *)
Definition evok {B} (r : J -> Res B) (v : J -> B) : Prop := F (fun j => r j = Ok (v j)).

Lemma evok_bind {B D} (r : J -> Res B) (v : J -> B) (K : J -> B -> Res D) (w : J -> D) :
  evok r v -> evok (fun j => K j (v j)) w -> evok (fun j => bindR (r j) (K j)) w.
Proof. intros H1 H2. unfold evok in *. generalize (filter_and _ _ H1 H2). apply filter_imp. intros j [E1 E2]. rewrite E1. exact E2. Qed.
Lemma evok_map {B D} (f : B -> D) (r : J -> Res B) v : evok r v -> evok (fun j => mapR f (r j)) (fun j => f (v j)).
Proof. unfold evok. apply filter_imp. intros j E. rewrite E. reflexivity. Qed.
Lemma evok_ok {B} (v : J -> B) : evok (fun j => Ok (v j)) v.
Proof. unfold evok. apply filter_forall. reflexivity. Qed.
Lemma evok_ext {B} (r r' : J -> Res B) v : F (fun j => r j = r' j) -> evok r v -> evok r' v.
Proof. intros H1 H2. unfold evok in *. generalize (filter_and _ _ H1 H2). apply filter_imp. intros j [E1 E2]. rewrite <- E1. exact E2. Qed.
Lemma evok_seq (r : nat -> J -> Res R) (v : nat -> J -> R) : (forall i, (i < 4)%nat -> evok (r i) (v i)) ->
  evok (fun j => q4seq (q4tab (fun i => r i j))) (fun j => q4tab (fun i => v i j)).
Proof.
  intros H. unfold evok in *. assert (H0 := H 0%nat ltac:(lia)). assert (H1 := H 1%nat ltac:(lia)). assert (H2 := H 2%nat ltac:(lia)). assert (H3 := H 3%nat ltac:(lia)).
  generalize (filter_and _ _ (filter_and _ _ H0 H1) (filter_and _ _ H2 H3)). apply filter_imp. intros j [[E0 E1] [E2 E3]].
  unfold q4seq, q4tab. cbn [c0 c1 c2 c3]. rewrite E0, E1, E2, E3. reflexivity.
Qed.
Lemma evok_seqV {B} (r : nat -> J -> Res B) (v : nat -> J -> B) : (forall i, (i < 4)%nat -> evok (r i) (v i)) ->
  evok (fun j => q4seq (q4tab (fun i => r i j))) (fun j => q4tab (fun i => v i j)).
Proof.
  intros H. unfold evok in *. assert (H0 := H 0%nat ltac:(lia)). assert (H1 := H 1%nat ltac:(lia)). assert (H2 := H 2%nat ltac:(lia)). assert (H3 := H 3%nat ltac:(lia)).
  generalize (filter_and _ _ (filter_and _ _ H0 H1) (filter_and _ _ H2 H3)). apply filter_imp. intros j [[E0 E1] [E2 E3]].
  unfold q4seq, q4tab. cbn [c0 c1 c2 c3]. rewrite E0, E1, E2, E3. reflexivity.
Qed.

Lemma u_small e : 0 < e -> F (fun j => u j <= e).
Proof.
  intros He. assert (H := Hu (fun y => Rabs y < e)). assert (L : locally 0 (fun y => Rabs y < e)) by (apply (locally_R 0 _ e He); intros x Hx; rewrite Rminus_0_r in Hx; exact Hx).
  specialize (H L). unfold filtermap in H. revert H. apply filter_imp. intros j Hj. apply Rabs_def2 in Hj. lra.
Qed.
Lemma lim_close x l e : 0 < e -> filterlim x F (locally l) -> F (fun j => Rabs (x j - l) < e).
Proof. intros He H. apply (H (fun y => Rabs (y - l) < e)). apply (locally_R l _ e He). auto. Qed.
Lemma nr_close v x l e : 0 < e -> nr v x l -> F (fun j => Rabs (v j - l) < e /\ Rabs (x j - l) < e).
Proof.
  intros He [Hx (C & HC & Hv)].
  assert (H1 := lim_close x l (e / 2) ltac:(lra) Hx). assert (H2 := u_small (e / (2 * (C + 1))) ltac:(apply Rdiv_lt_0_compat; lra)).
  generalize (filter_and _ _ H1 (filter_and _ _ H2 (filter_and _ _ Hv Hu0))). apply filter_imp. intros j (X1 & X2 & X3 & X4).
  assert (Q : C * u j < e / 2).
  { apply Rle_lt_trans with (C * (e / (2 * (C + 1)))); [apply Rmult_le_compat_l; assumption|]. apply Rmult_lt_reg_r with (2 * (C + 1)); [lra|].
    replace (C * (e / (2 * (C + 1))) * (2 * (C + 1))) with (C * e) by (field; lra). nra. }
  split; [|lra]. replace (v j - l) with ((v j - x j) + (x j - l)) by ring. eapply Rle_lt_trans; [apply Rabs_triang|]. lra.
Qed.
(** both are bounded *)
Lemma nr_bound v x l : nr v x l -> F (fun j => Rabs (v j) <= Rabs l + 1 /\ Rabs (x j) <= Rabs l + 1).
Proof.
  intros H. generalize (nr_close v x l 1 ltac:(lra) H). apply filter_imp. intros j [H1 H2].
  split; [replace (v j) with (l + (v j - l)) by ring|replace (x j) with (l + (x j - l)) by ring]; (eapply Rle_trans; [apply Rabs_triang|]; lra).
Qed.
Lemma nr_const c : nr (fun _ => c) (fun _ => c) c.
Proof. split; [apply filterlim_const|]. exists 0. split; [lra|]. apply filter_forall. intros j. rewrite Rminus_eq_0, Rabs_R0. lra. Qed.
Lemma nr_self x l : filterlim x F (locally l) -> nr x x l.
Proof. intros H. split; [exact H|]. exists 0. split; [lra|]. apply filter_forall. intros j. rewrite Rminus_eq_0, Rabs_R0. lra. Qed.
Lemma nr_ext v x v' x' l : F (fun j => v j = v' j) -> F (fun j => x j = x' j) -> nr v x l -> nr v' x' l.
Proof.
  intros Ev Ex [H (C & HC & Hv)]. split.
  - apply (filterlim_ext_loc x); [exact Ex|exact H].
  - exists C. split; [exact HC|]. generalize (filter_and _ _ Hv (filter_and _ _ Ev Ex)). apply filter_imp. intros j (X1 & X2 & X3). rewrite <- X2, <- X3. exact X1.
Qed.
Lemma nr_lim v x l l' : l = l' -> nr v x l -> nr v x l'.
Proof. intros ->. auto. Qed.
Lemma nr_ext_all v x v' x' l : (forall j, v j = v' j) -> (forall j, x j = x' j) -> nr v x l -> nr v' x' l.
Proof. intros Ev Ex. apply nr_ext; apply filter_forall; assumption. Qed.

Lemma nr_fun f v x l : loclip f l -> nr v x l -> nr (fun j => f (v j)) (fun j => f (x j)) (f l).
Proof.
  intros (r & L & Hr & HL & Hf) H. assert (H0 := nr_close v x l r Hr H). destruct H as [Hx (C & HC & Hv)]. split.
  - apply (filterlim_comp _ _ _ x f F (locally l)); [exact Hx|]. intros P [e HP].
    apply (locally_R l _ (Rmin r (e / (L + 1)))). { apply Rmin_pos; [exact Hr|]. apply Rdiv_lt_0_compat; [apply cond_pos|lra]. }
    intros y Hy. apply HP. unfold ball; cbn; unfold AbsRing_ball, abs, minus, plus, opp; cbn. eapply Rle_lt_trans; [apply (Hf y l)|].
    + eapply Rlt_le_trans; [exact Hy|apply Rmin_l].
    + rewrite Rminus_eq_0, Rabs_R0. exact Hr.
    + assert (Q : Rabs (y - l) < e / (L + 1)) by (eapply Rlt_le_trans; [exact Hy|apply Rmin_r]). assert (P0 := Rabs_pos (y - l)).
      apply Rmult_lt_compat_r with (r := L + 1) in Q; [|lra]. replace (e / (L + 1) * (L + 1)) with (pos e) in Q by (field; lra). nra.
  - exists (L * C). split; [apply Rmult_le_pos; assumption|]. generalize (filter_and _ _ H0 Hv). apply filter_imp. intros j [[X1 X2] X3].
    eapply Rle_trans; [apply Hf; assumption|]. rewrite Rmult_assoc. apply Rmult_le_compat_l; assumption.
Qed.
Lemma nr_opp v x l : nr v x l -> nr (fun j => - v j) (fun j => - x j) (- l).
Proof. intros H. apply (nr_fun Ropp); [|exact H]. exists 1, 1. split; [lra|]. split; [lra|]. intros a b _ _. replace (- a - - b) with (- (a - b)) by ring. rewrite Rabs_Ropp. lra. Qed.
Lemma nr_plus v x l w y m : nr v x l -> nr w y m -> nr (fun j => v j + w j) (fun j => x j + y j) (l + m).
Proof.
  intros [H1 (C1 & P1 & E1)] [H2 (C2 & P2 & E2)]. split; [apply lim_plus; assumption|]. exists (C1 + C2). split; [lra|].
  generalize (filter_and _ _ E1 E2). apply filter_imp. intros j [X1 X2]. replace (v j + w j - (x j + y j)) with ((v j - x j) + (w j - y j)) by ring. eapply Rle_trans; [apply Rabs_triang|]. lra.
Qed.
Lemma nr_minus v x l w y m : nr v x l -> nr w y m -> nr (fun j => v j - w j) (fun j => x j - y j) (l - m).
Proof. intros H1 H2. apply (nr_plus v x l _ _ _ H1 (nr_opp _ _ _ H2)). Qed.
Lemma nr_mult v x l w y m : nr v x l -> nr w y m -> nr (fun j => v j * w j) (fun j => x j * y j) (l * m).
Proof.
  intros H1 H2. assert (B1 := nr_bound _ _ _ H1). assert (B2 := nr_bound _ _ _ H2). destruct H1 as [H1 (C1 & P1 & E1)], H2 as [H2 (C2 & P2 & E2)]. split; [apply lim_mult; assumption|].
  assert (Q1 := Rabs_pos l). assert (Q2 := Rabs_pos m).
  exists (C1 * (Rabs m + 1) + (Rabs l + 1) * C2). split; [apply Rplus_le_le_0_compat; apply Rmult_le_pos; lra|].
  generalize (filter_and _ _ (filter_and _ _ E1 E2) (filter_and _ _ B1 B2)). apply filter_imp. intros j [[X1 X2] [[X3 X4] [X5 X6]]].
  replace (v j * w j - x j * y j) with ((v j - x j) * w j + x j * (w j - y j)) by ring. eapply Rle_trans; [apply Rabs_triang|]. rewrite !Rabs_mult, Rmult_plus_distr_r. apply Rplus_le_compat.
  - replace (C1 * (Rabs m + 1) * u j) with ((C1 * u j) * (Rabs m + 1)) by ring. apply Rmult_le_compat; try apply Rabs_pos; assumption.
  - rewrite Rmult_assoc. apply Rmult_le_compat; try apply Rabs_pos; assumption.
Qed.
Lemma nr_div v x l w y m : m <> 0 -> nr v x l -> nr w y m -> nr (fun j => v j / w j) (fun j => x j / y j) (l / m).
Proof. intros Hm H1 H2. apply (nr_mult v x l _ _ _ H1). apply (nr_fun Rinv _ _ _ (loclip_inv m Hm) H2). Qed.
Lemma nr_ne0 v x l : l <> 0 -> nr v x l -> F (fun j => v j <> 0).
Proof. intros Hl H. generalize (nr_close v x l (Rabs l) (Rabs_pos_lt l Hl) H). apply filter_imp. intros j [X _] E. rewrite E, Rminus_0_l, Rabs_Ropp in X. lra. Qed.
Lemma nr_pos v x l : 0 < l -> nr v x l -> F (fun j => 0 < v j).
Proof. intros Hl H. generalize (nr_close v x l l Hl H). apply filter_imp. intros j [X _]. apply Rabs_def2 in X. lra. Qed.

(** rounding *)
Definition okT {D} (r : J -> Res D) (P : (J -> D) -> Prop) : Prop := exists v, evok r v /\ P v.
Lemma okT_bind {B D} (r : J -> Res B) P (K : J -> B -> Res D) Q : okT r P -> (forall v, P v -> okT (fun j => K j (v j)) Q) -> okT (fun j => bindR (r j) (K j)) Q.
Proof. intros (v & E & H) HK. destruct (HK v H) as (w & E2 & H2). exists w. split; [apply (evok_bind r v K w E E2)|exact H2]. Qed.
Lemma okT_map {B D} (f : B -> D) (r : J -> Res B) Q : okT r (fun v => Q (fun j => f (v j))) -> okT (fun j => mapR f (r j)) Q.
Proof. intros (v & E & H). exists (fun j => f (v j)). split; [apply evok_map; exact E|exact H]. Qed.
Lemma okT_ok {D} (v : J -> D) (Q : (J -> D) -> Prop) : Q v -> okT (fun j => Ok (v j)) Q.
Proof. intros H. exists v. split; [apply evok_ok|exact H]. Qed.
Lemma okT_ext {D} (r r' : J -> Res D) Q : (forall j, r j = r' j) -> okT r Q -> okT r' Q.
Proof. intros E (v & H1 & H2). exists v. split; [|exact H2]. revert H1. apply evok_ext. apply filter_forall. exact E. Qed.
Lemma okT_ev {D} (r r' : J -> Res D) Q : F (fun j => r j = r' j) -> okT r Q -> okT r' Q.
Proof. intros E (v & H1 & H2). exists v. split; [|exact H2]. revert H1. apply evok_ext. exact E. Qed.
Lemma okT_imp {D} (r : J -> Res D) (P Q : (J -> D) -> Prop) : (forall v, P v -> Q v) -> okT r P -> okT r Q.
Proof. intros H (v & H1 & H2). exists v. split; [exact H1|apply H, H2]. Qed.
Definition okto (r : J -> Res R) (x : J -> R) (l : R) : Prop := okT r (fun v => nr v x l).
Lemma nr_ub v x l : nr v x l -> F (fun j => u j * Rabs (v j) <= 1).
Proof.
  intros H. assert (P := Rabs_pos l). assert (U := u_small (/ (Rabs l + 1)) ltac:(apply Rinv_0_lt_compat; lra)).
  generalize (filter_and _ _ (filter_and _ _ U Hu0) (nr_bound _ _ _ H)). apply filter_imp. intros j [[X1 X2] [X3 _]].
  apply Rle_trans with (/ (Rabs l + 1) * (Rabs l + 1)); [apply Rmult_le_compat; try assumption; apply Rabs_pos|]. rewrite Rinv_l; lra.
Qed.
Lemma nr_round (r : J -> Res R) v x l : nr v x l -> F (fun j => rounds (u j) (r j) (v j)) -> okto r x l.
Proof.
  intros H Hr. assert (B := nr_bound _ _ _ H). destruct H as [H (C & HC & E)].
  exists (fun j => match r j with Ok w => w | Err _ => 0 end). split; [|split; [exact H|]].
  - unfold evok. revert Hr. apply filter_imp. intros j (w & -> & _). reflexivity.
  - exists (C + (Rabs l + 2)). split; [generalize (Rabs_pos l); lra|]. generalize (filter_and _ _ (filter_and _ _ Hr Hu0) (filter_and _ _ E B)). apply filter_imp.
    intros j [[(w & -> & Hw) X0] [X1 [X2 _]]]. replace (w - x j) with ((w - v j) + (v j - x j)) by ring. eapply Rle_trans; [apply Rabs_triang|].
    rewrite Rmult_plus_distr_r, Rplus_comm. apply Rplus_le_compat; [exact X1|]. eapply Rle_trans; [exact Hw|]. rewrite Rmult_comm. apply Rmult_le_compat_r; [exact X0|lra].
Qed.
Lemma okto_ok v x l : nr v x l -> okto (fun j => Ok (v j)) x l.
Proof. intros H. exists v. split; [apply evok_ok|exact H]. Qed.
Lemma okto_num c : okto (fun j => a_num (A j) c) (fun _ => c) c.
Proof.
  apply (nr_round _ (fun _ => c) _ _ (nr_const c)). generalize (filter_and _ _ HA (nr_ub _ _ _ (nr_const c))). apply filter_imp. intros j [H1 H2]. apply (acc_num _ _ H1). exact H2.
Qed.
Lemma okto_add v x l w y m : nr v x l -> nr w y m -> okto (fun j => a_add (A j) (v j) (w j)) (fun j => x j + y j) (l + m).
Proof.
  intros H1 H2. assert (N := nr_plus _ _ _ _ _ _ H1 H2). apply (nr_round _ _ _ _ N). generalize (filter_and _ _ HA (nr_ub _ _ _ N)). apply filter_imp. intros j [X1 X2]. apply (acc_add _ _ X1). exact X2.
Qed.
Lemma okto_sub v x l w y m : nr v x l -> nr w y m -> okto (fun j => a_sub (A j) (v j) (w j)) (fun j => x j - y j) (l - m).
Proof.
  intros H1 H2. assert (N := nr_minus _ _ _ _ _ _ H1 H2). apply (nr_round _ _ _ _ N). generalize (filter_and _ _ HA (nr_ub _ _ _ N)). apply filter_imp. intros j [X1 X2]. apply (acc_sub _ _ X1). exact X2.
Qed.
Lemma okto_mul v x l w y m : nr v x l -> nr w y m -> okto (fun j => a_mul (A j) (v j) (w j)) (fun j => x j * y j) (l * m).
Proof.
  intros H1 H2. assert (N := nr_mult _ _ _ _ _ _ H1 H2). apply (nr_round _ _ _ _ N). generalize (filter_and _ _ HA (nr_ub _ _ _ N)). apply filter_imp. intros j [X1 X2]. apply (acc_mul _ _ X1). exact X2.
Qed.
Lemma okto_div v x l w y m : m <> 0 -> nr v x l -> nr w y m -> okto (fun j => a_div (A j) (v j) (w j)) (fun j => x j / y j) (l / m).
Proof.
  intros Hm H1 H2. assert (N := nr_div _ _ _ _ _ _ Hm H1 H2). apply (nr_round _ _ _ _ N). generalize (filter_and _ _ HA (filter_and _ _ (nr_ne0 _ _ _ Hm H2) (nr_ub _ _ _ N))). apply filter_imp.
  intros j [X1 [X2 X3]]. apply (acc_div _ _ X1); assumption.
Qed.
Lemma okto_pow v x l n : (0 <= n)%Z \/ l <> 0 -> nr v x l -> okto (fun j => a_pow (A j) (v j) n) (fun j => powerRZ (x j) n) (powerRZ l n).
Proof.
  intros Hn H. assert (N := nr_fun (fun x => powerRZ x n) _ _ _ (loclip_powerRZ n l Hn) H). apply (nr_round _ _ _ _ N).
  assert (D : F (fun j => v j <> 0 \/ (0 <= n)%Z)). { destruct Hn as [Hn|Hn]; [apply filter_forall; intros; right; exact Hn|]. generalize (nr_ne0 _ _ _ Hn H). apply filter_imp. intros; left; assumption. }
  generalize (filter_and _ _ HA (filter_and _ _ D (nr_ub _ _ _ N))). apply filter_imp. intros j [X1 [X2 X3]]. apply (acc_pow _ _ X1); assumption.
Qed.
Lemma nr_Rpower v x l w y m : 0 < l -> nr v x l -> nr w y m -> nr (fun j => Rpower (v j) (w j)) (fun j => Rpower (x j) (y j)) (Rpower l m).
Proof.
  intros Hl H1 H2. unfold Rpower. apply (nr_fun exp _ _ _ (loclip_exp _)). apply (nr_mult _ _ _ _ _ _ H2). apply (nr_fun ln _ _ _ (loclip_ln l Hl) H1).
Qed.
Lemma okto_powr v x l w y m : 0 < l -> nr v x l -> nr w y m -> okto (fun j => a_powr (A j) (v j) (w j)) (fun j => Rpower (x j) (y j)) (Rpower l m).
Proof.
  intros Hl H1 H2. assert (N := nr_Rpower _ _ _ _ _ _ Hl H1 H2). apply (nr_round _ _ _ _ N). generalize (filter_and _ _ HA (filter_and _ _ (nr_pos _ _ _ Hl H1) (nr_ub _ _ _ N))). apply filter_imp.
  intros j [X1 [X2 X3]]. apply (acc_powr _ _ X1); assumption.
Qed.
Lemma okto_sin v x l : nr v x l -> okto (fun j => a_sin (A j) (v j)) (fun j => sin (x j)) (sin l).
Proof.
  intros H. assert (N := nr_fun sin _ _ _ (loclip_sin l) H). apply (nr_round _ _ _ _ N). generalize (filter_and _ _ HA (nr_ub _ _ _ H)). apply filter_imp. intros j [X1 X2]. apply (acc_sin _ _ X1). exact X2.
Qed.
Lemma okto_cos v x l : nr v x l -> okto (fun j => a_cos (A j) (v j)) (fun j => cos (x j)) (cos l).
Proof.
  intros H. assert (N := nr_fun cos _ _ _ (loclip_cos l) H). apply (nr_round _ _ _ _ N). generalize (filter_and _ _ HA (nr_ub _ _ _ H)). apply filter_imp. intros j [X1 X2]. apply (acc_cos _ _ X1). exact X2.
Qed.
Lemma okto_tan v x l : cos l <> 0 -> nr v x l -> okto (fun j => a_tan (A j) (v j)) (fun j => tan (x j)) (tan l).
Proof.
  intros Hl H. assert (N := nr_fun tan _ _ _ (loclip_tan l Hl) H). apply (nr_round _ _ _ _ N). assert (N2 := nr_fun cos _ _ _ (loclip_cos l) H).
  generalize (filter_and _ _ (filter_and _ _ HA (nr_ne0 _ _ _ Hl N2)) (filter_and _ _ (nr_ub _ _ _ H) (nr_ub _ _ _ N))). apply filter_imp. intros j [[X1 X2] [X3 X4]]. apply (acc_tan _ _ X1); assumption.
Qed.
Lemma okto_log v x l : 0 < l -> nr v x l -> okto (fun j => a_log (A j) (v j)) (fun j => ln (x j)) (ln l).
Proof.
  intros Hl H. assert (N := nr_fun ln _ _ _ (loclip_ln l Hl) H). apply (nr_round _ _ _ _ N). generalize (filter_and _ _ HA (filter_and _ _ (nr_pos _ _ _ Hl H) (nr_ub _ _ _ N))). apply filter_imp.
  intros j [X1 [X2 X3]]. apply (acc_log _ _ X1); assumption.
Qed.
Lemma okto_exp v x l : nr v x l -> okto (fun j => a_exp (A j) (v j)) (fun j => exp (x j)) (exp l).
Proof.
  intros H. assert (N := nr_fun exp _ _ _ (loclip_exp l) H). apply (nr_round _ _ _ _ N). generalize (filter_and _ _ HA (nr_ub _ _ _ N)). apply filter_imp. intros j [X1 X2]. apply (acc_exp _ _ X1).
  rewrite Rabs_right in X2 by (apply Rle_ge, Rlt_le, exp_pos). exact X2.
Qed.
Lemma okto_sqrt v x l : 0 < l -> nr v x l -> okto (fun j => a_sqrt (A j) (v j)) (fun j => sqrt (x j)) (sqrt l).
Proof.
  intros Hl H. assert (N := nr_fun sqrt _ _ _ (loclip_sqrt l Hl) H). apply (nr_round _ _ _ _ N). generalize (filter_and _ _ HA (filter_and _ _ (nr_pos _ _ _ Hl H) (nr_ub _ _ _ N))). apply filter_imp.
  intros j [X1 [X2 X3]]. rewrite Rabs_right in X3 by (apply Rle_ge, sqrt_pos). apply (acc_sqrt _ _ X1); [lra|exact X3].
Qed.
(** vectors *)
Definition nrV (v x : J -> V4) (l : V4) : Prop := forall i, (i < 4)%nat -> nr (fun j => q4nth (v j) i) (fun j => q4nth (x j) i) (q4nth l i).
Definition nrM (v x : J -> M4) (l : M4) : Prop := forall i k, (i < 4)%nat -> (k < 4)%nat -> nr (fun j => mnth (v j) i k) (fun j => mnth (x j) i k) (mnth l i k).
Definition oktoV (r : J -> Res V4) (x : J -> V4) (l : V4) : Prop := okT r (fun v => nrV v x l).
Definition oktoM (r : J -> Res M4) (x : J -> M4) (l : M4) : Prop := okT r (fun v => nrM v x l).
Lemma four_choice (P : nat -> (J -> R) -> Prop) : (forall i, (i < 4)%nat -> exists v, P i v) -> exists v : nat -> J -> R, forall i, (i < 4)%nat -> P i (v i).
Proof.
  intros H. destruct (H 0%nat ltac:(lia)) as [v0 H0], (H 1%nat ltac:(lia)) as [v1 H1], (H 2%nat ltac:(lia)) as [v2 H2], (H 3%nat ltac:(lia)) as [v3 H3].
  exists (fun i => match i with O => v0 | 1 => v1 | 2 => v2 | _ => v3 end)%nat. intros [|[|[|[|i]]]] Hi; try assumption. lia.
Qed.
Lemma q4nth_tab {B} (f : nat -> B) i : (i < 4)%nat -> q4nth (q4tab f) i = f i.
Proof. intros Hi. destruct i as [|[|[|[|i]]]]; [reflexivity..|lia]. Qed.
Lemma q4tab_nth {B} (v : Q4 B) : q4tab (q4nth v) = v.
Proof. destruct v; reflexivity. Qed.
Lemma oktoV_tab (r : nat -> J -> Res R) (x : J -> V4) (l : V4) : (forall i, (i < 4)%nat -> okto (r i) (fun j => q4nth (x j) i) (q4nth l i)) ->
  oktoV (fun j => q4seq (q4tab (fun i => r i j))) x l.
Proof.
  intros H. destruct (four_choice _ H) as [v Hv]. exists (fun j => q4tab (fun i => v i j)). split; [apply evok_seq; intros i Hi; apply Hv; exact Hi|].
  intros i Hi. destruct (Hv i Hi) as [_ N]. revert N. apply nr_ext_all; [|reflexivity]. intros j. rewrite q4nth_tab by exact Hi. reflexivity.
Qed.
Lemma four_choiceV (P : nat -> (J -> V4) -> Prop) : (forall i, (i < 4)%nat -> exists v, P i v) -> exists v : nat -> J -> V4, forall i, (i < 4)%nat -> P i (v i).
Proof.
  intros H. destruct (H 0%nat ltac:(lia)) as [v0 H0], (H 1%nat ltac:(lia)) as [v1 H1], (H 2%nat ltac:(lia)) as [v2 H2], (H 3%nat ltac:(lia)) as [v3 H3].
  exists (fun i => match i with O => v0 | 1 => v1 | 2 => v2 | _ => v3 end)%nat. intros [|[|[|[|i]]]] Hi; try assumption. lia.
Qed.
Lemma oktoM_tab (r : nat -> J -> Res V4) (x : J -> M4) (l : M4) : (forall i, (i < 4)%nat -> oktoV (r i) (fun j => q4nth (x j) i) (q4nth l i)) ->
  oktoM (fun j => q4seq (q4tab (fun i => r i j))) x l.
Proof.
  intros H. destruct (four_choiceV _ H) as [v Hv]. exists (fun j => q4tab (fun i => v i j)). split; [apply evok_seqV; intros i Hi; apply Hv; exact Hi|].
  intros i k Hi Hk. destruct (Hv i Hi) as [_ N]. generalize (N k Hk). apply nr_ext_all; [|reflexivity]. intros j. unfold mnth. rewrite q4nth_tab by exact Hi. reflexivity.
Qed.
Lemma q4nth_map2 {B D E} (f : B -> D -> E) v w i : q4nth (q4map2 f v w) i = f (q4nth v i) (q4nth w i).
Proof. destruct i as [|[|[|i]]]; reflexivity. Qed.
Lemma q4nth_map {B D} (f : B -> D) v i : q4nth (q4map f v) i = f (q4nth v i).
Proof. destruct i as [|[|[|i]]]; reflexivity. Qed.
Lemma map2_tab {B D E} (f : B -> D -> E) v w : q4map2 f v w = q4tab (fun i => f (q4nth v i) (q4nth w i)).
Proof. reflexivity. Qed.
Lemma map_tab {B D} (f : B -> D) v : q4map f v = q4tab (fun i => f (q4nth v i)).
Proof. reflexivity. Qed.
Lemma oktoV_add v x l w y m : nrV v x l -> nrV w y m -> oktoV (fun j => vaddA (A j) (v j) (w j)) (fun j => vadd (x j) (y j)) (vadd l m).
Proof. intros H1 H2. apply (oktoV_tab (fun i j => a_add (A j) (q4nth (v j) i) (q4nth (w j) i))). intros i Hi. unfold vadd. rewrite q4nth_map2.
  generalize (okto_add _ _ _ _ _ _ (H1 i Hi) (H2 i Hi)). intros (z & E & N). exists z. split; [exact E|]. revert N. apply nr_ext_all; [reflexivity|]. intros j. rewrite q4nth_map2. reflexivity. Qed.
Lemma oktoV_sub v x l w y m : nrV v x l -> nrV w y m -> oktoV (fun j => vsubA (A j) (v j) (w j)) (fun j => vsub (x j) (y j)) (vsub l m).
Proof. intros H1 H2. apply (oktoV_tab (fun i j => a_sub (A j) (q4nth (v j) i) (q4nth (w j) i))). intros i Hi. unfold vsub. rewrite q4nth_map2.
  generalize (okto_sub _ _ _ _ _ _ (H1 i Hi) (H2 i Hi)). intros (z & E & N). exists z. split; [exact E|]. revert N. apply nr_ext_all; [reflexivity|]. intros j. rewrite q4nth_map2. reflexivity. Qed.
Lemma oktoV_scal k a b v x l : nr k a b -> nrV v x l -> oktoV (fun j => vscalA (A j) (k j) (v j)) (fun j => vscal (a j) (x j)) (vscal b l).
Proof. intros H1 H2. apply (oktoV_tab (fun i j => a_mul (A j) (k j) (q4nth (v j) i))). intros i Hi. unfold vscal. rewrite q4nth_map.
  generalize (okto_mul _ _ _ _ _ _ H1 (H2 i Hi)). intros (z & E & N). exists z. split; [exact E|]. revert N. apply nr_ext_all; [reflexivity|]. intros j. rewrite q4nth_map. reflexivity. Qed.
Lemma nr_dot v x l w y m : nrV v x l -> nrV w y m -> nr (fun j => dot (v j) (w j)) (fun j => dot (x j) (y j)) (dot l m).
Proof.
  intros H1 H2. unfold dot. repeat apply nr_plus.
  - apply nr_mult; [apply (H1 0%nat)|apply (H2 0%nat)]; lia.
  - apply nr_mult; [apply (H1 1%nat)|apply (H2 1%nat)]; lia.
  - apply nr_mult; [apply (H1 2%nat)|apply (H2 2%nat)]; lia.
  - apply nr_mult; [apply (H1 3%nat)|apply (H2 3%nat)]; lia.
Qed.
Lemma loclip_abs l : loclip Rabs l.
Proof. exists 1, 1. split; [lra|]. split; [lra|]. intros a b _ _. rewrite Rmult_1_l. apply Rabs_triang_inv2. Qed.
Lemma nr_absdot v x l w y m : nrV v x l -> nrV w y m -> nr (fun j => absdot (v j) (w j)) (fun j => absdot (x j) (y j)) (absdot l m).
Proof.
  intros H1 H2. unfold absdot. repeat apply nr_plus; apply (nr_fun Rabs _ _ _ (loclip_abs _)).
  - apply nr_mult; [apply (H1 0%nat)|apply (H2 0%nat)]; lia.
  - apply nr_mult; [apply (H1 1%nat)|apply (H2 1%nat)]; lia.
  - apply nr_mult; [apply (H1 2%nat)|apply (H2 2%nat)]; lia.
  - apply nr_mult; [apply (H1 3%nat)|apply (H2 3%nat)]; lia.
Qed.
Lemma absdot_pos v w : 0 <= absdot v w.
Proof. unfold absdot. assert (forall x, 0 <= Rabs x) by apply Rabs_pos. assert (Q0 := H (c0 v * c0 w)). assert (Q1 := H (c1 v * c1 w)). assert (Q2 := H (c2 v * c2 w)). assert (Q3 := H (c3 v * c3 w)). lra. Qed.
Lemma okto_dot v x l w y m : nrV v x l -> nrV w y m -> okto (fun j => a_dot (A j) (v j) (w j)) (fun j => dot (x j) (y j)) (dot l m).
Proof.
  intros H1 H2. assert (N := nr_dot _ _ _ _ _ _ H1 H2). assert (N2 := nr_absdot _ _ _ _ _ _ H1 H2). assert (U := nr_ub _ _ _ N2). assert (B := nr_bound _ _ _ N2).
  destruct N as [H (C & HC & E)]. exists (fun j => match a_dot (A j) (v j) (w j) with Ok w => w | Err _ => 0 end).
  assert (K : F (fun j => exists d, a_dot (A j) (v j) (w j) = Ok d /\ Rabs (d - dot (v j) (w j)) <= u j * (1 + absdot (v j) (w j)))).
  { generalize (filter_and _ _ HA U). apply filter_imp. intros j [X1 X2]. rewrite Rabs_right in X2 by (apply Rle_ge, absdot_pos). apply (acc_dot _ _ X1). exact X2. }
  split; [|split; [exact H|]].
  - unfold evok. revert K. apply filter_imp. intros j (d & -> & _). reflexivity.
  - exists (C + (Rabs (absdot l m) + 2)). split; [generalize (Rabs_pos (absdot l m)); lra|]. generalize (filter_and _ _ (filter_and _ _ K Hu0) (filter_and _ _ E B)). apply filter_imp.
    intros j [[(d & -> & Hd) X0] [X1 [X2 _]]]. replace (d - dot (x j) (y j)) with ((d - dot (v j) (w j)) + (dot (v j) (w j) - dot (x j) (y j))) by ring. eapply Rle_trans; [apply Rabs_triang|].
    rewrite Rmult_plus_distr_r, Rplus_comm. apply Rplus_le_compat; [exact X1|]. eapply Rle_trans; [exact Hd|]. rewrite Rmult_comm. apply Rmult_le_compat_r; [exact X0|].
    rewrite Rabs_right in X2 by (apply Rle_ge, absdot_pos). lra.
Qed.
Lemma oktoV_mv m y a v x l : nrM m y a -> nrV v x l -> oktoV (fun j => mvA (A j) (m j) (v j)) (fun j => mv (y j) (x j)) (mv a l).
Proof.
  intros H1 H2. apply (oktoV_tab (fun i j => a_dot (A j) (q4nth (m j) i) (v j))). intros i Hi. unfold mv. rewrite q4nth_map.
  assert (Hr : nrV (fun j => q4nth (m j) i) (fun j => q4nth (y j) i) (q4nth a i)) by (intros k Hk; exact (H1 i k Hi Hk)).
  generalize (okto_dot _ _ _ _ _ _ Hr H2). intros (z & E & N). exists z. split; [exact E|]. revert N. apply nr_ext_all; [reflexivity|]. intros j. rewrite q4nth_map. reflexivity.
Qed.

(** ---- programs on floats and DualNumbers ---- *)
Definition isP (b : bool) (w : J -> pyval) (x dx : J -> R) (l dl : R) : Prop :=
  if b then exists v d, (forall j, w j = PD (mkdual (v j) (d j))) /\ nr v x l /\ nr d dx dl
  else exists v, (forall j, w j = PF (v j)) /\ nr v x l /\ (forall j, dx j = 0) /\ dl = 0.
Lemma isP_ext b w x dx l dl dx' dl' : (forall j, dx j = dx' j) -> dl = dl' -> isP b w x dx l dl -> isP b w x dx' l dl'.
Proof.
  intros E1 <- H. destruct b; [destruct H as (v & d & E & N1 & N2); exists v, d; split; [exact E|]; split; [exact N1|]; revert N2; apply nr_ext_all; [reflexivity|exact E1]|].
  destruct H as (v & E & N & Z1 & Z2). exists v. split; [exact E|]. split; [exact N|]. split; [intros j; rewrite <- E1; apply Z1|exact Z2].
Qed.
Ltac nrfit H := refine (nr_ext_all _ _ _ _ _ (fun _ => eq_refl) _ (nr_lim _ _ _ _ _ H)).
Ltac dbl := unfold okto; cbn beta iota; cbn [val deriv bindR].
Ltac bnd := eapply okT_bind; [first [apply okto_add|apply okto_sub|apply okto_mul|apply okto_sin|apply okto_cos|apply okto_exp|apply okto_num]; eassumption|]; cbn beta.
Lemma py_add_ok b1 w1 x1 dx1 l1 dl1 b2 w2 x2 dx2 l2 dl2 : isP b1 w1 x1 dx1 l1 dl1 -> isP b2 w2 x2 dx2 l2 dl2 ->
  okT (fun j => py_addA (A j) (w1 j) (w2 j)) (fun w => isP (b1 || b2) w (fun j => x1 j + x2 j) (fun j => dx1 j + dx2 j) (l1 + l2) (dl1 + dl2)).
Proof.
  intros H1 H2. destruct b1, b2; cbn [isP orb] in *.
  - destruct H1 as (v1 & d1 & E1 & N1 & D1), H2 as (v2 & d2 & E2 & N2 & D2).
    apply (okT_ext (fun j => py_addA (A j) (PD (mkdual (v1 j) (d1 j))) (PD (mkdual (v2 j) (d2 j))))); [intros j; rewrite E1, E2; reflexivity|]. cbn [py_addA d_addA val deriv].
    apply okT_map. bnd. intros v Nv. bnd. intros d Nd. apply okT_ok. exists v, d. split; [reflexivity|]. split; assumption.
  - destruct H1 as (v1 & d1 & E1 & N1 & D1), H2 as (v2 & E2 & N2 & Z2 & Y2).
    apply (okT_ext (fun j => py_addA (A j) (PD (mkdual (v1 j) (d1 j))) (PF (v2 j)))); [intros j; rewrite E1, E2; reflexivity|]. cbn [py_addA d_addA val deriv].
    apply okT_map. bnd. intros v Nv. apply okT_ok. exists v, d1. split; [reflexivity|]. split; [assumption|]. nrfit D1; [intros j; rewrite Z2; ring|lra].
  - destruct H1 as (v1 & E1 & N1 & Z1 & Y1), H2 as (v2 & d2 & E2 & N2 & D2).
    apply (okT_ext (fun j => py_addA (A j) (PF (v1 j)) (PD (mkdual (v2 j) (d2 j))))); [intros j; rewrite E1, E2; reflexivity|]. cbn [py_addA d_addA val deriv].
    apply okT_map. bnd. intros v Nv. apply okT_ok. exists v, d2. split; [reflexivity|]. split; [nrfit Nv; [intros j; ring|ring]|]. nrfit D2; [intros j; rewrite Z1; ring|lra].
  - destruct H1 as (v1 & E1 & N1 & Z1 & Y1), H2 as (v2 & E2 & N2 & Z2 & Y2).
    apply (okT_ext (fun j => py_addA (A j) (PF (v1 j)) (PF (v2 j)))); [intros j; rewrite E1, E2; reflexivity|]. cbn [py_addA].
    apply okT_map. destruct (okto_add _ _ _ _ _ _ N1 N2) as (v & Ev & Nv). exists v. split; [exact Ev|]. exists v. split; [reflexivity|]. split; [exact Nv|]. split; [intros j; rewrite Z1, Z2; ring|lra].
Qed.
Lemma py_sub_ok b1 w1 x1 dx1 l1 dl1 b2 w2 x2 dx2 l2 dl2 : isP b1 w1 x1 dx1 l1 dl1 -> isP b2 w2 x2 dx2 l2 dl2 ->
  okT (fun j => py_subA (A j) (w1 j) (w2 j)) (fun w => isP (b1 || b2) w (fun j => x1 j - x2 j) (fun j => dx1 j - dx2 j) (l1 - l2) (dl1 - dl2)).
Proof.
  intros H1 H2. assert (N0 := nr_const 0). destruct b1, b2; cbn [isP orb] in *.
  - destruct H1 as (v1 & d1 & E1 & N1 & D1), H2 as (v2 & d2 & E2 & N2 & D2).
    apply (okT_ext (fun j => py_subA (A j) (PD (mkdual (v1 j) (d1 j))) (PD (mkdual (v2 j) (d2 j))))); [intros j; rewrite E1, E2; reflexivity|]. cbn [py_subA d_subA val deriv].
    apply okT_map. bnd. intros v Nv. bnd. intros d Nd. apply okT_ok. exists v, d. split; [reflexivity|]. split; assumption.
  - destruct H1 as (v1 & d1 & E1 & N1 & D1), H2 as (v2 & E2 & N2 & Z2 & Y2).
    apply (okT_ext (fun j => py_subA (A j) (PD (mkdual (v1 j) (d1 j))) (PF (v2 j)))); [intros j; rewrite E1, E2; reflexivity|]. cbn [py_subA d_subA val deriv].
    apply okT_map. bnd. intros v Nv. apply okT_ok. exists v, d1. split; [reflexivity|]. split; [assumption|]. nrfit D1; [intros j; rewrite Z2; ring|lra].
  - destruct H1 as (v1 & E1 & N1 & Z1 & Y1), H2 as (v2 & d2 & E2 & N2 & D2).
    apply (okT_ext (fun j => py_subA (A j) (PF (v1 j)) (PD (mkdual (v2 j) (d2 j))))); [intros j; rewrite E1, E2; reflexivity|]. cbn [py_subA d_rsubA d_subA val deriv].
    apply okT_map. bnd. intros v Nv. eapply okT_bind; [apply (okto_sub (fun _ => 0) _ _ _ _ _ N0 D2)|]. intros d Nd. apply okT_ok. exists v, d. split; [reflexivity|]. split; [exact Nv|]. nrfit Nd; [intros j; rewrite Z1; ring|lra].
  - destruct H1 as (v1 & E1 & N1 & Z1 & Y1), H2 as (v2 & E2 & N2 & Z2 & Y2).
    apply (okT_ext (fun j => py_subA (A j) (PF (v1 j)) (PF (v2 j)))); [intros j; rewrite E1, E2; reflexivity|]. cbn [py_subA].
    apply okT_map. destruct (okto_sub _ _ _ _ _ _ N1 N2) as (v & Ev & Nv). exists v. split; [exact Ev|]. exists v. split; [reflexivity|]. split; [exact Nv|]. split; [intros j; rewrite Z1, Z2; ring|lra].
Qed.
Lemma py_mul_ok b1 w1 x1 dx1 l1 dl1 b2 w2 x2 dx2 l2 dl2 : isP b1 w1 x1 dx1 l1 dl1 -> isP b2 w2 x2 dx2 l2 dl2 ->
  okT (fun j => py_mulA (A j) (w1 j) (w2 j)) (fun w => isP (b1 || b2) w (fun j => x1 j * x2 j) (fun j => dx1 j * x2 j + x1 j * dx2 j) (l1 * l2) (dl1 * l2 + l1 * dl2)).
Proof.
  intros H1 H2. destruct b1, b2; cbn [isP orb] in *.
  - destruct H1 as (v1 & d1 & E1 & N1 & D1), H2 as (v2 & d2 & E2 & N2 & D2).
    apply (okT_ext (fun j => py_mulA (A j) (PD (mkdual (v1 j) (d1 j))) (PD (mkdual (v2 j) (d2 j))))); [intros j; rewrite E1, E2; reflexivity|]. cbn [py_mulA d_mulA val deriv].
    apply okT_map. bnd. intros v Nv. eapply okT_bind; [apply (okto_mul _ _ _ _ _ _ D1 N2)|]. intros x Nx. eapply okT_bind; [apply (okto_mul _ _ _ _ _ _ N1 D2)|]. intros y Ny.
    eapply okT_bind; [apply (okto_add _ _ _ _ _ _ Nx Ny)|]. intros d Nd. apply okT_ok. exists v, d. split; [reflexivity|]. split; assumption.
  - destruct H1 as (v1 & d1 & E1 & N1 & D1), H2 as (v2 & E2 & N2 & Z2 & Y2).
    apply (okT_ext (fun j => py_mulA (A j) (PD (mkdual (v1 j) (d1 j))) (PF (v2 j)))); [intros j; rewrite E1, E2; reflexivity|]. cbn [py_mulA d_mulA val deriv].
    apply okT_map. bnd. intros v Nv. eapply okT_bind; [apply (okto_mul _ _ _ _ _ _ D1 N2)|]. intros d Nd. apply okT_ok. exists v, d. split; [reflexivity|]. split; [assumption|]. nrfit Nd; [intros j; rewrite Z2; ring|subst; ring].
  - destruct H1 as (v1 & E1 & N1 & Z1 & Y1), H2 as (v2 & d2 & E2 & N2 & D2).
    apply (okT_ext (fun j => py_mulA (A j) (PF (v1 j)) (PD (mkdual (v2 j) (d2 j))))); [intros j; rewrite E1, E2; reflexivity|]. cbn [py_mulA d_mulA val deriv].
    apply okT_map. bnd. intros v Nv. eapply okT_bind; [apply (okto_mul _ _ _ _ _ _ D2 N1)|]. intros d Nd. apply okT_ok. exists v, d. split; [reflexivity|]. split; [nrfit Nv; [intros j; ring|ring]|]. nrfit Nd; [intros j; rewrite Z1; ring|subst; ring].
  - destruct H1 as (v1 & E1 & N1 & Z1 & Y1), H2 as (v2 & E2 & N2 & Z2 & Y2).
    apply (okT_ext (fun j => py_mulA (A j) (PF (v1 j)) (PF (v2 j)))); [intros j; rewrite E1, E2; reflexivity|]. cbn [py_mulA].
    apply okT_map. destruct (okto_mul _ _ _ _ _ _ N1 N2) as (v & Ev & Nv). exists v. split; [exact Ev|]. exists v. split; [reflexivity|]. split; [exact Nv|]. split; [intros j; rewrite Z1, Z2; ring|subst; ring].
Qed.
Lemma quot_ok v1 x1 l1 d1 dx1 dl1 v2 x2 l2 d2 dx2 dl2 : l2 <> 0 -> nr v1 x1 l1 -> nr d1 dx1 dl1 -> nr v2 x2 l2 -> nr d2 dx2 dl2 ->
  okT (fun j => d_truedivA (A j) (mkdual (v1 j) (d1 j)) (PD (mkdual (v2 j) (d2 j)))) (fun w => exists v d, (forall j, w j = mkdual (v j) (d j)) /\
    nr v (fun j => x1 j / x2 j) (l1 / l2) /\ nr d (fun j => (dx1 j * x2 j - x1 j * dx2 j) / (x2 j * x2 j)) ((dl1 * l2 - l1 * dl2) / (l2 * l2))).
Proof.
  intros Hl N1 D1 N2 D2.
  apply (okT_ev (fun j => quotA (A j) (mkdual (v1 j) (d1 j)) (mkdual (v2 j) (d2 j)))).
  { generalize (nr_ne0 _ _ _ Hl N2). apply filter_imp. intros j Hj. cbn [d_truedivA val]. destruct (Req_EM_T (v1 j) 0); [|reflexivity]. destruct (Req_EM_T (v2 j) 0); [contradiction|reflexivity]. }
  unfold quotA. cbn [val deriv].
  eapply okT_bind; [apply (okto_div _ _ _ _ _ _ Hl N1 N2)|]. intros v Nv.
  eapply okT_bind; [apply (okto_mul _ _ _ _ _ _ D1 N2)|]. intros x Nx. eapply okT_bind; [apply (okto_mul _ _ _ _ _ _ N1 D2)|]. intros y Ny.
  eapply okT_bind; [apply (okto_sub _ _ _ _ _ _ Nx Ny)|]. intros n Nn.
  eapply okT_bind; [apply (okto_pow v2 x2 l2 2 (or_introl (Zle_0_pos 2)) N2)|]. intros m Nm.
  assert (Hl2 : powerRZ l2 2 <> 0) by (change (powerRZ l2 2) with (l2 ^ 2); apply pow_nonzero; exact Hl).
  eapply okT_bind; [apply (okto_div _ _ _ _ _ _ Hl2 Nn Nm)|]. intros d Nd.
  apply okT_ok. exists v, d. split; [reflexivity|]. split; [exact Nv|].
  assert (Q : forall z, powerRZ z 2 = z * z) by (intros z; change (powerRZ z 2) with (z ^ 2); ring).
  nrfit Nd; [intros j; rewrite Q; reflexivity|rewrite Q; reflexivity].
Qed.
Lemma py_div_ok b1 w1 x1 dx1 l1 dl1 b2 w2 x2 dx2 l2 dl2 : l2 <> 0 -> isP b1 w1 x1 dx1 l1 dl1 -> isP b2 w2 x2 dx2 l2 dl2 -> F (fun j => x2 j <> 0) ->
  okT (fun j => py_divA (A j) (w1 j) (w2 j)) (fun w => isP (b1 || b2) w (fun j => x1 j / x2 j) (fun j => (dx1 j * x2 j - x1 j * dx2 j) / (x2 j * x2 j)) (l1 / l2) ((dl1 * l2 - l1 * dl2) / (l2 * l2))).
Proof.
  intros Hl H1 H2 Hx. assert (N0 := nr_const 0). destruct b1, b2; cbn [isP orb] in *.
  - destruct H1 as (v1 & d1 & E1 & N1 & D1), H2 as (v2 & d2 & E2 & N2 & D2).
    apply (okT_ext (fun j => py_divA (A j) (PD (mkdual (v1 j) (d1 j))) (PD (mkdual (v2 j) (d2 j))))); [intros j; rewrite E1, E2; reflexivity|]. cbn [py_divA].
    apply okT_map. eapply okT_imp; [|apply (quot_ok _ _ _ _ _ _ _ _ _ _ _ _ Hl N1 D1 N2 D2)]. intros w (v & d & E & Nv & Nd). exists v, d. split; [intros j; rewrite E; reflexivity|]. split; assumption.
  - destruct H1 as (v1 & d1 & E1 & N1 & D1), H2 as (v2 & E2 & N2 & Z2 & Y2).
    apply (okT_ext (fun j => py_divA (A j) (PD (mkdual (v1 j) (d1 j))) (PF (v2 j)))); [intros j; rewrite E1, E2; reflexivity|]. cbn [py_divA d_truedivA val deriv].
    apply okT_map. eapply okT_bind; [apply (okto_div _ _ _ _ _ _ Hl N1 N2)|]. intros v Nv. eapply okT_bind; [apply (okto_div _ _ _ _ _ _ Hl D1 N2)|]. intros d Nd. apply okT_ok. exists v, d. split; [reflexivity|]. split; [assumption|].
    refine (nr_ext _ _ _ _ _ (filter_forall _ (fun _ => eq_refl)) _ (nr_lim _ _ _ _ _ Nd)); [revert Hx; apply filter_imp; intros j Hj; rewrite Z2; field; exact Hj|subst; field; exact Hl].
  - destruct H1 as (v1 & E1 & N1 & Z1 & Y1), H2 as (v2 & d2 & E2 & N2 & D2).
    apply (okT_ext (fun j => py_divA (A j) (PF (v1 j)) (PD (mkdual (v2 j) (d2 j))))); [intros j; rewrite E1, E2; reflexivity|]. cbn [py_divA]. unfold d_rtruedivA.
    apply okT_map. eapply okT_imp; [|apply (quot_ok v1 x1 l1 (fun _ => 0) (fun _ => 0) 0 _ _ _ _ _ _ Hl N1 N0 N2 D2)]. intros w (v & d & E & Nv & Nd). exists v, d. split; [intros j; rewrite E; reflexivity|]. split; [assumption|].
    nrfit Nd; [intros j; rewrite Z1; reflexivity|subst; reflexivity].
  - destruct H1 as (v1 & E1 & N1 & Z1 & Y1), H2 as (v2 & E2 & N2 & Z2 & Y2).
    apply (okT_ext (fun j => py_divA (A j) (PF (v1 j)) (PF (v2 j)))); [intros j; rewrite E1, E2; reflexivity|]. cbn [py_divA].
    apply okT_map. destruct (okto_div _ _ _ _ _ _ Hl N1 N2) as (v & Ev & Nv). exists v. split; [exact Ev|]. exists v. split; [reflexivity|]. split; [exact Nv|]. split; [intros j; rewrite Z1, Z2; unfold Rdiv; ring|subst; unfold Rdiv; ring].
Qed.
Lemma py_neg_ok b w x dx l dl : isP b w x dx l dl -> isP b (fun j => py_neg (w j)) (fun j => - x j) (fun j => - dx j) (- l) (- dl).
Proof.
  destruct b; cbn [isP].
  - intros (v & d & E & N & D). exists (fun j => - v j), (fun j => - d j). split; [intros j; rewrite E; reflexivity|]. split; apply nr_opp; assumption.
  - intros (v & E & N & Z & Y). exists (fun j => - v j). split; [intros j; rewrite E; reflexivity|]. split; [apply nr_opp; assumption|]. split; [intros j; rewrite Z; ring|lra].
Qed.
Lemma py_powZ_ok b w x dx l dl n : (1 <= n)%Z \/ l <> 0 -> isP b w x dx l dl ->
  okT (fun j => py_powZA (A j) (w j) n) (fun w => isP b w (fun j => powerRZ (x j) n) (fun j => IZR n * powerRZ (x j) (n - 1) * dx j) (powerRZ l n) (IZR n * powerRZ l (n - 1) * dl)).
Proof.
  intros Hn H. assert (Hn0 : (0 <= n)%Z \/ l <> 0) by (destruct Hn; [left; lia|right; assumption]). assert (Hn1 : (0 <= n - 1)%Z \/ l <> 0) by (destruct Hn; [left; lia|right; assumption]).
  destruct b; cbn [isP] in *.
  - destruct H as (v1 & d1 & E1 & N1 & D1). apply (okT_ext (fun j => py_powZA (A j) (PD (mkdual (v1 j) (d1 j))) n)); [intros j; rewrite E1; reflexivity|]. cbn [py_powZA]. unfold d_powZA. cbn [val deriv].
    apply okT_map. eapply okT_bind; [apply (okto_pow _ _ _ n Hn0 N1)|]. intros v Nv. eapply okT_bind; [apply okto_num|]. intros k Nk.
    eapply okT_bind; [apply (okto_mul _ _ _ _ _ _ D1 Nk)|]. intros y Ny. eapply okT_bind; [apply (okto_pow _ _ _ (n - 1) Hn1 N1)|]. intros z Nz.
    eapply okT_bind; [apply (okto_mul _ _ _ _ _ _ Ny Nz)|]. intros d Nd. apply okT_ok. exists v, d. split; [reflexivity|]. split; [exact Nv|]. nrfit Nd; [intros j; ring|ring].
  - destruct H as (v1 & E1 & N1 & Z1 & Y1). apply (okT_ext (fun j => py_powZA (A j) (PF (v1 j)) n)); [intros j; rewrite E1; reflexivity|]. cbn [py_powZA].
    apply okT_map. destruct (okto_pow _ _ _ n Hn0 N1) as (v & Ev & Nv). exists v. split; [exact Ev|]. exists v. split; [reflexivity|]. split; [exact Nv|]. split; [intros j; rewrite Z1; ring|subst; ring].
Qed.
Lemma py_powR_ok b w x dx l dl q y p : 0 < l -> isP b w x dx l dl -> nr q y p ->
  okT (fun j => py_powRA (A j) (w j) (q j)) (fun w => isP b w (fun j => Rpower (x j) (y j)) (fun j => y j * Rpower (x j) (y j - 1) * dx j) (Rpower l p) (p * Rpower l (p - 1) * dl)).
Proof.
  intros Hl H Hq. destruct b; cbn [isP] in *.
  - destruct H as (v1 & d1 & E1 & N1 & D1). apply (okT_ext (fun j => py_powRA (A j) (PD (mkdual (v1 j) (d1 j))) (q j))); [intros j; rewrite E1; reflexivity|]. cbn [py_powRA]. unfold d_powRA. cbn [val deriv].
    apply okT_map. eapply okT_bind; [apply (okto_powr _ _ _ _ _ _ Hl N1 Hq)|]. intros v Nv. eapply okT_bind; [apply (okto_mul _ _ _ _ _ _ D1 Hq)|]. intros a Na.
    eapply okT_bind; [apply (okto_sub _ _ _ (fun _ => 1) _ _ Hq (nr_const 1))|]. intros q' Nq'. eapply okT_bind; [apply (okto_powr _ _ _ _ _ _ Hl N1 Nq')|]. intros z Nz.
    eapply okT_bind; [apply (okto_mul _ _ _ _ _ _ Na Nz)|]. intros d Nd. apply okT_ok. exists v, d. split; [reflexivity|]. split; [exact Nv|]. nrfit Nd; [intros j; ring|ring].
  - destruct H as (v1 & E1 & N1 & Z1 & Y1). apply (okT_ext (fun j => py_powRA (A j) (PF (v1 j)) (q j))); [intros j; rewrite E1; reflexivity|]. cbn [py_powRA].
    apply okT_map. destruct (okto_powr _ _ _ _ _ _ Hl N1 Hq) as (v & Ev & Nv). exists v. split; [exact Ev|]. exists v. split; [reflexivity|]. split; [exact Nv|]. split; [intros j; rewrite Z1; ring|subst; ring].
Qed.
Lemma d_sin_ok v1 x l d1 dx dl : nr v1 x l -> nr d1 dx dl -> okT (fun j => d_sinA (A j) (mkdual (v1 j) (d1 j))) (fun w => exists v d, (forall j, w j = mkdual (v j) (d j)) /\
    nr v (fun j => sin (x j)) (sin l) /\ nr d (fun j => dx j * cos (x j)) (dl * cos l)).
Proof.
  intros N1 D1. unfold d_sinA. cbn [val deriv]. eapply okT_bind; [apply (okto_sin _ _ _ N1)|]. intros v Nv. eapply okT_bind; [apply (okto_cos _ _ _ N1)|]. intros c Nc.
  eapply okT_bind; [apply (okto_mul _ _ _ _ _ _ D1 Nc)|]. intros d Nd. apply okT_ok. exists v, d. split; [reflexivity|]. split; assumption.
Qed.
Lemma d_cos_ok v1 x l d1 dx dl : nr v1 x l -> nr d1 dx dl -> okT (fun j => d_cosA (A j) (mkdual (v1 j) (d1 j))) (fun w => exists v d, (forall j, w j = mkdual (v j) (d j)) /\
    nr v (fun j => cos (x j)) (cos l) /\ nr d (fun j => dx j * - sin (x j)) (dl * - sin l)).
Proof.
  intros N1 D1. unfold d_cosA. cbn [val deriv]. eapply okT_bind; [apply (okto_cos _ _ _ N1)|]. intros v Nv. eapply okT_bind; [apply (okto_sin _ _ _ N1)|]. intros c Nc.
  eapply okT_bind; [apply (okto_mul _ _ _ _ _ _ (nr_opp _ _ _ D1) Nc)|]. intros d Nd. apply okT_ok. exists v, d. split; [reflexivity|]. split; [assumption|]. nrfit Nd; [intros j; ring|ring].
Qed.
Lemma py_sin_ok b w x dx l dl : isP b w x dx l dl -> okT (fun j => py_sinA (A j) (w j)) (fun w => isP b w (fun j => sin (x j)) (fun j => dx j * cos (x j)) (sin l) (dl * cos l)).
Proof.
  intros H. destruct b; cbn [isP] in *.
  - destruct H as (v1 & d1 & E1 & N1 & D1). apply (okT_ext (fun j => py_sinA (A j) (PD (mkdual (v1 j) (d1 j))))); [intros j; rewrite E1; reflexivity|]. cbn [py_sinA].
    apply okT_map. eapply okT_imp; [|apply (d_sin_ok _ _ _ _ _ _ N1 D1)]. intros z (v & d & E & Nv & Nd). exists v, d. split; [intros j; rewrite E; reflexivity|]. split; assumption.
  - destruct H as (v1 & E1 & N1 & Z1 & Y1). apply (okT_ext (fun j => py_sinA (A j) (PF (v1 j)))); [intros j; rewrite E1; reflexivity|]. cbn [py_sinA].
    apply okT_map. destruct (okto_sin _ _ _ N1) as (v & Ev & Nv). exists v. split; [exact Ev|]. exists v. split; [reflexivity|]. split; [exact Nv|]. split; [intros j; rewrite Z1; ring|subst; ring].
Qed.
Lemma py_cos_ok b w x dx l dl : isP b w x dx l dl -> okT (fun j => py_cosA (A j) (w j)) (fun w => isP b w (fun j => cos (x j)) (fun j => dx j * - sin (x j)) (cos l) (dl * - sin l)).
Proof.
  intros H. destruct b; cbn [isP] in *.
  - destruct H as (v1 & d1 & E1 & N1 & D1). apply (okT_ext (fun j => py_cosA (A j) (PD (mkdual (v1 j) (d1 j))))); [intros j; rewrite E1; reflexivity|]. cbn [py_cosA].
    apply okT_map. eapply okT_imp; [|apply (d_cos_ok _ _ _ _ _ _ N1 D1)]. intros z (v & d & E & Nv & Nd). exists v, d. split; [intros j; rewrite E; reflexivity|]. split; assumption.
  - destruct H as (v1 & E1 & N1 & Z1 & Y1). apply (okT_ext (fun j => py_cosA (A j) (PF (v1 j)))); [intros j; rewrite E1; reflexivity|]. cbn [py_cosA].
    apply okT_map. destruct (okto_cos _ _ _ N1) as (v & Ev & Nv). exists v. split; [exact Ev|]. exists v. split; [reflexivity|]. split; [exact Nv|]. split; [intros j; rewrite Z1; ring|subst; ring].
Qed.
Lemma py_tan_ok b w x dx l dl : cos l <> 0 -> F (fun j => cos (x j) <> 0) -> isP b w x dx l dl ->
  okT (fun j => py_tanA (A j) (w j)) (fun w => isP b w (fun j => tan (x j)) (fun j => dx j / (cos (x j) * cos (x j))) (tan l) (dl / (cos l * cos l))).
Proof.
  intros Hl Hc H. destruct b; cbn [isP] in *.
  - destruct H as (v1 & d1 & E1 & N1 & D1). apply (okT_ext (fun j => py_tanA (A j) (PD (mkdual (v1 j) (d1 j))))); [intros j; rewrite E1; reflexivity|]. cbn [py_tanA]. unfold d_tanA.
    apply okT_map. eapply okT_bind; [apply (d_sin_ok _ _ _ _ _ _ N1 D1)|]. intros w1 (v2 & d2 & E2 & N2 & D2). eapply okT_bind; [apply (d_cos_ok _ _ _ _ _ _ N1 D1)|]. intros w2 (v3 & d3 & E3 & N3 & D3).
    apply (okT_ext (fun j => d_truedivA (A j) (mkdual (v2 j) (d2 j)) (PD (mkdual (v3 j) (d3 j))))); [intros j; rewrite E2, E3; reflexivity|].
    eapply okT_imp; [|apply (quot_ok _ _ _ _ _ _ _ _ _ _ _ _ Hl N2 D2 N3 D3)]. intros z (v & d & E & Nv & Nd). exists v, d. split; [intros j; rewrite E; reflexivity|]. split; [exact Nv|].
    assert (Q : forall a b c, c <> 0 -> (a * c * c - b * (a * - b)) / (c * c) = a * (b * b + c * c) / (c * c)) by (intros; field; assumption).
    refine (nr_ext _ _ _ _ _ (filter_forall _ (fun _ => eq_refl)) _ (nr_lim _ _ _ _ _ Nd)).
    + revert Hc. apply filter_imp. intros j Hj. rewrite Q by exact Hj. assert (S := sin2_cos2 (x j)). unfold Rsqr in S. rewrite S, Rmult_1_r. reflexivity.
    + rewrite Q by exact Hl. assert (S := sin2_cos2 l). unfold Rsqr in S. rewrite S, Rmult_1_r. reflexivity.
  - destruct H as (v1 & E1 & N1 & Z1 & Y1). apply (okT_ext (fun j => py_tanA (A j) (PF (v1 j)))); [intros j; rewrite E1; reflexivity|]. cbn [py_tanA].
    apply okT_map. destruct (okto_tan _ _ _ Hl N1) as (v & Ev & Nv). exists v. split; [exact Ev|]. exists v. split; [reflexivity|]. split; [exact Nv|]. split; [intros j; rewrite Z1; unfold Rdiv; ring|subst; unfold Rdiv; ring].
Qed.
Lemma py_log_ok b w x dx l dl : 0 < l -> isP b w x dx l dl -> okT (fun j => py_logA (A j) (w j)) (fun w => isP b w (fun j => ln (x j)) (fun j => dx j / x j) (ln l) (dl / l)).
Proof.
  intros Hl H. destruct b; cbn [isP] in *.
  - destruct H as (v1 & d1 & E1 & N1 & D1). apply (okT_ext (fun j => py_logA (A j) (PD (mkdual (v1 j) (d1 j))))); [intros j; rewrite E1; reflexivity|]. cbn [py_logA]. unfold d_logA. cbn [val deriv].
    apply okT_map. eapply okT_bind; [apply (okto_log _ _ _ Hl N1)|]. intros v Nv. eapply okT_bind; [apply (okto_div _ _ _ _ _ _ (Rgt_not_eq _ _ Hl) D1 N1)|]. intros d Nd.
    apply okT_ok. exists v, d. split; [reflexivity|]. split; assumption.
  - destruct H as (v1 & E1 & N1 & Z1 & Y1). apply (okT_ext (fun j => py_logA (A j) (PF (v1 j)))); [intros j; rewrite E1; reflexivity|]. cbn [py_logA].
    apply okT_map. destruct (okto_log _ _ _ Hl N1) as (v & Ev & Nv). exists v. split; [exact Ev|]. exists v. split; [reflexivity|]. split; [exact Nv|]. split; [intros j; rewrite Z1; unfold Rdiv; ring|subst; unfold Rdiv; ring].
Qed.
Lemma py_exp_ok b w x dx l dl : isP b w x dx l dl -> okT (fun j => py_expA (A j) (w j)) (fun w => isP b w (fun j => exp (x j)) (fun j => dx j * exp (x j)) (exp l) (dl * exp l)).
Proof.
  intros H. destruct b; cbn [isP] in *.
  - destruct H as (v1 & d1 & E1 & N1 & D1). apply (okT_ext (fun j => py_expA (A j) (PD (mkdual (v1 j) (d1 j))))); [intros j; rewrite E1; reflexivity|]. cbn [py_expA]. unfold d_expA. cbn [val deriv].
    apply okT_map. eapply okT_bind; [apply (okto_exp _ _ _ N1)|]. intros v Nv. eapply okT_bind; [apply (okto_exp _ _ _ N1)|]. intros y Ny. eapply okT_bind; [apply (okto_mul _ _ _ _ _ _ D1 Ny)|]. intros d Nd.
    apply okT_ok. exists v, d. split; [reflexivity|]. split; assumption.
  - destruct H as (v1 & E1 & N1 & Z1 & Y1). apply (okT_ext (fun j => py_expA (A j) (PF (v1 j)))); [intros j; rewrite E1; reflexivity|]. cbn [py_expA].
    apply okT_map. destruct (okto_exp _ _ _ N1) as (v & Ev & Nv). exists v. split; [exact Ev|]. exists v. split; [reflexivity|]. split; [exact Nv|]. split; [intros j; rewrite Z1; ring|subst; ring].
Qed.
(** does the program mention a coordinate? *)
Fixpoint hasvar (e : pexpr) : bool :=
  match e with
  | EVar _ => true | EConst _ => false
  | EAdd a b | ESub a b | EMul a b | EDiv a b => hasvar a || hasvar b
  | ENeg a | EPow a _ | EPowR a _ | ESin a | ECos a | ETan a | ELog a | EExp a => hasvar a
  end.
Section Run.
(** [b]: the inputs are DualNumbers seeded at coordinate k (as in _diff_g), otherwise plain floats *)
Variables (b : bool) (n k : nat) (q x : nat -> J -> R) (l : nat -> R).
Hypothesis Hq : forall i, (i < n)%nat -> nr (q i) (x i) (l i).
Definition inputs (j : J) (i : nat) : pyval := if b then PD (mkdual (q i j) (if Nat.eqb i k then 1 else 0)) else PF (q i j).
Definition val_of (e : pexpr) (j : J) : R := meaning (fun i => x i j) e.
Definition der_of (e : pexpr) (j : J) : R := if b then meaning (fun i => x i j) (pd k e) else 0.
Definition der_at (e : pexpr) : R := if b then meaning l (pd k e) else 0.
Lemma val_lim e : below n e = true -> defined_at l e -> filterlim (val_of e) F (locally (meaning l e)) /\ F (fun j => defined_at (fun i => x i j) e).
Proof.
  intros Hb Hd. destruct (prog_cont n e l Hb Hd) as [L D].
  assert (K : forall P, nearf n l P -> F (fun j => P (fun i => x i j))).
  { intros P (r & Hr & HP). assert (Q : F (fun j => forall i, (i < n)%nat -> Rabs (x i j - l i) < r)).
    { clear L D Hb Hd HP P. revert Hq. induction n as [|m IH]; intros Hq; [apply filter_forall; intros; lia|].
      assert (X1 := IH (fun i Hi => Hq i (Nat.lt_lt_succ_r _ _ Hi))). assert (X2 := lim_close _ _ r Hr (proj1 (Hq m (Nat.lt_succ_diag_r m)))).
      generalize (filter_and _ _ X1 X2). apply filter_imp. intros j [Y1 Y2] i Hi. destruct (Nat.eq_dec i m) as [-> |]; [exact Y2|apply Y1; lia]. }
    revert Q. apply filter_imp. intros j Hj. apply HP. exact Hj. }
  split; [|exact (K (fun y => defined_at y e) D)]. intros P HP. apply (K (fun y => P (meaning y e))). apply L. exact HP.
Qed.
Lemma run_ok e : below n e = true -> defined_at l e ->
  okT (fun j => runA (A j) (inputs j) e) (fun w => isP (b && hasvar e) w (val_of e) (der_of e) (meaning l e) (der_at e)).
Proof.
  assert (BB : forall h1 h2, (b && (h1 || h2))%bool = ((b && h1) || (b && h2))%bool) by (intros; destruct b; reflexivity).
  unfold val_of, der_of, der_at.
  induction e; cbn [below defined_at hasvar runA]; intros Hb Hd; try (apply andb_prop in Hb as [Hb1 Hb2]).
  - apply Nat.ltb_lt in Hb. cbn [meaning pd]. apply (okT_ok (fun j => inputs j i)). unfold inputs. destruct b; cbn [andb isP].
    + exists (q i), (fun _ => if Nat.eqb i k then 1 else 0). split; [reflexivity|]. split; [apply Hq; exact Hb|]. rewrite (Nat.eqb_sym k i). apply nr_const.
    + exists (q i). split; [reflexivity|]. split; [apply Hq; exact Hb|]. split; [reflexivity|reflexivity].
  - apply okT_map. eapply okT_imp; [|apply okto_num]. intros v Nv. rewrite andb_false_r. cbn [isP meaning pd]. exists v. split; [reflexivity|]. split; [exact Nv|]. destruct b; split; reflexivity.
  - destruct Hd as [D1 D2]. eapply okT_bind; [apply (IHe1 Hb1 D1)|]. intros w1 H1. eapply okT_bind; [apply (IHe2 Hb2 D2)|]. intros w2 H2. cbn beta.
    eapply okT_imp; [|apply (py_add_ok _ _ _ _ _ _ _ _ _ _ _ _ H1 H2)]. intros w. rewrite BB. cbn [meaning pd]. apply isP_ext; destruct b; intros; ring.
  - destruct Hd as [D1 D2]. eapply okT_bind; [apply (IHe1 Hb1 D1)|]. intros w1 H1. eapply okT_bind; [apply (IHe2 Hb2 D2)|]. intros w2 H2. cbn beta.
    eapply okT_imp; [|apply (py_sub_ok _ _ _ _ _ _ _ _ _ _ _ _ H1 H2)]. intros w. rewrite BB. cbn [meaning pd]. apply isP_ext; destruct b; intros; ring.
  - destruct Hd as [D1 D2]. eapply okT_bind; [apply (IHe1 Hb1 D1)|]. intros w1 H1. eapply okT_bind; [apply (IHe2 Hb2 D2)|]. intros w2 H2. cbn beta.
    eapply okT_imp; [|apply (py_mul_ok _ _ _ _ _ _ _ _ _ _ _ _ H1 H2)]. intros w. rewrite BB. cbn [meaning pd]. apply isP_ext; destruct b; intros; ring.
  - destruct Hd as (D1 & D2 & D3). eapply okT_bind; [apply (IHe1 Hb1 D1)|]. intros w1 H1. eapply okT_bind; [apply (IHe2 Hb2 D2)|]. intros w2 H2. cbn beta.
    assert (Nx : F (fun j => meaning (fun i => x i j) e2 <> 0)) by (apply (lim_ne0 F _ _ (proj1 (val_lim e2 Hb2 D2)) D3)).
    eapply okT_imp; [|apply (py_div_ok _ _ _ _ _ _ _ _ _ _ _ _ D3 H1 H2 Nx)]. intros w. rewrite BB. cbn [meaning pd]. apply isP_ext; destruct b; intros; unfold Rdiv; ring.
  - eapply okT_bind; [apply (IHe Hb Hd)|]. intros w1 H1. cbn beta. apply (okT_ok (fun j => py_neg (w1 j))). cbn [meaning pd]. generalize (py_neg_ok _ _ _ _ _ _ H1). apply isP_ext; destruct b; intros; ring.
  - destruct Hd as (D1 & D2). eapply okT_bind; [apply (IHe Hb D1)|]. intros w1 H1. cbn beta. eapply okT_imp; [|apply (py_powZ_ok _ _ _ _ _ _ n0 D2 H1)]. intros w. cbn [meaning].
    apply isP_ext; destruct b; intros; rewrite ?pd_pow; ring.
  - destruct Hd as (D1 & D2). eapply okT_bind; [apply (IHe Hb D1)|]. intros w1 H1. eapply okT_bind; [apply (okto_num p)|]. intros p' Np. cbn beta.
    eapply okT_imp; [|apply (py_powR_ok _ _ _ _ _ _ _ _ _ D2 H1 Np)]. intros w. cbn [meaning pd]. apply isP_ext; destruct b; intros; ring.
  - eapply okT_bind; [apply (IHe Hb Hd)|]. intros w1 H1. cbn beta. eapply okT_imp; [|apply (py_sin_ok _ _ _ _ _ _ H1)]. intros w. cbn [meaning pd]. apply isP_ext; destruct b; intros; ring.
  - eapply okT_bind; [apply (IHe Hb Hd)|]. intros w1 H1. cbn beta. eapply okT_imp; [|apply (py_cos_ok _ _ _ _ _ _ H1)]. intros w. cbn [meaning pd]. apply isP_ext; destruct b; intros; ring.
  - destruct Hd as (D1 & D2). eapply okT_bind; [apply (IHe Hb D1)|]. intros w1 H1. cbn beta.
    assert (Nx : F (fun j => cos (meaning (fun i => x i j) e) <> 0)).
    { assert (V := proj2 (val_lim (ETan e) Hb (Logic.conj D1 D2))). revert V. apply filter_imp. intros j Hj. apply Hj. }
    eapply okT_imp; [|apply (py_tan_ok _ _ _ _ _ _ D2 Nx H1)]. intros w. cbn [meaning pd]. apply isP_ext; destruct b; intros; unfold Rdiv; ring.
  - destruct Hd as (D1 & D2). eapply okT_bind; [apply (IHe Hb D1)|]. intros w1 H1. cbn beta. eapply okT_imp; [|apply (py_log_ok _ _ _ _ _ _ D2 H1)]. intros w. cbn [meaning pd]. apply isP_ext; destruct b; intros; unfold Rdiv; ring.
  - eapply okT_bind; [apply (IHe Hb Hd)|]. intros w1 H1. cbn beta. eapply okT_imp; [|apply (py_exp_ok _ _ _ _ _ _ H1)]. intros w. cbn [meaning pd]. apply isP_ext; destruct b; intros; ring.
Qed.
End Run.

(** ---- metrics, Jacobians and flows ---- *)
Lemma evok_mat {D} (r : nat -> nat -> J -> Res D) (P : nat -> nat -> (J -> D) -> Prop) : (forall a b, (a < 4)%nat -> (b < 4)%nat -> okT (r a b) (P a b)) ->
  exists v : nat -> nat -> J -> D, evok (fun j => q4seq (q4tab (fun a => q4seq (q4tab (fun b => r a b j))))) (fun j => mtab (fun a b => v a b j)) /\
    forall a b, (a < 4)%nat -> (b < 4)%nat -> P a b (v a b).
Proof.
  intros H.
  assert (Hr : forall a, (a < 4)%nat -> exists v : nat -> J -> D, evok (fun j => q4seq (q4tab (fun b => r a b j))) (fun j => q4tab (fun b => v b j)) /\ forall b, (b < 4)%nat -> P a b (v b)).
  { intros a Ha. destruct (H a 0%nat Ha ltac:(lia)) as (v0 & E0 & H0), (H a 1%nat Ha ltac:(lia)) as (v1 & E1 & H1), (H a 2%nat Ha ltac:(lia)) as (v2 & E2 & H2), (H a 3%nat Ha ltac:(lia)) as (v3 & E3 & H3).
    exists (fun b => match b with O => v0 | 1 => v1 | 2 => v2 | _ => v3 end)%nat. split; [apply evok_seqV|]; intros [|[|[|[|b]]]] Hb; try assumption; lia. }
  destruct (Hr 0%nat ltac:(lia)) as (v0 & E0 & H0), (Hr 1%nat ltac:(lia)) as (v1 & E1 & H1), (Hr 2%nat ltac:(lia)) as (v2 & E2 & H2), (Hr 3%nat ltac:(lia)) as (v3 & E3 & H3).
  exists (fun a => match a with O => v0 | 1 => v1 | 2 => v2 | _ => v3 end)%nat. split.
  - apply (evok_seqV (fun a j => q4seq (q4tab (fun b => r a b j))) (fun a j => q4tab (fun b => match a with O => v0 | 1 => v1 | 2 => v2 | _ => v3 end%nat b j))). intros [|[|[|[|a]]]] Ha; try assumption; lia.
  - intros [|[|[|[|a]]]] b Ha Hb; try (first [apply H0|apply H1|apply H2|apply H3]; assumption). lia.
Qed.
Lemma mnth_tab' {D} (f : nat -> nat -> D) a b : (a < 4)%nat -> (b < 4)%nat -> mnth (mtab f) a b = f a b.
Proof. intros Ha Hb. unfold mnth, mtab. rewrite q4nth_tab by exact Ha. apply q4nth_tab. exact Hb. Qed.
Lemma mnth_meaning g (q : nat -> R) a b : mnth (metric_meaning g q) a b = meaning q (mnth g a b).
Proof. unfold mnth, metric_meaning. rewrite q4nth_map, q4nth_map. reflexivity. Qed.
Lemma wf_below g a b : well_formed g -> (a < 4)%nat -> (b < 4)%nat -> below 4 (mnth g a b) = true.
Proof.
  intros H Ha Hb. assert (Q := H a b Ha Hb). revert Q. generalize (mnth g a b). clear. intros e; induction e; cbn [vars_below4 below]; intros Q; try reflexivity; try exact Q; try (apply IHe; exact Q).
  all: apply andb_prop in Q as [Q1 Q2]; apply andb_true_intro; split; [apply IHe1|apply IHe2]; assumption.
Qed.
Section Metric.
Variables (g : metricP) (Hwf : well_formed g).
Lemma run_metric_ok b k q x l : nrV q x l -> metric_defined g (q4nth l) ->
  exists v : nat -> nat -> J -> pyval, evok (fun j => run_metricA (A j) g (inputs b k (fun i j => q4nth (q j) i) j)) (fun j => mtab (fun a c => v a c j)) /\
    forall a c, (a < 4)%nat -> (c < 4)%nat -> isP (b && hasvar (mnth g a c)) (v a c) (fun j => meaning (q4nth (x j)) (mnth g a c)) (der_of b k (fun i j => q4nth (x j) i) (mnth g a c)) (meaning (q4nth l) (mnth g a c)) (der_at b k (q4nth l) (mnth g a c)).
Proof.
  intros Hq Hd.
  destruct (evok_mat (fun a c j => runA (A j) (inputs b k (fun i j => q4nth (q j) i) j) (mnth g a c)) (fun a c w => isP (b && hasvar (mnth g a c)) w (fun j => meaning (q4nth (x j)) (mnth g a c)) (der_of b k (fun i j => q4nth (x j) i) (mnth g a c)) (meaning (q4nth l) (mnth g a c)) (der_at b k (q4nth l) (mnth g a c)))) as (v & Ev & Hv).
  { intros a c Ha Hc. apply (run_ok b 4 k (fun i j => q4nth (q j) i) (fun i j => q4nth (x j) i) (q4nth l) Hq); [apply wf_below; assumption|apply Hd; assumption]. }
  exists v. split; [exact Ev|exact Hv].
Qed.
Lemma metric_at_ok q x l : nrV q x l -> metric_defined g (q4nth l) ->
  oktoM (fun j => metric_atA (A j) g (q j)) (fun j => metric_meaning g (q4nth (x j))) (metric_meaning g (q4nth l)).
Proof.
  intros Hq Hd. destruct (run_metric_ok false 0 q x l Hq Hd) as (v & Ev & Hv). cbn [andb isP] in Hv.
  destruct (evok_mat (fun a c j => pf_only (v a c j)) (fun a c z => nr z (fun j => meaning (q4nth (x j)) (mnth g a c)) (meaning (q4nth l) (mnth g a c)))) as (z & Ez & Hz).
  { intros a c Ha Hc. destruct (Hv a c Ha Hc) as (y & Ey & Ny & _). apply (okT_ext (fun j => Ok (y j))); [intros j; rewrite Ey; reflexivity|]. apply okT_ok. exact Ny. }
  exists (fun j => mtab (fun a c => z a c j)). split.
  - unfold metric_atA. apply (evok_bind _ _ (fun j m => q4seq (q4map (fun row => q4seq (q4map pf_only row)) m)) _ Ev). exact Ez.
  - intros a c Ha Hc. generalize (Hz a c Ha Hc). refine (nr_ext_all _ _ _ _ _ _ _) || (intros N; refine (nr_ext_all _ _ _ _ _ _ _ (nr_lim _ _ _ _ _ N))).
    + intros j. rewrite mnth_tab' by assumption. reflexivity.
    + intros j. rewrite mnth_meaning. reflexivity.
    + rewrite mnth_meaning. reflexivity.
Qed.
Lemma diff_ok q x l a c k : (a < 4)%nat -> (c < 4)%nat -> nrV q x l -> metric_defined g (q4nth l) ->
  okto (fun j => diff_gA (A j) g (q j) a c k) (fun j => meaning (q4nth (x j)) (pd k (mnth g a c))) (meaning (q4nth l) (pd k (mnth g a c))).
Proof.
  intros Ha Hc Hq Hd. destruct (run_metric_ok true k q x l Hq Hd) as (v & Ev & Hv). assert (H := Hv a c Ha Hc). cbn [andb] in H. unfold diff_gA.
  unfold okto. apply (okT_bind _ (fun m => m = (fun j => mtab (fun a c => v a c j)))); [exists (fun j => mtab (fun a c => v a c j)); split; [exact Ev|reflexivity]|].
  intros m ->. apply (okT_ext (fun j => Ok (pderiv (v a c j)))); [intros j; rewrite mnth_tab' by assumption; reflexivity|]. apply (okT_ok (fun j => pderiv (v a c j))).
  destruct (hasvar (mnth g a c)); cbn [isP] in H.
  - destruct H as (y & d & E & _ & D). revert D. apply nr_ext_all; [intros j; rewrite E; reflexivity|reflexivity].
  - destruct H as (y & E & _ & Z & Y). generalize (nr_lim _ _ _ _ (eq_sym Y) (nr_const 0)). apply nr_ext_all; [intros j; rewrite E; reflexivity|]. intros j. symmetry. apply Z.
Qed.
Lemma jacobian_ok q x l k : nrV q x l -> metric_defined g (q4nth l) ->
  oktoM (fun j => jacobian_gA (A j) g (q j) k) (fun j => jacM g (x j) k) (jacM g l k).
Proof.
  intros Hq Hd.
  destruct (evok_mat (fun a c j => if Nat.leb a c then diff_gA (A j) g (q j) a c k else Ok 0) (fun a c z => nr z (fun j => mnth (upM g (x j) k) a c) (mnth (upM g l k) a c))) as (z & Ez & Hz).
  { intros a c Ha Hc. unfold upM. rewrite mnth_tab' by assumption. destruct (Nat.leb a c) eqn:Eac.
    - eapply okT_imp; [|apply (diff_ok q x l a c k Ha Hc Hq Hd)]. intros v. apply nr_ext_all; [reflexivity|]. intros j. rewrite mnth_tab', Eac by assumption. reflexivity.
    - apply okT_ok. generalize (nr_const 0). apply nr_ext_all; [reflexivity|]. intros j. rewrite mnth_tab', Eac by assumption. reflexivity. }
  set (Jm := fun j => mtab (fun a c => z a c j)).
  assert (HJ : forall a c, (a < 4)%nat -> (c < 4)%nat -> nr (fun j => mnth (Jm j) a c) (fun j => mnth (upM g (x j) k) a c) (mnth (upM g l k) a c)).
  { intros a c Ha Hc. generalize (Hz a c Ha Hc). apply nr_ext_all; [intros j; unfold Jm; rewrite mnth_tab' by assumption; reflexivity|reflexivity]. }
  destruct (evok_mat (fun a c j => let* s := a_add (A j) (mnth (Jm j) a c) (mnth (Jm j) c a) in a_sub (A j) s (if Nat.eqb a c then mnth (Jm j) a a else 0)) (fun a c y => nr y (fun j => mnth (jacM g (x j) k) a c) (mnth (jacM g l k) a c))) as (y & Ey & Hy).
  { intros a c Ha Hc. eapply okT_bind; [apply (okto_add _ _ _ _ _ _ (HJ a c Ha Hc) (HJ c a Hc Ha))|]. intros s Ns. cbn beta.
    assert (Nd : nr (fun j => if Nat.eqb a c then mnth (Jm j) a a else 0) (fun j => if Nat.eqb a c then mnth (upM g (x j) k) a a else 0) (if Nat.eqb a c then mnth (upM g l k) a a else 0)) by (destruct (Nat.eqb a c); [apply HJ; assumption|apply nr_const]).
    eapply okT_imp; [|apply (okto_sub _ _ _ _ _ _ Ns Nd)]. intros v Nv. unfold jacM. rewrite mnth_tab' by assumption. revert Nv. apply nr_ext_all; [reflexivity|]. intros j. rewrite mnth_tab' by assumption. reflexivity. }
  exists (fun j => mtab (fun a c => y a c j)). split.
  - unfold jacobian_gA. apply (evok_bind _ Jm (fun j J0 => q4seq (q4tab (fun i => q4seq (q4tab (fun j0 => let* s := a_add (A j) (mnth J0 i j0) (mnth J0 j0 i) in a_sub (A j) s (if Nat.eqb i j0 then mnth J0 i i else 0)))))) _ Ez). exact Ey.
  - intros a c Ha Hc. generalize (Hy a c Ha Hc). apply nr_ext_all; [intros j; rewrite mnth_tab' by assumption; reflexivity|reflexivity].
Qed.
Lemma grad_ok q x l p y m : nrV q x l -> nrV p y m -> metric_defined g (q4nth l) ->
  oktoV (fun j => ham_gradA (A j) g (q j) (p j)) (fun j => gradM g (x j) (y j)) (gradM g l m).
Proof.
  intros Hq Hp Hd. apply (oktoV_tab (fun k j => let* z := part_ham_flowA (A j) g (q j) (p j) k in a_mul (A j) (/ 2) z)). intros k Hk. unfold gradM. rewrite q4nth_tab by exact Hk.
  unfold part_ham_flowA.
  eapply okT_bind.
  { eapply okT_bind; [apply (jacobian_ok q x l k Hq Hd)|]. intros Jc NJ. cbn beta. eapply okT_bind; [apply (oktoV_mv _ _ _ _ _ _ NJ Hp)|]. intros v Nv. cbn beta. apply (okto_dot _ _ _ _ _ _ Nv Hp). }
  intros z Nz. cbn beta. eapply okT_imp; [|apply (okto_mul (fun _ => / 2) _ _ _ _ _ (nr_const (/ 2)) Nz)]. intros v. apply nr_ext_all; [reflexivity|]. intros j. rewrite q4nth_tab by exact Hk. reflexivity.
Qed.
(** states *)
Lemma nrM_row s x l a : (a < 4)%nat -> nrM s x l -> nrV (fun j => q4nth (s j) a) (fun j => q4nth (x j) a) (q4nth l a).
Proof. intros Ha H b Hb. exact (H a b Ha Hb). Qed.
Lemma nrM_of (a0 a1 a2 a3 y0 y1 y2 y3 : J -> V4) l0 l1 l2 l3 : nrV a0 y0 l0 -> nrV a1 y1 l1 -> nrV a2 y2 l2 -> nrV a3 y3 l3 ->
  nrM (fun j => mkQ4 (a0 j) (a1 j) (a2 j) (a3 j)) (fun j => mkQ4 (y0 j) (y1 j) (y2 j) (y3 j)) (mkQ4 l0 l1 l2 l3).
Proof. intros H0 H1 H2 H3 [|[|[|[|a]]]] b Ha Hb; [apply H0; exact Hb|apply H1; exact Hb|apply H2; exact Hb|apply H3; exact Hb|lia]. Qed.
Definition Tmap (fA : arith -> R -> state -> Res state) (f : R -> state -> state) (D : R -> state -> Prop) : Prop :=
  forall d e dl s x l, D dl l -> nr d e dl -> nrM s x l -> oktoM (fun j => fA (A j) (d j) (s j)) (fun j => f (e j) (x j)) (f dl l).
Lemma apply_A_ok : Tmap (fun A => apply_AA A g) (mapA g) (fun _ s => metric_defined g (q4nth (q1 s))).
Proof.
  intros d e dl s x l Hd Nd Ns. assert (R0 := nrM_row s x l 0 ltac:(lia) Ns). assert (R1 := nrM_row s x l 1 ltac:(lia) Ns). assert (R2 := nrM_row s x l 2 ltac:(lia) Ns). assert (R3 := nrM_row s x l 3 ltac:(lia) Ns).
  cbn [q4nth] in R0, R1, R2, R3. unfold oktoM, apply_AA, mapA, q1, p1, q2, p2 in *.
  eapply okT_bind; [apply (grad_ok _ _ _ _ _ _ R0 R3 Hd)|]. intros dp N1. cbn beta. eapply okT_bind; [apply (oktoV_scal _ _ _ _ _ _ Nd N1)|]. intros y N2. cbn beta.
  eapply okT_bind; [apply (oktoV_sub _ _ _ _ _ _ R1 N2)|]. intros pn N3. cbn beta. eapply okT_bind; [apply (metric_at_ok _ _ _ R0 Hd)|]. intros m N4. cbn beta.
  eapply okT_bind; [apply (oktoV_mv _ _ _ _ _ _ N4 R3)|]. intros dq N5. cbn beta. eapply okT_bind; [apply (oktoV_scal _ _ _ _ _ _ Nd N5)|]. intros z N6. cbn beta.
  eapply okT_bind; [apply (oktoV_add _ _ _ _ _ _ R2 N6)|]. intros qn N7. cbn beta. apply okT_ok. apply nrM_of; assumption.
Qed.
Lemma apply_B_ok : Tmap (fun A => apply_BA A g) (mapB g) (fun _ s => metric_defined g (q4nth (q2 s))).
Proof.
  intros d e dl s x l Hd Nd Ns. assert (R0 := nrM_row s x l 0 ltac:(lia) Ns). assert (R1 := nrM_row s x l 1 ltac:(lia) Ns). assert (R2 := nrM_row s x l 2 ltac:(lia) Ns). assert (R3 := nrM_row s x l 3 ltac:(lia) Ns).
  cbn [q4nth] in R0, R1, R2, R3. unfold oktoM, apply_BA, mapB, q1, p1, q2, p2 in *.
  eapply okT_bind; [apply (grad_ok _ _ _ _ _ _ R2 R1 Hd)|]. intros dp N1. cbn beta. eapply okT_bind; [apply (oktoV_scal _ _ _ _ _ _ Nd N1)|]. intros y N2. cbn beta.
  eapply okT_bind; [apply (oktoV_sub _ _ _ _ _ _ R3 N2)|]. intros pn N3. cbn beta. eapply okT_bind; [apply (metric_at_ok _ _ _ R2 Hd)|]. intros m N4. cbn beta.
  eapply okT_bind; [apply (oktoV_mv _ _ _ _ _ _ N4 R1)|]. intros dq N5. cbn beta. eapply okT_bind; [apply (oktoV_scal _ _ _ _ _ _ Nd N5)|]. intros z N6. cbn beta.
  eapply okT_bind; [apply (oktoV_add _ _ _ _ _ _ R0 N6)|]. intros qn N7. cbn beta. apply okT_ok. apply nrM_of; assumption.
Qed.
Lemma mixed_ok w : Tmap (fun A d s => flow_mixedA A s d w) (fun d s => flow_mixed s d w) (fun _ _ => True).
Proof.
  intros d e dl s x l _ Nd Ns. assert (R0 := nrM_row s x l 0 ltac:(lia) Ns). assert (R1 := nrM_row s x l 1 ltac:(lia) Ns). assert (R2 := nrM_row s x l 2 ltac:(lia) Ns). assert (R3 := nrM_row s x l 3 ltac:(lia) Ns).
  cbn [q4nth] in R0, R1, R2, R3. unfold oktoM, flow_mixedA, flow_mixed, q1, p1, q2, p2 in *. cbv zeta.
  eapply okT_bind; [apply (oktoV_add _ _ _ _ _ _ R0 R2)|]. intros qs Nqs. cbn beta. eapply okT_bind; [apply (oktoV_sub _ _ _ _ _ _ R0 R2)|]. intros qd Nqd. cbn beta.
  eapply okT_bind; [apply (oktoV_add _ _ _ _ _ _ R1 R3)|]. intros ps Nps. cbn beta. eapply okT_bind; [apply (oktoV_sub _ _ _ _ _ _ R1 R3)|]. intros pd Npd. cbn beta.
  eapply okT_bind; [apply (okto_mul (fun _ => 2) _ _ (fun _ => w) _ _ (nr_const 2) (nr_const w))|]. intros wd Nwd. cbn beta. eapply okT_bind; [apply (okto_mul _ _ _ _ _ _ Nwd Nd)|]. intros an Nan. cbn beta.
  eapply okT_bind; [apply (okto_cos _ _ _ Nan)|]. intros co Nco. cbn beta. eapply okT_bind; [apply (okto_sin _ _ _ Nan)|]. intros si Nsi. cbn beta.
  eapply okT_bind; [apply (oktoV_scal _ _ _ _ _ _ Nco Nqd)|]. intros qc Nqc. cbn beta. eapply okT_bind; [apply (oktoV_scal _ _ _ _ _ _ Nsi Npd)|]. intros pS NpS. cbn beta.
  eapply okT_bind; [apply (oktoV_scal _ _ _ _ _ _ Nco Npd)|]. intros pc Npc. cbn beta. eapply okT_bind; [apply (oktoV_scal _ _ _ _ _ _ Nsi Nqd)|]. intros qS NqS. cbn beta.
  eapply okT_bind; [apply (oktoV_add _ _ _ _ _ _ Nqs Nqc)|]. intros a1 Na1. cbn beta. eapply okT_bind; [apply (oktoV_add _ _ _ _ _ _ Na1 NpS)|]. intros a2 Na2. cbn beta.
  eapply okT_bind; [apply (oktoV_scal (fun _ => / 2) _ _ _ _ _ (nr_const (/ 2)) Na2)|]. intros r0 Nr0. cbn beta.
  eapply okT_bind; [apply (oktoV_add _ _ _ _ _ _ Nps Npc)|]. intros b1 Nb1. cbn beta. eapply okT_bind; [apply (oktoV_sub _ _ _ _ _ _ Nb1 NqS)|]. intros b2 Nb2. cbn beta.
  eapply okT_bind; [apply (oktoV_scal (fun _ => / 2) _ _ _ _ _ (nr_const (/ 2)) Nb2)|]. intros r1 Nr1. cbn beta.
  eapply okT_bind; [apply (oktoV_sub _ _ _ _ _ _ Nqs Nqc)|]. intros c1' Nc1. cbn beta. eapply okT_bind; [apply (oktoV_sub _ _ _ _ _ _ Nc1 NpS)|]. intros c2' Nc2. cbn beta.
  eapply okT_bind; [apply (oktoV_scal (fun _ => / 2) _ _ _ _ _ (nr_const (/ 2)) Nc2)|]. intros r2 Nr2. cbn beta.
  eapply okT_bind; [apply (oktoV_sub _ _ _ _ _ _ Nps Npc)|]. intros d1 Nd1. cbn beta. eapply okT_bind; [apply (oktoV_add _ _ _ _ _ _ Nd1 NqS)|]. intros d2 Nd2. cbn beta.
  eapply okT_bind; [apply (oktoV_scal (fun _ => / 2) _ _ _ _ _ (nr_const (/ 2)) Nd2)|]. intros r3 Nr3. cbn beta.
  apply okT_ok. apply nrM_of; assumption.
Qed.
Lemma ord_2_ok w : Tmap (fun A => ord_2A A g w) (map2 g w) (def2 g w).
Proof.
  intros d e dl s x l (H1 & H2 & H3 & H4) Nd Ns. unfold oktoM, ord_2A, map2.
  eapply okT_bind; [apply (okto_mul (fun _ => / 2) _ _ _ _ _ (nr_const (/ 2)) Nd)|]. intros h Nh. cbn beta.
  eapply okT_bind; [apply (apply_A_ok _ _ _ _ _ _ H1 Nh Ns)|]. intros s1 N1. cbn beta. eapply okT_bind; [apply (apply_B_ok _ _ _ _ _ _ H2 Nh N1)|]. intros s2 N2. cbn beta.
  eapply okT_bind; [apply (mixed_ok w _ _ _ _ _ _ I Nd N2)|]. intros s3 N3. cbn beta. eapply okT_bind; [apply (apply_B_ok _ _ _ _ _ _ H3 Nh N3)|]. intros s4 N4. cbn beta.
  apply (apply_A_ok _ _ _ _ _ _ H4 Nh N4).
Qed.
Lemma Z01_ok order : (2 < order)%nat -> okT (fun j => Z01A (A j) order) (fun z => nr (fun j => fst (z j)) (fun _ => fst (Z01 order)) (fst (Z01 order)) /\ nr (fun j => snd (z j)) (fun _ => snd (Z01 order)) (snd (Z01 order))).
Proof.
  intros Ho. assert (P : 2 < INR order) by (apply (lt_INR 2); exact Ho). unfold Z01A, Z01. cbn [fst snd]. set (n := (INR order - 2) / 2). assert (Hn : 0 < n) by (unfold n; lra).
  set (X := Rpower 2 (1 / (2 * n + 1))).
  assert (LX : X < 2).
  { apply Rlt_le_trans with (Rpower 2 1); [|right; apply Rpower_1; lra]. apply Rpower_lt; [lra|]. apply Rmult_lt_reg_r with (2 * n + 1); [lra|]. unfold Rdiv. rewrite Rmult_assoc, Rinv_l by lra. lra. }
  assert (H1 : 2 * n + 1 <> 0) by lra.
  eapply okT_bind; [apply (okto_div (fun _ => 1) _ _ (fun _ => 2 * n + 1) _ _ H1 (nr_const 1) (nr_const (2 * n + 1)))|]. intros ex Ne. cbn beta.
  eapply okT_bind; [apply (okto_powr (fun _ => 2) _ _ _ _ _ Rlt_0_2 (nr_const 2) Ne)|]. intros y Ny. cbn beta. fold X in Ny.
  eapply okT_bind; [apply (okto_sub (fun _ => 2) _ _ _ _ _ (nr_const 2) Ny)|]. intros z Nz. cbn beta.
  assert (H2 : 2 - X <> 0) by lra.
  eapply okT_bind; [apply (okto_div _ _ _ _ _ _ H2 (nr_opp _ _ _ Ny) Nz)|]. intros z0 N0. cbn beta. eapply okT_bind; [apply (okto_div (fun _ => 1) _ _ _ _ _ H2 (nr_const 1) Nz)|]. intros z1 N1. cbn beta.
  apply (okT_ok (fun j => (z0 j, z1 j))). split; [exact N0|exact N1].
Qed.
Lemma triple_ok order fA f D : (2 < order)%nat -> Tmap fA f D -> Tmap (fun A => tripleA A order (fA A)) (map3 order f) (def3 order f D).
Proof.
  intros Ho HT d e dl s x l (H1 & H2 & H3) Nd Ns. unfold oktoM, tripleA, map3.
  eapply okT_bind; [apply (Z01_ok order Ho)|]. intros z [N0 N1]. cbn beta.
  eapply okT_bind; [apply (okto_mul _ _ _ _ _ _ Nd N1)|]. intros d1 Nd1. cbn beta. eapply okT_bind; [apply (HT _ _ _ _ _ _ H1 Nd1 Ns)|]. intros s1 Ns1. cbn beta.
  eapply okT_bind; [apply (okto_mul _ _ _ _ _ _ Nd N0)|]. intros d0 Nd0. cbn beta. eapply okT_bind; [apply (HT _ _ _ _ _ _ H2 Nd0 Ns1)|]. intros s2 Ns2. cbn beta.
  eapply okT_bind; [apply (okto_mul _ _ _ _ _ _ Nd N1)|]. intros d2 Nd2. cbn beta. apply (HT _ _ _ _ _ _ H3 Nd2 Ns2).
Qed.
End Metric.
Definition stepA (A : arith) (order : nat) (g : metricP) (w d : R) (s : state) : Res state := let* f := integrator_ofA A order g w in f d s.
Lemma step_ok order g w : well_formed g -> (order = 2 \/ order = 4 \/ order = 6 \/ order = 8)%nat -> Tmap (fun A => stepA A order g w) (mapN order g w) (defN order g w).
Proof.
  intros Hwf [-> |[-> |[-> | ->]]].
  - apply (ord_2_ok g Hwf w).
  - apply (triple_ok 4 (fun A => ord_2A A g w)); [lia|apply (ord_2_ok g Hwf w)].
  - apply (triple_ok 6 (fun A => tripleA A 6 (ord_2A A g w))); [lia|]. apply (triple_ok 6 (fun A => ord_2A A g w)); [lia|apply (ord_2_ok g Hwf w)].
  - apply (triple_ok 8 (fun A => tripleA A 8 (tripleA A 8 (ord_2A A g w)))); [lia|]. apply (triple_ok 8 (fun A => tripleA A 8 (ord_2A A g w))); [lia|]. apply (triple_ok 8 (fun A => ord_2A A g w)); [lia|apply (ord_2_ok g Hwf w)].
Qed.
(** geodesic.py:241-253 and geodesic/utils.py:43-54 *)
Lemma cart_ok q x l : nrV q x l -> oktoV (fun j => to_cartesianA (A j) (q j)) (fun j => to_cartesian (x j)) (to_cartesian l).
Proof.
  intros H. assert (H0 := H 0%nat ltac:(lia)). assert (H1 := H 1%nat ltac:(lia)). assert (H2 := H 2%nat ltac:(lia)). assert (H3 := H 3%nat ltac:(lia)). cbn [q4nth] in H0, H1, H2, H3.
  unfold oktoV, to_cartesianA, to_cartesian. cbv zeta.
  eapply okT_bind; [apply (okto_sin _ _ _ H2)|]. intros st Nst. cbn beta. eapply okT_bind; [apply (okto_cos _ _ _ H2)|]. intros ct Nct. cbn beta.
  eapply okT_bind; [apply (okto_cos _ _ _ H3)|]. intros cp Ncp. cbn beta. eapply okT_bind; [apply (okto_sin _ _ _ H3)|]. intros sp Nsp. cbn beta.
  eapply okT_bind; [apply (okto_mul _ _ _ _ _ _ H1 Nst)|]. intros rs Nrs. cbn beta. eapply okT_bind; [apply (okto_mul _ _ _ _ _ _ Nrs Ncp)|]. intros a Na. cbn beta.
  eapply okT_bind; [apply (okto_mul _ _ _ _ _ _ Nrs Nsp)|]. intros b Nb. cbn beta. eapply okT_bind; [apply (okto_mul _ _ _ _ _ _ H1 Nct)|]. intros z Nz. cbn beta.
  apply okT_ok. intros [|[|[|[|i]]]] Hi; [exact H0|exact Na|exact Nb|exact Nz|lia].
Qed.
Definition discP (m : M4) (a b c : R) (tl : bool) : R :=
  (2 * mnth m 0 3 * c) * (2 * mnth m 0 3 * c) - 4 * mnth m 0 0 * (mnth m 1 1 * a * a + mnth m 2 2 * b * b + mnth m 3 3 * c * c + b2R tl).
Definition P4M (m : M4) (a b c : R) (tl : bool) : V4 := mkQ4 ((- (2 * mnth m 0 3 * c) + sqrt (discP m a b c tl)) / (2 * mnth m 0 0)) a b c.
Lemma P4_ok g q x l u1 x1 l1 u2 x2 l2 u3 x3 l3 tl : well_formed g -> metric_defined g (q4nth l) -> nrV q x l -> nr u1 x1 l1 -> nr u2 x2 l2 -> nr u3 x3 l3 ->
  0 < discP (metric_meaning g (q4nth l)) l1 l2 l3 tl -> mnth (metric_meaning g (q4nth l)) 0 0 <> 0 ->
  oktoV (fun j => P4A (A j) g (q j) (u1 j) (u2 j) (u3 j) tl) (fun j => P4M (metric_meaning g (q4nth (x j))) (x1 j) (x2 j) (x3 j) tl) (P4M (metric_meaning g (q4nth l)) l1 l2 l3 tl).
Proof.
  intros Hwf Hd Hq H1 H2 H3 Hp H0. unfold oktoV, P4A, P4M.
  eapply okT_bind; [apply (metric_at_ok g Hwf _ _ _ Hq Hd)|]. intros m Nm. cbn beta zeta.
  assert (M : forall a b, (a < 4)%nat -> (b < 4)%nat -> nr (fun j => mnth (m j) a b) (fun j => mnth (metric_meaning g (q4nth (x j))) a b) (mnth (metric_meaning g (q4nth l)) a b)) by exact Nm.
  clear Nm. pose (y := fun j => metric_meaning g (q4nth (x j))). set (ml := metric_meaning g (q4nth l)) in *. clearbody ml.
  assert (M00 := M 0%nat 0%nat ltac:(lia) ltac:(lia)). assert (M03 := M 0%nat 3%nat ltac:(lia) ltac:(lia)). assert (M11 := M 1%nat 1%nat ltac:(lia) ltac:(lia)). assert (M22 := M 2%nat 2%nat ltac:(lia) ltac:(lia)). assert (M33 := M 3%nat 3%nat ltac:(lia) ltac:(lia)).
  eapply okT_bind; [apply (okto_mul (fun _ => 2) _ _ _ _ _ (nr_const 2) M03)|]. intros b0 N0. cbn beta. eapply okT_bind; [apply (okto_mul _ _ _ _ _ _ N0 H3)|]. intros B NB. cbn beta.
  eapply okT_bind; [apply (okto_mul _ _ _ _ _ _ M11 H1)|]. intros t1 N1. cbn beta. eapply okT_bind; [apply (okto_mul _ _ _ _ _ _ N1 H1)|]. intros t1' N1'. cbn beta.
  eapply okT_bind; [apply (okto_mul _ _ _ _ _ _ M22 H2)|]. intros t2 N2. cbn beta. eapply okT_bind; [apply (okto_mul _ _ _ _ _ _ N2 H2)|]. intros t2' N2'. cbn beta.
  eapply okT_bind; [apply (okto_mul _ _ _ _ _ _ M33 H3)|]. intros t3 N3. cbn beta. eapply okT_bind; [apply (okto_mul _ _ _ _ _ _ N3 H3)|]. intros t3' N3'. cbn beta.
  eapply okT_bind; [apply (okto_add _ _ _ _ _ _ N1' N2')|]. intros s1 Ns1. cbn beta. eapply okT_bind; [apply (okto_add _ _ _ _ _ _ Ns1 N3')|]. intros s2 Ns2. cbn beta.
  eapply okT_bind; [apply (okto_add _ _ _ (fun _ => b2R tl) _ _ Ns2 (nr_const (b2R tl)))|]. intros C NC. cbn beta.
  eapply okT_bind; [apply (okto_pow _ _ _ 2 (or_introl (Zle_0_pos 2)) NB)|]. intros bb Nbb. cbn beta.
  eapply okT_bind; [apply (okto_mul (fun _ => 4) _ _ _ _ _ (nr_const 4) M00)|]. intros k1 Nk1. cbn beta. eapply okT_bind; [apply (okto_mul _ _ _ _ _ _ Nk1 NC)|]. intros k2 Nk2. cbn beta.
  assert (P2 : forall z, powerRZ z 2 = z * z) by (intros z; change (z ^ 2 = z * z); ring).
  eapply okT_bind; [apply (okto_sub _ _ _ _ _ _ Nbb Nk2)|]. intros dd Nd. cbn beta.
  assert (Nd' : nr dd (fun j => discP (y j) (x1 j) (x2 j) (x3 j) tl) (discP ml l1 l2 l3 tl)).
  { unfold discP. refine (nr_lim _ _ _ _ _ (nr_ext_all _ _ _ _ _ (fun _ => eq_refl) _ Nd)); [rewrite P2; reflexivity|]. intros j. cbn beta. rewrite P2. reflexivity. }
  eapply okT_bind; [apply (okto_sqrt _ _ _ Hp Nd')|]. intros r Nr. cbn beta.
  eapply okT_bind; [apply (okto_add _ _ _ _ _ _ (nr_opp _ _ _ NB) Nr)|]. intros n Nn. cbn beta. eapply okT_bind; [apply (okto_mul (fun _ => 2) _ _ _ _ _ (nr_const 2) M00)|]. intros mm Nmm. cbn beta.
  assert (D0 : 2 * mnth ml 0 0 <> 0) by (apply Rmult_integral_contrapositive_currified; [lra|exact H0]).
  eapply okT_bind; [apply (okto_div _ _ _ _ _ _ D0 Nn Nmm)|]. intros p0 Np0. cbn beta.
  apply okT_ok. intros [|[|[|[|i]]]] Hi; [exact Np0|exact H1|exact H2|exact H3|lia].
Qed.
End Track.
