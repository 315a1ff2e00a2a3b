From Coq Require Import Reals List Arith Lra Lia Bool.
From Verif Require Import Base EmbedModel ShadowModel.
Import ListNotations.
Open Scope R_scope.

(** ** np.linspace *)
Lemma linspace_length a b n : length (linspace a b n) = n.
Proof. destruct n as [|[|n]]; try reflexivity. cbn [linspace]. rewrite map_length, seq_length. reflexivity. Qed.
Lemma linspace_nth a b n k : (2 <= n)%nat -> (k < n)%nat -> nth_error (linspace a b n) k = Some (a + INR k * ((b - a) / INR (n - 1))).
Proof.
  intros Hn Hk. destruct n as [|[|n]]; [lia|lia|]. cbn [linspace]. rewrite nth_error_map, (nth_error_nth' _ 0%nat) by (rewrite seq_length; exact Hk).
  rewrite seq_nth by exact Hk. reflexivity.
Qed.
Lemma linspace_first a b n : (1 <= n)%nat -> nth_error (linspace a b n) 0 = Some a.
Proof. intros Hn. destruct (Nat.eq_dec n 1) as [-> |N]; [reflexivity|]. rewrite linspace_nth by lia. cbn [INR]. f_equal. ring. Qed.
Lemma linspace_last a b n : (2 <= n)%nat -> nth_error (linspace a b n) (n - 1) = Some b.
Proof. intros Hn. rewrite linspace_nth by lia. f_equal. assert (INR (n - 1) <> 0) by (apply not_0_INR; lia). field. assumption. Qed.
Lemma linspace_bounds a b n x : a <= b -> In x (linspace a b n) -> a <= x <= b.
Proof.
  intros H Hi. destruct (le_lt_dec n 1) as [L|L].
  - destruct n as [|[|n]]; [contradiction| |lia]. destruct Hi as [<-|[]]. lra.
  - apply In_nth_error in Hi. destruct Hi as [k Hk]. assert (Kn : (k < n)%nat) by (rewrite <- (linspace_length a b n); apply nth_error_Some; congruence).
    rewrite linspace_nth in Hk by lia. injection Hk as <-. assert (P : 0 < INR (n - 1)) by (apply lt_0_INR; lia).
    assert (Q : 0 <= INR k <= INR (n - 1)) by (split; [apply pos_INR|apply le_INR; lia]).
    assert (D : INR k * ((b - a) / INR (n - 1)) = INR k / INR (n - 1) * (b - a)) by (field; lra). rewrite D.
    assert (0 <= INR k / INR (n - 1)) by (apply Rmult_le_pos; [lra|apply Rlt_le, Rinv_0_lt_compat; lra]).
    assert (INR k / INR (n - 1) <= 1) by (apply Rmult_le_reg_r with (INR (n - 1)); [lra|]; unfold Rdiv; rewrite Rmult_assoc, Rinv_l by lra; lra). nra.
Qed.
(** strictly increasing lists *)
Fixpoint increasing (l : list R) : Prop := match l with [] => True | x :: l => (forall y, In y l -> x < y) /\ increasing l end.
Lemma increasing_map f n : (forall i j, (i < j)%nat -> f i < f j) -> forall s, increasing (map f (seq s n)).
Proof. intros H. induction n as [|n IH]; intros s; [exact I|]. cbn [seq map increasing]. split; [|apply IH]. intros y Hy. apply in_map_iff in Hy. destruct Hy as [k [<- Hk]]. apply in_seq in Hk. apply H. lia. Qed.
Lemma linspace_increasing a b n : a < b -> increasing (linspace a b n).
Proof.
  intros H. destruct n as [|[|n]]; [exact I|cbn; tauto|]. cbn [linspace]. apply increasing_map. intros i j Hij.
  assert (P : 0 < INR (S (S n) - 1)) by (apply lt_0_INR; lia). assert (D : 0 < (b - a) / INR (S (S n) - 1)) by (apply Rdiv_lt_0_compat; lra). apply lt_INR in Hij. nra.
Qed.
Lemma increasing_filter g l : increasing l -> increasing (filter g l).
Proof. induction l as [|x l IH]; [trivial|]. cbn [increasing filter]. intros [H1 H2]. destruct (g x); [|auto]. cbn [increasing]. split; [|auto]. intros y Hy. apply filter_In in Hy. apply H1, Hy. Qed.
Lemma increasing_nodup l : increasing l -> NoDup l.
Proof. induction l as [|x l IH]; [constructor|]. intros [H1 H2]. constructor; [|auto]. intros K. specialize (H1 x K). lra. Qed.
Lemma has_dup_iff l : has_dup l = false <-> NoDup l.
Proof.
  induction l as [|x l IH]; [split; [constructor|reflexivity]|]. cbn [has_dup]. destruct (in_dec Req_EM_T x l) as [K|K]; cbn [orb].
  - split; [discriminate|]. intros N. inversion N; contradiction.
  - rewrite IH. split; [intros; constructor; assumption|intros N; inversion N; assumption].
Qed.

(** ** the loop over rays *)
Definition is_real (newton : R -> Res (R * R)) (b : R) : bool := match newton b with Ok (x, y) => if Req_EM_T y 0 then true else false | Err _ => false end.
Definition root_of (newton : R -> Res (R * R)) (b : R) : R := match newton b with Ok (x, y) => x | Err _ => 0 end.
Lemma is_real_iff newton b : is_real newton b = true <-> exists rt, newton b = Ok (rt, 0).
Proof.
  unfold is_real. destruct (newton b) as [[x y]|e]; [|split; [discriminate|intros [? H]; discriminate]].
  destruct (Req_EM_T y 0) as [-> |N]; [split; [intros _; eauto|reflexivity]|]. split; [discriminate|]. intros [rt H]. inversion H. contradiction.
Qed.
Lemma trace_spec newton : forall l a1 a2, (forall b, In b l -> exists x, newton b = Ok x) ->
  trace newton l a1 a2 = Ok (a1 ++ filter (is_real newton) l, a2 ++ map (fun b => (b, root_of newton b)) (filter (is_real newton) l)).
Proof.
  induction l as [|i l IH]; intros a1 a2 H; [cbn; rewrite !app_nil_r; reflexivity|]. cbn [trace]. destruct (H i (or_introl eq_refl)) as [[x y] E].
  rewrite E. cbn [bindR fst snd filter]. assert (Er : is_real newton i = if Req_EM_T y 0 then true else false) by (unfold is_real; rewrite E; reflexivity). rewrite Er. destruct (Req_EM_T y 0).
  - rewrite IH by (intros; apply H; right; assumption). cbn [map]. assert (Ex : root_of newton i = x) by (unfold root_of; rewrite E; reflexivity). rewrite Ex, <- !app_assoc. reflexivity.
  - rewrite IH by (intros; apply H; right; assumption). reflexivity.
Qed.
Lemma trace_err newton : forall l a1 a2 e, trace newton l a1 a2 = Err e <-> exists l1 b l2, l = l1 ++ b :: l2 /\ newton b = Err e /\ forall c, In c l1 -> exists x, newton c = Ok x.
Proof.
  induction l as [|i l IH]; intros a1 a2 e; [split; [discriminate|intros [l1 [b [l2 [H _]]]]; destruct l1; discriminate]|].
  cbn [trace]. destruct (newton i) as [[x y]|e'] eqn:E; cbn [bindR].
  - assert (K : (exists l1 b l2, l = l1 ++ b :: l2 /\ newton b = Err e /\ forall c, In c l1 -> exists x, newton c = Ok x) <->
                (exists l1 b l2, i :: l = l1 ++ b :: l2 /\ newton b = Err e /\ forall c, In c l1 -> exists x, newton c = Ok x)).
    { split.
      - intros [l1 [b [l2 [-> [Hb Hc]]]]]. exists (i :: l1), b, l2. split; [reflexivity|]. split; [exact Hb|]. intros c [<-|Hi]; [eauto|auto].
      - intros [[|c l1] [b [l2 [H [Hb Hc]]]]]; cbn in H; inversion H; subst; [congruence|]. exists l1, b, l2. split; [reflexivity|]. split; [exact Hb|]. intros; apply Hc; right; assumption. }
    cbn [snd]. destruct (Req_EM_T y 0); rewrite IH; exact K.
  - split.
    + intros H. inversion H; subst. exists [], i, l. split; [reflexivity|]. split; [exact E|]. intros c [].
    + intros [[|c l1] [b [l2 [H [Hb Hc]]]]]; cbn in H; inversion H; subst; [congruence|]. destruct (Hc c (or_introl eq_refl)) as [x Hx]. congruence.
Qed.
Definition ok_rays (M : R) n fov (newton : R -> Res (R * R)) : Prop := forall b, In b (linspace (3 * sqrt 3 * M) fov n) -> exists x, newton b = Ok x.
Lemma ok_or_err newton l a1 a2 : (exists e, trace newton l a1 a2 = Err e) \/ (forall b, In b l -> exists x, newton b = Ok x).
Proof.
  revert a1 a2. induction l as [|i l IH]; intros a1 a2; [right; intros b []|]. cbn [trace]. destruct (newton i) as [[x y]|e] eqn:E; cbn [bindR]; [|left; eauto].
  assert (K : (forall b, In b l -> exists x, newton b = Ok x) -> forall b, In b (i :: l) -> exists x, newton b = Ok x) by (intros H b [<-|Hb]; [eauto|auto]).
  cbn [snd]. destruct (Req_EM_T y 0); match goal with |- context [trace newton l ?u ?v] => destruct (IH u v) end; auto.
Qed.

(** the rays kept and the rays below the critical one *)
Definition kept (M : R) n fov newton := filter (is_real newton) (linspace (3 * sqrt 3 * M) fov n).
Definition below (M : R) n fov limit newton := linspace limit (3 * sqrt 3 * M) (length (kept M n fov newton)).
Definition far_intensity (M fov rt b : R) : option R :=
  eadd (fixed_quad (fun r => intensity_blue_sch M r b) fov rt) (fixed_quad (fun r => intensity_red_sch M r b) rt fov).
Definition near_intensity (M fov b : R) : option R := fixed_quad (fun r => intensity_red_sch M r b) (2 * M) fov.
Lemma Shadow_ok M n fov limit newton s : Shadow M n fov limit newton = Ok s <-> ok_rays M n fov newton /\
  let B := kept M n fov newton in let B2 := below M n fov limit newton in
  s = mkShadow (3 * sqrt 3 * M) (linspace (3 * sqrt 3 * M) fov n) B (map (fun b => (b, root_of newton b)) B)
       (map (fun b => far_intensity M fov (root_of newton b) b) B) (map (near_intensity M fov) B2) B2
       (map (near_intensity M fov) B2 ++ map (fun b => far_intensity M fov (root_of newton b) b) B) (B2 ++ B) (map Ropp B2 ++ map Ropp B).
Proof.
  unfold Shadow, ok_rays. destruct (ok_or_err newton (linspace (3 * sqrt 3 * M) fov n) [] []) as [[e E]|H].
  - rewrite E. cbn [bindR]. split; [discriminate|]. intros [H _]. rewrite trace_spec in E by exact H. discriminate.
  - rewrite trace_spec by exact H. cbn [bindR fst snd app]. unfold intensity_far. rewrite map_map. cbn [fst snd]. fold (kept M n fov newton).
    split; [intros K; apply Ok_inj in K; subst s; split; [exact H|reflexivity]|]. intros [_ ->]. reflexivity.
Qed.
Lemma map_nth_opp (l : list R) k : nth_error (map Ropp l) k = option_map Ropp (nth_error l k).
Proof. apply nth_error_map. Qed.

(** C71 *)
Lemma shadow_aligned M n fov limit newton s : Shadow M n fov limit newton = Ok s ->
  length (intensity s) = length (fb1 s) /\ length (fb2 s) = length (fb1 s) /\ fb2 s = map Ropp (fb1 s) /\
  (exists m, length (fb1 s) = (m + m)%nat /\
   (forall k b, (k < m)%nat -> nth_error (fb1 s) k = Some b -> nth_error (intensity s) k = Some (near_intensity M fov b)) /\
   (forall k b, (m <= k)%nat -> nth_error (fb1 s) k = Some b -> exists rt, newton b = Ok (rt, 0) /\ nth_error (intensity s) k = Some (far_intensity M fov rt b))).
Proof.
  intros H. apply Shadow_ok in H. destruct H as [_ ->]. cbn [intensity fb1 fb2]. set (B := kept M n fov newton). set (B2 := below M n fov limit newton).
  assert (L : length B2 = length B) by (apply linspace_length). rewrite !app_length, !map_length. split; [reflexivity|]. split; [reflexivity|]. split; [rewrite map_app; reflexivity|].
  exists (length B). split; [lia|]. split; intros k b Hk Hb.
  - rewrite nth_error_app1 in * by (rewrite ?map_length; lia). rewrite nth_error_map, Hb. reflexivity.
  - rewrite nth_error_app2 in * by (rewrite ?map_length; lia). rewrite map_length, nth_error_map, Hb. cbn [option_map].
    apply nth_error_In in Hb. unfold B, kept in Hb. apply filter_In in Hb. destruct Hb as [_ Hb]. apply is_real_iff in Hb. destruct Hb as [rt Hr].
    exists rt. split; [exact Hr|]. unfold root_of. rewrite Hr. reflexivity.
Qed.
(** which rays are kept, and in which order *)
Lemma shadow_rays M n fov limit newton s : Shadow M n fov limit newton = Ok s -> 3 * sqrt 3 * M < fov -> limit < 3 * sqrt 3 * M ->
  (forall b, In b (bfin s) <-> In b (linspace (3 * sqrt 3 * M) fov n) /\ exists rt, newton b = Ok (rt, 0)) /\
  increasing (bfin s) /\ increasing (b2 s) /\ fb1 s = b2 s ++ bfin s /\ length (b2 s) = length (bfin s) /\
  (forall b, In b (b2 s) -> limit <= b <= 3 * sqrt 3 * M) /\ (forall b, In b (bfin s) -> 3 * sqrt 3 * M <= b <= fov).
Proof.
  intros H Hf Hl. apply Shadow_ok in H. destruct H as [_ ->]. cbn [bfin b2 fb1].
  split; [intros b; unfold kept; rewrite filter_In, is_real_iff; tauto|].
  split; [apply increasing_filter, linspace_increasing, Hf|]. split; [apply linspace_increasing, Hl|]. split; [reflexivity|]. split; [apply linspace_length|].
  split; intros b Hb; [eapply linspace_bounds; [|exact Hb]; lra|]. unfold kept in Hb. apply filter_In in Hb. eapply linspace_bounds; [|apply Hb]. lra.
Qed.
(** the constructor raises exactly what the root finder raises on the first failing ray *)
Lemma shadow_raises M n fov limit newton e : Shadow M n fov limit newton = Err e <->
  exists l1 b l2, linspace (3 * sqrt 3 * M) fov n = l1 ++ b :: l2 /\ newton b = Err e /\ forall c, In c l1 -> exists x, newton c = Ok x.
Proof.
  unfold Shadow. rewrite <- (trace_err newton _ [] [] e). destruct (trace newton _ [] []); cbn [bindR]; [split; discriminate|].
  split; intros K; inversion K; reflexivity.
Qed.

Lemma increasing_app_nodup l1 l2 (c : R) : increasing l1 -> increasing l2 -> (forall x, In x l1 -> x <= c) -> (forall x, In x l2 -> c <= x) -> (NoDup (l1 ++ l2) <-> ~ (In c l1 /\ In c l2)).
Proof.
  intros I1 I2 B1 B2. split.
  - intros N [H1 H2]. induction l1 as [|x l1 IH]; [contradiction|]. cbn [app] in N. inversion N; subst. destruct H1 as [<-|H1]; [apply H3, in_or_app; auto|].
    apply IH; auto; [apply I1|intros; apply B1; right; assumption].
  - intros N. induction l1 as [|x l1 IH]; [apply increasing_nodup, I2|]. cbn [app]. destruct I1 as [H1 I1]. constructor.
    + intros K. apply in_app_or in K. destruct K as [K|K]; [specialize (H1 x K); lra|]. apply N. assert (x = c) by (specialize (B1 x (or_introl eq_refl)); specialize (B2 x K); lra). subst x. split; [left; reflexivity|exact K].
    + apply IH; auto; [intros; apply B1; right; assumption|]. intros [K1 K2]. apply N. split; [right; exact K1|exact K2].
Qed.
Lemma fold_min_in l : forall x, In (fold_left Rmin l x) (x :: l) /\ (forall y, In y (x :: l) -> fold_left Rmin l x <= y).
Proof.
  induction l as [|a l IH]; intros x; [split; [left; reflexivity|intros y [<-|[]]; cbn; lra]|]. cbn [fold_left]. destruct (IH (Rmin x a)) as [H1 H2]. split.
  - destruct H1 as [H1|H1]; [|right; right; exact H1]. rewrite <- H1. unfold Rmin. destruct (Rle_dec x a); [left|right; left]; reflexivity.
  - intros y Hy. assert (K : fold_left Rmin l (Rmin x a) <= Rmin x a) by (apply H2; left; reflexivity). assert (L1 := Rmin_l x a). assert (L2 := Rmin_r x a).
    destruct Hy as [<-|[<-|Hy]]; [lra|lra|apply H2; right; exact Hy].
Qed.
Lemma fold_max_in l : forall x, In (fold_left Rmax l x) (x :: l) /\ (forall y, In y (x :: l) -> y <= fold_left Rmax l x).
Proof.
  induction l as [|a l IH]; intros x; [split; [left; reflexivity|intros y [<-|[]]; cbn; lra]|]. cbn [fold_left]. destruct (IH (Rmax x a)) as [H1 H2]. split.
  - destruct H1 as [H1|H1]; [|right; right; exact H1]. rewrite <- H1. unfold Rmax. destruct (Rle_dec x a); [right; left|left]; reflexivity.
  - intros y Hy. assert (K : Rmax x a <= fold_left Rmax l (Rmax x a)) by (apply H2; left; reflexivity). assert (L1 := Rmax_l x a). assert (L2 := Rmax_r x a).
    destruct Hy as [<-|[<-|Hy]]; [lra|lra|apply H2; right; exact Hy].
Qed.
(** smoothen succeeds exactly when two rays at least were kept and the critical ray was not *)
Lemma smoothen_iff M n fov limit newton s spline points : Shadow M n fov limit newton = Ok s -> limit < 3 * sqrt 3 * M -> 3 * sqrt 3 * M < fov ->
  ((exists s', smoothen spline points s = Ok s') <-> (2 <= length (bfin s))%nat /\ ~ In (3 * sqrt 3 * M) (bfin s)) /\
  ((~ exists s', smoothen spline points s = Ok s') -> smoothen spline points s = Err ValueError).
Proof.
  intros H Hl Hf. destruct (shadow_rays _ _ _ _ _ _ H Hf Hl) as [_ [I1 [I2 [E [L [B2 B1]]]]]]. set (c := 3 * sqrt 3 * M) in *.
  assert (N := increasing_app_nodup (b2 s) (bfin s) c I2 I1 (fun x Hx => proj2 (B2 x Hx)) (fun x Hx => proj1 (B1 x Hx))). rewrite <- E in N.
  assert (C : (2 <= length (bfin s))%nat -> In c (b2 s)).
  { intros K. assert (Eb : b2 s = linspace limit c (length (bfin s))) by (apply Shadow_ok in H; destruct H as [_ ->]; reflexivity).
    rewrite Eb. apply nth_error_In with (length (bfin s) - 1)%nat. apply linspace_last. exact K. }
  assert (Lf : length (fb1 s) = (length (bfin s) + length (bfin s))%nat) by (rewrite E, app_length; lia).
  unfold smoothen, np_min, np_max, interp1d. destruct (fb1 s) as [|x0 l] eqn:F.
  { cbn [bindR]. split; [|reflexivity]. split; [intros [s' K]; discriminate|]. intros [K _]. cbn in Lf. lia. }
  cbn [bindR]. destruct (Nat.ltb_spec (length (x0 :: l)) 4) as [L4|L4].
  { cbn [bindR]. split; [|reflexivity]. split; [intros [s' K]; discriminate|]. intros [K _]. lia. }
  destruct (has_dup (x0 :: l)) eqn:D.
  { cbn [bindR]. split; [|reflexivity]. split; [intros [s' K]; discriminate|]. intros [K1 K2]. exfalso. assert (ND : NoDup (x0 :: l)) by (apply N; tauto).
    apply has_dup_iff in ND. congruence. }
  cbn [bindR]. split; [|intros K; exfalso; apply K; eauto]. apply has_dup_iff in D. split; [intros _|intros _; eauto]. split; [lia|].
  intros K. apply N in D. apply D. split; [apply C; lia|exact K].
Qed.
Lemma smoothen_spec spline points s s' : smoothen spline points s = Ok s' -> exists lo hi,
  In lo (fb1 s) /\ In hi (fb1 s) /\ (forall b, In b (fb1 s) -> lo <= b <= hi) /\
  fb1 s' = linspace lo hi points /\ fb2 s' = map Ropp (fb1 s') /\ intensity s' = map (spline (fb1 s) (intensity s)) (fb1 s') /\
  length (fb1 s') = points /\ length (fb2 s') = points /\ length (intensity s') = points.
Proof.
  unfold smoothen, np_min, np_max, interp1d. destruct (fb1 s) as [|x0 l] eqn:F; [discriminate|]. cbn [bindR]. destruct (Nat.ltb _ _); [discriminate|]. destruct (has_dup _); [discriminate|]. cbn [bindR].
  intros K. apply Ok_inj in K. subst s'. cbn [fb1 fb2 intensity]. destruct (fold_min_in l x0) as [A1 A2]. destruct (fold_max_in l x0) as [C1 C2].
  exists (fold_left Rmin l x0), (fold_left Rmax l x0). split; [exact A1|]. split; [exact C1|]. split; [intros b Hb; split; auto|]. split; [reflexivity|].
  split; [apply map_ext; intros; ring|]. split; [reflexivity|]. rewrite !map_length, !linspace_length. auto.
Qed.

(** ** the integrands *)
Definition gtt (M r : R) : R := 1 - 2 * M / r.
Definition imp (M r b : R) : R := sqrt (1 - b ^ 2 * gtt M r / r ^ 2).
Lemma gtt_range M r : 0 < M -> 2 * M < r -> 0 < gtt M r < 1.
Proof.
  intros HM Hr. unfold gtt. assert (0 < 2 * M / r) by (apply Rdiv_lt_0_compat; lra). assert (2 * M / r < 1); [|lra].
  apply Rmult_lt_reg_r with r; [lra|]. unfold Rdiv. rewrite Rmult_assoc, Rinv_l by lra. lra.
Qed.
Lemma ediv_ok x y : y <> 0 -> ediv x y = Some (x / y).
Proof. intros H. unfold ediv. destruct (Req_EM_T y 0); [contradiction|reflexivity]. Qed.
Lemma esqrt_ok x : 0 <= x -> esqrt x = Some (sqrt x).
Proof. intros H. unfold esqrt. destruct (Rlt_dec x 0); [lra|reflexivity]. Qed.
Lemma einv_ok x : x <> 0 -> einv x = Some (1 / x). Proof. intros H. unfold einv. apply ediv_ok, H. Qed.
Lemma imp_range M r b : 0 < M -> 2 * M < r -> b ^ 2 * gtt M r < r ^ 2 -> 0 < imp M r b <= 1.
Proof.
  intros HM Hr Hb. assert (G := gtt_range M r HM Hr). unfold imp. assert (P : 0 < r ^ 2) by (apply pow_lt; lra).
  assert (Q : b ^ 2 * gtt M r / r ^ 2 < 1) by (apply Rmult_lt_reg_r with (r ^ 2); [exact P|]; unfold Rdiv; rewrite Rmult_assoc, Rinv_l by lra; lra).
  assert (Q0 : 0 <= b ^ 2 * gtt M r / r ^ 2) by (apply Rmult_le_pos; [apply Rmult_le_pos; [apply pow2_ge_0|lra]|apply Rlt_le, Rinv_0_lt_compat; exact P]).
  split; [apply sqrt_lt_R0; lra|]. rewrite <- sqrt_1 at 2. apply sqrt_le_1; lra.
Qed.
Section Integrands.
Variables (M r b : R).
Hypothesis (HM : 0 < M) (Hr : 2 * M < r) (Hb : b ^ 2 * gtt M r < r ^ 2).
Let t := sqrt (2 * M / r).
Lemma t_range : 0 < t < 1.
Proof.
  assert (G := gtt_range M r HM Hr). unfold gtt in G. unfold t. split; [apply sqrt_lt_R0; lra|]. rewrite <- sqrt_1. apply sqrt_lt_1; lra.
Qed.
Lemma krk : sqrt (gtt M r / (1 / gtt M r) * (1 - b ^ 2 * gtt M r / r ^ 2)) = gtt M r * imp M r b.
Proof.
  assert (G := gtt_range M r HM Hr). replace (gtt M r / (1 / gtt M r)) with (gtt M r * gtt M r) by (field; lra).
  assert (I := imp_range M r b HM Hr Hb). rewrite sqrt_mult_alt by nra. rewrite sqrt_square by lra. reflexivity.
Qed.
Lemma inner_pos : 0 <= gtt M r / (1 / gtt M r) * (1 - b ^ 2 * gtt M r / r ^ 2).
Proof.
  assert (G := gtt_range M r HM Hr). assert (P : 0 < r ^ 2) by (apply pow_lt; lra).
  replace (gtt M r / (1 / gtt M r)) with (gtt M r * gtt M r) by (field; lra).
  assert (Q : b ^ 2 * gtt M r / r ^ 2 < 1) by (apply Rmult_lt_reg_r with (r ^ 2); [exact P|]; unfold Rdiv; rewrite Rmult_assoc, Rinv_l by lra; lra).
  apply Rmult_le_pos; [nra|lra].
Qed.
(** closed forms *)
Lemma red_value : intensity_red_sch M r b = Some ((gtt M r / (1 + imp M r b * t)) ^ 3 / (r ^ 2 * imp M r b)).
Proof.
  assert (G := gtt_range M r HM Hr). assert (I := imp_range M r b HM Hr Hb). assert (T := t_range). assert (P : 0 < r ^ 2) by (apply pow_lt; lra).
  unfold intensity_red_sch. rewrite ediv_ok by lra. cbn [obind]. fold (gtt M r). cbv zeta. rewrite einv_ok by lra. cbn [obind].
  assert (N1 : 1 / gtt M r <> 0) by (unfold Rdiv; rewrite Rmult_1_l; apply Rinv_neq_0_compat; lra).
  rewrite ediv_ok by exact N1. cbn [obind]. rewrite ediv_ok by lra. cbn [obind]. unfold ehalf. rewrite esqrt_ok by apply inner_pos. cbn [obind]. rewrite krk.
  rewrite ediv_ok by lra. cbn [obind]. rewrite ediv_ok by lra. cbn [obind]. rewrite ediv_ok by (replace (gtt M r * (1 / gtt M r)) with 1 by (field; lra); lra). cbn [obind].
  replace ((1 - gtt M r) / (gtt M r * (1 / gtt M r))) with (2 * M / r) by (replace (gtt M r * (1 / gtt M r)) with 1 by (field; lra); unfold gtt; field; lra).
  rewrite esqrt_ok by (unfold gtt in G; lra). cbn [obind]. fold t.
  assert (D : 1 / gtt M r + gtt M r * imp M r b * (1 / gtt M r / gtt M r) * t = (1 + imp M r b * t) / gtt M r) by (field; lra). rewrite D.
  assert (D1 : 0 < 1 + imp M r b * t) by nra.
  rewrite einv_ok by (apply Rgt_not_eq, Rdiv_lt_0_compat; lra). cbn [obind]. rewrite ediv_ok by lra. cbn [obind]. rewrite ediv_ok by nra. cbn [obind]. f_equal. field. repeat split; lra.
Qed.
Lemma blue_value : intensity_blue_sch M r b = Some (- ((gtt M r / (1 - imp M r b * t)) ^ 3 / (r ^ 2 * imp M r b))).
Proof.
  assert (G := gtt_range M r HM Hr). assert (I := imp_range M r b HM Hr Hb). assert (T := t_range). assert (P : 0 < r ^ 2) by (apply pow_lt; lra).
  unfold intensity_blue_sch. rewrite ediv_ok by lra. cbn [obind]. fold (gtt M r). cbv zeta. rewrite einv_ok by lra. cbn [obind].
  assert (N1 : 1 / gtt M r <> 0) by (unfold Rdiv; rewrite Rmult_1_l; apply Rinv_neq_0_compat; lra).
  rewrite ediv_ok by exact N1. cbn [obind]. rewrite ediv_ok by lra. cbn [obind]. unfold ehalf. rewrite esqrt_ok by apply inner_pos. cbn [obind]. rewrite krk.
  rewrite ediv_ok by lra. cbn [obind]. rewrite ediv_ok by lra. cbn [obind]. rewrite ediv_ok by (replace (gtt M r * (1 / gtt M r)) with 1 by (field; lra); lra). cbn [obind].
  replace ((1 - gtt M r) / (gtt M r * (1 / gtt M r))) with (2 * M / r) by (replace (gtt M r * (1 / gtt M r)) with 1 by (field; lra); unfold gtt; field; lra).
  rewrite esqrt_ok by (unfold gtt in G; lra). cbn [obind]. fold t.
  assert (D : 1 / gtt M r - gtt M r * imp M r b * (1 / gtt M r / gtt M r) * t = (1 - imp M r b * t) / gtt M r) by (field; lra). rewrite D.
  assert (D1 : 0 < 1 - imp M r b * t) by nra.
  rewrite einv_ok by (apply Rgt_not_eq, Rdiv_lt_0_compat; lra). cbn [obind]. rewrite ediv_ok by lra. cbn [obind]. rewrite ediv_ok by nra. cbn [obind]. f_equal. field. repeat split; lra.
Qed.
Lemma red_pos : exists v, intensity_red_sch M r b = Some v /\ 0 < v.
Proof.
  rewrite red_value. eexists. split; [reflexivity|]. assert (G := gtt_range M r HM Hr). assert (I := imp_range M r b HM Hr Hb). assert (T := t_range). assert (P : 0 < r ^ 2) by (apply pow_lt; lra).
  apply Rdiv_lt_0_compat; [apply pow_lt, Rdiv_lt_0_compat; nra|nra].
Qed.
Lemma blue_neg : exists v, intensity_blue_sch M r b = Some v /\ v < 0.
Proof.
  rewrite blue_value. eexists. split; [reflexivity|]. assert (G := gtt_range M r HM Hr). assert (I := imp_range M r b HM Hr Hb). assert (T := t_range). assert (P : 0 < r ^ 2) by (apply pow_lt; lra).
  assert (0 < (gtt M r / (1 - imp M r b * t)) ^ 3 / (r ^ 2 * imp M r b)); [|lra]. apply Rdiv_lt_0_compat; [apply pow_lt, Rdiv_lt_0_compat; nra|nra].
Qed.
End Integrands.

(** ** the quadrature: nodes strictly inside, positive weights *)
Lemma sqrt_between x lo hi : 0 <= lo -> 0 <= hi -> lo * lo < x -> x < hi * hi -> lo < sqrt x < hi.
Proof.
  intros Hl Hh H1 H2. split.
  - rewrite <- (sqrt_square lo) by exact Hl. apply sqrt_lt_1; nra.
  - rewrite <- (sqrt_square hi) by exact Hh. apply sqrt_lt_1; nra.
Qed.
Lemma gauss5_ok xw : In xw gauss5 -> -1 < fst xw < 1 /\ 0 < snd xw.
Proof.
  assert (A := sqrt_between (10 / 7) (119 / 100) (6 / 5) ltac:(lra) ltac:(lra) ltac:(lra) ltac:(lra)).
  assert (B := sqrt_between 70 8 (17 / 2) ltac:(lra) ltac:(lra) ltac:(lra) ltac:(lra)).
  assert (C := sqrt_between (5 - 2 * sqrt (10 / 7)) 1 2 ltac:(lra) ltac:(lra) ltac:(lra) ltac:(lra)).
  assert (D := sqrt_between (5 + 2 * sqrt (10 / 7)) 2 (11 / 4) ltac:(lra) ltac:(lra) ltac:(lra) ltac:(lra)).
  unfold gauss5. cbn [In]. intros [<-|[<-|[<-|[<-|[<-|[]]]]]]; cbn [fst snd]; lra.
Qed.
Lemma gauss5_weights : fold_right Rplus 0 (map snd gauss5) = 2.
Proof. unfold gauss5. cbn [map snd fold_right]. field. Qed.
Lemma node_inside a b x : -1 < x < 1 -> a < b -> a < (b - a) * (x + 1) / 2 + a < b.
Proof. intros Hx H. nra. Qed.
Lemma node_inside_rev a b x : -1 < x < 1 -> b < a -> b < (b - a) * (x + 1) / 2 + a < a.
Proof. intros Hx H. nra. Qed.
Lemma esum_sign l sg : (forall o, In o l -> exists v, o = Some v /\ 0 < sg * v) -> l <> [] -> exists v, esum_list l = Some v /\ 0 < sg * v.
Proof.
  intros H N. destruct l as [|o l]; [contradiction|]. clear N. revert o H. induction l as [|o' l IH]; intros o H.
  - destruct (H o (or_introl eq_refl)) as [v [-> Hv]]. exists (v + 0). split; [reflexivity|]. rewrite Rplus_0_r. exact Hv.
  - destruct (H o (or_introl eq_refl)) as [v [-> Hv]]. destruct (IH o') as [w [Ew Hw]]; [intros; apply H; right; assumption|].
    change (esum_list (Some v :: o' :: l)) with (eadd (Some v) (esum_list (o' :: l))). rewrite Ew. exists (v + w). split; [reflexivity|]. lra.
Qed.
Lemma quad_pos f a b : a < b -> (forall r, a < r < b -> exists v, f r = Some v /\ 0 < v) -> exists v, fixed_quad f a b = Some v /\ 0 < v.
Proof.
  intros H Hf. unfold fixed_quad. destruct (esum_sign (map (fun xw => emul (Some (snd xw)) (f ((b - a) * (fst xw + 1) / 2 + a))) gauss5) 1) as [v [E Hv]].
  - intros o Ho. apply in_map_iff in Ho. destruct Ho as [xw [<- Hx]]. apply gauss5_ok in Hx. destruct Hx as [Hx Hw].
    destruct (Hf _ (node_inside a b _ Hx H)) as [v [-> Hv]]. exists (snd xw * v). split; [reflexivity|]. nra.
  - discriminate.
  - rewrite E. exists ((b - a) / 2 * v). split; [reflexivity|]. nra.
Qed.
Lemma quad_rev f a b : b < a -> (forall r, b < r < a -> exists v, f r = Some v /\ v < 0) -> exists v, fixed_quad f a b = Some v /\ 0 < v.
Proof.
  intros H Hf. unfold fixed_quad. destruct (esum_sign (map (fun xw => emul (Some (snd xw)) (f ((b - a) * (fst xw + 1) / 2 + a))) gauss5) (-1)) as [v [E Hv]].
  - intros o Ho. apply in_map_iff in Ho. destruct Ho as [xw [<- Hx]]. apply gauss5_ok in Hx. destruct Hx as [Hx Hw].
    destruct (Hf _ (node_inside_rev a b _ Hx H)) as [v [-> Hv]]. exists (snd xw * v). split; [reflexivity|]. nra.
  - discriminate.
  - rewrite E. exists ((b - a) / 2 * v). split; [reflexivity|]. nra.
Qed.
(** the photon reaches every radius outside the horizon when b < b_crit *)
Lemma below_critical M r b : 0 < M -> 2 * M < r -> 0 <= b -> b < 3 * sqrt 3 * M -> b ^ 2 * gtt M r < r ^ 2.
Proof.
  intros HM Hr Hb0 Hb. assert (S3 : sqrt 3 * sqrt 3 = 3) by (apply sqrt_sqrt; lra). assert (Sp : 0 < sqrt 3) by (apply sqrt_lt_R0; lra).
  assert (B2 : b ^ 2 < 27 * M ^ 2). { replace (27 * M ^ 2) with ((3 * sqrt 3 * M) * (3 * sqrt 3 * M)) by (transitivity (9 * (sqrt 3 * sqrt 3) * M ^ 2); [ring|rewrite S3; ring]). simpl. rewrite Rmult_1_r. apply Rmult_le_0_lt_compat; lra. }
  assert (G := gtt_range M r HM Hr). assert (E : r * gtt M r = r - 2 * M) by (unfold gtt; field; lra).
  assert (27 * M ^ 2 * (r - 2 * M) <= r ^ 3).
  { assert (0 <= (r - 3 * M) ^ 2 * (r + 6 * M)) by (apply Rmult_le_pos; [apply pow2_ge_0|lra]). nra. }
  assert (b ^ 2 * (r - 2 * M) < 27 * M ^ 2 * (r - 2 * M)) by (apply Rmult_lt_compat_r; lra).
  apply Rmult_lt_reg_l with r; [lra|]. replace (r * (b ^ 2 * gtt M r)) with (b ^ 2 * (r - 2 * M)) by (rewrite <- E; ring). replace (r * r ^ 2) with (r ^ 3) by ring. lra.
Qed.
(** beyond a turning point at or outside 3M the photon reaches every larger radius *)
Lemma beyond_turning M rt r b : 0 < M -> 3 * M <= rt -> b ^ 2 * gtt M rt <= rt ^ 2 -> rt < r -> b ^ 2 * gtt M r < r ^ 2.
Proof.
  intros HM Hrt Hb Hr. assert (E1 : rt * gtt M rt = rt - 2 * M) by (unfold gtt; field; lra). assert (E : r * gtt M r = r - 2 * M) by (unfold gtt; field; lra).
  assert (A : b ^ 2 * (rt - 2 * M) <= rt ^ 3). { rewrite <- E1. replace (b ^ 2 * (rt * gtt M rt)) with (rt * (b ^ 2 * gtt M rt)) by ring. replace (rt ^ 3) with (rt * rt ^ 2) by ring. apply Rmult_le_compat_l; lra. }
  apply Rmult_lt_reg_l with r; [lra|]. replace (r * (b ^ 2 * gtt M r)) with (b ^ 2 * (r - 2 * M)) by (rewrite <- E; ring). replace (r * r ^ 2) with (r ^ 3) by ring.
  (* rt^3 (r - 2M) < r^3 (rt - 2M) *)
  assert (K : rt ^ 3 * (r - 2 * M) < r ^ 3 * (rt - 2 * M)).
  { assert (F : r ^ 3 * (rt - 2 * M) - rt ^ 3 * (r - 2 * M) = (r - rt) * (rt * r * (r + rt) - 2 * M * (r ^ 2 + r * rt + rt ^ 2))) by ring.
    assert (0 < rt * r * (r + rt) - 2 * M * (r ^ 2 + r * rt + rt ^ 2)); [|nra].
    assert (M1 : M <= rt / 3) by lra. assert (0 < r ^ 2 + r * rt + rt ^ 2) by nra.
    assert (2 * M * (r ^ 2 + r * rt + rt ^ 2) <= 2 * (rt / 3) * (r ^ 2 + r * rt + rt ^ 2)) by (apply Rmult_le_compat_r; lra).
    assert (rt * r * (r + rt) - 2 * (rt / 3) * (r ^ 2 + r * rt + rt ^ 2) = rt / 3 * ((r - rt) * (r + 2 * rt))) by field.
    assert (0 < rt / 3 * ((r - rt) * (r + 2 * rt))); [|lra]. apply Rmult_lt_0_compat; [lra|]. apply Rmult_lt_0_compat; lra. }
  assert (0 < rt - 2 * M) by lra. assert (0 < r - 2 * M) by lra.
  apply Rmult_lt_reg_r with (rt - 2 * M); [lra|]. apply Rle_lt_trans with (rt ^ 3 * (r - 2 * M)); [|exact K].
  replace (b ^ 2 * (r - 2 * M) * (rt - 2 * M)) with (b ^ 2 * (rt - 2 * M) * (r - 2 * M)) by ring. apply Rmult_le_compat_r; lra.
Qed.
Lemma near_positive M fov b : 0 < M -> 2 * M < fov -> 0 <= b -> b < 3 * sqrt 3 * M -> exists v, near_intensity M fov b = Some v /\ 0 < v.
Proof. intros HM Hf H0 Hb. apply quad_pos; [exact Hf|]. intros r Hr. apply red_pos; [exact HM|lra|]. apply below_critical; lra. Qed.
Lemma far_positive M fov rt b : 0 < M -> 3 * M <= rt -> rt < fov -> b ^ 2 * gtt M rt <= rt ^ 2 -> exists v, far_intensity M fov rt b = Some v /\ 0 < v.
Proof.
  intros HM Hrt Hf Hb. unfold far_intensity.
  destruct (quad_rev (fun r => intensity_blue_sch M r b) fov rt Hf) as [v [Ev Hv]]; [intros r Hr; apply blue_neg; [exact HM|lra|eapply beyond_turning; eauto; lra]|].
  destruct (quad_pos (fun r => intensity_red_sch M r b) rt fov Hf) as [w [Ew Hw]]; [intros r Hr; apply red_pos; [exact HM|lra|eapply beyond_turning; eauto; lra]|].
  rewrite Ev, Ew. exists (v + w). split; [reflexivity|]. lra.
Qed.
(** C83 every intensity is a positive number *)
Lemma shadow_positive M n fov limit newton s : Shadow M n fov limit newton = Ok s -> 0 < M -> 0 <= limit < 3 * sqrt 3 * M -> 3 * sqrt 3 * M < fov ->
  (forall b rt, In b (linspace (3 * sqrt 3 * M) fov n) -> newton b = Ok (rt, 0) -> 3 * M <= rt < fov /\ b ^ 2 * gtt M rt <= rt ^ 2) ->
  forall k b, nth_error (fb1 s) k = Some b -> (k < length (bfin s))%nat /\ b = 3 * sqrt 3 * M \/ exists v, nth_error (intensity s) k = Some (Some v) /\ 0 < v.
Proof.
  intros H HM Hl Hf Hn k b Hb. destruct (shadow_rays _ _ _ _ _ _ H Hf (proj2 Hl)) as [Kp [_ [_ [E [L [B2 _]]]]]].
  destruct (shadow_aligned _ _ _ _ _ _ H) as [_ [_ [_ [m [Lm [A1 A2]]]]]]. assert (m = length (bfin s)) by (rewrite E, app_length in Lm; lia). subst m.
  assert (F : 2 * M < fov). { assert (1 < sqrt 3) by (rewrite <- sqrt_1; apply sqrt_lt_1; lra). nra. }
  destruct (lt_dec k (length (bfin s))) as [K|K].
  - assert (Hin : In b (b2 s)) by (rewrite E, nth_error_app1 in Hb by lia; apply nth_error_In in Hb; exact Hb). specialize (B2 b Hin).
    destruct (Req_EM_T b (3 * sqrt 3 * M)) as [Eb|Nb]; [left; auto|right].
    rewrite (A1 k b K Hb). destruct (near_positive M fov b HM F ltac:(lra) ltac:(lra)) as [v [Ev Hv]]. exists v. rewrite Ev. auto.
  - right. destruct (A2 k b ltac:(lia) Hb) as [rt [Hr Hi]]. assert (Hin : In b (bfin s)) by (rewrite E, nth_error_app2 in Hb by lia; apply nth_error_In in Hb; exact Hb). apply Kp in Hin. destruct (Hn b rt (proj1 Hin) Hr) as [H1 H2]. rewrite Hi. destruct (far_positive M fov rt b HM ltac:(lra) ltac:(lra) H2) as [v [Ev Hv]]. exists v. rewrite Ev. auto.
Qed.

(** ** C84 the turning point *)
(** the photon orbit's turning point: b^2 (1 - 2M/r) = r^2 *)
Definition turning (M b r : R) : Prop := 2 * M < r /\ b ^ 2 * gtt M r = r ^ 2.
Lemma root_turning M b r : 0 <= M -> 0 < b -> 2 * IZR (Int_part M) < r -> 0 < r -> (root_equation M r b = 0 <-> turning (IZR (Int_part M)) b r).
Proof.
  intros HM Hb Hr Hr0. set (m := IZR (Int_part M)) in *. unfold root_equation, turning. fold m. assert (G : 0 < gtt m r).
  { unfold gtt. assert (2 * m / r < 1); [|lra]. apply Rmult_lt_reg_r with r; [lra|]. unfold Rdiv. rewrite Rmult_assoc, Rinv_l by lra. lra. }
  fold (gtt m r). assert (S := sqrt_lt_R0 _ G). assert (Q : sqrt (gtt m r) * sqrt (gtt m r) = gtt m r) by (apply sqrt_sqrt; lra). set (s := sqrt (gtt m r)) in *. split.
  - intros H. split; [exact Hr|]. assert (r = b * s) by (apply Rmult_eq_reg_r with (/ s); [|apply Rinv_neq_0_compat; lra]; rewrite Rmult_assoc, Rinv_r by lra; unfold Rdiv in H; lra).
    rewrite <- Q. rewrite H0 at 1. ring.
  - intros [_ H]. rewrite <- Q in H. assert (E : r = b * s). { assert (0 < b * s) by nra. assert ((r - b * s) * (r + b * s) = 0) by lra. apply Rmult_integral in H1. destruct H1; lra. }
    rewrite E at 1. field_simplify_eq; lra.
Qed.
Lemma turning_unique_mass M M' b r : 0 < b -> 0 < r -> b ^ 2 * gtt M r = r ^ 2 -> b ^ 2 * gtt M' r = r ^ 2 -> M = M'.
Proof.
  intros Hb Hr H1 H2. assert (P : 0 < b ^ 2) by (apply pow_lt; exact Hb). assert (E : gtt M r = gtt M' r) by (apply Rmult_eq_reg_l with (b ^ 2); lra).
  unfold gtt in E. assert (2 * M / r = 2 * M' / r) by lra. apply Rmult_eq_reg_r with (2 / r); [|apply Rgt_not_eq, Rdiv_lt_0_compat; lra]. unfold Rdiv in *. lra.
Qed.
(** an exact real root is the turning point exactly when the mass is a whole number of kilograms *)
Lemma turning_iff M b r : 0 <= M -> 0 < b -> 2 * M < r -> root_equation M r b = 0 -> (turning M b r <-> exists n : Z, M = IZR n).
Proof.
  intros HM Hb Hr H. assert (F := base_Int_part M). assert (r0 : 0 < r) by lra. apply root_turning in H; [|lra|lra|lra|lra]. destruct H as [H1 H2]. split.
  - intros [_ K]. exists (Int_part M). exact (turning_unique_mass _ _ _ _ Hb r0 K H2).
  - intros [n E]. assert (K : Int_part M = n).
    { apply Zle_antisym.
      - apply le_IZR. lra.
      - apply Znot_gt_le. intros G. assert (IZR (Int_part M) + 1 <= IZR n) by (rewrite <- plus_IZR; apply IZR_le; lia). lra. }
    rewrite K, <- E in *. split; assumption.
Qed.
(** even so the integrands stay real: the root found is never inside the true turning point *)
Lemma root_safe M b r : 0 < M -> 0 < b -> 2 * M < r -> root_equation M r b = 0 -> b ^ 2 * gtt M r <= r ^ 2.
Proof.
  intros HM Hb Hr H. assert (F := base_Int_part M). apply root_turning in H; [|lra|lra|lra|lra]. destruct H as [_ H]. rewrite <- H. apply Rmult_le_compat_l; [apply pow2_ge_0|].
  unfold gtt. assert (2 * IZR (Int_part M) / r <= 2 * M / r); [|lra]. apply Rmult_le_compat_r; [apply Rlt_le, Rinv_0_lt_compat; lra|lra].
Qed.
Lemma half_int : Int_part (1 / 2) = 0%Z.
Proof.
  destruct (base_Int_part (1 / 2)) as [F1 F2]. set (k := Int_part (1 / 2)) in *. assert (A : (k < 1)%Z) by (apply lt_IZR; lra). assert (B : (-1 < k)%Z) by (apply lt_IZR; lra). lia.
Qed.
Lemma turning_refuted b : 1 < b -> root_equation (1 / 2) b b = 0 /\ ~ turning (1 / 2) b b.
Proof.
  intros Hb. split.
  - unfold root_equation. rewrite half_int. replace (1 - 2 * 0 / b) with 1 by (field; lra). rewrite sqrt_1. field.
  - intros [_ H]. unfold gtt in H. assert (b ^ 2 * (1 - 2 * (1 / 2) / b) = b ^ 2 - b) by (field; lra). lra.
Qed.
