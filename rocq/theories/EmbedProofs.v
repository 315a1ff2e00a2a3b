From Coq Require Import Reals List Arith Lra Lia ZArith.
From Coquelicot Require Import Coquelicot.
From Verif Require Import EmbedModel.
Import ListNotations.
Open Scope R_scope.

(** ** while loops *)
Section W.
Context {St Ou : Type} (cond : St -> Prop) (next : St -> St) (out : St -> Ou).
Fixpoint iter (k : nat) (s : St) : St := match k with O => s | S k => iter k (next s) end.
Lemma wloop_iff s l : wloop cond next out s l <-> exists N, (forall k, (k < N)%nat -> cond (iter k s)) /\ ~ cond (iter N s) /\ l = map (fun k => out (iter k s)) (seq 0 N).
Proof.
  split.
  - induction 1 as [s H|s l H Hl [N [H1 [H2 H3]]]].
    + exists 0%nat. split; [intros; lia|]. split; [exact H|reflexivity].
    + exists (S N). split; [intros [|k] Hk; [exact H|apply H1; lia]|]. split; [exact H2|]. cbn [seq map]. f_equal. rewrite H3, <- seq_shift, map_map. reflexivity.
  - intros [N [H1 [H2 ->]]]. revert s H1 H2. induction N as [|N IH]; intros s H1 H2; [apply w_stop; exact H2|].
    cbn [seq map]. apply w_go; [apply (H1 0%nat); lia|]. rewrite <- seq_shift, map_map. apply IH; [intros k Hk; apply (H1 (S k)); lia|exact H2].
Qed.
Lemma wloop_det s l l' : wloop cond next out s l -> wloop cond next out s l' -> l = l'.
Proof. intros H. revert l'. induction H; intros l' H'; inversion H'; subst; try contradiction; [reflexivity|]. f_equal. auto. Qed.
Lemma wloop_diverges s : (forall k, cond (iter k s)) -> forall l, ~ wloop cond next out s l.
Proof. intros H l W. apply wloop_iff in W. destruct W as [N [_ [H2 _]]]. apply H2, H. Qed.
End W.

Lemma advance_fst M st sg k : forall s, fst (iter (advance M st sg) k s) = fst s + INR k * (sg * st).
Proof. induction k as [|k IH]; intros s; [cbn; ring|]. cbn [iter]. rewrite IH, S_INR. unfold advance. cbn [fst]. ring. Qed.
(** z is the Euler sum of the gradients *)
Fixpoint esum (f : nat -> option R) (n : nat) : option R := match n with O => Some 0 | S n => eadd (esum f n) (f n) end.
Lemma iter_next {St} (next : St -> St) k s : iter next (S k) s = next (iter next k s).
Proof. revert s. induction k as [|k IH]; intros s; [reflexivity|]. cbn [iter] in *. apply IH. Qed.
Lemma advance_snd M st sg k : snd (iter (advance M st sg) k (start M)) = esum (fun j => emul (gradient M (r_init M + INR j * (sg * st))) (Some st)) k.
Proof.
  induction k as [|k IH]; [reflexivity|]. rewrite iter_next. unfold advance at 1. cbn [snd esum]. rewrite IH. f_equal. f_equal. f_equal. rewrite advance_fst. reflexivity.
Qed.

Lemma Rmult_pos_neg x y : 0 < x -> y < 0 -> x * y < 0. Proof. intros; nra. Qed.
Lemma Rmult_neg_pos x y : x < 0 -> 0 < y -> x * y < 0. Proof. intros; nra. Qed.
Lemma INR_unbounded x : exists n, x < INR n.
Proof.
  destruct (archimed x) as [H _]. exists (Z.to_nat (up x)). rewrite INR_IZR_INZ. destruct (Z_le_gt_dec 0 (up x)) as [L|L].
  - rewrite Z2Nat.id by exact L. lra.
  - assert (IZR (up x) < 0) by (apply IZR_lt; lia). assert (0 <= IZR (Z.of_nat (Z.to_nat (up x)))) by (apply IZR_le; lia). lra.
Qed.
(** an increasing (decreasing) arithmetic progression passes any bound at a definite index *)
Lemma passes (a d b : R) : 0 < d -> exists N, (forall k, (k < N)%nat -> a + INR k * d < b) /\ b <= a + INR N * d.
Proof.
  intros Hd. assert (E : exists n, b <= a + INR n * d).
  { destruct (INR_unbounded ((b - a) / d)) as [n Hn]. exists n. assert ((b - a) / d * d < INR n * d) by (apply Rmult_lt_compat_r; assumption).
    replace ((b - a) / d * d) with (b - a) in H by (field; lra). lra. }
  destruct E as [n Hn]. revert a Hn. induction n as [|n IH]; intros a Hn.
  - exists 0%nat. split; [intros; lia|exact Hn].
  - destruct (Rlt_dec a b) as [L|L].
    + destruct (IH (a + d)) as [N [H1 H2]]; [rewrite S_INR in Hn; lra|]. exists (S N). split; [|rewrite S_INR; lra].
      intros [|k] Hk; [cbn; lra|]. rewrite S_INR. specialize (H1 k ltac:(lia)). lra.
    + exists 0%nat. split; [intros; lia|]. cbn. lra.
Qed.
(** the sampled radii of the two loops *)
Definition up (M alpha : R) (k : nat) : R := r_init M + INR k * (M / alpha).
Definition down (M alpha : R) (k : nat) : R := r_init M - INR k * (M / alpha).
(** the accumulated height after k steps *)
Definition zup (M alpha : R) (k : nat) : option R := esum (fun j => emul (gradient M (up M alpha j)) (Some (M / alpha))) k.
Definition zdown (M alpha : R) (k : nat) : option R := esum (fun j => emul (gradient M (down M alpha j)) (Some (M / alpha))) k.
Lemma esum_ext f g n : (forall k, f k = g k) -> esum f n = esum g n.
Proof. intros H. induction n as [|n IH]; [reflexivity|]. cbn. rewrite IH, H. reflexivity. Qed.

Lemma loop_up_iff M alpha bd l : loop_up M alpha bd l <-> exists N, (forall k, (k < N)%nat -> up M alpha k < bd * M) /\ bd * M <= up M alpha N /\
  l = map (fun k => (radial_coord M (up M alpha k), zup M alpha k)) (seq 0 N).
Proof.
  unfold loop_up. rewrite wloop_iff.
  assert (F : forall k, fst (iter (advance M (M / alpha) 1) k (start M)) = up M alpha k) by (intros k; rewrite advance_fst; unfold up, start; cbn [fst]; ring).
  assert (G : forall k, emit M (iter (advance M (M / alpha) 1) k (start M)) = (radial_coord M (up M alpha k), zup M alpha k)).
  { intros k. unfold emit. rewrite F, advance_snd. f_equal. apply esum_ext. intros j. unfold up. rewrite Rmult_1_l. reflexivity. }
  split; intros [N [H1 [H2 H3]]]; exists N; (split; [intros k Hk; specialize (H1 k Hk); rewrite ?F in *; assumption|]); (split; [rewrite ?F in *; lra|]); rewrite H3; apply map_ext; intros; rewrite G; reflexivity.
Qed.
Lemma loop_down_iff M alpha l : loop_down M alpha l <-> exists N, (forall k, (k < N)%nat -> 9 * M / 4 < down M alpha k) /\ down M alpha N <= 9 * M / 4 /\
  l = map (fun k => (radial_coord M (down M alpha k), zdown M alpha k)) (seq 0 N).
Proof.
  unfold loop_down. rewrite wloop_iff.
  assert (F : forall k, fst (iter (advance M (M / alpha) (-1)) k (start M)) = down M alpha k) by (intros k; rewrite advance_fst; unfold down, start; cbn [fst]; ring).
  assert (G : forall k, emit M (iter (advance M (M / alpha) (-1)) k (start M)) = (radial_coord M (down M alpha k), zdown M alpha k)).
  { intros k. unfold emit. rewrite F, advance_snd. f_equal. apply esum_ext. intros j. unfold down. replace (r_init M + INR j * (-1 * (M / alpha))) with (r_init M - INR j * (M / alpha)) by ring. reflexivity. }
  split; intros [N [H1 [H2 H3]]]; exists N; (split; [intros k Hk; specialize (H1 k Hk); rewrite ?F in *; lra|]); (split; [rewrite ?F in *; lra|]); rewrite H3; apply map_ext; intros; rewrite G; reflexivity.
Qed.
Lemma step_pos M alpha : 0 < M -> 0 < alpha -> 0 < M / alpha.
Proof. intros. apply Rdiv_lt_0_compat; assumption. Qed.
Lemma loop_up_ends M alpha bd : 0 < M -> 0 < alpha -> exists l, loop_up M alpha bd l.
Proof.
  intros HM Ha. destruct (passes (r_init M) (M / alpha) (bd * M) (step_pos M alpha HM Ha)) as [N [H1 H2]].
  eexists. apply loop_up_iff. exists N. split; [exact H1|]. split; [exact H2|reflexivity].
Qed.
Lemma loop_down_ends M alpha : 0 < M -> 0 < alpha -> exists l, loop_down M alpha l.
Proof.
  intros HM Ha. destruct (passes (- r_init M) (M / alpha) (- (9 * M / 4)) (step_pos M alpha HM Ha)) as [N [H1 H2]].
  eexists. apply loop_down_iff. exists N. split; [intros k Hk; specialize (H1 k Hk); unfold down; lra|]. split; [unfold down; lra|reflexivity].
Qed.
(** termination and uniqueness of the result *)
Lemma get_values_total M alpha : 0 < M -> 0 < alpha -> exists xs ys, get_values M alpha xs ys /\ forall xs' ys', get_values M alpha xs' ys' -> xs' = xs /\ ys' = ys.
Proof.
  intros HM Ha. destruct (loop_up_ends M alpha 9 HM Ha) as [l1 H1]. destruct (loop_down_ends M alpha HM Ha) as [l2 H2].
  exists (map fst (l1 ++ l2)), (map snd (l1 ++ l2)). split; [exists l1, l2; auto|]. intros xs' ys' [m1 [m2 [K1 [K2 [-> ->]]]]].
  rewrite (wloop_det _ _ _ _ _ _ K1 H1), (wloop_det _ _ _ _ _ _ K2 H2). auto.
Qed.
(** what is sampled *)
Lemma get_values_samples M alpha xs ys : 0 < M -> get_values M alpha xs ys ->
  List.length xs = List.length ys /\ exists n1 n2,
   xs = map (fun k => radial_coord M (up M alpha k)) (seq 0 n1) ++ map (fun k => radial_coord M (down M alpha k)) (seq 0 n2) /\
   ys = map (zup M alpha) (seq 0 n1) ++ map (zdown M alpha) (seq 0 n2) /\
   (forall k, (k < n1)%nat -> up M alpha k < 9 * M) /\ 9 * M <= up M alpha n1 /\
   (forall k, (k < n2)%nat -> 9 * M / 4 < down M alpha k) /\ down M alpha n2 <= 9 * M / 4 /\ (0 < n2)%nat.
Proof.
  intros HM [l1 [l2 [H1 [H2 [-> ->]]]]]. rewrite !map_length. split; [reflexivity|]. apply loop_up_iff in H1. apply loop_down_iff in H2.
  destruct H1 as [n1 [A1 [A2 ->]]]. destruct H2 as [n2 [B1 [B2 ->]]]. exists n1, n2. rewrite !map_app, !map_map. cbn [fst snd].
  split; [reflexivity|]. split; [reflexivity|]. repeat (split; [assumption|]). destruct n2; [|lia]. exfalso. unfold down, r_init in B2. cbn in B2. lra.
Qed.
Lemma range_ok M alpha : 0 < M -> 0 < alpha -> 1 / 10000 < 6 * M -> 
  (forall k, up M alpha k < 9 * M -> 9 * M / 4 < up M alpha k < 9 * M) /\ (forall k, 9 * M / 4 < down M alpha k -> 9 * M / 4 < down M alpha k < 9 * M) /\
  up M alpha 0 = r_init M /\ down M alpha 0 = r_init M.
Proof.
  intros HM Ha Hs. assert (P := step_pos M alpha HM Ha). assert (I : forall k, 0 <= INR k * (M / alpha)) by (intros k; apply Rmult_le_pos; [apply pos_INR|lra]).
  unfold up, down, r_init. split; [|split; [|split; cbn; ring]]; intros k H; specialize (I k); lra.
Qed.
(** for a small mass the one radius that is sampled is outside the stated range *)
Lemma range_refuted M alpha xs ys : 0 < M -> 6 * M <= 1 / 10000 -> get_values M alpha xs ys -> nth_error xs 0 = Some (radial_coord M (r_init M)) /\ 9 * M <= r_init M.
Proof.
  intros HM Hs H. destruct (get_values_samples M alpha xs ys HM H) as [_ [n1 [n2 [-> [_ [A1 [_ [_ [_ Hn]]]]]]]]]. split; [|unfold r_init; lra].
  destruct n1; [|exfalso; specialize (A1 0%nat ltac:(lia)); unfold up, r_init in A1; cbn in A1; lra]. destruct n2; [lia|]. cbn [seq map app nth_error]. unfold down. cbn [INR]. do 2 f_equal. ring.
Qed.
(** a negative alpha never returns *)
Lemma negative_alpha M alpha : 0 < M -> alpha < 0 -> 1 / 10000 < 6 * M -> forall xs ys, ~ get_values M alpha xs ys.
Proof.
  intros HM Ha Hs xs ys [l1 [l2 [H1 _]]]. apply loop_up_iff in H1. destruct H1 as [N [_ [H _]]]. unfold up, r_init in H.
  assert (M / alpha < 0) by (unfold Rdiv; apply Rmult_pos_neg; [exact HM|apply Rinv_lt_0_compat; exact Ha]). assert (P := pos_INR N).
  assert (INR N * (M / alpha) <= 0) by nra. lra.
Qed.
(** the surface: every angle repeats the whole profile; Z comes back one-dimensional *)
Lemma surface_total M alpha : 0 < M -> 0 < alpha -> exists X Y Z, get_values_surface M alpha X Y Z.
Proof. intros HM Ha. destruct (loop_up_ends M alpha 20 HM Ha) as [l H]. eexists _, _, _. exists l. split; [exact H|]. repeat split. Qed.
Lemma fold_rep {B} (z : list B) n : forall acc, fold_left (fun Z (_ : nat) => Z ++ z) (seq 0 n) acc = acc ++ concat (repeat z n).
Proof.
  assert (G : forall l acc, fold_left (fun Z (_ : nat) => Z ++ z) l acc = acc ++ concat (repeat z (List.length l))).
  { induction l as [|x l IH]; intros acc; [cbn; rewrite app_nil_r; reflexivity|]. cbn [fold_left List.length repeat concat]. rewrite IH, app_assoc. reflexivity. }
  intros acc. rewrite G, seq_length. reflexivity.
Qed.
Lemma nth_concat_repeat {B} (z : list B) m : forall i j, (i < m)%nat -> (j < List.length z)%nat -> nth_error (concat (repeat z m)) (i * List.length z + j) = nth_error z j.
Proof.
  induction m as [|m IH]; intros i j Hi Hj; [lia|]. cbn [repeat concat]. destruct i as [|i].
  - rewrite nth_error_app1 by (cbn; lia). f_equal.
  - rewrite nth_error_app2 by (cbn; lia). replace (S i * List.length z + j - List.length z)%nat with (i * List.length z + j)%nat by (cbn; lia). apply IH; lia.
Qed.
Lemma surface_spec M alpha X Y Z : get_values_surface M alpha X Y Z -> exists n,
  (forall k, (k < n)%nat -> up M alpha k < 20 * M) /\ 20 * M <= up M alpha n /\
  List.length X = 60%nat /\ List.length Y = 60%nat /\ List.length Z = (60 * n)%nat /\
  forall i j, (i < 60)%nat -> (j < n)%nat ->
    let phi := INR i * (2 * PI / 59) in let R := radial_coord M (up M alpha j) in
    (exists row, nth_error X i = Some row /\ List.length row = n /\ nth_error row j = Some (emul R (Some (cos phi)))) /\
    (exists row, nth_error Y i = Some row /\ List.length row = n /\ nth_error row j = Some (emul R (Some (sin phi)))) /\
    nth_error Z (i * n + j) = Some (zup M alpha j).
Proof.
  intros [l [H [-> [-> ->]]]]. apply loop_up_iff in H. destruct H as [n [A1 [A2 El]]]. exists n. split; [exact A1|]. split; [exact A2|].
  assert (Lp : List.length phi_values = 60%nat) by (unfold phi_values; rewrite map_length, seq_length; reflexivity).
  rewrite !map_length, Lp. split; [reflexivity|]. split; [reflexivity|]. rewrite fold_rep. 
  assert (Ll : List.length l = n) by (rewrite El, map_length, seq_length; reflexivity).
  assert (EZ : map snd l ++ concat (repeat (map snd l) (60 - 1)) = concat (repeat (map snd l) 60)) by reflexivity. rewrite EZ.
  assert (Lc : forall m, List.length (concat (repeat (map snd l) m)) = (m * n)%nat) by (induction m as [|m IH]; [reflexivity|]; cbn [repeat concat]; rewrite app_length, IH, map_length, Ll; reflexivity).
  split; [apply Lc|]. intros i j Hi Hj. cbv zeta.
  assert (Np : nth_error phi_values i = Some (INR i * (2 * PI / 59))).
  { unfold phi_values. rewrite nth_error_map, (nth_error_nth' _ 0%nat) by (rewrite seq_length; exact Hi). rewrite seq_nth by exact Hi. reflexivity. }
  assert (Nl : nth_error l j = Some (radial_coord M (up M alpha j), zup M alpha j)).
  { rewrite El, nth_error_map, (nth_error_nth' _ 0%nat) by (rewrite seq_length; exact Hj). rewrite seq_nth by exact Hj. reflexivity. }
  split; [|split].
  - eexists. split; [rewrite nth_error_map, Np; reflexivity|]. split; [rewrite map_length; exact Ll|]. rewrite nth_error_map, Nl. reflexivity.
  - eexists. split; [rewrite nth_error_map, Np; reflexivity|]. split; [rewrite map_length; exact Ll|]. rewrite nth_error_map, Nl. reflexivity.
  - assert (K := nth_concat_repeat (map snd l) 60 i j Hi). rewrite map_length, Ll in K. rewrite K by exact Hj. rewrite nth_error_map, Nl. reflexivity.
Qed.

(** ** C70: the slope *)
Definition lapse (M r : R) : R := 1 - 2 * M / r.
Definition Rof (M r : R) : R := r / sqrt (lapse M r).
Lemma lapse_pos M r : 0 < M -> 9 * M / 4 < r -> 0 < lapse M r.
Proof. intros HM Hr. unfold lapse. assert (2 * M / r < 1); [|lra]. apply Rmult_lt_reg_r with r; [lra|]. unfold Rdiv. rewrite Rmult_assoc, Rinv_l by lra. lra. Qed.
Lemma radial_coord_ok M r : 0 < M -> 9 * M / 4 < r -> radial_coord M r = Some (Rof M r).
Proof.
  intros HM Hr. assert (P := lapse_pos M r HM Hr). unfold radial_coord, ediv, esqrt. destruct (Req_EM_T r 0); [lra|]. cbn [obind]. fold (lapse M r).
  destruct (Rlt_dec (lapse M r) 0); [lra|]. cbn [obind]. assert (0 < sqrt (lapse M r)) by (apply sqrt_lt_R0; exact P). destruct (Req_EM_T _ _); [lra|reflexivity].
Qed.
(** the value the code computes; it is undefined exactly at r = 3M *)
Lemma gradient_value M r : 0 < M -> 9 * M / 4 < r ->
  gradient M r = if Req_EM_T r (3 * M) then None
                 else Some ((1 - 3 * M / r) * sqrt ((4 * M * r - 9 * M * M) * Rof M r / (r - 3 * M) ^ 2) / sqrt (lapse M r) ^ 3).
Proof.
  intros HM Hr. assert (P := lapse_pos M r HM Hr). assert (Ps : 0 < sqrt (lapse M r)) by (apply sqrt_lt_R0; exact P).
  unfold gradient. rewrite radial_coord_ok by assumption. cbn [obind]. unfold ediv at 1. destruct (Req_EM_T r 0); [lra|]. cbn [obind].
  unfold ediv at 1. destruct (Req_EM_T r (3 * M)) as [E|N].
  { destruct (Req_EM_T ((r - 3 * M) ^ 2) 0) as [|K]; [reflexivity|]. exfalso. apply K. rewrite E. ring. }
  assert (Q : (r - 3 * M) ^ 2 <> 0) by (apply pow_nonzero; lra). destruct (Req_EM_T ((r - 3 * M) ^ 2) 0); [contradiction|]. cbn [obind].
  assert (W : 0 <= (4 * M * r - 9 * M * M) * Rof M r / (r - 3 * M) ^ 2).
  { apply Rmult_le_pos; [|apply Rlt_le, Rinv_0_lt_compat; assert (0 <= (r - 3 * M) ^ 2) by apply pow2_ge_0; lra]. apply Rmult_le_pos; [nra|]. unfold Rof. apply Rlt_le, Rdiv_lt_0_compat; lra. }
  unfold esqrt at 1. destruct (Rlt_dec _ 0); [lra|]. cbn [obind]. unfold ediv at 1. destruct (Req_EM_T r 0); [contradiction|]. cbn [obind]. unfold esqrt. fold (lapse M r).
  destruct (Rlt_dec (lapse M r) 0); [lra|]. cbn [obind]. unfold ediv. destruct (Req_EM_T (sqrt (lapse M r) ^ 3) 0) as [E|_]; [|reflexivity]. exfalso. apply (pow_nonzero _ 3) in E; [contradiction|lra].
Qed.
Lemma Rof_derive M r : 0 < M -> 9 * M / 4 < r -> is_derive (Rof M) r ((1 - 3 * M / r) / sqrt (lapse M r) ^ 3).
Proof.
  intros HM Hr. assert (P := lapse_pos M r HM Hr). assert (Ps : 0 < sqrt (lapse M r)) by (apply sqrt_lt_R0; exact P). unfold Rof, lapse in *.
  auto_derive; [replace (1 + - (2 * M * / r)) with (1 - 2 * M / r) by (field; lra); repeat split; lra|]. assert (Q : sqrt (1 - 2 * M / r) * sqrt (1 - 2 * M / r) = 1 - 2 * M / r) by (apply sqrt_sqrt; lra).
  replace (1 + - (2 * M * / r)) with (1 - 2 * M / r) by (field; lra). set (s := sqrt (1 - 2 * M / r)) in *.
  assert (E : 2 * M = r * (1 - s * s)) by (rewrite Q; field; lra). assert (E' : M = r * (1 - s * s) / 2) by lra. clearbody s. assert (r <> 0) by lra. clear E Q P Hr HM. subst M. field. split; [assumption|lra].
Qed.
(** the isometric slope *)
Definition isometric (M r dZ : R) : Prop := exists dR, is_derive (Rof M) r dR /\ dR ^ 2 + dZ ^ 2 = / lapse M r ^ 2.
(** the code's slope squared is R times the isometric one *)
Lemma gradient_sq M r : 0 < M -> 9 * M / 4 < r -> r <> 3 * M -> exists g, gradient M r = Some g /\
  forall dZ, isometric M r dZ -> g ^ 2 = Rof M r * dZ ^ 2.
Proof.
  intros HM Hr N. rewrite gradient_value by assumption. destruct (Req_EM_T r (3 * M)); [contradiction|]. eexists. split; [reflexivity|].
  intros dZ [dR [HD HI]]. assert (D := Rof_derive M r HM Hr). assert (E : dR = (1 - 3 * M / r) / sqrt (lapse M r) ^ 3).
  { rewrite <- (is_derive_unique _ _ _ HD). apply is_derive_unique. exact D. }
  subst dR. assert (P := lapse_pos M r HM Hr). assert (Ps : 0 < sqrt (lapse M r)) by (apply sqrt_lt_R0; exact P).
  assert (W : 0 <= (4 * M * r - 9 * M * M) * Rof M r / (r - 3 * M) ^ 2).
  { assert (Q : (r - 3 * M) ^ 2 <> 0) by (apply pow_nonzero; lra). apply Rmult_le_pos; [|apply Rlt_le, Rinv_0_lt_compat; assert (0 <= (r - 3 * M) ^ 2) by apply pow2_ge_0; lra]. apply Rmult_le_pos; [nra|]. unfold Rof. apply Rlt_le, Rdiv_lt_0_compat; lra. }
  assert (DZ : dZ ^ 2 = / lapse M r ^ 2 - ((1 - 3 * M / r) / sqrt (lapse M r) ^ 3) ^ 2) by lra. rewrite DZ.
  replace (((1 - 3 * M / r) * sqrt ((4 * M * r - 9 * M * M) * Rof M r / (r - 3 * M) ^ 2) / sqrt (lapse M r) ^ 3) ^ 2)
    with ((1 - 3 * M / r) ^ 2 * (sqrt ((4 * M * r - 9 * M * M) * Rof M r / (r - 3 * M) ^ 2) * sqrt ((4 * M * r - 9 * M * M) * Rof M r / (r - 3 * M) ^ 2)) / (sqrt (lapse M r) ^ 2) ^ 3) by (field; lra).
  rewrite sqrt_sqrt by exact W. replace (((1 - 3 * M / r) / sqrt (lapse M r) ^ 3) ^ 2) with ((1 - 3 * M / r) ^ 2 / (sqrt (lapse M r) ^ 2) ^ 3) by (field; lra).
  replace (sqrt (lapse M r) ^ 2) with (lapse M r) by (rewrite <- Rsqr_pow2, Rsqr_sqrt by lra; reflexivity).
  assert (L : lapse M r * r = r - 2 * M) by (unfold lapse; field; lra). set (Q := Rof M r) in *. clearbody Q. clear W DZ HI HD D.
  assert (EL : lapse M r = (r - 2 * M) / r) by (unfold lapse; field; lra). rewrite EL. field. repeat split; try lra.
Qed.
(** the sign of the slope follows r - 3M: Z decreases along r below 3M *)
Lemma gradient_sign M r g : 0 < M -> 9 * M / 4 < r -> gradient M r = Some g -> (3 * M < r -> 0 < g) /\ (r < 3 * M -> g < 0).
Proof.
  intros HM Hr. rewrite gradient_value by assumption. destruct (Req_EM_T r (3 * M)) as [|N]; [discriminate|]. intros H. injection H as <-.
  assert (P := lapse_pos M r HM Hr). assert (Ps : 0 < sqrt (lapse M r)) by (apply sqrt_lt_R0; exact P).
  assert (W : 0 < sqrt ((4 * M * r - 9 * M * M) * Rof M r / (r - 3 * M) ^ 2)).
  { apply sqrt_lt_R0. assert (Q : (r - 3 * M) ^ 2 <> 0) by (apply pow_nonzero; lra). apply Rdiv_lt_0_compat; [|assert (0 <= (r - 3 * M) ^ 2) by apply pow2_ge_0; lra].
    apply Rmult_lt_0_compat; [nra|]. unfold Rof. apply Rdiv_lt_0_compat; lra. }
  assert (C : 0 < sqrt (lapse M r) ^ 3) by (apply pow_lt; exact Ps).
  assert (EX : 1 - 3 * M / r = (r - 3 * M) / r) by (field; lra). rewrite EX. set (w := sqrt ((4 * M * r - 9 * M * M) * Rof M r / (r - 3 * M) ^ 2)) in *.
  split; intros K.
  - apply Rdiv_lt_0_compat; [|exact C]. apply Rmult_lt_0_compat; [apply Rdiv_lt_0_compat; lra|exact W].
  - unfold Rdiv. apply Rmult_neg_pos; [|apply Rinv_0_lt_compat; exact C]. apply Rmult_neg_pos; [|exact W]. apply Rmult_neg_pos; [lra|apply Rinv_0_lt_compat; lra].
Qed.
(** the surface is isometric exactly where R = 1: never for M >= 1/2, say *)
Lemma isometric_exists M r : 0 < M -> 9 * M / 4 < r -> exists dZ, isometric M r dZ /\ 0 < dZ ^ 2.
Proof.
  intros HM Hr. assert (P := lapse_pos M r HM Hr). assert (Ps : 0 < sqrt (lapse M r)) by (apply sqrt_lt_R0; exact P).
  assert (Q : 0 < (4 * M * r - 9 * M * M) / (r ^ 2 * lapse M r ^ 3)).
  { apply Rdiv_lt_0_compat; [nra|]. apply Rmult_lt_0_compat; [apply pow_lt; lra|apply pow_lt; exact P]. }
  exists (sqrt ((4 * M * r - 9 * M * M) / (r ^ 2 * lapse M r ^ 3))).
  assert (S2 : sqrt ((4 * M * r - 9 * M * M) / (r ^ 2 * lapse M r ^ 3)) ^ 2 = (4 * M * r - 9 * M * M) / (r ^ 2 * lapse M r ^ 3)) by (rewrite <- Rsqr_pow2; apply Rsqr_sqrt; lra).
  rewrite S2. split; [|exact Q]. eexists. split; [apply Rof_derive; assumption|]. rewrite S2.
  replace (((1 - 3 * M / r) / sqrt (lapse M r) ^ 3) ^ 2) with ((1 - 3 * M / r) ^ 2 / (sqrt (lapse M r) ^ 2) ^ 3) by (field; lra).
  replace (sqrt (lapse M r) ^ 2) with (lapse M r) by (rewrite <- Rsqr_pow2, Rsqr_sqrt by lra; reflexivity).
  assert (EL : lapse M r = (r - 2 * M) / r) by (unfold lapse; field; lra). rewrite EL. field. repeat split; lra.
Qed.
Lemma isometric_iff M r : 0 < M -> 9 * M / 4 < r -> r <> 3 * M -> forall g, gradient M r = Some g -> (isometric M r g <-> Rof M r = 1).
Proof.
  intros HM Hr N g Hg. destruct (gradient_sq M r HM Hr N) as [g' [E S]]. rewrite Hg in E. injection E as <-.
  destruct (isometric_exists M r HM Hr) as [z [Z1 Z2]]. assert (K := S z Z1). split; intros H.
  - assert (K' := S g H). destruct H as [d [D1 D2]]. destruct Z1 as [d' [D1' D2']]. assert (d = d') by (rewrite <- (is_derive_unique _ _ _ D1); apply is_derive_unique; exact D1'). subst d'.
    assert (G : g ^ 2 = z ^ 2) by lra. rewrite G in K'. apply Rmult_eq_reg_r with (z ^ 2); [|lra]. lra.
  - destruct Z1 as [d [D1 D2]]. exists d. split; [exact D1|]. rewrite K, H. lra.
Qed.
Lemma isometric_refuted r : 9 / 4 < r -> r <> 3 -> forall g, gradient 1 r = Some g -> ~ isometric 1 r g.
Proof.
  intros Hr N g Hg H. apply isometric_iff in H; [|lra|lra|lra|exact Hg]. unfold Rof in H. assert (P := lapse_pos 1 r ltac:(lra) ltac:(lra)).
  assert (L : lapse 1 r < 1) by (unfold lapse; assert (0 < 2 * 1 / r) by (apply Rdiv_lt_0_compat; lra); lra).
  assert (S : sqrt (lapse 1 r) < 1) by (apply Rlt_le_trans with (sqrt 1); [apply sqrt_lt_1; lra|rewrite sqrt_1; lra]). assert (0 < sqrt (lapse 1 r)) by (apply sqrt_lt_R0; exact P).
  assert (E : r = sqrt (lapse 1 r)) by (apply (Rmult_eq_reg_r (/ sqrt (lapse 1 r))); [rewrite Rinv_r by lra; exact H|apply Rinv_neq_0_compat; lra]). lra.
Qed.
(** a step that lands exactly on r = 3M leaves every later height undefined *)
Lemma undefined_after M alpha k : 0 < M -> down M alpha k = 3 * M -> forall n, (k < n)%nat -> zdown M alpha n = None.
Proof.
  intros HM E n Hn. unfold zdown. induction n as [|n IH]; [lia|]. cbn [esum]. destruct (Nat.eq_dec k n) as [-> |N].
  - rewrite E, gradient_value by lra. destruct (Req_EM_T (3 * M) (3 * M)); [|lra]. cbn. destruct (esum _ n); reflexivity.
  - rewrite IH by lia. reflexivity.
Qed.
