(** C131: the figure of fractal() and every history of its slider. *)
From Coq Require Import Reals List ZArith Lra Lia Bool.
From Verif Require Import Base PlotModel PlotProofs.
From Verif Require Import FractalModel.
Import ListNotations.
Open Scope R_scope.

(** the k-th of n angles, evenly spaced from a to b *)
Definition angle_of (a b : R) (n k : nat) : R := if Nat.eqb n 1 then a else a + INR k * ((b - a) / INR (n - 1)).
(** the figure shows, with slider at position k: the images of the n angles, only the k-th visible *)
Definition has_images (w im : nat) (a b : R) (n : nat) (f : figure) : Prop :=
  length (fig_data f) = n /\ length (sl_steps (fig_slider f)) = n /\ forall k t, nth_error (fig_data f) k = Some t -> fractal_img w w (angle_of a b n k) 20 im (- (16 / 10), 16 / 10) (- (16 / 10), 16 / 10) = Ok (tr_z t).
Definition moves (l : list nat) (f : figure) : figure := fold_left move l f.

Lemma upd_length {X} (l : list X) i v : length (PlotModel.upd l i v) = length l.
Proof. revert i. induction l as [|x l IH]; intros [|i]; cbn [PlotModel.upd length]; auto. Qed.
Lemma upd_nth {X} (l : list X) i v k : nth_error (PlotModel.upd l i v) k = if Nat.eqb k i then match nth_error l k with Some _ => Some v | None => None end else nth_error l k.
Proof. revert i k. induction l as [|x l IH]; intros [|i] [|k]; cbn [PlotModel.upd nth_error Nat.eqb]; try reflexivity; try (destruct (Nat.eqb k i); reflexivity). apply IH. Qed.
Lemma restyle_length l fl : length (restyle l fl) = length l.
Proof. revert fl. induction l as [|t l IH]; intros [|b fl]; cbn [restyle length]; auto. Qed.
Lemma restyle_nth l fl k : nth_error (restyle l fl) k = match nth_error l k, nth_error fl k with Some t, Some b => Some (set_visible t b) | Some t, None => Some t | None, _ => None end.
Proof. revert fl k. induction l as [|t l IH]; intros [|b fl] [|k]; cbn [restyle nth_error]; try reflexivity; try (destruct (nth_error l k); reflexivity). apply IH. Qed.
Lemma linspace_ok a b n : linspace a b (Z.of_nat n) = Ok (map (angle_of a b n) (seq 0 n)).
Proof.
  unfold linspace. destruct (Z.ltb_spec (Z.of_nat n) 0); [lia|]. rewrite Nat2Z.id. f_equal. destruct n as [|n]; [reflexivity|]. apply map_ext. intros i. unfold angle_of.
  destruct (Z.eqb_spec (Z.of_nat (Datatypes.S n)) 1), (Nat.eqb_spec (Datatypes.S n) 1); try lia; [reflexivity|].
  replace (Z.of_nat (Datatypes.S n) - 1)%Z with (Z.of_nat (Datatypes.S n - 1)) by lia. rewrite <- INR_IZR_INZ. reflexivity.
Qed.
Section Size.
Variables (w im : nat).
Hypothesis Him : (0 < im)%nat.
Local Notation picture := (picture w im).
Local Notation add_trace := (add_trace w im).
Local Notation fractal := (fractal w im).
Local Notation has_images := (has_images w im).
Lemma picture_ok t : exists z, picture t = Ok z.
Proof. destruct (PlotProofs.fractal_spec w w t 20 im (- (16 / 10), 16 / 10) (- (16 / 10), 16 / 10) Him) as (A & E & _). exists A. exact E. Qed.
Lemma add_ok l acc : exists d, fold_left add_trace l (Ok acc) = Ok (acc ++ d) /\ length d = length l /\
  forall k t, nth_error d k = Some t -> tr_visible t = None /\ exists ang, nth_error l k = Some ang /\ picture ang = Ok (tr_z t).
Proof.
  revert acc. induction l as [|x l IH]; intros acc; cbn [fold_left].
  - exists []. rewrite app_nil_r. split; [reflexivity|]. split; [reflexivity|]. intros [|k] t H; discriminate.
  - destruct (picture_ok x) as [z Ez]. unfold add_trace at 2. cbn [bindR]. rewrite Ez. cbn [bindR]. destruct (IH (acc ++ [mktrace z None])) as (d & E & L & H).
    exists (mktrace z None :: d). rewrite E, <- app_assoc. split; [reflexivity|]. split; [cbn [length]; rewrite L; reflexivity|].
    intros [|k] t Hk; cbn [nth_error] in *; [|apply H; exact Hk]. injection Hk as <-. split; [reflexivity|]. exists x. split; [reflexivity|exact Ez].
Qed.
Lemma screen_spec f i : In i (screen f) <-> exists t, nth_error (fig_data f) i = Some t /\ shown t = true.
Proof.
  unfold screen. assert (H : forall l s, In i (map fst (filter (fun p : nat * trace => shown (snd p)) (combine (seq s (length l)) l))) <-> exists t, (s <= i)%nat /\ nth_error l (i - s) = Some t /\ shown t = true).
  { induction l as [|t l IH]; intros s; cbn [length seq combine filter map].
    - split; [intros []|]. intros (t & _ & H & _). destruct (i - s)%nat; discriminate.
    - cbn [snd]. assert (HR : In i (map fst (filter (fun p : nat * trace => shown (snd p)) (combine (seq (Datatypes.S s) (length l)) l))) <-> exists t0, (s < i)%nat /\ nth_error (t :: l) (i - s) = Some t0 /\ shown t0 = true).
      { rewrite IH. split; intros (t0 & A & B); exists t0; (split; [lia|]); replace (i - s)%nat with (Datatypes.S (i - Datatypes.S s)) in * by lia; exact B. }
      destruct (shown t) eqn:Et; cbn [map In fst].
      + split; [intros [<-|H]|intros (t0 & A & B)].
        * exists t. rewrite Nat.sub_diag. cbn [nth_error]. auto.
        * apply HR in H. destruct H as (t0 & A & B). exists t0. split; [lia|exact B].
        * destruct (Nat.eq_dec s i) as [E|E]; [left; exact E|right; apply HR; exists t0; split; [lia|exact B]].
      + split; [intros H; apply HR in H; destruct H as (t0 & A & B); exists t0; split; [lia|exact B]|intros (t0 & A & B)].
        apply HR. exists t0. split; [|exact B]. destruct (Nat.eq_dec s i) as [<-|E]; [|lia]. rewrite Nat.sub_diag in B. cbn [nth_error] in B. destruct B as [B1 B2]. injection B1 as <-. congruence. }
  rewrite H. rewrite Nat.sub_0_r. split; intros (t & A); exists t; [apply A|split; [lia|exact A]].
Qed.
Lemma filter_incr (f : trace -> bool) : forall l s, exists m, map fst (filter (fun p : nat * trace => f (snd p)) (combine (seq s (length l)) l)) = m /\ (forall i, In i m -> (s <= i < s + length l)%nat) /\ NoDup m.
Proof.
  induction l as [|t l IH]; intros s; cbn [length seq combine filter map snd].
  - exists []. split; [reflexivity|]. split; [intros i []|constructor].
  - destruct (IH (Datatypes.S s)) as (m & E & B & N). destruct (f t); cbn [map fst]; rewrite E.
    + exists (s :: m). split; [reflexivity|]. split; [intros i [<-|H]; [lia|specialize (B i H); lia]|]. constructor; [intros H; specialize (B s H); lia|exact N].
    + exists m. split; [reflexivity|]. split; [intros i H; specialize (B i H); lia|exact N].
Qed.
Lemma screen_one f i : (forall k t, nth_error (fig_data f) k = Some t -> shown t = Nat.eqb k i) -> (i < length (fig_data f))%nat -> screen f = [i].
Proof.
  intros H Hi. destruct (filter_incr shown (fig_data f) 0) as (m & E & _ & N). change (screen f = m) in E.
  assert (I : forall k, In k m <-> k = i).
  { intros k. rewrite <- E, screen_spec. split.
    - intros (t & A & B). rewrite (H k t A) in B. apply Nat.eqb_eq. exact B.
    - intros ->. destruct (nth_error (fig_data f) i) as [t|] eqn:A; [|apply nth_error_None in A; lia]. exists t. split; [reflexivity|]. rewrite (H i t A). apply Nat.eqb_refl. }
  rewrite E. destruct m as [|x [|y m]]; [exfalso; apply (proj2 (I i) eq_refl)| |].
  - f_equal. apply I. left; reflexivity.
  - exfalso. assert (x = i) by (apply I; left; reflexivity). assert (y = i) by (apply I; right; left; reflexivity). subst. inversion N as [|? ? N1 N2]. apply N1. left; reflexivity.
Qed.
Lemma screen_all f n : length (fig_data f) = n -> (forall k t, nth_error (fig_data f) k = Some t -> shown t = true) -> screen f = seq 0 n.
Proof.
  intros L H. unfold screen. assert (F : forall l s, (forall t, In t l -> shown t = true) -> map fst (filter (fun p : nat * trace => shown (snd p)) (combine (seq s (length l)) l)) = seq s (length l)).
  { induction l as [|t l IH]; intros s Hl; cbn [length seq combine filter map snd]; [reflexivity|]. rewrite (Hl t (or_introl eq_refl)). cbn [map fst]. f_equal. apply IH. intros t0 Ht. apply Hl. right. exact Ht. }
  rewrite F, L; [reflexivity|]. intros t Ht. apply In_nth_error in Ht. destruct Ht as [k Hk]. exact (H k t Hk).
Qed.

(** building: for every number of steps n > 0 the figure has the n images; before the first move all are on the screen, the last one, where the slider stands, on top *)
Theorem fractal_figure a b n : (0 < n)%nat -> exists f, fractal a b (Z.of_nat n) = Ok f /\ has_images a b n f /\ sl_steps (fig_slider f) = slider_steps n /\ sl_active (fig_slider f) = Z.of_nat (n - 1) /\ screen f = seq 0 n /\ on_top f = Some (n - 1)%nat.
Proof.
  intros Hn. unfold fractal. rewrite linspace_ok. cbn [bindR]. destruct (add_ok (map (angle_of a b n) (seq 0 n)) []) as (d & E & L & H). rewrite E. cbn [bindR app]. rewrite map_length, seq_length in L.
  assert (P : py_index (length d) (Z.of_nat n - 1) = Ok (n - 1)%nat).
  { unfold py_index. rewrite L. destruct (Z.ltb_spec (Z.of_nat n - 1) 0); [lia|]. destruct (Z.leb_spec 0 (Z.of_nat n - 1)); [|lia]. destruct (Z.ltb_spec (Z.of_nat n - 1) (Z.of_nat n)); [|lia]. cbn [andb]. f_equal. lia. }
  rewrite P. cbn [bindR]. eexists. split; [reflexivity|]. cbn [fig_data fig_slider sl_steps sl_active].
  set (d' := PlotModel.upd d (n - 1) _). assert (L' : length d' = n) by (unfold d'; rewrite upd_length; exact L).
  assert (N : forall k t, nth_error d' k = Some t -> shown t = true /\ picture (angle_of a b n k) = Ok (tr_z t)).
  { intros k t Hk. unfold d' in Hk. rewrite upd_nth in Hk.
    assert (K : forall t0, nth_error d k = Some t0 -> tr_visible t0 = None /\ picture (angle_of a b n k) = Ok (tr_z t0)).
    { intros t0 H0. destruct (H k t0 H0) as (V & ang & A & B). split; [exact V|].
      assert (KL : (k < n)%nat) by (rewrite <- L; apply nth_error_Some; rewrite H0; discriminate).
      rewrite nth_error_map in A. rewrite (nth_error_nth' (seq 0 n) 0%nat) in A by (rewrite seq_length; exact KL). rewrite seq_nth in A by exact KL. cbn [option_map Nat.add] in A. injection A as <-. exact B. }
    destruct (Nat.eqb_spec k (n - 1)) as [->|NE].
    - destruct (nth_error d (n - 1)) as [t0|] eqn:E0; [|discriminate]. injection Hk as <-. split; [reflexivity|]. rewrite (nth_error_nth _ _ _ E0). apply (K t0 eq_refl).
    - destruct (K t Hk) as [V B]. split; [unfold shown; rewrite V; reflexivity|exact B]. }
  assert (SC : screen (mkfigure d' (mkslider (Z.of_nat n - 1) (slider_steps (length d')))) = seq 0 n) by (apply screen_all; [exact L'|intros k t Hk; apply (N k t Hk)]).
  split; [|split; [rewrite L'; reflexivity|split; [lia|split; [exact SC|]]]].
  - split; [exact L'|]. split; [cbn [fig_slider sl_steps]; unfold slider_steps; rewrite map_length, seq_length; exact L'|]. intros k t Hk. apply (N k t Hk).
  - unfold on_top. rewrite SC. destruct n as [|n]; [lia|]. rewrite seq_S, map_app. cbn [map Nat.add]. rewrite last_last. f_equal. lia.
Qed.
Lemma move_in a b n f i : has_images a b n f -> sl_steps (fig_slider f) = slider_steps n -> (i < n)%nat ->
  has_images a b n (move f i) /\ sl_steps (fig_slider (move f i)) = slider_steps n /\ sl_active (fig_slider (move f i)) = Z.of_nat i /\ screen (move f i) = [i].
Proof.
  intros (L1 & L2 & H) ST Hi. unfold move. rewrite ST. destruct (nth_error (slider_steps n) i) as [fl|] eqn:E; [|apply nth_error_None in E; rewrite <- ST in E; lia].
  destruct (PlotProofs.slider_spec n i fl E) as [FL FV]. cbn [fig_slider sl_steps sl_active].
  split; [|split; [reflexivity|split; [reflexivity|]]].
  - split; [cbn [fig_data]; rewrite restyle_length; exact L1|]. split; [cbn [fig_slider sl_steps]; rewrite <- ST; exact L2|]. cbn [fig_data]. intros k t Hk. rewrite restyle_nth in Hk. destruct (nth_error (fig_data f) k) as [t0|] eqn:E0; [|discriminate].
    destruct (nth_error fl k); injection Hk as <-; exact (H k t0 E0).
  - apply screen_one; cbn [fig_data].
    + intros k t Hk. rewrite restyle_nth in Hk. destruct (nth_error (fig_data f) k) as [t0|] eqn:E0; [|discriminate].
      assert (KL : (k < n)%nat) by (rewrite <- L1; apply nth_error_Some; rewrite E0; discriminate). rewrite (FV k KL) in Hk. injection Hk as <-. reflexivity.
    + rewrite restyle_length, L1. exact Hi.
Qed.
Lemma move_out n f i : sl_steps (fig_slider f) = slider_steps n -> (n <= i)%nat -> move f i = f.
Proof. intros ST Hi. unfold move. rewrite ST. destruct (nth_error (slider_steps n) i) eqn:E; [|reflexivity]. assert (i < length (slider_steps n))%nat by (apply nth_error_Some; rewrite E; discriminate). unfold slider_steps in H. rewrite map_length, seq_length in H. lia. Qed.
(** after any moves of the slider: the image at its position is on top, and once it has been moved it is the only one shown *)
Theorem slider_history a b n l f : (0 < n)%nat -> fractal a b (Z.of_nat n) = Ok f -> (forall i, In i l -> (i < n)%nat) ->
  let g := moves l f in has_images a b n g /\ exists k, (k < n)%nat /\ sl_active (fig_slider g) = Z.of_nat k /\ on_top g = Some k /\ (l <> [] -> screen g = [k] /\ k = last l 0%nat) /\ (l = [] -> k = (n - 1)%nat).
Proof.
  intros Hn Ef. destruct (fractal_figure a b n Hn) as (f' & E' & HI & ST & AC & SC & OT). rewrite Ef in E'. apply Ok_inj in E'. subst f'.
  cut ((forall i, In i l -> (i < n)%nat) -> has_images a b n (moves l f) /\ sl_steps (fig_slider (moves l f)) = slider_steps n /\ (l <> [] -> screen (moves l f) = [last l 0%nat] /\ sl_active (fig_slider (moves l f)) = Z.of_nat (last l 0%nat))).
  { intros C Hl. cbv zeta. destruct (C Hl) as (A & _ & B). split; [exact A|]. destruct l as [|x l].
    - exists (n - 1)%nat. split; [lia|]. split; [exact AC|]. split; [exact OT|]. split; [intros N; contradiction|reflexivity].
    - destruct (B ltac:(discriminate)) as [B1 B2]. exists (last (x :: l) 0%nat). split; [apply Hl; destruct (@exists_last _ (x :: l) ltac:(discriminate)) as (m & y & ->); rewrite last_last; apply in_or_app; right; left; reflexivity|].
      split; [exact B2|]. split; [unfold on_top; rewrite B1; reflexivity|]. split; [intros _; split; [exact B1|reflexivity]|discriminate]. }
  induction l as [|x l IH] using rev_ind; intros Hl; [split; [exact HI|]; split; [exact ST|]; intros N; contradiction|].
  destruct IH as (A & B & _); [intros i Hi; apply Hl; apply in_or_app; left; exact Hi|]. unfold moves. rewrite fold_left_app. cbn [fold_left]. fold (moves l f).
  destruct (move_in a b n (moves l f) x A B ltac:(apply Hl; apply in_or_app; right; left; reflexivity)) as (A1 & A2 & A3 & A4). split; [exact A1|]. split; [exact A2|]. intros _. rewrite last_last. split; assumption.
Qed.
End Size.
(** the angles of the first and the last position *)
Theorem angle_ends a b n : (1 < n)%nat -> angle_of a b n 0 = a /\ angle_of a b n (n - 1) = b.
Proof.
  intros Hn. unfold angle_of. destruct (Nat.eqb_spec n 1); [lia|]. cbn [INR]. assert (0 < INR (n - 1)) by (apply lt_0_INR; lia). split; [ring|field; lra].
Qed.
Theorem angle_single a b k : angle_of a b 1 k = a.
Proof. reflexivity. Qed.
(** no steps *)
Theorem fractal_none w im a b : fractal w im a b 0 = Err IndexError.
Proof. reflexivity. Qed.
Theorem fractal_negative w im a b n : (n < 0)%Z -> fractal w im a b n = Err ValueError.
Proof. intros H. unfold fractal, linspace. destruct (Z.ltb_spec n 0); [reflexivity|lia]. Qed.
