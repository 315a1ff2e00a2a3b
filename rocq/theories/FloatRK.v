(** Floating-point model of RK4naive (src/einsteinpy/integrators/runge_kutta.py:7-56) and its rounding errors.
    The right-hand side fun(t, y) is a list of n programs over t, y_0 .. y_{n-1} returning an array of length n; arrays are lists of floats. *)
From Coq Require Import Reals List ZArith Lra Lia Bool.
From Coquelicot Require Import Coquelicot.
From Verif Require Import Base Calc DualModel DualSpec DualProofs DualDiff GeoUtilsModel GeoUtilsSpec GeoUtilsProofs FantasyModel FantasyHam ProgCont FantasyOrder FantasyGlobal FantasyGlobal2
  RKModel RKProofs RKOrder RKOrder2 RKGlobal RKGlobal2 RKProg FloatModel FloatExact FloatTrack FloatGlobal FloatTraj.
Import ListNotations.
Open Scope R_scope.

(** an array of length n computed entry by entry *)
Definition tabR (n : nat) (f : nat -> Res R) : Res (list R) := seqR f (seq 0 n).
Record rk4f := mkrk4f { rf_t : R; rf_y : list R; rf_bound : R; rf_h : R; rf_dir : Z }.
(** runge_kutta.py:12-36; comparisons of floats are exact *)
Definition rk4_initA (t0 : R) (y0 : list R) (t_bound h : R) : rk4f :=
  mkrk4f t0 y0 t_bound h (b2Z (Rgeb t_bound t0) - b2Z (negb (Rltb t_bound t0))).
Section Programs.
Variables (A : arith) (n : nat) (es : nat -> pexpr).
(** the user's fun(t, y) *)
Definition rhsA (t : R) (y : list R) : Res (list R) := tabR n (fun i => let* v := runA A (fun k => PF (nth k (t :: y) 0)) (es i) in pf_only v).
Definition laddA (v w : list R) : Res (list R) := tabR n (fun i => a_add A (nth i v 0) (nth i w 0)).
Definition lscalA (k : R) (v : list R) : Res (list R) := tabR n (fun i => a_mul A k (nth i v 0)).
(** runge_kutta.py:47-56 *)
Definition rk4_updateA (h t : R) (y : list R) : Res (R * list R) :=
  let* k0 := rhsA t y in
  let* h2 := a_div A h 2 in let* t2 := a_add A t h2 in
  let* x := lscalA h2 k0 in let* y1 := laddA y x in let* k1 := rhsA t2 y1 in
  let* x := lscalA h2 k1 in let* y2 := laddA y x in let* k2 := rhsA t2 y2 in
  let* t3 := a_add A t h in let* x := lscalA h k2 in let* y3 := laddA y x in let* k3 := rhsA t3 y3 in
  let* h6 := a_div A h 6 in
  let* a := lscalA 2 k1 in let* s := laddA k0 a in
  let* b := lscalA 2 k2 in let* s := laddA s b in let* s := laddA s k3 in
  let* x := lscalA h6 s in let* y' := laddA y x in
  let* t' := a_add A t h in Ok (t', y').
(** runge_kutta.py:38-56, with the guard of lines 42-44 *)
Definition rk4_stepA (s : rk4f) : Res (rk4f * bool) :=
  if ((Rgeb (rf_t s) (rf_bound s) && Z.eqb (rf_dir s) 1) || (Rgeb (rf_bound s) (rf_t s) && Z.eqb (rf_dir s) (-1)))%bool then Ok (s, true)
  else let* z := rk4_updateA (rf_h s) (rf_t s) (rf_y s) in Ok (mkrk4f (fst z) (snd z) (rf_bound s) (rf_h s) (rf_dir s), false).
Fixpoint rk4_stepsA (k : nat) (s : rk4f) : Res rk4f :=
  match k with O => Ok s | S k => let* r := rk4_stepA s in rk4_stepsA k (fst r) end.
End Programs.

Lemma seqR_map {B D} (f : B -> Res D) (w : B -> D) l : (forall b, In b l -> f b = Ok (w b)) -> seqR f l = Ok (map w l).
Proof. induction l as [|b l IH]; intros H; [reflexivity|]. cbn [seqR map]. rewrite (H b (or_introl eq_refl)). cbn [bindR]. rewrite IH by (intros; apply H; right; assumption). reflexivity. Qed.
Lemma tabR_Ok n f w : (forall i, (i < n)%nat -> f i = Ok (w i)) -> tabR n f = Ok (map w (seq 0 n)).
Proof. intros H. apply seqR_map. intros i Hi. apply in_seq in Hi. apply H. lia. Qed.
Lemma nth_tab n (w : nat -> R) i : (i < n)%nat -> nth i (map w (seq 0 n)) 0 = w i.
Proof. intros Hi. rewrite (nth_indep _ 0 (w 0%nat)) by (rewrite map_length, seq_length; exact Hi). rewrite map_nth, seq_nth by exact Hi. reflexivity. Qed.
Lemma finite_choice {B} (P : nat -> B -> Prop) (b0 : B) n : (forall i, (i < n)%nat -> exists b, P i b) -> exists f, forall i, (i < n)%nat -> P i (f i).
Proof.
  induction n as [|n IH]; intros H. { exists (fun _ => b0). intros; lia. }
  destruct IH as [f Hf]. { intros i Hi. apply H. lia. } destruct (H n ltac:(lia)) as [b Hb]. exists (fun i => if Nat.eqb i n then b else f i). intros i Hi.
  destruct (Nat.eqb_spec i n) as [-> |Ne]; [exact Hb|apply Hf; lia].
Qed.

Section Track.
Context {J : Type} (F : (J -> Prop) -> Prop) {FF : Filter F} (u : J -> R) (A : J -> arith).
Hypothesis Hu0 : F (fun j => 0 <= u j).
Hypothesis Hu : filterlim u F (locally 0).
Hypothesis HA : F (fun j => accurate (u j) (A j)).
Notation nrF := (nr F u).
(** arrays *)
Definition nrL (n : nat) (v : J -> list R) (x : nat -> J -> R) (l : nat -> R) : Prop := forall i, (i < n)%nat -> nrF (fun j => nth i (v j) 0) (x i) (l i).
Lemma filter_all n (P : nat -> J -> Prop) : (forall i, (i < n)%nat -> F (P i)) -> F (fun j => forall i, (i < n)%nat -> P i j).
Proof.
  induction n as [|n IH]; intros H. { apply filter_forall. intros; lia. }
  assert (H1 := IH ltac:(intros i Hi; apply H; lia)). assert (H2 := H n ltac:(lia)). generalize (filter_and _ _ H1 H2). apply filter_imp.
  intros j [X1 X2] i Hi. destruct (Nat.eq_dec i n) as [-> |]; [exact X2|apply X1; lia].
Qed.
Lemma tabR_ok n (r : nat -> J -> Res R) x l : (forall i, (i < n)%nat -> okto F u (r i) (x i) (l i)) -> okT F (fun j => tabR n (fun i => r i j)) (fun v => nrL n v x l).
Proof.
  intros H. destruct (finite_choice (fun i (w : J -> R) => evok F (r i) w /\ nrF w (x i) (l i)) (fun _ => 0) n) as [w Hw]. { intros i Hi. destruct (H i Hi) as (v & E & N). exists v. split; assumption. }
  exists (fun j => map (fun i => w i j) (seq 0 n)). split.
  - unfold evok. assert (E := filter_all n (fun i j => r i j = Ok (w i j)) (fun i Hi => proj1 (Hw i Hi))). revert E. apply filter_imp. intros j E. apply tabR_Ok. exact E.
  - intros i Hi. generalize (proj2 (Hw i Hi)). apply nr_ext_all; [exact FF|intros j; symmetry; apply (nth_tab n (fun i => w i j)); exact Hi|reflexivity].
Qed.
Variables (n : nat) (es : nat -> pexpr).
Hypothesis Hes : system n es.
Lemma rhs_ok t' t tl y' y yl : defined_for n es tl yl -> nrF t' t tl -> nrL n y' y yl ->
  okT F (fun j => rhsA (A j) n es (t' j) (y' j)) (fun v => nrL n v (fun i j => program_rhs es (t j) (fun k => y k j) i) (fun i => program_rhs es tl yl i)).
Proof.
  intros Hd Ht Hy. apply tabR_ok. intros i Hi.
  destruct (run_ok F u A Hu0 Hu HA false (S n) 0 (fun k j => nth k (t' j :: y' j) 0) (fun k j => point (t j) (fun k => y k j) k) (point tl yl)) with (e := es i) as (w & E & v & Ew & N & _).
  - intros [|k] Hk; cbn [nth point]; [exact Ht|apply Hy; lia].
  - apply Hes. exact Hi.
  - apply Hd. exact Hi.
  - apply (okT_bind F _ (fun w => exists v, (forall j, w j = PF (v j)) /\ nrF v (fun j => program_rhs es (t j) (fun k => y k j) i) (program_rhs es tl yl i))).
    + exists w. split; [exact E|]. exists v. split; [exact Ew|exact N].
    + intros w' (v' & Ew' & N'). exists v'. split; [|exact N']. unfold evok. apply filter_forall. intros j. rewrite Ew'. reflexivity.
Qed.
Lemma ladd_ok v x l w y m : nrL n v x l -> nrL n w y m -> okT F (fun j => laddA (A j) n (v j) (w j)) (fun z => nrL n z (fun i j => x i j + y i j) (fun i => l i + m i)).
Proof. intros H1 H2. apply tabR_ok. intros i Hi. apply (okto_add F u A Hu0 Hu HA); [apply H1; exact Hi|apply H2; exact Hi]. Qed.
Lemma lscal_ok k x l w y m : nrF k x l -> nrL n w y m -> okT F (fun j => lscalA (A j) n (k j) (w j)) (fun z => nrL n z (fun i j => x j * y i j) (fun i => l * m i)).
Proof. intros H1 H2. apply tabR_ok. intros i Hi. apply (okto_mul F u A Hu0 Hu HA); [exact H1|apply H2; exact Hi]. Qed.
End Track.
