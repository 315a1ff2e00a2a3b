(** Rounding errors of RK4naive: one step, and accumulated over N steps of size h. *)
From Coq Require Import Reals List ZArith Lra Lia Bool.
From Coquelicot Require Import Coquelicot.
From Verif Require Import Base Calc DualModel DualSpec DualProofs DualDiff GeoUtilsModel GeoUtilsSpec GeoUtilsProofs FantasyModel FantasyHam ProgCont FantasyOrder FantasyGlobal FantasyGlobal2 FantasyGlobal3
  RKModel RKProofs RKOrder RKOrder2 RKGlobal RKGlobal2 RKProg FloatModel FloatExact FloatTrack FloatGlobal FloatTraj FloatRK.
Import ListNotations.
Open Scope R_scope.

(** the programs are defined wherever a step evaluates them *)
Definition def_rk4 (n : nat) (es : nat -> pexpr) (h t : R) (y : Y) : Prop :=
  let f := program_rhs es in
  let k0 := f t y in let y1 := fun i => y i + h / 2 * k0 i in
  let k1 := f (t + h / 2) y1 in let y2 := fun i => y i + h / 2 * k1 i in
  let k2 := f (t + h / 2) y2 in let y3 := fun i => y i + h * k2 i in
  defined_for n es t y /\ defined_for n es (t + h / 2) y1 /\ defined_for n es (t + h / 2) y2 /\ defined_for n es (t + h) y3.

Section Step.
Context {J : Type} (F : (J -> Prop) -> Prop) {FF : Filter F} (u : J -> R) (A : J -> arith).
Hypothesis Hu0 : F (fun j => 0 <= u j).
Hypothesis Hu : filterlim u F (locally 0).
Hypothesis HA : F (fun j => accurate (u j) (A j)).
Variables (n : nat) (es : nat -> pexpr).
Hypothesis Hes : system n es.
Notation nrF := (nr F u).
Notation nrLF := (nrL F u n).
Lemma update_ok h' h hl t' t tl y' y yl : def_rk4 n es hl tl yl -> nrF h' h hl -> nrF t' t tl -> nrLF y' y yl ->
  okT F (fun j => rk4_updateA (A j) n es (h' j) (t' j) (y' j)) (fun z =>
    nrF (fun j => fst (z j)) (fun j => t j + h j) (tl + hl) /\
    nrLF (fun j => snd (z j)) (fun i j => classical_rk4 (program_rhs es) (h j) (t j) (fun k => y k j) i) (classical_rk4 (program_rhs es) hl tl yl)).
Proof.
  intros (D0 & D1 & D2 & D3) Hh Ht Hy. unfold rk4_updateA.
  assert (C : forall c, nrF (fun _ => c) (fun _ => c) c) by (intros c; apply nr_const; exact FF).
  eapply (okT_bind F); [apply (rhs_ok F u A Hu0 Hu HA n es Hes _ _ _ _ _ _ D0 Ht Hy)|]. intros k0 N0. cbn beta.
  eapply (okT_bind F); [apply (okto_div F u A Hu0 Hu HA _ _ _ (fun _ => 2) _ _ (Rgt_not_eq _ _ Rlt_0_2) Hh (C 2))|]. intros h2 Nh2. cbn beta.
  eapply (okT_bind F); [apply (okto_add F u A Hu0 Hu HA _ _ _ _ _ _ Ht Nh2)|]. intros t2 Nt2. cbn beta.
  eapply (okT_bind F); [apply (lscal_ok F u A Hu0 Hu HA n _ _ _ _ _ _ Nh2 N0)|]. intros x0 Nx0. cbn beta.
  eapply (okT_bind F); [apply (ladd_ok F u A Hu0 Hu HA n _ _ _ _ _ _ Hy Nx0)|]. intros y1 Ny1. cbn beta.
  eapply (okT_bind F); [apply (rhs_ok F u A Hu0 Hu HA n es Hes _ _ _ _ _ _ D1 Nt2 Ny1)|]. intros k1 N1. cbn beta.
  eapply (okT_bind F); [apply (lscal_ok F u A Hu0 Hu HA n _ _ _ _ _ _ Nh2 N1)|]. intros x1 Nx1. cbn beta.
  eapply (okT_bind F); [apply (ladd_ok F u A Hu0 Hu HA n _ _ _ _ _ _ Hy Nx1)|]. intros y2 Ny2. cbn beta.
  eapply (okT_bind F); [apply (rhs_ok F u A Hu0 Hu HA n es Hes _ _ _ _ _ _ D2 Nt2 Ny2)|]. intros k2 N2. cbn beta.
  eapply (okT_bind F); [apply (okto_add F u A Hu0 Hu HA _ _ _ _ _ _ Ht Hh)|]. intros t3 Nt3. cbn beta.
  eapply (okT_bind F); [apply (lscal_ok F u A Hu0 Hu HA n _ _ _ _ _ _ Hh N2)|]. intros x2 Nx2. cbn beta.
  eapply (okT_bind F); [apply (ladd_ok F u A Hu0 Hu HA n _ _ _ _ _ _ Hy Nx2)|]. intros y3 Ny3. cbn beta.
  eapply (okT_bind F); [apply (rhs_ok F u A Hu0 Hu HA n es Hes _ _ _ _ _ _ D3 Nt3 Ny3)|]. intros k3 N3. cbn beta.
  assert (S6 : 6 <> 0) by lra.
  eapply (okT_bind F); [apply (okto_div F u A Hu0 Hu HA _ _ _ (fun _ => 6) _ _ S6 Hh (C 6))|]. intros h6 Nh6. cbn beta.
  eapply (okT_bind F); [apply (lscal_ok F u A Hu0 Hu HA n (fun _ => 2) _ _ _ _ _ (C 2) N1)|]. intros a Na. cbn beta.
  eapply (okT_bind F); [apply (ladd_ok F u A Hu0 Hu HA n _ _ _ _ _ _ N0 Na)|]. intros s1 Ns1. cbn beta.
  eapply (okT_bind F); [apply (lscal_ok F u A Hu0 Hu HA n (fun _ => 2) _ _ _ _ _ (C 2) N2)|]. intros b Nb. cbn beta.
  eapply (okT_bind F); [apply (ladd_ok F u A Hu0 Hu HA n _ _ _ _ _ _ Ns1 Nb)|]. intros s2 Ns2. cbn beta.
  eapply (okT_bind F); [apply (ladd_ok F u A Hu0 Hu HA n _ _ _ _ _ _ Ns2 N3)|]. intros s3 Ns3. cbn beta.
  eapply (okT_bind F); [apply (lscal_ok F u A Hu0 Hu HA n _ _ _ _ _ _ Nh6 Ns3)|]. intros x3 Nx3. cbn beta.
  eapply (okT_bind F); [apply (ladd_ok F u A Hu0 Hu HA n _ _ _ _ _ _ Hy Nx3)|]. intros y'' Ny''. cbn beta.
  eapply (okT_bind F); [apply (okto_add F u A Hu0 Hu HA _ _ _ _ _ _ Ht Hh)|]. intros t'' Nt''. cbn beta.
  apply (okT_ok F (fun j => (t'' j, y'' j))). cbn [fst snd]. split; [exact Nt''|]. exact Ny''.
Qed.
End Step.

(** ---- time as component 0 ---- *)
Definition aut (es : nat -> pexpr) (i : nat) : pexpr := match i with O => EConst 1 | S i => ren 1 (es i) end.
Lemma aut_system n es : system n es -> system (S n) (aut es).
Proof. intros H [|i] Hi; [reflexivity|]. apply (ren_below 1 (es i) (S n)); [apply H; lia|lia]. Qed.
Lemma point_eta (z : nat -> R) k : point (z 0%nat) (fun i => z (S i)) k = z k.
Proof. destruct k; reflexivity. Qed.
Lemma aut_rhs es t z i : program_rhs (aut es) t z i = match i with O => 1 | S i => program_rhs es (z 0%nat) (fun i => z (S i)) i end.
Proof. destruct i as [|i]; [reflexivity|]. unfold program_rhs. cbn [aut]. rewrite ren_meaning. apply meaning_ext. intros k. cbn [Nat.add point]. symmetry. apply point_eta. Qed.
Lemma aut_defined n es t z : defined_for n es (z 0%nat) (fun i => z (S i)) -> defined_for (S n) (aut es) t z.
Proof.
  intros H [|i] Hi; [exact I|]. cbn [aut]. apply ren_defined. assert (Q := H i ltac:(lia)). revert Q. apply defined_ext. intros k. cbn [Nat.add point]. apply point_eta.
Qed.
Lemma prhs_ext es t t' y y' i : t = t' -> (forall k, y k = y' k) -> program_rhs es t y i = program_rhs es t' y' i.
Proof. intros -> H. unfold program_rhs. apply meaning_ext. intros [|k]; [reflexivity|apply H]. Qed.
Lemma aut_step es h t z i : classical_rk4 (program_rhs (aut es)) h t z i = point (z 0%nat + h) (classical_rk4 (program_rhs es) h (z 0%nat) (fun i => z (S i))) i.
Proof.
  unfold classical_rk4. destruct i as [|i]; cbn [point]. { rewrite !aut_rhs. field. }
  assert (T2 : forall x : R, z 0%nat + x * 1 = z 0%nat + x) by (intros; ring).
  set (f := program_rhs es). set (z' := fun i0 => z (S i0)).
  assert (E : forall s a (k k' : Y), k 0%nat = 1 -> (forall m, k (S m) = k' m) -> forall m, program_rhs (aut es) s (fun i0 => z i0 + a * k i0) (S m) = f (z 0%nat + a) (fun i0 => z' i0 + a * k' i0) m).
  { intros s a k k' K0 K m. rewrite aut_rhs. apply prhs_ext; [rewrite K0; apply T2|]. intros q. rewrite K. reflexivity. }
  set (k0 := program_rhs (aut es) t z). set (k1 := program_rhs (aut es) (t + h / 2) (fun i0 => z i0 + h / 2 * k0 i0)). set (k2 := program_rhs (aut es) (t + h / 2) (fun i0 => z i0 + h / 2 * k1 i0)).
  assert (A0 : forall m, k0 (S m) = f (z 0%nat) z' m) by (intros m; apply aut_rhs).
  assert (A1 : forall m, k1 (S m) = f (z 0%nat + h / 2) (fun i0 => z' i0 + h / 2 * f (z 0%nat) z' i0) m) by (apply (E (t + h / 2) (h / 2) k0); [reflexivity|exact A0]).
  assert (A2 := E (t + h / 2) (h / 2) k1 _ (aut_rhs es _ _ 0%nat) A1). fold k2 in A2.
  assert (A3 := E (t + h) h k2 _ (aut_rhs es _ _ 0%nat) A2).
  rewrite A0, A1, A2, A3. reflexivity.
Qed.
Lemma aut_solution n es (y : R -> Y) t : solves_near n (program_rhs es) y t -> solves_near (S n) (program_rhs (aut es)) (fun t => point t (y t)) t.
Proof.
  intros (r & Hr & H). exists r. split; [exact Hr|]. intros s i Hs Hi. rewrite aut_rhs. destruct i as [|i]; cbn [point]; [apply D_id|]. apply H; [exact Hs|lia].
Qed.
Lemma aut_good n es (y : R -> Y) t0 : system n es -> defined_for n es t0 (y t0) -> solves_near n (program_rhs es) y t0 ->
  exists rho M L, 0 < rho /\ 0 <= M /\ 0 <= L /\ forall t, Rabs (t - t0) < rho -> rk_good (S n) (program_rhs (aut es)) (fun t => point t (y t)) rho M L t.
Proof.
  intros Hs Hd Hy. assert (Hs' := aut_system n es Hs). assert (Hd' : defined_for (S n) (aut es) t0 (point t0 (y t0))) by (apply aut_defined; exact Hd).
  apply rk_good_near; [apply program_reads; exact Hs'|apply program_smooth; assumption|apply program_solution; [exact Hs'|exact Hd'|apply aut_solution; exact Hy]].
Qed.

(** ---- one floating-point step near the solution ---- *)
Definition lpt (t : R) (v : list R) : nat -> R := point t (fun i => nth i v 0).
Record rix := mkrix { r_u : R; r_A : arith; r_h : R; r_t : R; r_v : list R }.
Definition inR (n : nat) (z0 : nat -> R) (r : R) (j : rix) : Prop :=
  0 <= r_u j < r /\ accurate (r_u j) (r_A j) /\ Rabs (r_h j) < r /\ near (S n) r z0 (lpt (r_t j) (r_v j)).
Definition FR (n : nat) (z0 : nat -> R) (P : rix -> Prop) : Prop := exists r, 0 < r /\ forall j, inR n z0 r j -> P j.
Lemma inR_le n z0 r r' j : r <= r' -> inR n z0 r j -> inR n z0 r' j.
Proof. intros H (H1 & H2 & H3 & H4). split; [lra|]. split; [exact H2|]. split; [lra|]. eapply near_le; [exact H|exact H4]. Qed.
Global Instance FR_filter n z0 : Filter (FR n z0).
Proof.
  split.
  - exists 1. split; [lra|]. auto.
  - intros P Q (r1 & R1 & H1) (r2 & R2 & H2). exists (Rmin r1 r2). split; [apply Rmin_pos; assumption|]. intros j Hj.
    split; [apply H1; eapply inR_le; [apply Rmin_l|exact Hj]|apply H2; eapply inR_le; [apply Rmin_r|exact Hj]].
  - intros P Q H (r & Hr & HP). exists r. split; [exact Hr|]. intros j Hj. apply H, HP, Hj.
Qed.
Lemma update_track n es t0 y0 : system n es -> defined_for n es t0 y0 ->
  exists r C, 0 < r /\ 0 <= C /\ forall u A h t v, 0 <= u < r -> accurate u A -> Rabs h < r -> near (S n) r (point t0 y0) (lpt t v) ->
  exists z, rk4_updateA A n es h t v = Ok z /\ forall i, (i < S n)%nat -> Rabs (lpt (fst z) (snd z) i - classical_rk4 (program_rhs (aut es)) h t (lpt t v) i) <= C * u.
Proof.
  intros Hs Hd. set (z0 := point t0 y0).
  assert (U0 : FR n z0 (fun j => 0 <= r_u j)) by (exists 1; split; [lra|]; intros j Hj; apply Hj).
  assert (U : filterlim r_u (FR n z0) (locally 0)).
  { intros P [e HP]. exists e. split; [apply cond_pos|]. intros j Hj. apply HP. destruct Hj as ((H1 & H2) & _). unfold ball; cbn; unfold AbsRing_ball, abs, minus, plus, opp; cbn. rewrite Ropp_0, Rplus_0_r, Rabs_right by lra. exact H2. }
  assert (UA : FR n z0 (fun j => accurate (r_u j) (r_A j))) by (exists 1; split; [lra|]; intros j Hj; apply Hj).
  assert (Nh : nr (FR n z0) r_u r_h r_h 0).
  { apply nr_self; [apply FR_filter|]. intros P [e HP]. exists e. split; [apply cond_pos|]. intros j (_ & _ & H & _). apply HP. unfold ball; cbn; unfold AbsRing_ball, abs, minus, plus, opp; cbn. rewrite Ropp_0, Rplus_0_r. exact H. }
  assert (Nz : forall i, (i < S n)%nat -> nr (FR n z0) r_u (fun j => lpt (r_t j) (r_v j) i) (fun j => lpt (r_t j) (r_v j) i) (z0 i)).
  { intros i Hi. apply nr_self; [apply FR_filter|]. intros P [e HP]. exists e. split; [apply cond_pos|]. intros j (_ & _ & _ & H). apply HP. exact (H i Hi). }
  assert (Dd : def_rk4 n es 0 t0 y0).
  { assert (X : forall a (k : Y) b, a = 0 -> b = 0 -> defined_for n es (t0 + b) (fun i => y0 i + a * k i)).
    { intros a k b -> -> i Hi. generalize (Hd i Hi). apply defined_ext. intros [|m]; cbn [point]; ring. }
    split; [exact Hd|]. split; [|split]; apply X; field. }
  destruct (update_ok (FR n z0) r_u r_A U0 U UA n es Hs r_h r_h 0 r_t r_t t0 r_v (fun i j => nth i (r_v j) 0) y0 Dd Nh (Nz 0%nat ltac:(lia))) as (z & E & N1 & N2).
  { intros i Hi. exact (Nz (S i) ltac:(lia)). }
  destruct (uniform_below (fun i r C => forall j, inR n z0 r j -> Rabs (lpt (fst (z j)) (snd (z j)) i - classical_rk4 (program_rhs (aut es)) (r_h j) (r_t j) (lpt (r_t j) (r_v j)) i) <= C * r_u j) (S n)) as (r1 & C & R1 & HC & H).
  { intros k r r' M M' _ H Hr HM j Hj. eapply Rle_trans; [apply H; eapply inR_le; [exact Hr|exact Hj]|]. apply Rmult_le_compat_r; [apply Hj|exact HM]. }
  { intros [|i] Hi.
    - destruct N1 as [_ (C & HC & (r & Hr & K))]. exists r, C. split; [exact Hr|]. split; [exact HC|]. intros j Hj. rewrite aut_step. exact (K j Hj).
    - destruct (N2 i ltac:(lia)) as [_ (C & HC & (r & Hr & K))]. exists r, C. split; [exact Hr|]. split; [exact HC|]. intros j Hj. rewrite aut_step. exact (K j Hj). }
  destruct E as (r2 & R2 & E). exists (Rmin r1 r2), C. split; [apply Rmin_pos; assumption|]. split; [exact HC|]. intros u A h t v Hu HA Hh Hz.
  assert (Q : inR n z0 (Rmin r1 r2) (mkrix u A h t v)) by (repeat (split; [assumption|]); assumption).
  exists (z (mkrix u A h t v)). split; [apply (E _ (inR_le _ _ _ _ _ (Rmin_r _ _) Q))|]. intros i Hi. apply (H i Hi _ (inR_le _ _ _ _ _ (Rmin_l _ _) Q)).
Qed.
Definition rk_track (n : nat) (es : nat -> pexpr) (Z : R -> nat -> R) (rho C t0 : R) : Prop :=
  forall u A h t v, 0 <= u < rho -> accurate u A -> Rabs h < rho -> near (S n) rho (Z t0) (lpt t v) ->
  exists z, rk4_updateA A n es h t v = Ok z /\ forall i, (i < S n)%nat -> Rabs (lpt (fst z) (snd z) i - classical_rk4 (program_rhs (aut es)) h t (lpt t v) i) <= C * u.
Lemma rk_track_le n es Z rho C t rho' C' : rk_track n es Z rho C t -> rho' <= rho -> C <= C' -> rk_track n es Z rho' C' t.
Proof.
  intros H H1 H2 u A h t' v Hu HA Hh Hv. destruct (H u A h t' v ltac:(lra) HA ltac:(lra) (near_le _ _ _ _ _ H1 Hv)) as (z & E & W). exists z. split; [exact E|].
  intros i Hi. eapply Rle_trans; [apply W; exact Hi|]. apply Rmult_le_compat_r; [apply Hu|exact H2].
Qed.
Lemma rk_track_near n es (y : R -> Y) x : system n es -> defined_for n es x (y x) -> solves_near n (program_rhs es) y x ->
  exists rho C, 0 < rho /\ 0 <= C /\ forall t, Rabs (t - x) < rho -> rk_track n es (fun t => point t (y t)) rho C t.
Proof.
  intros Hs Hd Hy. destruct (update_track n es x (y x) Hs Hd) as (r & C & Hr & HC & H).
  assert (Hs' := aut_system n es Hs). assert (Hd' : defined_for (S n) (aut es) x (point x (y x))) by (apply aut_defined; exact Hd).
  assert (Sm := program_solution (S n) (aut es) (fun t => point t (y t)) x Hs' Hd' (aut_solution n es y x Hy)).
  destruct (solution_near _ _ _ x (r / 2) Sm ltac:(lra)) as (d & Pd & K).
  set (rho := Rmin d (r / 2)). assert (P : 0 < rho) by (apply Rmin_pos; lra). assert (P1 : rho <= d) by apply Rmin_l. assert (P2 : rho <= r / 2) by apply Rmin_r. clearbody rho.
  exists rho, C. split; [exact P|]. split; [exact HC|]. intros t Ht u A h t' v Hu HA Hh Hv. apply H; [lra|exact HA|lra|].
  intros i Hi. assert (Q1 := Hv i Hi). assert (Q2 := K t ltac:(lra) i Hi). cbv beta in Q2. apply Rabs_def2 in Q1. apply Rabs_def2 in Q2. apply Rabs_def1; lra.
Qed.
Lemma rk_track_compact n es Z a b : a <= b ->
  (forall x, a <= x <= b -> exists rho C, 0 < rho /\ 0 <= C /\ forall t, Rabs (t - x) < rho -> rk_track n es Z rho C t) ->
  exists rho C, 0 < rho /\ 0 <= C /\ forall t, a <= t <= b -> rk_track n es Z rho C t.
Proof.
  intros Hab Hloc. apply (real_induction (fun x y => exists rho C, 0 < rho /\ 0 <= C /\ forall t, x <= t <= y -> rk_track n es Z rho C t) a b Hab).
  - intros x y x' y' (rho & C & A & B & D) H1 H2. exists rho, C. repeat (split; [assumption|]). intros t Ht. apply D. lra.
  - intros x y z Hy (rho & C & A & B & D) (rho' & C' & A' & B' & D').
    exists (Rmin rho rho'), (Rmax C C'). split; [apply Rmin_pos; assumption|]. split; [eapply Rle_trans; [exact B|apply Rmax_l]|].
    intros t Ht. destruct (Rle_dec t y) as [K|K].
    + eapply rk_track_le; [apply D; lra|apply Rmin_l|apply Rmax_l].
    + eapply rk_track_le; [apply D'; lra|apply Rmin_r|apply Rmax_r].
  - intros x Hx. destruct (Hloc x Hx) as (rho & C & A & B & D). exists (rho / 2). split; [lra|]. exists rho, C. repeat (split; [assumption|]). intros t Ht. apply D. apply Rabs_def1; lra.
Qed.

(** ---- accumulation ---- *)
Lemma init_dir t0 y0 tb h : rf_dir (rk4_initA t0 y0 tb h) = 0%Z.
Proof. exact (direction_zero (fun _ y => y) t0 (fun _ => 0) tb h). Qed.
Lemma stepA_dir A n es s : rf_dir s = 0%Z -> rk4_stepA A n es s = bindR (rk4_updateA A n es (rf_h s) (rf_t s) (rf_y s)) (fun z => Ok (mkrk4f (fst z) (snd z) (rf_bound s) (rf_h s) (rf_dir s), false)).
Proof. intros H. unfold rk4_stepA. rewrite H. cbn [Z.eqb]. rewrite !andb_false_r. reflexivity. Qed.
Lemma rk_accumulate n es (y : R -> Y) t0 T rho M L C : T <> 0 -> 0 < rho -> 0 <= M -> 0 <= L -> 0 <= C ->
  let Z := fun t => point t (y t) in
  (forall t, Rmin t0 (t0 + T) <= t <= Rmax t0 (t0 + T) -> rk_good (S n) (program_rhs (aut es)) Z rho M L t) ->
  (forall t, Rmin t0 (t0 + T) <= t <= Rmax t0 (t0 + T) -> rk_track n es Z rho C t) ->
  forall u A, 0 <= u < rho -> accurate u A -> forall h N e0 s0, 0 < h * T -> Rabs h < rho -> INR N * Rabs h <= Rabs T -> 0 <= e0 ->
  rf_dir s0 = 0%Z -> rf_h s0 = h -> (forall i, (i < S n)%nat -> Rabs (lpt (rf_t s0) (rf_y s0) i - Z t0 i) <= e0) ->
  (e0 + Rabs T * (M * Rabs h ^ 4 + C * (u / Rabs h))) * exp (L * Rabs T) < rho ->
  forall k, (k <= N)%nat -> exists s, rk4_stepsA A n es k s0 = Ok s /\
    forall i, (i < S n)%nat -> Rabs (lpt (rf_t s) (rf_y s) i - Z (t0 + INR k * h) i) <= (e0 + Rabs T * (M * Rabs h ^ 4 + C * (u / Rabs h))) * exp (L * Rabs T).
Proof.
  intros HT Hr HM HL HC Z HG HK u A Hu HA h N e0 s0 HhT Hh HN He0 Hdir Hrh Hs0 HB.
  set (a := Rabs h) in *. set (E := M * a ^ 4 + C * (u / a)) in *. set (T' := Rabs T) in *. set (B := (e0 + T' * E) * exp (L * T')) in *.
  assert (h0 : h <> 0) by (intros ->; rewrite Rmult_0_l in HhT; lra). assert (Pa : 0 < a) by (apply Rabs_pos_lt; exact h0). assert (PT : 0 < T') by (apply Rabs_pos_lt; exact HT).
  assert (PE : 0 <= E). { unfold E. apply Rplus_le_le_0_compat; apply Rmult_le_pos; try assumption; [apply pow_le; lra|]. apply Rmult_le_pos; [apply Hu|apply Rlt_le, Rinv_0_lt_compat; exact Pa]. }
  assert (hN : forall k, (k <= N)%nat -> 0 <= INR k * a <= T').
  { intros k Hk. assert (P := pos_INR k). split; [apply Rmult_le_pos; lra|]. apply le_INR in Hk. eapply Rle_trans; [|exact HN]. apply Rmult_le_compat_r; lra. }
  assert (tN : forall k, (k <= N)%nat -> Rmin t0 (t0 + T) <= t0 + INR k * h <= Rmax t0 (t0 + T)).
  { intros k Hk. assert (Q := hN k Hk). unfold a, T' in Q. destruct (Rlt_dec 0 T) as [PT'|PT'].
    - assert (Ph : 0 < h) by nra. rewrite (Rabs_right h), (Rabs_right T) in Q by lra. rewrite Rmin_left, Rmax_right by lra. lra.
    - assert (Ph : h < 0) by nra. rewrite (Rabs_left h), (Rabs_left T) in Q by lra. rewrite Rmin_right, Rmax_left by lra. lra. }
  set (err := fun k : nat => (e0 + INR k * a * E) * (1 + L * a) ^ k).
  assert (Lh : 0 <= L * a) by (apply Rmult_le_pos; lra).
  assert (EB : forall k, (k <= N)%nat -> 0 <= err k <= B).
  { intros k Hk. assert (Q := hN k Hk). assert (E1 : 1 <= (1 + L * a) ^ k) by (apply pow_R1_Rle; lra). assert (E2 := exp_pow_bound L a T' k HL (Rlt_le _ _ Pa) (proj2 Q)).
    assert (Q1 : 0 <= INR k * a * E) by (apply Rmult_le_pos; lra). assert (Q2 : INR k * a * E <= T' * E) by (apply Rmult_le_compat_r; lra).
    unfold err, B. split; [apply Rmult_le_pos; lra|]. apply Rmult_le_compat; lra. }
  assert (ES : forall k, (1 + L * a) * err k + a * E <= err (S k)).
  { intros k. unfold err. rewrite S_INR. cbn [pow]. assert (E1 : 1 <= (1 + L * a) ^ k) by (apply pow_R1_Rle; lra).
    assert (E2 : 1 <= (1 + L * a) * (1 + L * a) ^ k) by nra. assert (Q : 0 <= a * E) by (apply Rmult_le_pos; lra).
    replace ((e0 + (INR k + 1) * a * E) * ((1 + L * a) * (1 + L * a) ^ k)) with ((1 + L * a) * ((e0 + INR k * a * E) * (1 + L * a) ^ k) + a * E * ((1 + L * a) * (1 + L * a) ^ k)) by ring.
    apply Rplus_le_compat_l. rewrite <- (Rmult_1_r (a * E)) at 1. apply Rmult_le_compat_l; assumption. }
  assert (K : forall m k s, (k + m <= N)%nat -> rf_dir s = 0%Z -> rf_h s = h -> (forall i, (i < S n)%nat -> Rabs (lpt (rf_t s) (rf_y s) i - Z (t0 + INR k * h) i) <= err k) ->
    exists s', rk4_stepsA A n es m s = Ok s' /\ forall i, (i < S n)%nat -> Rabs (lpt (rf_t s') (rf_y s') i - Z (t0 + INR (k + m) * h) i) <= err (k + m)%nat).
  { induction m as [|m IH]; intros k s Hk Hd Hh' Hs.
    - exists s. split; [reflexivity|]. rewrite Nat.add_0_r. exact Hs.
    - set (t := t0 + INR k * h) in *. assert (Ht := tN k ltac:(lia)). fold t in Ht. destruct (HG t Ht) as [G1 G2].
      assert (Ek := EB k ltac:(lia)). assert (Ny : near (S n) rho (Z t) (lpt (rf_t s) (rf_y s))) by (intros i Hi; eapply Rle_lt_trans; [apply Hs; exact Hi|lra]).
      destruct (HK t Ht u A h (rf_t s) (rf_y s) Hu HA Hh Ny) as (z & Ez & Wz).
      destruct (IH (S k) (mkrk4f (fst z) (snd z) (rf_bound s) h 0%Z) ltac:(lia) eq_refl eq_refl) as (s' & Es' & Ws').
      { intros i Hi. cbn [rf_t rf_y]. replace (t0 + INR (S k) * h) with (t + h) by (unfold t; rewrite S_INR; ring).
        assert (A1 := G1 h i Hh Hi). assert (A2 := G2 h _ _ Hh Ny (near_self _ _ (Z t) Hr) (err k) Hs i Hi). assert (A3 := Wz i Hi). fold a in A1, A2. eapply Rle_trans; [|apply ES].
        assert (I : classical_rk4 (program_rhs (aut es)) h (rf_t s) (lpt (rf_t s) (rf_y s)) i = classical_rk4 (program_rhs (aut es)) h t (lpt (rf_t s) (rf_y s)) i) by (rewrite !aut_step; reflexivity).
        rewrite I in A3. revert A1 A2 A3. generalize (classical_rk4 (program_rhs (aut es)) h t (lpt (rf_t s) (rf_y s)) i) as x1, (classical_rk4 (program_rhs (aut es)) h t (Z t) i) as x2. intros x1 x2 A1 A2 A3.
        replace (lpt (fst z) (snd z) i - Z (t + h) i) with ((lpt (fst z) (snd z) i - x1) + ((x1 - x2) + (x2 - Z (t + h) i))) by ring.
        eapply Rle_trans; [apply Rabs_triang|]. assert (A4 := Rabs_triang (x1 - x2) (x2 - Z (t + h) i)).
        assert (EE : a * E = M * a ^ 5 + C * u) by (unfold E; cbn [pow]; field; lra). lra. }
      exists s'. split; [|replace (k + S m)%nat with (S k + m)%nat by lia; exact Ws'].
      cbn [rk4_stepsA]. rewrite (stepA_dir A n es s Hd), Hh', Ez, Hd. cbn [bindR fst]. exact Es'. }
  intros k Hk. destruct (K k 0%nat s0 ltac:(lia) Hdir Hrh) as (s & Es & Ws).
  { intros i Hi. unfold err. cbn [INR]. rewrite !Rmult_0_l, !Rplus_0_r. cbn [pow]. rewrite Rmult_1_r. apply Hs0. exact Hi. }
  exists s. split; [exact Es|]. intros i Hi. eapply Rle_trans; [apply Ws; exact Hi|]. apply EB. exact Hk.
Qed.
Theorem rk4_rounded n es (y : R -> Y) t0 T : system n es -> T <> 0 ->
  (forall t, Rmin t0 (t0 + T) <= t <= Rmax t0 (t0 + T) -> defined_for n es t (y t) /\ solves_near n (program_rhs es) y t) ->
  exists K r, 0 <= K /\ 0 < r /\ forall u A, 0 <= u -> accurate u A -> forall h N e0 t0' y0 tb, 0 < h * T -> Rabs h <= r -> INR N * Rabs h <= Rabs T ->
  Rabs (t0' - t0) <= e0 -> (forall i, (i < n)%nat -> Rabs (nth i y0 0 - y t0 i) <= e0) -> e0 + u / Rabs h <= r ->
  forall k, (k <= N)%nat -> exists s, rk4_stepsA A n es k (rk4_initA t0' y0 tb h) = Ok s /\
    Rabs (rf_t s - (t0 + INR k * h)) <= K * (e0 + Rabs h ^ 4 + u / Rabs h) /\
    forall i, (i < n)%nat -> Rabs (nth i (rf_y s) 0 - y (t0 + INR k * h) i) <= K * (e0 + Rabs h ^ 4 + u / Rabs h).
Proof.
  intros Hs HT H. set (Z := fun t => point t (y t)). assert (PT : 0 < Rabs T) by (apply Rabs_pos_lt; exact HT). assert (Hab : Rmin t0 (t0 + T) <= Rmax t0 (t0 + T)) by (eapply Rle_trans; [apply Rmin_l|apply Rmax_l]).
  destruct (rk_good_compact (S n) (program_rhs (aut es)) Z _ _ Hab) as (rho1 & M & L & Hr1 & HM & HL & HG1).
  { intros x Hx. destruct (H x Hx) as [A B]. apply aut_good; assumption. }
  destruct (rk_track_compact n es Z _ _ Hab) as (rho2 & C & Hr2 & HC & HK2).
  { intros x Hx. destruct (H x Hx) as [A B]. apply rk_track_near; assumption. }
  set (rho := Rmin rho1 rho2). assert (Hr : 0 < rho) by (apply Rmin_pos; assumption).
  assert (HG : forall t, Rmin t0 (t0 + T) <= t <= Rmax t0 (t0 + T) -> rk_good (S n) (program_rhs (aut es)) Z rho M L t) by (intros t Ht; eapply rk_good_le; [apply HG1; exact Ht|apply Rmin_l|lra|lra]).
  assert (HK : forall t, Rmin t0 (t0 + T) <= t <= Rmax t0 (t0 + T) -> rk_track n es Z rho C t) by (intros t Ht; eapply rk_track_le; [apply HK2; exact Ht|apply Rmin_r|lra]). clearbody rho. clear HG1 HK2.
  set (T' := Rabs T) in *. set (X := exp (L * T')). assert (HX : 0 < X) by apply exp_pos. set (K := (1 + T' * (M + C)) * X).
  assert (PK : 0 < K) by (unfold K; apply Rmult_lt_0_compat; [|exact HX]; assert (0 <= T' * (M + C)) by (apply Rmult_le_pos; lra); lra).
  set (r := Rmin 1 (Rmin (rho / 2) (rho / (4 * K)))).
  assert (Pr : 0 < r) by (unfold r; repeat apply Rmin_pos; try lra; apply Rdiv_lt_0_compat; lra).
  assert (R1 : r <= 1) by apply Rmin_l. assert (R2 : r <= rho / 2) by (unfold r; eapply Rle_trans; [apply Rmin_r|apply Rmin_l]).
  assert (R3 : K * r <= rho / 4). { assert (Q : r <= rho / (4 * K)) by (unfold r; eapply Rle_trans; [apply Rmin_r|apply Rmin_r]). apply Rmult_le_compat_l with (r := K) in Q; [|lra]. replace (K * (rho / (4 * K))) with (rho / 4) in Q by (field; lra). exact Q. }
  clearbody r. exists K, r. split; [lra|]. split; [exact Pr|]. intros u A Hu0 HA h N e0 t0' y0 tb HhT Hh HNT H0 H1 He k Hk.
  set (a := Rabs h) in *. assert (h0 : h <> 0) by (intros ->; rewrite Rmult_0_l in HhT; lra). assert (Pa : 0 < a) by (apply Rabs_pos_lt; exact h0).
  assert (Puh : 0 <= u / a) by (apply Rmult_le_pos; [exact Hu0|apply Rlt_le, Rinv_0_lt_compat; lra]).
  assert (E0 : 0 <= e0) by (eapply Rle_trans; [apply Rabs_pos|exact H0]).
  assert (Hu : 0 <= u < rho). { split; [exact Hu0|]. apply Rle_lt_trans with (u / a * 1); [|lra]. replace u with (u / a * a) at 1 by (field; lra). apply Rmult_le_compat_l; lra. }
  assert (Hp0 : 0 <= a ^ 4) by (apply pow_le; lra).
  assert (Hp : a ^ 4 <= r). { change (a * a ^ 3 <= r). assert (Q : a ^ 3 <= 1) by (rewrite <- (pow1 3); apply pow_incr; lra). assert (Q0 : 0 <= a ^ 3) by (apply pow_le; lra). nra. }
  assert (BK : (e0 + T' * (M * a ^ 4 + C * (u / a))) * X <= K * (e0 + a ^ 4 + u / a)).
  { unfold K. rewrite Rmult_assoc, (Rmult_comm X), <- Rmult_assoc. apply Rmult_le_compat_r; [lra|].
    assert (Z1 : 0 <= T' * M) by (apply Rmult_le_pos; lra). assert (Z2 : 0 <= T' * C) by (apply Rmult_le_pos; lra).
    replace ((1 + T' * (M + C)) * (e0 + a ^ 4 + u / a)) with (e0 + (T' * M) * a ^ 4 + (T' * C) * (u / a) + (a ^ 4 + u / a + (T' * M) * (e0 + u / a) + (T' * C) * (e0 + a ^ 4))) by ring.
    assert (Z3 : 0 <= T' * M * (e0 + u / a)) by (apply Rmult_le_pos; lra). assert (Z4 : 0 <= T' * C * (e0 + a ^ 4)) by (apply Rmult_le_pos; lra). lra. }
  assert (BR : (e0 + T' * (M * a ^ 4 + C * (u / a))) * exp (L * T') < rho).
  { eapply Rle_lt_trans; [exact BK|]. apply Rle_lt_trans with (K * (2 * r)); [apply Rmult_le_compat_l; lra|]. lra. }
  destruct (rk_accumulate n es y t0 T rho M L C HT Hr HM HL HC HG HK u A Hu HA h N e0 (rk4_initA t0' y0 tb h) HhT ltac:(fold a; lra) HNT E0 (init_dir _ _ _ _) eq_refl) with (k := k) as (s & Es & Ws).
  { intros [|i] Hi; [exact H0|]. apply H1. lia. }
  { exact BR. }
  { exact Hk. }
  exists s. split; [exact Es|]. split; [eapply Rle_trans; [exact (Ws 0%nat ltac:(lia))|exact BK]|]. intros i Hi. eapply Rle_trans; [exact (Ws (S i) ltac:(lia))|exact BK].
Qed.

(** ---- a floating-point run against the exact run ---- *)
Definition inY (n : nat) (h t : R) (y : Y) (r : R) (j : rix) : Prop :=
  0 <= r_u j < r /\ accurate (r_u j) (r_A j) /\ Rabs (r_h j - h) <= r_u j /\ Rabs (r_t j - t) <= r_u j /\ forall i, (i < n)%nat -> Rabs (nth i (r_v j) 0 - y i) <= r_u j.
Definition FY (n : nat) (h t : R) (y : Y) (P : rix -> Prop) : Prop := exists r, 0 < r /\ forall j, inY n h t y r j -> P j.
Lemma inY_le n h t y r r' j : r <= r' -> inY n h t y r j -> inY n h t y r' j.
Proof. intros H (H1 & H2). split; [lra|exact H2]. Qed.
Global Instance FY_filter n h t y : Filter (FY n h t y).
Proof.
  split.
  - exists 1. split; [lra|]. auto.
  - intros P Q (r1 & R1 & H1) (r2 & R2 & H2). exists (Rmin r1 r2). split; [apply Rmin_pos; assumption|]. intros j Hj.
    split; [apply H1; eapply inY_le; [apply Rmin_l|exact Hj]|apply H2; eapply inY_le; [apply Rmin_r|exact Hj]].
  - intros P Q H (r & Hr & HP). exists r. split; [exact Hr|]. intros j Hj. apply H, HP, Hj.
Qed.
Lemma steps_ok n es h t y : system n es -> forall k (s : rix -> rk4f) t' y',
  (forall j, rf_dir (s j) = 0%Z /\ rf_h (s j) = r_h j) -> nr (FY n h t y) r_u (fun j => rf_t (s j)) (fun _ => t') t' -> nrL (FY n h t y) r_u n (fun j => rf_y (s j)) (fun i _ => y' i) y' ->
  (forall m, (m < k)%nat -> def_rk4 n es h (t' + INR m * h) (rk4_iter (program_rhs es) h m t' y')) ->
  okT (FY n h t y) (fun j => rk4_stepsA (r_A j) n es k (s j)) (fun s' => nr (FY n h t y) r_u (fun j => rf_t (s' j)) (fun _ => t' + INR k * h) (t' + INR k * h) /\
    nrL (FY n h t y) r_u n (fun j => rf_y (s' j)) (fun i _ => rk4_iter (program_rhs es) h k t' y' i) (rk4_iter (program_rhs es) h k t' y')).
Proof.
  intros Hs. set (F := FY n h t y).
  assert (U0 : F (fun j => 0 <= r_u j)) by (exists 1; split; [lra|]; intros j Hj; apply Hj).
  assert (U : filterlim r_u F (locally 0)).
  { intros P [e HP]. exists e. split; [apply cond_pos|]. intros j Hj. apply HP. destruct Hj as ((H1 & H2) & _). unfold ball; cbn; unfold AbsRing_ball, abs, minus, plus, opp; cbn. rewrite Ropp_0, Rplus_0_r, Rabs_right by lra. exact H2. }
  assert (UA : F (fun j => accurate (r_u j) (r_A j))) by (exists 1; split; [lra|]; intros j Hj; apply Hj).
  assert (Nh : nr F r_u r_h (fun _ => h) h) by (split; [apply filterlim_const|]; exists 1; split; [lra|]; exists 1; split; [lra|]; intros j Hj; rewrite Rmult_1_l; apply Hj).
  induction k as [|k IH]; intros s t' y' Hdh Nt Ny Hd.
  - cbn [rk4_stepsA rk4_iter INR]. apply (okT_ok F s). rewrite Rmult_0_l, Rplus_0_r. split; assumption.
  - assert (D0 : def_rk4 n es h t' y') by (generalize (Hd 0%nat ltac:(lia)); cbn [rk4_iter INR]; rewrite Rmult_0_l, Rplus_0_r; trivial).
    assert (St := update_ok F r_u r_A U0 U UA n es Hs r_h (fun _ => h) h _ _ _ _ _ _ D0 Nh Nt Ny).
    apply (okT_ext F (fun j => bindR (rk4_updateA (r_A j) n es (r_h j) (rf_t (s j)) (rf_y (s j))) (fun z => rk4_stepsA (r_A j) n es k (mkrk4f (fst z) (snd z) (rf_bound (s j)) (r_h j) 0)))).
    { intros j. cbn [rk4_stepsA]. destruct (Hdh j) as [E1 E2]. rewrite (stepA_dir _ _ _ _ E1), E1, E2. destruct (rk4_updateA _ _ _ _ _ _); reflexivity. }
    eapply (okT_bind F); [exact St|]. intros z (N1 & N2). cbn beta.
    destruct (IH (fun j => mkrk4f (fst (z j)) (snd (z j)) (rf_bound (s j)) (r_h j) 0) (t' + h) (classical_rk4 (program_rhs es) h t' y')) as (s' & E & M1 & M2).
    + intros j. split; reflexivity.
    + exact N1.
    + exact N2.
    + intros m Hm. generalize (Hd (S m) ltac:(lia)). rewrite S_INR. cbn [rk4_iter]. replace (t' + (INR m + 1) * h) with (t' + h + INR m * h) by ring. trivial.
    + exists s'. split; [exact E|]. rewrite S_INR. cbn [rk4_iter]. replace (t' + (INR k + 1) * h) with (t' + h + INR k * h) by ring. split; assumption.
Qed.
Theorem rk4_float n es t0 (y0 : Y) tb h N : system n es ->
  (forall k, (k < N)%nat -> let s := rk4_steps k (rk4_init (program_rhs es) t0 y0 tb h) in def_rk4 n es h (rk_t s) (rk_y s)) ->
  exists r C, 0 < r /\ 0 <= C /\ forall u A t0' y0' h', 0 <= u < r -> accurate u A -> Rabs (t0' - t0) <= u -> Rabs (h' - h) <= u -> (forall i, (i < n)%nat -> Rabs (nth i y0' 0 - y0 i) <= u) ->
  forall k, (k <= N)%nat -> exists s, rk4_stepsA A n es k (rk4_initA t0' y0' tb h') = Ok s /\
    let e := rk4_steps k (rk4_init (program_rhs es) t0 y0 tb h) in
    Rabs (rf_t s - rk_t e) <= C * u /\ forall i, (i < n)%nat -> Rabs (nth i (rf_y s) 0 - rk_y e i) <= C * u.
Proof.
  intros Hs Hd. set (F := FY n h t0 y0).
  assert (K : forall k, (k < S N)%nat -> exists r C, 0 < r /\ 0 <= C /\ forall j, inY n h t0 y0 r j -> exists s, rk4_stepsA (r_A j) n es k (rk4_initA (r_t j) (r_v j) tb (r_h j)) = Ok s /\
     let e := rk4_steps k (rk4_init (program_rhs es) t0 y0 tb h) in
     Rabs (rf_t s - rk_t e) <= C * r_u j /\ forall i, (i < n)%nat -> Rabs (nth i (rf_y s) 0 - rk_y e i) <= C * r_u j).
  { intros k Hk. destruct (steps_ok n es h t0 y0 Hs k (fun j => rk4_initA (r_t j) (r_v j) tb (r_h j)) t0 y0) as (s & E & N1 & N2).
    - intros j. split; [apply init_dir|reflexivity].
    - split; [apply filterlim_const|]. exists 1. split; [lra|]. exists 1. split; [lra|]. intros j Hj. rewrite Rmult_1_l. apply Hj.
    - intros i Hi. split; [apply filterlim_const|]. exists 1. split; [lra|]. exists 1. split; [lra|]. intros j Hj. rewrite Rmult_1_l. apply Hj. exact Hi.
    - intros m Hm. generalize (Hd m ltac:(lia)). cbv zeta. destruct (rk4_history (program_rhs es) t0 y0 tb h m) as [E1 E2]. rewrite E1, E2. trivial.
    - destruct (uniform_below (fun i r C => forall j, inY n h t0 y0 r j -> Rabs (nth i (rf_y (s j)) 0 - rk4_iter (program_rhs es) h k t0 y0 i) <= C * r_u j) n) as (r1 & C1 & R1 & HC1 & H1).
      { intros q r r' M M' _ H Hr HM j Hj. eapply Rle_trans; [apply H; eapply inY_le; [exact Hr|exact Hj]|]. apply Rmult_le_compat_r; [apply Hj|exact HM]. }
      { intros i Hi. destruct (N2 i Hi) as [_ (C & HC & (r & Hr & Q))]. exists r, C. split; [exact Hr|]. split; [exact HC|exact Q]. }
      destruct N1 as [_ (C2 & HC2 & (r2 & R2 & H2))]. destruct E as (r3 & R3 & H3).
      assert (Le : forall j, inY n h t0 y0 (Rmin r1 (Rmin r2 r3)) j -> inY n h t0 y0 r1 j /\ inY n h t0 y0 r2 j /\ inY n h t0 y0 r3 j).
      { intros j Hj. split; [|split]; (eapply inY_le; [|exact Hj]); [apply Rmin_l|eapply Rle_trans; [apply Rmin_r|apply Rmin_l]|eapply Rle_trans; [apply Rmin_r|apply Rmin_r]]. }
      exists (Rmin r1 (Rmin r2 r3)), (C1 + C2). split; [repeat apply Rmin_pos; assumption|]. split; [lra|]. intros j Hj. destruct (Le j Hj) as (J1 & J2 & J3). assert (U : 0 <= r_u j) by apply Hj.
      exists (s j). split; [apply H3; exact J3|]. cbv zeta. destruct (rk4_history (program_rhs es) t0 y0 tb h k) as [E1 E2]. rewrite E1, E2.
      assert (0 <= C1 * r_u j) by (apply Rmult_le_pos; assumption). assert (0 <= C2 * r_u j) by (apply Rmult_le_pos; assumption). rewrite Rmult_plus_distr_r.
      split; [specialize (H2 j J2); cbv beta in H2; lra|]. intros i Hi. specialize (H1 i Hi j J1). lra. }
  destruct (uniform_below (fun k r C => forall j, inY n h t0 y0 r j -> exists s, rk4_stepsA (r_A j) n es k (rk4_initA (r_t j) (r_v j) tb (r_h j)) = Ok s /\
     let e := rk4_steps k (rk4_init (program_rhs es) t0 y0 tb h) in
     Rabs (rf_t s - rk_t e) <= C * r_u j /\ forall i, (i < n)%nat -> Rabs (nth i (rf_y s) 0 - rk_y e i) <= C * r_u j) (S N)) as (r & C & Hr & HC & H).
  { intros k r r' M M' _ H Hr HM j Hj. destruct (H j (inY_le _ _ _ _ _ _ _ Hr Hj)) as (s & E & B1 & B2). assert (Q : M * r_u j <= M' * r_u j) by (apply Rmult_le_compat_r; [apply Hj|exact HM]).
    exists s. split; [exact E|]. split; [eapply Rle_trans; [exact B1|exact Q]|]. intros i Hi. eapply Rle_trans; [apply B2; exact Hi|exact Q]. }
  { exact K. }
  exists r, C. split; [exact Hr|]. split; [exact HC|]. intros u A t0' y0' h' Hu HA Ht Hh Hy k Hk.
  apply (H k ltac:(lia) (mkrix u A h' t0' y0')). split; [exact Hu|]. split; [exact HA|]. split; [exact Hh|]. split; [exact Ht|exact Hy].
Qed.
(** in exact arithmetic it is the exact model *)
Theorem rk4_exact n es t0 y0 tb h N : system n es ->
  (forall k, (k < N)%nat -> let s := rk4_steps k (rk4_init (program_rhs es) t0 (fun i => nth i y0 0) tb h) in def_rk4 n es h (rk_t s) (rk_y s)) ->
  exists s, rk4_stepsA exact n es N (rk4_initA t0 y0 tb h) = Ok s /\
    let e := rk4_steps N (rk4_init (program_rhs es) t0 (fun i => nth i y0 0) tb h) in rf_t s = rk_t e /\ forall i, (i < n)%nat -> nth i (rf_y s) 0 = rk_y e i.
Proof.
  intros Hs Hd. destruct (rk4_float n es t0 (fun i => nth i y0 0) tb h N Hs Hd) as (r & C & Hr & HC & H).
  destruct (H 0 exact t0 y0 h ltac:(lra) exact_accurate) with (k := N) as (s & E & B1 & B2); try (intros; rewrite Rminus_eq_0, Rabs_R0; lra); [lia|].
  exists s. split; [exact E|]. rewrite Rmult_0_r in B1. cbv zeta in *. assert (Z : forall a b, Rabs (a - b) <= 0 -> a = b) by (intros a b Q; assert (P := Rabs_pos (a - b)); apply Rminus_diag_uniq, Rabs_eq_0; lra).
  split; [apply Z; exact B1|]. intros i Hi. apply Z. assert (Q := B2 i Hi). rewrite Rmult_0_r in Q. exact Q.
Qed.
(** arrays keep their length *)
Lemma tabR_length n f v : tabR n f = Ok v -> length v = n.
Proof.
  unfold tabR. intros H. rewrite <- (seq_length n 0). revert v H. generalize (seq 0 n). induction l as [|b l IH]; intros v H; cbn [seqR] in H; [apply Ok_inj in H; subst; reflexivity|].
  destruct (f b) as [x|]; [|discriminate]. cbn [bindR] in H. destruct (seqR f l) as [w|]; [|discriminate]. cbn [bindR] in H. apply Ok_inj in H. subst v. cbn [length]. f_equal. apply IH. reflexivity.
Qed.
Lemma bind_inv {B D} (r : Res B) (K : B -> Res D) w : bindR r K = Ok w -> exists v, r = Ok v /\ K v = Ok w.
Proof. destruct r as [v|e]; intros H; [exists v; split; [reflexivity|exact H]|discriminate]. Qed.
Lemma update_length A n es h t y z : rk4_updateA A n es h t y = Ok z -> length (snd z) = n.
Proof.
  unfold rk4_updateA. intros H. repeat (apply bind_inv in H; destruct H as (? & ? & H)). apply Ok_inj in H. subst z. cbn [snd].
  match goal with E : laddA _ _ y _ = Ok ?x |- length ?x = n => exact (tabR_length _ _ _ E) end.
Qed.
Lemma steps_length A n es : forall k s s', rk4_stepsA A n es k s = Ok s' -> length (rf_y s) = n -> length (rf_y s') = n.
Proof.
  induction k as [|k IH]; intros s s' H L; cbn [rk4_stepsA] in H; [apply Ok_inj in H; subst s'; exact L|].
  apply bind_inv in H. destruct H as (r & E & H). apply (IH _ _ H). unfold rk4_stepA in E. destruct (_ || _)%bool; [apply Ok_inj in E; subst r; exact L|].
  apply bind_inv in E. destruct E as (z & Ez & E). apply Ok_inj in E. subst r. cbn [fst rf_y]. apply (update_length _ _ _ _ _ _ _ Ez).
Qed.
