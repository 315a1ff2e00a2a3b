(** RK4naive (src/einsteinpy/integrators/runge_kutta.py:7-56) in floating point with an arbitrary callable fun(t, y): the results of FloatRK2.v for
    right-hand sides that follow a list of programs up to rounding, not only for programs themselves.
    The callable may use more than arithmetic (numpy.linalg.inv): its environment is an element of E, [ari] its arithmetic. *)
From Coq Require Import Reals List ZArith Lra Lia Bool.
From Coquelicot Require Import Coquelicot.
From Verif Require Import Base Calc DualModel DualSpec DualProofs DualDiff GeoUtilsModel GeoUtilsSpec GeoUtilsProofs FantasyModel FantasyHam ProgCont FantasyOrder FantasyGlobal FantasyGlobal2 FantasyGlobal3
  RKModel RKProofs RKOrder RKOrder2 RKGlobal RKGlobal2 RKProg FloatModel FloatExact FloatTrack FloatGlobal FloatTraj FloatRK FloatRK2.
Import ListNotations.
Open Scope R_scope.

Section Callable.
Variables (A : arith) (n : nat) (f : R -> list R -> Res (list R)).
(** runge_kutta.py:47-56 *)
Definition rk4_updateF (h t : R) (y : list R) : Res (R * list R) :=
  let* k0 := f t y in
  let* h2 := a_div A h 2 in let* t2 := a_add A t h2 in
  let* x := lscalA A n h2 k0 in let* y1 := laddA A n y x in let* k1 := f t2 y1 in
  let* x := lscalA A n h2 k1 in let* y2 := laddA A n y x in let* k2 := f t2 y2 in
  let* t3 := a_add A t h in let* x := lscalA A n h k2 in let* y3 := laddA A n y x in let* k3 := f t3 y3 in
  let* h6 := a_div A h 6 in
  let* a := lscalA A n 2 k1 in let* s := laddA A n k0 a in
  let* b := lscalA A n 2 k2 in let* s := laddA A n s b in let* s := laddA A n s k3 in
  let* x := lscalA A n h6 s in let* y' := laddA A n y x in
  let* t' := a_add A t h in Ok (t', y').
(** runge_kutta.py:38-56, with the guard of lines 42-44 *)
Definition rk4_stepF (s : rk4f) : Res (rk4f * bool) :=
  if ((Rgeb (rf_t s) (rf_bound s) && Z.eqb (rf_dir s) 1) || (Rgeb (rf_bound s) (rf_t s) && Z.eqb (rf_dir s) (-1)))%bool then Ok (s, true)
  else let* z := rk4_updateF (rf_h s) (rf_t s) (rf_y s) in Ok (mkrk4f (fst z) (snd z) (rf_bound s) (rf_h s) (rf_dir s), false).
Fixpoint rk4_stepsF (k : nat) (s : rk4f) : Res rk4f :=
  match k with O => Ok s | S k => let* r := rk4_stepF s in rk4_stepsF k (fst r) end.
End Callable.
(** the model of FloatRK.v is the case of a callable given by programs *)
Lemma steps_same A n es k s : rk4_stepsA A n es k s = rk4_stepsF A n (rhsA A n es) k s.
Proof. revert s. induction k as [|k IH]; intros s; [reflexivity|]. cbn [rk4_stepsA rk4_stepsF]. change (rk4_stepA A n es s) with (rk4_stepF A n (rhsA A n es) s). destruct (rk4_stepF A n (rhsA A n es) s) as [r|e]; [apply IH|reflexivity]. Qed.

(** fE follows the programs es up to a multiple of the unit roundoff, wherever they are defined: if inputs t', y' are near t, y with limits tl, yl, where es is
    defined, then the computation eventually succeeds and its result is near the value of es at t, y.  [good u e]: the environment e has unit roundoff u. *)
Definition follows {E : Type} (good : R -> E -> Prop) (n : nat) (es : nat -> pexpr) (fE : E -> R -> list R -> Res (list R)) : Prop :=
  forall (J : Type) (F : (J -> Prop) -> Prop) (FF : Filter F) (u : J -> R) (e : J -> E), F (fun j => 0 <= u j) -> filterlim u F (locally 0) -> F (fun j => good (u j) (e j)) ->
  forall t' t tl y' y yl, defined_for n es tl yl -> nr F u t' t tl -> nrL F u n y' y yl ->
  okT F (fun j => fE (e j) (t' j) (y' j)) (fun v => nrL F u n v (fun i j => program_rhs es (t j) (fun k => y k j) i) (fun i => program_rhs es tl yl i)).

Section Env.
Variables (E : Type) (ari : E -> arith) (good : R -> E -> Prop) (n : nat) (es : nat -> pexpr) (fE : E -> R -> list R -> Res (list R)).
Hypothesis Hgood : forall u e, good u e -> accurate u (ari e).
Hypothesis Hf : follows good n es fE.
Hypothesis Hes : system n es.
Notation updE e := (rk4_updateF (ari e) n (fE e)).
Notation stepsE e := (rk4_stepsF (ari e) n (fE e)).
Section Step.
Context {J : Type} (F : (J -> Prop) -> Prop) {FF : Filter F} (u : J -> R) (e : J -> E).
Hypothesis Hu0 : F (fun j => 0 <= u j).
Hypothesis Hu : filterlim u F (locally 0).
Hypothesis HE : F (fun j => good (u j) (e j)).
Let A (j : J) := ari (e j).
Lemma HA : F (fun j => accurate (u j) (A j)).
Proof. generalize HE. apply filter_imp. intros j. apply Hgood. Qed.
Notation nrF := (nr F u).
Notation nrLF := (nrL F u n).
Lemma update_ok h' h hl t' t tl y' y yl : def_rk4 n es hl tl yl -> nrF h' h hl -> nrF t' t tl -> nrLF y' y yl ->
  okT F (fun j => updE (e j) (h' j) (t' j) (y' j)) (fun z =>
    nrF (fun j => fst (z j)) (fun j => t j + h j) (tl + hl) /\
    nrLF (fun j => snd (z j)) (fun i j => classical_rk4 (program_rhs es) (h j) (t j) (fun k => y k j) i) (classical_rk4 (program_rhs es) hl tl yl)).
Proof.
  intros (D0 & D1 & D2 & D3) Hh Ht Hy. unfold rk4_updateF. fold A. change (fun j => ari (e j)) with A.
  assert (C : forall c, nrF (fun _ => c) (fun _ => c) c) by (intros c; apply nr_const; exact FF).
  eapply (okT_bind F); [apply (Hf J F FF u e Hu0 Hu HE _ _ _ _ _ _ D0 Ht Hy)|]. intros k0 N0. cbn beta.
  eapply (okT_bind F); [apply (okto_div F u A Hu0 Hu HA _ _ _ (fun _ => 2) _ _ (Rgt_not_eq _ _ Rlt_0_2) Hh (C 2))|]. intros h2 Nh2. cbn beta.
  eapply (okT_bind F); [apply (okto_add F u A Hu0 Hu HA _ _ _ _ _ _ Ht Nh2)|]. intros t2 Nt2. cbn beta.
  eapply (okT_bind F); [apply (lscal_ok F u A Hu0 Hu HA n _ _ _ _ _ _ Nh2 N0)|]. intros x0 Nx0. cbn beta.
  eapply (okT_bind F); [apply (ladd_ok F u A Hu0 Hu HA n _ _ _ _ _ _ Hy Nx0)|]. intros y1 Ny1. cbn beta.
  eapply (okT_bind F); [apply (Hf J F FF u e Hu0 Hu HE _ _ _ _ _ _ D1 Nt2 Ny1)|]. intros k1 N1. cbn beta.
  eapply (okT_bind F); [apply (lscal_ok F u A Hu0 Hu HA n _ _ _ _ _ _ Nh2 N1)|]. intros x1 Nx1. cbn beta.
  eapply (okT_bind F); [apply (ladd_ok F u A Hu0 Hu HA n _ _ _ _ _ _ Hy Nx1)|]. intros y2 Ny2. cbn beta.
  eapply (okT_bind F); [apply (Hf J F FF u e Hu0 Hu HE _ _ _ _ _ _ D2 Nt2 Ny2)|]. intros k2 N2. cbn beta.
  eapply (okT_bind F); [apply (okto_add F u A Hu0 Hu HA _ _ _ _ _ _ Ht Hh)|]. intros t3 Nt3. cbn beta.
  eapply (okT_bind F); [apply (lscal_ok F u A Hu0 Hu HA n _ _ _ _ _ _ Hh N2)|]. intros x2 Nx2. cbn beta.
  eapply (okT_bind F); [apply (ladd_ok F u A Hu0 Hu HA n _ _ _ _ _ _ Hy Nx2)|]. intros y3 Ny3. cbn beta.
  eapply (okT_bind F); [apply (Hf J F FF u e Hu0 Hu HE _ _ _ _ _ _ D3 Nt3 Ny3)|]. intros k3 N3. cbn beta.
  assert (S6 : 6 <> 0) by lra.
  eapply (okT_bind F); [apply (okto_div F u A Hu0 Hu HA _ _ _ (fun _ => 6) _ _ S6 Hh (C 6))|]. intros h6 Nh6. cbn beta.
  eapply (okT_bind F); [apply (lscal_ok F u A Hu0 Hu HA n (fun _ => 2) _ _ _ _ _ (C 2) N1)|]. intros a Na. cbn beta.
  eapply (okT_bind F); [apply (ladd_ok F u A Hu0 Hu HA n _ _ _ _ _ _ N0 Na)|]. intros s1 Ns1. cbn beta.
  eapply (okT_bind F); [apply (lscal_ok F u A Hu0 Hu HA n (fun _ => 2) _ _ _ _ _ (C 2) N2)|]. intros b Nb. cbn beta.
  eapply (okT_bind F); [apply (ladd_ok F u A Hu0 Hu HA n _ _ _ _ _ _ Ns1 Nb)|]. intros s2 Ns2. cbn beta.
  eapply (okT_bind F); [apply (ladd_ok F u A Hu0 Hu HA n _ _ _ _ _ _ Ns2 N3)|]. intros s3 Ns3. cbn beta.
  eapply (okT_bind F); [apply (lscal_ok F u A Hu0 Hu HA n _ _ _ _ _ _ Nh6 Ns3)|]. intros x3 Nx3. cbn beta.
  eapply (okT_bind F); [apply (ladd_ok F u A Hu0 Hu HA n _ _ _ _ _ _ Hy Nx3)|]. intros y'' Ny''. cbn beta.
  eapply (okT_bind F); [apply (okto_add F u A Hu0 Hu HA _ _ _ _ _ _ Ht Hh)|]. intros t'' Nt''. cbn beta.
  apply (okT_ok F (fun j => (t'' j, y'' j))). cbn [fst snd]. split; [exact Nt''|]. exact Ny''.
Qed.
End Step.

(** ---- one floating-point step near the solution ---- *)
Record rix := mkrix { r_u : R; r_e : E; r_h : R; r_t : R; r_v : list R }.
Definition inR (n : nat) (z0 : nat -> R) (r : R) (j : rix) : Prop :=
  0 <= r_u j < r /\ good (r_u j) (r_e j) /\ Rabs (r_h j) < r /\ near (S n) r z0 (lpt (r_t j) (r_v j)).
Definition FR (n : nat) (z0 : nat -> R) (P : rix -> Prop) : Prop := exists r, 0 < r /\ forall j, inR n z0 r j -> P j.
Lemma inR_le m z0 r r' j : r <= r' -> inR m z0 r j -> inR m z0 r' j.
Proof. intros H (H1 & H2 & H3 & H4). split; [lra|]. split; [exact H2|]. split; [lra|]. eapply near_le; [exact H|exact H4]. Qed.
Local Instance FR_filter m z0 : Filter (FR m z0).
Proof.
  split.
  - exists 1. split; [lra|]. auto.
  - intros P Q (r1 & R1 & H1) (r2 & R2 & H2). exists (Rmin r1 r2). split; [apply Rmin_pos; assumption|]. intros j Hj.
    split; [apply H1; eapply inR_le; [apply Rmin_l|exact Hj]|apply H2; eapply inR_le; [apply Rmin_r|exact Hj]].
  - intros P Q H (r & Hr & HP). exists r. split; [exact Hr|]. intros j Hj. apply H, HP, Hj.
Qed.
Lemma update_track t0 y0 : defined_for n es t0 y0 ->
  exists r C, 0 < r /\ 0 <= C /\ forall u e h t v, 0 <= u < r -> good u e -> Rabs h < r -> near (S n) r (point t0 y0) (lpt t v) ->
  exists z, updE e h t v = Ok z /\ forall i, (i < S n)%nat -> Rabs (lpt (fst z) (snd z) i - classical_rk4 (program_rhs (aut es)) h t (lpt t v) i) <= C * u.
Proof.
  intros Hd. set (z0 := point t0 y0).
  assert (U0 : FR n z0 (fun j => 0 <= r_u j)) by (exists 1; split; [lra|]; intros j Hj; apply Hj).
  assert (U : filterlim r_u (FR n z0) (locally 0)).
  { intros P [e HP]. exists e. split; [apply cond_pos|]. intros j Hj. apply HP. destruct Hj as ((H1 & H2) & _). unfold ball; cbn; unfold AbsRing_ball, abs, minus, plus, opp; cbn. rewrite Ropp_0, Rplus_0_r, Rabs_right by lra. exact H2. }
  assert (UA : FR n z0 (fun j => good (r_u j) (r_e j))) by (exists 1; split; [lra|]; intros j Hj; apply Hj).
  assert (Nh : nr (FR n z0) r_u r_h r_h 0).
  { apply nr_self; [apply FR_filter|]. intros P [e HP]. exists e. split; [apply cond_pos|]. intros j (_ & _ & H & _). apply HP. unfold ball; cbn; unfold AbsRing_ball, abs, minus, plus, opp; cbn. rewrite Ropp_0, Rplus_0_r. exact H. }
  assert (Nz : forall i, (i < S n)%nat -> nr (FR n z0) r_u (fun j => lpt (r_t j) (r_v j) i) (fun j => lpt (r_t j) (r_v j) i) (z0 i)).
  { intros i Hi. apply nr_self; [apply FR_filter|]. intros P [e HP]. exists e. split; [apply cond_pos|]. intros j (_ & _ & _ & H). apply HP. exact (H i Hi). }
  assert (Dd : def_rk4 n es 0 t0 y0).
  { assert (X : forall a (k : Y) b, a = 0 -> b = 0 -> defined_for n es (t0 + b) (fun i => y0 i + a * k i)).
    { intros a k b -> -> i Hi. generalize (Hd i Hi). apply defined_ext. intros [|m]; cbn [point]; ring. }
    split; [exact Hd|]. split; [|split]; apply X; field. }
  destruct (update_ok (FR n z0) r_u r_e U0 U UA r_h r_h 0 r_t r_t t0 r_v (fun i j => nth i (r_v j) 0) y0 Dd Nh (Nz 0%nat ltac:(lia))) as (z & Ez0 & N1 & N2).
  { intros i Hi. exact (Nz (S i) ltac:(lia)). }
  destruct (uniform_below (fun i r C => forall j, inR n z0 r j -> Rabs (lpt (fst (z j)) (snd (z j)) i - classical_rk4 (program_rhs (aut es)) (r_h j) (r_t j) (lpt (r_t j) (r_v j)) i) <= C * r_u j) (S n)) as (r1 & C & R1 & HC & H).
  { intros k r r' M M' _ H Hr HM j Hj. eapply Rle_trans; [apply H; eapply inR_le; [exact Hr|exact Hj]|]. apply Rmult_le_compat_r; [apply Hj|exact HM]. }
  { intros [|i] Hi.
    - destruct N1 as [_ (C & HC & (r & Hr & K))]. exists r, C. split; [exact Hr|]. split; [exact HC|]. intros j Hj. rewrite aut_step. exact (K j Hj).
    - destruct (N2 i ltac:(lia)) as [_ (C & HC & (r & Hr & K))]. exists r, C. split; [exact Hr|]. split; [exact HC|]. intros j Hj. rewrite aut_step. exact (K j Hj). }
  destruct Ez0 as (r2 & R2 & Ez0). exists (Rmin r1 r2), C. split; [apply Rmin_pos; assumption|]. split; [exact HC|]. intros u e h t v Hu HA Hh Hz.
  assert (Q : inR n z0 (Rmin r1 r2) (mkrix u e h t v)) by (repeat (split; [assumption|]); assumption).
  exists (z (mkrix u e h t v)). split; [apply (Ez0 _ (inR_le _ _ _ _ _ (Rmin_r _ _) Q))|]. intros i Hi. apply (H i Hi _ (inR_le _ _ _ _ _ (Rmin_l _ _) Q)).
Qed.
Definition rk_track (Z : R -> nat -> R) (rho C t0 : R) : Prop :=
  forall u e h t v, 0 <= u < rho -> good u e -> Rabs h < rho -> near (S n) rho (Z t0) (lpt t v) ->
  exists z, updE e h t v = Ok z /\ forall i, (i < S n)%nat -> Rabs (lpt (fst z) (snd z) i - classical_rk4 (program_rhs (aut es)) h t (lpt t v) i) <= C * u.
Lemma rk_track_le Z rho C t rho' C' : rk_track Z rho C t -> rho' <= rho -> C <= C' -> rk_track Z rho' C' t.
Proof.
  intros H H1 H2 u e h t' v Hu HA Hh Hv. destruct (H u e h t' v ltac:(lra) HA ltac:(lra) (near_le _ _ _ _ _ H1 Hv)) as (z & Ez0 & W). exists z. split; [exact Ez0|].
  intros i Hi. eapply Rle_trans; [apply W; exact Hi|]. apply Rmult_le_compat_r; [apply Hu|exact H2].
Qed.
Lemma rk_track_near (y : R -> Y) x : defined_for n es x (y x) -> solves_near n (program_rhs es) y x ->
  exists rho C, 0 < rho /\ 0 <= C /\ forall t, Rabs (t - x) < rho -> rk_track (fun t => point t (y t)) rho C t.
Proof.
  intros Hd Hy. destruct (update_track x (y x) Hd) as (r & C & Hr & HC & H).
  assert (Hs' := aut_system n es Hes). assert (Hd' : defined_for (S n) (aut es) x (point x (y x))) by (apply aut_defined; exact Hd).
  assert (Sm := program_solution (S n) (aut es) (fun t => point t (y t)) x Hs' Hd' (aut_solution n es y x Hy)).
  destruct (solution_near _ _ _ x (r / 2) Sm ltac:(lra)) as (d & Pd & K).
  set (rho := Rmin d (r / 2)). assert (P : 0 < rho) by (apply Rmin_pos; lra). assert (P1 : rho <= d) by apply Rmin_l. assert (P2 : rho <= r / 2) by apply Rmin_r. clearbody rho.
  exists rho, C. split; [exact P|]. split; [exact HC|]. intros t Ht u e h t' v Hu HA Hh Hv. apply H; [lra|exact HA|lra|].
  intros i Hi. assert (Q1 := Hv i Hi). assert (Q2 := K t ltac:(lra) i Hi). cbv beta in Q2. apply Rabs_def2 in Q1. apply Rabs_def2 in Q2. apply Rabs_def1; lra.
Qed.
Lemma rk_track_compact Z a b : a <= b ->
  (forall x, a <= x <= b -> exists rho C, 0 < rho /\ 0 <= C /\ forall t, Rabs (t - x) < rho -> rk_track Z rho C t) ->
  exists rho C, 0 < rho /\ 0 <= C /\ forall t, a <= t <= b -> rk_track Z rho C t.
Proof.
  intros Hab Hloc. apply (real_induction (fun x y => exists rho C, 0 < rho /\ 0 <= C /\ forall t, x <= t <= y -> rk_track Z rho C t) a b Hab).
  - intros x y x' y' (rho & C & A & B & D) H1 H2. exists rho, C. repeat (split; [assumption|]). intros t Ht. apply D. lra.
  - intros x y z Hy (rho & C & A & B & D) (rho' & C' & A' & B' & D').
    exists (Rmin rho rho'), (Rmax C C'). split; [apply Rmin_pos; assumption|]. split; [eapply Rle_trans; [exact B|apply Rmax_l]|].
    intros t Ht. destruct (Rle_dec t y) as [K|K].
    + eapply rk_track_le; [apply D; lra|apply Rmin_l|apply Rmax_l].
    + eapply rk_track_le; [apply D'; lra|apply Rmin_r|apply Rmax_r].
  - intros x Hx. destruct (Hloc x Hx) as (rho & C & A & B & D). exists (rho / 2). split; [lra|]. exists rho, C. repeat (split; [assumption|]). intros t Ht. apply D. apply Rabs_def1; lra.
Qed.

(** ---- accumulation ---- *)
Lemma stepF_dir e s : rf_dir s = 0%Z -> rk4_stepF (ari e) n (fE e) s = bindR (updE e (rf_h s) (rf_t s) (rf_y s)) (fun z => Ok (mkrk4f (fst z) (snd z) (rf_bound s) (rf_h s) (rf_dir s), false)).
Proof. intros H. unfold rk4_stepF. rewrite H. cbn [Z.eqb]. rewrite !andb_false_r. reflexivity. Qed.
Lemma rk_accumulate (y : R -> Y) t0 T rho M L C : T <> 0 -> 0 < rho -> 0 <= M -> 0 <= L -> 0 <= C ->
  let Z := fun t => point t (y t) in
  (forall t, Rmin t0 (t0 + T) <= t <= Rmax t0 (t0 + T) -> rk_good (S n) (program_rhs (aut es)) Z rho M L t) ->
  (forall t, Rmin t0 (t0 + T) <= t <= Rmax t0 (t0 + T) -> rk_track Z rho C t) ->
  forall u e, 0 <= u < rho -> good u e -> forall h N e0 s0, 0 < h * T -> Rabs h < rho -> INR N * Rabs h <= Rabs T -> 0 <= e0 ->
  rf_dir s0 = 0%Z -> rf_h s0 = h -> (forall i, (i < S n)%nat -> Rabs (lpt (rf_t s0) (rf_y s0) i - Z t0 i) <= e0) ->
  (e0 + Rabs T * (M * Rabs h ^ 4 + C * (u / Rabs h))) * exp (L * Rabs T) < rho ->
  forall k, (k <= N)%nat -> exists s, stepsE e k s0 = Ok s /\
    forall i, (i < S n)%nat -> Rabs (lpt (rf_t s) (rf_y s) i - Z (t0 + INR k * h) i) <= (e0 + Rabs T * (M * Rabs h ^ 4 + C * (u / Rabs h))) * exp (L * Rabs T).
Proof.
  intros HT Hr HM HL HC Z HG HK u e Hu HA h N e0 s0 HhT Hh HN He0 Hdir Hrh Hs0 HB.
  set (a := Rabs h) in *. set (Er := M * a ^ 4 + C * (u / a)) in *. set (T' := Rabs T) in *. set (B := (e0 + T' * Er) * exp (L * T')) in *.
  assert (h0 : h <> 0) by (intros ->; rewrite Rmult_0_l in HhT; lra). assert (Pa : 0 < a) by (apply Rabs_pos_lt; exact h0). assert (PT : 0 < T') by (apply Rabs_pos_lt; exact HT).
  assert (PE : 0 <= Er). { unfold Er. apply Rplus_le_le_0_compat; apply Rmult_le_pos; try assumption; [apply pow_le; lra|]. apply Rmult_le_pos; [apply Hu|apply Rlt_le, Rinv_0_lt_compat; exact Pa]. }
  assert (hN : forall k, (k <= N)%nat -> 0 <= INR k * a <= T').
  { intros k Hk. assert (P := pos_INR k). split; [apply Rmult_le_pos; lra|]. apply le_INR in Hk. eapply Rle_trans; [|exact HN]. apply Rmult_le_compat_r; lra. }
  assert (tN : forall k, (k <= N)%nat -> Rmin t0 (t0 + T) <= t0 + INR k * h <= Rmax t0 (t0 + T)).
  { intros k Hk. assert (Q := hN k Hk). unfold a, T' in Q. destruct (Rlt_dec 0 T) as [PT'|PT'].
    - assert (Ph : 0 < h) by nra. rewrite (Rabs_right h), (Rabs_right T) in Q by lra. rewrite Rmin_left, Rmax_right by lra. lra.
    - assert (Ph : h < 0) by nra. rewrite (Rabs_left h), (Rabs_left T) in Q by lra. rewrite Rmin_right, Rmax_left by lra. lra. }
  set (err := fun k : nat => (e0 + INR k * a * Er) * (1 + L * a) ^ k).
  assert (Lh : 0 <= L * a) by (apply Rmult_le_pos; lra).
  assert (EB : forall k, (k <= N)%nat -> 0 <= err k <= B).
  { intros k Hk. assert (Q := hN k Hk). assert (E1 : 1 <= (1 + L * a) ^ k) by (apply pow_R1_Rle; lra). assert (E2 := exp_pow_bound L a T' k HL (Rlt_le _ _ Pa) (proj2 Q)).
    assert (Q1 : 0 <= INR k * a * Er) by (apply Rmult_le_pos; lra). assert (Q2 : INR k * a * Er <= T' * Er) by (apply Rmult_le_compat_r; lra).
    unfold err, B. split; [apply Rmult_le_pos; lra|]. apply Rmult_le_compat; lra. }
  assert (ES : forall k, (1 + L * a) * err k + a * Er <= err (S k)).
  { intros k. unfold err. rewrite S_INR. cbn [pow]. assert (E1 : 1 <= (1 + L * a) ^ k) by (apply pow_R1_Rle; lra).
    assert (E2 : 1 <= (1 + L * a) * (1 + L * a) ^ k) by nra. assert (Q : 0 <= a * Er) by (apply Rmult_le_pos; lra).
    replace ((e0 + (INR k + 1) * a * Er) * ((1 + L * a) * (1 + L * a) ^ k)) with ((1 + L * a) * ((e0 + INR k * a * Er) * (1 + L * a) ^ k) + a * Er * ((1 + L * a) * (1 + L * a) ^ k)) by ring.
    apply Rplus_le_compat_l. rewrite <- (Rmult_1_r (a * Er)) at 1. apply Rmult_le_compat_l; assumption. }
  assert (K : forall m k s, (k + m <= N)%nat -> rf_dir s = 0%Z -> rf_h s = h -> (forall i, (i < S n)%nat -> Rabs (lpt (rf_t s) (rf_y s) i - Z (t0 + INR k * h) i) <= err k) ->
    exists s', stepsE e m s = Ok s' /\ forall i, (i < S n)%nat -> Rabs (lpt (rf_t s') (rf_y s') i - Z (t0 + INR (k + m) * h) i) <= err (k + m)%nat).
  { induction m as [|m IH]; intros k s Hk Hd Hh' Hs.
    - exists s. split; [reflexivity|]. rewrite Nat.add_0_r. exact Hs.
    - set (t := t0 + INR k * h) in *. assert (Ht := tN k ltac:(lia)). fold t in Ht. destruct (HG t Ht) as [G1 G2].
      assert (Ek := EB k ltac:(lia)). assert (Ny : near (S n) rho (Z t) (lpt (rf_t s) (rf_y s))) by (intros i Hi; eapply Rle_lt_trans; [apply Hs; exact Hi|lra]).
      destruct (HK t Ht u e h (rf_t s) (rf_y s) Hu HA Hh Ny) as (z & Ez & Wz).
      destruct (IH (S k) (mkrk4f (fst z) (snd z) (rf_bound s) h 0%Z) ltac:(lia) eq_refl eq_refl) as (s' & Es' & Ws').
      { intros i Hi. cbn [rf_t rf_y]. replace (t0 + INR (S k) * h) with (t + h) by (unfold t; rewrite S_INR; ring).
        assert (A1 := G1 h i Hh Hi). assert (A2 := G2 h _ _ Hh Ny (near_self _ _ (Z t) Hr) (err k) Hs i Hi). assert (A3 := Wz i Hi). fold a in A1, A2. eapply Rle_trans; [|apply ES].
        assert (I : classical_rk4 (program_rhs (aut es)) h (rf_t s) (lpt (rf_t s) (rf_y s)) i = classical_rk4 (program_rhs (aut es)) h t (lpt (rf_t s) (rf_y s)) i) by (rewrite !aut_step; reflexivity).
        rewrite I in A3. revert A1 A2 A3. generalize (classical_rk4 (program_rhs (aut es)) h t (lpt (rf_t s) (rf_y s)) i) as x1, (classical_rk4 (program_rhs (aut es)) h t (Z t) i) as x2. intros x1 x2 A1 A2 A3.
        replace (lpt (fst z) (snd z) i - Z (t + h) i) with ((lpt (fst z) (snd z) i - x1) + ((x1 - x2) + (x2 - Z (t + h) i))) by ring.
        eapply Rle_trans; [apply Rabs_triang|]. assert (A4 := Rabs_triang (x1 - x2) (x2 - Z (t + h) i)).
        assert (EE : a * Er = M * a ^ 5 + C * u) by (unfold Er; cbn [pow]; field; lra). lra. }
      exists s'. split; [|replace (k + S m)%nat with (S k + m)%nat by lia; exact Ws'].
      cbn [rk4_stepsF]. rewrite (stepF_dir e s Hd), Hh', Ez, Hd. cbn [bindR fst]. exact Es'. }
  intros k Hk. destruct (K k 0%nat s0 ltac:(lia) Hdir Hrh) as (s & Es & Ws).
  { intros i Hi. unfold err. cbn [INR]. rewrite !Rmult_0_l, !Rplus_0_r. cbn [pow]. rewrite Rmult_1_r. apply Hs0. exact Hi. }
  exists s. split; [exact Es|]. intros i Hi. eapply Rle_trans; [apply Ws; exact Hi|]. apply EB. exact Hk.
Qed.
Theorem rk4_roundedF (y : R -> Y) t0 T : T <> 0 ->
  (forall t, Rmin t0 (t0 + T) <= t <= Rmax t0 (t0 + T) -> defined_for n es t (y t) /\ solves_near n (program_rhs es) y t) ->
  exists K r, 0 <= K /\ 0 < r /\ forall u e, 0 <= u -> good u e -> forall h N e0 t0' y0 tb, 0 < h * T -> Rabs h <= r -> INR N * Rabs h <= Rabs T ->
  Rabs (t0' - t0) <= e0 -> (forall i, (i < n)%nat -> Rabs (nth i y0 0 - y t0 i) <= e0) -> e0 + u / Rabs h <= r ->
  forall k, (k <= N)%nat -> exists s, stepsE e k (rk4_initA t0' y0 tb h) = Ok s /\
    Rabs (rf_t s - (t0 + INR k * h)) <= K * (e0 + Rabs h ^ 4 + u / Rabs h) /\
    forall i, (i < n)%nat -> Rabs (nth i (rf_y s) 0 - y (t0 + INR k * h) i) <= K * (e0 + Rabs h ^ 4 + u / Rabs h).
Proof.
  intros HT H. set (Z := fun t => point t (y t)). assert (PT : 0 < Rabs T) by (apply Rabs_pos_lt; exact HT). assert (Hab : Rmin t0 (t0 + T) <= Rmax t0 (t0 + T)) by (eapply Rle_trans; [apply Rmin_l|apply Rmax_l]).
  destruct (rk_good_compact (S n) (program_rhs (aut es)) Z _ _ Hab) as (rho1 & M & L & Hr1 & HM & HL & HG1).
  { intros x Hx. destruct (H x Hx) as [A B]. apply aut_good; assumption. }
  destruct (rk_track_compact Z _ _ Hab) as (rho2 & C & Hr2 & HC & HK2).
  { intros x Hx. destruct (H x Hx) as [A B]. apply rk_track_near; assumption. }
  set (rho := Rmin rho1 rho2). assert (Hr : 0 < rho) by (apply Rmin_pos; assumption).
  assert (HG : forall t, Rmin t0 (t0 + T) <= t <= Rmax t0 (t0 + T) -> rk_good (S n) (program_rhs (aut es)) Z rho M L t) by (intros t Ht; eapply rk_good_le; [apply HG1; exact Ht|apply Rmin_l|lra|lra]).
  assert (HK : forall t, Rmin t0 (t0 + T) <= t <= Rmax t0 (t0 + T) -> rk_track Z rho C t) by (intros t Ht; eapply rk_track_le; [apply HK2; exact Ht|apply Rmin_r|lra]). clearbody rho. clear HG1 HK2.
  set (T' := Rabs T) in *. set (X := exp (L * T')). assert (HX : 0 < X) by apply exp_pos. set (K := (1 + T' * (M + C)) * X).
  assert (PK : 0 < K) by (unfold K; apply Rmult_lt_0_compat; [|exact HX]; assert (0 <= T' * (M + C)) by (apply Rmult_le_pos; lra); lra).
  set (r := Rmin 1 (Rmin (rho / 2) (rho / (4 * K)))).
  assert (Pr : 0 < r) by (unfold r; repeat apply Rmin_pos; try lra; apply Rdiv_lt_0_compat; lra).
  assert (R1 : r <= 1) by apply Rmin_l. assert (R2 : r <= rho / 2) by (unfold r; eapply Rle_trans; [apply Rmin_r|apply Rmin_l]).
  assert (R3 : K * r <= rho / 4). { assert (Q : r <= rho / (4 * K)) by (unfold r; eapply Rle_trans; [apply Rmin_r|apply Rmin_r]). apply Rmult_le_compat_l with (r := K) in Q; [|lra]. replace (K * (rho / (4 * K))) with (rho / 4) in Q by (field; lra). exact Q. }
  clearbody r. exists K, r. split; [lra|]. split; [exact Pr|]. intros u e Hu0 HA h N e0 t0' y0 tb HhT Hh HNT H0 H1 He k Hk.
  set (a := Rabs h) in *. assert (h0 : h <> 0) by (intros ->; rewrite Rmult_0_l in HhT; lra). assert (Pa : 0 < a) by (apply Rabs_pos_lt; exact h0).
  assert (Puh : 0 <= u / a) by (apply Rmult_le_pos; [exact Hu0|apply Rlt_le, Rinv_0_lt_compat; lra]).
  assert (E0 : 0 <= e0) by (eapply Rle_trans; [apply Rabs_pos|exact H0]).
  assert (Hu : 0 <= u < rho). { split; [exact Hu0|]. apply Rle_lt_trans with (u / a * 1); [|lra]. replace u with (u / a * a) at 1 by (field; lra). apply Rmult_le_compat_l; lra. }
  assert (Hp0 : 0 <= a ^ 4) by (apply pow_le; lra).
  assert (Hp : a ^ 4 <= r). { change (a * a ^ 3 <= r). assert (Q : a ^ 3 <= 1) by (rewrite <- (pow1 3); apply pow_incr; lra). assert (Q0 : 0 <= a ^ 3) by (apply pow_le; lra). nra. }
  assert (BK : (e0 + T' * (M * a ^ 4 + C * (u / a))) * X <= K * (e0 + a ^ 4 + u / a)).
  { unfold K. rewrite Rmult_assoc, (Rmult_comm X), <- Rmult_assoc. apply Rmult_le_compat_r; [lra|].
    assert (Z1 : 0 <= T' * M) by (apply Rmult_le_pos; lra). assert (Z2 : 0 <= T' * C) by (apply Rmult_le_pos; lra).
    replace ((1 + T' * (M + C)) * (e0 + a ^ 4 + u / a)) with (e0 + (T' * M) * a ^ 4 + (T' * C) * (u / a) + (a ^ 4 + u / a + (T' * M) * (e0 + u / a) + (T' * C) * (e0 + a ^ 4))) by ring.
    assert (Z3 : 0 <= T' * M * (e0 + u / a)) by (apply Rmult_le_pos; lra). assert (Z4 : 0 <= T' * C * (e0 + a ^ 4)) by (apply Rmult_le_pos; lra). lra. }
  assert (BR : (e0 + T' * (M * a ^ 4 + C * (u / a))) * exp (L * T') < rho).
  { eapply Rle_lt_trans; [exact BK|]. apply Rle_lt_trans with (K * (2 * r)); [apply Rmult_le_compat_l; lra|]. lra. }
  destruct (rk_accumulate y t0 T rho M L C HT Hr HM HL HC HG HK u e Hu HA h N e0 (rk4_initA t0' y0 tb h) HhT ltac:(fold a; lra) HNT E0 (init_dir _ _ _ _) eq_refl) with (k := k) as (s & Es & Ws).
  { intros [|i] Hi; [exact H0|]. apply H1. lia. }
  { exact BR. }
  { exact Hk. }
  exists s. split; [exact Es|]. split; [eapply Rle_trans; [exact (Ws 0%nat ltac:(lia))|exact BK]|]. intros i Hi. eapply Rle_trans; [exact (Ws (S i) ltac:(lia))|exact BK].
Qed.

End Env.
