(** Floating-point runs against exact runs: whenever the exact model succeeds, so does the floating-point program for every small
    enough unit roundoff u, and the results differ by at most a constant times u. *)
From Coq Require Import String Reals List ZArith Lra Lia Bool.
From Coquelicot Require Import Coquelicot.
From Verif Require Import Base Calc DualModel DualSpec DualProofs DualDiff GeoUtilsModel GeoUtilsSpec GeoUtilsProofs GeodesicModel GeodesicProofs
  FantasyModel FantasyProofs FantasyProofs2 FantasyProofs3 FantasyHam ProgCont FantasyOrder FantasyGlobal2 FantasyGlobal3 FloatModel FloatExact FloatTrack FloatGlobal.
Import ListNotations.
Open Scope R_scope.

(** ---- indices: an arithmetic and float inputs e 0 .. e (n-1) within u of the exact inputs X ---- *)
Record inp := mkinp { i_u : R; i_A : arith; i_e : nat -> R }.
Definition inX (n : nat) (X : nat -> R) (r : R) (j : inp) : Prop :=
  0 <= i_u j < r /\ accurate (i_u j) (i_A j) /\ forall i, (i < n)%nat -> Rabs (i_e j i - X i) <= i_u j.
Definition FX (n : nat) (X : nat -> R) (P : inp -> Prop) : Prop := exists r, 0 < r /\ forall j, inX n X r j -> P j.
Lemma inX_le n X r r' j : r <= r' -> inX n X r j -> inX n X r' j.
Proof. intros H (H1 & H2 & H3). split; [lra|]. split; assumption. Qed.
Global Instance FX_filter n X : Filter (FX n X).
Proof.
  split.
  - exists 1. split; [lra|]. auto.
  - intros P Q (r1 & R1 & H1) (r2 & R2 & H2). exists (Rmin r1 r2). split; [apply Rmin_pos; assumption|]. intros j Hj.
    split; [apply H1; eapply inX_le; [apply Rmin_l|exact Hj]|apply H2; eapply inX_le; [apply Rmin_r|exact Hj]].
  - intros P Q H (r & Hr & HP). exists r. split; [exact Hr|]. intros j Hj. apply H, HP, Hj.
Qed.
Section FX.
Variables (n : nat) (X : nat -> R).
Let F := FX n X.
Lemma FX_u0 : F (fun j => 0 <= i_u j).
Proof. exists 1. split; [lra|]. intros j Hj. apply Hj. Qed.
Lemma FX_u : filterlim i_u F (locally 0).
Proof.
  intros P [e HP]. exists e. split; [apply cond_pos|]. intros j Hj. apply HP. destruct Hj as ((H1 & H2) & _). unfold ball; cbn; unfold AbsRing_ball, abs, minus, plus, opp; cbn.
  rewrite Ropp_0, Rplus_0_r, Rabs_right by lra. exact H2.
Qed.
Lemma FX_A : F (fun j => accurate (i_u j) (i_A j)).
Proof. exists 1. split; [lra|]. intros j Hj. apply Hj. Qed.
Lemma FX_e i : (i < n)%nat -> nr F i_u (fun j => i_e j i) (fun _ => X i) (X i).
Proof. intros Hi. split; [apply filterlim_const|]. exists 1. split; [lra|]. exists 1. split; [lra|]. intros j Hj. rewrite Rmult_1_l. apply Hj. exact Hi. Qed.
End FX.
Notation fnr n X := (nr (FX n X) i_u).
Notation fnrV n X := (nrV (FX n X) i_u).
Notation fnrM n X := (nrM (FX n X) i_u).
(** from "eventually" to explicit constants *)
Definition eventually_small (n : nat) (X : nat -> R) (P : R -> inp -> Prop) : Prop :=
  exists r C, 0 < r /\ 0 <= C /\ forall j, inX n X r j -> P (C * i_u j) j.
Lemma small_and n X (P Q : R -> inp -> Prop) : (forall a b j, a <= b -> P a j -> P b j) -> (forall a b j, a <= b -> Q a j -> Q b j) ->
  eventually_small n X P -> eventually_small n X Q -> eventually_small n X (fun e j => P e j /\ Q e j).
Proof.
  intros MP MQ (r1 & C1 & R1 & P1 & H1) (r2 & C2 & R2 & P2 & H2). exists (Rmin r1 r2), (C1 + C2). split; [apply Rmin_pos; assumption|]. split; [lra|]. intros j Hj.
  assert (U : 0 <= i_u j) by apply Hj. split.
  - eapply MP; [|apply H1; eapply inX_le; [apply Rmin_l|exact Hj]]. apply Rmult_le_compat_r; lra.
  - eapply MQ; [|apply H2; eapply inX_le; [apply Rmin_r|exact Hj]]. apply Rmult_le_compat_r; lra.
Qed.
Lemma small_nr n X v x l : fnr n X v x l -> eventually_small n X (fun e j => Rabs (v j - x j) <= e).
Proof. intros [_ (C & HC & (r & Hr & H))]. exists r, C. split; [exact Hr|]. split; [exact HC|]. exact H. Qed.
Lemma small_ev n X (P : inp -> Prop) : FX n X P -> eventually_small n X (fun _ j => P j).
Proof. intros (r & Hr & H). exists r, 0. split; [exact Hr|]. split; [lra|]. exact H. Qed.
Lemma small_nr_ev n X v x l (P : inp -> Prop) : fnr n X v x l -> FX n X P -> eventually_small n X (fun e j => Rabs (v j - x j) <= e /\ P j).
Proof. intros H1 H2. apply (small_and n X (fun e j => Rabs (v j - x j) <= e) (fun _ j => P j)); [intros; lra|intros; assumption|exact (small_nr n X v x l H1)|exact (small_ev n X P H2)]. Qed.
Lemma small_nr2 n X v x l v' x' l' : fnr n X v x l -> fnr n X v' x' l' -> eventually_small n X (fun e j => Rabs (v j - x j) <= e /\ Rabs (v' j - x' j) <= e).
Proof. intros H1 H2. apply (small_and n X (fun e j => Rabs (v j - x j) <= e) (fun e j => Rabs (v' j - x' j) <= e)); [intros; lra|intros; lra|exact (small_nr n X v x l H1)|exact (small_nr n X v' x' l' H2)]. Qed.
Lemma small_all n X (P : nat -> R -> inp -> Prop) m : (forall i a b j, a <= b -> P i a j -> P i b j) ->
  (forall i, (i < m)%nat -> eventually_small n X (P i)) -> eventually_small n X (fun e j => forall i, (i < m)%nat -> P i e j).
Proof.
  intros M. induction m as [|m IH]; intros H. { exists 1, 0. split; [lra|]. split; [lra|]. intros; lia. }
  destruct (small_and n X (fun e j => forall i, (i < m)%nat -> P i e j) (P m)) as (r & C & Hr & HC & K).
  - intros a b j Hab Q i Hi. eapply M; [exact Hab|apply Q; exact Hi].
  - apply M.
  - apply IH. intros i Hi. apply H. lia.
  - apply H. lia.
  - exists r, C. split; [exact Hr|]. split; [exact HC|]. intros j Hj i Hi. destruct (K j Hj) as [K1 K2]. destruct (Nat.eq_dec i m) as [-> |]; [exact K2|apply K1; lia].
Qed.
Lemma small_V n X v x l : fnrV n X v x l -> eventually_small n X (fun e j => forall i, (i < 4)%nat -> Rabs (q4nth (v j) i - q4nth (x j) i) <= e).
Proof.
  intros H. apply (small_all n X (fun i e j => Rabs (q4nth (v j) i - q4nth (x j) i) <= e)); [intros; lra|]. intros i Hi. apply (small_nr n X _ _ _ (H i Hi)).
Qed.
Lemma small_M n X v x l : fnrM n X v x l -> eventually_small n X (fun e j => forall i k, (i < 4)%nat -> (k < 4)%nat -> Rabs (mnth (v j) i k - mnth (x j) i k) <= e).
Proof.
  intros H. destruct (small_all n X (fun i e j => forall k, (k < 4)%nat -> Rabs (mnth (v j) i k - mnth (x j) i k) <= e) 4) as (r & C & Hr & HC & K).
  - intros i a b j Hab Q k Hk. specialize (Q k Hk). lra.
  - intros i Hi. apply (small_all n X (fun k e j => Rabs (mnth (v j) i k - mnth (x j) i k) <= e)); [intros; lra|]. intros k Hk. apply (small_nr n X _ _ _ (H i k Hi Hk)).
  - exists r, C. split; [exact Hr|]. split; [exact HC|]. intros j Hj i k Hi Hk. apply K; assumption.
Qed.

(** ---- programs, on floats and on DualNumbers ---- *)
Lemma program_rounded n e (X : nat -> R) : below n e = true -> defined_at X e ->
  exists r C, 0 < r /\ 0 <= C /\ forall u A x, 0 <= u < r -> accurate u A -> (forall i, (i < n)%nat -> Rabs (x i - X i) <= u) ->
  exists v, runA A (fun i => PF (x i)) e = Ok (PF v) /\ Rabs (v - meaning X e) <= C * u.
Proof.
  intros Hb Hd. destruct (run_ok (FX n X) i_u i_A (FX_u0 n X) (FX_u n X) (FX_A n X) false n 0 (fun i j => i_e j i) (fun i _ => X i) X (FX_e n X) e Hb Hd) as (w & E & v & Ew & N & _).
  destruct (small_nr_ev n X _ _ _ _ N E) as (r & C & Hr & HC & H).
  exists r, C. split; [exact Hr|]. split; [exact HC|]. intros u A x Hu HA Hx. destruct (H (mkinp u A x)) as [B Ev]; [split; [exact Hu|split; [exact HA|exact Hx]]|].
  cbn in B, Ev. exists (v (mkinp u A x)). split; [etransitivity; [exact Ev|rewrite Ew; reflexivity]|exact B].
Qed.
Lemma dual_rounded n e (X : nat -> R) k : below n e = true -> defined_at X e ->
  exists r C, 0 < r /\ 0 <= C /\ forall u A x, 0 <= u < r -> accurate u A -> (forall i, (i < n)%nat -> Rabs (x i - X i) <= u) ->
  exists w, runA A (fun i => PD (mkdual (x i) (if Nat.eqb i k then 1 else 0))) e = Ok w /\ Rabs (pval w - meaning X e) <= C * u /\ Rabs (pderiv w - meaning X (pd k e)) <= C * u.
Proof.
  intros Hb Hd. destruct (run_ok (FX n X) i_u i_A (FX_u0 n X) (FX_u n X) (FX_A n X) true n k (fun i j => i_e j i) (fun i _ => X i) X (FX_e n X) e Hb Hd) as (w & E & Hw).
  cbn [andb] in Hw. unfold der_of, der_at, val_of in Hw.
  assert (K : nr (FX n X) i_u (fun j => pval (w j)) (fun _ => meaning X e) (meaning X e) /\ nr (FX n X) i_u (fun j => pderiv (w j)) (fun _ => meaning X (pd k e)) (meaning X (pd k e))).
  { destruct (hasvar e); cbn [isP] in Hw.
    - destruct Hw as (v & d & Ew & N1 & N2). split; [revert N1|revert N2]; (apply nr_ext_all; [apply FX_filter|intros j; rewrite Ew; reflexivity|reflexivity]).
    - destruct Hw as (v & Ew & N1 & Z & Y). split; [revert N1; apply nr_ext_all; [apply FX_filter|intros j; rewrite Ew; reflexivity|reflexivity]|].
      rewrite Y. generalize (nr_const (FX n X) i_u 0). apply nr_ext_all; [apply FX_filter|intros j; rewrite Ew; reflexivity|reflexivity]. }
  destruct K as [K1 K2].
  destruct (small_nr2 n X _ _ _ _ _ _ K1 K2) as (r1 & C & R1 & HC & H).
  destruct E as (r2 & R2 & E).
  exists (Rmin r1 r2), C. split; [apply Rmin_pos; assumption|]. split; [exact HC|]. intros u A x Hu HA Hx.
  assert (J1 : inX n X (Rmin r1 r2) (mkinp u A x)) by (split; [exact Hu|split; [exact HA|exact Hx]]).
  destruct (H _ (inX_le _ _ _ _ _ (Rmin_l _ _) J1)) as [B1 B2]. exists (w (mkinp u A x)). split; [exact (E _ (inX_le _ _ _ _ _ (Rmin_r _ _) J1))|]. split; [exact B1|exact B2].
Qed.

(** ---- what a successful exact run says ---- *)
(** programs for which plain floating evaluation succeeds only where the program is defined: no fractional powers (0.0 ** 1.5 is 0
    but has no neighbourhood of definition) and no literal power 0 *)
Fixpoint no_root (e : pexpr) : bool :=
  match e with
  | EVar _ | EConst _ => true
  | EAdd a b | ESub a b | EMul a b | EDiv a b => no_root a && no_root b
  | EPow a n => negb (Z.eqb n 0) && no_root a
  | EPowR _ _ => false
  | ENeg a | ESin a | ECos a | ETan a | ELog a | EExp a => no_root a
  end.
Definition rational_metric (g : metricP) : Prop := forall i j, (i < 4)%nat -> (j < 4)%nat -> no_root (mnth g i j) = true.
Lemma plain_inv e (x : nat -> R) : no_root e = true -> forall v, runP (fun i => PF (x i)) e = Ok v -> defined_at x e /\ v = PF (meaning x e).
Proof.
  induction e; cbn [no_root runP defined_at meaning]; intros Hr v Hv; try (apply andb_prop in Hr as [Hr1 Hr2]).
  1-2: apply Ok_inj in Hv; subst; split; [exact I|reflexivity].
  1-4: destruct (runP _ e1) as [v1|] eqn:E1; [|discriminate]; destruct (runP _ e2) as [v2|] eqn:E2; [|discriminate]; cbn [bindR] in Hv;
    destruct (IHe1 Hr1 _ eq_refl) as [D1 ->], (IHe2 Hr2 _ eq_refl) as [D2 ->]; cbn in Hv.
  1-3: apply Ok_inj in Hv; subst; split; [split; assumption|reflexivity].
  - unfold fdiv in Hv. destruct (Req_EM_T (meaning x e2) 0) as [Z|Z]; [discriminate|]. cbn in Hv. apply Ok_inj in Hv. subst. split; [repeat split; assumption|reflexivity].
  - destruct (runP _ e) as [v1|] eqn:E1; [|discriminate]. destruct (IHe Hr _ eq_refl) as [D1 ->]. cbn in Hv. apply Ok_inj in Hv; subst. split; [exact D1|reflexivity].
  - destruct (runP _ e) as [v1|] eqn:E1; [|discriminate]. destruct (IHe Hr2 _ eq_refl) as [D1 ->]. cbn in Hv. unfold fpowZ in Hv. apply negb_true_iff, Z.eqb_neq in Hr1.
    destruct (Req_EM_T (meaning x e) 0) as [Z|Z]; [destruct (Z.ltb n 0) eqn:L; [discriminate|apply Z.ltb_ge in L]|]; cbn in Hv; apply Ok_inj in Hv; subst; (split; [split; [exact D1|]|reflexivity]).
    + left. lia.
    + right. exact Z.
  - discriminate.
  - destruct (runP _ e) as [v1|] eqn:E1; [|discriminate]. destruct (IHe Hr _ eq_refl) as [D1 ->]. cbn in Hv. apply Ok_inj in Hv; subst. split; [exact D1|reflexivity].
  - destruct (runP _ e) as [v1|] eqn:E1; [|discriminate]. destruct (IHe Hr _ eq_refl) as [D1 ->]. cbn in Hv. apply Ok_inj in Hv; subst. split; [exact D1|reflexivity].
  - destruct (runP _ e) as [v1|] eqn:E1; [|discriminate]. destruct (IHe Hr _ eq_refl) as [D1 ->]. cbn in Hv. unfold fdiv in Hv. destruct (Req_EM_T (cos (meaning x e)) 0) as [Z|Z]; [discriminate|]. cbn in Hv. apply Ok_inj in Hv; subst. split; [split; assumption|reflexivity].
  - destruct (runP _ e) as [v1|] eqn:E1; [|discriminate]. destruct (IHe Hr _ eq_refl) as [D1 ->]. cbn in Hv. unfold flog in Hv. destruct (Rlt_dec 0 (meaning x e)) as [Z|Z]; [|discriminate]. cbn in Hv. apply Ok_inj in Hv; subst. split; [split; assumption|reflexivity].
  - destruct (runP _ e) as [v1|] eqn:E1; [|discriminate]. destruct (IHe Hr _ eq_refl) as [D1 ->]. cbn in Hv. apply Ok_inj in Hv; subst. split; [exact D1|reflexivity].
Qed.
Lemma q4seq_inv {B D} (f : B -> Res D) v w : q4seq (q4map f v) = Ok w -> forall i, (i < 4)%nat -> f (q4nth v i) = Ok (q4nth w i).
Proof.
  unfold q4seq, q4map. cbn [c0 c1 c2 c3]. destruct (f (c0 v)) eqn:E0; [|discriminate]. cbn [bindR]. destruct (f (c1 v)) eqn:E1; [|discriminate]. cbn [bindR].
  destruct (f (c2 v)) eqn:E2; [|discriminate]. cbn [bindR]. destruct (f (c3 v)) eqn:E3; [|discriminate]. cbn [bindR]. intros H. apply Ok_inj in H. subst w.
  intros [|[|[|[|i]]]] Hi; [assumption..|lia].
Qed.
Lemma metric_at_inv g q m : rational_metric g -> metric_at g q = Ok m -> metric_defined g (q4nth q).
Proof.
  intros Hg H i j Hi Hj. unfold metric_at in H. destruct (run_metric g _) as [m0|] eqn:E; [|discriminate]. clear H m. unfold run_metric in E.
  assert (E1 := q4seq_inv _ _ _ E i Hi). cbn beta in E1. assert (E2 := q4seq_inv _ _ _ E1 j Hj).
  apply (plain_inv (mnth g i j) (q4nth q) (Hg i j Hi Hj) _ E2).
Qed.
(** the exact values of the tracked maps: a one-point index *)
Definition FU (P : unit -> Prop) : Prop := P tt.
Global Instance FU_filter : Filter FU.
Proof. split; unfold FU; auto. Qed.
Lemma FU_nr x : nr FU (fun _ => 0) (fun _ => x) (fun _ => x) x.
Proof. apply nr_const. apply FU_filter. Qed.
Lemma Tmap_exact (fA : arith -> R -> state -> Res state) f D d s :
  Tmap FU (fun _ => 0) (fun _ => exact) fA f D -> D d s -> fA exact d s = Ok (f d s).
Proof.
  intros H Hd. destruct (H (fun _ => d) (fun _ => d) d (fun _ => s) (fun _ => s) s Hd (FU_nr d)) as (v & E & N). { intros i k _ _. apply FU_nr. }
  unfold evok, FU in E. rewrite E. f_equal. apply state_ext. intros i Hi.
  assert (Hi1 : (i / 4 < 4)%nat) by (apply Nat.div_lt_upper_bound; lia). assert (Hk : (i mod 4 < 4)%nat) by (apply Nat.mod_upper_bound; lia).
  destruct (N (i / 4)%nat (i mod 4)%nat Hi1 Hk) as [_ (C & _ & B)]. unfold FU in B. rewrite Rmult_0_r in B. unfold mnth in B. unfold flat.
  apply Rminus_diag_uniq, Rabs_eq_0. apply Rle_antisym; [exact B|apply Rabs_pos].
Qed.
Lemma FU_hyps : FU (fun _ => 0 <= 0) /\ filterlim (fun _ : unit => 0) FU (locally 0) /\ FU (fun _ => accurate 0 exact).
Proof. split; [unfold FU; lra|]. split; [apply (filterlim_const 0)|]. exact exact_accurate. Qed.
Definition inverts (fA : arith -> R -> state -> Res state) (f : R -> state -> state) (D : R -> state -> Prop) : Prop :=
  forall d s y, fA exact d s = Ok y -> D d s /\ y = f d s.
Section Inv.
Variables (g : metricP) (Hwf : well_formed g) (Hg : rational_metric g).
Lemma A_inv : inverts (fun A => apply_AA A g) (mapA g) (fun _ s => metric_defined g (q4nth (q1 s))).
Proof.
  intros d s y H. destruct FU_hyps as (U1 & U2 & U3).
  assert (D : metric_defined g (q4nth (q1 s))).
  { revert H. unfold apply_AA. destruct (ham_gradA exact g (q1 s) (p2 s)); cbn [bindR]; [|discriminate]. destruct (vscalA exact d _); cbn [bindR]; [|discriminate]. destruct (vsubA exact _ _); cbn [bindR]; [|discriminate].
    rewrite metric_at_exact. destruct (metric_at g (q1 s)) as [m|] eqn:E; cbn [bindR]; [|discriminate]. intros _. apply (metric_at_inv g _ m Hg E). }
  split; [exact D|]. assert (E := Tmap_exact (fun A => apply_AA A g) (mapA g) _ d s (apply_A_ok FU (fun _ => 0) (fun _ => exact) U1 U2 U3 g Hwf) D). rewrite E in H. apply Ok_inj in H. symmetry. exact H.
Qed.
Lemma B_inv : inverts (fun A => apply_BA A g) (mapB g) (fun _ s => metric_defined g (q4nth (q2 s))).
Proof.
  intros d s y H. destruct FU_hyps as (U1 & U2 & U3).
  assert (D : metric_defined g (q4nth (q2 s))).
  { revert H. unfold apply_BA. destruct (ham_gradA exact g (q2 s) (p1 s)); cbn [bindR]; [|discriminate]. destruct (vscalA exact d _); cbn [bindR]; [|discriminate]. destruct (vsubA exact _ _); cbn [bindR]; [|discriminate].
    rewrite metric_at_exact. destruct (metric_at g (q2 s)) as [m|] eqn:E; cbn [bindR]; [|discriminate]. intros _. apply (metric_at_inv g _ m Hg E). }
  split; [exact D|]. assert (E := Tmap_exact (fun A => apply_BA A g) (mapB g) _ d s (apply_B_ok FU (fun _ => 0) (fun _ => exact) U1 U2 U3 g Hwf) D). rewrite E in H. apply Ok_inj in H. symmetry. exact H.
Qed.
Lemma ord2_inv w : inverts (fun A => ord_2A A g w) (map2 g w) (def2 g w).
Proof.
  intros d s y. unfold ord_2A. cbn [exact a_mul bindR]. fold exact.
  destruct (apply_AA exact g (/ 2 * d) s) as [s1|] eqn:E1; cbn [bindR]; [|discriminate]. apply A_inv in E1 as [D1 ->].
  destruct (apply_BA exact g (/ 2 * d) _) as [s2|] eqn:E2; cbn [bindR]; [|discriminate]. apply B_inv in E2 as [D2 ->].
  rewrite flow_mixed_exact. cbn [bindR].
  destruct (apply_BA exact g (/ 2 * d) (flow_mixed _ _ _)) as [s4|] eqn:E4; cbn [bindR]; [|discriminate]. apply B_inv in E4 as [D4 ->].
  intros E5. apply A_inv in E5 as [D5 ->]. split; [|reflexivity]. unfold def2. cbv zeta. tauto.
Qed.
Lemma triple_inv order fA f D : (2 < order)%nat -> inverts fA f D -> inverts (fun A => tripleA A order (fA A)) (map3 order f) (def3 order f D).
Proof.
  intros Ho HI d s y. unfold tripleA. rewrite Z01_exact by exact Ho. cbn [bindR exact a_mul]. fold exact.
  destruct (fA exact _ s) as [s1|] eqn:E1; cbn [bindR]; [|discriminate]. apply HI in E1 as [D1 ->].
  destruct (fA exact _ (f _ s)) as [s2|] eqn:E2; cbn [bindR]; [|discriminate]. apply HI in E2 as [D2 ->]. intros E3. apply HI in E3 as [D3 ->].
  split; [|reflexivity]. unfold def3. cbv zeta. tauto.
Qed.
Lemma step_inv order w : (order = 2 \/ order = 4 \/ order = 6 \/ order = 8)%nat -> inverts (fun A => stepA A order g w) (mapN order g w) (defN order g w).
Proof.
  assert (I2 := ord2_inv w). assert (I4 : forall o, (2 < o)%nat -> inverts (fun A => tripleA A o (ord_2A A g w)) (map3 o (map2 g w)) (def3 o (map2 g w) (def2 g w))) by (intros o Ho; apply (triple_inv o (fun A => ord_2A A g w)); assumption).
  intros [-> |[-> |[-> | ->]]].
  - exact I2.
  - apply (I4 4%nat). lia.
  - apply (triple_inv 6 (fun A => tripleA A 6 (ord_2A A g w))); [lia|]. apply I4; lia.
  - apply (triple_inv 8 (fun A => tripleA A 8 (tripleA A 8 (ord_2A A g w)))); [lia|]. apply (triple_inv 8 (fun A => tripleA A 8 (ord_2A A g w))); [lia|]. apply I4; lia.
Qed.
End Inv.

(** ---- lists of tracked values ---- *)
Section Lists.
Variables (n : nat) (X : nat -> R).
Inductive LT {B} (Q : (inp -> B) -> B -> Prop) : (inp -> list B) -> list B -> Prop :=
| LT_nil : LT Q (fun _ => []) []
| LT_cons v y vs ls : Q v y -> LT Q vs ls -> LT Q (fun j => v j :: vs j) (y :: ls).
Notation ok := (okT (FX n X)).
Lemma LT_map {B D} (Q : (inp -> B) -> B -> Prop) (Q' : (inp -> D) -> D -> Prop) f vs ls : (forall v y, Q v y -> Q' (fun j => f (v j)) (f y)) -> LT Q vs ls -> LT Q' (fun j => map f (vs j)) (map f ls).
Proof. intros H. induction 1 as [|v y vs ls Hv _ IH]; cbn [map]; constructor; auto. Qed.
Lemma LT_seqR {B D} (Q : (inp -> B) -> B -> Prop) (Q' : (inp -> D) -> D -> Prop) (fA : arith -> B -> Res D) f vs ls :
  (forall v y, Q v y -> ok (fun j => fA (i_A j) (v j)) (fun v' => Q' v' (f y))) -> LT Q vs ls -> ok (fun j => seqR (fA (i_A j)) (vs j)) (fun ws => LT Q' ws (map f ls)).
Proof.
  intros H. induction 1 as [|v y vs ls Hv _ IH]; cbn [map seqR].
  - apply (okT_ok (FX n X) (fun _ => [])). constructor.
  - eapply (okT_bind (FX n X)); [apply (H v y Hv)|]. intros v' Hv'. cbn beta. eapply (okT_bind (FX n X)); [exact IH|]. intros ws Hws. cbn beta. apply (okT_ok (FX n X) (fun j => v' j :: ws j)). constructor; assumption.
Qed.
Lemma LT_states g order w d d0 : well_formed g -> rational_metric g -> (order = 2 \/ order = 4 \/ order = 6 \/ order = 8)%nat -> fnr n X d (fun _ => d0) d0 ->
  forall m s l ls, fnrM n X s (fun _ => l) l -> statesA (fun y => stepA exact order g w d0 y) m l = Ok ls ->
  ok (fun j => statesA (fun y => stepA (i_A j) order g w (d j) y) m (s j)) (fun vs => LT (fun v y => fnrM n X v (fun _ => y) y) vs ls).
Proof.
  intros Hwf Hg Ho Hd. induction m as [|m IH]; intros s l ls Hs Hl; cbn [statesA] in *.
  - apply Ok_inj in Hl. subst ls. apply (okT_ok (FX n X) (fun _ => [])). constructor.
  - destruct (stepA exact order g w d0 l) as [l1|] eqn:E1; [|discriminate]. cbn [bindR] in Hl. destruct (statesA _ m l1) as [ls1|] eqn:E2; [|discriminate]. cbn [bindR] in Hl. apply Ok_inj in Hl. subst ls.
    apply (step_inv g Hwf Hg order w Ho) in E1 as [D1 ->].
    eapply (okT_bind (FX n X)); [apply (step_ok (FX n X) i_u i_A (FX_u0 n X) (FX_u n X) (FX_A n X) order g w Hwf Ho d (fun _ => d0) d0 s (fun _ => l) l D1 Hd Hs)|]. intros s1 Hs1. cbn beta.
    eapply (okT_bind (FX n X)); [apply (IH s1 _ ls1 Hs1 E2)|]. intros vs Hvs. cbn beta. apply (okT_ok (FX n X) (fun j => s1 j :: vs j)). constructor; assumption.
Qed.
Definition Qrow (v : inp -> row) (y : row) : Prop := fnrV n X (fun j => fst (v j)) (fun _ => fst y) (fst y) /\ fnrV n X (fun j => snd (v j)) (fun _ => snd y) (snd y).
Definition rows_close (e : R) (a b : list row) : Prop := length a = length b /\ forall k r1 r2, nth_error a k = Some r1 -> nth_error b k = Some r2 ->
  forall i, (i < 4)%nat -> Rabs (q4nth (fst r1) i - q4nth (fst r2) i) <= e /\ Rabs (q4nth (snd r1) i - q4nth (snd r2) i) <= e.
Lemma rows_close_le a b x y : a <= b -> rows_close a x y -> rows_close b x y.
Proof. intros H [L K]. split; [exact L|]. intros k r1 r2 H1 H2 i Hi. destruct (K k r1 r2 H1 H2 i Hi). split; lra. Qed.
Lemma LT_small vs ls : LT Qrow vs ls -> eventually_small n X (fun e j => rows_close e (vs j) ls).
Proof.
  induction 1 as [|v y vs ls [H1 H2] _ IH].
  - exists 1, 0. split; [lra|]. split; [lra|]. intros j _. split; [reflexivity|]. intros [|k] r1 r2 H1; discriminate.
  - destruct (small_and n X (fun e j => rows_close e (vs j) ls) (fun e j => forall i, (i < 4)%nat -> Rabs (q4nth (fst (v j)) i - q4nth (fst y) i) <= e /\ Rabs (q4nth (snd (v j)) i - q4nth (snd y) i) <= e)) as (r & C & Hr & HC & H).
    + intros a b j. apply rows_close_le.
    + intros a b j Hab Q i Hi. destruct (Q i Hi). split; lra.
    + exact IH.
    + apply (small_all n X (fun i e j => Rabs (q4nth (fst (v j)) i - q4nth (fst y) i) <= e /\ Rabs (q4nth (snd (v j)) i - q4nth (snd y) i) <= e)); [intros i a b j Hab [Q1 Q2]; split; lra|].
      intros i Hi. apply (small_nr2 n X _ _ _ _ _ _ (H1 i Hi) (H2 i Hi)).
    + exists r, C. split; [exact Hr|]. split; [exact HC|]. intros j Hj. destruct (H j Hj) as [[L K] K2]. split; [cbn; rewrite L; reflexivity|].
      intros [|k] r1 r2 E1 E2; cbn [nth_error] in E1, E2; [injection E1 as <-; injection E2 as <-; exact K2|apply (K k r1 r2 E1 E2)].
Qed.
(** ---- trajectories ---- *)
Lemma trajectory_ok g q0 p0 l0 m0 d d0 cart N order w rows : well_formed g -> rational_metric g ->
  fnrV n X q0 (fun _ => l0) l0 -> fnrV n X p0 (fun _ => m0) m0 -> fnr n X d (fun _ => d0) d0 ->
  trajectoryA exact g l0 m0 cart N d0 order w = Ok rows ->
  ok (fun j => trajectoryA (i_A j) g (q0 j) (p0 j) cart N (d j) order w) (fun vs => LT Qrow vs rows).
Proof.
  intros Hwf Hg Hq Hp Hd H.
  assert (Ho : (order = 2 \/ order = 4 \/ order = 6 \/ order = 8)%nat).
  { destruct order as [|[|[|[|[|[|[|[|[|o]]]]]]]]]; try discriminate H; auto. }
  assert (T : forall A q p d, trajectoryA A g q p cart N d order w = (let* l := statesA (fun y => stepA A order g w d y) N (mkQ4 q p q p) in
     match l with [] => Err IndexError | _ => let rows := map (fun s => (q1 s, p1 s)) l in if cart then seqR (fun r => let* x := to_cartesianA A (fst r) in Ok (x, snd r)) rows else Ok rows end)).
  { intros A q p e. unfold trajectoryA, stepA. destruct Ho as [-> |[-> |[-> | ->]]]; reflexivity. }
  rewrite T in H. destruct (statesA _ N _) as [ls|] eqn:El; [|discriminate]. cbn [bindR] in H.
  apply (okT_ext (FX n X) (fun j => let* l := statesA (fun y => stepA (i_A j) order g w (d j) y) N (mkQ4 (q0 j) (p0 j) (q0 j) (p0 j)) in
     match l with [] => Err IndexError | _ => let rows := map (fun s => (q1 s, p1 s)) l in if cart then seqR (fun r => let* x := to_cartesianA (i_A j) (fst r) in Ok (x, snd r)) rows else Ok rows end)); [intros j; rewrite T; reflexivity|].
  eapply (okT_bind (FX n X)); [apply (LT_states g order w d d0 Hwf Hg Ho Hd N (fun j => mkQ4 (q0 j) (p0 j) (q0 j) (p0 j)) (mkQ4 l0 m0 l0 m0) ls); [|exact El]|].
  { apply (nrM_of (FX n X) i_u q0 p0 q0 p0 (fun _ => l0) (fun _ => m0) (fun _ => l0) (fun _ => m0)); assumption. }
  intros vs Hvs. cbn beta. destruct Hvs as [|v y vs ls Hv Hvs]; [discriminate|].
  assert (HR : LT Qrow (fun j => map (fun s => (q1 s, p1 s)) (v j :: vs j)) (map (fun s => (q1 s, p1 s)) (y :: ls))).
  { apply (LT_map (fun v y => fnrM n X v (fun _ => y) y) Qrow (fun s => (q1 s, p1 s)) (fun j => v j :: vs j) (y :: ls)); [|constructor; assumption].
    intros v0 y0 H0. split; cbn [fst snd]; [exact (nrM_row (FX n X) i_u _ _ _ 0 ltac:(lia) H0)|exact (nrM_row (FX n X) i_u _ _ _ 1 ltac:(lia) H0)]. }
  destruct cart.
  - cbv zeta in *. set (L := map (fun s => (q1 s, p1 s)) (y :: ls)) in *.
    assert (E : rows = map (fun r : row => (to_cartesian (fst r), snd r)) L). { apply Ok_inj. rewrite <- H, <- (seqR_exact (fun r : row => (to_cartesian (fst r), snd r))). reflexivity. }
    subst rows. apply (LT_seqR Qrow Qrow (fun A r => let* x := to_cartesianA A (fst r) in Ok (x, snd r)) (fun r => (to_cartesian (fst r), snd r)) _ L); [|exact HR].
    intros v0 y0 [H1 H2]. eapply (okT_bind (FX n X)); [apply (cart_ok (FX n X) i_u i_A (FX_u0 n X) (FX_u n X) (FX_A n X) _ _ _ H1)|]. intros z Hz. cbn beta. apply (okT_ok (FX n X) (fun j => (z j, snd (v0 j)))). split; [exact Hz|exact H2].
  - cbv zeta in *. apply Ok_inj in H. subst rows. apply (okT_ok (FX n X) (fun j => map (fun s => (q1 s, p1 s)) (v j :: vs j))). exact HR.
Qed.
End Lists.

(** ---- statements ---- *)
Definition vclose (e : R) (v w : V4) : Prop := forall i, (i < 4)%nat -> Rabs (q4nth v i - q4nth w i) <= e.
Lemma metric_rounded g q : well_formed g -> metric_defined g (q4nth q) ->
  exists r C, 0 < r /\ 0 <= C /\ forall u A q', 0 <= u < r -> accurate u A -> vclose u q' q ->
  exists m, metric_atA A g q' = Ok m /\ forall i k, (i < 4)%nat -> (k < 4)%nat -> Rabs (mnth m i k - mnth (metric_meaning g (q4nth q)) i k) <= C * u.
Proof.
  intros Hwf Hd. pose (X := q4nth q).
  assert (Hq : fnrV 4 X (fun j => mkQ4 (i_e j 0) (i_e j 1) (i_e j 2) (i_e j 3)) (fun _ => q) q) by (intros [|[|[|[|i]]]] Hi; [exact (FX_e 4 X 0 ltac:(lia))|exact (FX_e 4 X 1 ltac:(lia))|exact (FX_e 4 X 2 ltac:(lia))|exact (FX_e 4 X 3 ltac:(lia))|lia]).
  destruct (metric_at_ok (FX 4 X) i_u i_A (FX_u0 4 X) (FX_u 4 X) (FX_A 4 X) g Hwf _ _ _ Hq Hd) as (v & E & N).
  destruct (small_M 4 X _ _ _ N) as (r1 & C & R1 & HC & H). destruct E as (r2 & R2 & E).
  exists (Rmin r1 r2), C. split; [apply Rmin_pos; assumption|]. split; [exact HC|]. intros u A q' Hu HA Hq'.
  assert (J1 : inX 4 X (Rmin r1 r2) (mkinp u A (q4nth q'))) by (split; [exact Hu|split; [exact HA|exact Hq']]).
  exists (v (mkinp u A (q4nth q'))). split; [|apply (H _ (inX_le _ _ _ _ _ (Rmin_l _ _) J1))]. assert (Q := E _ (inX_le _ _ _ _ _ (Rmin_r _ _) J1)). cbn in Q. destruct q'; exact Q.
Qed.
Lemma jacobian_rounded g q k : well_formed g -> symmetric_program g -> metric_defined g (q4nth q) -> (k < 4)%nat ->
  exists r C D, 0 < r /\ 0 <= C /\ (forall a b, (a < 4)%nat -> (b < 4)%nat -> is_derive (fun t => mnth (metric_meaning g (q4nth (vupd q k t))) a b) (q4nth q k) (D a b)) /\
  forall u A q', 0 <= u < r -> accurate u A -> vclose u q' q ->
  exists m, jacobian_gA A g q' k = Ok m /\ forall a b, (a < 4)%nat -> (b < 4)%nat -> Rabs (mnth m a b - D a b) <= C * u.
Proof.
  intros Hwf Hsym Hd Hk. pose (X := q4nth q).
  assert (Hq : fnrV 4 X (fun j => mkQ4 (i_e j 0) (i_e j 1) (i_e j 2) (i_e j 3)) (fun _ => q) q) by (intros [|[|[|[|i]]]] Hi; [exact (FX_e 4 X 0 ltac:(lia))|exact (FX_e 4 X 1 ltac:(lia))|exact (FX_e 4 X 2 ltac:(lia))|exact (FX_e 4 X 3 ltac:(lia))|lia]).
  destruct (jacobian_ok (FX 4 X) i_u i_A (FX_u0 4 X) (FX_u 4 X) (FX_A 4 X) g Hwf _ _ _ k Hq Hd) as (v & E & N).
  destruct (small_M 4 X _ _ _ N) as (r1 & C & R1 & HC & H). destruct E as (r2 & R2 & E).
  exists (Rmin r1 r2), C, (fun a b => mnth (jacM g q k) a b). split; [apply Rmin_pos; assumption|]. split; [exact HC|]. split.
  - intros a b Ha Hb.
    assert (P : forall a b, (a < 4)%nat -> (b < 4)%nat -> is_derive (fun t => mnth (metric_meaning g (q4nth (vupd q k t))) a b) (q4nth q k) (meaning (q4nth q) (pd k (mnth g a b)))).
    { intros a' b' Ha' Hb'. eapply D_ext; [|apply (pd_partial 4 (mnth g a' b') (q4nth q) k (wf_below g a' b' Hwf Ha' Hb') (Hd a' b' Ha' Hb') Hk)].
      intros t. cbn beta. rewrite mnth_meaning. apply (meaning_ext_b 4); [apply wf_below; assumption|]. intros i Hi. unfold upd. revert i Hi. clear -Hk. revert k Hk. apply (q4_cases (fun k => forall i, (i < 4)%nat -> (if Nat.eqb i k then t else q4nth q i) = q4nth (vupd q k t) i)); apply q4_cases; reflexivity. }
    assert (S : meaning (q4nth q) (pd k (mnth g a b)) = meaning (q4nth q) (pd k (mnth g b a))).
    { apply (D_unique (fun t => mnth (metric_meaning g (q4nth (vupd q k t))) a b) (q4nth q k)); [apply P; assumption|]. eapply D_ext; [|apply (P b a Hb Ha)]. intros t. rewrite !mnth_meaning. apply Hsym; assumption. }
    eapply D_eq; [apply P; assumption|]. unfold jacM. rewrite mnth_tab' by assumption. unfold upM. rewrite !mnth_tab' by assumption.
    destruct (Nat.eqb_spec a b) as [-> |Ne]. { rewrite Nat.leb_refl. ring. }
    destruct (Nat.leb_spec a b), (Nat.leb_spec b a); try lia; [ring|rewrite S; ring].
  - intros u A q' Hu HA Hq'.
    assert (J1 : inX 4 X (Rmin r1 r2) (mkinp u A (q4nth q'))) by (split; [exact Hu|split; [exact HA|exact Hq']]).
    exists (v (mkinp u A (q4nth q'))). split; [|apply (H _ (inX_le _ _ _ _ _ (Rmin_l _ _) J1))]. assert (Q := E _ (inX_le _ _ _ _ _ (Rmin_r _ _) J1)). cbn in Q. destruct q'; exact Q.
Qed.
Lemma trajectory_float g q0 p0 tl cart kw ids rows : well_formed g -> rational_metric g ->
  calculate_trajectory g q0 p0 tl cart kw = Ok (ids, rows) ->
  exists r C, 0 < r /\ 0 <= C /\ forall u A q0' p0' d', 0 <= u < r -> accurate u A -> vclose u q0' q0 -> vclose u p0' p0 -> Rabs (d' - k_delta kw) <= u ->
  exists rows', trajectoryA A g q0' p0' cart (k_steps kw) d' (k_order kw) (k_omega kw) = Ok rows' /\ rows_close (C * u) rows' rows.
Proof.
  intros Hwf Hg H. assert (T := trajectory_exact g q0 p0 tl cart kw). rewrite H in T. cbn [mapR snd] in T.
  pose (X := fun i => match i with 0 => c0 q0 | 1 => c1 q0 | 2 => c2 q0 | 3 => c3 q0 | 4 => c0 p0 | 5 => c1 p0 | 6 => c2 p0 | 7 => c3 p0 | _ => k_delta kw end%nat).
  assert (Hq : fnrV 9 X (fun j => mkQ4 (i_e j 0) (i_e j 1) (i_e j 2) (i_e j 3)) (fun _ => q0) q0).
  { intros [|[|[|[|i]]]] Hi; [exact (FX_e 9 X 0 ltac:(lia))|exact (FX_e 9 X 1 ltac:(lia))|exact (FX_e 9 X 2 ltac:(lia))|exact (FX_e 9 X 3 ltac:(lia))|lia]. }
  assert (Hp : fnrV 9 X (fun j => mkQ4 (i_e j 4) (i_e j 5) (i_e j 6) (i_e j 7)) (fun _ => p0) p0).
  { intros [|[|[|[|i]]]] Hi; [exact (FX_e 9 X 4 ltac:(lia))|exact (FX_e 9 X 5 ltac:(lia))|exact (FX_e 9 X 6 ltac:(lia))|exact (FX_e 9 X 7 ltac:(lia))|lia]. }
  destruct (trajectory_ok 9 X g _ _ q0 p0 (fun j => i_e j 8) (k_delta kw) cart (k_steps kw) (k_order kw) (k_omega kw) rows Hwf Hg Hq Hp (FX_e 9 X 8 ltac:(lia)) T) as (vs & E & L).
  destruct (LT_small 9 X vs rows L) as (r1 & C & R1 & HC & K). destruct E as (r2 & R2 & E).
  exists (Rmin r1 r2), C. split; [apply Rmin_pos; assumption|]. split; [exact HC|]. intros u A q0' p0' d' Hu HA Hq' Hp' Hd'.
  set (e := fun i => match i with 0 => c0 q0' | 1 => c1 q0' | 2 => c2 q0' | 3 => c3 q0' | 4 => c0 p0' | 5 => c1 p0' | 6 => c2 p0' | 7 => c3 p0' | _ => d' end%nat).
  assert (J1 : inX 9 X (Rmin r1 r2) (mkinp u A e)).
  { split; [exact Hu|split; [exact HA|]]. intros [|[|[|[|[|[|[|[|[|i]]]]]]]]] Hi; cbn; [apply (Hq' 0%nat)|apply (Hq' 1%nat)|apply (Hq' 2%nat)|apply (Hq' 3%nat)|apply (Hp' 0%nat)|apply (Hp' 1%nat)|apply (Hp' 2%nat)|apply (Hp' 3%nat)|exact Hd'|]; lia. }
  exists (vs (mkinp u A e)). split; [|exact (K _ (inX_le _ _ _ _ _ (Rmin_l _ _) J1))]. assert (Q := E _ (inX_le _ _ _ _ _ (Rmin_r _ _) J1)). cbn in Q. destruct q0', p0'; exact Q.
Qed.
(** the value under the square root in _P *)
Definition discriminant (g : metricP) (q : V4) (u1 u2 u3 : R) (tl : bool) : R :=
  let m := metric_meaning g (q4nth q) in
  (2 * mnth m 0 3 * u3) ^ 2 - 4 * mnth m 0 0 * (mnth m 1 1 * u1 ^ 2 + mnth m 2 2 * u2 ^ 2 + mnth m 3 3 * u3 ^ 2 + b2R tl).
Lemma P4_value g q u1 u2 u3 tl P : rational_metric g -> P4 g q u1 u2 u3 tl = Ok P ->
  metric_defined g (q4nth q) /\ mnth (metric_meaning g (q4nth q)) 0 0 <> 0 /\ P = P4M (metric_meaning g (q4nth q)) u1 u2 u3 tl.
Proof.
  intros Hg H. unfold P4 in H. destruct (metric_at g q) as [m|] eqn:E; [|discriminate]. cbn [bindR] in H. assert (D := metric_at_inv g q m Hg E). rewrite (metric_at_Ok g q D) in E. apply Ok_inj in E. subst m.
  split; [exact D|]. revert H. generalize (metric_meaning g (q4nth q)). intros m H. unfold P_of_guu in H. cbv zeta in H. unfold np_sqrt in H. destruct (Rle_dec _ _) as [L|L]; [|discriminate]. cbn [bindR] in H.
  unfold np_div in H. destruct (Req_EM_T (2 * mnth m 0 0) 0) as [Z|Z]; [discriminate|]. cbn [bindR] in H. apply Ok_inj in H. subst P. split; [intros Z0; apply Z; rewrite Z0; ring|]. reflexivity.
Qed.
Lemma geodesic_float m prms pos mom tl cart kw call gP gI geo : resolve_metric m = Ok call -> call prms = Ok gP -> call (resolve_params m prms) = Ok gI ->
  well_formed gP -> rational_metric gP -> well_formed gI -> rational_metric gI ->
  mk_geodesic m prms pos mom tl cart kw = Ok geo ->
  0 < discriminant gP (geo_position geo) (fst (fst mom)) (snd (fst mom)) (snd mom) tl ->
  exists r C, 0 < r /\ 0 <= C /\ forall u A d', 0 <= u < r -> accurate u A -> Rabs (d' - k_delta kw) <= u ->
  exists P rows, geodesicA A m prms pos mom tl cart (k_steps kw) d' (k_order kw) (k_omega kw) = Ok (P, rows) /\
    vclose (C * u) P (geo_momentum geo) /\ rows_close (C * u) rows (snd (geo_trajectory geo)).
Proof.
  intros H1 H2 H3 W1 G1 W2 G2 H Hdisc. destruct pos as [[x1 x2] x3], mom as [[u1 u2] u3]. unfold mk_geodesic in H. rewrite H1 in H. cbn [bindR] in H. rewrite H2 in H. cbn [bindR] in H.
  destruct (P4 gP _ u1 u2 u3 tl) as [P|] eqn:EP; [|discriminate]. cbn [bindR] in H. rewrite H3 in H. cbn [bindR] in H.
  destruct (calculate_trajectory gI _ P tl cart kw) as [[ids rows]|] eqn:ET; [|discriminate]. cbn [bindR] in H. apply Ok_inj in H. subst geo. cbn [geo_position geo_momentum geo_trajectory fst snd] in *.
  set (q := mkQ4 0 x1 x2 x3) in *. destruct (P4_value gP q u1 u2 u3 tl P G1 EP) as (D & Z & EqP).
  assert (T := trajectory_exact gI q P tl cart kw). rewrite ET in T. cbn [mapR snd] in T.
  pose (X := fun i : nat => k_delta kw).
  assert (Hq : fnrV 1 X (fun _ => q) (fun _ => q) q) by (intros i Hi; apply nr_const; apply FX_filter).
  assert (Hc : forall x, fnr 1 X (fun _ => x) (fun _ => x) x) by (intros x; apply nr_const; apply FX_filter).
  assert (Hp : 0 < discP (metric_meaning gP (q4nth q)) u1 u2 u3 tl) by (eapply Rlt_le_trans; [exact Hdisc|]; unfold discriminant, discP; cbv zeta; right; ring).
  destruct (P4_ok (FX 1 X) i_u i_A (FX_u0 1 X) (FX_u 1 X) (FX_A 1 X) gP _ _ q _ _ u1 _ _ u2 _ _ u3 tl W1 D Hq (Hc u1) (Hc u2) (Hc u3) Hp Z) as (v & Ev & Nv).
  assert (Nv' : fnrV 1 X v (fun _ => P) P) by (rewrite EqP; exact Nv).
  destruct (trajectory_ok 1 X gI _ v q P (fun j => i_e j 0) (k_delta kw) cart (k_steps kw) (k_order kw) (k_omega kw) rows W2 G2 Hq Nv' (FX_e 1 X 0 ltac:(lia)) T) as (vs & E & L).
  destruct (small_and 1 X (fun e j => rows_close e (vs j) rows) (fun e j => vclose e (v j) P)) as (r1 & C & R1 & HC & K).
  { intros a b j. apply rows_close_le. } { intros a b j Hab Q i Hi. specialize (Q i Hi). lra. } { exact (LT_small 1 X vs rows L). } { exact (small_V 1 X _ _ _ Nv'). }
  destruct (filter_and _ _ Ev E) as (r2 & R2 & EE).
  exists (Rmin r1 r2), C. split; [apply Rmin_pos; assumption|]. split; [exact HC|]. intros u A d' Hu HA Hd'.
  assert (J1 : inX 1 X (Rmin r1 r2) (mkinp u A (fun _ => d'))) by (split; [exact Hu|split; [exact HA|intros i _; exact Hd']]).
  destruct (EE _ (inX_le _ _ _ _ _ (Rmin_r _ _) J1)) as [E1 E2]. destruct (K _ (inX_le _ _ _ _ _ (Rmin_l _ _) J1)) as [K1 K2]. cbn in E1, E2.
  exists (v (mkinp u A (fun _ => d'))), (vs (mkinp u A (fun _ => d'))). split; [|split; [exact K2|exact K1]].
  unfold geodesicA. rewrite H1. cbn [bindR]. rewrite H2. cbn [bindR]. fold q. rewrite E1. cbn [bindR]. rewrite H3. cbn [bindR]. rewrite E2. reflexivity.
Qed.
(** the built-in metrics are such programs *)
Lemma builtin_rational : rational_metric schE /\ (forall a, rational_metric (kerrE a)) /\ (forall a Q, rational_metric (kerrnewmanE a Q)).
Proof. split; [|split]; intros; intros i j Hi Hj; (destruct i as [|[|[|[|i]]]]; [| | | |lia]; (destruct j as [|[|[|[|j]]]]; [reflexivity..|lia])). Qed.
(** initial momentum and global error of the whole constructor *)
Lemma P4_rounded g q u1 u2 u3 tl P : well_formed g -> rational_metric g -> P4 g q u1 u2 u3 tl = Ok P -> 0 < discriminant g q u1 u2 u3 tl ->
  exists r C, 0 < r /\ 0 <= C /\ forall u A, 0 <= u < r -> accurate u A -> exists P', P4A A g q u1 u2 u3 tl = Ok P' /\ vclose (C * u) P' P.
Proof.
  intros W G EP Hdisc. destruct (P4_value g q u1 u2 u3 tl P G EP) as (D & Z & EqP). pose (X := fun i : nat => 0).
  assert (Hq : fnrV 0 X (fun _ => q) (fun _ => q) q) by (intros i Hi; apply nr_const; apply FX_filter).
  assert (Hc : forall x, fnr 0 X (fun _ => x) (fun _ => x) x) by (intros x; apply nr_const; apply FX_filter).
  assert (Hp : 0 < discP (metric_meaning g (q4nth q)) u1 u2 u3 tl) by (eapply Rlt_le_trans; [exact Hdisc|]; unfold discriminant, discP; cbv zeta; right; ring).
  destruct (P4_ok (FX 0 X) i_u i_A (FX_u0 0 X) (FX_u 0 X) (FX_A 0 X) g _ _ q _ _ u1 _ _ u2 _ _ u3 tl W D Hq (Hc u1) (Hc u2) (Hc u3) Hp Z) as (v & Ev & Nv).
  assert (Nv' : fnrV 0 X v (fun _ => P) P) by (rewrite EqP; exact Nv).
  destruct (small_V 0 X _ _ _ Nv') as (r1 & C & R1 & HC & K). destruct Ev as (r2 & R2 & E).
  exists (Rmin r1 r2), C. split; [apply Rmin_pos; assumption|]. split; [exact HC|]. intros u A Hu HA.
  assert (J1 : inX 0 X (Rmin r1 r2) (mkinp u A (fun _ => 0))) by (split; [exact Hu|split; [exact HA|intros i Hi; lia]]).
  exists (v (mkinp u A (fun _ => 0))). split; [exact (E _ (inX_le _ _ _ _ _ (Rmin_r _ _) J1))|exact (K _ (inX_le _ _ _ _ _ (Rmin_l _ _) J1))].
Qed.
Lemma geodesic_rounded m prms x1 x2 x3 u1 u2 u3 tl order w f n call gP gI P (q p : R -> V4) T :
  resolve_metric m = Ok call -> call prms = Ok gP -> call (resolve_params m prms) = Ok gI ->
  well_formed gP -> rational_metric gP -> well_formed gI -> symmetric_program gI ->
  P4 gP (mkQ4 0 x1 x2 x3) u1 u2 u3 tl = Ok P -> 0 < discriminant gP (mkQ4 0 x1 x2 x3) u1 u2 u3 tl ->
  integrator_of order (metricfun_of gI) w = Ok f -> n = 2%nat \/ (order = 4 /\ n = 4)%nat ->
  0 < T -> geodesic_on gI q p T -> q 0 = mkQ4 0 x1 x2 x3 -> p 0 = P ->
  exists K r, 0 <= K /\ 0 < r /\ forall u A, 0 <= u -> accurate u A -> forall h N, 0 < h <= r -> u / h <= r -> (0 < N)%nat -> INR N * h <= T ->
  exists P' rows, geodesicA A m prms (x1, x2, x3) (u1, u2, u3) tl false N h order w = Ok (P', rows) /\ vclose (K * u) P' P /\ length rows = N /\
  forall k row, nth_error rows k = Some row ->
    vclose (K * (h ^ n + u / h)) (fst row) (q (INR (S k) * h)) /\ vclose (K * (h ^ n + u / h)) (snd row) (p (INR (S k) * h)).
Proof.
  intros H1 H2 H3 W1 G1 W2 S2 EP Hdisc Hf Hn HT Hg Q0 P0.
  destruct (P4_rounded gP _ u1 u2 u3 tl P W1 G1 EP Hdisc) as (r1 & C & R1 & HC & HP).
  destruct (trajectory_rounded order gI w f n q p T Hf Hn W2 S2 HT Hg) as (K & r2 & HK & R2 & HR).
  set (r := Rmin (Rmin r1 1 / 2) (r2 / (2 * (C + 1)))).
  assert (Rr1 : 0 < Rmin r1 1) by (apply Rmin_pos; lra).
  assert (Pr : 0 < r) by (unfold r; apply Rmin_pos; [lra|apply Rdiv_lt_0_compat; lra]).
  assert (L1 : r < r1) by (apply Rle_lt_trans with (Rmin r1 1 / 2); [apply Rmin_l|assert (Q := Rmin_l r1 1); lra]).
  assert (L2 : r < 1) by (apply Rle_lt_trans with (Rmin r1 1 / 2); [apply Rmin_l|assert (Q := Rmin_r r1 1); lra]).
  assert (L3 : (C + 1) * r <= r2 / 2). { assert (Q : r <= r2 / (2 * (C + 1))) by apply Rmin_r. apply Rmult_le_compat_l with (r := C + 1) in Q; [|lra]. replace ((C + 1) * (r2 / (2 * (C + 1)))) with (r2 / 2) in Q by (field; lra). exact Q. }
  clearbody r. exists (Rmax C (K * (C + 1))), r.
  assert (K0 : 0 <= K * (C + 1)) by (apply Rmult_le_pos; lra).
  split; [eapply Rle_trans; [exact HC|apply Rmax_l]|]. split; [exact Pr|]. intros u A Hu HA h N Hh Huh HN HNT.
  assert (Puh : 0 <= u / h) by (apply Rmult_le_pos; [exact Hu|apply Rlt_le, Rinv_0_lt_compat; lra]).
  assert (Hu1 : u <= u / h). { replace u with (u / h * h) at 1 by (field; lra). rewrite <- (Rmult_1_r (u / h)) at 2. apply Rmult_le_compat_l; lra. }
  destruct (HP u A ltac:(lra) HA) as (P' & E1 & V1).
  assert (CU : C * u <= C * (u / h)) by (apply Rmult_le_compat_l; assumption).
  assert (R0 : r <= r2) by nra.
  assert (CU2 : C * (u / h) <= C * r) by (apply Rmult_le_compat_l; assumption).
  destruct (HR u A Hu HA h N (C * u) (mkQ4 0 x1 x2 x3) P' ltac:(lra) HN HNT) as (rows & E2 & Ll & Hrows).
  { intros i Hi. rewrite Q0, P0. split; [rewrite Rminus_eq_0, Rabs_R0; apply Rmult_le_pos; assumption|apply V1; exact Hi]. }
  { lra. }
  exists P', rows. split; [unfold geodesicA; rewrite H1; cbn [bindR]; rewrite H2; cbn [bindR]; rewrite E1; cbn [bindR]; rewrite H3; cbn [bindR]; rewrite E2; reflexivity|].
  split; [intros i Hi; eapply Rle_trans; [apply V1; exact Hi|]; apply Rmult_le_compat_r; [exact Hu|apply Rmax_l]|]. split; [exact Ll|].
  assert (Hp0 : 0 <= h ^ n) by (apply pow_le; lra).
  assert (B : K * (C * u + h ^ n + u / h) <= Rmax C (K * (C + 1)) * (h ^ n + u / h)).
  { apply Rle_trans with (K * (C + 1) * (h ^ n + u / h)); [|apply Rmult_le_compat_r; [lra|apply Rmax_r]]. rewrite Rmult_assoc. apply Rmult_le_compat_l; [exact HK|].
    assert (0 <= C * h ^ n) by (apply Rmult_le_pos; assumption). lra. }
  intros k row Hk. split; intros i Hi; destruct (Hrows k row Hk i Hi) as [B1 B2]; eapply Rle_trans; [exact B1|exact B|exact B2|exact B].
Qed.
