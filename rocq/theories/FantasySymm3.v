(** Reflections and momentum reversal for whole trajectories; the built-in metrics. *)
From Coq Require Import Reals List ZArith Lra Lia Bool String.
From Verif Require Import Base DualModel DualSpec Calc GeoUtilsModel GeoUtilsProofs FantasyModel FantasyProofs FantasyProofs2 FantasyProofs3 GeodesicModel FantasySymm FantasySymm2.
Import ListNotations.
Open Scope R_scope.

Lemma seq_map {A B} (f : nat -> A -> B) (r : nat -> Res A) :
  q4seq (q4tab (fun i => mapR (f i) (r i))) = mapR (fun v => q4tab (fun i => f i (q4nth v i))) (q4seq (q4tab r)).
Proof.
  unfold q4seq, q4tab; cbn [c0 c1 c2 c3]. destruct (r 0%nat), (r 1%nat), (r 2%nat), (r 3%nat); reflexivity.
Qed.
Lemma q4map_tab {A B} (f : A -> B) v : q4map f v = q4tab (fun i => f (q4nth v i)).
Proof. reflexivity. Qed.
Lemma run_metric_tab g env : run_metric g env = q4seq (q4tab (fun i => q4seq (q4tab (fun j => runP env (mnth g i j))))).
Proof. reflexivity. Qed.
Lemma q4tab_ext {A} (f h : nat -> A) : (forall i, (i < 4)%nat -> f i = h i) -> q4tab f = q4tab h.
Proof. intros H. unfold q4tab. rewrite !H by lia. reflexivity. Qed.

Definition mirror_e : V4 := mkQ4 1 1 (-1) 1.
Definition mirror_b : V4 := mkQ4 0 0 PI 0.
Definition mirror_program (g : metricP) : Prop :=
  forall i j, (i < 4)%nat -> (j < 4)%nat -> Par (q4nth mirror_e i * q4nth mirror_e j) (mnth g i j).

Lemma mirror_metric g env env' eta : mirror_program g -> eta * eta = 1 -> (forall i, i <> 2%nat -> env' i = tw 1 eta (env i)) ->
  match env 2%nat, env' 2%nat with
  | PF x, PF x' => x' = PI - x
  | PD d, PD d' => val d' = PI - val d /\ deriv d' = - eta * deriv d
  | _, _ => False end ->
  run_metric g env' = mapR (fun m => mtab (fun i j => tw (q4nth mirror_e i * q4nth mirror_e j) eta (mnth m i j))) (run_metric g env).
Proof.
  intros P E H1 H2. rewrite !run_metric_tab.
  transitivity (q4seq (q4tab (fun i => mapR (fun r : Q4 pyval => q4tab (fun j => tw (q4nth mirror_e i * q4nth mirror_e j) eta (q4nth r j)))
    (q4seq (q4tab (fun j => runP env (mnth g i j))))))).
  - f_equal. apply q4tab_ext. intros i Hi.
    rewrite <- (seq_map (fun j => tw (q4nth mirror_e i * q4nth mirror_e j) eta) (fun j => runP env (mnth g i j))). f_equal. apply q4tab_ext. intros j Hj.
    apply mirror_run; try assumption. apply P; assumption.
  - rewrite (seq_map (fun i r => q4tab (fun j => tw (q4nth mirror_e i * q4nth mirror_e j) eta (q4nth r j)))). reflexivity.
Qed.
Lemma pderiv_tw s eta v : pderiv (tw s eta v) = s * eta * pderiv v.
Proof. destruct v; cbn [tw pderiv val deriv]; ring. Qed.
Lemma move_mirror_other q i : i <> 2%nat -> q4nth (move mirror_e mirror_b q) i = q4nth q i.
Proof. intros N. unfold move, mirror_e, mirror_b, vadd, flipv, q4map2. destruct i as [|[|[|i]]]; cbn [q4nth c0 c1 c2 c3]; try ring. congruence. Qed.
Lemma move_mirror_2 q : q4nth (move mirror_e mirror_b q) 2 = PI - q4nth q 2.
Proof. unfold move, mirror_e, mirror_b, vadd, flipv, q4map2. cbn [q4nth c0 c1 c2 c3]; ring. Qed.
Lemma signs_mirror : signs mirror_e. Proof. intros i Hi. ix i Hi; cbn; ring. Qed.

Lemma pf_seq (f : nat -> nat -> pyval -> pyval) (h : nat -> nat -> R -> R) m :
  (forall i j v, pf_only (f i j v) = mapR (h i j) (pf_only v)) ->
  q4seq (q4map (fun row => q4seq (q4map pf_only row)) (mtab (fun i j => f i j (mnth m i j))))
  = mapR (fun M => mtab (fun i j => h i j (mnth M i j))) (q4seq (q4map (fun row => q4seq (q4map pf_only row)) m)).
Proof.
  intros H. rewrite !q4map_tab.
  transitivity (q4seq (q4tab (fun i => mapR (fun r : V4 => q4tab (fun j => h i j (q4nth r j))) (q4seq (q4tab (fun j => pf_only (mnth m i j))))))).
  - f_equal. apply q4tab_ext. intros i Hi. rewrite <- (seq_map (h i) (fun j => pf_only (mnth m i j))). rewrite q4map_tab. f_equal. apply q4tab_ext. intros j Hj.
    replace (q4nth (q4nth (mtab (fun i j => f i j (mnth m i j))) i) j) with (f i j (mnth m i j)) by (ix i Hi; ix j Hj; reflexivity). apply H.
  - rewrite (seq_map (fun i r => q4tab (fun j => h i j (q4nth r j)))). reflexivity.
Qed.

Lemma mirror_respects g : mirror_program g -> respects (metricfun_of g) mirror_e mirror_b.
Proof.
  intros P. split.
  - intros q. cbn [metricfun_of gval]. unfold metric_at.
    rewrite (mirror_metric g (fun i => PF (q4nth q i)) _ 1 P ltac:(ring)).
    + destruct (run_metric g (fun i => PF (q4nth q i))) as [m|]; cbn [mapR bindR]; [|reflexivity].
      rewrite (pf_seq (fun i j => tw (q4nth mirror_e i * q4nth mirror_e j) 1) (fun i j => Rmult (q4nth mirror_e i * q4nth mirror_e j))).
      * reflexivity.
      * intros i j [x|d]; reflexivity.
    + intros i N. rewrite move_mirror_other by exact N. cbn [tw]. pd. ring.
    + apply move_mirror_2.
  - intros q k Hk. cbn [metricfun_of gjac]. set (eta := q4nth mirror_e k). assert (E : eta * eta = 1) by (apply signs_mirror; exact Hk).
    assert (M : run_metric g (dual_coords (move mirror_e mirror_b q) k) = mapR (fun m => mtab (fun i j => tw (q4nth mirror_e i * q4nth mirror_e j) eta (mnth m i j))) (run_metric g (dual_coords q k))).
    { apply mirror_metric; [exact P|exact E| |].
      - intros i N. unfold dual_coords. rewrite move_mirror_other by exact N. cbn [tw val deriv]. pd; [ring|].
        destruct (Nat.eqb_spec i k) as [-> |]; [|ring]. unfold eta. ix k Hk; cbn; try ring. congruence.
      - unfold dual_coords. cbn [val deriv]. split; [apply move_mirror_2|]. destruct (Nat.eqb_spec 2 k) as [<- |]; [unfold eta; cbn; ring|ring]. }
    unfold jacobian_g, jac_upper, diff_g. rewrite !Nat2Z.id, M.
    assert (Z : negb ((Z.of_nat k =? 0)%Z || (Z.of_nat k =? 1)%Z || (Z.of_nat k =? 2)%Z || (Z.of_nat k =? 3)%Z) = false) by (ix k Hk; reflexivity). rewrite Z.
    destruct (run_metric g (dual_coords q k)) as [m|]; [|reflexivity].
    unfold q4seq, q4tab; cbn [mapR bindR c0 c1 c2 c3 Nat.leb Nat.ltb andb]. apply f_equal.
    apply Q4_eq; unfold flipm; unfold mtab, vscal; unfold q4map, q4tab, mnth; cbn [q4nth c0 c1 c2 c3 Nat.eqb]; rewrite ?pderiv_tw; apply Q4_eq; cbn [c0 c1 c2 c3]; unfold mirror_e; cbn [q4nth c0 c1 c2 c3]; ring.
Qed.

Lemma par_eq s t e : Par s e -> s = t -> Par t e. Proof. intros H <-. exact H. Qed.
(** a product or quotient of even parts is even, of two parts *)
Lemma P_mul1 a b : Par 1 a -> Par 1 b -> Par 1 (EMul a b). Proof. intros. eapply par_eq; [apply P_mul; eassumption|ring]. Qed.
Lemma P_div1 a b : Par 1 a -> Par 1 b -> Par 1 (EDiv a b). Proof. intros. eapply par_eq; [apply P_div; eassumption|ring]. Qed.
Ltac par1 := unfold sigmaE, deltaE, Esq, Ec, zeroE; cbv zeta;
  repeat first [apply P_sin | apply P_cos2 | (apply P_var; discriminate) | apply P_const | apply P_add | apply P_sub | apply P_neg
   | (eapply P_sq; apply P_mul1; [|]; [apply P_const|apply P_sin]) | (eapply P_sq; eapply P_mul; [apply P_const|apply P_cos]) | (apply P_sq with (s := 1)) | apply P_mul1 | apply P_div1].
Lemma builtin_mirror : mirror_program schE /\ (forall a, mirror_program (kerrE a)) /\ (forall a Q, mirror_program (kerrnewmanE a Q)).
Proof.
  assert (Z : forall s, s = 1 \/ s = -1 -> Par s zeroE) by (intros s [-> | ->]; [apply P_const|apply P_zero]).
  split; [|split; intros].
  all: intros i j Hi Hj; ix i Hi; ix j Hj; unfold mirror_e; cbn [q4nth c0 c1 c2 c3].
  all: try (unfold mnth, schE, kerrE, kerrnewmanE; cbn [q4nth c0 c1 c2 c3]; apply Z; lra).
  all: (apply (par_eq 1); [|ring]); unfold mnth, schE, kerrE, kerrnewmanE; cbn [q4nth c0 c1 c2 c3]; par1.
Qed.
