(** Specialisations between the predefined metrics, their symmetry, and the warp bubble radius. *)
From Coq Require Import String Ascii Reals List Arith Lia Lra.
From Verif Require Import Base SymAlg SymModel ExprModel PredefModel PredefBridge PredefProofs PredefDiag2.
Import ListNotations.
Open Scope R_scope.

Definition sym (G : emat) : Prop := forall i j, (i < 4)%nat -> (j < 4)%nat -> G i j = G j i.
Lemma all_symmetric c G eps_0 sch a Q k al om B M gam lambd C J0 J1 f h x_s sigma R v :
  Forall sym [MinkowskiCartesian c; MinkowskiPolar c; AntiDeSitter; AntiDeSitterStatic; DeSitter al; Schwarzschild c sch; Kerr c sch a;
    KerrNewman c G eps_0 sch a Q; ReissnerNordstorm c G eps_0 sch Q; BarriolaVilekin c k; BertottiKasner c lambd; Ernst B M; Godel om;
    JanisNewmanWinicour c G gam M; Davidson; CMetric f h; BesselGravitationalWave C J0 J1; AlcubierreWarp x_s sigma R v].
Proof. repeat constructor; intros i j Hi Hj; c4 i Hi; c4 j Hj; reflexivity. Qed.

(** entrywise equality at the point p *)
Definition same_at (p : nat -> R) (G H : emat) : Prop := forall i j, (i < 4)%nat -> (j < 4)%nat -> eval (G i j) p = eval (H i j) p.
Definition Sg (a : expr) (p : nat -> R) : R := p 1%nat * p 1%nat + eval a p * eval a p * (cos (p 2%nat) * cos (p 2%nat)).
Lemma rQ0 c G eps_0 Q p : eval c p <> 0 -> eval eps_0 p <> 0 -> eval Q p = 0 -> eval (rQsqE c G eps_0 Q) p = 0.
Proof. intros Hc He H. unfold rQsqE. evc. rewrite H. assert (K := PI_RGT_0). field. nz. lra. Qed.
Lemma kn_kerr c G eps_0 sch a Q p : eval c p <> 0 -> eval eps_0 p <> 0 -> Sg a p <> 0 -> p 1%nat * p 1%nat - eval sch p * p 1%nat + eval a p * eval a p <> 0 ->
  eval Q p = 0 -> same_at p (KerrNewman c G eps_0 sch a Q) (Kerr c sch a).
Proof.
  intros Hc He HS HD H i j Hi Hj. assert (R := rQ0 c G eps_0 Q p Hc He H). assert (S := sc2 (p 2%nat)). unfold Sg in HS.
  c4 i Hi; c4 j Hj; unfold KerrNewman, Kerr, SigmaS; generalize dependent (rQsqE c G eps_0 Q); intros q R; evc; rewrite ?R, ?Rplus_0_r; try (unfold Rdiv; ring); field [S]; nz.
Qed.
Lemma kerr_sch c sch a p : eval c p <> 0 -> p 1%nat <> 0 -> p 1%nat <> eval sch p -> eval a p = 0 -> same_at p (Kerr c sch a) (Schwarzschild c sch).
Proof.
  intros Hc Hr Hs H i j Hi Hj. assert (p 1%nat - eval sch p <> 0) by lra.
  c4 i Hi; c4 j Hj; unfold Kerr, Schwarzschild, SigmaS; evc; rewrite ?H; try (unfold Rdiv; ring); try (field; nz; lra).
  replace (p 1%nat * p 1%nat + 0 * 0 * (cos (p 2%nat) * cos (p 2%nat))) with (p 1%nat * p 1%nat) by ring.
  replace (p 1%nat * p 1%nat - eval sch p * p 1%nat + 0 * 0) with (p 1%nat * (p 1%nat - eval sch p)) by ring. field. nz.
Qed.
Lemma rn_sch c G eps_0 sch Q p : eval c p <> 0 -> eval eps_0 p <> 0 -> p 1%nat <> 0 -> eval Q p = 0 -> same_at p (ReissnerNordstorm c G eps_0 sch Q) (Schwarzschild c sch).
Proof.
  intros Hc He Hr H i j Hi Hj. assert (R := rQ0 c G eps_0 Q p Hc He H).
  c4 i Hi; c4 j Hj; unfold ReissnerNordstorm, Schwarzschild; generalize dependent (rQsqE c G eps_0 Q); intros q R; evc; rewrite ?R; try (unfold Rdiv; ring).
  f_equal. f_equal. unfold Rdiv. ring.
Qed.
Lemma kn_rn c G eps_0 sch a Q p : eval c p <> 0 -> p 1%nat <> 0 -> p 1%nat * p 1%nat - eval sch p * p 1%nat + eval (rQsqE c G eps_0 Q) p <> 0 ->
  eval a p = 0 -> same_at p (KerrNewman c G eps_0 sch a Q) (ReissnerNordstorm c G eps_0 sch Q).
Proof.
  intros Hc Hr HD H i j Hi Hj. revert HD.
  c4 i Hi; c4 j Hj; unfold KerrNewman, ReissnerNordstorm, SigmaS; generalize (rQsqE c G eps_0 Q); intros q HD; evc; rewrite ?H; try (unfold Rdiv; ring);
  replace (p 1%nat * p 1%nat + 0 * 0 * (cos (p 2%nat) * cos (p 2%nat))) with (p 1%nat * p 1%nat) by ring; try (field; nz; fail).
  replace (p 1%nat * p 1%nat - eval sch p * p 1%nat + 0 * 0 + eval q p) with (p 1%nat * p 1%nat - eval sch p * p 1%nat + eval q p) by ring.
  field. nz. intros E. apply HD. lra.
Qed.
Lemma barriola_flat c k p : eval k p = 1 -> same_at p (BarriolaVilekin c k) (MinkowskiPolar c).
Proof. intros H i j Hi Hj. c4 i Hi; c4 j Hj; unfold BarriolaVilekin, MinkowskiPolar; evc; rewrite ?H; unfold Rdiv; ring. Qed.
(** G is the negative of H *)
Definition neg_at (p : nat -> R) (G H : emat) : Prop := forall i j, (i < 4)%nat -> (j < 4)%nat -> eval (G i j) p = - eval (H i j) p.
Lemma ernst_sch B M c sch p : eval c p = 1 -> eval sch p = 2 * eval M p -> p 1%nat <> 0 -> p 1%nat <> 2 * eval M p -> eval B p = 0 -> neg_at p (Ernst B M) (Schwarzschild c sch).
Proof.
  intros Hc Hs Hr HM H i j Hi Hj. c4 i Hi; c4 j Hj; unfold Ernst, Schwarzschild; evc; rewrite ?H, ?Hc, ?Hs; try (unfold Rdiv; ring); try (field; nz; lra).
Qed.
(** gamma = 1: t-t and r-r agree with Schwarzschild up to signature, the angular part agrees exactly when c^2 = 1 *)
Lemma jnw_gam1 c G gam M p : eval c p <> 0 -> p 1%nat <> 0 -> 0 < 1 - eval (jw_rs c G M) p / p 1%nat -> eval gam p = 1 ->
  let H := Schwarzschild c (jw_rs c G M) in let J := JanisNewmanWinicour c G gam M in
  eval (J 0%nat 0%nat) p = - eval (H 0%nat 0%nat) p /\ eval (J 1%nat 1%nat) p = - eval (H 1%nat 1%nat) p /\
  eval (J 2%nat 2%nat) p = - (eval c p ^ 2 * eval (H 2%nat 2%nat) p) /\ eval (J 3%nat 3%nat) p = - (eval c p ^ 2 * eval (H 3%nat 3%nat) p).
Proof.
  intros Hc Hr Ha H. cbv zeta. rewrite jw_is. unfold jw_0, jw_1, jw_3, jw_2, jw_al. unfold Schwarzschild. revert Ha. generalize (jw_rs c G M) as q. intros q Ha.
  evc. rewrite !H. rewrite jw_exp1, jw_exp2, !Rmult_1_l by (rewrite Rmult_1_l; exact Ha). rewrite exp_ln by exact Ha.
  split; [ring|]. split; [field; nz|]. 2: split; field; nz. all: intros E; rewrite ?E in Ha; try lra.
  all: replace (1 - eval q p / p 1%nat) with ((p 1%nat - eval q p) / p 1%nat) in Ha by (field; assumption); rewrite E in Ha; unfold Rdiv in Ha; rewrite Rmult_0_l in Ha; lra.
Qed.
Lemma jnw_sch c G gam M p : eval c p ^ 2 = 1 -> p 1%nat <> 0 -> 0 < 1 - eval (jw_rs c G M) p / p 1%nat -> eval gam p = 1 ->
  neg_at p (JanisNewmanWinicour c G gam M) (Schwarzschild c (jw_rs c G M)).
Proof.
  intros Hc Hr Ha H i j Hi Hj. assert (Hc0 : eval c p <> 0) by (intros E; rewrite E in Hc; lra).
  destruct (jnw_gam1 c G gam M p Hc0 Hr Ha H) as [H0 [H1 [H2 H3]]]. rewrite Hc, Rmult_1_l in H2, H3.
  c4 i Hi; c4 j Hj; try assumption; unfold JanisNewmanWinicour, Schwarzschild; evc; ring.
Qed.
Lemma jnw_refuted c G gam M p : eval c p <> 0 -> eval c p ^ 2 <> 1 -> p 1%nat <> 0 -> 0 < 1 - eval (jw_rs c G M) p / p 1%nat -> eval gam p = 1 ->
  ~ neg_at p (JanisNewmanWinicour c G gam M) (Schwarzschild c (jw_rs c G M)) /\ ~ same_at p (JanisNewmanWinicour c G gam M) (Schwarzschild c (jw_rs c G M)).
Proof.
  intros Hc0 Hc Hr Ha H. destruct (jnw_gam1 c G gam M p Hc0 Hr Ha H) as [H0 [H1 [H2 H3]]].
  assert (N : eval (Schwarzschild c (jw_rs c G M) 2%nat 2%nat) p <> 0).
  { unfold Schwarzschild. evc. unfold Rdiv. nz. apply Rinv_neq_0_compat. nz. }
  split; intros E; specialize (E 2%nat 2%nat ltac:(lia) ltac:(lia)); rewrite H2 in E.
  - apply Hc. apply (Rmult_eq_reg_r (eval (Schwarzschild c (jw_rs c G M) 2%nat 2%nat) p)); [|exact N]. lra.
  - assert ((eval c p ^ 2 + 1) * eval (Schwarzschild c (jw_rs c G M) 2%nat 2%nat) p = 0) by lra. apply Rmult_integral in H4. destruct H4; [|contradiction].
    assert (0 <= eval c p ^ 2) by apply pow2_ge_0. lra.
Qed.

(** ** Alcubierre: the documented radius is the Euclidean distance from the ship at (x_s, 0, 0) *)
Definition euclid (x_s : expr) (p : nat -> R) : R := sqrt ((p 1%nat - eval x_s p) ^ 2 + p 2%nat ^ 2 + p 3%nat ^ 2).
Lemma warp_axis x_s p : p 2%nat = 0 -> p 3%nat = 0 -> eval (warp_radius x_s) p = euclid x_s p.
Proof. intros H2 H3. unfold warp_radius, euclid. evc. rewrite H2, H3. f_equal. ring. Qed.
Lemma warp_iff x_s p : 0 <= (p 1%nat - eval x_s p) ^ 2 + p 2%nat + p 3%nat -> (eval (warp_radius x_s) p = euclid x_s p <-> p 2%nat + p 3%nat = p 2%nat ^ 2 + p 3%nat ^ 2).
Proof.
  intros H. unfold warp_radius, euclid. evc.
  assert (P2 := pow2_ge_0 (p 2%nat)). assert (P3 := pow2_ge_0 (p 3%nat)). assert (P1 := pow2_ge_0 (p 1%nat - eval x_s p)).
  split; intros E.
  - apply sqrt_inj in E; lra.
  - f_equal. lra.
Qed.
(** two points at the same distance from the ship, on mirror sides, get different radii; one side has none at all *)
Lemma warp_refuted : exists p q : nat -> R, (forall i, i <> 2%nat -> p i = q i) /\ p 2%nat = - q 2%nat /\ euclid (EConst 0) p = euclid (EConst 0) q /\
  eval (warp_radius (EConst 0)) p <> eval (warp_radius (EConst 0)) q /\ wd (warp_radius (EConst 0)) p /\ ~ wd (warp_radius (EConst 0)) q.
Proof.
  exists (fun i => match i with 2%nat => 2 | 1%nat => 1 | _ => 0 end), (fun i => match i with 2%nat => -2 | 1%nat => 1 | _ => 0 end).
  split; [intros i Hi; destruct i as [|[|[|i]]]; [reflexivity|reflexivity|contradiction|reflexivity]|]. split; [cbv beta iota; ring|]. split; [unfold euclid; cbn [eval]; cbv beta iota; f_equal; ring|].
  split; [|split].
  - unfold warp_radius. evc. replace ((1 - 0) * (1 - 0) + 2 + 0) with 3 by ring. replace ((1 - 0) * (1 - 0) + -2 + 0) with (-1) by ring.
    rewrite (sqrt_neg_0 (-1)) by lra. assert (0 < sqrt 3) by (apply sqrt_lt_R0; lra). lra.
  - unfold warp_radius, Esq, X. cbn [wd eval]. nz. lra.
  - unfold warp_radius, Esq, X. cbn [wd eval]. intros [_ H]. lra.
Qed.
(** the line element -dt^2 + (dx - v f dt)^2 + dy^2 + dz^2 with f the shape function of the radius *)
Lemma warp_entries x_s sigma R v p : let f := eval (warp_shape (warp_radius x_s) sigma R) p in let g := AlcubierreWarp x_s sigma R v in
  forall dt dx dy dz, let d := fun i => match i with 0%nat => dt | 1%nat => dx | 2%nat => dy | _ => dz end in
  rs4 (fun i => rs4 (fun j => eval (g i j) p * d i * d j)) = - dt ^ 2 + (dx - eval v p * f * dt) ^ 2 + dy ^ 2 + dz ^ 2.
Proof.
  intros f g dt dx dy dz d. unfold f, g, d, AlcubierreWarp. generalize (warp_shape (warp_radius x_s) sigma R). intros e. unfold rs4. evc. ring.
Qed.

(** the documented shape function of the radius, with the standard library's tanh *)
Lemma warp_shape_is r sigma R p : eval (warp_shape r sigma R) p =
  (tanh (eval sigma p * (eval r p + eval R p)) - tanh (eval sigma p * (eval r p - eval R p))) / (2 * tanh (eval sigma p * eval R p)).
Proof.
  assert (T : forall e, eval (Etanh e) p = tanh (eval e p)).
  { intros e. unfold Etanh, Esinh, Ecosh, tanh, sinh, cosh, E1. cbn [eval]. rewrite exp_Ropp. unfold Rdiv. rewrite !Rmult_1_l. reflexivity. }
  unfold warp_shape. cbn [eval]. rewrite !T. cbn [eval]. reflexivity.
Qed.
(** it is 1 at the ship, whatever the wall thickness and the bubble radius *)
Lemma warp_centre x_s sigma R p : p 1%nat = eval x_s p -> p 2%nat = 0 -> p 3%nat = 0 -> eval sigma p * eval R p <> 0 -> eval (warp_shape (warp_radius x_s) sigma R) p = 1.
Proof.
  intros H1 H2 H3 HN. rewrite warp_shape_is.
  assert (E : eval (warp_radius x_s) p = 0). { unfold warp_radius. evc. rewrite H1, H2, H3. replace ((eval x_s p - eval x_s p) * (eval x_s p - eval x_s p) + 0 + 0) with 0 by ring. apply sqrt_0. }
  rewrite E. set (a := eval sigma p * eval R p) in *. replace (eval sigma p * (0 + eval R p)) with a by (unfold a; ring). replace (eval sigma p * (0 - eval R p)) with (- a) by (unfold a; ring).
  assert (O : tanh (- a) = - tanh a). { unfold tanh, sinh, cosh. rewrite Ropp_involutive. assert (A := exp_pos a). assert (B := exp_pos (- a)). field. apply Rgt_not_eq; lra. }
  assert (N : tanh a <> 0).
  { unfold tanh, sinh, cosh. assert (A := exp_pos a). assert (B := exp_pos (- a)). intros Z. apply Rmult_integral in Z. destruct Z as [Z|Z].
    - assert (exp a = exp (- a)) by lra. apply exp_inv in H. lra.
    - assert (0 < / ((exp a + exp (- a)) / 2)) by (apply Rinv_0_lt_compat; lra). lra. }
  rewrite O. field. exact N.
Qed.
