(** Which metrics have which symmetries; momentum reversal; the Geodesic constructors. *)
From Coq Require Import Reals List ZArith Lra Lia Bool String.
From Verif Require Import Base DualModel DualSpec Calc GeoUtilsModel GeoUtilsProofs FantasyModel FantasyProofs FantasyProofs2 FantasyProofs3 GeodesicModel FantasySymm.
Import ListNotations.
Open Scope R_scope.

Lemma runP_indep k e env env' : vars_below4 e = true -> mentions k e = false -> (forall i, (i < 4)%nat -> i <> k -> env i = env' i) -> runP env e = runP env' e.
Proof.
  intros V M H. revert V M.
  induction e as [i|c|x IHa y IHb|x IHa y IHb|x IHa y IHb|x IHa y IHb|x IHa|x IHa n|x IHa p|x IHa|x IHa|x IHa|x IHa|x IHa]; cbn [runP mentions vars_below4]; intros V M;
    try reflexivity;
    try (rewrite IHa by assumption; reflexivity);
    try (apply andb_prop in V; apply orb_false_elim in M; rewrite IHa, IHb by tauto; reflexivity).
  f_equal. apply H; [apply Nat.ltb_lt; exact V|apply Nat.eqb_neq; exact M].
Qed.
Lemma run_metric_ext g env env' : (forall i j, (i < 4)%nat -> (j < 4)%nat -> runP env (mnth g i j) = runP env' (mnth g i j)) -> run_metric g env = run_metric g env'.
Proof.
  intros H. unfold run_metric. f_equal. unfold q4map.
  assert (E : forall i j, (i < 4)%nat -> (j < 4)%nat -> runP env (q4nth (q4nth g i) j) = runP env' (q4nth (q4nth g i) j)) by exact H.
  apply Q4_eq; cbn [c0 c1 c2 c3]; f_equal; apply Q4_eq; cbn [c0 c1 c2 c3];
  [apply (E 0 0)%nat|apply (E 0 1)%nat|apply (E 0 2)%nat|apply (E 0 3)%nat|apply (E 1 0)%nat|apply (E 1 1)%nat|apply (E 1 2)%nat|apply (E 1 3)%nat
  |apply (E 2 0)%nat|apply (E 2 1)%nat|apply (E 2 2)%nat|apply (E 2 3)%nat|apply (E 3 0)%nat|apply (E 3 1)%nat|apply (E 3 2)%nat|apply (E 3 3)%nat]; lia.
Qed.

(** ** translations *)
Ltac ix i Hi := destruct i as [|[|[|[|i]]]]; [| | | |exfalso; lia].
Definition ones : V4 := mkQ4 1 1 1 1.
Definition along (k : nat) (s : R) : V4 := q4tab (fun i => if Nat.eqb i k then s else 0).
Lemma signs_ones : signs ones. Proof. intros i Hi. ix i Hi; cbn; ring. Qed.
Lemma flipv_ones v : flipv ones v = v. Proof. unfold ones. vring; ring. Qed.
Lemma flipm_ones m : flipm ones m = m. Proof. unfold ones. apply Q4_eq; vring; ring. Qed.
Lemma shift_other k s q i : (i < 4)%nat -> i <> k -> q4nth (move ones (along k s) q) i = q4nth q i.
Proof.
  intros Hi N. unfold move. rewrite flipv_ones. unfold vadd, along, q4map2. ix i Hi; unfold q4tab; cbn [q4nth c0 c1 c2 c3];
  rewrite (proj2 (Nat.eqb_neq _ _) N); ring.
Qed.
Lemma translation g k s : well_formed g -> independent_of g k -> respects (metricfun_of g) ones (along k s).
Proof.
  intros W I. assert (Z : forall J : M4, q4map (vscal 1) (flipm ones J) = J).
  { intros J. rewrite flipm_ones. apply Q4_eq; vring; ring. }
  split.
  - intros q. cbn [metricfun_of gval]. unfold metric_at.
    rewrite (run_metric_ext g _ (fun i => PF (q4nth q i))).
    + destruct (let* m := run_metric g (fun i => PF (q4nth q i)) in _); cbn [mapR]; [rewrite flipm_ones|]; reflexivity.
    + intros i j Hi Hj. apply (runP_indep k); [apply W; assumption|apply I; assumption|]. intros l Hl N. rewrite shift_other by assumption. reflexivity.
  - intros q l Hl. cbn [metricfun_of gjac].
    assert (E : jacobian_g g (move ones (along k s) q) (Z.of_nat l) = jacobian_g g q (Z.of_nat l)).
    { assert (E : run_metric g (dual_coords (move ones (along k s) q) (Z.to_nat (Z.of_nat l))) = run_metric g (dual_coords q (Z.to_nat (Z.of_nat l)))).
      { apply run_metric_ext. intros i j Hi Hj. apply (runP_indep k); [apply W; assumption|apply I; assumption|]. intros m Hm N. unfold dual_coords. rewrite shift_other by assumption. reflexivity. }
      unfold jacobian_g, jac_upper, diff_g. rewrite E. reflexivity. }
    rewrite E. replace (q4nth ones l) with 1 by (ix l Hl; reflexivity).
    destruct (jacobian_g g q (Z.of_nat l)); cbn [mapR]; [rewrite Z|]; reflexivity.
Qed.

(** ** reflections of the angle theta = x_2 about pi/2 *)
Definition tw (sg eta : R) (v : pyval) : pyval :=
  match v with PF x => PF (sg * x) | PD d => PD (mkdual (sg * val d) (sg * eta * deriv d)) end.
Inductive Par : R -> pexpr -> Prop :=
| P_var i : i <> 2%nat -> Par 1 (EVar i)
| P_const x : Par 1 (EConst x)
| P_zero : Par (-1) (EConst 0)
| P_sin : Par 1 (ESin (EVar 2))
| P_cos : Par (-1) (ECos (EVar 2))
| P_cos2 : Par 1 (ECos (EMul (EConst 2) (EVar 2)))
| P_add s a b : Par s a -> Par s b -> Par s (EAdd a b)
| P_sub s a b : Par s a -> Par s b -> Par s (ESub a b)
| P_mul s t a b : Par s a -> Par t b -> Par (s * t) (EMul a b)
| P_div s t a b : Par s a -> Par t b -> Par (s * t) (EDiv a b)
| P_neg s a : Par s a -> Par s (ENeg a)
| P_sq s a : Par s a -> Par 1 (EPow a 2).
Lemma Par_sign s e : Par s e -> s * s = 1.
Proof. induction 1; try ring; try assumption; nra. Qed.
Lemma sq1 s : s * s = 1 -> s = 1 \/ s = -1.
Proof. intros H. assert ((s - 1) * (s + 1) = 0) by (ring_simplify; nra). apply Rmult_integral in H0. destruct H0; lra. Qed.
Ltac sgn H := apply sq1 in H; destruct H as [-> | ->].
Ltac pd := repeat match goal with |- Ok _ = Ok _ => apply f_equal | |- PF _ = PF _ => apply f_equal | |- PD _ = PD _ => apply f_equal | |- mkdual _ _ = mkdual _ _ => apply f_equal2 end.
Lemma tw_add s eta u v : py_add (tw s eta u) (tw s eta v) = mapR (tw s eta) (py_add u v).
Proof. destruct u as [x|[a b]], v as [y|[c d]]; cbn [tw py_add mapR d_add d_radd val deriv]; pd; ring. Qed.
Lemma tw_sub s eta u v : py_sub (tw s eta u) (tw s eta v) = mapR (tw s eta) (py_sub u v).
Proof. destruct u as [x|[a b]], v as [y|[c d]]; cbn [tw py_sub mapR d_sub d_rsub val deriv]; pd; ring. Qed.
Lemma tw_mul s t eta u v : py_mul (tw s eta u) (tw t eta v) = mapR (tw (s * t) eta) (py_mul u v).
Proof. destruct u as [x|[a b]], v as [y|[c d]]; cbn [tw py_mul mapR d_mul d_rmul val deriv]; pd; ring. Qed.
Lemma tw_neg s eta u : py_neg (tw s eta u) = tw s eta (py_neg u).
Proof. destruct u as [x|[a b]]; unfold tw, py_neg, d_neg; cbn [val deriv]; pd; ring. Qed.
Lemma fdiv_tw s t x y : s * s = 1 -> t * t = 1 -> fdiv (s * x) (t * y) = mapR (Rmult (s * t)) (fdiv x y).
Proof.
  intros Hs Ht. sgn Hs; sgn Ht; unfold fdiv; destruct (Req_EM_T y 0) as [->|N]; (destruct (Req_EM_T _ 0) as [E|E]; [try lra|try lra]; cbn [mapR]; try reflexivity; f_equal; field; lra).
Qed.
Lemma tw_div s t eta u v : s * s = 1 -> t * t = 1 -> eta * eta = 1 -> py_div (tw s eta u) (tw t eta v) = mapR (tw (s * t) eta) (py_div u v).
Proof.
  intros Hs Ht He.
  assert (TD : forall a b c d, d_truediv (mkdual (s * a) (s * eta * b)) (PD (mkdual (t * c) (t * eta * d)))
     = mapR (fun q => mkdual (s * t * val q) (s * t * eta * deriv q)) (d_truediv (mkdual a b) (PD (mkdual c d)))).
  { intros a b c d. cbn [d_truediv val deriv].
    sgn Hs; sgn Ht; sgn He; unfold fdiv; destruct (Req_EM_T a 0) as [->|Na]; destruct (Req_EM_T c 0) as [->|Nc];
    repeat (match goal with |- context [Req_EM_T ?x 0] => destruct (Req_EM_T x 0); try (exfalso; lra) end; cbn [bindR mapR val deriv]; try reflexivity);
    try (exfalso; nra); pd; field; try lra; try (intros Z; nra). }
  destruct u as [x|[a b]], v as [y|[c d]].
  - cbn [tw py_div mapR]. rewrite fdiv_tw by assumption. destruct (fdiv x y); reflexivity.
  - cbn [tw py_div mapR d_rtruediv val deriv]. replace (mkdual (s * x) 0) with (mkdual (s * x) (s * eta * 0)) by (f_equal; ring). rewrite TD.
    destruct (d_truediv (mkdual x 0) (PD (mkdual c d))); reflexivity.
  - cbn [tw py_div mapR d_truediv val deriv]. rewrite !fdiv_tw by assumption.
    replace (fdiv (s * eta * b) (t * y)) with (mapR (Rmult (s * t * eta)) (fdiv b y)).
    + unfold fdiv. destruct (Req_EM_T y 0); reflexivity.
    + rewrite (fdiv_tw (s * eta) t) by (try exact Ht; nra). destruct (fdiv b y); cbn [mapR]; [f_equal; ring|reflexivity].
  - cbn [tw py_div val deriv]. rewrite TD. destruct (d_truediv (mkdual a b) (PD (mkdual c d))); reflexivity.
Qed.
Lemma fpow_even x n : (0 <= n)%Z -> fpowZ x n = Ok (powerRZ x n).
Proof. intros H. unfold fpowZ. destruct (Req_EM_T x 0); [|reflexivity]. destruct (Z.ltb_spec n 0); [lia|reflexivity]. Qed.
Lemma pw2 x : powerRZ x 2 = x * x. Proof. change (x ^ 2 = x * x). ring. Qed.
Lemma pw1 x : powerRZ x 1 = x. Proof. change (x ^ 1 = x). ring. Qed.
Lemma tw_sq s eta u : s * s = 1 -> py_powZ (tw s eta u) 2 = mapR (tw 1 eta) (py_powZ u 2).
Proof.
  intros Hs. destruct u as [x|[a b]]; cbn [tw py_powZ]; unfold d_powZ; rewrite !fpow_even by lia; cbn [mapR bindR tw val deriv]; pd;
  change (2 - 1)%Z with 1%Z; rewrite ?pw2, ?pw1; ring [Hs].
Qed.

Lemma cos_2PI_pl x : cos (x + 2 * PI) = cos x. Proof. replace (x + 2 * PI) with (x + 2 * INR 1 * PI) by (simpl; ring). apply cos_period. Qed.
Lemma sin_2PI_pl x : sin (x + 2 * PI) = sin x. Proof. replace (x + 2 * PI) with (x + 2 * INR 1 * PI) by (simpl; ring). apply sin_period. Qed.
Section Mirror.
Variables (env env' : nat -> pyval) (eta : R).
Hypotheses (Heta : eta * eta = 1) (Hother : forall i, i <> 2%nat -> env' i = tw 1 eta (env i))
  (Hth : match env 2%nat, env' 2%nat with
         | PF x, PF x' => x' = PI - x
         | PD d, PD d' => val d' = PI - val d /\ deriv d' = - eta * deriv d
         | _, _ => False end).
Lemma mirror_run s e : Par s e -> runP env' e = mapR (tw s eta) (runP env e).
Proof.
  induction 1 as [i N|x| | | | |s a b _ IHa _ IHb|s a b _ IHa _ IHb|s t a b Pa IHa Pb IHb|s t a b Pa IHa Pb IHb|s a _ IHa|s a Pa IHa]; cbn [runP].
  - rewrite Hother by exact N. reflexivity.
  - cbn [mapR tw]. pd. ring.
  - cbn [mapR tw]. pd. ring.
  - cbn [bindR mapR]. destruct (env 2%nat) as [x|[x dx]], (env' 2%nat) as [y|[y dy]]; try contradiction.
    + cbn [py_sin tw]. rewrite Hth. replace (PI - x) with (- x + PI) by ring. pd. rewrite neg_sin, sin_neg. ring.
    + cbn [val deriv] in Hth. destruct Hth as [-> ->]. cbn [py_sin tw]. unfold d_sin. cbn [val deriv]. replace (PI - x) with (- x + PI) by ring.
      rewrite neg_sin, neg_cos, sin_neg, cos_neg. pd; ring.
  - cbn [bindR mapR]. destruct (env 2%nat) as [x|[x dx]], (env' 2%nat) as [y|[y dy]]; try contradiction.
    + cbn [py_cos tw]. rewrite Hth. replace (PI - x) with (- x + PI) by ring. pd. rewrite neg_cos, cos_neg. ring.
    + cbn [val deriv] in Hth. destruct Hth as [-> ->]. cbn [py_cos tw]. unfold d_cos. cbn [val deriv]. replace (PI - x) with (- x + PI) by ring.
      rewrite neg_sin, neg_cos, sin_neg, cos_neg. pd; ring.
  - cbn [bindR mapR]. destruct (env 2%nat) as [x|[x dx]], (env' 2%nat) as [y|[y dy]]; try contradiction.
    + cbn [py_mul bindR mapR py_cos tw]. rewrite Hth. pd. replace (2 * (PI - x)) with (- (2 * x) + 2 * PI) by ring. rewrite cos_2PI_pl. rewrite cos_neg. ring.
    + cbn [val deriv] in Hth. destruct Hth as [-> ->]. cbn [py_mul d_rmul d_mul bindR mapR py_cos tw val deriv]. unfold d_cos. cbn [val deriv].
      replace ((PI - x) * 2) with (- (x * 2) + 2 * PI) by ring. rewrite cos_2PI_pl, sin_2PI_pl, cos_neg, sin_neg. pd; ring.
  - rewrite IHa, IHb. destruct (runP env a) as [u|]; cbn [mapR bindR]; [|reflexivity]. destruct (runP env b) as [v|]; cbn [mapR bindR]; [|reflexivity]. apply tw_add.
  - rewrite IHa, IHb. destruct (runP env a) as [u|]; cbn [mapR bindR]; [|reflexivity]. destruct (runP env b) as [v|]; cbn [mapR bindR]; [|reflexivity]. apply tw_sub.
  - rewrite IHa, IHb. destruct (runP env a) as [u|]; cbn [mapR bindR]; [|reflexivity]. destruct (runP env b) as [v|]; cbn [mapR bindR]; [|reflexivity]. apply tw_mul.
  - rewrite IHa, IHb. destruct (runP env a) as [u|]; cbn [mapR bindR]; [|reflexivity]. destruct (runP env b) as [v|]; cbn [mapR bindR]; [|reflexivity].
    apply tw_div; [eapply Par_sign; exact Pa|eapply Par_sign; exact Pb|exact Heta].
  - rewrite IHa. destruct (runP env a) as [u|]; cbn [mapR bindR]; [|reflexivity]. rewrite tw_neg. reflexivity.
  - rewrite IHa. destruct (runP env a) as [u|]; cbn [mapR bindR]; [|reflexivity]. apply tw_sq. eapply Par_sign; exact Pa.
Qed.
End Mirror.
