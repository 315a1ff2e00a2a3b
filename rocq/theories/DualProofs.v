From Coq Require Import Reals List ZArith Lra Lia Bool.
From Coquelicot Require Import Coquelicot.
From Verif Require Import Base Calc DualModel DualSpec.
Open Scope R_scope.

(** ** Characterisation of the operators through value and derivative *)
Lemma fdiv_ok x y : y <> 0 -> fdiv x y = Ok (x / y).
Proof. unfold fdiv; destruct (Req_EM_T y 0); tauto. Qed.
Lemma fdiv_0 x : fdiv x 0 = Err ZeroDivisionError.
Proof. unfold fdiv; destruct (Req_EM_T 0 0); tauto. Qed.
Lemma fpowZ_ok x n : x <> 0 \/ (0 <= n)%Z -> fpowZ x n = Ok (powerRZ x n).
Proof.
  unfold fpowZ; intros H; destruct (Req_EM_T x 0); [|reflexivity].
  destruct (Z.ltb_spec n 0); [|reflexivity]. destruct H; [tauto|lia].
Qed.

Lemma py_add_spec u v : exists w, py_add u v = Ok w /\ pval w = pval u + pval v /\ pderiv w = pderiv u + pderiv v.
Proof. destruct u, v; simpl; eexists; (split; [reflexivity|]); simpl; split; try ring. Qed.
Lemma py_sub_spec u v : exists w, py_sub u v = Ok w /\ pval w = pval u - pval v /\ pderiv w = pderiv u - pderiv v.
Proof. destruct u, v; simpl; eexists; (split; [reflexivity|]); simpl; split; try ring. Qed.
Lemma py_mul_spec u v : exists w, py_mul u v = Ok w /\ pval w = pval u * pval v
   /\ pderiv w = pderiv u * pval v + pval u * pderiv v.
Proof. destruct u, v; simpl; eexists; (split; [reflexivity|]); simpl; split; try ring. Qed.

Lemma d_truediv_PD s o : val o <> 0 ->
  d_truediv s (PD o) = Ok (mkdual (val s / val o) ((deriv s * val o - val s * deriv o) / (val o * val o))).
Proof.
  intros H. assert (H2 : val o * val o <> 0) by (apply Rmult_integral_contrapositive; tauto).
  simpl. rewrite (fdiv_ok _ (val o)), (fdiv_ok _ (val o * val o)) by assumption. simpl.
  destruct (Req_EM_T (val s) 0); [|reflexivity].
  destruct (Req_EM_T (val o) 0); [tauto|reflexivity].
Qed.

Lemma py_div_spec u v : pval v <> 0 ->
  exists w, py_div u v = Ok w /\ pval w = pval u / pval v
   /\ pderiv w = (pderiv u * pval v - pval u * pderiv v) / (pval v * pval v).
Proof.
  intros H; destruct u as [x|d], v as [y|e]; simpl in H.
  - simpl. rewrite fdiv_ok by assumption. eexists; split; [reflexivity|]; simpl; split; [reflexivity|]. field; auto.
  - unfold py_div, d_rtruediv. rewrite d_truediv_PD by assumption.
    eexists; split; [reflexivity|]; simpl; split; [reflexivity|]. reflexivity.
  - simpl. rewrite !fdiv_ok by assumption. eexists; split; [reflexivity|]; simpl; split; [reflexivity|]. field; auto.
  - unfold py_div. rewrite d_truediv_PD by assumption.
    eexists; split; [reflexivity|]; simpl; split; reflexivity.
Qed.

Lemma py_powZ_spec u n : (1 <= n)%Z \/ pval u <> 0 ->
  exists w, py_powZ u n = Ok w /\ pval w = powerRZ (pval u) n
   /\ pderiv w = pderiv u * IZR n * powerRZ (pval u) (n - 1).
Proof.
  intros H; destruct u as [x|d]; simpl in *.
  - rewrite fpowZ_ok by (destruct H; [right; lia|tauto]).
    eexists; split; [reflexivity|]; simpl; split; [reflexivity|ring].
  - unfold d_powZ. rewrite !fpowZ_ok by (destruct H; [right; lia|tauto]).
    eexists; split; [reflexivity|]; simpl; split; reflexivity.
Qed.

Lemma fpowR_ok x p : 0 < x -> fpowR x p = Ok (Rpower x p).
Proof. unfold fpowR; destruct (Rlt_dec 0 x); tauto. Qed.

Lemma py_powR_spec u p : 0 < pval u ->
  exists w, py_powR u p = Ok w /\ pval w = Rpower (pval u) p
   /\ pderiv w = pderiv u * p * Rpower (pval u) (p - 1).
Proof.
  intros H; destruct u as [x|d]; simpl in *.
  - rewrite fpowR_ok by assumption. eexists; split; [reflexivity|]; simpl; split; [reflexivity|ring].
  - unfold d_powR. rewrite !fpowR_ok by assumption. eexists; split; [reflexivity|]; simpl; split; reflexivity.
Qed.

Lemma py_tan_spec u : cos (pval u) <> 0 ->
  exists w, py_tan u = Ok w /\ pval w = tan (pval u)
   /\ pderiv w = pderiv u / (cos (pval u) * cos (pval u)).
Proof.
  intros H; destruct u as [x|d]; simpl in H.
  - simpl. rewrite fdiv_ok by assumption. eexists; split; [reflexivity|]; simpl; split; [reflexivity|].
    field; auto.
  - unfold py_tan, d_tan. rewrite d_truediv_PD by assumption.
    eexists; split; [reflexivity|]; simpl; split; [reflexivity|].
    replace (deriv d * cos (val d) * cos (val d) - sin (val d) * (- deriv d * sin (val d)))
      with (deriv d * (Rsqr (sin (val d)) + Rsqr (cos (val d)))) by (unfold Rsqr; ring).
    rewrite sin2_cos2. field; auto.
Qed.

Lemma py_log_spec u : 0 < pval u ->
  exists w, py_log u = Ok w /\ pval w = ln (pval u) /\ pderiv w = pderiv u / pval u.
Proof.
  intros H; destruct u as [x|d]; simpl in H; simpl.
  - unfold flog. destruct (Rlt_dec 0 x); [|tauto].
    eexists; split; [reflexivity|]; simpl; split; [reflexivity|]. field; lra.
  - unfold d_log, flog. destruct (Rlt_dec 0 (val d)); [|tauto]. simpl.
    rewrite fdiv_ok by lra. eexists; split; [reflexivity|]; simpl; split; reflexivity.
Qed.

(** ** The main induction: running on duals yields value and derivative along any path *)
Definition tracks (xs : nat -> R -> R) (t0 : R) (env : nat -> pyval) : Prop :=
  forall i, pval (env i) = xs i t0 /\ is_derive (xs i) t0 (pderiv (env i)).

Lemma run_exact e : forall xs t0 env, tracks xs t0 env ->
  defined_at (fun i => xs i t0) e ->
  exists v, runP env e = Ok v /\ pval v = meaning (fun i => xs i t0) e
    /\ is_derive (fun t => meaning (fun i => xs i t) e) t0 (pderiv v).
Proof.
  induction e as [i|c|a IHa b IHb|a IHa b IHb|a IHa b IHb|a IHa b IHb|a IHa|a IHa n|a IHa p
                 |a IHa|a IHa|a IHa|a IHa|a IHa];
    intros xs t0 env Htr Hd; simpl in Hd |- *.
  - destruct (Htr i) as [H1 H2]. eexists; split; [reflexivity|]; split; [exact H1|exact H2].
  - eexists; split; [reflexivity|]; split; [reflexivity|]. simpl.
    apply D_const.
  - destruct Hd as [Ha Hb].
    destruct (IHa _ _ _ Htr Ha) as (u & -> & Hu & Du), (IHb _ _ _ Htr Hb) as (v & -> & Hv & Dv). simpl.
    destruct (py_add_spec u v) as (w & -> & Hw & Dw). exists w; split; [reflexivity|].
    rewrite Hw, Dw, Hu, Hv; split; [reflexivity|]. apply (D_plus (fun t => meaning (fun i => xs i t) a) (fun t => meaning (fun i => xs i t) b)); assumption.
  - destruct Hd as [Ha Hb].
    destruct (IHa _ _ _ Htr Ha) as (u & -> & Hu & Du), (IHb _ _ _ Htr Hb) as (v & -> & Hv & Dv). simpl.
    destruct (py_sub_spec u v) as (w & -> & Hw & Dw). exists w; split; [reflexivity|].
    rewrite Hw, Dw, Hu, Hv; split; [reflexivity|]. apply (D_minus (fun t => meaning (fun i => xs i t) a) (fun t => meaning (fun i => xs i t) b)); assumption.
  - destruct Hd as [Ha Hb].
    destruct (IHa _ _ _ Htr Ha) as (u & -> & Hu & Du), (IHb _ _ _ Htr Hb) as (v & -> & Hv & Dv). simpl.
    destruct (py_mul_spec u v) as (w & -> & Hw & Dw). exists w; split; [reflexivity|].
    rewrite Hw, Dw, Hu, Hv; split; [reflexivity|].
    apply (D_mult (fun t => meaning (fun i => xs i t) a) (fun t => meaning (fun i => xs i t) b)); assumption.
  - destruct Hd as (Ha & Hb & Hnz).
    destruct (IHa _ _ _ Htr Ha) as (u & -> & Hu & Du), (IHb _ _ _ Htr Hb) as (v & -> & Hv & Dv). simpl.
    destruct (py_div_spec u v) as (w & -> & Hw & Dw); [rewrite Hv; assumption|]. exists w; split; [reflexivity|].
    rewrite Hw, Dw, Hu, Hv; split; [reflexivity|].
    apply (D_div (fun t => meaning (fun i => xs i t) a) (fun t => meaning (fun i => xs i t) b)); assumption.
  - destruct (IHa _ _ _ Htr Hd) as (u & -> & Hu & Du). simpl.
    eexists; split; [reflexivity|]. rewrite <- Hu.
    split; [destruct u; reflexivity|].
    replace (pderiv (py_neg u)) with (- pderiv u) by (destruct u; simpl; ring).
    apply (D_opp (fun t => meaning (fun i => xs i t) a)); assumption.
  - destruct Hd as [Ha Hn].
    destruct (IHa _ _ _ Htr Ha) as (u & -> & Hu & Du). simpl.
    destruct (py_powZ_spec u n) as (w & -> & Hw & Dw); [rewrite Hu; exact Hn|].
    exists w; split; [reflexivity|]. rewrite Hw, Dw, Hu; split; [reflexivity|].
    apply (D_powerRZ (fun t => meaning (fun i => xs i t) a)); assumption.
  - destruct Hd as [Ha Hn].
    destruct (IHa _ _ _ Htr Ha) as (u & -> & Hu & Du). simpl.
    destruct (py_powR_spec u p) as (w & -> & Hw & Dw); [rewrite Hu; exact Hn|].
    exists w; split; [reflexivity|]. rewrite Hw, Dw, Hu; split; [reflexivity|].
    apply (D_Rpower (fun t => meaning (fun i => xs i t) a)); assumption.
  - destruct (IHa _ _ _ Htr Hd) as (u & -> & Hu & Du). simpl.
    eexists; split; [reflexivity|]. rewrite <- Hu. split; [destruct u; reflexivity|].
    replace (pderiv (py_sin u)) with (pderiv u * cos (pval u)) by (destruct u; simpl; ring).
    rewrite Hu. apply (D_sin (fun t => meaning (fun i => xs i t) a)); assumption.
  - destruct (IHa _ _ _ Htr Hd) as (u & -> & Hu & Du). simpl.
    eexists; split; [reflexivity|]. rewrite <- Hu. split; [destruct u; reflexivity|].
    replace (pderiv (py_cos u)) with (pderiv u * - sin (pval u)) by (destruct u; simpl; ring).
    rewrite Hu. apply (D_cos (fun t => meaning (fun i => xs i t) a)); assumption.
  - destruct Hd as [Ha Hn].
    destruct (IHa _ _ _ Htr Ha) as (u & -> & Hu & Du). simpl.
    destruct (py_tan_spec u) as (w & -> & Hw & Dw); [rewrite Hu; exact Hn|].
    exists w; split; [reflexivity|]. rewrite Hw, Dw, Hu; split; [reflexivity|].
    apply (D_tan (fun t => meaning (fun i => xs i t) a)); assumption.
  - destruct Hd as [Ha Hn].
    destruct (IHa _ _ _ Htr Ha) as (u & -> & Hu & Du). simpl.
    destruct (py_log_spec u) as (w & -> & Hw & Dw); [rewrite Hu; exact Hn|].
    exists w; split; [reflexivity|]. rewrite Hw, Dw, Hu; split; [reflexivity|].
    apply (D_ln (fun t => meaning (fun i => xs i t) a)); assumption.
  - destruct (IHa _ _ _ Htr Hd) as (u & -> & Hu & Du). simpl.
    eexists; split; [reflexivity|]. rewrite <- Hu. split; [destruct u; reflexivity|].
    replace (pderiv (py_exp u)) with (pderiv u * exp (pval u)) by (destruct u; simpl; ring).
    rewrite Hu. apply (D_exp (fun t => meaning (fun i => xs i t) a)); assumption.
Qed.

(** Plain floats: the program computes its meaning wherever it is defined. *)
Lemma run_plain e (x : nat -> R) : defined_at x e -> runP (fun i => PF (x i)) e = Ok (PF (meaning x e)).
Proof.
  intros H. destruct (run_exact e (fun i _ => x i) 0 (fun i => PF (x i))) as (v & Hv & Hm & _).
  - intros i; split; [reflexivity|]. simpl. apply D_const.
  - exact H.
  - assert (H0 : (exists y, runP (fun i => PF (x i)) e = Ok (PF y)) \/ exists er, runP (fun i => PF (x i)) e = Err er).
    { clear. induction e; simpl;
      repeat match goal with
      | IH : _ \/ _ |- _ => destruct IH as [(? & ->)|(? & ->)]; simpl
      end; eauto;
      unfold fdiv, fpowZ, fpowR, flog;
      repeat match goal with |- context [if ?c then _ else _] => destruct c; simpl end; eauto. }
    destruct H0 as [(y & E)|(er & E)]; rewrite E in Hv; [|discriminate].
    apply Ok_inj in Hv. subst v. simpl in Hm. subst y. exact E.
Qed.

(** Definedness is an open condition along continuous paths. *)
Lemma defined_locally e : forall xs t0, (forall i, exists l, is_derive (xs i) t0 l) ->
  defined_at (fun i => xs i t0) e -> locally t0 (fun t => defined_at (fun i => xs i t) e).
Proof.
  intros xs t0 Hx.
  assert (Hx' : forall e, defined_at (fun i => xs i t0) e -> continuous (fun t => meaning (fun i => xs i t) e) t0).
  { intros e0 Hd.
    destruct (run_exact e0 xs t0 (fun i => PD (mkdual (xs i t0) (Derive (xs i) t0)))) as (v & _ & _ & Hv).
    - intros i; split; [reflexivity|]. simpl. destruct (Hx i) as [l Hl].
      apply Derive_correct. exists l; exact Hl.
    - exact Hd.
    - eapply D_continuous; exact Hv. }
  induction e as [i|c|a IHa b IHb|a IHa b IHb|a IHa b IHb|a IHa b IHb|a IHa|a IHa n|a IHa p
                 |a IHa|a IHa|a IHa|a IHa|a IHa];
    simpl; intros Hd; try (apply filter_true; fail); auto; try (apply filter_forall; intros; exact I).
  - destruct Hd; apply filter_and; auto.
  - destruct Hd; apply filter_and; auto.
  - destruct Hd; apply filter_and; auto.
  - destruct Hd as (? & ? & ?); apply filter_and; [auto|]. apply filter_and; [auto|].
    apply locally_nonzero; [apply Hx'|]; assumption.
  - destruct Hd as (Ha & [Hn|Hn]); apply filter_and; auto.
    + apply filter_forall; intros; left; assumption.
    + eapply filter_imp; [|apply (locally_nonzero (fun t => meaning (fun i => xs i t) a)); [apply Hx'|]; assumption].
      intros; right; assumption.
  - destruct Hd as (Ha & Hn); apply filter_and; [auto|].
    apply locally_positive; [apply Hx'|]; assumption.
  - destruct Hd as (Ha & Hn); apply filter_and; [auto|].
    apply (locally_nonzero (fun t => cos (meaning (fun i => xs i t) a))); [|exact Hn].
    apply (continuous_comp (fun t => meaning (fun i => xs i t) a) cos); [apply Hx'; assumption|apply continuous_cos].
  - destruct Hd as (Ha & Hn); apply filter_and; [auto|].
    apply locally_positive; [apply Hx'|]; assumption.
Qed.

(** ** C01: forward-mode AD is exact, phrased only with running the program *)
Lemma ad_exact_path : forall (e : pexpr) (xs : nat -> R -> R) (xdot : nat -> R) (t0 : R),
  (forall i, is_derive (xs i) t0 (xdot i)) ->
  defined_at (fun i => xs i t0) e ->
  exists (v : pyval) (F : R -> R),
    runP (fun i => PD (mkdual (xs i t0) (xdot i))) e = Ok v
    /\ locally t0 (fun t => runP (fun i => PF (xs i t)) e = Ok (PF (F t)))
    /\ pval v = F t0
    /\ is_derive F t0 (pderiv v).
Proof.
  intros e xs xdot t0 Hx Hd.
  destruct (run_exact e xs t0 (fun i => PD (mkdual (xs i t0) (xdot i)))) as (v & Hv & Hm & Hder).
  - intros i; split; [reflexivity|apply Hx].
  - exact Hd.
  - exists v, (fun t => meaning (fun i => xs i t) e). split; [exact Hv|]. split; [|split; assumption].
    eapply filter_imp; [|apply (defined_locally e xs t0); [intros i; eexists; apply Hx|exact Hd]].
    intros t Ht. exact (run_plain e (fun i => xs i t) Ht).
Qed.

Lemma ad_exact_single : forall (e : pexpr) (x0 : R),
  defined_at (fun _ => x0) e ->
  exists (F : R -> R) (d : R),
    locally x0 (fun x => runP (fun _ => PF x) e = Ok (PF (F x)))
    /\ deriv_of_program e x0 = Ok d
    /\ is_derive F x0 d.
Proof.
  intros e x0 Hd.
  destruct (ad_exact_path e (fun _ t => t) (fun _ => 1) x0) as (v & F & Hv & Hloc & _ & HF).
  - intros _. apply D_id.
  - exact Hd.
  - exists F, (pderiv v). split; [exact Hloc|]. split; [|exact HF].
    unfold deriv_of_program. rewrite Hv. reflexivity.
Qed.

(** outside the domain of + - * / unary minus and integer powers the program raises: a zero denominator
    whose numerator value is non-zero always raises ZeroDivisionError *)
Lemma div_by_zero_raises (s o : dual) : val o = 0 -> val s <> 0 ->
  d_truediv s (PD o) = Err ZeroDivisionError.
Proof.
  intros Ho Hs. simpl. destruct (Req_EM_T (val s) 0); [tauto|]. rewrite Ho, fdiv_0. reflexivity.
Qed.

(** ** C02: the 0/0 branch *)
Lemma zero_over_zero_limit : forall (a b : pexpr) (xs : nat -> R -> R) (xdot : nat -> R) t0,
  (forall i, is_derive (xs i) t0 (xdot i)) ->
  forall (da db : dual),
  runP (fun i => PD (mkdual (xs i t0) (xdot i))) a = Ok (PD da) ->
  runP (fun i => PD (mkdual (xs i t0) (xdot i))) b = Ok (PD db) ->
  defined_at (fun i => xs i t0) a -> defined_at (fun i => xs i t0) b ->
  val da = 0 -> val db = 0 -> deriv db <> 0 ->
  exists v, runP (fun i => PD (mkdual (xs i t0) (xdot i))) (EDiv a b) = Ok v
   /\ is_lim (fun t => meaning (fun i => xs i t) a / meaning (fun i => xs i t) b) t0 (pval v).
Proof.
  intros a b xs xdot t0 Hx da db Ra Rb Da Db Va Vb Hnz.
  simpl. rewrite Ra, Rb. simpl.
  destruct (Req_EM_T (val da) 0); [|tauto]. destruct (Req_EM_T (val db) 0); [|tauto].
  rewrite fdiv_ok by assumption. simpl.
  eexists; split; [reflexivity|]. simpl.
  assert (Htr : tracks xs t0 (fun i => PD (mkdual (xs i t0) (xdot i)))).
  { intros i; split; [reflexivity|apply Hx]. }
  destruct (run_exact a _ _ _ Htr Da) as (u & Hu & Mu & Du). rewrite Ra in Hu. apply Ok_inj in Hu. subst u.
  destruct (run_exact b _ _ _ Htr Db) as (u & Hu & Mv & Dv). rewrite Rb in Hu. apply Ok_inj in Hu. subst u.
  simpl in *.
  set (f := fun t => meaning (fun i => xs i t) a) in *.
  set (g := fun t => meaning (fun i => xs i t) b) in *.
  assert (Hf0 : f t0 = 0) by (unfold f; rewrite <- Mu; exact Va).
  assert (Hg0 : g t0 = 0) by (unfold g; rewrite <- Mv; exact Vb).
  assert (Lf : is_lim (fun t => (f t - f t0) / (t - t0)) t0 (deriv da)).
  { apply D_lim; exact Du. }
  assert (Lg : is_lim (fun t => (g t - g t0) / (t - t0)) t0 (deriv db)).
  { apply D_lim; exact Dv. }
  assert (Lq : is_lim (fun t => ((f t - f t0) / (t - t0)) / ((g t - g t0) / (t - t0))) t0
                (Rbar_div (deriv da) (deriv db))).
  { apply is_lim_div; [exact Lf|exact Lg| |].
    - intros E; inversion E; tauto.
    - unfold ex_Rbar_div, Rbar_div; simpl. exact I. }
  eapply is_lim_ext_loc; [|exact Lq].
  exists (mkposreal 1 Rlt_0_1). intros y _ Hne. rewrite Hf0, Hg0.
  change (meaning (fun i => xs i y) a) with (f y). change (meaning (fun i => xs i y) b) with (g y).
  assert (y - t0 <> 0) by lra.
  destruct (Req_dec (g y) 0) as [E|E].
  - rewrite E. replace ((0 - 0) / (y - t0)) with 0 by (field; assumption).
    unfold Rdiv. rewrite Rinv_0. ring.
  - field. split; assumption.
Qed.

Lemma zero_over_zero_deriv_refuted :
  exists (a b : pexpr) (x0 : R) (v : pyval) (F : R -> R),
    runP (fun _ => PD (mkdual x0 1)) (EDiv a b) = Ok v
    /\ (forall x, x <> x0 -> runP (fun _ => PF x) (EDiv a b) = Ok (PF (F x)))
    /\ pval v = F x0
    /\ is_derive F x0 1 /\ pderiv v = 0.
Proof.
  exists (EMul (EVar 0) (EVar 0)), (EVar 0), 0, (PD (mkdual 0 0)), (fun x => x).
  split; [|split; [|split; [|split]]].
  - simpl. destruct (Req_EM_T (0 * 0) 0) as [_|N]; [|exfalso; lra].
    destruct (Req_EM_T 0 0) as [_|N]; [|exfalso; lra].
    rewrite fdiv_ok by lra. simpl. do 3 f_equal. lra.
  - intros x Hx. simpl. rewrite fdiv_ok by assumption. simpl. do 2 f_equal. field. exact Hx.
  - reflexivity.
  - apply D_id.
  - reflexivity.
Qed.

(** ** C03: laws *)
Lemma d_add_comm a b : d_add a (PD b) = d_add b (PD a).
Proof. simpl; f_equal; ring. Qed.
Lemma d_add_assoc a b c : d_add (d_add a (PD b)) (PD c) = d_add a (PD (d_add b (PD c))).
Proof. simpl; f_equal; ring. Qed.
Lemma d_mul_comm a b : d_mul a (PD b) = d_mul b (PD a).
Proof. simpl; f_equal; ring. Qed.
Lemma d_mul_assoc a b c : d_mul (d_mul a (PD b)) (PD c) = d_mul a (PD (d_mul b (PD c))).
Proof. simpl; f_equal; ring. Qed.
Lemma d_mul_add a b c : d_mul a (PD (d_add b (PD c))) = d_add (d_mul a (PD b)) (PD (d_mul a (PD c))).
Proof. simpl; f_equal; ring. Qed.
Lemma d_sub_neg a b : d_sub a (PD b) = d_add a (PD (d_neg b)).
Proof. simpl; f_equal. Qed.
Lemma d_neg_neg a : d_neg (d_neg a) = a.
Proof. destruct a; unfold d_neg; simpl; f_equal; ring. Qed.
Lemma d_add_neg a : d_add a (PD (d_neg a)) = mkdual 0 0.
Proof. simpl; f_equal; ring. Qed.
Lemma d_div_mul a b : val b <> 0 ->
  exists q, d_truediv a (PD b) = Ok q /\ d_mul q (PD b) = a.
Proof.
  intros H. eexists; split; [apply d_truediv_PD; exact H|]. destruct a; simpl. f_equal; field; exact H.
Qed.
Lemma d_pow2 a : d_powZ a 2 = Ok (d_mul a (PD a)).
Proof.
  unfold d_powZ. rewrite !fpowZ_ok by (right; lia). simpl. f_equal. f_equal; ring.
Qed.
Definition same_value (u v : pyval) := pval u = pval v /\ pderiv u = pderiv v.
(** mixing with a float on either side = lifting the float to DualNumber(x, 0) *)
Definition lift (v : pyval) : pyval := match v with PF x => PD (mkdual x 0) | PD d => PD d end.
Definition same_result (r s : Res pyval) :=
  match r, s with
  | Ok u, Ok v => same_value u v
  | Err e, Err e' => e = e'
  | _, _ => False
  end.
Lemma lift_add u v : same_result (py_add u v) (py_add (lift u) (lift v)).
Proof. destruct u, v; simpl; split; simpl; ring. Qed.
Lemma lift_sub u v : same_result (py_sub u v) (py_sub (lift u) (lift v)).
Proof. destruct u, v; simpl; split; simpl; ring. Qed.
Lemma lift_mul u v : same_result (py_mul u v) (py_mul (lift u) (lift v)).
Proof. destruct u, v; simpl; split; simpl; ring. Qed.
(** for division the lifted float denominator must be non-zero or the numerator value non-zero *)
Lemma lift_div u v : pval v <> 0 \/ pval u <> 0 -> same_result (py_div u v) (py_div (lift u) (lift v)).
Proof.
  intros H. destruct (Req_dec (pval v) 0) as [Ev|Ev].
  - destruct H as [H|H]; [tauto|].
    destruct u as [x|d], v as [y|e]; simpl in *; unfold fdiv; rewrite ?Ev;
      repeat (destruct (Req_EM_T _ _); try tauto; simpl; try reflexivity).
  - destruct (py_div_spec u v Ev) as (w & -> & Hw & Dw).
    destruct (py_div_spec (lift u) (lift v)) as (w' & -> & Hw' & Dw'); [destruct v; exact Ev|].
    simpl. unfold same_value. rewrite Hw, Dw, Hw', Dw'. destruct u, v; simpl; split; reflexivity.
Qed.
(** ... and the exception: 0.0/0.0 with both floats or a dual over a float raises, lifted it also raises *)
Lemma lift_div_zero_zero_float u y : pval u = 0 -> y = 0 ->
  py_div u (PF y) = Err ZeroDivisionError /\ py_div (lift u) (lift (PF y)) = Err ZeroDivisionError.
Proof.
  intros Hu ->. destruct u as [x|d]; simpl in *; rewrite ?Hu, fdiv_0; simpl; split; try reflexivity;
  repeat (destruct (Req_EM_T _ _); try tauto; simpl; rewrite ?fdiv_0; try reflexivity).
Qed.
Lemma lift_div_zero_zero u e : pval u = 0 -> val e = 0 ->
  same_result (py_div u (PD e)) (py_div (lift u) (PD e)).
Proof.
  intros Hu He. destruct u as [x|d]; simpl in *.
  - destruct (Req_EM_T x 0); [|tauto]. destruct (Req_EM_T (val e) 0); [|tauto].
    destruct (fdiv 0 (deriv e)); simpl; [split; reflexivity|reflexivity].
  - destruct (Req_EM_T (val d) 0); [|tauto]. destruct (Req_EM_T (val e) 0); [|tauto].
    destruct (fdiv (deriv d) (deriv e)); simpl; [split; reflexivity|reflexivity].
Qed.
Lemma lift_div_all u v : same_result (py_div u v) (py_div (lift u) (lift v)).
Proof.
  destruct (Req_dec (pval v) 0) as [Ev|Ev]; [|apply lift_div; tauto].
  destruct (Req_dec (pval u) 0) as [Eu|Eu]; [|apply lift_div; tauto].
  destruct v as [y|e].
  - destruct (lift_div_zero_zero_float u y Eu Ev) as [-> ->]. reflexivity.
  - apply lift_div_zero_zero; assumption.
Qed.
