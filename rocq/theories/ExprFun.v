(** Function symbols in the symbolic domain.  As in [ExprModel] the scalars are expression trees, but the symbols of an
    expression are not only coordinates: [ext p j] is the value of symbol j at the point with coordinates p, and
    [D k j] is the expression that sympy.diff returns for symbol j and coordinate k (for example diff(J0(rho), rho) = -J1(rho)).
    A coordinate is the symbol with [ext p j = p j] and [D k j] = 1 or 0.  [ExprModel] is the case of coordinates only. *)
From Coq Require Import String Reals List Arith Lia Setoid Morphisms Ring Lra.
From Coquelicot Require Import Coquelicot.
From Verif Require Import Base SymAlg SymModel SymGeo SymMove SymConn SymFinal SymCacheProofs ExprModel PredefModel PredefBridge.
Import ListNotations.
Open Scope R_scope.

(** sympy.diff(e, s_i), function symbols differentiated by the rule D *)
Fixpoint fdiff (D : nat -> nat -> expr) (i : nat) (e : expr) : expr :=
  match e with
  | EConst _ => EConst 0
  | EVar j => D i j
  | EAdd a b => EAdd (fdiff D i a) (fdiff D i b)
  | ESub a b => ESub (fdiff D i a) (fdiff D i b)
  | EMul a b => EAdd (EMul (fdiff D i a) b) (EMul a (fdiff D i b))
  | EOpp a => EOpp (fdiff D i a)
  | EDiv a b => EDiv (ESub (EMul (fdiff D i a) b) (EMul a (fdiff D i b))) (EMul b b)
  | ESin a => EMul (ECos a) (fdiff D i a)
  | ECos a => EOpp (EMul (ESin a) (fdiff D i a))
  | EExp a => EMul (EExp a) (fdiff D i a)
  | ELn a => EDiv (fdiff D i a) a
  | ESqrt a => EDiv (fdiff D i a) (EMul (EConst 2) (ESqrt a))
  end.

(** the differentiation rule D is right for the functions ext on the open set U of coordinate values *)
Definition rule_ok (U : (nat -> R) -> Prop) (ext : (nat -> R) -> nat -> R) (D : nat -> nat -> expr) : Prop :=
  (forall p i, U p -> locally (p i) (fun x => U (upd p i x))) /\
  (forall p q j, (forall i, p i = q i) -> ext p j = ext q j) /\
  (forall p i j, U p -> is_derive (fun x => ext (upd p i x) j) (p i) (eval (D i j) (ext p))) /\
  (forall p i j, U p -> wd (D i j) (ext p)) /\
  (forall p i k j, U p -> eval (fdiff D i (D k j)) (ext p) = eval (fdiff D k (D i j)) (ext p)).

Section Inst.
Variables (U : (nat -> R) -> Prop) (ext : (nat -> R) -> nat -> R) (D : nat -> nat -> expr).
Hypothesis HR : rule_ok U ext D.

Lemma fwd_diff i e p : U p -> wd e (ext p) -> wd (fdiff D i e) (ext p).
Proof.
  intros Hp. destruct HR as [_ [_ [_ [HW _]]]]. induction e; cbn [fdiff wd eval]; intros H; try tauto.
  - apply HW; exact Hp.
  - destruct H as [H1 [H2 H3]]. split; [tauto|]. split; [tauto|]. apply Rmult_integral_contrapositive_currified; exact H3.
  - destruct H as [H1 H2]. split; [tauto|]. split; [exact H1|]. lra.
  - destruct H as [H1 H2]. split; [tauto|]. split; [tauto|]. apply sqrt_lt_R0 in H2. apply Rmult_integral_contrapositive_currified; lra.
Qed.
Lemma ext_same p i j : ext (upd p i (p i)) j = ext p j.
Proof. destruct HR as [_ [HE _]]. apply HE. intros k. apply upd_same. Qed.
Lemma fdiff_correct i e p : U p -> wd e (ext p) -> is_derive (fun x => eval e (ext (upd p i x))) (p i) (eval (fdiff D i e) (ext p)).
Proof.
  intros Hp. assert (E0 : forall e, eval e (ext (upd p i (p i))) = eval e (ext p)) by (intros; apply eval_ext; intros; apply ext_same).
  induction e; cbn [wd eval fdiff]; intros H.
  - apply is_derive_Reals. apply derivable_pt_lim_const.
  - apply HR. exact Hp.
  - destruct H as [H1 H2]. apply is_derive_Reals. apply (derivable_pt_lim_plus (fun x => eval e1 (ext (upd p i x))) (fun x => eval e2 (ext (upd p i x)))); apply is_derive_Reals; auto.
  - destruct H as [H1 H2]. apply is_derive_Reals. rewrite <- (E0 e1), <- (E0 e2).
    apply (derivable_pt_lim_mult (fun x => eval e1 (ext (upd p i x))) (fun x => eval e2 (ext (upd p i x)))); apply is_derive_Reals; auto.
  - destruct H as [H1 H2]. apply is_derive_Reals. apply (derivable_pt_lim_minus (fun x => eval e1 (ext (upd p i x))) (fun x => eval e2 (ext (upd p i x)))); apply is_derive_Reals; auto.
  - apply is_derive_Reals. apply (derivable_pt_lim_opp (fun x => eval e (ext (upd p i x)))); apply is_derive_Reals; auto.
  - destruct H as [H1 [H2 H3]]. apply is_derive_Reals.
    replace ((eval (fdiff D i e1) (ext p) * eval e2 (ext p) - eval e1 (ext p) * eval (fdiff D i e2) (ext p)) / (eval e2 (ext p) * eval e2 (ext p)))
      with ((eval (fdiff D i e1) (ext p) * eval e2 (ext p) - eval (fdiff D i e2) (ext p) * eval e1 (ext p)) / Rsqr (eval e2 (ext p))) by (unfold Rsqr; field; exact H3).
    rewrite <- (E0 e2), <- (E0 e1).
    apply (derivable_pt_lim_div (fun x => eval e1 (ext (upd p i x))) (fun x => eval e2 (ext (upd p i x)))); [apply is_derive_Reals; auto|apply is_derive_Reals; auto|rewrite E0; exact H3].
  - apply is_derive_Reals. rewrite <- (E0 e). apply (derivable_pt_lim_comp (fun x => eval e (ext (upd p i x))) sin); [apply is_derive_Reals; auto|apply derivable_pt_lim_sin].
  - apply is_derive_Reals. replace (- (sin (eval e (ext p)) * eval (fdiff D i e) (ext p))) with (- sin (eval e (ext p)) * eval (fdiff D i e) (ext p)) by ring. rewrite <- (E0 e).
    apply (derivable_pt_lim_comp (fun x => eval e (ext (upd p i x))) cos); [apply is_derive_Reals; auto|apply derivable_pt_lim_cos].
  - apply is_derive_Reals. rewrite <- (E0 e). apply (derivable_pt_lim_comp (fun x => eval e (ext (upd p i x))) exp); [apply is_derive_Reals; auto|apply derivable_pt_lim_exp].
  - destruct H as [H1 H2]. apply is_derive_Reals. replace (eval (fdiff D i e) (ext p) / eval e (ext p)) with (/ eval e (ext p) * eval (fdiff D i e) (ext p)) by (field; lra).
    rewrite <- (E0 e). apply (derivable_pt_lim_comp (fun x => eval e (ext (upd p i x))) ln); [apply is_derive_Reals; auto|apply derivable_pt_lim_ln; rewrite E0; exact H2].
  - destruct H as [H1 H2]. assert (0 < sqrt (eval e (ext p))) by (apply sqrt_lt_R0; exact H2). apply is_derive_Reals.
    replace (eval (fdiff D i e) (ext p) / (2 * sqrt (eval e (ext p)))) with (/ (2 * sqrt (eval e (ext p))) * eval (fdiff D i e) (ext p)) by (field; lra).
    rewrite <- (E0 e). apply (derivable_pt_lim_comp (fun x => eval e (ext (upd p i x))) sqrt); [apply is_derive_Reals; auto|apply derivable_pt_lim_sqrt; rewrite E0; exact H2].
Qed.
Lemma fdiff_comm i j e p : U p -> wd e (ext p) -> eval (fdiff D i (fdiff D j e)) (ext p) = eval (fdiff D j (fdiff D i e)) (ext p).
Proof.
  intros Hp. induction e; cbn [wd]; intros H.
  - reflexivity.
  - cbn [fdiff]. apply HR; exact Hp.
  - cbn [fdiff eval]. rewrite IHe1, IHe2 by tauto. ring.
  - cbn [fdiff eval]. rewrite IHe1, IHe2 by tauto. ring.
  - cbn [fdiff eval]. rewrite IHe1, IHe2 by tauto. ring.
  - cbn [fdiff eval]. rewrite IHe by tauto. ring.
  - cbn [fdiff eval]. rewrite IHe1, IHe2 by tauto. field. tauto.
  - cbn [fdiff eval]. rewrite IHe by tauto. ring.
  - cbn [fdiff eval]. rewrite IHe by tauto. ring.
  - cbn [fdiff eval]. rewrite IHe by tauto. ring.
  - cbn [fdiff eval]. rewrite IHe by tauto. field. lra.
  - destruct H as [H1 H2]. assert (0 < sqrt (eval e (ext p))) by (apply sqrt_lt_R0; exact H2). cbn [fdiff eval]. rewrite IHe by tauto. field. lra.
Qed.
End Inst.

(** The scalars: expressions defined at every point of U, equal when they have the same values on U. *)
Definition FWD (U : (nat -> R) -> Prop) (ext : (nat -> R) -> nat -> R) (e : expr) : Prop := forall p, U p -> wd e (ext p).
Definition KF U ext : Type := { e : expr | FWD U ext e }.
Section Ops.
Variables (U : (nat -> R) -> Prop) (ext : (nat -> R) -> nat -> R) (D : nat -> nat -> expr).
Hypothesis HR : rule_ok U ext D.
Definition fev (x : KF U ext) (p : nat -> R) : R := eval (proj1_sig x) (ext p).
Definition feq (x y : KF U ext) : Prop := forall p, U p -> fev x p = fev y p.
Definition fconst (r : R) : KF U ext := exist (FWD U ext) (EConst r) (fun _ _ => I).
Definition fadd (x y : KF U ext) : KF U ext := exist (FWD U ext) (EAdd (proj1_sig x) (proj1_sig y)) (fun p H => conj (proj2_sig x p H) (proj2_sig y p H)).
Definition fmul (x y : KF U ext) : KF U ext := exist (FWD U ext) (EMul (proj1_sig x) (proj1_sig y)) (fun p H => conj (proj2_sig x p H) (proj2_sig y p H)).
Definition fsub (x y : KF U ext) : KF U ext := exist (FWD U ext) (ESub (proj1_sig x) (proj1_sig y)) (fun p H => conj (proj2_sig x p H) (proj2_sig y p H)).
Definition fopp (x : KF U ext) : KF U ext := exist (FWD U ext) (EOpp (proj1_sig x)) (proj2_sig x).
Definition fdivi (x y : KF U ext) : KF U ext :=
  match EM_inf (forall p, U p -> fev y p <> 0) with
  | left H => exist (FWD U ext) (EDiv (proj1_sig x) (proj1_sig y)) (fun p Hp => conj (proj2_sig x p Hp) (conj (proj2_sig y p Hp) (H p Hp)))
  | right _ => fconst 0
  end.
Definition fder (i : nat) (x : KF U ext) : KF U ext :=
  exist (FWD U ext) (fdiff D i (proj1_sig x)) (fun p H => fwd_diff U ext D HR i _ p H (proj2_sig x p H)).
Variables (simp : KF U ext -> KF U ext) (minv : nat -> (nat -> nat -> KF U ext) -> option (nat -> nat -> KF U ext)).
Definition fun_ops : dops := mkdops (KF U ext) feq (fconst 0) (fconst 1) fadd fmul fsub fopp fdivi fder simp minv.
Definition fsimp_ok : Prop := forall x, feq (simp x) x.
Definition fminv_ok : Prop := forall n g gi, minv n g = Some gi -> forall i j, (i < n)%nat -> (j < n)%nat ->
  @keq fun_ops (@ksum fun_ops n (fun m => fmul (g i m) (gi m j))) (@kdelta fun_ops i j) /\
  @keq fun_ops (@ksum fun_ops n (fun m => fmul (gi i m) (g m j))) (@kdelta fun_ops i j).
Lemma fev_kofn n p : fev (@kofn fun_ops n) p = INR n.
Proof. induction n as [|n IH]; [reflexivity|]. rewrite S_INR, <- IH. reflexivity. Qed.
Lemma fdivi_ev x y : (forall p, U p -> fev y p <> 0) -> forall p, fev (fdivi x y) p = fev x p / fev y p.
Proof. intros H p. unfold fdivi. destruct (EM_inf _) as [Y|N]; [reflexivity|]. exfalso. apply N. exact H. Qed.
Lemma fder_p i x y : feq x y -> feq (fder i x) (fder i y).
Proof.
  intros H p Hp. assert (D1 := fdiff_correct U ext D HR i _ p Hp (proj2_sig x p Hp)). assert (D2 := fdiff_correct U ext D HR i _ p Hp (proj2_sig y p Hp)).
  change (eval (fdiff D i (proj1_sig x)) (ext p) = eval (fdiff D i (proj1_sig y)) (ext p)).
  apply is_derive_unique in D1. rewrite <- D1. apply is_derive_unique.
  apply (is_derive_ext_loc (fun t => fev y (upd p i t))); [|exact D2].
  apply (filter_imp (fun t => U (upd p i t))); [|apply HR; exact Hp]. intros t Ht. symmetry. apply H. exact Ht.
Qed.
Theorem fun_laws : fsimp_ok -> fminv_ok -> dlaws fun_ops.
Proof.
  intros Hs Hm. constructor.
  - split; [intros x p _; reflexivity|intros x y H p Hp; symmetry; apply H; exact Hp|intros x y z H1 H2 p Hp; rewrite (H1 p Hp); apply H2; exact Hp].
  - intros x x' Hx y y' Hy p Hp. change (fev x p + fev y p = fev x' p + fev y' p). rewrite (Hx p Hp), (Hy p Hp). reflexivity.
  - intros x x' Hx y y' Hy p Hp. change (fev x p * fev y p = fev x' p * fev y' p). rewrite (Hx p Hp), (Hy p Hp). reflexivity.
  - intros x x' Hx y y' Hy p Hp. change (fev x p - fev y p = fev x' p - fev y' p). rewrite (Hx p Hp), (Hy p Hp). reflexivity.
  - intros x x' Hx p Hp. change (- fev x p = - fev x' p). rewrite (Hx p Hp). reflexivity.
  - constructor; intros; intros p Hp; cbn; unfold fev; cbn; ring.
  - intros x x' Hx y y' Hy p Hp. change (@kdiv fun_ops) with fdivi. unfold fdivi. destruct (EM_inf _) as [H|H]; destruct (EM_inf _) as [H'|H'].
    + change (fev x p / fev y p = fev x' p / fev y' p). rewrite (Hx p Hp), (Hy p Hp). reflexivity.
    + exfalso. apply H'. intros q Hq. rewrite <- (Hy q Hq). apply H. exact Hq.
    + exfalso. apply H. intros q Hq. rewrite (Hy q Hq). apply H'. exact Hq.
    + reflexivity.
  - intros x y z H. assert (N : forall p, U p -> fev y p <> 0).
    { intros p Hp E. assert (Q := H p Hp). change (fev y p * fev z p = 1) in Q. rewrite E in Q. lra. }
    intros p Hp. change (fev (fdivi x y) p * fev y p = fev x p). rewrite fdivi_ev by exact N. field. apply N. exact Hp.
  - intros n Hn. exists (fconst (/ INR n)). intros p Hp. change (fev (@kofn fun_ops n) p * / INR n = 1). rewrite fev_kofn. field. apply not_0_INR. exact Hn.
  - intros i x y H. apply fder_p; assumption.
  - intros i x y p Hp. reflexivity.
  - intros i x y p Hp. reflexivity.
  - intros i j x p Hp. exact (fdiff_comm U ext D HR i j _ p Hp (proj2_sig x p Hp)).
  - exact Hs.
  - exact Hm.
Qed.

(** MetricTensor(metric, coords, "ll") with entries G *)
Definition flift (e : expr) : KF U ext := match EM_inf (FWD U ext e) with left H => exist _ e H | right _ => fconst 0 end.
Definition fmetric (G : emat) : metric fun_ops := @mkmetric fun_ops 4 (@arr_of fun_ops (fun i j => flift (G i j))) (cf "ll").

(** R^t_{s r v} from a table of Christoffel expressions *)
Definition frT (T : nat -> nat -> nat -> expr) (t s r v : nat) (p : nat -> R) : R :=
  eval (fdiff D r (T t s v)) (ext p) - eval (fdiff D v (T t s r)) (ext p)
  + rs4 (fun q => eval (T t q r) (ext p) * eval (T q s v) (ext p) - eval (T t q v) (ext p) * eval (T q s r) (ext p)).
Hypothesis (HSi : fsimp_ok) (HMi : fminv_ok).
Notation A := fun_ops.
Let L : dlaws A := fun_laws HSi HMi.
Local Instance FBE : Equivalence (@keq A) := keq_equiv A L.
Lemma flift_ev e p : FWD U ext e -> fev (flift e) p = eval e (ext p).
Proof. intros H. unfold flift. destruct (EM_inf _) as [W|W]; [reflexivity|contradiction]. Qed.
Lemma flift_diff e k p : FWD U ext e -> fev (@kd A k (flift e)) p = eval (fdiff D k e) (ext p).
Proof. intros H. change (@kd A) with (fder). unfold flift. destruct (EM_inf _) as [W|W]; [reflexivity|contradiction]. Qed.
Lemma fksum4 (f : nat -> A) p : fev (@ksum A 4 f) p = rs4 (fun i => fev (f i) p).
Proof.
  cbn [ksum]. unfold rs4. change (fev (fconst 0) p + fev (f 0%nat) p + fev (f 1%nat) p + fev (f 2%nat) p + fev (f 3%nat) p = fev (f 0%nat) p + fev (f 1%nat) p + fev (f 2%nat) p + fev (f 3%nat) p).
  change (fev (fconst 0) p) with 0. ring.
Qed.
Lemma fev_m (x y : A) p : fev (@kmul A x y) p = fev x p * fev y p. Proof. reflexivity. Qed.
Lemma fev_a (x y : A) p : fev (@kadd A x y) p = fev x p + fev y p. Proof. reflexivity. Qed.
Lemma fev_s (x y : A) p : fev (@ksub A x y) p = fev x p - fev y p. Proof. reflexivity. Qed.
Lemma fev_half p : U p -> fev (@kinv A 2) p = / 2.
Proof.
  intros Hp. assert (K := kinv_law L 2 ltac:(discriminate) p Hp). change (fev (@kofn A 2) p * fev (@kinv A 2) p = 1) in K. rewrite fev_kofn in K. simpl INR in K. lra.
Qed.

Variables (G Gi : emat) (T : nat -> nat -> nat -> expr).
Hypothesis WG : forall i j, (i < 4)%nat -> (j < 4)%nat -> FWD U ext (G i j).
Hypothesis WGi : forall i j, (i < 4)%nat -> (j < 4)%nat -> FWD U ext (Gi i j).
Hypothesis WT : forall i j k, (i < 4)%nat -> (j < 4)%nat -> (k < 4)%nat -> FWD U ext (T i j k).
Hypothesis SG : forall i j p, (i < 4)%nat -> (j < 4)%nat -> U p -> eval (G i j) (ext p) = eval (G j i) (ext p).
Hypothesis IG : forall i j p, (i < 4)%nat -> (j < 4)%nat -> U p -> rs4 (fun m => eval (G i m) (ext p) * eval (Gi m j) (ext p)) = if Nat.eqb i j then 1 else 0.
Hypothesis CT : forall i j k p, (i < 4)%nat -> (j < 4)%nat -> (k < 4)%nat -> U p ->
  eval (T i j k) (ext p) = / 2 * rs4 (fun l => eval (Gi i l) (ext p) * (eval (fdiff D k (G l j)) (ext p) + eval (fdiff D j (G l k)) (ext p) - eval (fdiff D l (G j k)) (ext p))).

Notation gK := (fun i j => flift (G i j) : A).
Lemma fbridge gi : minv 4%nat (fun i j => flift (G i j)) = Some gi ->
  let m := fmetric G in
  exists ch r rc sc, christoffels_from_metric m = Ok ch /\ riemann_from_metric m = Ok r /\ ricci_from_metric m = Ok rc /\ scalar_from_metric m = Ok sc /\
  (forall i j k p, (i < 4)%nat -> (j < 4)%nat -> (k < 4)%nat -> U p -> fev (t_arr ch [i; j; k]) p = eval (T i j k) (ext p)) /\
  (forall t s q v p, (t < 4)%nat -> (s < 4)%nat -> (q < 4)%nat -> (v < 4)%nat -> U p -> fev (t_arr r [t; s; q; v]) p = frT T t s q v p) /\
  (forall s v p, (s < 4)%nat -> (v < 4)%nat -> U p -> fev (t_arr rc [s; v]) p = rs4 (fun t => frT T t s t v p)) /\
  (forall p, U p -> fev (scalar_expr sc) p = rs4 (fun s => rs4 (fun v => eval (Gi s v) (ext p) * rs4 (fun t => frT T t s t v p)))).
Proof.
  intros K m.
  assert (HP : covariant_pair m gK gi). { exists m. split; [reflexivity|]. split; [reflexivity|]. exact K. }
  assert (HS : symmetric_metric (A := A) 4 gK).
  { intros i j Hi Hj p Hp. rewrite !flift_ev by (apply WG; assumption). apply SG; assumption. }
  (* the inverse is the table *)
  assert (EGi : forall i j p, (i < 4)%nat -> (j < 4)%nat -> U p -> fev (gi i j) p = eval (Gi i j) (ext p)).
  { intros i j p Hi Hj Hp. rewrite <- (flift_ev (Gi i j) p) by (apply WGi; assumption).
    assert (I1 : inverse_metrics (A := A) 4 gK gi) by (apply (pair_inv L m gK gi HP)).
    assert (S1 : forall a, (a < 4)%nat -> rs4 (fun b => fev (gi i b) p * eval (G b a) (ext p)) = if Nat.eqb i a then 1 else 0).
    { intros a Ha. destruct (I1 i a Hi Ha) as [_ Q]. specialize (Q p Hp). rewrite fksum4 in Q. unfold kdelta in Q.
      transitivity (rs4 (fun b => fev (@kmul A (gi i b) (gK b a)) p)).
      - apply rs4_ext. intros b Hb. rewrite fev_m, flift_ev by (apply WG; assumption). reflexivity.
      - rewrite Q. destruct (Nat.eqb i a); reflexivity. }
    rewrite flift_ev by (apply WGi; assumption).
    assert (P1 : rs4 (fun a => rs4 (fun b => fev (gi i b) p * eval (G b a) (ext p)) * eval (Gi a j) (ext p)) = eval (Gi i j) (ext p)).
    { unfold rs4 at 1. rewrite !S1 by lia. assert (Hc : (i = 0 \/ i = 1 \/ i = 2 \/ i = 3)%nat) by lia. destruct Hc as [-> |[-> |[-> | ->]]]; cbn [Nat.eqb]; ring. }
    assert (P2 : rs4 (fun b => fev (gi i b) p * rs4 (fun a => eval (G b a) (ext p) * eval (Gi a j) (ext p))) = fev (gi i j) p).
    { unfold rs4 at 1. rewrite !IG by (lia || assumption). assert (Hc : (j = 0 \/ j = 1 \/ j = 2 \/ j = 3)%nat) by lia. destruct Hc as [-> |[-> |[-> | ->]]]; cbn [Nat.eqb]; ring. }
    rewrite <- P1, <- P2. unfold rs4. ring. }
  destruct (chr_all_ L m gK gi HP HS) as [ch [Ech [_ [_ [_ Vch]]]]]. cbn [m_n m fmetric] in Vch. change (m_n m) with 4%nat in Vch.
  assert (VT : forall i j k, (i < 4)%nat -> (j < 4)%nat -> (k < 4)%nat -> @keq A (t_arr ch [i; j; k]) (flift (T i j k))).
  { intros i j k Hi Hj Hk p Hp. destruct (Vch i j k Hi Hj Hk) as [V _]. specialize (V p Hp). unfold m in V. rewrite V. rewrite flift_ev by (apply WT; assumption). rewrite CT by assumption.
    rewrite fev_m, fev_half by exact Hp. f_equal. rewrite fksum4. apply rs4_ext. intros l Hl. rewrite fev_m, fev_s, fev_a, EGi by assumption. rewrite !flift_diff by (apply WG; assumption). reflexivity. }
  destruct (riem_formula_ L m gK gi HP HS ch None (or_introl eq_refl) Ech) as [r [Er [_ [Er' Vr]]]]. change (m_n m) with 4%nat in Vr.
  assert (Er2 : riemann_from_metric m = Ok r) by congruence.
  assert (VR : forall t s q v p, (t < 4)%nat -> (s < 4)%nat -> (q < 4)%nat -> (v < 4)%nat -> U p -> fev (t_arr r [t; s; q; v]) p = frT T t s q v p).
  { intros t s q v p Ht Hs Hq Hv Hp. rewrite (Vr t s q v Ht Hs Hq Hv p Hp). unfold frT. rewrite fev_a, fev_s, fksum4.
    rewrite (kd_p A L q _ _ (VT t s v Ht Hs Hv) p Hp), (kd_p A L v _ _ (VT t s q Ht Hs Hq) p Hp), !flift_diff by (apply WT; assumption).
    f_equal. apply rs4_ext. intros x Hx. rewrite fev_s, !fev_m.
    rewrite (VT t x q Ht Hx Hq p Hp), (VT x s v Hx Hs Hv p Hp), (VT t x v Ht Hx Hv p Hp), (VT x s q Hx Hs Hq p Hp), !flift_ev by (apply WT; assumption). reflexivity. }
  destruct (ricci_all_ L m gK gi HP HS) as [r' [rc [sc [E1 [E2 [E3 [_ [V2 V3]]]]]]]]. rewrite Er2 in E1. apply Ok_inj in E1. subst r'. change (m_n m) with 4%nat in V2, V3.
  assert (VC : forall s v p, (s < 4)%nat -> (v < 4)%nat -> U p -> fev (t_arr rc [s; v]) p = rs4 (fun t => frT T t s t v p)).
  { intros s v p Hs Hv Hp. destruct (V2 s v Hs Hv) as [V _]. rewrite (V p Hp), fksum4. apply rs4_ext. intros t Ht. apply VR; assumption. }
  exists ch, r, rc, sc. split; [exact Ech|]. split; [exact Er2|]. split; [exact E2|]. split; [exact E3|].
  split; [intros i j k p Hi Hj Hk Hp; rewrite (VT i j k Hi Hj Hk p Hp); apply flift_ev; apply WT; assumption|]. split; [exact VR|]. split; [exact VC|].
  intros p Hp. rewrite (V3 p Hp), fksum4. apply rs4_ext. intros s Hs. rewrite fksum4. apply rs4_ext. intros v Hv. rewrite fev_m, EGi, VC by assumption. reflexivity.
Qed.
End Ops.
