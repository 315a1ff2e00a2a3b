(** Substitution of expressions for coordinates is a [coord_change]; the predefined MinkowskiPolar is the predefined
    Minkowski metric in spherical coordinates. *)
From Coq Require Import String Ascii Reals List Arith Lia Lra Setoid Morphisms.
From Coquelicot Require Import Coquelicot.
From Verif Require Import Base SymAlg SymModel SymGeo SymGeo2 SymMove SymConn SymFinal ExprModel PredefModel PredefBridge PredefProofs PredefFinal SymCov SymCov2.
Import ListNotations.
Open Scope R_scope.

(** expr.subs({s_i: s i for all i}, simultaneous=True) *)
Fixpoint esubst (s : nat -> expr) (e : expr) : expr :=
  match e with
  | EConst r => EConst r | EVar i => s i
  | EAdd a b => EAdd (esubst s a) (esubst s b) | EMul a b => EMul (esubst s a) (esubst s b) | ESub a b => ESub (esubst s a) (esubst s b)
  | EOpp a => EOpp (esubst s a) | EDiv a b => EDiv (esubst s a) (esubst s b)
  | ESin a => ESin (esubst s a) | ECos a => ECos (esubst s a) | EExp a => EExp (esubst s a) | ELn a => ELn (esubst s a) | ESqrt a => ESqrt (esubst s a)
  end.
(** the point whose i-th coordinate is the value of s i *)
Definition image (s : nat -> expr) (p : nat -> R) : nat -> R := fun i => eval (s i) p.
Lemma eval_subst s e p : eval (esubst s e) p = eval e (image s p).
Proof. induction e; cbn [esubst eval]; rewrite ?IHe, ?IHe1, ?IHe2; reflexivity. Qed.
Lemma wd_subst s e p : (forall i, wd (s i) p) -> wd e (image s p) -> wd (esubst s e) p.
Proof.
  intros H. induction e; cbn [esubst wd]; rewrite ?eval_subst; try tauto. intros _. apply H.
Qed.
Fixpoint rsum (n : nat) (f : nat -> R) : R := match n with O => 0 | S m => rsum m f + f m end.
Lemma rsum_ext n f g : (forall i, (i < n)%nat -> f i = g i) -> rsum n f = rsum n g.
Proof. induction n as [|n IH]; intros H; cbn [rsum]; [reflexivity|]. rewrite IH, H by (intros; try apply H; lia). reflexivity. Qed.
Lemma rsum_add n f g : rsum n (fun i => f i + g i) = rsum n f + rsum n g.
Proof. induction n as [|n IH]; cbn [rsum]; [ring|]. rewrite IH. ring. Qed.
Lemma rsum_l n c f : rsum n (fun i => c * f i) = c * rsum n f.
Proof. induction n as [|n IH]; cbn [rsum]; [ring|]. rewrite IH. ring. Qed.
Lemma rsum_0 n f : (forall i, (i < n)%nat -> f i = 0) -> rsum n f = 0.
Proof. induction n as [|n IH]; intros H; cbn [rsum]; [reflexivity|]. rewrite IH, H by (intros; try apply H; lia). ring. Qed.
Lemma rsum_delta n k f : (k < n)%nat -> (forall i, (i < n)%nat -> i <> k -> f i = 0) -> rsum n f = f k.
Proof.
  induction n as [|n IH]; intros Hk H; [lia|]. cbn [rsum]. destruct (Nat.eq_dec k n) as [->|N].
  - rewrite rsum_0 by (intros; apply H; lia). ring.
  - rewrite IH by (try lia; intros; apply H; lia). rewrite (H n) by lia. ring.
Qed.
(** the chain rule *)
Lemma chain_rule n s a p : (forall i, wd (s i) p) -> (forall i, (n <= i)%nat -> eval (ediff a (s i)) p = 0) -> forall e, wd e (image s p) ->
  eval (ediff a (esubst s e)) p = rsum n (fun i => eval (ediff a (s i)) p * eval (ediff i e) (image s p)).
Proof.
  intros W Z. 
  assert (LIN : forall u v (f g h : nat -> R), (forall i, h i = u * f i + v * g i) -> rsum n (fun i => eval (ediff a (s i)) p * h i)
     = u * rsum n (fun i => eval (ediff a (s i)) p * f i) + v * rsum n (fun i => eval (ediff a (s i)) p * g i)).
  { intros u v f g h H. rewrite <- !rsum_l, <- rsum_add. apply rsum_ext. intros i _. rewrite H. ring. }
  assert (LIN1 : forall u (f h : nat -> R), (forall i, h i = u * f i) -> rsum n (fun i => eval (ediff a (s i)) p * h i)
     = u * rsum n (fun i => eval (ediff a (s i)) p * f i)).
  { intros u f h H. rewrite <- rsum_l. apply rsum_ext. intros i _. rewrite H. ring. }
  induction e; cbn [wd]; intros H; cbn [esubst].
  - cbn [ediff eval]. symmetry. apply rsum_0. intros. ring.
  - destruct (le_lt_dec n i) as [Hi|Hi].
    + rewrite (Z i Hi). symmetry. apply rsum_0. intros j Hj. cbn [ediff]. destruct (Nat.eqb_spec j i); [lia|]. cbn [eval]. ring.
    + rewrite (rsum_delta n i); [|exact Hi|intros j Hj Nj; cbn [ediff]; destruct (Nat.eqb_spec j i); [lia|cbn [eval]; ring]].
      cbn [ediff]. rewrite Nat.eqb_refl. cbn [eval]. ring.
  - cbn [ediff eval]. rewrite IHe1, IHe2 by tauto. symmetry. etransitivity; [apply (LIN 1 1 (fun i => eval (ediff i e1) (image s p)) (fun i => eval (ediff i e2) (image s p))); intros; cbn [eval]; ring|ring].
  - cbn [ediff eval]. rewrite IHe1, IHe2, !eval_subst by tauto. symmetry. etransitivity; [apply (LIN (eval e2 (image s p)) (eval e1 (image s p)) (fun i => eval (ediff i e1) (image s p)) (fun i => eval (ediff i e2) (image s p))); intros; cbn [eval]; ring|ring].
  - cbn [ediff eval]. rewrite IHe1, IHe2 by tauto. symmetry. etransitivity; [apply (LIN 1 (-1) (fun i => eval (ediff i e1) (image s p)) (fun i => eval (ediff i e2) (image s p))); intros; cbn [eval]; ring|ring].
  - cbn [ediff eval]. rewrite IHe by tauto. symmetry. etransitivity; [apply (LIN1 (-1) (fun i => eval (ediff i e) (image s p))); intros; cbn [eval]; ring|ring].
  - cbn [ediff eval]. rewrite IHe1, IHe2, !eval_subst by tauto.
    symmetry. etransitivity; [apply (LIN (/ eval e2 (image s p)) (- eval e1 (image s p) / (eval e2 (image s p) * eval e2 (image s p))) (fun i => eval (ediff i e1) (image s p)) (fun i => eval (ediff i e2) (image s p))); intros; cbn [eval]; field; tauto|field; tauto].
  - cbn [ediff eval]. rewrite IHe, !eval_subst by tauto. symmetry. apply LIN1. intros; reflexivity.
  - cbn [ediff eval]. rewrite IHe, !eval_subst by tauto. symmetry. etransitivity; [apply (LIN1 (- sin (eval e (image s p))) (fun i => eval (ediff i e) (image s p))); intros; cbn [eval]; ring|ring].
  - cbn [ediff eval]. rewrite IHe, !eval_subst by tauto. symmetry. apply LIN1. intros; reflexivity.
  - cbn [ediff eval]. rewrite IHe, !eval_subst by tauto. symmetry. etransitivity; [apply (LIN1 (/ eval e (image s p)) (fun i => eval (ediff i e) (image s p))); intros; cbn [eval]; field; lra|field; lra].
  - destruct H as [H1 H2]. assert (0 < sqrt (eval e (image s p))) by (apply sqrt_lt_R0; exact H2).
    cbn [ediff eval]. rewrite IHe, !eval_subst by tauto. symmetry. etransitivity; [apply (LIN1 (/ (2 * sqrt (eval e (image s p)))) (fun i => eval (ediff i e) (image s p))); intros; cbn [eval]; field; lra|field; lra].
Qed.

(** [substitution U U' n s]: the expressions s i for the first n symbols (the coordinates) are defined on U' and map it into U;
    the other symbols (parameters) are sent to expressions not depending on the new coordinates *)
Definition substitution (U U' : (nat -> R) -> Prop) (n : nat) (s : nat -> expr) : Prop :=
  (forall i, WDU U' (s i)) /\ (forall p, U' p -> U (image s p)) /\ (forall a i p, (a < n)%nat -> (n <= i)%nat -> U' p -> eval (ediff a (s i)) p = 0).
Section Inst.
Variables (U U' : (nat -> R) -> Prop) (n : nat) (s : nat -> expr).
Hypothesis HSub : substitution U U' n s.
Lemma usubst_wd (x : KU U) : WDU U' (esubst s (proj1_sig x)).
Proof. intros p Hp. apply wd_subst; [intros i; apply (proj1 HSub); exact Hp|]. apply (proj2_sig x). apply (proj1 (proj2 HSub)). exact Hp. Qed.
Definition usubst (x : KU U) : KU U' := exist (WDU U') (esubst s (proj1_sig x)) (usubst_wd x).
Definition ucoord (i : nat) : KU U' := exist (WDU U') (s i) (proj1 HSub i).
Lemma usubst_ev x p : ev U' (usubst x) p = ev U x (image s p).
Proof. apply eval_subst. Qed.
Lemma ev_ksum (simp' : KU U' -> KU U') (minv' : nat -> (nat -> nat -> KU U') -> option (nat -> nat -> KU U')) (k : nat) (f : nat -> KU U') p :
  ev U' (@ksum (expr_ops U' simp' minv') k f) p = rsum k (fun i => ev U' (f i) p).
Proof. induction k as [|k IH]; [reflexivity|]. cbn [rsum]. rewrite <- IH. reflexivity. Qed.
Lemma subst_coord_change simp minv simp' minv' : coord_change (expr_ops U simp minv) (expr_ops U' simp' minv') n usubst ucoord.
Proof.
  destruct HSub as [W [M Z]]. constructor.
  - intros x y H p Hp. change (ev U' (usubst x) p = ev U' (usubst y) p). rewrite !usubst_ev. apply H. apply M. exact Hp.
  - intros x y p Hp. reflexivity.
  - intros x y p Hp. reflexivity.
  - intros p Hp. reflexivity.
  - intros a f Ha p Hp. rewrite ev_ksum. change (eval (ediff a (esubst s (proj1_sig f))) p = rsum n (fun i => eval (ediff a (s i)) p * eval (esubst s (ediff i (proj1_sig f))) p)).
    rewrite (chain_rule n s a p).
    + apply rsum_ext. intros i Hi. rewrite eval_subst. reflexivity.
    + intros i. apply W. exact Hp.
    + intros i Hi. apply Z; assumption.
    + apply (proj2_sig f). apply M. exact Hp.
Qed.
End Inst.

(** ** MinkowskiCartesian in the coordinates t, r, theta, phi *)
Definition spherical (i : nat) : expr :=
  match i with
  | 1%nat => EMul (EMul (X 1) (ESin (X 2))) (ECos (X 3))
  | 2%nat => EMul (EMul (X 1) (ESin (X 2))) (ESin (X 3))
  | 3%nat => EMul (X 1) (ECos (X 2))
  | _ => EVar i
  end.
Definition spherical_inv (a i : nat) : expr :=
  let r := X 1 in let th := X 2 in let ph := X 3 in
  match a, i with
  | 0%nat, 0%nat => E1
  | 1%nat, 1%nat => EMul (ESin th) (ECos ph) | 1%nat, 2%nat => EMul (ESin th) (ESin ph) | 1%nat, 3%nat => ECos th
  | 2%nat, 1%nat => EDiv (EMul (ECos th) (ECos ph)) r | 2%nat, 2%nat => EDiv (EMul (ECos th) (ESin ph)) r | 2%nat, 3%nat => EDiv (EOpp (ESin th)) r
  | 3%nat, 1%nat => EDiv (EOpp (ESin ph)) (EMul r (ESin th)) | 3%nat, 2%nat => EDiv (ECos ph) (EMul r (ESin th))
  | _, _ => E0
  end.
Lemma spherical_par j : (4 <= j)%nat -> spherical j = EVar j.
Proof. destruct j as [|[|[|[|j]]]]; try lia. reflexivity. Qed.
Section Mink.
Variable k : nat.
Hypothesis Hk : (4 <= k)%nat.
Let c := EVar k.
Lemma spherical_subst : substitution (mc_chart c) (mp_chart c) 4 spherical.
Proof.
  split; [|split].
  - intros i p Hp. destruct i as [|[|[|[|i]]]]; cbn [spherical wd]; repeat split.
  - intros p Hp. unfold mc_chart, mp_chart, c in *. cbn [eval]. unfold image. destruct k as [|[|[|[|k']]]]; try lia. cbn [spherical eval]. cbn [eval] in Hp. tauto.
  - intros a i p Ha Hi Hp. destruct i as [|[|[|[|i]]]]; try lia. cbn [spherical ediff]. destruct (Nat.eqb_spec a (S (S (S (S i))))); [lia|reflexivity].
Qed.
Variables (simp : KU (mc_chart c) -> KU (mc_chart c)) (minv : nat -> (nat -> nat -> KU (mc_chart c)) -> option (nat -> nat -> KU (mc_chart c))).
Variables (simp' : KU (mp_chart c) -> KU (mp_chart c)) (minv' : nat -> (nat -> nat -> KU (mp_chart c)) -> option (nat -> nat -> KU (mp_chart c))).
Notation A := (expr_ops (mc_chart c) simp minv).
Notation B := (expr_ops (mp_chart c) simp' minv').
Let Xs : nat -> B := ucoord (mc_chart c) (mp_chart c) 4 spherical spherical_subst.
Let ph : A -> B := usubst (mc_chart c) (mp_chart c) 4 spherical spherical_subst.
Lemma minkowski_polar_transformed : transformed (A := A) (B := B) 4 ph Xs (fun i j => lift (mc_chart c) (MinkowskiCartesian c i j)) (fun i j => lift (mp_chart c) (MinkowskiPolar c i j)).
Proof.
  assert (Pc : param c) by (apply param_var; exact Hk).
  destruct (mc_table c Pc) as [_ [WG _]]. destruct (mp_table c Pc) as [_ [WG' _]].
  intros a b Ha Hb p Hp. rewrite lift_ev by (apply WG'; assumption). 
  rewrite ev_ksum. 
  rewrite (rsum_ext 4 _ (fun i => rsum 4 (fun j => eval (ediff a (spherical i)) p * eval (ediff b (spherical j)) p * eval (MinkowskiCartesian c i j) (image spherical p)))).
  2:{ intros i Hi. rewrite ev_ksum. apply rsum_ext. intros j Hj.
      change (eval (ediff a (spherical i)) p * eval (ediff b (spherical j)) p * ev (mp_chart c) (ph (lift (mc_chart c) (MinkowskiCartesian c i j))) p = eval (ediff a (spherical i)) p * eval (ediff b (spherical j)) p * eval (MinkowskiCartesian c i j) (image spherical p)).
      f_equal. unfold ph. rewrite usubst_ev. apply lift_ev. apply WG; assumption. }
  assert (Ec : eval c (image spherical p) = eval c p).
  { unfold c, image. cbn [eval]. rewrite spherical_par by exact Hk. reflexivity. }
  destruct Hp as [Hc [Hr Ht]]. assert (S2 := sc2 (p 2%nat)). assert (S3 := sc2 (p 3%nat)).
  set (q := image spherical p) in *. clearbody q. cbn [rsum]. unfold MinkowskiCartesian, MinkowskiPolar, spherical, diag4, Esq, E1, E0, X.
  assert (Ca : (a = 0 \/ a = 1 \/ a = 2 \/ a = 3)%nat) by lia. assert (Cb : (b = 0 \/ b = 1 \/ b = 2 \/ b = 3)%nat) by lia.
  destruct Ca as [-> |[-> |[-> | ->]]]; destruct Cb as [-> |[-> |[-> | ->]]]; cbn [ediff Nat.eqb eval]; rewrite ?Ec;
    try (field [S2 S3]; exact Hc); try (unfold Rdiv; ring).
Qed.
Lemma spherical_jacobian : jac_inv (B := B) 4 Xs (fun a i => lift (mp_chart c) (spherical_inv a i)).
Proof.
  assert (WY : forall a i, WDU (mp_chart c) (spherical_inv a i)).
  { intros a i p [Hc [Hr Ht]]. destruct a as [|[|[|[|a]]]]; destruct i as [|[|[|[|i]]]]; cbn [spherical_inv wd eval X E1 E0]; repeat split; auto.
    all: apply Rmult_integral_contrapositive_currified; assumption. }
  intros i j Hi Hj. split; intros p Hp; rewrite ev_ksum.
  - rewrite (rsum_ext 4 _ (fun m => eval (ediff m (spherical i)) p * eval (spherical_inv m j) p)).
    2:{ intros m Hm. rewrite <- (lift_ev (mp_chart c) (spherical_inv m j) p) by apply WY. reflexivity. }
    destruct Hp as [Hc [Hr Ht]]. assert (S2 := sc2 (p 2%nat)). assert (S3 := sc2 (p 3%nat)).
    assert (Ca : (i = 0 \/ i = 1 \/ i = 2 \/ i = 3)%nat) by lia. assert (Cb : (j = 0 \/ j = 1 \/ j = 2 \/ j = 3)%nat) by lia.
    destruct Ca as [-> |[-> |[-> | ->]]]; destruct Cb as [-> |[-> |[-> | ->]]]; unfold kdelta; cbn [rsum spherical spherical_inv X ediff Nat.eqb eval E1 E0];
      match goal with |- _ = ev _ ?x _ => first [change (ev (mp_chart c) x p) with 0|change (ev (mp_chart c) x p) with 1] end; try (field [S2 S3]; auto); try (unfold Rdiv; ring).
  - rewrite (rsum_ext 4 _ (fun m => eval (spherical_inv i m) p * eval (ediff j (spherical m)) p)).
    2:{ intros m Hm. rewrite <- (lift_ev (mp_chart c) (spherical_inv i m) p) by apply WY. reflexivity. }
    destruct Hp as [Hc [Hr Ht]]. assert (S2 := sc2 (p 2%nat)). assert (S3 := sc2 (p 3%nat)).
    assert (Ca : (i = 0 \/ i = 1 \/ i = 2 \/ i = 3)%nat) by lia. assert (Cb : (j = 0 \/ j = 1 \/ j = 2 \/ j = 3)%nat) by lia.
    destruct Ca as [-> |[-> |[-> | ->]]]; destruct Cb as [-> |[-> |[-> | ->]]]; unfold kdelta; cbn [rsum spherical spherical_inv X ediff Nat.eqb eval E1 E0];
      match goal with |- _ = ev _ ?x _ => first [change (ev (mp_chart c) x p) with 0|change (ev (mp_chart c) x p) with 1] end; try (field [S2 S3]; auto); try (unfold Rdiv; ring).
Qed.
End Mink.

(** the transformation written out in real numbers *)
Lemma polar_entries : forall (k : nat), (4 <= k)%nat -> forall (a b : nat) (p : nat -> R), (a < 4)%nat -> (b < 4)%nat -> mp_chart (EVar k) p ->
  eval (MinkowskiPolar (EVar k) a b) p =
  rsum 4 (fun i => rsum 4 (fun j => eval (ediff a (spherical i)) p * eval (ediff b (spherical j)) p * eval (MinkowskiCartesian (EVar k) i j) (fun q => eval (spherical q) p))).
Proof.
  intros k Hk a b p Ha Hb Hp. assert (Pc : param (EVar k)) by (apply param_var; exact Hk).
  destruct (mc_table _ Pc) as [_ [WG _]]. destruct (mp_table _ Pc) as [_ [WG' _]].
  assert (T := minkowski_polar_transformed k Hk (simp_id _) (minv_cand _ (fun _ _ => uconst _ 0)) (simp_id _) (minv_cand _ (fun _ _ => uconst _ 0)) a b Ha Hb p Hp).
  transitivity (ev (mp_chart (EVar k)) (lift (mp_chart (EVar k)) (MinkowskiPolar (EVar k) a b)) p); [symmetry; apply lift_ev; apply WG'; assumption|].
  etransitivity; [exact T|]. rewrite ev_ksum. apply rsum_ext. intros i Hi. rewrite ev_ksum. apply rsum_ext. intros j Hj.
  change (eval (ediff a (spherical i)) p * eval (ediff b (spherical j)) p * ev (mp_chart (EVar k)) (usubst (mc_chart (EVar k)) (mp_chart (EVar k)) 4 spherical (spherical_subst k Hk) (lift (mc_chart (EVar k)) (MinkowskiCartesian (EVar k) i j))) p =
    eval (ediff a (spherical i)) p * eval (ediff b (spherical j)) p * eval (MinkowskiCartesian (EVar k) i j) (image spherical p)).
  f_equal. rewrite usubst_ev. apply lift_ev. apply WG; assumption.
Qed.
Lemma polar_nonvacuous : forall (k : nat), (4 <= k)%nat -> exists simp minv simp' minv',
  let A := expr_ops (mc_chart (EVar k)) simp minv in let B := expr_ops (mp_chart (EVar k)) simp' minv' in
  let m := metric_of (mc_chart (EVar k)) simp minv (MinkowskiCartesian (EVar k)) in let m' := metric_of (mp_chart (EVar k)) simp' minv' (MinkowskiPolar (EVar k)) in
  dlaws A /\ dlaws B /\ exists (phi : A -> B) (X : nat -> B) Y g gi g' gi',
    covariant_pair m g gi /\ covariant_pair m' g' gi' /\ symmetric_metric (m_n m) g /\ m_n m' = m_n m /\ coord_change A B (m_n m) phi X /\
    jac_inv (m_n m) X Y /\ transformed (m_n m) phi X g g'.
Proof.
  intros k Hk. assert (Pc : param (EVar k)) by (apply param_var; exact Hk).
  assert (TC := mc_table _ Pc). assert (TP := mp_table _ Pc).
  destruct (table_inverts _ _ _ _ TC) as [S1 [M1 [gi K1]]]. destruct (table_inverts _ _ _ _ TP) as [S2 [M2 [gi' K2]]].
  destruct TC as [O1 [W1 [_ [_ [Y1 _]]]]]. destruct TP as [O2 _].
  do 4 eexists. cbv zeta. split; [apply (expr_laws _ _ _ O1 S1 M1)|]. split; [apply (expr_laws _ _ _ O2 S2 M2)|].
  exists (usubst _ _ 4 spherical (spherical_subst k Hk)), (ucoord _ _ 4 spherical (spherical_subst k Hk)), (fun a i => lift (mp_chart (EVar k)) (spherical_inv a i)).
  eexists _, gi, _, gi'. split; [eexists; split; [reflexivity|]; split; [reflexivity|exact K1]|]. split; [eexists; split; [reflexivity|]; split; [reflexivity|exact K2]|].
  split. { intros i j Hi Hj p Hp. transitivity (eval (MinkowskiCartesian (EVar k) i j) p); [apply lift_ev; apply W1; assumption|].
    symmetry. transitivity (eval (MinkowskiCartesian (EVar k) j i) p); [apply lift_ev; apply W1; assumption|]. apply Y1; assumption. }
  split; [reflexivity|]. split; [apply subst_coord_change|]. split; [apply spherical_jacobian|]. apply minkowski_polar_transformed.
Qed.
