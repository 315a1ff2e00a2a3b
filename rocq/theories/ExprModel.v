(** A concrete scalar domain for the symbolic part: expression trees over real constants, symbols and elementary functions,
    with syntactic differentiation (sympy.diff), read on an open set U of symbol values where they are well defined.
    Two expressions are equal ([keq]) when they have the same value at every point of U.  [simp] and [minv] are arbitrary
    value-preserving simplification / correct matrix inversion oracles (sympy.simplify, sympy.Matrix.inv). *)
From Coq Require ClassicalDedekindReals.
From Coq Require Import Reals List Arith Lia Setoid Morphisms Ring Lra ClassicalFacts Classical.
From Coquelicot Require Import Coquelicot.
From Verif Require Import SymAlg.
Import ListNotations.
Open Scope R_scope.

Inductive expr :=
| EConst (r : R) | EVar (i : nat) | EAdd (a b : expr) | EMul (a b : expr) | ESub (a b : expr) | EOpp (a : expr) | EDiv (a b : expr)
| ESin (a : expr) | ECos (a : expr) | EExp (a : expr) | ELn (a : expr) | ESqrt (a : expr).

Fixpoint eval (e : expr) (p : nat -> R) : R :=
  match e with
  | EConst r => r | EVar i => p i
  | EAdd a b => eval a p + eval b p | EMul a b => eval a p * eval b p | ESub a b => eval a p - eval b p
  | EOpp a => - eval a p | EDiv a b => eval a p / eval b p
  | ESin a => sin (eval a p) | ECos a => cos (eval a p) | EExp a => exp (eval a p) | ELn a => ln (eval a p) | ESqrt a => sqrt (eval a p)
  end.
(** well defined at p *)
Fixpoint wd (e : expr) (p : nat -> R) : Prop :=
  match e with
  | EConst _ | EVar _ => True
  | EAdd a b | EMul a b | ESub a b => wd a p /\ wd b p
  | EDiv a b => wd a p /\ wd b p /\ eval b p <> 0
  | EOpp a | ESin a | ECos a | EExp a => wd a p
  | ELn a | ESqrt a => wd a p /\ 0 < eval a p
  end.
(** sympy.diff(e, s_i) *)
Fixpoint ediff (i : nat) (e : expr) : expr :=
  match e with
  | EConst _ => EConst 0
  | EVar j => if Nat.eqb i j then EConst 1 else EConst 0
  | EAdd a b => EAdd (ediff i a) (ediff i b)
  | ESub a b => ESub (ediff i a) (ediff i b)
  | EMul a b => EAdd (EMul (ediff i a) b) (EMul a (ediff i b))
  | EOpp a => EOpp (ediff i a)
  | EDiv a b => EDiv (ESub (EMul (ediff i a) b) (EMul a (ediff i b))) (EMul b b)
  | ESin a => EMul (ECos a) (ediff i a)
  | ECos a => EOpp (EMul (ESin a) (ediff i a))
  | EExp a => EMul (EExp a) (ediff i a)
  | ELn a => EDiv (ediff i a) a
  | ESqrt a => EDiv (ediff i a) (EMul (EConst 2) (ESqrt a))
  end.
Definition upd (p : nat -> R) (i : nat) (x : R) : nat -> R := fun j => if Nat.eqb i j then x else p j.

Lemma eval_ext e p q : (forall i, p i = q i) -> eval e p = eval e q.
Proof. intros H. induction e; cbn [eval]; rewrite ?IHe, ?IHe1, ?IHe2; auto. Qed.
Lemma upd_same p i j : upd p i (p i) j = p j.
Proof. unfold upd. destruct (Nat.eqb_spec i j); congruence. Qed.
Lemma wd_diff i e p : wd e p -> wd (ediff i e) p.
Proof.
  induction e; cbn [ediff wd eval]; intros H; try tauto.
  - destruct (Nat.eqb i i0); exact I.
  - destruct H as [H1 [H2 H3]]. split; [tauto|]. split; [tauto|]. apply Rmult_integral_contrapositive_currified; exact H3.
  - destruct H as [H1 H2]. split; [tauto|]. split; [exact H1|]. lra.
  - destruct H as [H1 H2]. split; [tauto|]. split; [tauto|]. apply sqrt_lt_R0 in H2. apply Rmult_integral_contrapositive_currified; lra.
Qed.
Lemma diff_correct i e p x : wd e (upd p i x) -> is_derive (fun x => eval e (upd p i x)) x (eval (ediff i e) (upd p i x)).
Proof.
  induction e; cbn [wd eval ediff]; intros H.
  - apply is_derive_Reals. apply derivable_pt_lim_const.
  - unfold upd at 1. destruct (Nat.eqb i i0); cbn [eval]; apply is_derive_Reals; [apply derivable_pt_lim_id|apply derivable_pt_lim_const].
  - destruct H as [H1 H2]. apply is_derive_Reals. apply (derivable_pt_lim_plus (fun x => eval e1 (upd p i x)) (fun x => eval e2 (upd p i x))); apply is_derive_Reals; auto.
  - destruct H as [H1 H2]. apply is_derive_Reals.
    apply (derivable_pt_lim_mult (fun x => eval e1 (upd p i x)) (fun x => eval e2 (upd p i x))); apply is_derive_Reals; auto.
  - destruct H as [H1 H2]. apply is_derive_Reals. apply (derivable_pt_lim_minus (fun x => eval e1 (upd p i x)) (fun x => eval e2 (upd p i x))); apply is_derive_Reals; auto.
  - apply is_derive_Reals. apply (derivable_pt_lim_opp (fun x => eval e (upd p i x))); apply is_derive_Reals; auto.
  - destruct H as [H1 [H2 H3]]. apply is_derive_Reals.
    replace ((eval (ediff i e1) (upd p i x) * eval e2 (upd p i x) - eval e1 (upd p i x) * eval (ediff i e2) (upd p i x)) / (eval e2 (upd p i x) * eval e2 (upd p i x)))
      with ((eval (ediff i e1) (upd p i x) * eval e2 (upd p i x) - eval (ediff i e2) (upd p i x) * eval e1 (upd p i x)) / Rsqr (eval e2 (upd p i x))) by (unfold Rsqr; field; exact H3).
    apply (derivable_pt_lim_div (fun x => eval e1 (upd p i x)) (fun x => eval e2 (upd p i x))); [apply is_derive_Reals; auto|apply is_derive_Reals; auto|exact H3].
  - apply is_derive_Reals. apply (derivable_pt_lim_comp (fun x => eval e (upd p i x)) sin); [apply is_derive_Reals; auto|apply derivable_pt_lim_sin].
  - apply is_derive_Reals. replace (- (sin (eval e (upd p i x)) * eval (ediff i e) (upd p i x))) with (- sin (eval e (upd p i x)) * eval (ediff i e) (upd p i x)) by ring.
    apply (derivable_pt_lim_comp (fun x => eval e (upd p i x)) cos); [apply is_derive_Reals; auto|apply derivable_pt_lim_cos].
  - apply is_derive_Reals. apply (derivable_pt_lim_comp (fun x => eval e (upd p i x)) exp); [apply is_derive_Reals; auto|apply derivable_pt_lim_exp].
  - destruct H as [H1 H2]. apply is_derive_Reals. replace (eval (ediff i e) (upd p i x) / eval e (upd p i x)) with (/ eval e (upd p i x) * eval (ediff i e) (upd p i x)) by (field; lra).
    apply (derivable_pt_lim_comp (fun x => eval e (upd p i x)) ln); [apply is_derive_Reals; auto|apply derivable_pt_lim_ln; exact H2].
  - destruct H as [H1 H2]. assert (0 < sqrt (eval e (upd p i x))) by (apply sqrt_lt_R0; exact H2). apply is_derive_Reals.
    replace (eval (ediff i e) (upd p i x) / (2 * sqrt (eval e (upd p i x)))) with (/ (2 * sqrt (eval e (upd p i x))) * eval (ediff i e) (upd p i x)) by (field; lra).
    apply (derivable_pt_lim_comp (fun x => eval e (upd p i x)) sqrt); [apply is_derive_Reals; auto|apply derivable_pt_lim_sqrt; exact H2].
Qed.
Lemma diff_comm i j e p : wd e p -> eval (ediff i (ediff j e)) p = eval (ediff j (ediff i e)) p.
Proof.
  induction e; cbn [wd]; intros H.
  - reflexivity.
  - cbn [ediff]. destruct (Nat.eqb i i0), (Nat.eqb j i0); reflexivity.
  - cbn [ediff eval]. rewrite IHe1, IHe2 by tauto. ring.
  - cbn [ediff eval]. rewrite IHe1, IHe2 by tauto. ring.
  - cbn [ediff eval]. rewrite IHe1, IHe2 by tauto. ring.
  - cbn [ediff eval]. rewrite IHe by tauto. ring.
  - cbn [ediff eval]. rewrite IHe1, IHe2 by tauto. field. tauto.
  - cbn [ediff eval]. rewrite IHe by tauto. ring.
  - cbn [ediff eval]. rewrite IHe by tauto. ring.
  - cbn [ediff eval]. rewrite IHe by tauto. ring.
  - cbn [ediff eval]. rewrite IHe by tauto. field. lra.
  - destruct H as [H1 H2]. assert (0 < sqrt (eval e p)) by (apply sqrt_lt_R0; exact H2). cbn [ediff eval]. rewrite IHe by tauto. field. lra.
Qed.

(** informative excluded middle, from the axioms of the standard real numbers *)
Lemma EM_inf (P : Prop) : {P} + {~ P}.
Proof. destruct (ClassicalDedekindReals.sig_not_dec P) as [H|H]; [left; apply NNPP; exact H|right; exact H]. Qed.

Section Inst.
Variable U : (nat -> R) -> Prop.
Definition WDU (e : expr) : Prop := forall p, U p -> wd e p.
Definition KU : Type := { e : expr | WDU e }.
Definition ev (x : KU) (p : nat -> R) : R := eval (proj1_sig x) p.
Definition ueq (x y : KU) : Prop := forall p, U p -> ev x p = ev y p.
Definition uconst (r : R) : KU := exist WDU (EConst r) (fun _ _ => I).
Definition uvar (i : nat) : KU := exist WDU (EVar i) (fun _ _ => I).
Definition uadd (x y : KU) : KU := exist WDU (EAdd (proj1_sig x) (proj1_sig y)) (fun p H => conj (proj2_sig x p H) (proj2_sig y p H)).
Definition umul (x y : KU) : KU := exist WDU (EMul (proj1_sig x) (proj1_sig y)) (fun p H => conj (proj2_sig x p H) (proj2_sig y p H)).
Definition usub (x y : KU) : KU := exist WDU (ESub (proj1_sig x) (proj1_sig y)) (fun p H => conj (proj2_sig x p H) (proj2_sig y p H)).
Definition uopp (x : KU) : KU := exist WDU (EOpp (proj1_sig x)) (proj2_sig x).
Definition usin (x : KU) : KU := exist WDU (ESin (proj1_sig x)) (proj2_sig x).
Definition ucos (x : KU) : KU := exist WDU (ECos (proj1_sig x)) (proj2_sig x).
Definition uexp (x : KU) : KU := exist WDU (EExp (proj1_sig x)) (proj2_sig x).
(** division by an expression that vanishes somewhere on U is outside the domain; it is given an arbitrary value and no law *)
Definition udiv (x y : KU) : KU :=
  match EM_inf (forall p, U p -> ev y p <> 0) with
  | left H => exist WDU (EDiv (proj1_sig x) (proj1_sig y)) (fun p Hp => conj (proj2_sig x p Hp) (conj (proj2_sig y p Hp) (H p Hp)))
  | right _ => uconst 0
  end.
Definition udiff (i : nat) (x : KU) : KU := exist WDU (ediff i (proj1_sig x)) (fun p H => wd_diff i _ p (proj2_sig x p H)).
Variables (simp : KU -> KU) (minv : nat -> (nat -> nat -> KU) -> option (nat -> nat -> KU)).
Definition expr_ops : dops := mkdops KU ueq (uconst 0) (uconst 1) uadd umul usub uopp udiv udiff simp minv.

(** U is open in every coordinate direction *)
Definition open_dirs : Prop := forall p i, U p -> locally (p i) (fun x => U (upd p i x)).
Definition simp_ok : Prop := forall x, ueq (simp x) x.
Definition minv_ok : Prop := forall n g gi, minv n g = Some gi -> forall i j, (i < n)%nat -> (j < n)%nat ->
  @keq expr_ops (@ksum expr_ops n (fun m => umul (g i m) (gi m j))) (@kdelta expr_ops i j) /\
  @keq expr_ops (@ksum expr_ops n (fun m => umul (gi i m) (g m j))) (@kdelta expr_ops i j).

Lemma ev_kofn n p : ev (@kofn expr_ops n) p = INR n.
Proof. induction n as [|n IH]; [reflexivity|]. rewrite S_INR, <- IH. reflexivity. Qed.
Lemma udiv_ev x y : (forall p, U p -> ev y p <> 0) -> forall p, ev (udiv x y) p = ev x p / ev y p.
Proof. intros H p. unfold udiv. destruct (EM_inf _) as [Y|N]; [reflexivity|]. exfalso. apply N. exact H. Qed.
Lemma udiff_ev i x p : open_dirs -> U p -> is_derive (fun t => ev x (upd p i t)) (p i) (ev (udiff i x) p).
Proof.
  intros O Hp. assert (Hu : U (upd p i (p i))) by (apply (locally_singleton (p i) (fun x => U (upd p i x))); apply O; exact Hp).
  assert (D := diff_correct i (proj1_sig x) p (p i) (proj2_sig x _ Hu)).
  unfold ev at 2. cbn [udiff proj1_sig]. rewrite (eval_ext _ p (upd p i (p i))) by (intros j; symmetry; apply upd_same). exact D.
Qed.
Lemma udiff_p i x y : open_dirs -> ueq x y -> ueq (udiff i x) (udiff i y).
Proof.
  intros O H p Hp. assert (D1 := udiff_ev i x p O Hp). assert (D2 := udiff_ev i y p O Hp).
  apply is_derive_unique in D1. rewrite <- D1. apply is_derive_unique.
  apply (is_derive_ext_loc (fun t => ev y (upd p i t))); [|exact D2].
  apply (filter_imp (fun t => U (upd p i t))); [|apply O; exact Hp]. intros t Ht. symmetry. apply H. exact Ht.
Qed.
Theorem expr_laws : open_dirs -> simp_ok -> minv_ok -> dlaws expr_ops.
Proof.
  intros O Hs Hm. constructor.
  - split; [intros x p _; reflexivity|intros x y H p Hp; symmetry; apply H; exact Hp|intros x y z H1 H2 p Hp; rewrite (H1 p Hp); apply H2; exact Hp].
  - intros x x' Hx y y' Hy p Hp. change (ev x p + ev y p = ev x' p + ev y' p). rewrite (Hx p Hp), (Hy p Hp). reflexivity.
  - intros x x' Hx y y' Hy p Hp. change (ev x p * ev y p = ev x' p * ev y' p). rewrite (Hx p Hp), (Hy p Hp). reflexivity.
  - intros x x' Hx y y' Hy p Hp. change (ev x p - ev y p = ev x' p - ev y' p). rewrite (Hx p Hp), (Hy p Hp). reflexivity.
  - intros x x' Hx p Hp. change (- ev x p = - ev x' p). rewrite (Hx p Hp). reflexivity.
  - constructor; intros; intros p Hp; cbn; unfold ev; cbn; ring.
  - intros x x' Hx y y' Hy p Hp. change (@kdiv expr_ops) with udiv. unfold udiv. destruct (EM_inf _) as [H|H]; destruct (EM_inf _) as [H'|H'].
    + change (ev x p / ev y p = ev x' p / ev y' p). rewrite (Hx p Hp), (Hy p Hp). reflexivity.
    + exfalso. apply H'. intros q Hq. rewrite <- (Hy q Hq). apply H. exact Hq.
    + exfalso. apply H. intros q Hq. rewrite (Hy q Hq). apply H'. exact Hq.
    + reflexivity.
  - intros x y z H. assert (N : forall p, U p -> ev y p <> 0).
    { intros p Hp E. assert (Q := H p Hp). change (ev y p * ev z p = 1) in Q. rewrite E in Q. lra. }
    intros p Hp. change (ev (udiv x y) p * ev y p = ev x p). rewrite udiv_ev by exact N. field. apply N. exact Hp.
  - intros n Hn. exists (uconst (/ INR n)). intros p Hp. change (ev (@kofn expr_ops n) p * / INR n = 1). rewrite ev_kofn. field. apply not_0_INR. exact Hn.
  - intros i x y H. apply udiff_p; assumption.
  - intros i x y p Hp. reflexivity.
  - intros i x y p Hp. reflexivity.
  - intros i j x p Hp. apply diff_comm. apply (proj2_sig x). exact Hp.
  - exact Hs.
  - exact Hm.
Qed.
End Inst.

(** concrete oracles: simplify = identity; inverse = a candidate, returned only if it is an inverse *)
Definition simp_id (U : (nat -> R) -> Prop) (x : KU U) : KU U := x.
Definition diag_cand (U : (nat -> R) -> Prop) (g : nat -> nat -> KU U) : nat -> nat -> KU U :=
  fun i j => if Nat.eqb i j then udiv U (uconst U 1) (g i i) else uconst U 0.
Definition is_inverse (U : (nat -> R) -> Prop) n (g gi : nat -> nat -> KU U) : Prop := forall i j, (i < n)%nat -> (j < n)%nat ->
  let A := expr_ops U (simp_id U) (fun _ _ => None) in
  @keq A (@ksum A n (fun m => umul U (g i m) (gi m j))) (@kdelta A i j) /\ @keq A (@ksum A n (fun m => umul U (gi i m) (g m j))) (@kdelta A i j).
Definition minv_diag (U : (nat -> R) -> Prop) (n : nat) (g : nat -> nat -> KU U) : option (nat -> nat -> KU U) :=
  if EM_inf (is_inverse U n g (diag_cand U g)) then Some (diag_cand U g) else None.
Lemma minv_diag_ok U : minv_ok U (simp_id U) (minv_diag U).
Proof.
  intros n g gi. unfold minv_diag. destruct (EM_inf _) as [H|H]; intros E; [|discriminate]. injection E as <-. exact H.
Qed.
Lemma simp_id_ok U : simp_ok U (simp_id U). Proof. intros x p _. reflexivity. Qed.
Definition diag_ops (U : (nat -> R) -> Prop) : dops := expr_ops U (simp_id U) (minv_diag U).
Lemma diag_laws U : open_dirs U -> dlaws (diag_ops U).
Proof. intros O. apply expr_laws; [exact O|apply simp_id_ok|apply minv_diag_ok]. Qed.
