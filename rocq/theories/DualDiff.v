(** Specification-side calculus of arithmetic programs: formal partial derivatives, which are again programs. *)
From Coq Require Import Reals ZArith List Lra Lia Bool.
From Coquelicot Require Import Coquelicot.
From Verif Require Import Base Calc DualModel DualSpec DualProofs.
Open Scope R_scope.

(** sum over k < n *)
Fixpoint rsum (n : nat) (f : nat -> R) : R := match n with O => 0 | S m => rsum m f + f m end.
Lemma rsum_ext n f g : (forall i, (i < n)%nat -> f i = g i) -> rsum n f = rsum n g.
Proof. induction n as [|n IH]; intros H; cbn [rsum]; [reflexivity|]. rewrite IH, H by (intros; try apply H; lia). reflexivity. Qed.
Lemma rsum_plus n f g : rsum n (fun i => f i + g i) = rsum n f + rsum n g.
Proof. induction n as [|n IH]; cbn [rsum]; [ring|]. rewrite IH. ring. Qed.
Lemma rsum_scal n k f : rsum n (fun i => k * f i) = k * rsum n f.
Proof. induction n as [|n IH]; cbn [rsum]; [ring|]. rewrite IH. ring. Qed.
Lemma rsum_0 n : rsum n (fun _ => 0) = 0.
Proof. induction n as [|n IH]; cbn [rsum]; [ring|]. rewrite IH. ring. Qed.
Lemma rsum_zero n f : (forall i, (i < n)%nat -> f i = 0) -> rsum n f = 0.
Proof. intros H. rewrite (rsum_ext n f (fun _ => 0)) by exact H. apply rsum_0. Qed.
Lemma rsum_swap n m f : rsum n (fun i => rsum m (fun j => f i j)) = rsum m (fun j => rsum n (fun i => f i j)).
Proof. induction n as [|n IH]; cbn [rsum]; [symmetry; apply rsum_0|]. rewrite IH. symmetry. apply rsum_plus. Qed.
Lemma rsum_pick n k f : (k < n)%nat -> rsum n (fun i => f i * (if Nat.eqb i k then 1 else 0)) = f k.
Proof.
  induction n as [|n IH]; intros H; [lia|]. cbn [rsum]. destruct (Nat.eq_dec k n) as [->|N].
  - rewrite Nat.eqb_refl, rsum_zero; [ring|]. intros i Hi. destruct (Nat.eqb_spec i n); [lia|ring].
  - rewrite IH by lia. destruct (Nat.eqb_spec n k); [lia|ring].
Qed.
Lemma D_rsum n (f : nat -> R -> R) t a : (forall k, (k < n)%nat -> is_derive (f k) t (a k)) -> is_derive (fun s => rsum n (fun k => f k s)) t (rsum n a).
Proof.
  induction n as [|n IH]; intros H; cbn [rsum]; [apply D_const|].
  apply (D_plus (fun s => rsum n (fun k => f k s)) (f n)); [apply IH; intros; apply H; lia|apply H; lia].
Qed.

(** formal derivative with respect to variable k *)
Fixpoint pd (k : nat) (e : pexpr) : pexpr :=
  match e with
  | EVar i => EConst (if Nat.eqb k i then 1 else 0)
  | EConst _ => EConst 0
  | EAdd a b => EAdd (pd k a) (pd k b)
  | ESub a b => ESub (pd k a) (pd k b)
  | EMul a b => EAdd (EMul (pd k a) b) (EMul a (pd k b))
  | EDiv a b => EDiv (ESub (EMul (pd k a) b) (EMul a (pd k b))) (EMul b b)
  | ENeg a => ENeg (pd k a)
  | EPow a n => if (n =? 0)%Z then EConst 0 else if (n =? 1)%Z then pd k a else EMul (EMul (EConst (IZR n)) (EPow a (n - 1))) (pd k a)
  | EPowR a p => EMul (EMul (EConst p) (EPowR a (p - 1))) (pd k a)
  | ESin a => EMul (pd k a) (ECos a)
  | ECos a => EMul (pd k a) (ENeg (ESin a))
  | ETan a => EDiv (pd k a) (EMul (ECos a) (ECos a))
  | ELog a => EDiv (pd k a) a
  | EExp a => EMul (pd k a) (EExp a)
  end.
Fixpoint below (N : nat) (e : pexpr) : bool :=
  match e with
  | EVar i => Nat.ltb i N
  | EConst _ => true
  | EAdd a b | ESub a b | EMul a b | EDiv a b => below N a && below N b
  | ENeg a | EPow a _ | EPowR a _ | ESin a | ECos a | ETan a | ELog a | EExp a => below N a
  end.
Lemma pd_pow x k a n : meaning x (pd k (EPow a n)) = IZR n * powerRZ (meaning x a) (n - 1) * meaning x (pd k a).
Proof.
  cbn [pd]. destruct (Z.eqb_spec n 0) as [->|N0]; [cbn [meaning]; ring|]. destruct (Z.eqb_spec n 1) as [->|N1]; [|reflexivity].
  change (1 - 1)%Z with 0%Z. cbn [powerRZ]. ring.
Qed.
Lemma pd_below N k e : below N e = true -> below N (pd k e) = true.
Proof.
  induction e; cbn [below pd]; intros H; try reflexivity; try (apply andb_prop in H as [H1 H2]; cbn [below]; rewrite ?IHe1, ?IHe2, ?H1, ?H2 by assumption; reflexivity);
    try (cbn [below]; rewrite ?IHe, ?H by assumption; reflexivity).
  destruct (n =? 0)%Z; [reflexivity|]. destruct (n =? 1)%Z; [apply IHe; exact H|]. cbn [below]. rewrite IHe, H by assumption. reflexivity.
Qed.
Lemma pd_defined x k e : defined_at x e -> defined_at x (pd k e).
Proof.
  induction e; cbn [defined_at pd]; intros H; try exact I; try tauto.
  - destruct H as [H1 [H2 H3]]. cbn [meaning]. repeat split; try tauto. apply Rmult_integral_contrapositive_currified; assumption.
  - destruct H as [H1 H2]. destruct (Z.eqb_spec n 0) as [->|N0]; [exact I|]. destruct (Z.eqb_spec n 1) as [->|N1]; [tauto|].
    cbn [defined_at]. repeat split; try tauto. destruct H2 as [H2|H2]; [left; lia|right; exact H2].
  - destruct H as [H1 H2]. cbn [meaning]. repeat split; try tauto. apply Rmult_integral_contrapositive_currified; assumption.
  - destruct H as [H1 H2]. repeat split; try tauto. apply Rgt_not_eq. exact H2.
Qed.
(** the chain rule along any differentiable curve *)
Lemma pd_path N e : below N e = true -> forall (xs : nat -> R -> R) (xdot : nat -> R) (t0 : R),
  (forall i, (i < N)%nat -> is_derive (xs i) t0 (xdot i)) -> defined_at (fun i => xs i t0) e ->
  is_derive (fun t => meaning (fun i => xs i t) e) t0 (rsum N (fun k => xdot k * meaning (fun i => xs i t0) (pd k e))).
Proof.
  induction e as [i|c|a IHa b IHb|a IHa b IHb|a IHa b IHb|a IHa b IHb|a IHa|a IHa n|a IHa p
                 |a IHa|a IHa|a IHa|a IHa|a IHa];
    intros Hb xs xdot t0 Hx Hd; cbn [below] in Hb; cbn [defined_at] in Hd; try (apply andb_prop in Hb as [Hb1 Hb2]);
    try (specialize (IHa ltac:(assumption) xs xdot t0 Hx ltac:(tauto))); try (specialize (IHb ltac:(assumption) xs xdot t0 Hx ltac:(tauto)));
    set (x0 := fun i => xs i t0) in *; try set (A := fun t => meaning (fun i => xs i t) a) in *; try set (B := fun t => meaning (fun i => xs i t) b) in *.
  - apply Nat.ltb_lt in Hb. cbn [meaning pd]. rewrite (rsum_pick N i xdot Hb). apply Hx. exact Hb.
  - cbn [meaning pd]. rewrite rsum_zero by (intros; ring). apply D_const.
  - eapply D_eq; [apply (D_plus A B); eassumption|]. cbn [meaning pd]. rewrite <- rsum_plus. apply rsum_ext. intros; ring.
  - eapply D_eq; [apply (D_minus A B); eassumption|]. cbn [meaning pd].
    replace (rsum N (fun k => xdot k * meaning x0 (pd k a)) - rsum N (fun k => xdot k * meaning x0 (pd k b)))
      with (rsum N (fun k => xdot k * meaning x0 (pd k a)) + rsum N (fun k => -1 * (xdot k * meaning x0 (pd k b)))) by (rewrite rsum_scal; ring).
    rewrite <- rsum_plus. apply rsum_ext. intros; ring.
  - eapply D_eq; [apply (D_mult A B); eassumption|]. cbn [meaning pd]. change (A t0) with (meaning x0 a). change (B t0) with (meaning x0 b).
    rewrite <- (rsum_scal N (meaning x0 a)). rewrite Rmult_comm, <- (rsum_scal N (meaning x0 b)), <- rsum_plus. apply rsum_ext. intros; ring.
  - destruct Hd as [_ [_ Hn]]. eapply D_eq; [apply (D_div A B); eassumption|]. cbn [meaning pd]. change (A t0) with (meaning x0 a). change (B t0) with (meaning x0 b).
    change (meaning x0 b <> 0) in Hn.
    transitivity (rsum N (fun k => meaning x0 b / (meaning x0 b * meaning x0 b) * (xdot k * meaning x0 (pd k a)))
       + rsum N (fun k => - meaning x0 a / (meaning x0 b * meaning x0 b) * (xdot k * meaning x0 (pd k b)))).
    + rewrite !rsum_scal. field. exact Hn.
    + rewrite <- rsum_plus. apply rsum_ext. intros; field. exact Hn.
  - eapply D_eq; [apply (D_opp A); eassumption|]. cbn [meaning pd]. replace (- rsum N (fun k => xdot k * meaning x0 (pd k a))) with (-1 * rsum N (fun k => xdot k * meaning x0 (pd k a))) by ring.
    rewrite <- rsum_scal. apply rsum_ext. intros; ring.
  - destruct Hd as [_ Hn]. eapply D_eq; [apply (D_powerRZ A); eassumption|]. change (A t0) with (meaning x0 a).
    transitivity (rsum N (fun k => IZR n * powerRZ (meaning x0 a) (n - 1) * (xdot k * meaning x0 (pd k a)))); [rewrite rsum_scal; ring|].
    apply rsum_ext. intros k Hk. rewrite pd_pow. ring.
  - destruct Hd as [_ Hn]. eapply D_eq; [apply (D_Rpower A); eassumption|]. change (A t0) with (meaning x0 a). cbn [meaning pd].
    transitivity (rsum N (fun k => p * Rpower (meaning x0 a) (p - 1) * (xdot k * meaning x0 (pd k a)))); [rewrite rsum_scal; ring|].
    apply rsum_ext. intros k Hk. ring.
  - eapply D_eq; [apply (D_sin A); eassumption|]. change (A t0) with (meaning x0 a). cbn [meaning pd]. rewrite Rmult_comm, <- rsum_scal. apply rsum_ext. intros; ring.
  - eapply D_eq; [apply (D_cos A); eassumption|]. change (A t0) with (meaning x0 a). cbn [meaning pd]. rewrite Rmult_comm, <- rsum_scal. apply rsum_ext. intros; ring.
  - destruct Hd as [_ Hn]. eapply D_eq; [apply (D_tan A); eassumption|]. change (A t0) with (meaning x0 a). cbn [meaning pd]. unfold Rdiv. rewrite Rmult_comm, <- rsum_scal. apply rsum_ext. intros; ring.
  - destruct Hd as [_ Hn]. eapply D_eq; [apply (D_ln A); eassumption|]. change (A t0) with (meaning x0 a). cbn [meaning pd]. unfold Rdiv. rewrite Rmult_comm, <- rsum_scal. apply rsum_ext. intros; ring.
  - eapply D_eq; [apply (D_exp A); eassumption|]. change (A t0) with (meaning x0 a). cbn [meaning pd]. rewrite Rmult_comm, <- rsum_scal. apply rsum_ext. intros; ring.
Qed.
(** partial derivatives commute *)
Lemma pd_comm x k l e : defined_at x e -> meaning x (pd k (pd l e)) = meaning x (pd l (pd k e)).
Proof.
  induction e as [i|c|a IHa b IHb|a IHa b IHb|a IHa b IHb|a IHa b IHb|a IHa|a IHa n|a IHa p
                 |a IHa|a IHa|a IHa|a IHa|a IHa]; intros Hd; cbn [defined_at] in Hd;
   try (specialize (IHa ltac:(tauto))); try (specialize (IHb ltac:(tauto))).
  - reflexivity.
  - reflexivity.
  - cbn [pd meaning]. rewrite IHa, IHb. reflexivity.
  - cbn [pd meaning]. rewrite IHa, IHb. reflexivity.
  - cbn [pd meaning]. rewrite IHa, IHb. ring.
  - destruct Hd as [_ [_ Hn]]. cbn [pd meaning]. rewrite IHa, IHb. field. exact Hn.
  - cbn [pd meaning]. rewrite IHa. reflexivity.
  - cbn [pd]. destruct (Z.eqb_spec n 0) as [->|N0]; [reflexivity|]. destruct (Z.eqb_spec n 1) as [->|N1]; [exact IHa|].
    change (pd k (EMul (EMul (EConst (IZR n)) (EPow a (n - 1))) (pd l a)))
      with (EAdd (EMul (EAdd (EMul (EConst 0) (EPow a (n - 1))) (EMul (EConst (IZR n)) (pd k (EPow a (n - 1))))) (pd l a))
                 (EMul (EMul (EConst (IZR n)) (EPow a (n - 1))) (pd k (pd l a)))).
    change (pd l (EMul (EMul (EConst (IZR n)) (EPow a (n - 1))) (pd k a)))
      with (EAdd (EMul (EAdd (EMul (EConst 0) (EPow a (n - 1))) (EMul (EConst (IZR n)) (pd l (EPow a (n - 1))))) (pd k a))
                 (EMul (EMul (EConst (IZR n)) (EPow a (n - 1))) (pd l (pd k a)))).
    cbn [meaning]. rewrite !pd_pow, IHa. ring.
  - cbn [pd meaning]. rewrite IHa. ring.
  - cbn [pd meaning]. rewrite IHa. ring.
  - cbn [pd meaning]. rewrite IHa. ring.
  - destruct Hd as [_ Hn]. cbn [pd meaning]. rewrite IHa. field. exact Hn.
  - destruct Hd as [_ Hn]. cbn [pd meaning]. rewrite IHa. field. apply Rgt_not_eq; exact Hn.
  - cbn [pd meaning]. rewrite IHa. ring.
Qed.
