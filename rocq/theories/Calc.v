(** Convenience forms of Coquelicot's derivative rules, stated over R only. *)
From Coq Require Import Reals ZArith Lra Lia.
From Coquelicot Require Import Coquelicot.
Open Scope R_scope.

Lemma D_const (c t : R) : is_derive (fun _ : R => c) t 0.
Proof. exact (is_derive_const (K:=R_AbsRing) (V:=R_NormedModule) c t). Qed.
Lemma D_id (t : R) : is_derive (fun s : R => s) t 1.
Proof. exact (is_derive_id (K:=R_AbsRing) t). Qed.
Lemma D_plus (f g : R -> R) (t a b : R) : is_derive f t a -> is_derive g t b -> is_derive (fun s => f s + g s) t (a + b).
Proof. exact (is_derive_plus (K:=R_AbsRing) (V:=R_NormedModule) f g t a b). Qed.
Lemma D_minus (f g : R -> R) (t a b : R) : is_derive f t a -> is_derive g t b -> is_derive (fun s => f s - g s) t (a - b).
Proof. exact (is_derive_minus (K:=R_AbsRing) (V:=R_NormedModule) f g t a b). Qed.
Lemma D_opp (f : R -> R) (t a : R) : is_derive f t a -> is_derive (fun s => - f s) t (- a).
Proof. exact (is_derive_opp (K:=R_AbsRing) (V:=R_NormedModule) f t a). Qed.
Lemma D_mult (f g : R -> R) (t a b : R) : is_derive f t a -> is_derive g t b ->
  is_derive (fun s => f s * g s) t (a * g t + f t * b).
Proof. intros H1 H2. exact (is_derive_mult (K:=R_AbsRing) f g t a b H1 H2 Rmult_comm). Qed.
Lemma D_scal (f : R -> R) (t k a : R) : is_derive f t a -> is_derive (fun s => k * f s) t (k * a).
Proof. exact (is_derive_scal f t k a). Qed.
Lemma D_comp (f g : R -> R) (t a b : R) : is_derive f (g t) a -> is_derive g t b -> is_derive (fun s => f (g s)) t (b * a).
Proof. exact (is_derive_comp (K:=R_AbsRing) (V:=R_NormedModule) f g t a b). Qed.
Lemma D_eq (f : R -> R) (t a b : R) : is_derive f t a -> a = b -> is_derive f t b.
Proof. intros H <-; exact H. Qed.
Lemma D_ext (f g : R -> R) (t a : R) : (forall s, f s = g s) -> is_derive f t a -> is_derive g t a.
Proof. exact (is_derive_ext f g t a). Qed.
Lemma D_sin (f : R -> R) (t a : R) : is_derive f t a -> is_derive (fun s => sin (f s)) t (a * cos (f t)).
Proof. intros H. exact (D_comp sin f t _ _ (is_derive_sin (f t)) H). Qed.
Lemma D_cos (f : R -> R) (t a : R) : is_derive f t a -> is_derive (fun s => cos (f s)) t (a * - sin (f t)).
Proof. intros H. exact (D_comp cos f t _ _ (is_derive_cos (f t)) H). Qed.
Lemma D_exp (f : R -> R) (t a : R) : is_derive f t a -> is_derive (fun s => exp (f s)) t (a * exp (f t)).
Proof. intros H. exact (D_comp exp f t _ _ (is_derive_exp (f t)) H). Qed.
Lemma D_ln (f : R -> R) (t a : R) : 0 < f t -> is_derive f t a -> is_derive (fun s => ln (f s)) t (a * / f t).
Proof. intros Hp H. exact (D_comp ln f t _ _ (is_derive_ln (f t) Hp) H). Qed.
Lemma D_inv (f : R -> R) (t a : R) : f t <> 0 -> is_derive f t a -> is_derive (fun s => / f s) t (- a / (f t * f t)).
Proof.
  intros Hp H. eapply D_eq; [apply is_derive_inv; [exact H|exact Hp]|]. simpl. field; exact Hp.
Qed.
Lemma D_div (f g : R -> R) (t a b : R) : g t <> 0 -> is_derive f t a -> is_derive g t b ->
  is_derive (fun s => f s / g s) t ((a * g t - f t * b) / (g t * g t)).
Proof.
  intros H Hf Hg. eapply D_eq; [apply is_derive_div; [exact Hf|exact Hg|exact H]|]. simpl. field. exact H.
Qed.
Lemma D_sqrt (f : R -> R) (t a : R) : 0 < f t -> is_derive f t a -> is_derive (fun s => sqrt (f s)) t (a / (2 * sqrt (f t))).
Proof.
  intros Hp H. eapply D_eq; [apply is_derive_sqrt; [exact H|exact Hp]|]. reflexivity.
Qed.
Lemma D_pow (f : R -> R) (t : R) n (a : R) : is_derive f t a -> is_derive (fun s => f s ^ n) t (INR n * a * f t ^ pred n).
Proof. intros H. exact (is_derive_pow f n t a H). Qed.
Lemma D_tan (f : R -> R) (t a : R) : cos (f t) <> 0 -> is_derive f t a ->
  is_derive (fun s => tan (f s)) t (a / (cos (f t) * cos (f t))).
Proof.
  intros Hc H. eapply D_eq; [apply (D_comp tan f); [apply is_derive_tan; exact Hc|exact H]|].
  unfold tan. assert (E := sin2_cos2 (f t)). unfold Rsqr in E.
  replace ((sin (f t) / cos (f t)) ^ 2 + 1)
    with ((sin (f t) * sin (f t) + cos (f t) * cos (f t)) / (cos (f t) * cos (f t))) by (field; exact Hc).
  rewrite E. field; exact Hc.
Qed.
Lemma D_continuous (f : R -> R) (t l : R) : is_derive f t l -> continuous f t.
Proof. intros H; apply (ex_derive_continuous (K:=R_AbsRing) (V:=R_NormedModule) f t). exists l; exact H. Qed.

Lemma D_powerRZ (f : R -> R) (t l : R) n : (1 <= n)%Z \/ f t <> 0 -> is_derive f t l ->
  is_derive (fun s => powerRZ (f s) n) t (l * IZR n * powerRZ (f t) (n - 1)).
Proof.
  intros H Hf. destruct n as [|p|p].
  - simpl. replace (l * 0 * _) with 0 by ring. apply D_const.
  - simpl powerRZ at 1.
    replace (powerRZ (f t) (Z.pos p - 1)) with (f t ^ pred (Pos.to_nat p)).
    + replace (IZR (Z.pos p)) with (INR (Pos.to_nat p)) by (rewrite INR_IZR_INZ; f_equal; lia).
      replace (l * INR (Pos.to_nat p) * f t ^ pred (Pos.to_nat p))
        with (INR (Pos.to_nat p) * l * f t ^ pred (Pos.to_nat p)) by ring.
      apply D_pow; assumption.
    + replace (Z.pos p - 1)%Z with (Z.of_nat (pred (Pos.to_nat p))) by lia.
      apply pow_powerRZ.
  - destruct H as [H|H]; [lia|]. simpl powerRZ at 1.
    assert (Hp : f t ^ Pos.to_nat p <> 0) by (apply pow_nonzero; assumption).
    eapply D_eq.
    + apply (D_inv (fun s => f s ^ Pos.to_nat p)); [exact Hp|apply D_pow; exact Hf].
    + simpl.
      replace (IZR (Z.neg p)) with (- INR (Pos.to_nat p))
        by (rewrite INR_IZR_INZ, <- opp_IZR; f_equal; lia).
      replace (Pos.to_nat (p + 1)) with (S (S (pred (Pos.to_nat p)))) by lia.
      replace (Pos.to_nat p) with (S (pred (Pos.to_nat p))) at 3 4 by lia.
      set (k := pred (Pos.to_nat p)). simpl.
      assert (Hk : f t ^ k <> 0) by (apply pow_nonzero; assumption).
      field. split; assumption.
Qed.

Lemma D_Rpower (f : R -> R) (t p l : R) : 0 < f t -> is_derive f t l ->
  is_derive (fun s => Rpower (f s) p) t (l * p * Rpower (f t) (p - 1)).
Proof.
  intros H Hf. unfold Rpower. eapply D_eq.
  - apply (D_exp (fun s => p * ln (f s))). apply D_scal. apply D_ln; eassumption.
  - cbv beta.
    replace ((p - 1) * ln (f t)) with (p * ln (f t) + - ln (f t)) by ring.
    rewrite exp_plus, exp_Ropp, exp_ln by assumption. field. lra.
Qed.

Lemma locally_nonzero (f : R -> R) (t : R) : continuous f t -> f t <> 0 -> locally t (fun s => f s <> 0).
Proof.
  intros Hc Hn. apply (Hc (fun y : R => y <> 0)).
  assert (Hp : 0 < Rabs (f t)) by (apply Rabs_pos_lt; exact Hn).
  exists (mkposreal _ Hp). intros y Hy. unfold ball in Hy; simpl in Hy; unfold AbsRing_ball in Hy.
  unfold abs, minus, plus, opp in Hy; simpl in Hy. intros ->.
  rewrite Rplus_0_l, Rabs_Ropp in Hy. lra.
Qed.
Lemma locally_positive (f : R -> R) (t : R) : continuous f t -> 0 < f t -> locally t (fun s => 0 < f s).
Proof.
  intros Hc Hn. apply (Hc (fun y : R => 0 < y)). exists (mkposreal _ Hn). intros y Hy.
  unfold ball in Hy; simpl in Hy; unfold AbsRing_ball in Hy.
  unfold abs, minus, plus, opp in Hy; simpl in Hy.
  apply Rabs_def2 in Hy. lra.
Qed.

(** derivative as limit of the difference quotient *)
Lemma D_lim (f : R -> R) (t l : R) : is_derive f t l -> is_lim (fun s => (f s - f t) / (s - t)) t l.
Proof.
  intros D. apply is_lim_spec. intros eps. apply is_derive_Reals in D.
  destruct (D eps (cond_pos eps)) as [d Hd]. exists d. intros y Hy Hne.
  specialize (Hd (y - t)). rewrite (Rplus_minus t y) in Hd.
  apply Hd; [apply Rminus_eq_contra; exact Hne|exact Hy].
Qed.

Lemma D_unique (f : R -> R) (t a b : R) : is_derive f t a -> is_derive f t b -> a = b.
Proof. intros H1 H2. rewrite <- (is_derive_unique _ _ _ H1). apply is_derive_unique; exact H2. Qed.

(** syntax-directed differentiation: leaves side conditions, closes leaves by assumption *)
Ltac D_step :=
  match goal with
  | H : is_derive ?f ?t _ |- is_derive ?f ?t _ => exact H
  | H : is_derive ?f ?t _ |- is_derive (fun s => ?f s) ?t _ => exact H
  | |- is_derive ?f _ _ => let a := eval cbv beta in (f 0) in let b := eval cbv beta in (f 1) in constr_eq a b; apply D_const
  | |- is_derive (fun s => s) _ _ => apply D_id
  | |- is_derive (fun s => @?f s + @?g s) _ _ => apply (D_plus f g)
  | |- is_derive (fun s => @?f s - @?g s) _ _ => apply (D_minus f g)
  | |- is_derive (fun s => - @?f s) _ _ => apply (D_opp f)
  | |- is_derive (fun s => @?f s * @?g s) _ _ => apply (D_mult f g)
  | |- is_derive (fun s => @?f s / @?g s) _ _ => apply (D_div f g)
  | |- is_derive (fun s => / @?f s) _ _ => apply (D_inv f)
  | |- is_derive (fun s => @?f s ^ ?n) _ _ => apply (D_pow f)
  | |- is_derive (fun s => sin (@?f s)) _ _ => apply (D_sin f)
  | |- is_derive (fun s => cos (@?f s)) _ _ => apply (D_cos f)
  | |- is_derive (fun s => exp (@?f s)) _ _ => apply (D_exp f)
  | |- is_derive (fun s => ln (@?f s)) _ _ => apply (D_ln f)
  | |- is_derive (fun s => sqrt (@?f s)) _ _ => apply (D_sqrt f)
  end.
Ltac D_auto := eapply D_eq; [repeat D_step|cbv beta].
