(** Concrete witnesses for C51-C60 over the expression domain of ExprModel.v. *)
From Coq Require Import String Ascii Reals List Arith Lia Bool Lra.
From Coquelicot Require Import Coquelicot.
From Verif Require Import Base SymAlg SymModel SymLoops SymGeo SymMove SymConn SymTensorModel SymTensorProofs SymCacheModel SymCacheProofs ExprModel SymWitness.
Import ListNotations.
Local Open Scope R_scope.

Notation AO := (diag_ops Uall).
(** constant 2x2 matrices as arrays *)
Definition c2 (a b c d : R) : arr AO := fun idx => match idx with
  | [0%nat; 0%nat] => uconst Uall a | [0%nat; 1%nat] => uconst Uall b | [1%nat; 0%nat] => uconst Uall c | [1%nat; 1%nat] => uconst Uall d | _ => uconst Uall 0 end.
Definition vec2 (a b : R) (c : config) : tens AO := @mktens AO 2 (fun idx => match idx with [0%nat] => uconst Uall a | [1%nat] => uconst Uall b | _ => uconst Uall 0 end) c None.
(** boost of velocity 3/5 *)
Definition boost : arr AO := c2 (5/4) (3/4) (3/4) (5/4).
Definition eta2 : tens AO := @mktens AO 2 (c2 (-1) 0 0 1) (cf "ll") None.
Lemma ksum2 (f : nat -> AO) p : ev Uall (@ksum AO 2 f) p = ev Uall (f 0%nat) p + ev Uall (f 1%nat) p.
Proof. cbn [ksum]. change (ev Uall (uconst Uall 0) p + ev Uall (f 0%nat) p + ev Uall (f 1%nat) p = ev Uall (f 0%nat) p + ev Uall (f 1%nat) p). change (ev Uall (uconst Uall 0) p) with 0. ring. Qed.
Lemma evm (x y : AO) p : ev Uall (@kmul AO x y) p = ev Uall x p * ev Uall y p.
Proof. reflexivity. Qed.
Lemma evc r p : ev Uall (uconst Uall r) p = r.
Proof. reflexivity. Qed.
Ltac two := let H := fresh in intros x y Hx Hy; assert (H : (x = 0 \/ x = 1)%nat /\ (y = 0 \/ y = 1)%nat) by lia; destruct H as [[-> | ->] [-> | ->]].
(** the boost preserves the Minkowski metric *)
Lemma boost_lorentz : forall x y, (x < 2)%nat -> (y < 2)%nat ->
  @keq AO (@ksum AO 2 (fun k => @ksum AO 2 (fun l => @kmul AO (@kmul AO (boost [k; x]) (t_arr eta2 [k; l])) (boost [l; y])))) (t_arr eta2 [x; y]).
Proof. two; intros p _; rewrite !ksum2, !evm; unfold boost, eta2, c2; cbn [t_arr]; rewrite ?evc; field. Qed.
(** but not the contraction of a vector with a covector *)
Lemma boost_contraction_refuted : exists (lam : arr (diag_ops Uall)) (v w : tens (diag_ops Uall)),
  (forall x y, (x < 2)%nat -> (y < 2)%nat -> @keq (diag_ops Uall) (@ksum (diag_ops Uall) 2 (fun k => @ksum (diag_ops Uall) 2 (fun l => @kmul (diag_ops Uall) (@kmul (diag_ops Uall) (lam [k; x]) (t_arr eta2 [k; l])) (lam [l; y])))) (t_arr eta2 [x; y])) /\
  t_cfg v = cf "u" /\ t_cfg w = cf "l" /\ t_n v = 2%nat /\ t_n w = 2%nat /\
  ~ @keq (diag_ops Uall) (@ksum (diag_ops Uall) 2 (fun x => @kmul (diag_ops Uall) (t_arr (lorentz_transform v lam) [x]) (t_arr (lorentz_transform w lam) [x])))
       (@ksum (diag_ops Uall) 2 (fun x => @kmul (diag_ops Uall) (t_arr v [x]) (t_arr w [x]))).
Proof.
  exists boost, (vec2 1 0 (cf "u")), (vec2 1 0 (cf "l")). split; [exact boost_lorentz|]. repeat (split; [reflexivity|]). intros H.
  assert (C := lorentz_contract_ all_laws (vec2 1 0 (cf "u")) (vec2 1 0 (cf "l")) boost eq_refl eq_refl eq_refl). change (t_n (vec2 1 0 (cf "u"))) with 2%nat in C.
  specialize (H (fun _ => 0) I). specialize (C (fun _ => 0) I). rewrite C in H. repeat (rewrite ?ksum2, ?evm in H). unfold boost, vec2, c2 in H. cbn [t_arr] in H. rewrite ?evc in H. lra.
Qed.
(** TransformationMatrix([[1,2],[2,1]]).inv() *)
Lemma tm_inv_refuted : exists (a : nat -> nat -> diag_ops Uall), (exists b : nat -> nat -> diag_ops Uall, inverse_metrics 2 a b) /\ ~ inverse_metrics 2 a (snd (tm_inv_call (mktm 2 a None))).
Proof.
  exists (fun i j => c2 1 2 2 1 [i; j]). split.
  - exists (fun i j => c2 (-1/3) (2/3) (2/3) (-1/3) [i; j]). two; (split; intros p _; rewrite !ksum2, !evm; unfold kdelta, c2; cbn [Nat.eqb]; rewrite ?evc; change (ev Uall (@k1 AO) p) with 1; change (ev Uall (@k0 AO) p) with 0; field).
  - intros H. apply (tm_two_ all_laws (fun i j => c2 1 2 2 1 [i; j])).
    + intros E. specialize (E (fun _ => 0) I). change (1 = 0) in E. lra.
    + intros i j Hi Hj. exists (c2 1 (1/2) (1/2) 1 [i; j]). assert (Q : (i = 0 \/ i = 1)%nat /\ (j = 0 \/ j = 1)%nat) by lia. destruct Q as [[-> | ->] [-> | ->]]; intros p _; rewrite evm; unfold c2; rewrite !evc; change (ev Uall (@k1 AO) p) with 1; field.
    + intros i j Hi Hj. exact (proj1 (H i j Hi Hj)).
Qed.
(** the exp(2 x0) metric of SymWitness, lowered tensor of rank 3 raised twice and back *)
Lemma conf_change_example (a : arr (diag_ops Uall)) : exists t1 t2, let t := @mktens (diag_ops Uall) 4 a (cf "lul") (Some (conf_metric 4)) in
  t_change_config t (cf "uul") None = Ok t1 /\ t_change_config t1 (cf "lul") None = Ok t2 /\ forall idx, valid 4 3 idx -> @keq (diag_ops Uall) (t_arr t2 idx) (a idx).
Proof.
  set (t := @mktens (diag_ops Uall) 4 a (cf "lul") (Some (conf_metric 4))). destruct (conf_pair 4) as [HP _].
  destruct (change_config_spec_ all_laws (conf_metric 4) conf_g _ t None (cf "uul") HP (or_intror (conj eq_refl eq_refl)) eq_refl eq_refl) as [t1 [E1 _]].
  destruct (change_config_round_ all_laws (conf_metric 4) conf_g _ t t1 None None (cf "uul") HP (or_intror (conj eq_refl eq_refl)) (or_intror eq_refl) eq_refl E1) as [t2 [E2 [_ V]]].
  exists t1, t2. split; [exact E1|]. split; [exact E2|]. exact V.
Qed.
(** a history of calls on the exp(2 x0) metric: the inverse is object 1, whose inverse is object 0 *)
Lemma conf_history : exists h', h_inv 4 (run 4 [] [New (arr_of (A := diag_ops Uall) conf_g) (cf "ll")]) 0 = Ok (h', 1%nat) /\ h_inv 4 h' 1 = Ok (h', 0%nat).
Proof.

  assert (K' : @kminv AO 4 (mat_of (arr_of (A := AO) conf_g)) = Some (diag_cand Uall conf_g)).
  { change (minv_diag Uall 4 conf_g = Some (diag_cand Uall conf_g)). unfold minv_diag. destruct (EM_inf _) as [H|H]; [reflexivity|]. exfalso. apply H. apply conf_inv. }
  exact (inv_fresh AO 4 (arr_of (A := AO) conf_g) _ K').
Qed.
