(** Curvature of (anti-)de Sitter, Reissner-Nordstrom, Barriola-Vilenkin, Bertotti-Kasner and Godel space-times. *)
From Coq Require Import String Ascii Reals List Arith Lia Lra.
From Coquelicot Require Import Coquelicot.
From Verif Require Import Base SymAlg SymModel ExprModel PredefModel PredefBridge PredefProofs.
Import ListNotations.
Open Scope R_scope.

Lemma exp_sq_ne1 x : x <> 0 -> exp x * exp x - 1 <> 0.
Proof.
  intros H E. apply H. assert (exp (x + x) = exp 0) by (rewrite exp_plus, exp_0; lra). apply exp_inv in H0. lra.
Qed.
Lemma sinh_nz x : x <> 0 -> (exp x - 1 / exp x) / 2 <> 0.
Proof.
  intros H E. apply (exp_sq_ne1 x H). assert (P := exp_pos x). replace (exp x * exp x - 1) with ((exp x - 1 / exp x) / 2 * (2 * exp x)) by (field; lra). rewrite E. ring.
Qed.
Lemma cosh_nz x : (exp x + 1 / exp x) / 2 <> 0.
Proof. assert (P := exp_pos x). assert (0 < 1 / exp x) by (apply Rdiv_lt_0_compat; lra). lra. Qed.
Lemma cosh_nz' x : exp x * exp x + 1 <> 0.
Proof. assert (P := exp_pos x). nra. Qed.

(** ** AntiDeSitterStatic *)
Definition ads_chart (p : nat -> R) : Prop := p 1%nat <> 0 /\ sin (p 2%nat) <> 0.
Definition ads_inv : emat :=
  let r := X 1 in let th := X 2 in
  diag4 (EOpp (EDiv E1 (Esq (Ecosh r)))) E1 (EDiv E1 (Esq (Esinh r))) (EDiv E1 (EMul (Esq (Esinh r)) (Esq (ESin th)))).
Definition ads_T (i j k : nat) : expr :=
  let r := X 1 in let th := X 2 in
  match i, j, k with
  | 0, 0, 1 | 0, 1, 0 => EDiv (Esinh r) (Ecosh r)
  | 1, 0, 0 => EMul (Ecosh r) (Esinh r)
  | 1, 2, 2 => EOpp (EMul (Esinh r) (Ecosh r))
  | 1, 3, 3 => EOpp (EMul (EMul (Esinh r) (Ecosh r)) (Esq (ESin th)))
  | 2, 1, 2 | 2, 2, 1 | 3, 1, 3 | 3, 3, 1 => EDiv (Ecosh r) (Esinh r)
  | 2, 3, 3 => EOpp (EMul (ESin th) (ECos th))
  | 3, 2, 3 | 3, 3, 2 => EDiv (ECos th) (ESin th)
  | _, _, _ => E0
  end%nat.
Lemma ads_open : open_dirs ads_chart.
Proof. apply open_and; [apply (open_nz_ (X 1)); intros; exact I|apply (open_nz_ (ESin (X 2))); intros; exact I]. Qed.
Ltac ads_prep := match goal with Hp : ads_chart _ |- _ => destruct Hp as [? ?] end;
   match goal with Hr : ?p 1%nat <> 0 |- _ => let x := constr:(p 1%nat) in assert (Q1 := sinh_nz x Hr); assert (Q2 := exp_sq_ne1 x Hr); assert (Q3 := cosh_nz x); assert (Q4 := cosh_nz' x) end.
Lemma ads_table : table ads_chart AntiDeSitterStatic ads_inv ads_T.
Proof.
  split; [apply ads_open|].
  tab ltac:(unfold AntiDeSitterStatic, ads_inv, ads_T) ltac:(idtac; ads_prep).
Qed.
Lemma ads_ricci s v p : (s < 4)%nat -> (v < 4)%nat -> ads_chart p -> rs4 (fun t => rT ads_T t s t v p) = -3 * eval (AntiDeSitterStatic s v) p.
Proof.
  intros Hi Hj Hp. ads_prep. assert (S := sc2 (p 2%nat)).
  c4 s Hi; c4 v Hj; unfold ads_T, AntiDeSitterStatic; evc; try (unfold Rdiv; ring); field [S]; nz.
Qed.

(** ** AntiDeSitter (cosmological slicing) *)
Definition adc_chart (p : nat -> R) : Prop := cos (p 0%nat) <> 0 /\ (p 1%nat <> 0 /\ sin (p 2%nat) <> 0).
Definition adc_inv : emat :=
  let t := X 0 in let r := X 1 in let th := X 2 in
  diag4 (EConst (-1)) (EDiv E1 (Esq (ECos t))) (EDiv E1 (EMul (Esq (ECos t)) (Esq (Esinh r)))) (EDiv E1 (EMul (EMul (Esq (ECos t)) (Esq (Esinh r))) (Esq (ESin th)))).
Definition adc_T (i j k : nat) : expr :=
  let t := X 0 in let r := X 1 in let th := X 2 in
  match i, j, k with
  | 0, 1, 1 => EOpp (EMul (ECos t) (ESin t))
  | 0, 2, 2 => EOpp (EMul (EMul (ECos t) (ESin t)) (Esq (Esinh r)))
  | 0, 3, 3 => EOpp (EMul (EMul (EMul (ECos t) (ESin t)) (Esq (Esinh r))) (Esq (ESin th)))
  | 1, 0, 1 | 1, 1, 0 | 2, 0, 2 | 2, 2, 0 | 3, 0, 3 | 3, 3, 0 => EOpp (EDiv (ESin t) (ECos t))
  | 1, 2, 2 => EOpp (EMul (Esinh r) (Ecosh r))
  | 1, 3, 3 => EOpp (EMul (EMul (Esinh r) (Ecosh r)) (Esq (ESin th)))
  | 2, 1, 2 | 2, 2, 1 | 3, 1, 3 | 3, 3, 1 => EDiv (Ecosh r) (Esinh r)
  | 2, 3, 3 => EOpp (EMul (ESin th) (ECos th))
  | 3, 2, 3 | 3, 3, 2 => EDiv (ECos th) (ESin th)
  | _, _, _ => E0
  end%nat.
Lemma adc_open : open_dirs adc_chart.
Proof. apply open_and; [|apply open_and]; [apply (open_nz_ (ECos (X 0))); intros; exact I|apply (open_nz_ (X 1)); intros; exact I|apply (open_nz_ (ESin (X 2))); intros; exact I]. Qed.
Ltac adc_prep := match goal with Hp : adc_chart _ |- _ => destruct Hp as [? [? ?]] end;
   match goal with Hr : ?p 1%nat <> 0 |- _ => let x := constr:(p 1%nat) in assert (Q1 := sinh_nz x Hr); assert (Q2 := exp_sq_ne1 x Hr); assert (Q3 := cosh_nz x); assert (Q4 := cosh_nz' x) end.
Lemma adc_table : table adc_chart AntiDeSitter adc_inv adc_T.
Proof. split; [apply adc_open|]. tab ltac:(unfold AntiDeSitter, adc_inv, adc_T) ltac:(idtac; adc_prep). Qed.
Lemma adc_ricci s v p : (s < 4)%nat -> (v < 4)%nat -> adc_chart p -> rs4 (fun t => rT adc_T t s t v p) = -3 * eval (AntiDeSitter s v) p.
Proof.
  intros Hi Hj Hp. adc_prep. assert (S := sc2 (p 2%nat)). assert (S' := sc2 (p 0%nat)).
  c4 s Hi; c4 v Hj; unfold adc_T, AntiDeSitter; evc; try (unfold Rdiv; ring); field [S S']; nz.
Qed.

(** ** DeSitter *)
Definition ds_chart (al : expr) (p : nat -> R) : Prop := eval al p <> 0.
Lemma ds_open al : param al -> open_dirs (ds_chart al).
Proof. intros [W _]. apply open_nz_. exact W. Qed.
(** the expanding flat slicing that the class documents: exp(2 t / alpha) with t the time coordinate *)
Definition ds_book (al : expr) : emat := let e := EExp (EDiv (EMul (EConst 2) (X 0)) al) in diag4 (EConst (-1)) e e e.
Definition ds_inv (x al : expr) : emat := let e := EDiv E1 (EExp (EDiv (EMul (EConst 2) x) al)) in diag4 (EConst (-1)) e e e.
Definition ds_T (al : expr) (i j k : nat) : expr :=
  match i, j, k with
  | 1, 1, 1 | 2, 1, 2 | 2, 2, 1 | 3, 1, 3 | 3, 3, 1 => EDiv E1 al
  | 1, 2, 2 | 1, 3, 3 => EOpp (EDiv E1 al)
  | _, _, _ => E0
  end%nat.
Definition dsb_T (al : expr) (i j k : nat) : expr :=
  match i, j, k with
  | 0, 1, 1 | 0, 2, 2 | 0, 3, 3 => EDiv (EExp (EDiv (EMul (EConst 2) (X 0)) al)) al
  | 1, 0, 1 | 1, 1, 0 | 2, 0, 2 | 2, 2, 0 | 3, 0, 3 | 3, 3, 0 => EDiv E1 al
  | _, _, _ => E0
  end%nat.
Lemma ds_table al : param al -> table (ds_chart al) (DeSitter al) (ds_inv (X 1) al) (ds_T al).
Proof. intros Pa. split; [apply ds_open; exact Pa|]. pars. tab ltac:(unfold DeSitter, ds_inv, ds_T) ltac:(idtac; unfold ds_chart in *). Qed.
Lemma dsb_table al : param al -> table (ds_chart al) (ds_book al) (ds_inv (X 0) al) (dsb_T al).
Proof. intros Pa. split; [apply ds_open; exact Pa|]. pars. tab ltac:(unfold ds_book, ds_inv, dsb_T) ltac:(idtac; unfold ds_chart in *). Qed.
Lemma ds_ricci al s v p : param al -> (s < 4)%nat -> (v < 4)%nat -> ds_chart al p ->
  rs4 (fun t => rT (ds_T al) t s t v p) = if ((Nat.eqb s v) && (Nat.leb 2 s))%bool then - (1 / (eval al p * eval al p)) else 0.
Proof.
  intros Pa Hi Hj Hp. pars. unfold ds_chart in Hp.
  c4 s Hi; c4 v Hj; unfold ds_T; evc; cbn [Nat.leb]; rwp; try (unfold Rdiv; ring); field; nz.
Qed.
Lemma dsb_ricci al s v p : param al -> (s < 4)%nat -> (v < 4)%nat -> ds_chart al p ->
  rs4 (fun t => rT (dsb_T al) t s t v p) = 3 / (eval al p * eval al p) * eval (ds_book al s v) p.
Proof.
  intros Pa Hi Hj Hp. pars. unfold ds_chart in Hp.
  c4 s Hi; c4 v Hj; unfold dsb_T, ds_book; evc; rwp; try (unfold Rdiv; ring); field; nz.
Qed.

(** ** Reissner-Nordstrom *)
Definition rn_chart (c G eps_0 sch Q : expr) (p : nat -> R) : Prop :=
  (eval c p <> 0 /\ eval eps_0 p <> 0) /\
  (p 1%nat <> 0 /\ (p 1%nat * p 1%nat - eval sch p * p 1%nat + eval (rQsqE c G eps_0 Q) p <> 0 /\ sin (p 2%nat) <> 0)).
Definition rnD (sch q : expr) : expr := EAdd (ESub (Esq (X 1)) (EMul sch (X 1))) q.
Definition rn_inv (c sch q : expr) : emat :=
  let r := X 1 in let th := X 2 in let c2 := Esq c in
  diag4 (EDiv (Esq r) (rnD sch q)) (EOpp (EDiv (EMul c2 (rnD sch q)) (Esq r))) (EOpp (EDiv c2 (Esq r))) (EOpp (EDiv c2 (Esq (EMul r (ESin th))))).
Definition rn_T (c sch q : expr) (i j k : nat) : expr :=
  let r := X 1 in let th := X 2 in let c2 := Esq c in
  let h := EDiv (ESub (EMul sch r) (EMul (EConst 2) q)) (EMul (EMul (EConst 2) r) (rnD sch q)) in
  match i, j, k with
  | 0, 0, 1 | 0, 1, 0 => h
  | 1, 0, 0 => EDiv (EMul (EMul c2 (rnD sch q)) (ESub (EMul sch r) (EMul (EConst 2) q))) (EMul (EConst 2) (EMul (Esq r) (EMul r (Esq r))))
  | 1, 1, 1 => EOpp h
  | 1, 2, 2 => EOpp (EDiv (rnD sch q) r)
  | 1, 3, 3 => EOpp (EMul (EDiv (rnD sch q) r) (Esq (ESin th)))
  | 2, 1, 2 | 2, 2, 1 | 3, 1, 3 | 3, 3, 1 => EDiv E1 r
  | 2, 3, 3 => EOpp (EMul (ESin th) (ECos th))
  | 3, 2, 3 | 3, 3, 2 => EDiv (ECos th) (ESin th)
  | _, _, _ => E0
  end%nat.
(** the same line element with the charge radius squared as one expression q *)
Definition rn_q (c sch q : expr) : emat :=
  let r := X 1 in let th := X 2 in
  let Arn := EAdd (ESub E1 (EDiv sch r)) (EDiv q (Esq r)) in
  let c2 := Esq c in
  diag4 Arn (EDiv (EConst (-1)) (EMul Arn c2)) (EDiv (EOpp (Esq r)) c2) (EDiv (EMul (EOpp (Esq r)) (Esq (ESin th))) c2).
Lemma rn_is_q c G eps_0 sch Q : ReissnerNordstorm c G eps_0 sch Q = rn_q c sch (rQsqE c G eps_0 Q).
Proof. reflexivity. Qed.
Lemma open_iff (P Q : (nat -> R) -> Prop) : (forall p, P p <-> Q p) -> open_dirs P -> open_dirs Q.
Proof. intros H O p i Hq. apply (filter_imp (fun x => P (upd p i x))); [intros x; apply H|]. apply O. apply H. exact Hq. Qed.
Lemma fourpi : 4 * PI <> 0.
Proof. assert (H := PI_RGT_0). lra. Qed.
Lemma PI_nz : PI <> 0.
Proof. assert (H := PI_RGT_0). lra. Qed.
Lemma rn_open c G eps_0 sch Q : param c -> param G -> param eps_0 -> param sch -> param Q -> open_dirs (rn_chart c G eps_0 sch Q).
Proof.
  intros. pars.
  apply (open_iff (fun p => (eval c p <> 0 /\ eval eps_0 p <> 0) /\ (p 1%nat <> 0 /\
     (eval (EAdd (EMul (ESub (Esq (X 1)) (EMul sch (X 1))) (EMul (EMul (EMul (EConst 4) (EConst PI)) eps_0) (Epow c 4))) (EMul (Esq Q) G)) p <> 0 /\ sin (p 2%nat) <> 0)))).
  - intros p. unfold rn_chart, rQsqE, Esq, X. cbn [eval Epow].
    assert (K := PI_nz). 
    split; intros [[H1 H2] [H3 [H4 H5]]]; (split; [split; assumption|]); (split; [assumption|]); (split; [|assumption]); intros E; apply H4.
    + match goal with |- ?a * ?b + ?d = 0 => replace (a * b + d) with ((a + d / b) * b) by (field; nz) end. rewrite E. ring.
    + match goal with |- ?a + ?d / ?b = 0 => replace (a + d / b) with ((a * b + d) / b) by (field; nz) end. rewrite E. field. nz.
  - apply open_and; [apply open_and; apply open_nz_; assumption|]. apply open_and; [apply (open_nz_ (X 1)); intros; exact I|].
    apply open_and; [apply open_nz_|apply (open_nz_ (ESin (X 2))); intros; exact I]. intros p. unfold Esq, X. cbn [wd Epow]. nz.
Qed.
Lemma rq_facts c G eps_0 sch Q p : param c -> param G -> param eps_0 -> param Q -> rn_chart c G eps_0 sch Q p ->
  wd (rQsqE c G eps_0 Q) p /\ (forall k, (k < 4)%nat -> eval (ediff k (rQsqE c G eps_0 Q)) p = 0).
Proof.
  intros ? ? ? ? [[H1 H2] _]. pars. assert (K := PI_nz). unfold rQsqE, Esq. split.
  - cbn [wd eval Epow]. nz.
  - intros k Hk. cbn [eval ediff Epow]. rwp. field. nz.
Qed.
Lemma rn_A s r q : r <> 0 -> r * r - s * r + q <> 0 -> 1 - s / r + q / (r * r) <> 0.
Proof. intros H1 H2 E. apply H2. replace (r * r - s * r + q) with ((1 - s / r + q / (r * r)) * (r * r)) by (field; assumption). rewrite E. ring. Qed.
Lemma rn_A2 s r q : r * r - s * r + q <> 0 -> (r - s) * r + q <> 0.
Proof. intros H E. apply H. lra. Qed.
Lemma rn_table c G eps_0 sch Q : param c -> param G -> param eps_0 -> param sch -> param Q ->
  table (rn_chart c G eps_0 sch Q) (ReissnerNordstorm c G eps_0 sch Q) (rn_inv c sch (rQsqE c G eps_0 Q)) (rn_T c sch (rQsqE c G eps_0 Q)).
Proof.
  intros Pc PG Pe Ps PQ. split; [apply rn_open; assumption|]. rewrite rn_is_q.
  assert (F := fun p => rq_facts c G eps_0 sch Q p Pc PG Pe PQ).
  assert (F2 : forall p, rn_chart c G eps_0 sch Q p -> eval c p <> 0 /\ p 1%nat <> 0 /\ sin (p 2%nat) <> 0 /\ p 1%nat * p 1%nat - eval sch p * p 1%nat + eval (rQsqE c G eps_0 Q) p <> 0).
  { intros p [[H1 H2] [H3 [H4 H5]]]. auto. }
  clear PG Pe PQ. revert F F2. generalize (rn_chart c G eps_0 sch Q) as U. generalize (rQsqE c G eps_0 Q) as q. intros q U F F2. pars.
  tab ltac:(unfold rn_q, rn_inv, rn_T, rnD) ltac:(idtac; match goal with Hp : U ?p |- _ => destruct (F p Hp) as [?Wq ?Dq]; destruct (F2 p Hp) as [? [Hr1 [? HD1]]]; assert (HA := rn_A _ _ _ Hr1 HD1); assert (HA2 := rn_A2 _ _ _ HD1) end).
Qed.
(** kappa = c^2 r_Q^2 / r^4; mixed components (kappa, kappa, -kappa, -kappa) *)
Lemma rn_ricci c G eps_0 sch Q s v p : param c -> param G -> param eps_0 -> param sch -> param Q -> (s < 4)%nat -> (v < 4)%nat -> rn_chart c G eps_0 sch Q p ->
  rs4 (fun t => rT (rn_T c sch (rQsqE c G eps_0 Q)) t s t v p) =
  (if Nat.ltb s 2 then 1 else -1) * (eval c p ^ 2 * eval (rQsqE c G eps_0 Q) p / p 1%nat ^ 4) * eval (ReissnerNordstorm c G eps_0 sch Q s v) p.
Proof.
  intros Pc PG Pe Ps PQ Hi Hj Hp. rewrite rn_is_q. destruct (rq_facts c G eps_0 sch Q p Pc PG Pe PQ Hp) as [Wq Dq]. destruct Hp as [[H1 H2] [H3 [H4 H5]]]. clear PG Pe PQ. 
  revert Wq Dq H4. generalize (rQsqE c G eps_0 Q) as q. intros q Wq Dq HD. pars. assert (S := sc2 (p 2%nat)). assert (HA := rn_A _ _ _ H3 HD). assert (HA2 := rn_A2 _ _ _ HD).
  c4 s Hi; c4 v Hj; unfold rn_T, rn_q, rnD; evc; cbn [Nat.ltb Nat.leb]; rwp; try (unfold Rdiv; ring); field [S]; nz.
Qed.

(** ** Barriola-Vilenkin global monopole *)
Definition bv_chart (c k : expr) (p : nat -> R) : Prop := (eval c p <> 0 /\ eval k p <> 0) /\ (p 1%nat <> 0 /\ sin (p 2%nat) <> 0).
Definition bv_inv (c k : expr) : emat :=
  diag4 (EConst (-1)) (Esq c) (EDiv (Esq c) (Esq (EMul k (X 1)))) (EDiv (Esq c) (Esq (EMul (EMul k (X 1)) (ESin (X 2))))).
Definition bv_T (k : expr) (i j l : nat) : expr :=
  let r := X 1 in let th := X 2 in
  match i, j, l with
  | 1, 2, 2 => EOpp (EMul (Esq k) r)
  | 1, 3, 3 => EOpp (EMul (EMul (Esq k) r) (Esq (ESin th)))
  | 2, 1, 2 | 2, 2, 1 | 3, 1, 3 | 3, 3, 1 => EDiv E1 r
  | 2, 3, 3 => EOpp (EMul (ESin th) (ECos th))
  | 3, 2, 3 | 3, 3, 2 => EDiv (ECos th) (ESin th)
  | _, _, _ => E0
  end%nat.
Lemma bv_table c kk : param c -> param kk -> table (bv_chart c kk) (BarriolaVilekin c kk) (bv_inv c kk) (bv_T kk).
Proof.
  intros Pc Pk. pars. split.
  { apply open_and; apply open_and; [apply open_nz_; assumption|apply open_nz_; assumption|apply (open_nz_ (X 1)); intros; exact I|apply (open_nz_ (ESin (X 2))); intros; exact I]. }
  tab ltac:(unfold BarriolaVilekin, bv_inv, bv_T) ltac:(idtac; match goal with Hp : bv_chart _ _ _ |- _ => destruct Hp as [[? ?] [? ?]] end).
Qed.
Lemma bv_ricci c k s v p : param c -> param k -> (s < 4)%nat -> (v < 4)%nat -> bv_chart c k p ->
  rs4 (fun t => rT (bv_T k) t s t v p) = if (Nat.eqb s 2 && Nat.eqb v 2)%bool then 1 - eval k p ^ 2
     else if (Nat.eqb s 3 && Nat.eqb v 3)%bool then (1 - eval k p ^ 2) * sin (p 2%nat) ^ 2 else 0.
Proof.
  intros Pc Pk Hi Hj [[Hc Hk] [Hr Ht]]. pars. assert (S := sc2 (p 2%nat)).
  c4 s Hi; c4 v Hj; unfold bv_T; evc; rwp; try (unfold Rdiv; ring); field [S]; nz.
Qed.
(** ** Bertotti-Kasner *)
Definition bk_chart (c l : expr) (p : nat -> R) : Prop := eval c p <> 0 /\ (0 < eval l p /\ sin (p 2%nat) <> 0).
Definition bk_inv (c l : expr) : emat :=
  let t := X 0 in
  diag4 (EConst (-1)) (EDiv (Esq c) (EExp (EMul (EMul (EMul (EConst 2) (ESqrt l)) c) t))) (EMul l (Esq c)) (EDiv (EMul l (Esq c)) (Esq (ESin (X 2)))).
Definition bk_T (c l : expr) (i j k : nat) : expr :=
  let t := X 0 in let th := X 2 in
  match i, j, k with
  | 0, 1, 1 => EDiv (EMul (ESqrt l) (EExp (EMul (EMul (EMul (EConst 2) (ESqrt l)) c) t))) c
  | 1, 0, 1 | 1, 1, 0 => EMul (ESqrt l) c
  | 2, 3, 3 => EOpp (EMul (ESin th) (ECos th))
  | 3, 2, 3 | 3, 3, 2 => EDiv (ECos th) (ESin th)
  | _, _, _ => E0
  end%nat.
Ltac bk_prep := match goal with Hp : bk_chart _ ?l ?p |- _ => destruct Hp as [? [?Hl ?]]; assert (eval l p <> 0) by lra; assert (sqrt (eval l p) <> 0) by (apply Rgt_not_eq; apply sqrt_lt_R0; assumption) end.
Lemma bk_table c l : param c -> param l -> table (bk_chart c l) (BertottiKasner c l) (bk_inv c l) (bk_T c l).
Proof.
  intros Pc Pl. pars. split.
  { apply open_and; [|apply open_and]; [apply open_nz_; assumption|apply open_pos_; assumption|apply (open_nz_ (ESin (X 2))); intros; exact I]. }
  tab ltac:(unfold BertottiKasner, bk_inv, bk_T) ltac:(idtac; bk_prep).
Qed.
Lemma bk_ricci c l s v p : param c -> param l -> (s < 4)%nat -> (v < 4)%nat -> bk_chart c l p ->
  rs4 (fun t => rT (bk_T c l) t s t v p) = eval l p * eval c p ^ 2 * eval (BertottiKasner c l s v) p.
Proof.
  intros Pc Pl Hi Hj Hp. bk_prep. pars. assert (S := sc2 (p 2%nat)). assert (Z : sqrt (eval l p) * sqrt (eval l p) = eval l p) by (apply sqrt_sqrt; lra).
  c4 s Hi; c4 v Hj; unfold bk_T, BertottiKasner; evc; rwp; try (unfold Rdiv; ring); field [S Z]; nz.
Qed.
(** ** Godel *)
Definition gd_chart (p : nat -> R) : Prop := True.
Definition gE (om : expr) : expr := EExp (EMul (EMul (ESqrt (EConst 2)) om) (X 1)).
Definition gd_inv (om : expr) : emat :=
  set_sym (diag4 E1 E1 (EDiv (EConst 2) (Esq (gE om))) E1) 0 2 (EOpp (EDiv (EConst 2) (gE om))).
Definition gd_T (om : expr) (i j k : nat) : expr :=
  let w := EMul (ESqrt (EConst 2)) om in
  match i, j, k with
  | 0, 0, 1 | 0, 1, 0 => w
  | 0, 1, 2 | 0, 2, 1 => EDiv (EMul w (gE om)) (EConst 2)
  | 1, 0, 2 | 1, 2, 0 => EDiv (EMul w (gE om)) (EConst 2)
  | 1, 2, 2 => EDiv (EMul w (Esq (gE om))) (EConst 2)
  | 2, 0, 1 | 2, 1, 0 => EOpp (EDiv w (gE om))
  | _, _, _ => E0
  end%nat.
Lemma gd_exp om p : exp (2 * sqrt 2 * eval om p * p 1%nat) = exp (sqrt 2 * eval om p * p 1%nat) * exp (sqrt 2 * eval om p * p 1%nat).
Proof. rewrite <- exp_plus. f_equal. ring. Qed.
Lemma s2pos : 0 < sqrt 2. Proof. apply sqrt_lt_R0. lra. Qed.
Ltac gd_fin := assert (S2 := s2pos); assert (Q2 : sqrt 2 * sqrt 2 = 2) by (apply sqrt_sqrt; lra);
  assert (sqrt 2 <> 0) by lra; rewrite ?gd_exp; rwp; try (unfold Rdiv; ring); try (field [Q2]; nz).
Lemma gd_table om : param om -> table gd_chart (Godel om) (gd_inv om) (gd_T om).
Proof.
  intros Po. pars. split; [apply open_true|]. split; [|split; [|split; [|split; [|split]]]].
  - tab_W ltac:(unfold Godel) ltac:(assert (S2 := s2pos)); lra.
  - tab_W ltac:(unfold gd_inv, gE) ltac:(assert (S2 := s2pos)); lra.
  - tab_WT ltac:(unfold gd_T, gE) ltac:(assert (S2 := s2pos)); lra.
  - tab_S ltac:(unfold Godel).
  - intros i j p Hi Hj Hp; c4 i Hi; c4 j Hj; unfold Godel, gd_inv, gE; evc; gd_fin.
  - intros i j k p Hi Hj Hk Hp; c4 i Hi; c4 j Hj; c4 k Hk; unfold Godel, gd_inv, gd_T, gE; evc; gd_fin.
Qed.
(** R_ab = 2 omega^2 u_a u_b with u_a = (-1, 0, -exp(sqrt 2 omega x), 0) *)
Definition gd_u (om : expr) (p : nat -> R) (i : nat) : R := match i with O => -1 | S (S O) => - exp (sqrt 2 * eval om p * p 1%nat) | _ => 0 end.
Lemma gd_ricci om s v p : param om -> (s < 4)%nat -> (v < 4)%nat -> 
  rs4 (fun t => rT (gd_T om) t s t v p) = 2 * eval om p ^ 2 * gd_u om p s * gd_u om p v.
Proof.
  intros Po Hi Hj. pars. c4 s Hi; c4 v Hj; unfold gd_T, gd_u, gE; evc; gd_fin.
Qed.
