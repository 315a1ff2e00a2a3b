(** bessel_gravitational_wave.py with its Bessel function terms: what the docstring promises (Kramer's vacuum solution, with
    J_0(rho) and J_1(rho)) and what lines 29-38 build (besselj(rho, 0) and besselj(rho, 1): rho is the order). *)
From Coq Require Import String Ascii Reals List Arith Lia Lra.
From Coquelicot Require Import Coquelicot.
From Verif Require Import Base SymAlg SymModel ExprModel PredefModel PredefBridge PredefProofs PredefFinal ExprFun PredefWave Bessel.
Import ListNotations.
Open Scope R_scope.

(** ** Symbols of the expressions: 0..3 are t, rho, phi, z; 4 stands for the first Bessel term, 5 is the constant C, 6 stands for the
    second Bessel term, 7, 8, ... for its derivatives. *)
Definition bw_chart (p : nat -> R) : Prop := 0 < p 1%nat.
Definition coord_rule (k j : nat) : expr := if Nat.eqb k j then E1 else E0.
Definition rho_rule (e : expr) (k : nat) : expr := if Nat.eqb k 1 then e else E0.

(** J_0(rho), J_1(rho) and sympy's rules diff(J_0) = - J_1, diff(J_1) = J_0 - J_1 / rho *)
Definition kramer_ext (p : nat -> R) (j : nat) : R :=
  match j with 4%nat => besselJ 0 (p 1%nat) | 6%nat => besselJ 1 (p 1%nat) | _ => p j end.
Definition kramer_rule (k j : nat) : expr :=
  match j with
  | 4%nat => rho_rule (EOpp (EVar 6)) k
  | 6%nat => rho_rule (ESub (EVar 4) (EDiv (EVar 6) (EVar 1))) k
  | _ => coord_rule k j
  end.

(** besselj(rho, 0) and besselj(rho, 1) for a function besselj(order, argument), and the derivatives of the latter *)
Definition code_ext (besselj : R -> R -> R) (b : nat -> R -> R) (p : nat -> R) (j : nat) : R :=
  match j with
  | 4%nat => besselj (p 1%nat) 0
  | S (S (S (S (S (S n))))) => b n (p 1%nat)
  | _ => p j
  end.
Definition code_rule (k j : nat) : expr :=
  match j with
  | 4%nat => E0
  | S (S (S (S (S (S n))))) => rho_rule (EVar (7 + n)) k
  | _ => coord_rule k j
  end.
(** what is used of sympy.besselj: J_nu(0) = 0 for nu > 0; J_1(1) and J_2(1) have their standard values; nu -> J_nu(1) is smooth *)
Definition besselj_spec (besselj : R -> R -> R) (b : nat -> R -> R) : Prop :=
  (forall nu, 0 < nu -> besselj nu 0 = 0) /\ besselj 1 1 = besselJ 1 1 /\ besselj 2 1 = besselJ 2 1 /\
  (forall nu, b 0%nat nu = besselj nu 1) /\ (forall n nu, 0 < nu -> is_derive (b n) nu (b (S n) nu)).

(** the constant C: a number, or the symbol 5 *)
Definition wparam (C : expr) : Prop := (exists c, C = EConst c) \/ C = EVar 5.

Definition bw_U (C : expr) : expr := EMul (EMul C (EVar 4)) (ECos (X 0)).
Definition bw_K (C : expr) : expr :=
  EMul (EMul (EMul (EConst (1 / 2)) (Esq C)) (X 1))
       (ESub (EMul (X 1) (EAdd (Esq (EVar 4)) (Esq (EVar 6)))) (EMul (EMul (EMul (EConst 2) (EVar 4)) (EVar 6)) (Esq (ECos (X 0))))).
Lemma bw_wave C : BesselGravitationalWave C (EVar 4) (EVar 6) = wave (bw_U C) (bw_K C). Proof. reflexivity. Qed.

Lemma chart_open p i : bw_chart p -> locally (p i) (fun x => bw_chart (upd p i x)).
Proof. intros H. exact (open_pos_ (X 1) (fun q => I) p i H). Qed.
Lemma coord_derive p k j : is_derive (fun x => upd p k x j) (p k) (eval (coord_rule k j) p).
Proof.
  unfold upd, coord_rule. destruct (Nat.eqb k j); cbn [eval E0 E1]; [apply is_derive_Reals; apply derivable_pt_lim_id|apply is_derive_Reals; apply derivable_pt_lim_const].
Qed.
Lemma coord_derive' p k j v : is_derive (fun x => upd p k x j) (p k) (eval (coord_rule k j) v).
Proof. replace (eval (coord_rule k j) v) with (eval (coord_rule k j) p); [apply coord_derive|]. unfold coord_rule. destruct (Nat.eqb k j); reflexivity. Qed.
Lemma rho_derive (f : R -> R) e p k v : is_derive f (p 1%nat) (eval e v) -> is_derive (fun x => f (upd p k x 1%nat)) (p k) (eval (rho_rule e k) v).
Proof.
  intros H. unfold rho_rule, upd. destruct (Nat.eqb_spec k 1) as [-> |N]; [exact H|]. apply is_derive_Reals. apply (derivable_pt_lim_const (f (p 1%nat))).
Qed.
Lemma coord_fdiff D i k j v : eval (fdiff D i (coord_rule k j)) v = 0.
Proof. unfold coord_rule. destruct (Nat.eqb k j); reflexivity. Qed.

Lemma kramer_ok : rule_ok bw_chart kramer_ext kramer_rule.
Proof.
  split; [exact chart_open|]. split; [intros p q j H; do 7 (destruct j as [|j]; [cbn [kramer_ext]; rewrite ?H; reflexivity|]); apply H|]. split; [|split].
  - intros p k j Hp. do 7 (destruct j as [|j]; [
      first [apply coord_derive'
            |apply (rho_derive (besselJ 0) (EOpp (EVar 6))); apply J0_derive
            |apply (rho_derive (besselJ 1) (ESub (EVar 4) (EDiv (EVar 6) (EVar 1)))); apply J1_derive; apply Rgt_not_eq; exact Hp]|]).
    apply coord_derive'.
  - intros p k j Hp. assert (N : p 1%nat <> 0) by (apply Rgt_not_eq; exact Hp).
    do 7 (destruct j as [|j]; [cbn [kramer_rule]; unfold coord_rule, rho_rule; match goal with |- wd (if ?c then _ else _) _ => destruct c end; cbn [wd E0 E1 eval kramer_ext]; auto|]).
    cbn [kramer_rule]. unfold coord_rule. destruct (Nat.eqb _ _); exact I.
  - intros p i k j Hp. destruct j as [|[|[|[|[|[|[|j]]]]]]]; cbn [kramer_rule]; try (rewrite !coord_fdiff; reflexivity).
    + unfold rho_rule. destruct (Nat.eqb_spec i 1) as [-> |Ni]; destruct (Nat.eqb_spec k 1) as [-> |Nk]; try reflexivity; cbn [fdiff eval E0 kramer_rule]; unfold rho_rule;
      rewrite ?(proj2 (Nat.eqb_neq i 1)), ?(proj2 (Nat.eqb_neq k 1)) by assumption; cbn [eval E0]; ring.
    + unfold rho_rule. destruct (Nat.eqb_spec i 1) as [-> |Ni]; destruct (Nat.eqb_spec k 1) as [-> |Nk]; try reflexivity; cbn [fdiff eval E0 kramer_rule]; unfold rho_rule, coord_rule;
      rewrite ?(proj2 (Nat.eqb_neq i 1)), ?(proj2 (Nat.eqb_neq k 1)) by assumption; cbn [eval E0]; unfold Rdiv; ring.
Qed.
Lemma code_ok besselj b : besselj_spec besselj b -> rule_ok bw_chart (code_ext besselj b) code_rule.
Proof.
  intros [B0 [_ [_ [_ B1]]]].
  split; [exact chart_open|]. split; [intros p q j H; do 6 (destruct j as [|j]; [cbn [code_ext]; rewrite ?H; reflexivity|]); cbn [code_ext]; rewrite H; reflexivity|]. split; [|split].
  - intros p k j Hp. do 4 (destruct j as [|j]; [apply coord_derive'|]). destruct j as [|j]; [|destruct j as [|j]; [apply coord_derive'|]].
    + cbn [code_ext code_rule eval E0]. apply (is_derive_ext_loc (fun _ => 0)); [|apply is_derive_Reals; apply derivable_pt_lim_const].
      apply (filter_imp (fun x => bw_chart (upd p k x))); [|apply chart_open; exact Hp]. intros x Hx. symmetry. apply B0. exact Hx.
    + apply (rho_derive (b j) (EVar (7 + j))). cbn [eval Nat.add code_ext]. apply B1. exact Hp.
  - intros p k j Hp. do 6 (destruct j as [|j]; [cbn [code_rule]; unfold coord_rule; try match goal with |- wd (if ?c then _ else _) _ => destruct c end; exact I|]).
    cbn [code_rule]. unfold rho_rule. destruct (Nat.eqb _ _); exact I.
  - intros p i k j Hp. do 6 (destruct j as [|j]; [cbn [code_rule]; first [rewrite !coord_fdiff; reflexivity|reflexivity]|]).
    cbn [code_rule]. unfold rho_rule. destruct (Nat.eqb_spec i 1) as [-> |Ni]; destruct (Nat.eqb_spec k 1) as [-> |Nk]; try reflexivity; cbn [fdiff eval E0 code_rule Nat.add]; unfold rho_rule;
      rewrite ?(proj2 (Nat.eqb_neq i 1)), ?(proj2 (Nat.eqb_neq k 1)) by assumption; reflexivity.
Qed.

(** the oracle inverts the metric *)
Definition finverts ext D (HR : rule_ok bw_chart ext D) simp minv (G : emat) : Prop :=
  fsimp_ok bw_chart ext simp /\ fminv_ok bw_chart ext D HR simp minv /\ exists gi, minv 4%nat (fun i j => flift bw_chart ext (G i j)) = Some gi.
(** RicciTensor.from_metric of the metric with entries G has value f s v p at the point p *)
Definition fhas_ricci ext D (HR : rule_ok bw_chart ext D) simp minv (G : emat) (f : nat -> nat -> (nat -> R) -> R) : Prop :=
  exists rc, ricci_from_metric (fmetric bw_chart ext D HR simp minv G) = Ok rc /\
    forall s v p, (s < 4)%nat -> (v < 4)%nat -> bw_chart p -> fev bw_chart ext (t_arr rc [s; v]) p = f s v p.

Lemma wave_sym (ext : (nat -> R) -> nat -> R) U K i j p : (i < 4)%nat -> (j < 4)%nat -> eval (wave U K i j) (ext p) = eval (wave U K j i) (ext p).
Proof. intros Hi Hj. c4 i Hi; c4 j Hj; reflexivity. Qed.
Lemma wave_ricci ext D (HR : rule_ok bw_chart ext D) simp minv U K :
  (forall p, bw_chart p -> ext p 1%nat <> 0) -> (forall k, (k < 4)%nat -> D k 1%nat = if Nat.eqb k 1 then EConst 1 else EConst 0) ->
  FWD bw_chart ext U -> FWD bw_chart ext K ->
  (forall k p, (k = 2 \/ k = 3)%nat -> bw_chart p -> eval (fdiff D k U) (ext p) = 0) ->
  (forall k p, (k = 2 \/ k = 3)%nat -> bw_chart p -> eval (fdiff D k K) (ext p) = 0) ->
  finverts ext D HR simp minv (wave U K) -> fhas_ricci ext D HR simp minv (wave U K) (wRic ext D U K).
Proof.
  intros N D1 WU WK U2 K2 [HS [HM [gi Hgi]]]. destruct (wW bw_chart ext D U K HR N WU WK) as [W1 [W2 W3]].
  destruct (fbridge bw_chart ext D HR simp minv HS HM (wave U K) (wGi U K) (wT D U K) W1 W2 W3
    (fun i j p Hi Hj _ => wave_sym ext U K i j p Hi Hj) (wI bw_chart ext U K N) (wC bw_chart ext D U K N D1 U2 K2) gi Hgi) as [ch [r [rc [sc [_ [_ [E [_ [_ [_ [V _]]]]]]]]]]].
  exists rc. split; [exact E|]. intros s v p Hs Hv Hp. rewrite (V s v p Hs Hv Hp). apply (wR bw_chart ext D U K HR N D1 WU WK U2 K2 s v p Hs Hv Hp).
Qed.
Ltac bwu := unfold wRic, bw_U, bw_K, Esq, X; cbn [fdiff eval kramer_rule code_rule Nat.add]; unfold rho_rule, coord_rule, E0, E1; cbn [Nat.eqb fdiff eval kramer_rule code_rule Nat.add];
  unfold rho_rule, coord_rule, E0, E1; cbn [Nat.eqb fdiff eval kramer_rule code_rule].
Lemma bw_wd ext C : wparam C -> FWD bw_chart ext (bw_U C) /\ FWD bw_chart ext (bw_K C).
Proof. intros [[c ->]| ->]; split; intros p Hp; unfold bw_U, bw_K, Esq, X; cbn [wd]; tauto. Qed.

Lemma kramer_vacuum C simp minv : wparam C -> finverts kramer_ext kramer_rule kramer_ok simp minv (BesselGravitationalWave C (EVar 4) (EVar 6)) ->
  fhas_ricci kramer_ext kramer_rule kramer_ok simp minv (BesselGravitationalWave C (EVar 4) (EVar 6)) (fun _ _ _ => 0).
Proof.
  intros HC I. rewrite bw_wave in *. destruct (bw_wd kramer_ext C HC) as [WU WK].
  assert (D1 : forall k, (k < 4)%nat -> kramer_rule k 1 = if Nat.eqb k 1 then EConst 1 else EConst 0) by reflexivity.
  destruct (wave_ricci _ _ kramer_ok simp minv _ _ (fun p Hp => Rgt_not_eq _ _ Hp) D1 WU WK) with (3 := I) as [rc [E V]].
  1,2: intros k p Hk Hp; destruct HC as [[c ->]| ->]; destruct Hk as [-> | ->]; bwu; ring.
  exists rc. split; [exact E|]. intros s v p Hs Hv Hp. rewrite (V s v p Hs Hv Hp). clear V E rc I. assert (N : kramer_ext p 1%nat <> 0) by (apply Rgt_not_eq; exact Hp).
  assert (S2 := sc2 (kramer_ext p 0%nat)).
  destruct HC as [[c ->]| ->]; c4 s Hs; c4 v Hv; try reflexivity; bwu;
    set (st := sin _) in *; set (ct := cos _) in *; clearbody st ct; set (j0 := kramer_ext p 4%nat); set (j1 := kramer_ext p 6%nat); set (r := kramer_ext p 1%nat) in *; try set (cc := kramer_ext p 5%nat);
    clearbody r j0 j1; try clearbody cc; field [S2]; exact N.
Qed.

(** what the code's metric has for Ricci tensor: U = 0 and K = C^2 rho^2 besselj(rho, 1)^2 / 2 *)
Definition code_K1 (b : nat -> R -> R) (c rho : R) : R := c ^ 2 * (rho * b 0%nat rho ^ 2 + rho ^ 2 * b 0%nat rho * b 1%nat rho).
Definition code_K2 (b : nat -> R -> R) (c rho : R) : R :=
  c ^ 2 * (b 0%nat rho ^ 2 + 4 * rho * b 0%nat rho * b 1%nat rho + rho ^ 2 * b 1%nat rho ^ 2 + rho ^ 2 * b 0%nat rho * b 2%nat rho).
Lemma code_K1_ok b c rho : (forall n nu, 0 < nu -> is_derive (b n) nu (b (S n) nu)) -> 0 < rho ->
  is_derive (fun r => c ^ 2 / 2 * (r * b 0%nat r) ^ 2) rho (code_K1 b c rho) /\ is_derive (code_K1 b c) rho (code_K2 b c rho).
Proof.
  intros B H. assert (D0 := B 0%nat rho H). assert (D1 := B 1%nat rho H).
  assert (E0 : ex_derive (b 0%nat) rho) by (eexists; exact D0). assert (E1 : ex_derive (b 1%nat) rho) by (eexists; exact D1).
  apply is_derive_unique in D0. apply is_derive_unique in D1. unfold code_K1, code_K2. 
  assert (F0 : Derive (fun x => b 0%nat x) rho = b 1%nat rho) by exact D0. assert (F1 : Derive (fun x => b 1%nat x) rho = b 2%nat rho) by exact D1.
  split; auto_derive; try tauto; rewrite ?F0, ?F1; unfold Rdiv; field.
Qed.
Definition code_value (besselj : R -> R -> R) b (C : expr) (p : nat -> R) : R := eval C (code_ext besselj b p).
Lemma code_ricci besselj b (B : besselj_spec besselj b) C simp minv : wparam C ->
  finverts (code_ext besselj b) code_rule (code_ok besselj b B) simp minv (BesselGravitationalWave C (EVar 4) (EVar 6)) ->
  fhas_ricci (code_ext besselj b) code_rule (code_ok besselj b B) simp minv (BesselGravitationalWave C (EVar 4) (EVar 6))
    (fun s v p => let c := code_value besselj b C p in let rho := p 1%nat in
       match s, v with
       | 0%nat, 0%nat => code_K2 b c rho + code_K1 b c rho / rho
       | 1%nat, 1%nat => - code_K2 b c rho + code_K1 b c rho / rho
       | _, _ => 0
       end).
Proof.
  intros HC I. rewrite bw_wave in *. destruct (bw_wd (code_ext besselj b) C HC) as [WU WK].
  assert (D1 : forall k, (k < 4)%nat -> code_rule k 1 = if Nat.eqb k 1 then EConst 1 else EConst 0) by reflexivity.
  destruct (wave_ricci _ _ (code_ok besselj b B) simp minv _ _ (fun p Hp => Rgt_not_eq _ _ Hp) D1 WU WK) with (3 := I) as [rc [E V]].
  1,2: intros k p Hk Hp; destruct HC as [[c ->]| ->]; destruct Hk as [-> | ->]; bwu; ring.
  exists rc. split; [exact E|]. intros s v p Hs Hv Hp. rewrite (V s v p Hs Hv Hp). clear V E rc I. assert (N : p 1%nat <> 0) by (apply Rgt_not_eq; exact Hp).
  assert (Z : code_ext besselj b p 4 = 0) by (apply B; exact Hp).
  unfold code_value, code_K1, code_K2. destruct HC as [[c ->]| ->]; c4 s Hs; c4 v Hv; try reflexivity; bwu; rewrite ?Z;
    change (code_ext besselj b p 1) with (p 1%nat); change (code_ext besselj b p 5) with (p 5%nat); change (code_ext besselj b p 6) with (b 0%nat (p 1%nat));
    change (code_ext besselj b p 7) with (b 1%nat (p 1%nat)); change (code_ext besselj b p 8) with (b 2%nat (p 1%nat)); field; exact N.
Qed.
Lemma code_K_varies besselj b c : besselj_spec besselj b -> c <> 0 -> exists rho, 1 <= rho <= 2 /\ code_K1 b c rho <> 0.
Proof.
  intros B Hc. destruct (Classical_Prop.classic (exists rho, 1 <= rho <= 2 /\ code_K1 b c rho <> 0)) as [Y|Nn]; [exact Y|exfalso].
  assert (Z : forall rho, 1 <= rho <= 2 -> code_K1 b c rho = 0).
  { intros rho H. apply Classical_Prop.NNPP. intros F. apply Nn. exists rho. tauto. }
  destruct B as [_ [B1 [B2 [B3 B4]]]].
  destruct (MVT_gen (fun r => c ^ 2 / 2 * (r * b 0%nat r) ^ 2) 1 2 (code_K1 b c)) as [x [Hx Ex]].
  - intros x Hx. rewrite Rmin_left, Rmax_right in Hx by lra. apply code_K1_ok; [exact B4|lra].
  - intros x Hx. rewrite Rmin_left, Rmax_right in Hx by lra. apply continuity_pt_filterlim. apply (ex_derive_continuous (V := R_NormedModule) (fun r => c ^ 2 / 2 * (r * b 0%nat r) ^ 2) x).
    exists (code_K1 b c x). apply code_K1_ok; [exact B4|lra].
  - rewrite Rmin_left, Rmax_right in Hx by lra. rewrite (Z x) in Ex by lra. rewrite !B3, B1, B2 in Ex. assert (J1 := J1_at_1). assert (J2 := J2_at_1).
    assert (C2 : 0 < c ^ 2) by (apply pow2_gt_0; exact Hc). set (u := besselJ 1 1) in *. set (w := besselJ 2 1) in *. clearbody u w.
    assert (S : (2 * w) ^ 2 < (1 * u) ^ 2) by nra. nra.
Qed.
Lemma code_not_vacuum besselj b (B : besselj_spec besselj b) C simp minv : wparam C ->
  finverts (code_ext besselj b) code_rule (code_ok besselj b B) simp minv (BesselGravitationalWave C (EVar 4) (EVar 6)) ->
  exists rc, ricci_from_metric (fmetric bw_chart (code_ext besselj b) code_rule (code_ok besselj b B) simp minv (BesselGravitationalWave C (EVar 4) (EVar 6))) = Ok rc /\
  forall c, c <> 0 -> exists rho, 0 < rho /\ forall p, p 1%nat = rho -> code_value besselj b C p = c ->
    fev bw_chart (code_ext besselj b) (t_arr rc [0%nat; 0%nat]) p <> 0 \/ fev bw_chart (code_ext besselj b) (t_arr rc [1%nat; 1%nat]) p <> 0.
Proof.
  intros HC I. destruct (code_ricci besselj b B C simp minv HC I) as [rc [E V]]. exists rc. split; [exact E|]. intros c Hc.
  destruct (code_K_varies besselj b c B Hc) as [rho [Hr Hk]]. exists rho. split; [lra|]. intros p Hp Ec.
  assert (Q : bw_chart p) by (unfold bw_chart; lra).
  rewrite (V 0%nat 0%nat p), (V 1%nat 1%nat p) by (lia || exact Q). cbv zeta. rewrite Ec, Hp.
  destruct (Req_dec (code_K2 b c rho + code_K1 b c rho / rho) 0) as [A|A]; [|left; exact A]. right. intros F.
  assert (X : code_K1 b c rho / rho = 0) by lra. apply Hk. apply (Rmult_eq_reg_r (/ rho)); [|apply Rinv_neq_0_compat; lra]. unfold Rdiv in X. lra.
Qed.

(** the hypotheses can be met: an inverter, and a function with the values used *)
Definition fminv_cand ext (cand : nat -> nat -> KF bw_chart ext) D (HR : rule_ok bw_chart ext D) (n : nat) (g : nat -> nat -> KF bw_chart ext) : option (nat -> nat -> KF bw_chart ext) :=
  let A := fun_ops bw_chart ext D HR (fun x => x) (fun _ _ => None) in
  if EM_inf (forall i j, (i < n)%nat -> (j < n)%nat -> @keq A (@ksum A n (fun m => fmul bw_chart ext (g i m) (cand m j))) (@kdelta A i j) /\
     @keq A (@ksum A n (fun m => fmul bw_chart ext (cand i m) (g m j))) (@kdelta A i j)) then Some cand else None.
Lemma wave_inverts ext D (HR : rule_ok bw_chart ext D) U K : (forall p, bw_chart p -> ext p 1%nat <> 0) -> FWD bw_chart ext U -> FWD bw_chart ext K ->
  finverts ext D HR (fun x => x) (fminv_cand ext (fun i j => flift bw_chart ext (wGi U K i j)) D HR) (wave U K).
Proof.
  intros N WU WK. destruct (wW bw_chart ext D U K HR N WU WK) as [W1 [W2 _]]. assert (IG := wI bw_chart ext U K N).
  split; [intros x p _; reflexivity|]. split.
  - intros n g gi. unfold fminv_cand. destruct (EM_inf _) as [H|H]; intros E; [|discriminate]. injection E as <-. exact H.
  - exists (fun i j => flift bw_chart ext (wGi U K i j)). unfold fminv_cand. destruct (EM_inf _) as [H|H]; [reflexivity|]. exfalso. apply H. intros i j Hi Hj.
    set (A := fun_ops bw_chart ext D HR (fun x => x) (fun _ _ => None)).
    assert (Kd : forall p, fev bw_chart ext (@kdelta A i j) p = if Nat.eqb i j then 1 else 0) by (intros p; unfold kdelta; destruct (Nat.eqb i j); reflexivity).
    split; intros p Hp; rewrite Kd.
    + transitivity (rs4 (fun m => eval (wave U K i m) (ext p) * eval (wGi U K m j) (ext p))); [|apply IG; assumption].
      unfold A. rewrite fksum4. apply rs4_ext. intros m Hm. change (fev bw_chart ext (flift bw_chart ext (wave U K i m)) p * fev bw_chart ext (flift bw_chart ext (wGi U K m j)) p = eval (wave U K i m) (ext p) * eval (wGi U K m j) (ext p)).
      rewrite !flift_ev by auto. reflexivity.
    + transitivity (rs4 (fun m => eval (wGi U K i m) (ext p) * eval (wave U K m j) (ext p))).
      * unfold A. rewrite fksum4. apply rs4_ext. intros m Hm. change (fev bw_chart ext (flift bw_chart ext (wGi U K i m)) p * fev bw_chart ext (flift bw_chart ext (wave U K m j)) p = eval (wGi U K i m) (ext p) * eval (wave U K m j) (ext p)).
        rewrite !flift_ev by auto. reflexivity.
      * apply (rinv_linv (fun a b => eval (wave U K a b) (ext p)) (fun a b => eval (wGi U K a b) (ext p))); [intros; apply wave_sym; assumption|auto|exact Hi|exact Hj].
Qed.
Definition lin_b (n : nat) (nu : R) : R :=
  match n with
  | O => besselJ 1 1 + (nu - 1) * (besselJ 2 1 - besselJ 1 1)
  | 1%nat => besselJ 2 1 - besselJ 1 1
  | _ => 0
  end.
Definition lin_j (nu x : R) : R := if Req_EM_T x 0 then 0 else lin_b 0 nu.
Lemma lin_spec : besselj_spec lin_j lin_b.
Proof.
  unfold lin_j. split; [intros nu _; destruct (Req_EM_T 0 0); [reflexivity|lra]|].
  split; [destruct (Req_EM_T 1 0); [lra|unfold lin_b; ring]|]. split; [destruct (Req_EM_T 1 0); [lra|unfold lin_b; ring]|].
  split; [intros nu; destruct (Req_EM_T 1 0); [lra|reflexivity]|].
  intros n nu _. destruct n as [|[|n]]; unfold lin_b; auto_derive; try exact I; ring.
Qed.
