From Coq Require Import String Reals List Lra Lia.
From Coquelicot Require Import Coquelicot.
From Verif Require Import Base CoordModel ConvModel CosmoModel.
Import ListNotations.
Open Scope R_scope.

(** a time of s seconds *)
Definition secs (s : R) : pynum := NQty (in_si s DTime).
Lemma si_secs s : qinput DTime (secs s) = Ok (in_si s DTime) /\ si (in_si s DTime) = s.
Proof. split; [reflexivity|]. unfold si, in_si. cbn [q_val q_scale]. ring. Qed.
(** the scale factor as a function of time in seconds (0 where it is undefined) *)
Definition a_of (Lam : R) (era : string) (k s : R) : R := match scalar_factor Lam (secs s) era k with Ok v => v | Err _ => 0 end.
Definition known (era : string) : Prop := era = "md"%string \/ era = "rd"%string \/ era = "ded"%string.

Lemma unit_free Lam q era k : q_dim q = DTime -> scalar_factor Lam (NQty q) era k = scalar_factor Lam (secs (si q)) era k /\
  scalar_factor_derivative Lam (NQty q) era k = scalar_factor_derivative Lam (secs (si q)) era k.
Proof.
  intros H. unfold scalar_factor, scalar_factor_derivative. destruct (si_secs (si q)) as [E1 E2]. rewrite E1. cbn [bindR]. rewrite E2.
  unfold qinput. rewrite H. cbn [dim_eqb bindR]. split; reflexivity.
Qed.
Lemma np_pow_pos x e : 0 < x -> np_pow x e = Ok (Rpower x e).
Proof. intros H. unfold np_pow. destruct (Rlt_dec 0 x); [reflexivity|contradiction]. Qed.
Lemma sf_md Lam k s : 0 < s -> scalar_factor Lam (secs s) "md" k = Ok (k * Rpower s (2 / 3)) /\ scalar_factor_derivative Lam (secs s) "md" k = Ok (2 / 3 * k * Rpower s (-1 / 3)).
Proof. intros H. unfold scalar_factor, scalar_factor_derivative. destruct (si_secs s) as [E1 E2]. rewrite E1. cbn [bindR]. rewrite E2. cbn [String.eqb Ascii.eqb Bool.eqb]. rewrite !np_pow_pos by exact H. split; reflexivity. Qed.
Lemma sf_rd Lam k s : 0 < s -> scalar_factor Lam (secs s) "rd" k = Ok (k * Rpower s (1 / 2)) /\ scalar_factor_derivative Lam (secs s) "rd" k = Ok (1 / 2 * k * Rpower s (-1 / 2)).
Proof. intros H. unfold scalar_factor, scalar_factor_derivative. destruct (si_secs s) as [E1 E2]. rewrite E1. cbn [bindR]. rewrite E2. cbn [String.eqb Ascii.eqb Bool.eqb]. rewrite !np_pow_pos by exact H. split; reflexivity. Qed.
Lemma sf_ded Lam k s : scalar_factor Lam (secs s) "ded" k = Ok (k * exp (hubble Lam * s)) /\ scalar_factor_derivative Lam (secs s) "ded" k = Ok (k * (hubble Lam * exp (hubble Lam * s))).
Proof. unfold scalar_factor, scalar_factor_derivative. destruct (si_secs s) as [E1 E2]. rewrite E1. cbn [bindR]. rewrite E2. split; reflexivity. Qed.

Lemma rpower_derive e s : 0 < s -> is_derive (fun x => Rpower x e) s (e * Rpower s (e - 1)).
Proof.
  intros H. unfold Rpower. auto_derive; [exact H|]. rewrite Rmult_1_l. rewrite Rmult_minus_distr_r, Rmult_1_l. unfold Rminus. rewrite exp_plus, exp_Ropp, exp_ln by exact H. ring.
Qed.
Lemma pos_locally s : 0 < s -> locally s (fun x => 0 < x).
Proof. intros H. apply (open_gt 0 s H). Qed.
(** the derivative function is the derivative, in every era, at every time where the scale factor is smooth *)
Lemma derivative_correct Lam era k s : known era -> 0 < s ->
  exists d, scalar_factor_derivative Lam (secs s) era k = Ok d /\ is_derive (a_of Lam era k) s d.
Proof.
  intros [-> |[-> | ->]] H.
  - eexists. split; [apply sf_md; exact H|]. apply (is_derive_ext_loc (fun x => k * Rpower x (2 / 3))).
    + apply (filter_imp (fun x => 0 < x)); [|apply pos_locally; exact H]. intros x Hx. unfold a_of. rewrite (proj1 (sf_md Lam k x Hx)). reflexivity.
    + replace (2 / 3 * k * Rpower s (-1 / 3)) with (k * (2 / 3 * Rpower s (2 / 3 - 1))) by (replace (2 / 3 - 1) with (-1 / 3) by field; ring).
      apply is_derive_scal. apply rpower_derive. exact H.
  - eexists. split; [apply sf_rd; exact H|]. apply (is_derive_ext_loc (fun x => k * Rpower x (1 / 2))).
    + apply (filter_imp (fun x => 0 < x)); [|apply pos_locally; exact H]. intros x Hx. unfold a_of. rewrite (proj1 (sf_rd Lam k x Hx)). reflexivity.
    + replace (1 / 2 * k * Rpower s (-1 / 2)) with (k * (1 / 2 * Rpower s (1 / 2 - 1))) by (replace (1 / 2 - 1) with (-1 / 2) by field; ring).
      apply is_derive_scal. apply rpower_derive. exact H.
  - eexists. split; [apply sf_ded|]. apply (is_derive_ext (fun x => k * exp (hubble Lam * x))).
    + intros x. unfold a_of. rewrite (proj1 (sf_ded Lam k x)). reflexivity.
    + auto_derive; [exact I|]. ring.
Qed.
Lemma derivative_ded Lam k s : exists d, scalar_factor_derivative Lam (secs s) "ded" k = Ok d /\ is_derive (a_of Lam "ded" k) s d.
Proof.
  eexists. split; [apply sf_ded|]. apply (is_derive_ext (fun x => k * exp (hubble Lam * x))).
  - intros x. unfold a_of. rewrite (proj1 (sf_ded Lam k x)). reflexivity.
  - auto_derive; [exact I|]. ring.
Qed.
(** the Hubble rate a'/a: 2/(3t), 1/(2t), and H^2 = Lambda/3 *)
Lemma hubble_rate Lam k s : k <> 0 -> 0 < s -> 0 <= Lam -> 
  (forall a d, scalar_factor Lam (secs s) "md" k = Ok a -> scalar_factor_derivative Lam (secs s) "md" k = Ok d -> a <> 0 /\ d / a = 2 / (3 * s)) /\
  (forall a d, scalar_factor Lam (secs s) "rd" k = Ok a -> scalar_factor_derivative Lam (secs s) "rd" k = Ok d -> a <> 0 /\ d / a = 1 / (2 * s)) /\
  (forall a d, scalar_factor Lam (secs s) "ded" k = Ok a -> scalar_factor_derivative Lam (secs s) "ded" k = Ok d -> a <> 0 /\ (d / a) ^ 2 = Lam / 3).
Proof.
  intros Hk Hs HL. rewrite (proj1 (sf_md Lam k s Hs)), (proj2 (sf_md Lam k s Hs)), (proj1 (sf_rd Lam k s Hs)), (proj2 (sf_rd Lam k s Hs)), (proj1 (sf_ded Lam k s)), (proj2 (sf_ded Lam k s)).
  assert (P : forall e, Rpower s e <> 0) by (intros e; unfold Rpower; apply Rgt_not_eq, exp_pos).
  assert (D : forall e, Rpower s (e - 1) = Rpower s e / s).
  { intros e. unfold Rminus. rewrite Rpower_plus, Rpower_Ropp, Rpower_1 by exact Hs. reflexivity. }
  split; [|split]; intros a d E1 E2; apply Ok_inj in E1, E2; subst a d.
  - split; [apply Rmult_integral_contrapositive_currified; auto|]. replace (-1 / 3) with (2 / 3 - 1) by field. rewrite D. field. repeat split; auto; lra.
  - split; [apply Rmult_integral_contrapositive_currified; auto|]. replace (-1 / 2) with (1 / 2 - 1) by field. rewrite D. field. repeat split; auto; lra.
  - assert (X := exp_pos (hubble Lam * s)). split; [apply Rmult_integral_contrapositive_currified; lra|].
    replace (k * (hubble Lam * exp (hubble Lam * s)) / (k * exp (hubble Lam * s))) with (hubble Lam) by (field; split; lra).
    unfold hubble. rewrite <- Rsqr_pow2. apply Rsqr_sqrt. lra.
Qed.
Lemma era_error Lam t era k q : qinput DTime t = Ok q -> ~ known era -> scalar_factor Lam t era k = Err ValueError /\ scalar_factor_derivative Lam t era k = Err ValueError.
Proof.
  intros H N. unfold scalar_factor, scalar_factor_derivative. rewrite H. cbn [bindR]. unfold known in N.
  destruct (String.eqb_spec era "md"); [tauto|]. destruct (String.eqb_spec era "rd"); [tauto|]. destruct (String.eqb_spec era "ded"); [tauto|]. split; reflexivity.
Qed.
(** when the calls succeed *)
Lemma sf_defined Lam s era k : (exists v, scalar_factor Lam (secs s) era k = Ok v) <-> known era /\ (era = "ded"%string \/ 0 <= s).
Proof.
  unfold scalar_factor. destruct (si_secs s) as [E1 E2]. rewrite E1. cbn [bindR]. rewrite E2. unfold known, np_pow.
  destruct (String.eqb_spec era "md") as [-> |N1]; [|destruct (String.eqb_spec era "rd") as [-> |N2]; [|destruct (String.eqb_spec era "ded") as [-> |N3]]].
  1, 2: destruct (Rlt_dec 0 s); cbn [bindR]; [split; [intros _; split; [tauto|right; lra]|intros _; eexists; reflexivity]|];
    destruct (Req_EM_T s 0); [destruct (Rlt_dec 0 _); [|lra]; cbn [bindR]; split; [intros _; split; [tauto|right; lra]|intros _; eexists; reflexivity]|];
    cbn [bindR]; split; [intros [v H]; discriminate|intros [_ [H|H]]; [discriminate|lra]].
  - split; [intros _; split; tauto|intros _; eexists; reflexivity].
  - split; [intros [v H]; discriminate|intros [[H|[H|H]] _]; contradiction].
Qed.
