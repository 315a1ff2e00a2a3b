(** From a table of Christoffel expressions to what the library computes for a metric given by expressions. *)
From Coq Require Import String Ascii Reals List Arith Lia Lra Setoid Morphisms.
From Coquelicot Require Import Coquelicot.
From Verif Require Import Base SymAlg SymModel SymGeo SymMove SymConn SymFinal SymCacheProofs ExprModel PredefModel.
Import ListNotations.
Open Scope R_scope.

Definition rs4 (f : nat -> R) : R := f 0%nat + f 1%nat + f 2%nat + f 3%nat.
(** R^t_{s r v} from a table of Christoffel expressions *)
Definition rT (T : nat -> nat -> nat -> expr) (t s r v : nat) (p : nat -> R) : R :=
  eval (ediff r (T t s v)) p - eval (ediff v (T t s r)) p
  + rs4 (fun q => eval (T t q r) p * eval (T q s v) p - eval (T t q v) p * eval (T q s r) p).

Section B.
Variable U : (nat -> R) -> Prop.
Variables (simp : KU U -> KU U) (minv : nat -> (nat -> nat -> KU U) -> option (nat -> nat -> KU U)).
Hypothesis (O : open_dirs U) (HSi : simp_ok U simp) (HMi : minv_ok U simp minv).
Notation A := (expr_ops U simp minv).
Let L : dlaws A := expr_laws U simp minv O HSi HMi.
Local Instance BE : Equivalence (@keq A) := keq_equiv A L.

Lemma lift_ev e p : WDU U e -> ev U (lift U e) p = eval e p.
Proof. intros H. unfold lift. destruct (EM_inf _) as [W|W]; [reflexivity|contradiction]. Qed.
Lemma lift_diff e k p : WDU U e -> ev U (@kd A k (lift U e)) p = eval (ediff k e) p.
Proof. intros H. change (@kd A) with (udiff U). unfold lift. destruct (EM_inf _) as [W|W]; [reflexivity|contradiction]. Qed.
Lemma ksum4 (f : nat -> A) p : ev U (@ksum A 4 f) p = rs4 (fun i => ev U (f i) p).
Proof.
  cbn [ksum]. unfold rs4. change (ev U (uconst U 0) p + ev U (f 0%nat) p + ev U (f 1%nat) p + ev U (f 2%nat) p + ev U (f 3%nat) p = ev U (f 0%nat) p + ev U (f 1%nat) p + ev U (f 2%nat) p + ev U (f 3%nat) p).
  change (ev U (uconst U 0) p) with 0. ring.
Qed.
Lemma ev_m (x y : A) p : ev U (@kmul A x y) p = ev U x p * ev U y p. Proof. reflexivity. Qed.
Lemma ev_a (x y : A) p : ev U (@kadd A x y) p = ev U x p + ev U y p. Proof. reflexivity. Qed.
Lemma ev_s (x y : A) p : ev U (@ksub A x y) p = ev U x p - ev U y p. Proof. reflexivity. Qed.
Lemma ev_half p : U p -> ev U (@kinv A 2) p = / 2.
Proof.
  intros Hp. assert (K := kinv_law L 2 ltac:(discriminate) p Hp). change (ev U (@kofn A 2) p * ev U (@kinv A 2) p = 1) in K. rewrite ev_kofn in K. simpl INR in K. lra.
Qed.
Lemma rs4_ext f g : (forall i, (i < 4)%nat -> f i = g i) -> rs4 f = rs4 g.
Proof. intros H. unfold rs4. rewrite !H by lia. reflexivity. Qed.

Variables (G Gi : emat) (T : nat -> nat -> nat -> expr).
Hypothesis WG : forall i j, (i < 4)%nat -> (j < 4)%nat -> WDU U (G i j).
Hypothesis WGi : forall i j, (i < 4)%nat -> (j < 4)%nat -> WDU U (Gi i j).
Hypothesis WT : forall i j k, (i < 4)%nat -> (j < 4)%nat -> (k < 4)%nat -> WDU U (T i j k).
Hypothesis SG : forall i j p, (i < 4)%nat -> (j < 4)%nat -> U p -> eval (G i j) p = eval (G j i) p.
Hypothesis IG : forall i j p, (i < 4)%nat -> (j < 4)%nat -> U p -> rs4 (fun m => eval (G i m) p * eval (Gi m j) p) = if Nat.eqb i j then 1 else 0.
Hypothesis CT : forall i j k p, (i < 4)%nat -> (j < 4)%nat -> (k < 4)%nat -> U p ->
  eval (T i j k) p = / 2 * rs4 (fun l => eval (Gi i l) p * (eval (ediff k (G l j)) p + eval (ediff j (G l k)) p - eval (ediff l (G j k)) p)).

Notation gK := (fun i j => lift U (G i j) : A).
Lemma bridge gi : minv 4%nat (fun i j => lift U (G i j)) = Some gi ->
  let m := metric_of U simp minv G in
  exists ch r rc sc, christoffels_from_metric m = Ok ch /\ riemann_from_metric m = Ok r /\ ricci_from_metric m = Ok rc /\ scalar_from_metric m = Ok sc /\
  (forall i j k p, (i < 4)%nat -> (j < 4)%nat -> (k < 4)%nat -> U p -> ev U (t_arr ch [i; j; k]) p = eval (T i j k) p) /\
  (forall t s q v p, (t < 4)%nat -> (s < 4)%nat -> (q < 4)%nat -> (v < 4)%nat -> U p -> ev U (t_arr r [t; s; q; v]) p = rT T t s q v p) /\
  (forall s v p, (s < 4)%nat -> (v < 4)%nat -> U p -> ev U (t_arr rc [s; v]) p = rs4 (fun t => rT T t s t v p)) /\
  (forall p, U p -> ev U (scalar_expr sc) p = rs4 (fun s => rs4 (fun v => eval (Gi s v) p * rs4 (fun t => rT T t s t v p)))).
Proof.
  intros K m.
  assert (HP : covariant_pair m gK gi). { exists m. split; [reflexivity|]. split; [reflexivity|]. exact K. }
  assert (HS : symmetric_metric (A := A) 4 gK).
  { intros i j Hi Hj p Hp. rewrite !lift_ev by (apply WG; assumption). apply SG; assumption. }
  (* the inverse is the table *)
  assert (EGi : forall i j p, (i < 4)%nat -> (j < 4)%nat -> U p -> ev U (gi i j) p = eval (Gi i j) p).
  { intros i j p Hi Hj Hp. rewrite <- (lift_ev (Gi i j) p) by (apply WGi; assumption).
    assert (I1 : inverse_metrics (A := A) 4 gK gi) by (apply (pair_inv L m gK gi HP)).
    (* gi = gi (G lift Gi) = lift Gi *)
    assert (S1 : forall a, (a < 4)%nat -> rs4 (fun b => ev U (gi i b) p * eval (G b a) p) = if Nat.eqb i a then 1 else 0).
    { intros a Ha. destruct (I1 i a Hi Ha) as [_ Q]. specialize (Q p Hp). rewrite ksum4 in Q. unfold kdelta in Q.
      transitivity (rs4 (fun b => ev U (@kmul A (gi i b) (gK b a)) p)).
      - apply rs4_ext. intros b Hb. rewrite ev_m, lift_ev by (apply WG; assumption). reflexivity.
      - rewrite Q. destruct (Nat.eqb i a); reflexivity. }
    rewrite lift_ev by (apply WGi; assumption).
    assert (P1 : rs4 (fun a => rs4 (fun b => ev U (gi i b) p * eval (G b a) p) * eval (Gi a j) p) = eval (Gi i j) p).
    { unfold rs4 at 1. rewrite !S1 by lia. assert (Hc : (i = 0 \/ i = 1 \/ i = 2 \/ i = 3)%nat) by lia. destruct Hc as [-> |[-> |[-> | ->]]]; cbn [Nat.eqb]; ring. }
    assert (P2 : rs4 (fun b => ev U (gi i b) p * rs4 (fun a => eval (G b a) p * eval (Gi a j) p)) = ev U (gi i j) p).
    { unfold rs4 at 1. rewrite !IG by (lia || assumption). assert (Hc : (j = 0 \/ j = 1 \/ j = 2 \/ j = 3)%nat) by lia. destruct Hc as [-> |[-> |[-> | ->]]]; cbn [Nat.eqb]; ring. }
    rewrite <- P1, <- P2. unfold rs4. ring. }
  destruct (chr_all_ L m gK gi HP HS) as [ch [Ech [_ [_ [_ Vch]]]]]. cbn [m_n m metric_of] in Vch. change (m_n m) with 4%nat in Vch.
  assert (VT : forall i j k, (i < 4)%nat -> (j < 4)%nat -> (k < 4)%nat -> @keq A (t_arr ch [i; j; k]) (lift U (T i j k))).
  { intros i j k Hi Hj Hk p Hp. destruct (Vch i j k Hi Hj Hk) as [V _]. specialize (V p Hp). unfold m in V. rewrite V. rewrite lift_ev by (apply WT; assumption). rewrite CT by assumption.
    rewrite ev_m, ev_half by exact Hp. f_equal. rewrite ksum4. apply rs4_ext. intros l Hl. rewrite ev_m, ev_s, ev_a, EGi by assumption. rewrite !lift_diff by (apply WG; assumption). reflexivity. }
  destruct (riem_formula_ L m gK gi HP HS ch None (or_introl eq_refl) Ech) as [r [Er [_ [Er' Vr]]]]. change (m_n m) with 4%nat in Vr.
  assert (Er2 : riemann_from_metric m = Ok r) by congruence.
  assert (VR : forall t s q v p, (t < 4)%nat -> (s < 4)%nat -> (q < 4)%nat -> (v < 4)%nat -> U p -> ev U (t_arr r [t; s; q; v]) p = rT T t s q v p).
  { intros t s q v p Ht Hs Hq Hv Hp. rewrite (Vr t s q v Ht Hs Hq Hv p Hp). unfold rT. rewrite ev_a, ev_s, ksum4.
    rewrite (kd_p A L q _ _ (VT t s v Ht Hs Hv) p Hp), (kd_p A L v _ _ (VT t s q Ht Hs Hq) p Hp), !lift_diff by (apply WT; assumption).
    f_equal. apply rs4_ext. intros x Hx. rewrite ev_s, !ev_m.
    rewrite (VT t x q Ht Hx Hq p Hp), (VT x s v Hx Hs Hv p Hp), (VT t x v Ht Hx Hv p Hp), (VT x s q Hx Hs Hq p Hp), !lift_ev by (apply WT; assumption). reflexivity. }
  destruct (ricci_all_ L m gK gi HP HS) as [r' [rc [sc [E1 [E2 [E3 [_ [V2 V3]]]]]]]]. rewrite Er2 in E1. apply Ok_inj in E1. subst r'. change (m_n m) with 4%nat in V2, V3.
  assert (VC : forall s v p, (s < 4)%nat -> (v < 4)%nat -> U p -> ev U (t_arr rc [s; v]) p = rs4 (fun t => rT T t s t v p)).
  { intros s v p Hs Hv Hp. destruct (V2 s v Hs Hv) as [V _]. rewrite (V p Hp), ksum4. apply rs4_ext. intros t Ht. apply VR; assumption. }
  exists ch, r, rc, sc. split; [exact Ech|]. split; [exact Er2|]. split; [exact E2|]. split; [exact E3|].
  split; [intros i j k p Hi Hj Hk Hp; rewrite (VT i j k Hi Hj Hk p Hp); apply lift_ev; apply WT; assumption|]. split; [exact VR|]. split; [exact VC|].
  intros p Hp. rewrite (V3 p Hp), ksum4. apply rs4_ext. intros s Hs. rewrite ksum4. apply rs4_ext. intros v Hv. rewrite ev_m, EGi, VC by assumption. reflexivity.
Qed.
End B.
