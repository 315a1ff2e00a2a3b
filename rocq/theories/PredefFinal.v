(** Theorems about the predefined metrics, for every correct simplifier and matrix inverter. *)
From Coq Require Import String Ascii Reals List Arith Lia Lra.
From Coquelicot Require Import Coquelicot.
From Verif Require Import Base SymAlg SymModel ExprModel PredefModel PredefBridge PredefProofs PredefProofs2 PredefKerr PredefDiag PredefDiag2 PredefKN.
Import ListNotations.
Open Scope R_scope.

(** the oracle inverts this metric *)
Definition inverts (U : (nat -> R) -> Prop) (simp : KU U -> KU U) (minv : nat -> (nat -> nat -> KU U) -> option (nat -> nat -> KU U)) (G : emat) : Prop :=
  simp_ok U simp /\ minv_ok U simp minv /\ exists gi, minv 4%nat (fun i j => lift U (G i j)) = Some gi.

(** what the library's constructors return for the metric: Riemann (configuration ulll), Ricci (ll), scalar *)
Definition has_riemann U simp minv G (f : nat -> nat -> nat -> nat -> (nat -> R) -> R) : Prop :=
  exists r, riemann_from_metric (metric_of U simp minv G) = Ok r /\
    forall t s q v p, (t < 4)%nat -> (s < 4)%nat -> (q < 4)%nat -> (v < 4)%nat -> U p -> ev U (t_arr r [t; s; q; v]) p = f t s q v p.
Definition has_ricci U simp minv G (f : nat -> nat -> (nat -> R) -> R) : Prop :=
  exists rc, ricci_from_metric (metric_of U simp minv G) = Ok rc /\
    forall s v p, (s < 4)%nat -> (v < 4)%nat -> U p -> ev U (t_arr rc [s; v]) p = f s v p.
Definition has_scalar U simp minv G (f : (nat -> R) -> R) : Prop :=
  exists sc, scalar_from_metric (metric_of U simp minv G) = Ok sc /\ forall p, U p -> ev U (scalar_expr sc) p = f p.

Lemma of_table U G Gi T simp minv : table U G Gi T -> inverts U simp minv G ->
  has_riemann U simp minv G (rT T) /\ has_ricci U simp minv G (fun s v p => rs4 (fun t => rT T t s t v p)) /\
  has_scalar U simp minv G (fun p => rs4 (fun s => rs4 (fun v => eval (Gi s v) p * rs4 (fun t => rT T t s t v p)))).
Proof.
  intros [O [WG [WGi [WT [SG [IG CT]]]]]] [HS [HM [gi Hgi]]].
  destruct (bridge U simp minv O HS HM G Gi T WG WGi WT SG IG CT gi Hgi) as [ch [r [rc [sc [_ [E2 [E3 [E4 [_ [V1 [V2 V3]]]]]]]]]]].
  split; [exists r; split; assumption|]. split; [exists rc; split; assumption|exists sc; split; assumption].
Qed.

(** the table itself gives a correct inverter for the metric: the hypothesis can be met *)
Definition minv_cand (U : (nat -> R) -> Prop) (cand : nat -> nat -> KU U) (n : nat) (g : nat -> nat -> KU U) : option (nat -> nat -> KU U) :=
  if EM_inf (is_inverse U n g cand) then Some cand else None.
Lemma minv_cand_ok U cand : minv_ok U (simp_id U) (minv_cand U cand).
Proof. intros n g gi. unfold minv_cand. destruct (EM_inf _) as [H|H]; intros E; [|discriminate]. injection E as <-. exact H. Qed.
Lemma rinv_linv (G Gi : nat -> nat -> R) :
  (forall i j, (i < 4)%nat -> (j < 4)%nat -> G i j = G j i) ->
  (forall i j, (i < 4)%nat -> (j < 4)%nat -> rs4 (fun m => G i m * Gi m j) = if Nat.eqb i j then 1 else 0) ->
  forall i j, (i < 4)%nat -> (j < 4)%nat -> rs4 (fun m => Gi i m * G m j) = if Nat.eqb i j then 1 else 0.
Proof.
  intros S I.
  assert (C : forall i, (i < 4)%nat -> (i = 0 \/ i = 1 \/ i = 2 \/ i = 3)%nat) by (intros; lia).
  assert (Y : forall i j, (i < 4)%nat -> (j < 4)%nat -> Gi i j = Gi j i).
  { intros i j Hi Hj.
    assert (P1 : rs4 (fun k => Gi k i * rs4 (fun m => G k m * Gi m j)) = Gi j i).
    { unfold rs4 at 1. rewrite !I by lia. destruct (C j Hj) as [-> |[-> |[-> | ->]]]; cbn [Nat.eqb]; ring. }
    assert (P2 : rs4 (fun m => rs4 (fun k => G m k * Gi k i) * Gi m j) = Gi i j).
    { unfold rs4 at 1. rewrite !I by lia. destruct (C i Hi) as [-> |[-> |[-> | ->]]]; cbn [Nat.eqb]; ring. }
    rewrite <- P1, <- P2. unfold rs4. rewrite (S 1 0)%nat, (S 2 0)%nat, (S 3 0)%nat, (S 2 1)%nat, (S 3 1)%nat, (S 3 2)%nat by lia. ring. }
  intros i j Hi Hj. rewrite Nat.eqb_sym, <- (I j i Hj Hi). unfold rs4. rewrite !(Y i) by lia. rewrite !(S j) by lia. ring.
Qed.
Lemma table_inverts U G Gi T : table U G Gi T -> inverts U (simp_id U) (minv_cand U (fun i j => lift U (Gi i j))) G.
Proof.
  intros [O [WG [WGi [WT [SG [IG CT]]]]]]. split; [apply simp_id_ok|]. split; [apply minv_cand_ok|]. exists (fun i j => lift U (Gi i j)).
  unfold minv_cand. destruct (EM_inf _) as [H|H]; [reflexivity|]. exfalso. apply H. intros i j Hi Hj A.
  assert (K : forall p, ev U (@kdelta A i j) p = if Nat.eqb i j then 1 else 0) by (intros p; unfold kdelta; destruct (Nat.eqb i j); reflexivity).
  split; intros p Hp; rewrite K.
  - transitivity (rs4 (fun m => eval (G i m) p * eval (Gi m j) p)); [|apply IG; assumption].
    unfold A. rewrite ksum4. apply rs4_ext. intros m Hm. change (ev U (lift U (G i m)) p * ev U (lift U (Gi m j)) p = eval (G i m) p * eval (Gi m j) p).
    rewrite !lift_ev by auto. reflexivity.
  - transitivity (rs4 (fun m => eval (Gi i m) p * eval (G m j) p)).
    + unfold A. rewrite ksum4. apply rs4_ext. intros m Hm. change (ev U (lift U (Gi i m)) p * ev U (lift U (G m j)) p = eval (Gi i m) p * eval (G m j) p).
      rewrite !lift_ev by auto. reflexivity.
    + apply (rinv_linv (fun a b => eval (G a b) p) (fun a b => eval (Gi a b) p)); auto.
Qed.
(** the entries of the MetricTensor are those of the matrix *)
Lemma entries U G Gi T simp minv : table U G Gi T -> forall i j p, (i < 4)%nat -> (j < 4)%nat -> ev U (m_arr (metric_of U simp minv G) [i; j]) p = eval (G i j) p.
Proof. intros [O [WG _]] i j p Hi Hj. cbn [metric_of m_arr arr_of]. apply lift_ev. auto. Qed.

Ltac ric L := intros; match goal with I : inverts _ _ _ _ |- _ => destruct (of_table _ _ _ _ _ _ L I) as [_ [[rc [E V]] _]]; exists rc; split; [exact E|]; intros s v p Hs Hv Hp; rewrite (V s v p Hs Hv Hp) end.

Lemma mink_cart_flat c simp minv : param c -> inverts (mc_chart c) simp minv (MinkowskiCartesian c) ->
  has_riemann (mc_chart c) simp minv (MinkowskiCartesian c) (fun _ _ _ _ _ => 0).
Proof.
  intros Pc I. destruct (of_table _ _ _ _ _ _ (mc_table c Pc) I) as [[r [E V]] _]. exists r. split; [exact E|]. intros. rewrite V by assumption. apply mc_riemann.
Qed.
Lemma mink_polar_flat c simp minv : param c -> inverts (mp_chart c) simp minv (MinkowskiPolar c) ->
  has_riemann (mp_chart c) simp minv (MinkowskiPolar c) (fun _ _ _ _ _ => 0).
Proof.
  intros Pc I. destruct (of_table _ _ _ _ _ _ (mp_table c Pc) I) as [[r [E V]] _]. exists r. split; [exact E|]. intros. rewrite V by assumption. apply (mp_riemann c); assumption.
Qed.
Lemma ads_static_einstein simp minv : inverts ads_chart simp minv AntiDeSitterStatic ->
  has_ricci ads_chart simp minv AntiDeSitterStatic (fun s v p => -3 * eval (AntiDeSitterStatic s v) p).
Proof. ric ads_table. apply ads_ricci; assumption. Qed.
Lemma ads_einstein simp minv : inverts adc_chart simp minv AntiDeSitter ->
  has_ricci adc_chart simp minv AntiDeSitter (fun s v p => -3 * eval (AntiDeSitter s v) p).
Proof. ric adc_table. apply adc_ricci; assumption. Qed.
Lemma sch_vacuum c sch simp minv : param c -> param sch -> inverts (sch_chart c sch) simp minv (Schwarzschild c sch) ->
  has_ricci (sch_chart c sch) simp minv (Schwarzschild c sch) (fun _ _ _ => 0).
Proof. intros Pc Ps. ric (sch_table c sch Pc Ps). apply sch_ricci; assumption. Qed.
Lemma kerr_table c sch a : param c -> param sch -> param a -> table (kerr_chart c sch a) (Kerr c sch a) (kerr_inv c sch a) (kerr_T c sch a).
Proof.
  intros Pc Ps Pa. split; [apply kerr_open; assumption|]. split; [apply kerr_WG; assumption|]. split; [apply kerr_WI; assumption|]. split; [apply kerr_WT; assumption|].
  split; [|split; [apply kerr_IG; assumption|apply kerr_CT; assumption]].
  intros i j p Hi Hj Hp. c4 i Hi; c4 j Hj; reflexivity.
Qed.
Lemma kerr_vacuum c sch a simp minv : param c -> param sch -> param a -> inverts (kerr_chart c sch a) simp minv (Kerr c sch a) ->
  has_ricci (kerr_chart c sch a) simp minv (Kerr c sch a) (fun _ _ _ => 0).
Proof. intros Pc Ps Pa. ric (kerr_table c sch a Pc Ps Pa). apply kerr_ricci; assumption. Qed.
Lemma ds_coded c simp minv : param c -> inverts (ds_chart c) simp minv (DeSitter c) ->
  has_ricci (ds_chart c) simp minv (DeSitter c) (fun s v p => if (Nat.eqb s v && Nat.leb 2 s)%bool then - (1 / (eval c p * eval c p)) else 0).
Proof. intros Pc. ric (ds_table c Pc). apply ds_ricci; assumption. Qed.
Lemma ds_intended al simp minv : param al -> inverts (ds_chart al) simp minv (ds_book al) ->
  has_ricci (ds_chart al) simp minv (ds_book al) (fun s v p => 3 / (eval al p * eval al p) * eval (ds_book al s v) p).
Proof. intros Pc. ric (dsb_table al Pc). apply dsb_ricci; assumption. Qed.
Definition pt (l : list R) (i : nat) : R := nth i l 0.
(** nowhere is DeSitter an Einstein metric with the constant 3 / alpha^2, or any other *)
Lemma ds_refuted al k simp minv : param al -> inverts (ds_chart al) simp minv (DeSitter al) ->
  (exists p, ds_chart al p) -> ~ has_ricci (ds_chart al) simp minv (DeSitter al) (fun s v p => k p * eval (DeSitter al s v) p).
Proof.
  intros Pa I [p Hp] [rc [E V]]. destruct (ds_coded al simp minv Pa I) as [rc' [E' V']]. rewrite E in E'. apply Ok_inj in E'. subst rc'.
  assert (A1 := V 0%nat 0%nat p ltac:(lia) ltac:(lia) Hp). rewrite (V' 0%nat 0%nat p) in A1 by (lia || assumption).
  assert (A2 := V 2%nat 2%nat p ltac:(lia) ltac:(lia) Hp). rewrite (V' 2%nat 2%nat p) in A2 by (lia || assumption).
  unfold DeSitter, diag4 in A1, A2. cbn [eval Nat.eqb Nat.leb andb] in A1, A2. assert (k p = 0) by lra. rewrite H in A2.
  assert (0 < 1 / (eval al p * eval al p)); [|lra]. apply Rdiv_lt_0_compat; [lra|]. unfold ds_chart in Hp. nra.
Qed.
Lemma rn_electrovac c G eps_0 sch Q simp minv : param c -> param G -> param eps_0 -> param sch -> param Q ->
  inverts (rn_chart c G eps_0 sch Q) simp minv (ReissnerNordstorm c G eps_0 sch Q) ->
  has_ricci (rn_chart c G eps_0 sch Q) simp minv (ReissnerNordstorm c G eps_0 sch Q)
    (fun s v p => (if Nat.ltb s 2 then 1 else -1) * (eval c p ^ 2 * eval (rQsqE c G eps_0 Q) p / p 1%nat ^ 4) * eval (ReissnerNordstorm c G eps_0 sch Q s v) p).
Proof. intros. revert H4. ric (rn_table c G eps_0 sch Q H H0 H1 H2 H3). apply rn_ricci; assumption. Qed.
Lemma rn_scalar c G eps_0 sch Q simp minv : param c -> param G -> param eps_0 -> param sch -> param Q ->
  inverts (rn_chart c G eps_0 sch Q) simp minv (ReissnerNordstorm c G eps_0 sch Q) ->
  has_scalar (rn_chart c G eps_0 sch Q) simp minv (ReissnerNordstorm c G eps_0 sch Q) (fun _ => 0).
Proof.
  intros Pc PG Pe Ps PQ I. assert (TB := rn_table c G eps_0 sch Q Pc PG Pe Ps PQ).
  destruct (of_table _ _ _ _ _ _ TB I) as [_ [_ [sc [E V]]]]. exists sc. split; [exact E|]. intros p Hp. rewrite (V p Hp).
  set (q := rQsqE c G eps_0 Q) in *. set (K := eval c p ^ 2 * eval q p / p 1%nat ^ 4).
  assert (R : forall s v, (s < 4)%nat -> (v < 4)%nat -> rs4 (fun t => rT (rn_T c sch q) t s t v p) = (if Nat.ltb s 2 then 1 else -1) * K * eval (ReissnerNordstorm c G eps_0 sch Q s v) p).
  { intros s v Hs Hv. unfold q, K. apply rn_ricci; assumption. }
  destruct TB as [_ [_ [_ [_ [SG [IG _]]]]]].
  assert (D : forall s, (s < 4)%nat -> rs4 (fun v => eval (rn_inv c sch q s v) p * eval (ReissnerNordstorm c G eps_0 sch Q s v) p) = 1).
  { intros s Hs. assert (H := rinv_linv (fun a b => eval (ReissnerNordstorm c G eps_0 sch Q a b) p) (fun a b => eval (rn_inv c sch q a b) p)
      (fun i j Hi Hj => SG i j p Hi Hj Hp) (fun i j Hi Hj => IG i j p Hi Hj Hp) s s Hs Hs). rewrite Nat.eqb_refl in H. cbv beta in H. rewrite <- H. apply rs4_ext. intros v Hv. rewrite (SG s v) by assumption. reflexivity. }
  transitivity (rs4 (fun s => (if Nat.ltb s 2 then 1 else -1) * K)).
  - apply rs4_ext. intros s Hs. transitivity ((if Nat.ltb s 2 then 1 else -1) * K * rs4 (fun v => eval (rn_inv c sch q s v) p * eval (ReissnerNordstorm c G eps_0 sch Q s v) p)).
    + unfold rs4 at 1. rewrite !R by lia. unfold rs4. ring.
    + rewrite D by exact Hs. ring.
  - unfold rs4. cbn [Nat.ltb Nat.leb]. ring.
Qed.
Lemma barriola c k simp minv : param c -> param k -> inverts (bv_chart c k) simp minv (BarriolaVilekin c k) ->
  has_ricci (bv_chart c k) simp minv (BarriolaVilekin c k) (fun s v p => if (Nat.eqb s 2 && Nat.eqb v 2)%bool then 1 - eval k p ^ 2
     else if (Nat.eqb s 3 && Nat.eqb v 3)%bool then (1 - eval k p ^ 2) * sin (p 2%nat) ^ 2 else 0).
Proof. intros Pc Pk. ric (bv_table c k Pc Pk). apply (bv_ricci c k); assumption. Qed.
Lemma bertotti c l simp minv : param c -> param l -> inverts (bk_chart c l) simp minv (BertottiKasner c l) ->
  has_ricci (bk_chart c l) simp minv (BertottiKasner c l) (fun s v p => eval l p * eval c p ^ 2 * eval (BertottiKasner c l s v) p).
Proof. intros Pc Pk. ric (bk_table c l Pc Pk). apply bk_ricci; assumption. Qed.
Lemma godel om simp minv : param om -> inverts gd_chart simp minv (Godel om) ->
  has_ricci gd_chart simp minv (Godel om) (fun s v p => 2 * eval om p ^ 2 * eval (Godel om s 0%nat) p * eval (Godel om v 0%nat) p).
Proof.
  intros Pc. ric (gd_table om Pc). rewrite gd_ricci by assumption.
  assert (Q : forall i, (i < 4)%nat -> gd_u om p i = eval (Godel om i 0%nat) p) by (intros i Hi; c4 i Hi; reflexivity). rewrite !Q by assumption. reflexivity.
Qed.
Lemma davidson simp minv : inverts dv_chart simp minv Davidson ->
  has_ricci dv_chart simp minv Davidson (fun s v p => (if Nat.eqb s 0 then -3 else 1) * (4 / 5 / ((1 + p 1%nat ^ 2) ^ 2 * eval (Davidson 1%nat 1%nat) p)) * eval (Davidson s v) p).
Proof. ric dv_table'. apply dv_ricci; assumption. Qed.
Lemma cmetric a0 a1 a2 a3 simp minv : param a0 -> param a1 -> param a2 -> param a3 ->
  let f := cm_f a0 a1 a2 a3 in let h := cm_h a0 a1 a2 a3 in inverts (cm_chart f h) simp minv (CMetric f h) ->
  has_ricci (cm_chart f h) simp minv (CMetric f h) (fun _ _ _ => 0).
Proof.
  intros P0 P1 P2 P3 f h I. destruct (of_table _ _ _ _ _ _ (cm_table' a0 a1 a2 a3 P0 P1 P2 P3) I) as [_ [[rc [E V]] _]]. exists rc. split; [exact E|].
  intros s v p Hs Hv Hp. etransitivity; [exact (V s v p Hs Hv Hp)|]. apply cm_ricci; assumption.
Qed.
Lemma jnw c G gam M simp minv : param c -> param G -> param gam -> param M -> inverts (jw_chart c G gam M) simp minv (JanisNewmanWinicour c G gam M) ->
  has_ricci (jw_chart c G gam M) simp minv (JanisNewmanWinicour c G gam M) (fun s v p =>
    let q := eval (jw_rs c G M) p in let g := eval gam p in let r := p 1%nat in
    if (Nat.eqb s 1 && Nat.eqb v 1)%bool then (1 - g ^ 2) * q ^ 2 / (2 * r ^ 2 * (g * r - q) ^ 2)
    else if (Nat.eqb s 2 && Nat.eqb v 2)%bool then 1 - eval c p ^ 2
    else if (Nat.eqb s 3 && Nat.eqb v 3)%bool then (1 - eval c p ^ 2) * sin (p 2%nat) ^ 2 else 0).
Proof. intros Pc PG Pg PM. ric (jw_table c G gam M Pc PG Pg PM). apply jw_ricci; assumption. Qed.
Lemma ernst_scalar B M simp minv : param B -> param M -> inverts (er_chart B M) simp minv (Ernst B M) ->
  has_scalar (er_chart B M) simp minv (Ernst B M) (fun _ => 0).
Proof.
  intros PB PM I. destruct (of_table _ _ _ _ _ _ (er_table B M PB PM) I) as [_ [_ [sc [E V]]]]. exists sc. split; [exact E|]. intros p Hp. rewrite (V p Hp).
  assert (A := er_pair03 B M p PB PM Hp). assert (A' := er_pair12 B M p PB PM Hp). 
  change (rs4 (fun s => rs4 (fun v => eval (dinv (er_0 B M) (er_1 B M) (er_2 B) (er_3 B) s v) p * er_ric B M s v p)) = 0).
  generalize dependent (er_ric B M). intros Rc A A'. unfold dinv, rs4, diag4, E0, E1. cbn [eval]. unfold Rdiv in *. rewrite ?Rmult_0_l, ?Rplus_0_r, ?Rplus_0_l. lra.
Qed.
(** mixed Ricci components R^r_r = - R^theta_theta and R^t_t = - R^phi_phi: the field is a (null trace) electromagnetic one *)
Lemma ernst_pairs B M simp minv : param B -> param M -> inverts (er_chart B M) simp minv (Ernst B M) ->
  exists rc, ricci_from_metric (metric_of (er_chart B M) simp minv (Ernst B M)) = Ok rc /\ forall p, er_chart B M p ->
   ev _ (t_arr rc [0; 0]%nat) p / eval (Ernst B M 0%nat 0%nat) p = - (ev _ (t_arr rc [3; 3]%nat) p / eval (Ernst B M 3%nat 3%nat) p) /\
   ev _ (t_arr rc [1; 1]%nat) p / eval (Ernst B M 1%nat 1%nat) p = - (ev _ (t_arr rc [2; 2]%nat) p / eval (Ernst B M 2%nat 2%nat) p).
Proof.
  intros PB PM I. destruct (of_table _ _ _ _ _ _ (er_table B M PB PM) I) as [_ [[rc [E V]] _]]. exists rc. split; [exact E|]. intros p Hp. rewrite !V by (lia || assumption).
  assert (A := er_pair03 B M p PB PM Hp). assert (A' := er_pair12 B M p PB PM Hp). unfold er_ric in A, A'. rewrite er_is. unfold diag4. split; lra.
Qed.
Lemma kn_table c G eps_0 sch a Q : param c -> param G -> param eps_0 -> param sch -> param a -> param Q ->
  table (kn_chart c G eps_0 sch a Q) (KerrNewman c G eps_0 sch a Q) (kn_inv c sch a (rQsqE c G eps_0 Q)) (kn_T c sch a (rQsqE c G eps_0 Q)).
Proof.
  intros Pc PG Pe Ps Pa PQ. rewrite kn_is_q.
  assert (F : forall p, kn_chart c G eps_0 sch a Q p -> (wd (rQsqE c G eps_0 Q) p /\ (forall k, (k < 4)%nat -> eval (ediff k (rQsqE c G eps_0 Q)) p = 0)) /\
   (eval c p <> 0 /\ sin (p 2%nat) <> 0 /\ p 1%nat * p 1%nat + eval a p * eval a p * (cos (p 2%nat) * cos (p 2%nat)) <> 0 /\
   p 1%nat * p 1%nat - eval sch p * p 1%nat + eval a p * eval a p + eval (rQsqE c G eps_0 Q) p <> 0)).
  { intros p Hp. split; [apply (kn_q_facts c G eps_0 sch a Q p); assumption|]. destruct Hp as [[? ?] [? [? ?]]]. auto. }
  split; [apply kn_open; assumption|]. split; [apply kn_WG; assumption|]. split; [apply kn_WI; assumption|]. split; [apply kn_WT; assumption|].
  split; [intros i j p Hi Hj Hp; c4 i Hi; c4 j Hj; reflexivity|]. split; [apply kn_IG; assumption|apply kn_CT; assumption].
Qed.
Lemma kn_electrovac c G eps_0 sch a Q simp minv : param c -> param G -> param eps_0 -> param sch -> param a -> param Q ->
  inverts (kn_chart c G eps_0 sch a Q) simp minv (KerrNewman c G eps_0 sch a Q) ->
  has_ricci (kn_chart c G eps_0 sch a Q) simp minv (KerrNewman c G eps_0 sch a Q)
    (fun s v p => rs4 (fun m => eval (KerrNewman c G eps_0 sch a Q s m) p * kn_M c a (rQsqE c G eps_0 Q) m v p)).
Proof.
  intros Pc PG Pe Ps Pa PQ. ric (kn_table c G eps_0 sch a Q Pc PG Pe Ps Pa PQ). rewrite kn_is_q. apply (kn_ricci_ (kn_chart c G eps_0 sch a Q)); try assumption.
  intros p' Hp'. split; [apply (kn_q_facts c G eps_0 sch a Q p'); assumption|]. destruct Hp' as [[? ?] [? [? ?]]]. auto.
Qed.
(** a metric whose Ricci tensor is g_sm M^m_v has scalar curvature trace M *)
Lemma scalar_of_mixed U G Gi T simp minv (M : nat -> nat -> (nat -> R) -> R) : table U G Gi T -> inverts U simp minv G ->
  has_ricci U simp minv G (fun s v p => rs4 (fun m => eval (G s m) p * M m v p)) -> has_scalar U simp minv G (fun p => rs4 (fun i => M i i p)).
Proof.
  intros TB I [rc [E V]]. destruct (of_table _ _ _ _ _ _ TB I) as [_ [[rc' [E' V']] [sc [Es Vs]]]]. rewrite E in E'. apply Ok_inj in E'. subst rc'.
  exists sc. split; [exact Es|]. intros p Hp. rewrite (Vs p Hp). destruct TB as [_ [_ [_ [_ [SG [IG _]]]]]].
  assert (L := rinv_linv (fun x y => eval (G x y) p) (fun x y => eval (Gi x y) p) (fun i j Hi Hj => SG i j p Hi Hj Hp) (fun i j Hi Hj => IG i j p Hi Hj Hp)). cbv beta in L.
  assert (Y : forall i j, (i < 4)%nat -> (j < 4)%nat -> eval (Gi i j) p = eval (Gi j i) p).
  { intros i j Hi Hj.
    assert (P1 : rs4 (fun k => eval (Gi i k) p * rs4 (fun m => eval (G k m) p * eval (Gi m j) p)) = eval (Gi i j) p).
    { unfold rs4 at 1. rewrite !IG by (lia || assumption). assert (Hc : (j = 0 \/ j = 1 \/ j = 2 \/ j = 3)%nat) by lia. destruct Hc as [-> |[-> |[-> | ->]]]; cbn [Nat.eqb]; ring. }
    assert (P2 : rs4 (fun m => rs4 (fun k => eval (G m k) p * eval (Gi k i) p) * eval (Gi m j) p) = eval (Gi i j) p).
    { unfold rs4 at 1. rewrite !IG by (lia || assumption). assert (Hc : (i = 0 \/ i = 1 \/ i = 2 \/ i = 3)%nat) by lia. destruct Hc as [-> |[-> |[-> | ->]]]; cbn [Nat.eqb]; ring. }
    assert (P3 : rs4 (fun m => eval (Gi m i) p * rs4 (fun k => eval (G m k) p * eval (Gi k j) p)) = eval (Gi j i) p).
    { unfold rs4 at 1. rewrite !IG by (lia || assumption). assert (Hc : (j = 0 \/ j = 1 \/ j = 2 \/ j = 3)%nat) by lia. destruct Hc as [-> |[-> |[-> | ->]]]; cbn [Nat.eqb]; ring. }
    rewrite <- P3. rewrite <- P2. unfold rs4. rewrite (SG 1 0)%nat, (SG 2 0)%nat, (SG 3 0)%nat, (SG 2 1)%nat, (SG 3 1)%nat, (SG 3 2)%nat by (lia || assumption). ring. }
  transitivity (rs4 (fun v => rs4 (fun m => rs4 (fun s => eval (Gi v s) p * eval (G s m) p) * M m v p))).
  - transitivity (rs4 (fun s => rs4 (fun v => eval (Gi v s) p * rs4 (fun m => eval (G s m) p * M m v p)))).
    + apply rs4_ext. intros s Hs. apply rs4_ext. intros v Hv. rewrite (Y s v Hs Hv). f_equal. rewrite <- (V s v p Hs Hv Hp). symmetry. apply V'; assumption.
    + unfold rs4. ring.
  - apply rs4_ext. intros v Hv. unfold rs4 at 1. rewrite !L by lia. assert (Hc : (v = 0 \/ v = 1 \/ v = 2 \/ v = 3)%nat) by lia. destruct Hc as [-> |[-> |[-> | ->]]]; cbn [Nat.eqb]; ring.
Qed.
Lemma kn_scalar c G eps_0 sch a Q simp minv : param c -> param G -> param eps_0 -> param sch -> param a -> param Q ->
  inverts (kn_chart c G eps_0 sch a Q) simp minv (KerrNewman c G eps_0 sch a Q) ->
  has_scalar (kn_chart c G eps_0 sch a Q) simp minv (KerrNewman c G eps_0 sch a Q) (fun _ => 0).
Proof.
  intros Pc PG Pe Ps Pa PQ I.
  destruct (scalar_of_mixed _ _ _ _ _ _ (kn_M c a (rQsqE c G eps_0 Q)) (kn_table c G eps_0 sch a Q Pc PG Pe Ps Pa PQ) I (kn_electrovac c G eps_0 sch a Q simp minv Pc PG Pe Ps Pa PQ I)) as [sc [E V]].
  exists sc. split; [exact E|]. intros p Hp. rewrite (V p Hp). apply kn_M_trace.
Qed.

(** algebraic Rainich condition: M^2 = (c^2 q / Sigma^2)^2 identity *)
Lemma kn_rainich c a q p : let r := p 1%nat in let x := eval a p in
  let Sg := r * r + x * x * (cos (p 2%nat) * cos (p 2%nat)) in eval c p <> 0 -> Sg <> 0 ->
  forall i j, (i < 4)%nat -> (j < 4)%nat ->
  rs4 (fun m => kn_M c a q i m p * kn_M c a q m j p) = if Nat.eqb i j then (eval c p ^ 2 * eval q p / Sg ^ 2) ^ 2 else 0.
Proof.
  intros r x Sg Hc HS i j Hi Hj. unfold Sg, r, x in *. clear Sg r x. assert (S := sc2 (p 2%nat)).
  unfold rs4, kn_M. c4 i Hi; c4 j Hj; cbn [Nat.eqb]; cbv zeta;
   generalize dependent (sin (p 2%nat)); generalize dependent (cos (p 2%nat)); generalize dependent (eval c p);
   generalize dependent (eval a p); generalize dependent (eval q p); generalize dependent (p 1%nat); intros; try (unfold Rdiv; ring); field [S]; nz.
Qed.
(** Einstein equations of a minimally coupled static massless scalar: only the radial Ricci component *)
Lemma jnw_c1 c G gam M simp minv : param c -> param G -> param gam -> param M -> inverts (jw_chart c G gam M) simp minv (JanisNewmanWinicour c G gam M) ->
  exists rc, ricci_from_metric (metric_of (jw_chart c G gam M) simp minv (JanisNewmanWinicour c G gam M)) = Ok rc /\
  forall s v p, (s < 4)%nat -> (v < 4)%nat -> jw_chart c G gam M p -> eval c p ^ 2 = 1 -> ~ (s = 1 /\ v = 1)%nat -> ev _ (t_arr rc [s; v]) p = 0.
Proof.
  intros Pc PG Pg PM I. destruct (jnw c G gam M simp minv Pc PG Pg PM I) as [rc [E V]]. exists rc. split; [exact E|].
  intros s v p Hs Hv Hp Hc N. rewrite (V s v p Hs Hv Hp). cbv zeta. rewrite Hc.
  c4 s Hs; c4 v Hv; cbn [Nat.eqb andb]; try lra. exfalso. apply N. split; reflexivity.
Qed.
Lemma jnw_not c G gam M simp minv : param c -> param G -> param gam -> param M -> inverts (jw_chart c G gam M) simp minv (JanisNewmanWinicour c G gam M) ->
  exists rc, ricci_from_metric (metric_of (jw_chart c G gam M) simp minv (JanisNewmanWinicour c G gam M)) = Ok rc /\
  forall p, jw_chart c G gam M p -> eval c p ^ 2 <> 1 -> ev _ (t_arr rc [2; 2]%nat) p <> 0.
Proof.
  intros Pc PG Pg PM I. destruct (jnw c G gam M simp minv Pc PG Pg PM I) as [rc [E V]]. exists rc. split; [exact E|].
  intros p Hp Hc. rewrite (V 2%nat 2%nat p) by (lia || assumption). cbv zeta. cbn [Nat.eqb andb]. lra.
Qed.
