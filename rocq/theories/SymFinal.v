(** Closed statements of C44-C51 about the model of the symbolic classes. *)
From Coq Require Import String Ascii List Arith Lia Bool Setoid Morphisms Ring.
From Verif Require Import Base SymAlg SymModel SymLoops SymGeo SymGeo2 SymMove SymConn.
Import ListNotations.
Open Scope nat_scope.

(** symmetries of a (0,4) curvature-like array *)
Definition curvature_symmetries {A : dops} (n : nat) (T : arr A) : Prop :=
  forall i k l m, i < n -> k < n -> l < n -> m < n ->
  (T [i; k; l; m] == - T [k; i; l; m] /\ T [i; k; l; m] == - T [i; k; m; l] /\ T [i; k; l; m] == T [l; m; i; k]
   /\ T [i; k; l; m] + T [i; l; m; k] + T [i; m; k; l] == 0)%K.

Section S.
Context {A : dops} (L : dlaws A).
Local Open Scope K_scope.
Local Instance FE : Equivalence (@keq A) := keq_equiv A L.
Local Instance FaP : Proper (keq ==> keq ==> keq) (@kadd A) := kadd_p A L.
Local Instance FmP : Proper (keq ==> keq ==> keq) (@kmul A) := kmul_p A L.
Local Instance FsP : Proper (keq ==> keq ==> keq) (@ksub A) := ksub_p A L.
Local Instance FoP : Proper (keq ==> keq) (@kopp A) := kopp_p A L.
Local Instance FdP i : Proper (keq ==> keq) (@kd A i) := kd_p A L i.
Add Ring Fring : (k_ring A L).
Ltac ext := apply (ksum_ext L); let i := fresh "i" in let Hi := fresh "Hi" in intros i Hi.

Section M.
Variables (m : metric A) (g gi : nat -> nat -> A).
Hypothesis HP : covariant_pair m g gi.
Hypothesis HS : symmetric_metric (m_n m) g.
Let HI : inverse_metrics (m_n m) g gi := pair_inv L m g gi HP.

Lemma chr_all_ : exists ch, christoffels_from_metric m = Ok ch /\ t_cfg ch = cf "ull" /\ t_n ch = m_n m /\ t_parent ch = Some m /\
  forall i j k, (i < m_n m)%nat -> (j < m_n m)%nat -> (k < m_n m)%nat ->
  t_arr ch [i; j; k] == kinv 2 * ksum (m_n m) (fun l => gi i l * (kd k (g l j) + kd j (g l k) - kd l (g j k))) /\
  t_arr ch [i; j; k] == t_arr ch [i; k; j] /\
  kd k (g i j) == ksum (m_n m) (fun l => t_arr ch [l; i; k] * g l j) + ksum (m_n m) (fun l => t_arr ch [l; j; k] * g i l).
Proof.
  destruct (chr_rep L m g gi HP HS) as [ch [E [C R]]]. exists ch. split; [exact E|]. split; [exact C|]. split; [apply R|]. split; [apply R|]. intros i j k Hi Hj Hk.
  assert (V : forall i j k, (i < m_n m)%nat -> (j < m_n m)%nat -> (k < m_n m)%nat -> t_arr ch [i; j; k] == Gam (m_n m) g gi i j k).
  { intros a b c Ha Hb Hc. exact (rep_native L m g gi ch (cf "ull") _ [a; b; c] R C (mkvalid3 m a b c Ha Hb Hc)). }
  split; [apply V; assumption|]. split; [rewrite !V by assumption; apply (Gam_sym L (m_n m) g gi HS); assumption|].
  assert (N := nabla_g L (m_n m) g gi HS HI k i j Hi Hj Hk). unfold nab2 in N.
  rewrite (ksum_ext L _ (fun l => t_arr ch [l; i; k] * g l j) (fun l => Gam (m_n m) g gi l i k * g l j)) by (intros; rewrite V by assumption; reflexivity).
  rewrite (ksum_ext L _ (fun l => t_arr ch [l; j; k] * g i l) (fun l => Gam (m_n m) g gi l j k * g i l)) by (intros; rewrite V by assumption; reflexivity).
  match type of N with ?x - ?y - ?z == 0 => transitivity ((x - y - z) + (y + z)); [ring|] end. rewrite N. ring.
Qed.
(** objects obtained from the metric by from_metric and any number of change_config calls *)
Lemma chain_rep (t : tens A) c0 X new t' : config_checker c0 = true -> represents m g gi t c0 X -> List.length new = List.length c0 -> config_checker new = true ->
  t_change_config t new None = Ok t' -> represents m g gi t' c0 X.
Proof.
  intros C0 R Hl Hc E. destruct (rep_change L m g gi HP t c0 X new None R C0 Hl Hc (or_introl eq_refl)) as [t'' [E' [R' _]]]. rewrite E in E'. apply Ok_inj in E'. subst. exact R'.
Qed.
Lemma riem_formula_ ch par : par = None \/ par = Some m -> christoffels_from_metric m = Ok ch ->
  exists r, riemann_from_christoffels ch par = Ok r /\ t_cfg r = cf "ulll" /\ riemann_from_metric m = riemann_from_christoffels ch None /\
  forall t s q v, (t < m_n m)%nat -> (s < m_n m)%nat -> (q < m_n m)%nat -> (v < m_n m)%nat ->
  t_arr r [t; s; q; v] == kd q (t_arr ch [t; s; v]) - kd v (t_arr ch [t; s; q])
     + ksum (m_n m) (fun p => t_arr ch [t; p; q] * t_arr ch [p; s; v] - t_arr ch [t; p; v] * t_arr ch [p; s; q]).
Proof.
  intros Hp E. destruct (chr_rep L m g gi HP HS) as [ch' [E' [C R]]]. rewrite E in E'. apply Ok_inj in E'. subst ch'.
  destruct (riem_rep L m g gi HP ch par R Hp) as [r [Er [Cr Rr]]]. exists r. split; [exact Er|]. split; [exact Cr|].
  split; [unfold riemann_from_metric; rewrite E; reflexivity|]. intros t s q v Ht Hs Hq Hv.
  assert (V : forall i j k, (i < m_n m)%nat -> (j < m_n m)%nat -> (k < m_n m)%nat -> t_arr ch [i; j; k] == Gam (m_n m) g gi i j k).
  { intros a b c Ha Hb Hc. exact (rep_native L m g gi ch (cf "ull") _ [a; b; c] R C (mkvalid3 m a b c Ha Hb Hc)). }
  rewrite (rep_native L m g gi r (cf "ulll") _ [t; s; q; v] Rr Cr (mkvalid4 m t s q v Ht Hs Hq Hv)). cbn [RiemT]. unfold Riem. rewrite !V by assumption.
  apply FaP; [reflexivity|]. ext. rewrite !V by assumption. reflexivity.
Qed.
Lemma riem_sym_ : exists r rl, riemann_from_metric m = Ok r /\ t_change_config r (cf "llll") None = Ok rl /\ t_cfg rl = cf "llll" /\
  (forall t s q v, (t < m_n m)%nat -> (s < m_n m)%nat -> (q < m_n m)%nat -> (v < m_n m)%nat ->
     t_arr rl [t; s; q; v] == ksum (m_n m) (fun p => g t p * t_arr r [p; s; q; v])) /\ curvature_symmetries (m_n m) (t_arr rl).
Proof.
  destruct (riem_metric L m g gi HP HS) as [r [E [C R]]].
  destruct (rep_change L m g gi HP r (cf "ulll") _ (cf "llll") None R eq_refl eq_refl eq_refl (or_introl eq_refl)) as [rl [E2 [R2 C2]]].
  exists r, rl. split; [exact E|]. split; [exact E2|]. split; [exact C2|].
  assert (V : forall t s q v, (t < m_n m)%nat -> (s < m_n m)%nat -> (q < m_n m)%nat -> (v < m_n m)%nat -> t_arr rl [t; s; q; v] == RiemL (m_n m) g gi t s q v).
  { intros t s q v Ht Hs Hq Hv. destruct R2 as [_ [_ [_ [_ R2]]]]. rewrite R2 by (apply mkvalid4; assumption). rewrite C2. reflexivity. }
  split.
  - intros t s q v Ht Hs Hq Hv. rewrite V by assumption. unfold RiemL. ext.
    rewrite (rep_native L m g gi r (cf "ulll") _ [i; s; q; v] R C (mkvalid4 m i s q v Hi Hs Hq Hv)). reflexivity.
  - intros i k l q Hi Hk Hl Hq. rewrite !V by assumption. split; [apply (RL_anti12 L _ g gi HS HI); assumption|]. split; [apply (RL_anti34 L)|].
    split; [apply (RL_pair L _ g gi HS HI); assumption|apply (RL_bianchi1 L _ g gi HS); assumption].
Qed.
Lemma riem_bianchi2_ ch r : christoffels_from_metric m = Ok ch -> riemann_from_metric m = Ok r ->
  let nab a t s p v := kd a (t_arr r [t; s; p; v]) + ksum (m_n m) (fun l => t_arr ch [t; l; a] * t_arr r [l; s; p; v])
     - ksum (m_n m) (fun l => t_arr ch [l; s; a] * t_arr r [t; l; p; v]) - ksum (m_n m) (fun l => t_arr ch [l; p; a] * t_arr r [t; s; l; v])
     - ksum (m_n m) (fun l => t_arr ch [l; v; a] * t_arr r [t; s; p; l]) in
  forall a t s p v, (a < m_n m)%nat -> (t < m_n m)%nat -> (s < m_n m)%nat -> (p < m_n m)%nat -> (v < m_n m)%nat ->
  nab a t s p v + nab p t s v a + nab v t s a p == 0.
Proof.
  intros E Er nab a t s p v Ha Ht Hs Hp Hv.
  destruct (chr_rep L m g gi HP HS) as [ch' [E' [C R]]]. rewrite E in E'. apply Ok_inj in E'. subst ch'.
  destruct (riem_metric L m g gi HP HS) as [r' [Er' [Cr Rr]]]. rewrite Er in Er'. apply Ok_inj in Er'. subst r'.
  assert (V : forall i j k, (i < m_n m)%nat -> (j < m_n m)%nat -> (k < m_n m)%nat -> t_arr ch [i; j; k] == Gam (m_n m) g gi i j k).
  { intros x b c Hx Hb Hc. exact (rep_native L m g gi ch (cf "ull") _ [x; b; c] R C (mkvalid3 m x b c Hx Hb Hc)). }
  assert (W : forall i j k l, (i < m_n m)%nat -> (j < m_n m)%nat -> (k < m_n m)%nat -> (l < m_n m)%nat -> t_arr r [i; j; k; l] == Riem (m_n m) g gi i j k l).
  { intros x b c d Hx Hb Hc Hd. exact (rep_native L m g gi r (cf "ulll") _ [x; b; c; d] Rr Cr (mkvalid4 m x b c d Hx Hb Hc Hd)). }
  assert (N : forall a t s p v, (a < m_n m)%nat -> (t < m_n m)%nat -> (s < m_n m)%nat -> (p < m_n m)%nat -> (v < m_n m)%nat -> nab a t s p v == nabR (m_n m) g gi a t s p v).
  { clear a t s p v Ha Ht Hs Hp Hv. intros a t s p v Ha Ht Hs Hp Hv. unfold nab, nabR. rewrite (W t s p v) by assumption.
    repeat (apply FsP); [apply FaP; [reflexivity|]|..]; ext; rewrite V, W by assumption; reflexivity. }
  rewrite !N by assumption. apply (bianchi2 L (m_n m) g gi HS); assumption.
Qed.
Lemma ricci_all_ : exists r rc sc, riemann_from_metric m = Ok r /\ ricci_from_metric m = Ok rc /\ scalar_from_metric m = Ok sc /\ t_cfg rc = cf "ll" /\
  (forall s v, (s < m_n m)%nat -> (v < m_n m)%nat -> t_arr rc [s; v] == ksum (m_n m) (fun t => t_arr r [t; s; t; v]) /\ t_arr rc [s; v] == t_arr rc [v; s]) /\
  scalar_expr sc == ksum (m_n m) (fun s => ksum (m_n m) (fun v => gi s v * t_arr rc [s; v])).
Proof.
  destruct (riem_metric L m g gi HP HS) as [r [E [C R]]]. destruct (ricci_metric L m g gi HP HS) as [rc [E2 [C2 R2]]].
  destruct (scalar_metric L m g gi HP HS) as [sc [E3 [_ [_ V3]]]]. exists r, rc, sc. split; [exact E|]. split; [exact E2|]. split; [exact E3|]. split; [exact C2|].
  assert (V : forall s v, (s < m_n m)%nat -> (v < m_n m)%nat -> t_arr rc [s; v] == Ric (m_n m) g gi s v).
  { intros s v Hs Hv. exact (rep_native L m g gi rc (cf "ll") _ [s; v] R2 C2 (mkvalid2 m s v Hs Hv)). }
  split.
  - intros s v Hs Hv. rewrite !V by assumption. split; [|apply (Ric_sym L _ g gi HS HI); assumption]. unfold Ric. ext.
    rewrite (rep_native L m g gi r (cf "ulll") _ [i; s; i; v] R C (mkvalid4 m i s i v Hi Hs Hi Hv)). reflexivity.
  - rewrite V3. unfold Scal. ext. ext. rewrite V by assumption. reflexivity.
Qed.
(** every constructor, from a Christoffel / Riemann / Ricci object in any configuration, with or without the parent argument, gives the same tensor *)
Lemma ctor_agree_ : forall ch cfg3 ch' par1 par2 par3, (par1 = None \/ par1 = Some m) -> (par2 = None \/ par2 = Some m) -> (par3 = None \/ par3 = Some m) ->
  christoffels_from_metric m = Ok ch -> List.length cfg3 = 3%nat -> config_checker cfg3 = true -> t_change_config ch cfg3 None = Ok ch' ->
  exists r, riemann_from_christoffels ch' par1 = Ok r /\
  forall cfg4 r', List.length cfg4 = 4%nat -> config_checker cfg4 = true -> t_change_config r cfg4 None = Ok r' ->
  exists rc, ricci_from_riemann r' par2 = Ok rc /\
  forall cfg2 rc', List.length cfg2 = 2%nat -> config_checker cfg2 = true -> t_change_config rc cfg2 None = Ok rc' ->
  exists sc, scalar_from_ricci rc' par3 = Ok sc /\
  exists r0 rc0 sc0 rc1 sc1 sc2, riemann_from_metric m = Ok r0 /\ ricci_from_metric m = Ok rc0 /\ scalar_from_metric m = Ok sc0 /\
    ricci_from_christoffels ch' par1 = Ok rc1 /\ scalar_from_christoffels ch' par1 = Ok sc1 /\ scalar_from_riemann r' par2 = Ok sc2 /\
    (forall idx, valid (m_n m) 4 idx -> t_arr r idx == t_arr r0 idx) /\
    (forall idx, valid (m_n m) 2 idx -> t_arr rc idx == t_arr rc0 idx /\ t_arr rc1 idx == t_arr rc0 idx) /\
    scalar_expr sc == scalar_expr sc0 /\ scalar_expr sc1 == scalar_expr sc0 /\ scalar_expr sc2 == scalar_expr sc0.
Proof.
  intros ch cfg3 ch' par1 par2 par3 P1 P2 P3 Ech L3 C3 Ech'.
  destruct (chr_rep L m g gi HP HS) as [ch0 [E0 [Cch Rch]]]. rewrite Ech in E0. apply Ok_inj in E0. subst ch0.
  assert (Rch' := chain_rep ch (cf "ull") _ cfg3 ch' eq_refl Rch L3 C3 Ech').
  destruct (riem_rep L m g gi HP ch' par1 Rch' P1) as [r [Er [Cr Rr]]]. exists r. split; [exact Er|]. intros cfg4 r' L4 C4 Er'.
  assert (Rr' := chain_rep r (cf "ulll") _ cfg4 r' eq_refl Rr L4 C4 Er').
  destruct (ricci_rep L m g gi HP r' par2 Rr' P2) as [rc [Erc [Crc Rrc]]]. exists rc. split; [exact Erc|]. intros cfg2 rc' L2 C2 Erc'.
  assert (Rrc' := chain_rep rc (cf "ll") _ cfg2 rc' eq_refl Rrc L2 C2 Erc').
  destruct (scalar_rep L m g gi HP HS rc' par3 Rrc' P3) as [sc [Esc [_ [_ Vsc]]]]. exists sc. split; [exact Esc|].
  destruct (riem_metric L m g gi HP HS) as [r0 [Er0 [Cr0 Rr0]]]. destruct (ricci_metric L m g gi HP HS) as [rc0 [Erc0 [Crc0 Rrc0]]].
  destruct (scalar_metric L m g gi HP HS) as [sc0 [Esc0 [_ [_ Vsc0]]]].
  destruct (ricci_chr L m g gi HP ch' par1 Rch' P1) as [rc1 [Erc1 [Crc1 Rrc1]]].
  destruct (scalar_chr L m g gi HP HS ch' par1 Rch' P1) as [sc1 [Esc1 [_ [_ Vsc1]]]].
  destruct (scalar_riem L m g gi HP HS r' par2 Rr' P2) as [sc2 [Esc2 [_ [_ Vsc2]]]].
  exists r0, rc0, sc0, rc1, sc1, sc2. repeat (split; [assumption|]).
  split; [|split; [|split; [|split]]].
  - intros idx V. rewrite (rep_native L m g gi r (cf "ulll") _ idx Rr Cr V), (rep_native L m g gi r0 (cf "ulll") _ idx Rr0 Cr0 V). reflexivity.
  - intros idx V. rewrite (rep_native L m g gi rc (cf "ll") _ idx Rrc Crc V), (rep_native L m g gi rc0 (cf "ll") _ idx Rrc0 Crc0 V), (rep_native L m g gi rc1 (cf "ll") _ idx Rrc1 Crc1 V). split; reflexivity.
  - rewrite Vsc, Vsc0. reflexivity.
  - rewrite Vsc1, Vsc0. reflexivity.
  - rewrite Vsc2, Vsc0. reflexivity.
Qed.
Lemma ein_all_ : exists ch rc sc e, christoffels_from_metric m = Ok ch /\ ricci_from_metric m = Ok rc /\ scalar_from_metric m = Ok sc /\ einstein_from_metric m = Ok e /\ t_cfg e = cf "ll" /\
  (forall s v, (s < m_n m)%nat -> (v < m_n m)%nat -> t_arr e [s; v] == t_arr rc [s; v] - kinv 2 * (scalar_expr sc * g s v) /\ t_arr e [s; v] == t_arr e [v; s]) /\
  kofn 2 * ksum (m_n m) (fun s => ksum (m_n m) (fun v => gi s v * t_arr e [s; v])) == (kofn 2 - kofn (m_n m)) * scalar_expr sc /\
  (forall a, (a < m_n m)%nat ->
     ksum (m_n m) (fun t => ksum (m_n m) (fun s => gi t s *
       (kd t (t_arr e [s; a]) - ksum (m_n m) (fun l => t_arr ch [l; s; t] * t_arr e [l; a]) - ksum (m_n m) (fun l => t_arr ch [l; a; t] * t_arr e [s; l])))) == 0).
Proof.
  destruct (chr_rep L m g gi HP HS) as [ch [Ech [Cch Rch]]].
  destruct (ricci_metric L m g gi HP HS) as [rc [E2 [C2 R2]]]. destruct (scalar_metric L m g gi HP HS) as [sc [E3 [_ [_ V3]]]].
  destruct (ein_metric L m g gi HP HS) as [e [E4 [C4 R4]]]. exists ch, rc, sc, e. split; [exact Ech|]. split; [exact E2|]. split; [exact E3|]. split; [exact E4|]. split; [exact C4|].
  assert (V : forall s v, (s < m_n m)%nat -> (v < m_n m)%nat -> t_arr rc [s; v] == Ric (m_n m) g gi s v).
  { intros s v Hs Hv. exact (rep_native L m g gi rc (cf "ll") _ [s; v] R2 C2 (mkvalid2 m s v Hs Hv)). }
  assert (W : forall s v, (s < m_n m)%nat -> (v < m_n m)%nat -> t_arr e [s; v] == Ein (m_n m) g gi s v).
  { intros s v Hs Hv. exact (rep_native L m g gi e (cf "ll") _ [s; v] R4 C4 (mkvalid2 m s v Hs Hv)). }
  assert (G : forall i j k, (i < m_n m)%nat -> (j < m_n m)%nat -> (k < m_n m)%nat -> t_arr ch [i; j; k] == Gam (m_n m) g gi i j k).
  { intros x b c Hx Hb Hc. exact (rep_native L m g gi ch (cf "ull") _ [x; b; c] Rch Cch (mkvalid3 m x b c Hx Hb Hc)). }
  split; [|split].
  - intros s v Hs Hv. rewrite !W, V, V3 by assumption. split; [unfold Ein; ring|apply (Ein_sym L _ g gi HS HI); assumption].
  - rewrite V3. rewrite <- (trace_Ein L _ g gi HS HI). apply FmP; [reflexivity|]. unfold trace2. ext. ext. rewrite W by assumption. reflexivity.
  - intros a Ha. rewrite <- (div_Ein L _ g gi HS HI a Ha). unfold div2. ext. ext. apply FmP; [reflexivity|]. unfold nab2. rewrite (W i0 a) by assumption.
    apply FsP; [apply FsP; [reflexivity|]|]; ext; rewrite W, G by assumption; reflexivity.
Qed.
Lemma stress_all_ c G Lam pi z : (kofn 8 * pi * G) * z == 1 ->
  (forall i, (i < m_n m)%nat -> kd i c == 0 /\ kd i G == 0 /\ kd i Lam == 0 /\ kd i pi == 0) ->
  exists ch e s, christoffels_from_metric m = Ok ch /\ einstein_from_metric m = Ok e /\ stress_from_metric c G Lam pi m = Ok s /\ t_cfg s = cf "ll" /\
  (forall i j, (i < m_n m)%nat -> (j < m_n m)%nat ->
     (kofn 8 * pi * G) * t_arr s [i; j] == (c * c * c * c) * (t_arr e [i; j] - Lam * g i j) /\ t_arr s [i; j] == t_arr s [j; i]) /\
  (forall a, (a < m_n m)%nat ->
     ksum (m_n m) (fun t => ksum (m_n m) (fun q => gi t q *
       (kd t (t_arr s [q; a]) - ksum (m_n m) (fun l => t_arr ch [l; q; t] * t_arr s [l; a]) - ksum (m_n m) (fun l => t_arr ch [l; a; t] * t_arr s [q; l])))) == 0).
Proof.
  intros Hz Hc. destruct (chr_rep L m g gi HP HS) as [ch [Ech [Cch Rch]]]. destruct (ein_metric L m g gi HP HS) as [e [E4 [C4 R4]]].
  destruct (stress_metric L m g gi HP HS c G Lam pi) as [s [E5 [C5 R5]]]. exists ch, e, s. split; [exact Ech|]. split; [exact E4|]. split; [exact E5|]. split; [exact C5|].
  set (y := kofn 8 * pi * G) in *. set (kap := kpow4 c / y) in *.
  assert (Kk : kap == kpow4 c * z) by (apply (kdiv_mul L); exact Hz).
  assert (W : forall s v, (s < m_n m)%nat -> (v < m_n m)%nat -> t_arr e [s; v] == Ein (m_n m) g gi s v).
  { intros a v Ha Hv. exact (rep_native L m g gi e (cf "ll") _ [a; v] R4 C4 (mkvalid2 m a v Ha Hv)). }
  assert (T : forall i j, (i < m_n m)%nat -> (j < m_n m)%nat -> t_arr s [i; j] == kap * (Ein (m_n m) g gi i j - Lam * g i j)).
  { intros i j Hi Hj. exact (rep_native L m g gi s (cf "ll") _ [i; j] R5 C5 (mkvalid2 m i j Hi Hj)). }
  assert (Gm : forall i j k, (i < m_n m)%nat -> (j < m_n m)%nat -> (k < m_n m)%nat -> t_arr ch [i; j; k] == Gam (m_n m) g gi i j k).
  { intros x b d Hx Hb Hd. exact (rep_native L m g gi ch (cf "ull") _ [x; b; d] Rch Cch (mkvalid3 m x b d Hx Hb Hd)). }
  split.
  - intros i j Hi Hj. rewrite !T, W by assumption. split.
    + rewrite Kk. transitivity (y * z * kpow4 c * (Ein (m_n m) g gi i j - Lam * g i j)); [ring|]. rewrite Hz. unfold kpow4. ring.
    + rewrite (Ein_sym L _ g gi HS HI i j), (HS i j) by assumption. reflexivity.
  - intros a Ha.
    assert (Dy : forall i, (i < m_n m)%nat -> kd i y == 0).
    { intros i Hi. destruct (Hc i Hi) as [_ [D2 [_ D4]]]. unfold y. rewrite !(kd_mul A L), (kd_ofn L), D2, D4. ring. }
    assert (Dz : forall i, (i < m_n m)%nat -> kd i z == 0).
    { intros i Hi. assert (Q : kd i (y * z) == 0) by (rewrite (kd_p A L i _ _ Hz); apply (kd_1 L)). rewrite (kd_mul A L), (Dy i Hi) in Q.
      transitivity (y * z * kd i z); [rewrite Hz; ring|]. transitivity (z * (0 * z + y * kd i z)); [ring|]. rewrite Q. ring. }
    assert (Dk : forall i, (i < m_n m)%nat -> kd i kap == 0).
    { intros i Hi. rewrite (kd_p A L i _ _ Kk). unfold kpow4. destruct (Hc i Hi) as [D1 _]. rewrite !(kd_mul A L), D1, (Dz i Hi). ring. }
    assert (Dl : forall i, (i < m_n m)%nat -> kd i Lam == 0) by (intros i Hi; apply (Hc i Hi)).
    transitivity (div2 (m_n m) g gi (fun i j => kap * (Ein (m_n m) g gi i j - Lam * g i j)) a).
    + unfold div2. ext. ext. apply FmP; [reflexivity|]. unfold nab2. rewrite (T i0 a) by assumption. apply FsP; [apply FsP; [reflexivity|]|]; ext; rewrite T, Gm by assumption; reflexivity.
    + rewrite (div2_scal L) by exact Dk. rewrite (div2_sub L), (div_Ein L _ g gi HS HI) by exact Ha.
      rewrite (div2_g L _ g gi HS HI) by exact Ha. rewrite (Dl a Ha). ring.
Qed.
Lemma anti_trace n (F : nat -> nat -> A) : (forall i k, (i < n)%nat -> (k < n)%nat -> F i k == - F k i) -> ksum n (fun i => ksum n (fun k => F i k)) == 0.
Proof.
  intros H. apply (kinv_cancel L 2); [discriminate|]. cbn [kofn].
  transitivity (ksum n (fun i => ksum n (fun k => F i k)) + ksum n (fun i => ksum n (fun k => F i k))); [ring|].
  rewrite (ksum_swap L) at 1. rewrite <- (ksum_add L). transitivity (0 : A); [|ring]. apply (ksum_zero L). intros i Hi. rewrite <- (ksum_add L). apply (ksum_zero L). intros k Hk.
  rewrite (H i k Hi Hk). ring.
Qed.
Lemma weyl_all_ : (4 <= m_n m)%nat -> exists w, weyl_from_metric m = Ok w /\ t_cfg w = cf "llll" /\ curvature_symmetries (m_n m) (t_arr w) /\
  (forall a b, (a < m_n m)%nat -> (b < m_n m)%nat ->
    let tr f := ksum (m_n m) (fun i => ksum (m_n m) (fun l => gi i l * t_arr w (f i l))) in
    tr (fun i l => [i; l; a; b]) == 0 /\ tr (fun i l => [i; a; l; b]) == 0 /\ tr (fun i l => [i; a; b; l]) == 0 /\
    tr (fun i l => [a; i; l; b]) == 0 /\ tr (fun i l => [a; i; b; l]) == 0 /\ tr (fun i l => [a; b; i; l]) == 0).
Proof.
  intros Hn. destruct (weyl_metric L m g gi HP HS Hn) as [w [E [C R]]]. exists w. split; [exact E|]. split; [exact C|].
  assert (V : forall t s q v, (t < m_n m)%nat -> (s < m_n m)%nat -> (q < m_n m)%nat -> (v < m_n m)%nat -> t_arr w [t; s; q; v] == Wey (m_n m) g gi t s q v).
  { intros t s q v Ht Hs Hq Hv. exact (rep_native L m g gi w (cf "llll") _ [t; s; q; v] R C (mkvalid4 m t s q v Ht Hs Hq Hv)). }
  split.
  - intros i k l q Hi Hk Hl Hq. rewrite !V by assumption. split; [apply (W_anti12 L _ g gi HS HI); assumption|]. split; [apply (W_anti34 L _ g gi); assumption|].
    split; [apply (W_pair L _ g gi HS HI); assumption|apply (W_bianchi1 L _ g gi HS HI); assumption].
  - intros a b Ha Hb tr.
    assert (T02 : forall a b, (a < m_n m)%nat -> (b < m_n m)%nat -> tr (fun i l => [i; a; l; b]) == 0).
    { intros x y Hx Hy. rewrite <- (W_trace L _ g gi HS HI x y ltac:(lia) Hx Hy). unfold tr. ext. ext. rewrite V by assumption. reflexivity. }
    assert (Gs := gi_sym L _ g gi HS HI).
    assert (N : forall f f', (forall i l, (i < m_n m)%nat -> (l < m_n m)%nat -> t_arr w (f i l) == - t_arr w (f' i l)) -> tr f' == 0 -> tr f == 0).
    { intros f f' H Z. transitivity (- tr f'); [|rewrite Z; ring]. unfold tr. rewrite <- (ksum_opp L). ext. rewrite <- (ksum_opp L). ext. rewrite H by assumption. ring. }
    assert (T03 : forall a b, (a < m_n m)%nat -> (b < m_n m)%nat -> tr (fun i l => [i; a; b; l]) == 0).
    { intros x y Hx Hy. apply (N _ (fun i l => [i; x; l; y])); [|apply T02; assumption]. intros i l Hi Hl. rewrite !V by assumption. apply (W_anti34 L _ g gi); assumption. }
    split; [|split; [|split; [|split; [|split]]]].
    + unfold tr. apply anti_trace. intros i k Hi Hk. rewrite !V, (Gs i k), (W_anti12 L _ g gi HS HI i k a b) by assumption. ring.
    + apply T02; assumption.
    + apply T03; assumption.
    + apply (N _ (fun i l => [i; a; l; b])); [|apply T02; assumption]. intros i l Hi Hl. rewrite !V by assumption. apply (W_anti12 L _ g gi HS HI); assumption.
    + apply (N _ (fun i l => [i; a; b; l])); [|apply T03; assumption]. intros i l Hi Hl. rewrite !V by assumption. apply (W_anti12 L _ g gi HS HI); assumption.
    + unfold tr. apply anti_trace. intros i k Hi Hk. rewrite !V, (Gs i k), (W_anti34 L _ g gi a b i k) by assumption. ring.
Qed.
Lemma schouten_all_ : (3 <= m_n m)%nat -> exists sc p, scalar_from_metric m = Ok sc /\ schouten_from_metric m = Ok p /\ t_cfg p = cf "ll" /\
  (forall i j, (i < m_n m)%nat -> (j < m_n m)%nat -> t_arr p [i; j] == t_arr p [j; i]) /\
  kofn (2 * (m_n m - 1)) * ksum (m_n m) (fun i => ksum (m_n m) (fun j => gi i j * t_arr p [i; j])) == scalar_expr sc /\
  ((4 <= m_n m)%nat -> exists r rl w, riemann_from_metric m = Ok r /\ t_change_config r (cf "llll") None = Ok rl /\ weyl_from_metric m = Ok w /\
     forall i k l q, (i < m_n m)%nat -> (k < m_n m)%nat -> (l < m_n m)%nat -> (q < m_n m)%nat ->
     t_arr rl [i; k; l; q] == t_arr w [i; k; l; q]
        + (t_arr p [i; l] * g k q + t_arr p [k; q] * g i l - t_arr p [i; q] * g k l - t_arr p [k; l] * g i q)).
Proof.
  intros Hn. destruct (scalar_metric L m g gi HP HS) as [sc [E3 [_ [_ V3]]]]. destruct (schouten_metric L m g gi HP HS Hn) as [p [Ep [Cp Rp]]].
  exists sc, p. split; [exact E3|]. split; [exact Ep|]. split; [exact Cp|].
  assert (P : forall i j, (i < m_n m)%nat -> (j < m_n m)%nat -> t_arr p [i; j] == Sch (m_n m) g gi i j).
  { intros i j Hi Hj. exact (rep_native L m g gi p (cf "ll") _ [i; j] Rp Cp (mkvalid2 m i j Hi Hj)). }
  split; [|split].
  - intros i j Hi Hj. rewrite !P by assumption. apply (Sch_sym L _ g gi HS HI); assumption.
  - rewrite V3. transitivity (kofn (2 * (m_n m - 1)) * trace2 (m_n m) gi (Sch (m_n m) g gi)).
    + apply FmP; [reflexivity|]. unfold trace2. ext. ext. rewrite P by assumption. reflexivity.
    + rewrite (Sch_trace L _ g gi HS HI Hn). transitivity (kofn (2 * (m_n m - 1)) * kinv (2 * (m_n m - 1)) * Scal (m_n m) g gi); [ring|]. rewrite (kinv_law L) by lia. ring.
  - intros H4. destruct (riem_metric L m g gi HP HS) as [r [E [C R]]].
    destruct (rep_change L m g gi HP r (cf "ulll") _ (cf "llll") None R eq_refl eq_refl eq_refl (or_introl eq_refl)) as [rl [E2 [R2 C2]]].
    destruct (weyl_metric L m g gi HP HS H4) as [w [Ew [Cw Rw]]]. exists r, rl, w. split; [exact E|]. split; [exact E2|]. split; [exact Ew|].
    intros i k l q Hi Hk Hl Hq. rewrite !P by assumption.
    rewrite (rep_native L m g gi w (cf "llll") _ [i; k; l; q] Rw Cw (mkvalid4 m i k l q Hi Hk Hl Hq)).
    destruct R2 as [_ [_ [_ [_ R2]]]]. rewrite R2 by (apply mkvalid4; assumption). rewrite C2.
    change (RiemL (m_n m) g gi i k l q == Wey (m_n m) g gi i k l q + KN g (Sch (m_n m) g gi) i k l q). apply (Riem_decomp L); exact Hn.
Qed.
End M.
End S.
