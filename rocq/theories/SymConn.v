(** The curvature classes compute the textbook tensors of SymGeo.v / SymGeo2.v, from any constructor and any configuration. *)
From Coq Require Import String Ascii List Arith Lia Bool Setoid Morphisms Ring.
From Verif Require Import Base SymAlg SymModel SymLoops SymGeo SymGeo2 SymMove.
Import ListNotations.
Open Scope nat_scope.

(** textbook tensors as functions of index lists *)
Section T.
Context {A : dops}.
Local Open Scope K_scope.
Variables (n : nat) (g gi : nat -> nat -> A).
Definition GamT : list nat -> A := fun x => match x with [i; j; k] => Gam n g gi i j k | _ => 0 end.
Definition RiemT : list nat -> A := fun x => match x with [t; s; r; v] => Riem n g gi t s r v | _ => 0 end.
Definition RicT : list nat -> A := fun x => match x with [s; v] => Ric n g gi s v | _ => 0 end.
Definition ScalT : list nat -> A := fun _ => Scal n g gi.
Definition EinT : list nat -> A := fun x => match x with [s; v] => Ein n g gi s v | _ => 0 end.
Definition WeyT : list nat -> A := fun x => match x with [i; k; l; m] => Wey n g gi i k l m | _ => 0 end.
Definition SchT : list nat -> A := fun x => match x with [s; v] => Sch n g gi s v | _ => 0 end.
End T.

(** [represents m g gi t c0 X]: the object t (with parent metric m) is, in whatever configuration it is stored, the
    tensor whose components in configuration c0 are X *)
Definition represents {A : dops} (m : metric A) (g gi : nat -> nat -> A) (t : tens A) (c0 : config) (X : list nat -> A) : Prop :=
  t_n t = m_n m /\ t_parent t = Some m /\ List.length (t_cfg t) = List.length c0 /\ config_checker (t_cfg t) = true
  /\ forall idx, valid (m_n m) (List.length c0) idx -> (t_arr t idx == move (m_n m) g gi c0 (t_cfg t) X idx)%K.

(** [covariant_pair m g gi]: g is the metric's covariant form (lower_config) and gi what sympy's inverse returned for it *)
Definition covariant_pair {A : dops} (m : metric A) (g gi : nat -> nat -> A) : Prop :=
  exists low, m_lower m = Ok low /\ mat_of (m_arr low) = g /\ kminv (m_n m) g = Some gi.

Lemma cfg_eqb_spec a b : cfg_eqb a b = true <-> a = b.
Proof. unfold cfg_eqb. destruct (list_eq_dec ascii_dec a b); split; congruence. Qed.
Lemma cfg_eqb_refl a : cfg_eqb a a = true. Proof. apply cfg_eqb_spec. reflexivity. Qed.

Section S.
Context {A : dops} (L : dlaws A).
Local Open Scope K_scope.
Local Instance CE : Equivalence (@keq A) := keq_equiv A L.
Local Instance CaP : Proper (keq ==> keq ==> keq) (@kadd A) := kadd_p A L.
Local Instance CmP : Proper (keq ==> keq ==> keq) (@kmul A) := kmul_p A L.
Local Instance CsP : Proper (keq ==> keq ==> keq) (@ksub A) := ksub_p A L.
Local Instance CoP : Proper (keq ==> keq) (@kopp A) := kopp_p A L.
Local Instance CvP : Proper (keq ==> keq ==> keq) (@kdiv A) := kdiv_p A L.
Local Instance CdP i : Proper (keq ==> keq) (@kd A i) := kd_p A L i.
Add Ring Cring : (k_ring A L).
Ltac ext := apply (ksum_ext L); let i := fresh "i" in let Hi := fresh "Hi" in intros i Hi.

Lemma fold_sum n (F : nat -> A) a : fold_left (fun tmp m => tmp + F m) (seq 0 n) a == a + ksum n F.
Proof.
  induction n as [|n IH]; [cbn; ring|]. rewrite seq_S, fold_left_app. cbn [fold_left ksum]. rewrite IH, Nat.add_0_l. ring.
Qed.
Lemma move_g_ext n (g gi g' gi' : nat -> nat -> A) old : forall new T idx, (forall i j, (i < n)%nat -> (j < n)%nat -> g i j == g' i j) -> (forall i j, (i < n)%nat -> (j < n)%nat -> gi i j == gi' i j) ->
  Forall (fun i => (i < n)%nat) idx -> move n g gi old new T idx == move n g' gi' old new T idx.
Proof.
  induction old as [|o old IH]; intros new T idx H1 H2 Hf; destruct new as [|w new]; destruct idx as [|i idx]; cbn [move]; try reflexivity.
  inversion Hf; subst. destruct (Ascii.eqb w o); [apply IH; assumption|]. ext. apply CmP; [|apply IH; assumption].
  destruct (Ascii.eqb w chU); [apply H2|apply H1]; assumption.
Qed.

Lemma m_lower_props (m low : metric A) : m_lower m = Ok low -> m_n low = m_n m /\ m_cfg low = cf "ll".
Proof.
  unfold m_lower, m_inv. destruct (cfg_eqb (m_cfg m) (cf "ll")) eqn:E; intros H.
  - injection H as <-. split; [reflexivity|]. apply cfg_eqb_spec. exact E.
  - unfold m_change_config in H. destruct (cfg_eqb (cf "ll") (m_cfg m)) eqn:E2.
    + exfalso. apply cfg_eqb_spec in E2. rewrite <- E2, cfg_eqb_refl in E. discriminate.
    + cbn [cfg_eqb] in H. change (cfg_eqb (cf "ll") (cf "uu") || cfg_eqb (cf "ll") (cf "ll"))%bool with true in H. cbv iota in H.
      destruct (kminv _ _); [|discriminate]. injection H as <-. split; reflexivity.
Qed.
Lemma low_inv (m low : metric A) gi : m_lower m = Ok low -> kminv (m_n m) (mat_of (m_arr low)) = Some gi ->
  m_inv low = Ok (mkmetric (m_n m) (tsimp (arr_of gi)) (cf "uu")).
Proof.
  intros H K. destruct (m_lower_props _ _ H) as [En Ec]. unfold m_inv, m_change_config. rewrite Ec, En, K. reflexivity.
Qed.

Section M.
Variables (m : metric A) (g gi : nat -> nat -> A).
Hypothesis HP : covariant_pair m g gi.
Let n := m_n m.
Lemma pair_inv : inverse_metrics n g gi.
Proof. destruct HP as [low [_ [_ K]]]. intros i j Hi Hj. exact (kminv_law A L n g gi K i j Hi Hj). Qed.
Lemma change_at (t : arr A) old new : List.length new = List.length old -> config_checker new = true ->
  exists a, change_config_arr m t old new = Ok a /\ forall idx, valid n (List.length old) idx -> a idx == move n g gi old new t idx.
Proof.
  intros Hl Hc. destruct HP as [low [H1 [H2 H3]]]. subst g. unfold change_config_arr. rewrite Hl, Nat.eqb_refl, Hc. cbn [andb]. rewrite H1. cbn [bindR].
  rewrite (low_inv m low gi H1 H3). cbn [bindR m_arr]. eexists. split; [reflexivity|]. intros idx [V1 V2].
  rewrite (chain_config_change_at L) by assumption. apply move_g_ext; [reflexivity| |exact V2].
  intros i j _ _. unfold mat_of, tsimp, arr_of. apply (ksimp_law A L).
Qed.
Lemma rep_change (t : tens A) c0 X new par : represents m g gi t c0 X -> config_checker c0 = true -> List.length new = List.length c0 -> config_checker new = true ->
  par = None \/ par = Some m -> exists t', t_change_config t new par = Ok t' /\ represents m g gi t' c0 X /\ t_cfg t' = new.
Proof.
  intros [R1 [R2 [R3 [R4 R5]]]] C0 Hl Hc Hp. unfold t_change_config. rewrite R2.
  replace (match par with Some m0 => Some m0 | None => Some m end) with (Some m) by (destruct Hp; subst; reflexivity).
  destruct (change_at (t_arr t) (t_cfg t) new ltac:(congruence) Hc) as [a [E Ha]]. rewrite E. cbn [bindR]. eexists. split; [reflexivity|]. split; [|reflexivity].
  split; [exact R1|]. split; [reflexivity|]. split; [exact Hl|]. split; [exact Hc|]. intros idx V. cbn [t_arr t_cfg].
  rewrite Ha by (rewrite R3; exact V). fold n.
  rewrite (move_ext_valid L n g gi (t_cfg t) new _ (move n g gi c0 (t_cfg t) X)).
  - apply (move_comp L n g gi pair_inv); try assumption; [apply V|apply V].
  - congruence.
  - rewrite R3. exact V.
  - intros r Hr. apply R5. rewrite <- R3. exact Hr.
Qed.
Lemma rep_to (t : tens A) c0 X new par : represents m g gi t c0 X -> config_checker c0 = true -> List.length new = List.length c0 -> config_checker new = true ->
  par = None \/ par = Some m -> exists t', (if cfg_eqb (t_cfg t) new then Ok t else t_change_config t new par) = Ok t' /\ represents m g gi t' c0 X /\ t_cfg t' = new.
Proof.
  intros R C0 Hl Hc Hp. destruct (cfg_eqb (t_cfg t) new) eqn:E.
  - exists t. split; [reflexivity|]. split; [exact R|]. apply cfg_eqb_spec. exact E.
  - apply (rep_change t c0 X new par); assumption.
Qed.
Lemma rep_native (t : tens A) c0 X idx : represents m g gi t c0 X -> t_cfg t = c0 -> valid n (List.length c0) idx -> t_arr t idx == X idx.
Proof. intros [R1 [R2 [R3 [R4 R5]]]] E V. rewrite R5 by exact V. rewrite E. apply (move_refl L n g gi c0 X idx (proj1 V)). Qed.
Lemma rep_intro a c0 X : config_checker c0 = true -> (forall idx, valid n (List.length c0) idx -> a idx == X idx) ->
  represents m g gi (mktens (m_n m) a c0 (Some m)) c0 X.
Proof.
  intros C H. repeat split; try assumption. intros idx V. cbn [t_arr t_cfg]. rewrite H by exact V. symmetry. apply (move_refl L n g gi c0 X idx (proj1 V)).
Qed.
Lemma valid2 idx : valid n 2 idx -> exists i j, idx = [i; j] /\ (i < n)%nat /\ (j < n)%nat.
Proof.
  intros [V F]. destruct idx as [|i [|j [|? ?]]]; try discriminate. exists i, j. inversion F as [|? ? F1 F']; subst. inversion F' as [|? ? F2 F'']; subst. auto.
Qed.
Lemma valid3 idx : valid n 3 idx -> exists i j k, idx = [i; j; k] /\ (i < n)%nat /\ (j < n)%nat /\ (k < n)%nat.
Proof.
  intros [V F]. destruct idx as [|i [|j [|k [|? ?]]]]; try discriminate. exists i, j, k. inversion F as [|? ? F1 F']; subst. inversion F' as [|? ? F2 F'']; subst. inversion F'' as [|? ? F3 F3']; subst. auto.
Qed.
Lemma valid4 idx : valid n 4 idx -> exists i j k l, idx = [i; j; k; l] /\ (i < n)%nat /\ (j < n)%nat /\ (k < n)%nat /\ (l < n)%nat.
Proof.
  intros [V F]. destruct idx as [|i [|j [|k [|l [|? ?]]]]]; try discriminate. exists i, j, k, l. inversion F as [|? ? F1 F']; subst. inversion F' as [|? ? F2 F'']; subst.
  inversion F'' as [|? ? F3 F3']; subst. inversion F3' as [|? ? F4 F4']; subst. auto.
Qed.
Lemma mkvalid2 i j : (i < n)%nat -> (j < n)%nat -> valid n 2 [i; j]. Proof. intros. split; [reflexivity|]. repeat constructor; assumption. Qed.
Lemma mkvalid3 i j k : (i < n)%nat -> (j < n)%nat -> (k < n)%nat -> valid n 3 [i; j; k]. Proof. intros. split; [reflexivity|]. repeat constructor; assumption. Qed.
Lemma mkvalid4 i j k l : (i < n)%nat -> (j < n)%nat -> (k < n)%nat -> (l < n)%nat -> valid n 4 [i; j; k; l]. Proof. intros. split; [reflexivity|]. repeat constructor; assumption. Qed.

Hypothesis HS : symmetric_metric n g.
(** C44 *)
Lemma chr_rep : exists ch, christoffels_from_metric m = Ok ch /\ t_cfg ch = cf "ull" /\ represents m g gi ch (cf "ull") (GamT n g gi).
Proof.
  destruct HP as [low [H1 [H2 H3]]]. unfold christoffels_from_metric. rewrite H1. cbn [bindR]. rewrite H2, H3. eexists. split; [reflexivity|]. split; [reflexivity|].
  apply (rep_intro _ (cf "ull")); [reflexivity|]. intros idx V. destruct (valid3 idx V) as [i [j [k [-> [Hi [Hj Hk]]]]]].
  fold n. rewrite chr_loop_at by assumption. cbn [GamT].
  transitivity (Gam n g gi i (Nat.max j k) (Nat.min j k)).
  - unfold chr_entry. rewrite fold_sum. unfold Gam. rewrite <- (ksum_l L). transitivity (ksum n (fun m0 => gi i m0 / kofn 2 * (kd (Nat.min j k) (m_arr low [m0; Nat.max j k]) + kd (Nat.max j k) (m_arr low [m0; Nat.min j k]) - kd m0 (m_arr low [Nat.max j k; Nat.min j k])))); [ring|].
    ext. rewrite (kdiv_n L) by discriminate. subst g. unfold mat_of. ring.
  - destruct (Nat.le_ge_cases j k).
    + rewrite Nat.max_r, Nat.min_l by assumption. apply (Gam_sym L n g gi HS); assumption.
    + rewrite Nat.max_l, Nat.min_r by assumption. reflexivity.
Qed.
(** C45 *)
Lemma riem_rep ch par : represents m g gi ch (cf "ull") (GamT n g gi) -> par = None \/ par = Some m ->
  exists r, riemann_from_christoffels ch par = Ok r /\ t_cfg r = cf "ulll" /\ represents m g gi r (cf "ulll") (RiemT n g gi).
Proof.
  intros R Hp. unfold riemann_from_christoffels.
  destruct (rep_to ch (cf "ull") _ (cf "ull") par R eq_refl eq_refl eq_refl Hp) as [ch' [E [R' C']]]. rewrite E. cbn [bindR]. eexists. split; [reflexivity|]. split; [reflexivity|].
  assert (Gv : forall i j k, (i < n)%nat -> (j < n)%nat -> (k < n)%nat -> t_arr ch' [i; j; k] == Gam n g gi i j k).
  { intros i j k Hi Hj Hk. exact (rep_native ch' (cf "ull") _ [i; j; k] R' C' (mkvalid3 i j k Hi Hj Hk)). }
  destruct R' as [R1 [R2 _]]. rewrite R1, R2. replace (match par with Some m0 => Some m0 | None => Some m end) with (Some m) by (destruct Hp; subst; reflexivity).
  apply (rep_intro _ (cf "ulll")); [reflexivity|]. intros idx V. destruct (valid4 idx V) as [t [s [r [v [-> [Ht [Hs [Hr Hv]]]]]]]].
  fold n. rewrite riem_loop_at by assumption. rewrite (ksimp_law A L). unfold riem_entry. rewrite fold_sum. cbn [RiemT]. unfold Riem.
  rewrite !Gv by assumption. apply CaP; [reflexivity|]. ext. rewrite !Gv by assumption. ring.
Qed.
Lemma riem_metric : exists r, riemann_from_metric m = Ok r /\ t_cfg r = cf "ulll" /\ represents m g gi r (cf "ulll") (RiemT n g gi).
Proof.
  unfold riemann_from_metric. destruct chr_rep as [ch [E [_ R]]]. rewrite E. cbn [bindR]. apply riem_rep; [exact R|left; reflexivity].
Qed.
(** C46 *)
Lemma ricci_rep ri par : represents m g gi ri (cf "ulll") (RiemT n g gi) -> par = None \/ par = Some m ->
  exists r, ricci_from_riemann ri par = Ok r /\ t_cfg r = cf "ll" /\ represents m g gi r (cf "ll") (RicT n g gi).
Proof.
  intros R Hp. unfold ricci_from_riemann.
  destruct (rep_to ri (cf "ulll") _ (cf "ulll") par R eq_refl eq_refl eq_refl Hp) as [ri' [E [R' C']]]. rewrite E. cbn [bindR]. eexists. split; [reflexivity|]. split; [reflexivity|].
  assert (Rv : forall i j k l, (i < n)%nat -> (j < n)%nat -> (k < n)%nat -> (l < n)%nat -> t_arr ri' [i; j; k; l] == Riem n g gi i j k l).
  { intros i j k l Hi Hj Hk Hl. exact (rep_native ri' (cf "ulll") _ [i; j; k; l] R' C' (mkvalid4 i j k l Hi Hj Hk Hl)). }
  destruct R' as [R1 [R2 _]]. rewrite R1, R2. replace (match par with Some m0 => Some m0 | None => Some m end) with (Some m) by (destruct Hp; subst; reflexivity).
  apply (rep_intro _ (cf "ll")); [reflexivity|]. intros idx V. destruct (valid2 idx V) as [s [v [-> [Hs Hv]]]].
  unfold tsimp. rewrite (ksimp_law A L). unfold tcontract. cbn [RicT]. unfold Ric. fold n. ext. apply Rv; assumption.
Qed.
Lemma ricci_chr ch par : represents m g gi ch (cf "ull") (GamT n g gi) -> par = None \/ par = Some m ->
  exists r, ricci_from_christoffels ch par = Ok r /\ t_cfg r = cf "ll" /\ represents m g gi r (cf "ll") (RicT n g gi).
Proof.
  intros R Hp. unfold ricci_from_christoffels. destruct (riem_rep ch par R Hp) as [r [E [_ R']]]. rewrite E. cbn [bindR]. apply ricci_rep; [exact R'|left; reflexivity].
Qed.
Lemma ricci_metric : exists r, ricci_from_metric m = Ok r /\ t_cfg r = cf "ll" /\ represents m g gi r (cf "ll") (RicT n g gi).
Proof.
  unfold ricci_from_metric. destruct chr_rep as [ch [E [_ R]]]. rewrite E. cbn [bindR]. apply ricci_chr; [exact R|left; reflexivity].
Qed.
Lemma scalar_rep rc par : represents m g gi rc (cf "ll") (RicT n g gi) -> par = None \/ par = Some m ->
  exists r, scalar_from_ricci rc par = Ok r /\ t_cfg r = cf "" /\ t_parent r = Some m /\ scalar_expr r == Scal n g gi.
Proof.
  intros R Hp. unfold scalar_from_ricci.
  destruct (rep_to rc (cf "ll") _ (cf "ul") par R eq_refl eq_refl eq_refl Hp) as [r' [E [R' C']]]. rewrite E. cbn [bindR]. eexists. split; [reflexivity|]. split; [reflexivity|].
  destruct R' as [R1 [R2 [R3 [R4 R5]]]]. rewrite R1, R2. split; [destruct Hp; subst; reflexivity|].
  unfold scalar_expr, tsimp. cbn [t_arr]. rewrite (ksimp_law A L). unfold tcontract. fold n. unfold Scal. ext.
  change (insert_at 1 i (insert_at 0 i [])) with [i; i]. rewrite R5 by (apply mkvalid2; assumption). rewrite C'. fold n.
  change (move n g gi (cf "ll") (cf "ul") (RicT n g gi) [i; i]) with (ksum n (fun k => gi i k * Ric n g gi k i)). ext.
  rewrite (Ric_sym L n g gi HS pair_inv i0 i) by assumption. reflexivity.
Qed.
Lemma scalar_riem ri par : represents m g gi ri (cf "ulll") (RiemT n g gi) -> par = None \/ par = Some m ->
  exists r, scalar_from_riemann ri par = Ok r /\ t_cfg r = cf "" /\ t_parent r = Some m /\ scalar_expr r == Scal n g gi.
Proof.
  intros R Hp. unfold scalar_from_riemann. destruct (ricci_rep ri par R Hp) as [r [E [_ R']]]. rewrite E. cbn [bindR]. apply scalar_rep; [exact R'|left; reflexivity].
Qed.
Lemma scalar_chr ch par : represents m g gi ch (cf "ull") (GamT n g gi) -> par = None \/ par = Some m ->
  exists r, scalar_from_christoffels ch par = Ok r /\ t_cfg r = cf "" /\ t_parent r = Some m /\ scalar_expr r == Scal n g gi.
Proof.
  intros R Hp. unfold scalar_from_christoffels. destruct (riem_rep ch par R Hp) as [r [E [_ R']]]. rewrite E. cbn [bindR]. apply scalar_riem; [exact R'|left; reflexivity].
Qed.
Lemma scalar_metric : exists r, scalar_from_metric m = Ok r /\ t_cfg r = cf "" /\ t_parent r = Some m /\ scalar_expr r == Scal n g gi.
Proof.
  unfold scalar_from_metric. destruct chr_rep as [ch [E [_ R]]]. rewrite E. cbn [bindR]. apply scalar_chr; [exact R|left; reflexivity].
Qed.
(** C47 *)
Lemma ein_metric : exists e, einstein_from_metric m = Ok e /\ t_cfg e = cf "ll" /\ represents m g gi e (cf "ll") (EinT n g gi).
Proof.
  unfold einstein_from_metric. destruct ricci_metric as [rc [E [Cr Rr]]]. rewrite E. cbn [bindR]. assert (Pr : t_parent rc = Some m) by apply Rr. rewrite Pr.
  destruct (scalar_rep rc (Some m) Rr (or_intror eq_refl)) as [sc [Es [_ [_ Vs]]]]. rewrite Es. cbn [bindR].
  destruct HP as [low [H1 [H2 H3]]]. rewrite H1. cbn [bindR]. eexists. split; [reflexivity|]. split; [reflexivity|].
  apply (rep_intro _ (cf "ll")); [reflexivity|]. intros idx V. destruct (valid2 idx V) as [s [v [-> [Hs Hv]]]].
  rewrite Vs. rewrite (rep_native rc (cf "ll") _ [s; v] Rr Cr V). cbn [EinT RicT]. unfold Ein. subst g. reflexivity.
Qed.
(** C48 *)
Lemma stress_metric c G Lam pi : exists e, stress_from_metric c G Lam pi m = Ok e /\ t_cfg e = cf "ll" /\
  represents m g gi e (cf "ll") (fun x => match x with [s; v] => kpow4 c / (kofn 8 * pi * G) * (Ein n g gi s v - Lam * g s v) | _ => 0 end).
Proof.
  unfold stress_from_metric. destruct ein_metric as [e [E [Ce Re]]]. rewrite E. cbn [bindR].
  destruct HP as [low [H1 [H2 H3]]]. rewrite H1. cbn [bindR]. eexists. split; [reflexivity|]. split; [reflexivity|].
  apply (rep_intro _ (cf "ll")); [reflexivity|]. intros idx V. destruct (valid2 idx V) as [s [v [-> [Hs Hv]]]].
  rewrite (rep_native e (cf "ll") _ [s; v] Re Ce V). cbn [EinT]. subst g. reflexivity.
Qed.
(** C49 *)
Lemma weyl_metric : (4 <= n)%nat -> exists w, weyl_from_metric m = Ok w /\ t_cfg w = cf "llll" /\ represents m g gi w (cf "llll") (WeyT n g gi).
Proof.
  intros Hn. unfold weyl_from_metric. replace (Nat.ltb 3 (m_n m)) with true by (symmetry; apply Nat.ltb_lt; exact Hn).
  destruct HP as [low [H1 [H2 H3]]]. rewrite H1. cbn [bindR].
  destruct riem_metric as [rm [E1 [C1 R1]]]. rewrite E1. cbn [bindR].
  destruct (rep_change rm (cf "ulll") _ (cf "llll") None R1 eq_refl eq_refl eq_refl (or_introl eq_refl)) as [rl [E2 [R2 C2]]]. rewrite E2. cbn [bindR].
  destruct (ricci_rep rm None R1 (or_introl eq_refl)) as [rc [E3 [C3 R3]]]. rewrite E3. cbn [bindR].
  destruct (scalar_rep rc None R3 (or_introl eq_refl)) as [sc [E4 [_ [_ V4]]]]. rewrite E4. cbn [bindR].
  eexists. split; [reflexivity|]. split; [reflexivity|].
  apply (rep_intro _ (cf "llll")); [reflexivity|]. intros idx V. destruct (valid4 idx V) as [i [k [l [q [-> [Hi [Hk [Hl Hq]]]]]]]].
  unfold tsimp. rewrite (ksimp_law A L). rewrite (proj1 (m_lower_props m low H1)). fold n. rewrite weyl_loop_at by assumption. unfold weyl_entry. rewrite V4.
  rewrite !(kdiv_n L) by (fold n in Hn; try apply Nat.neq_mul_0; lia).
  assert (Rl : t_arr rl [i; k; l; q] == RiemL n g gi i k l q).
  { destruct R2 as [_ [_ [_ [_ R2]]]]. rewrite R2 by exact V. rewrite C2. reflexivity. }
  rewrite Rl. rewrite !(rep_native rc (cf "ll") _ _ R3 C3) by (apply mkvalid2; assumption). cbn [RicT WeyT]. unfold Wey. subst g. unfold mat_of. ring.
Qed.
(** C50 *)
Lemma schouten_metric : (3 <= n)%nat -> exists w, schouten_from_metric m = Ok w /\ t_cfg w = cf "ll" /\ represents m g gi w (cf "ll") (SchT n g gi).
Proof.
  intros Hn. unfold schouten_from_metric. replace (Nat.leb 3 (m_n m)) with true by (symmetry; apply Nat.leb_le; exact Hn).
  destruct ricci_metric as [rc [E3 [C3 R3]]]. rewrite E3. cbn [bindR].
  destruct (scalar_rep rc None R3 (or_introl eq_refl)) as [sc [E4 [_ [_ V4]]]]. rewrite E4. cbn [bindR].
  destruct HP as [low [H1 [H2 H3]]]. rewrite H1. cbn [bindR].
  eexists. split; [reflexivity|]. split; [reflexivity|].
  apply (rep_intro _ (cf "ll")); [reflexivity|]. intros idx V. destruct (valid2 idx V) as [s [v [-> [Hs Hv]]]].
  rewrite V4. rewrite (rep_native rc (cf "ll") _ [s; v] R3 C3 V). fold n. rewrite !(kdiv_n L) by (try apply Nat.neq_mul_0; lia). cbn [RicT SchT]. unfold Sch. subst g. unfold mat_of. reflexivity.
Qed.
End M.
End S.
