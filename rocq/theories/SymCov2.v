(** General covariance of what the symbolic classes return: every curvature object computed from the metric in new
    coordinates is the transform of the one computed in the old coordinates, in every index configuration. *)
From Coq Require Import String Ascii List Arith Lia Bool Setoid Morphisms Ring.
From Verif Require Import Base SymAlg SymModel SymLoops SymGeo SymGeo2 SymMove SymConn SymFinal SymCov.
Import ListNotations.
Local Open Scope nat_scope.

(** the tensor transformation law: a covariant slot is contracted with the Jacobian dX_i/dx'_a, a contravariant one with
    its inverse Y *)
Fixpoint pull {B : dops} (n : nat) (X : nat -> B) (Y : nat -> nat -> B) (c : config) (T : list nat -> B) (idx : list nat) : B :=
  match c, idx with
  | w :: c', a :: idx' => ksum n (fun i => (if Ascii.eqb w chU then Y a i else kd a (X i)) * pull n X Y c' (fun r => T (i :: r)) idx')%K
  | _, _ => T idx
  end.
(** an object built by [ctor] (RiemannCurvatureTensor.from_metric, ...) and brought to configuration c by change_config *)
Definition obtained {A : dops} (ctor : metric A -> Res (tens A)) (m : metric A) (c : config) (t : tens A) : Prop :=
  exists r, ctor m = Ok r /\ t_change_config r c None = Ok t.

Section Cov2.
Context {A B : dops} (LA : dlaws A) (L : dlaws B).
Local Open Scope K_scope.
Local Instance WE : Equivalence (@keq B) := keq_equiv B L.
Local Instance WaP : Proper (keq ==> keq ==> keq) (@kadd B) := kadd_p B L.
Local Instance WmP : Proper (keq ==> keq ==> keq) (@kmul B) := kmul_p B L.
Local Instance WsP : Proper (keq ==> keq ==> keq) (@ksub B) := ksub_p B L.
Local Instance WoP : Proper (keq ==> keq) (@kopp B) := kopp_p B L.
Local Instance WdP i : Proper (keq ==> keq) (@kd B i) := kd_p B L i.
Add Ring Wring : (k_ring B L).
Ltac ext := apply (ksum_ext L); let i := fresh "i" in let Hi := fresh "Hi" in intros i Hi.

Lemma pull_ext n X Y c : forall (T T' : list nat -> B) idx, List.length idx = List.length c -> (forall r, valid n (List.length c) r -> T r == T' r) ->
  pull n X Y c T idx == pull n X Y c T' idx.
Proof.
  induction c as [|w c IH]; intros T T' [|a idx] Hl H; try discriminate; cbn [pull].
  - apply H. split; [reflexivity|constructor].
  - ext. apply WmP; [reflexivity|]. apply IH; [cbn in Hl; lia|]. intros r [Hr Hf]. apply H. split; [cbn; lia|constructor; assumption].
Qed.
Lemma pull_scal n X Y c : forall (k : B) T idx, pull n X Y c (fun r => k * T r) idx == k * pull n X Y c T idx.
Proof.
  induction c as [|w c IH]; intros k T [|a idx]; cbn [pull]; try reflexivity.
  rewrite <- (ksum_l L). ext. rewrite (IH k (fun r => T (i :: r)) idx). ring.
Qed.
Lemma pull_sum n X Y c : forall k (T : nat -> list nat -> B) idx, pull n X Y c (fun r => ksum k (fun p => T p r)) idx == ksum k (fun p => pull n X Y c (T p) idx).
Proof.
  induction c as [|w c IH]; intros k T [|a idx]; cbn [pull]; try reflexivity.
  rewrite (ksum_swap L). ext. rewrite (IH k (fun p r => T p (i :: r)) idx), <- (ksum_l L). reflexivity.
Qed.

Variables (n : nat) (phi : A -> B) (X : nat -> B).
Hypothesis CC : coord_change A B n phi X.
Local Instance phiP2 : Proper (keq ==> keq) phi := cc_p A B n phi X CC.
Variables (g gi : nat -> nat -> A) (g' gi' : nat -> nat -> B) (Y : nat -> nat -> B).
Hypotheses (HS : symmetric_metric n g) (HI : inverse_metrics n g gi) (HI' : inverse_metrics n g' gi') (HY : jac_inv n X Y).
Hypothesis HT : transformed n phi X g g'.
Let Ej (i a : nat) : B := kd a (X i).
Let EY i k : (i < n)%nat -> (k < n)%nat -> ksum n (fun m => Ej i m * Y m k) == kdelta i k.
Proof. intros Hi Hk. exact (proj1 (HY i k Hi Hk)). Qed.

Lemma mix_up a i : (a < n)%nat -> (i < n)%nat -> ksum n (fun m => gi' a m * Ej i m) == ksum n (fun j => Y a j * phi (gi j i)).
Proof.
  intros Ha Hi.
  transitivity (ksum n (fun m => ksum n (fun j => ksum n (fun k => Y a j * phi (gi j k) * (Ej i m * Y m k))))).
  { ext. rewrite (gi'_law LA L n phi X CC g gi g' gi' Y HI HI' HY HT a i0 Ha Hi0), <- (ksum_r L). ext. rewrite <- (ksum_r L). ext. ring. }
  rewrite (ksum_swap L). ext. rewrite (ksum_swap L).
  transitivity (ksum n (fun k => kdelta i k * (Y a i0 * phi (gi i0 k)))).
  - ext. rewrite (ksum_l L), (EY i i1 Hi Hi1). ring.
  - rewrite (ksum_delta L n i (fun k => Y a i0 * phi (gi i0 k)) Hi). reflexivity.
Qed.
Lemma mix_down a i : (a < n)%nat -> (i < n)%nat -> ksum n (fun m => g' a m * Y m i) == ksum n (fun j => Ej j a * phi (g j i)).
Proof.
  intros Ha Hi.
  transitivity (ksum n (fun m => ksum n (fun j => ksum n (fun k => Ej j a * phi (g j k) * (Ej k m * Y m i))))).
  { ext. rewrite (HT a i0 Ha Hi0), <- (ksum_r L). ext. rewrite <- (ksum_r L). ext. unfold Ej. ring. }
  rewrite (ksum_swap L). ext. rewrite (ksum_swap L).
  transitivity (ksum n (fun k => (Ej i0 a * phi (g i0 k)) * kdelta k i)).
  - ext. rewrite (ksum_l L), (EY i1 i Hi1 Hi). reflexivity.
  - rewrite (ksum_delta_r L n i (fun k => Ej i0 a * phi (g i0 k)) Hi). reflexivity.
Qed.
(** raising and lowering indices commutes with the change of coordinates *)
Lemma move_pull old : forall new (T : list nat -> A) idx, List.length new = List.length old -> config_checker old = true -> config_checker new = true ->
  valid n (List.length old) idx ->
  move n g' gi' old new (pull n X Y old (fun r => phi (T r))) idx == pull n X Y new (fun r => phi (move n g gi old new T r)) idx.
Proof.
  induction old as [|o old IH]; intros new T idx Hl Co Cn [Vl Vf]; destruct new as [|w new]; try discriminate; destruct idx as [|a idx]; try discriminate; [reflexivity|].
  cbn [config_checker forallb] in Co, Cn. apply andb_true_iff in Co. apply andb_true_iff in Cn. destruct Co as [Co1 Co], Cn as [Cn1 Cn].
  inversion Vf as [|? ? Ha Vf']; subst. cbn in Hl, Vl. assert (V' : valid n (List.length old) idx) by (split; [lia|exact Vf']).
  assert (IH' : forall T, move n g' gi' old new (pull n X Y old (fun r => phi (T r))) idx == pull n X Y new (fun r => phi (move n g gi old new T r)) idx).
  { intros T0. apply IH; try assumption. lia. }
  assert (Dist : forall (M : nat -> B), move n g' gi' old new (fun r => ksum n (fun i => M i * pull n X Y old (fun r0 => phi (T (i :: r0))) r)) idx
     == ksum n (fun i => M i * pull n X Y new (fun r => phi (move n g gi old new (fun r0 => T (i :: r0)) r)) idx)).
  { intros M. rewrite (move_sum L). ext. rewrite (move_scal L). apply WmP; [reflexivity|]. apply (IH' (fun r0 => T (i :: r0))). }
  cbn [move pull]. destruct (Ascii.eqb_spec w o) as [->|N].
  - rewrite Dist. reflexivity.
  - transitivity (ksum n (fun m => (if Ascii.eqb w chU then gi' else g') a m *
        ksum n (fun i => (if Ascii.eqb o chU then Y m i else kd m (X i)) * pull n X Y new (fun r => phi (move n g gi old new (fun r0 => T (i :: r0)) r)) idx))).
    { ext. rewrite (Dist (fun i0 => if Ascii.eqb o chU then Y i i0 else kd i (X i0))). reflexivity. }
    transitivity (ksum n (fun j => (if Ascii.eqb w chU then Y a j else kd a (X j)) *
        ksum n (fun i => phi ((if Ascii.eqb w chU then gi else g) j i) * pull n X Y new (fun r => phi (move n g gi old new (fun r0 => T (i :: r0)) r)) idx))).
    2:{ ext. apply WmP; [reflexivity|]. symmetry. transitivity (pull n X Y new (fun r => ksum n (fun m => phi ((if Ascii.eqb w chU then gi else g) i m) * phi (move n g gi old new (fun r0 => T (m :: r0)) r))) idx).
        - apply pull_ext; [lia|]. intros r _. rewrite (phi_sum LA L n phi X CC). ext. apply (cc_mul A B n phi X CC).
        - rewrite pull_sum. ext. apply pull_scal. }
    set (P := fun i => pull n X Y new (fun r => phi (move n g gi old new (fun r0 => T (i :: r0)) r)) idx).
    assert (K : forall i, (i < n)%nat -> ksum n (fun m => (if Ascii.eqb w chU then gi' else g') a m * (if Ascii.eqb o chU then Y m i else kd m (X i)))
       == ksum n (fun j => (if Ascii.eqb w chU then Y a j else kd a (X j)) * phi ((if Ascii.eqb w chU then gi else g) j i))).
    { intros i Hi. apply orb_true_iff in Co1. apply orb_true_iff in Cn1.
      destruct (Ascii.eqb_spec w chU) as [->|Nw].
      - destruct (Ascii.eqb_spec o chU) as [->|No]; [contradiction|]. apply (mix_up a i Ha Hi).
      - destruct Cn1 as [Cn1|]; [|discriminate]. apply Ascii.eqb_eq in Cn1. subst w. destruct Co1 as [Co1|Co1].
        + apply Ascii.eqb_eq in Co1. subst o. contradiction.
        + rewrite Co1. apply (mix_down a i Ha Hi). }
    fold P. change (ksum n (fun m => (if Ascii.eqb w chU then gi' else g') a m * ksum n (fun i => (if Ascii.eqb o chU then Y m i else kd m (X i)) * P i))
      == ksum n (fun j => (if Ascii.eqb w chU then Y a j else kd a (X j)) * ksum n (fun i => phi ((if Ascii.eqb w chU then gi else g) j i) * P i))).
    transitivity (ksum n (fun i => ksum n (fun m => (if Ascii.eqb w chU then gi' else g') a m * (if Ascii.eqb o chU then Y m i else kd m (X i))) * P i)).
    + rewrite (ksum_ext L n _ (fun m => ksum n (fun i => (if Ascii.eqb w chU then gi' else g') a m * (if Ascii.eqb o chU then Y m i else kd m (X i)) * P i))).
      * rewrite (ksum_swap L). ext. apply (ksum_r L).
      * intros m Hm. rewrite <- (ksum_l L). ext. ring.
    + rewrite (ksum_ext L n _ (fun i => ksum n (fun j => (if Ascii.eqb w chU then Y a j else kd a (X j)) * (phi ((if Ascii.eqb w chU then gi else g) j i) * P i)))).
      * rewrite (ksum_swap L). ext. rewrite <- (ksum_l L). reflexivity.
      * intros i Hi. rewrite (K i Hi), <- (ksum_r L). ext. ring.
Qed.
End Cov2.

Section Cov3.
Context {A B : dops} (LA : dlaws A) (L : dlaws B).
Local Open Scope K_scope.
Local Instance XE : Equivalence (@keq B) := keq_equiv B L.
Local Instance XaP : Proper (keq ==> keq ==> keq) (@kadd B) := kadd_p B L.
Local Instance XmP : Proper (keq ==> keq ==> keq) (@kmul B) := kmul_p B L.
Local Instance XsP : Proper (keq ==> keq ==> keq) (@ksub B) := ksub_p B L.
Local Instance XoP : Proper (keq ==> keq) (@kopp B) := kopp_p B L.
Add Ring Xring : (k_ring B L).
Ltac ext := apply (ksum_ext L); let i := fresh "i" in let Hi := fresh "Hi" in intros i Hi.
Variables (m : metric A) (m' : metric B) (phi : A -> B) (X : nat -> B) (Y : nat -> nat -> B) (g gi : nat -> nat -> A) (g' gi' : nat -> nat -> B).
Hypotheses (HP : covariant_pair m g gi) (HP' : covariant_pair m' g' gi') (HS : symmetric_metric (m_n m) g) (HN : m_n m' = m_n m).
Hypotheses (CC : coord_change A B (m_n m) phi X) (HY : jac_inv (m_n m) X Y) (HT : transformed (m_n m) phi X g g').
Let n := m_n m.
Let HI : inverse_metrics n g gi := pair_inv LA m g gi HP.
Let HI' : inverse_metrics n g' gi'.
Proof. unfold n. rewrite <- HN. exact (pair_inv L m' g' gi' HP'). Qed.
Let HS1 : symmetric_metric n g' := HS' L n phi X CC g g' HS HT.
Let HS2 : symmetric_metric (m_n m') g'.
Proof. rewrite HN. exact HS1. Qed.
Local Instance phiP3 : Proper (keq ==> keq) phi := cc_p A B n phi X CC.

Lemma rep_cov t t' c0 T T' : represents m g gi t c0 T -> represents m' g' gi' t' c0 T' -> config_checker c0 = true -> t_cfg t' = t_cfg t ->
  (forall idx, valid n (List.length c0) idx -> T' idx == pull n X Y c0 (fun r => phi (T r)) idx) ->
  forall idx, valid n (List.length c0) idx -> t_arr t' idx == pull n X Y (t_cfg t) (fun r => phi (t_arr t r)) idx.
Proof.
  intros [R1 [R2 [R3 [R4 R5]]]] [R1' [R2' [R3' [R4' R5']]]] C0 EC H idx V. rewrite R5' by (rewrite HN; exact V). rewrite EC, HN. fold n.
  rewrite (move_ext_valid L n g' gi' c0 (t_cfg t) T' (pull n X Y c0 (fun r => phi (T r))) idx) by (assumption || lia).
  rewrite (move_pull LA L n phi X CC g gi g' gi' Y HI HI' HY HT c0 (t_cfg t) T idx) by (assumption || lia).
  apply (pull_ext L); [rewrite R3; apply V|]. intros r V'. apply phiP3. apply (Equivalence_Symmetric (Equivalence := keq_equiv A LA)). apply R5. rewrite <- R3. exact V'.
Qed.
Lemma obt_cov ctor ctor' c0 T T' (Ec : exists r, ctor m = Ok r /\ t_cfg r = c0 /\ represents m g gi r c0 T) (Ec' : exists r, ctor' m' = Ok r /\ t_cfg r = c0 /\ represents m' g' gi' r c0 T') :
  config_checker c0 = true -> (forall idx, valid n (List.length c0) idx -> T' idx == pull n X Y c0 (fun r => phi (T r)) idx) ->
  forall c, List.length c = List.length c0 -> config_checker c = true ->
  exists t t', obtained ctor m c t /\ obtained ctor' m' c t' /\ t_cfg t = c /\ t_cfg t' = c /\
  forall idx, valid n (List.length c0) idx -> t_arr t' idx == pull n X Y c (fun r => phi (t_arr t r)) idx.
Proof.
  intros C0 H c Hl Hc. destruct Ec as [r [E [C R]]]. destruct Ec' as [r' [E' [C' R']]].
  destruct (rep_change LA m g gi HP r c0 T c None R C0 Hl Hc (or_introl eq_refl)) as [t [E1 [R1 K1]]].
  destruct (rep_change L m' g' gi' HP' r' c0 T' c None R' C0 Hl Hc (or_introl eq_refl)) as [t' [E1' [R1' K1']]].
  exists t, t'. split; [exists r; split; assumption|]. split; [exists r'; split; assumption|]. split; [exact K1|]. split; [exact K1'|].
  intros idx V. rewrite <- K1. apply (rep_cov t t' c0 T T' R1 R1' C0); [congruence|exact H|exact V].
Qed.
Lemma pull2 (T : nat -> nat -> A) (T' : nat -> nat -> B) FT FT' : (forall s v, FT [s; v] = T s v) -> (forall s v, FT' [s; v] = T' s v) ->
  (forall b d, (b < n)%nat -> (d < n)%nat -> T' b d == ksum n (fun j => ksum n (fun l => kd b (X j) * kd d (X l) * phi (T j l)))) ->
  forall idx, valid n 2 idx -> FT' idx == pull n X Y (cf "ll") (fun r => phi (FT r)) idx.
Proof.
  intros E E' H idx V. destruct (valid2 m idx V) as [s [v [-> [Hs Hv]]]]. rewrite E', (H s v Hs Hv).
  change (pull n X Y (cf "ll") (fun r => phi (FT r)) [s; v]) with (ksum n (fun i => kd s (X i) * ksum n (fun j => kd v (X j) * phi (FT [i; j])))).
  ext. rewrite <- (ksum_l L). ext. rewrite E. ring.
Qed.
(** the configuration-generic transformation of each class *)
Definition covariant_class (ctorA : metric A -> Res (tens A)) (ctorB : metric B -> Res (tens B)) (rank : nat) : Prop :=
  forall c, List.length c = rank -> config_checker c = true ->
  exists t t', obtained ctorA m c t /\ obtained ctorB m' c t' /\ t_cfg t = c /\ t_cfg t' = c /\
  forall idx, valid (m_n m) rank idx -> t_arr t' idx == pull (m_n m) X Y c (fun r => phi (t_arr t r)) idx.

Ltac at' H := let K := fresh in assert (K := H L m' g' gi' HP' HS2); rewrite HN in K; exact K.
Lemma cov_riemann : covariant_class riemann_from_metric riemann_from_metric 4.
Proof.
  refine (obt_cov _ _ (cf "ulll") (RiemT n g gi) (RiemT n g' gi') _ _ _ _).
  - exact (riem_metric LA m g gi HP HS).
  - at' (@riem_metric B).
  - reflexivity.
  - intros idx V. destruct (valid4 m idx V) as [a [b [c [d [-> [Ha [Hb [Hc Hd]]]]]]]]. cbn [RiemT].
    change (pull n X Y (cf "ulll") (fun r => phi (RiemT n g gi r)) [a; b; c; d]) with
      (ksum n (fun i => Y a i * ksum n (fun j => kd b (X j) * ksum n (fun k => kd c (X k) * ksum n (fun l => kd d (X l) * phi (Riem n g gi i j k l)))))).
    rewrite <- (YE L n X Y HY (fun e => Riem n g' gi' e b c d) a Ha). ext. apply XmP; [reflexivity|].
    rewrite (riemann_law LA L n phi X CC g gi g' gi' Y HS HI HI' HY HT i b c d Hi Hb Hc Hd). ext. apply XmP; [reflexivity|]. ext. rewrite <- (ksum_l L). ext. unfold E. ring.
Qed.
Lemma cov_ricci : covariant_class ricci_from_metric ricci_from_metric 2.
Proof.
  refine (obt_cov _ _ (cf "ll") (RicT n g gi) (RicT n g' gi') _ _ _ _); [exact (ricci_metric LA m g gi HP HS)|at' (@ricci_metric B)|reflexivity|].
  apply (pull2 (Ric n g gi) (Ric n g' gi')); try reflexivity. exact (ricci_law LA L n phi X CC g gi g' gi' Y HS HI HI' HY HT).
Qed.
Lemma cov_einstein : covariant_class einstein_from_metric einstein_from_metric 2.
Proof.
  refine (obt_cov _ _ (cf "ll") (EinT n g gi) (EinT n g' gi') _ _ _ _); [exact (ein_metric LA m g gi HP HS)|at' (@ein_metric B)|reflexivity|].
  apply (pull2 (Ein n g gi) (Ein n g' gi')); try reflexivity. exact (einstein_law LA L n phi X CC g gi g' gi' Y HS HI HI' HY HT).
Qed.
Lemma cov_schouten : (3 <= m_n m)%nat -> covariant_class schouten_from_metric schouten_from_metric 2.
Proof.
  intros Hn. refine (obt_cov _ _ (cf "ll") (SchT n g gi) (SchT n g' gi') _ _ _ _); [exact (schouten_metric LA m g gi HP HS Hn)| |reflexivity|].
  - assert (K := schouten_metric L m' g' gi' HP' HS2). rewrite HN in K. exact (K Hn).
  - apply (pull2 (Sch n g gi) (Sch n g' gi')); try reflexivity. intros b d Hb Hd. exact (schouten_law LA L n phi X CC g gi g' gi' Y HS HI HI' HY HT b d Hn Hb Hd).
Qed.
Lemma cov_weyl : (4 <= m_n m)%nat -> covariant_class weyl_from_metric weyl_from_metric 4.
Proof.
  intros Hn. refine (obt_cov _ _ (cf "llll") (WeyT n g gi) (WeyT n g' gi') _ _ _ _); [exact (weyl_metric LA m g gi HP HS Hn)| |reflexivity|].
  - assert (K := weyl_metric L m' g' gi' HP' HS2). rewrite HN in K. exact (K Hn).
  - intros idx V. destruct (valid4 m idx V) as [a [b [c [d [-> [Ha [Hb [Hc Hd]]]]]]]]. cbn [WeyT].
    change (pull n X Y (cf "llll") (fun r => phi (WeyT n g gi r)) [a; b; c; d]) with
      (ksum n (fun i => kd a (X i) * ksum n (fun j => kd b (X j) * ksum n (fun k => kd c (X k) * ksum n (fun l => kd d (X l) * phi (Wey n g gi i j k l)))))).
    assert (Hn3 : (3 <= n)%nat) by (unfold n; lia).
    rewrite (weyl_law LA L n phi X CC g gi g' gi' Y HS HI HI' HY HT Hn3 a b c d Ha Hb Hc Hd). unfold E.
    ext. rewrite <- (ksum_l L). ext. rewrite <- !(ksum_l L). ext. rewrite <- !(ksum_l L). ext. ring.
Qed.
Lemma cov_scalar : exists s s', scalar_from_metric m = Ok s /\ scalar_from_metric m' = Ok s' /\ scalar_expr s' == phi (scalar_expr s).
Proof.
  destruct (scalar_metric LA m g gi HP HS) as [s [E1 [_ [_ V1]]]]. destruct (scalar_metric L m' g' gi' HP' HS2) as [s' [E2 [_ [_ V2]]]].
  exists s, s'. split; [exact E1|]. split; [exact E2|]. rewrite V2, (phiP3 _ _ V1), HN. exact (scalar_law LA L n phi X CC g gi g' gi' Y HS HI HI' HY HT).
Qed.
(** the Christoffel symbols transform with the inhomogeneous law of a connection *)
Lemma cov_christoffel : exists ch ch', christoffels_from_metric m = Ok ch /\ christoffels_from_metric m' = Ok ch' /\
  forall i b c, (i < m_n m)%nat -> (b < m_n m)%nat -> (c < m_n m)%nat ->
  ksum (m_n m) (fun a => kd a (X i) * t_arr ch' [a; b; c]) ==
  kd c (kd b (X i)) + ksum (m_n m) (fun j => ksum (m_n m) (fun k => phi (t_arr ch [i; j; k]) * kd b (X j) * kd c (X k))).
Proof.
  destruct (chr_rep LA m g gi HP HS) as [ch [E1 [C1 R1]]]. destruct (chr_rep L m' g' gi' HP' HS2) as [ch' [E2 [C2 R2]]].
  exists ch, ch'. split; [exact E1|]. split; [exact E2|]. intros i b c Hi Hb Hc. 
  assert (V1 : forall i j k, (i < n)%nat -> (j < n)%nat -> (k < n)%nat -> phi (t_arr ch [i; j; k]) == phi (Gam n g gi i j k)).
  { intros x y z Hx Hy Hz. apply phiP3. exact (rep_native LA m g gi ch (cf "ull") _ [x; y; z] R1 C1 (mkvalid3 m x y z Hx Hy Hz)). }
  assert (V2 : forall i j k, (i < n)%nat -> (j < n)%nat -> (k < n)%nat -> t_arr ch' [i; j; k] == Gam n g' gi' i j k).
  { intros x y z Hx Hy Hz. unfold n in Hx, Hy, Hz. rewrite <- HN in Hx, Hy, Hz. rewrite (rep_native L m' g' gi' ch' (cf "ull") _ [x; y; z] R2 C2 (mkvalid3 m' x y z Hx Hy Hz)).
    cbn [GamT]. rewrite HN. reflexivity. }
  change (m_n m) with n.   rewrite (ksum_ext L n _ (fun a => kd a (X i) * Gam n g' gi' a b c)) by (intros; rewrite V2 by assumption; reflexivity).
  assert (K := connection_law LA L n phi X CC g gi g' gi' Y HS HI HI' HY HT i b c Hi Hb Hc). unfold E in K. rewrite K. unfold F.
  apply XaP; [reflexivity|]. ext. unfold om, E. rewrite <- (ksum_r L). ext. rewrite (V1 i i0 i1) by assumption. ring.
Qed.
End Cov3.
