(** General covariance of the symbolic curvature classes: a change of coordinates, seen as a substitution [phi] of the old
    coordinates by expressions [X i] in the new ones that obeys the chain rule, carries every curvature tensor to the
    curvature tensor of the transformed metric. *)
From Coq Require Import List Arith Lia Setoid Morphisms Ring.
From Verif Require Import SymAlg SymGeo SymGeo2.
Import ListNotations.

(** substituting [X i] for old coordinate i: a ring homomorphism obeying d_a (phi f) = sum_i (d_a X_i) phi (d_i f) *)
Record coord_change (A B : dops) (n : nat) (phi : A -> B) (X : nat -> B) : Prop := mk_cc {
  cc_p : forall x y : A, (x == y)%K -> (phi x == phi y)%K;
  cc_add : forall x y : A, (phi (x + y) == phi x + phi y)%K;
  cc_mul : forall x y : A, (phi (x * y) == phi x * phi y)%K;
  cc_1 : (phi 1 == 1)%K;
  cc_chain : forall a (f : A), (a < n)%nat -> (kd a (phi f) == ksum n (fun i => kd a (X i) * phi (kd i f)))%K
}.
(** the metric in the new coordinates: g'_ab = sum_ij d_a X_i d_b X_j phi(g_ij) *)
Definition transformed {A B : dops} (n : nat) (phi : A -> B) (X : nat -> B) (g : nat -> nat -> A) (g' : nat -> nat -> B) : Prop :=
  forall a b, (a < n)%nat -> (b < n)%nat ->
    (g' a b == ksum n (fun i => ksum n (fun j => kd a (X i) * kd b (X j) * phi (g i j))))%K.
(** the Jacobian d_a X_i is an invertible matrix *)
Definition jac_inv {B : dops} (n : nat) (X : nat -> B) (Y : nat -> nat -> B) : Prop :=
  inverse_metrics n (fun i a => kd a (X i)) Y.

Section Cov.
Context {A B : dops} (LA : dlaws A) (L : dlaws B).
Local Open Scope K_scope.
Local Instance VE : Equivalence (@keq B) := keq_equiv B L.
Local Instance VaP : Proper (keq ==> keq ==> keq) (@kadd B) := kadd_p B L.
Local Instance VmP : Proper (keq ==> keq ==> keq) (@kmul B) := kmul_p B L.
Local Instance VsP : Proper (keq ==> keq ==> keq) (@ksub B) := ksub_p B L.
Local Instance VoP : Proper (keq ==> keq) (@kopp B) := kopp_p B L.
Local Instance VdP i : Proper (keq ==> keq) (@kd B i) := kd_p B L i.
Add Ring Vring : (k_ring B L).
Local Instance UE : Equivalence (@keq A) := keq_equiv A LA.
Local Instance UaP : Proper (keq ==> keq ==> keq) (@kadd A) := kadd_p A LA.
Local Instance UmP : Proper (keq ==> keq ==> keq) (@kmul A) := kmul_p A LA.
Local Instance UsP : Proper (keq ==> keq ==> keq) (@ksub A) := ksub_p A LA.
Local Instance UoP : Proper (keq ==> keq) (@kopp A) := kopp_p A LA.
Add Ring Uring : (k_ring A LA).
Variables (n : nat) (phi : A -> B) (X : nat -> B).
Hypothesis CC : coord_change A B n phi X.
Local Instance phiP : Proper (keq ==> keq) phi := cc_p A B n phi X CC.
Ltac ext := apply (ksum_ext L); let i := fresh "i" in let Hi := fresh "Hi" in intros i Hi.

Lemma phi_0 : phi 0 == 0.
Proof.
  assert (H := cc_add A B n phi X CC 0 0). rewrite (phiP (0 + 0) 0) in H by ring.
  transitivity (phi 0 + phi 0 - phi 0); [ring|]. rewrite <- H at 1. ring.
Qed.
Lemma phi_opp x : phi (- x) == - phi x.
Proof.
  assert (H := cc_add A B n phi X CC x (- x)). rewrite (phiP (x + - x) 0), phi_0 in H by ring.
  transitivity (phi x + phi (- x) - phi x); [ring|]. rewrite <- H. ring.
Qed.
Lemma phi_sub x y : phi (x - y) == phi x - phi y.
Proof. rewrite (phiP (x - y) (x + - y)) by ring. rewrite (cc_add A B n phi X CC), phi_opp. ring. Qed.
Lemma phi_sum m (f : nat -> A) : phi (ksum m f) == ksum m (fun i => phi (f i)).
Proof. induction m as [|m IH]; cbn [ksum]; [apply phi_0|]. rewrite (cc_add A B n phi X CC), IH. reflexivity. Qed.
Lemma phi_ofn m : phi (kofn m) == kofn m.
Proof. induction m as [|m IH]; cbn [kofn]; [apply phi_0|]. rewrite (cc_add A B n phi X CC), IH, (cc_1 A B n phi X CC). reflexivity. Qed.
Lemma phi_inv m : m <> O -> phi (kinv m) == kinv m.
Proof.
  intros H. apply (kinv_cancel L m); [exact H|]. rewrite (kinv_law L m H), <- (phi_ofn m), <- (cc_mul A B n phi X CC).
  rewrite (phiP _ _ (kinv_law LA m H)). apply (cc_1 A B n phi X CC).
Qed.
Lemma phi_delta i j : phi (kdelta i j) == kdelta i j.
Proof. unfold kdelta. destruct (Nat.eqb i j); [apply (cc_1 A B n phi X CC)|apply phi_0]. Qed.

(** E i a = dX_i/dx'_a *)
Definition E (i a : nat) : B := kd a (X i).
Lemma chain a f : (a < n)%nat -> kd a (phi f) == ksum n (fun i => E i a * phi (kd i f)).
Proof. apply (cc_chain A B n phi X CC). Qed.
Lemma E_comm i a b : kd a (E i b) == kd b (E i a).
Proof. unfold E. apply (kd_comm B L). Qed.

Variables (g gi : nat -> nat -> A) (g' gi' : nat -> nat -> B) (Y : nat -> nat -> B).
Hypotheses (HS : symmetric_metric n g) (HI : inverse_metrics n g gi) (HI' : inverse_metrics n g' gi') (HY : inverse_metrics n E Y).
Hypothesis HT : transformed n phi X g g'.
Lemma HT' a b : (a < n)%nat -> (b < n)%nat -> g' a b == ksum n (fun i => ksum n (fun j => E i a * E j b * phi (g i j))).
Proof. apply HT. Qed.

Lemma HS' : symmetric_metric n g'.
Proof.
  intros a b Ha Hb. rewrite !HT' by assumption. rewrite (ksum_swap L). ext. ext. rewrite (phiP _ _ (HS i0 i Hi0 Hi)). ring.
Qed.
Let G := Gam n g gi. Let G' := Gam n g' gi'. Let GL := GamL g. Let GL' := GamL g'.
(** om d i j = sum_k phi(G^i_jk) E_kd *)
Definition om (d i j : nat) : B := ksum n (fun k => phi (G i j k) * E k d).
Definition F (d i b : nat) : B := kd d (E i b) + ksum n (fun j => om d i j * E j b).

Lemma sum3 (f : nat -> nat -> B) (h : nat -> B) : ksum n (fun i => h i * ksum n (fun j => f i j)) == ksum n (fun i => ksum n (fun j => h i * f i j)).
Proof. ext. symmetry. apply (ksum_l L). Qed.

(** derivative of g' *)
Lemma dg' c a b : (a < n)%nat -> (b < n)%nat -> (c < n)%nat -> kd c (g' a b) ==
  ksum n (fun i => ksum n (fun j => (kd c (E i a) * E j b + E i a * kd c (E j b)) * phi (g i j)))
  + ksum n (fun i => ksum n (fun j => ksum n (fun k => E i a * E j b * E k c * phi (kd k (g i j))))).
Proof.
  intros Ha Hb Hc. rewrite (VdP c _ _ (HT' a b Ha Hb)), (kd_sum L), <- (ksum_add L). ext. rewrite (kd_sum L), <- (ksum_add L). ext.
  rewrite (kd_mul B L), (kd_mul B L), (chain c (g i i0) Hc), <- (ksum_l L).
  apply VaP; [ring|]. ext. ring.
Qed.
(** Gamma'_e,bc *)
Lemma GL'_eq e b c : (e < n)%nat -> (b < n)%nat -> (c < n)%nat -> GL' e b c ==
  ksum n (fun i => ksum n (fun j => E i e * kd b (E j c) * phi (g i j)))
  + ksum n (fun i => ksum n (fun j => ksum n (fun k => E i e * E j b * E k c * phi (GL i j k)))).
Proof.
  intros He Hb Hc. unfold GL', GamL. rewrite (dg' c e b), (dg' b e c), (dg' e b c) by assumption.
  set (S1 := ksum n (fun i => ksum n (fun j => E i e * kd b (E j c) * phi (g i j)))).
  set (a1 := ksum n (fun i => ksum n (fun j => kd c (E i e) * E j b * phi (g i j)))).
  set (a2 := ksum n (fun i => ksum n (fun j => kd b (E i e) * E j c * phi (g i j)))).
  assert (P1 : ksum n (fun i => ksum n (fun j => (kd c (E i e) * E j b + E i e * kd c (E j b)) * phi (g i j))) == a1 + S1).
  { unfold a1, S1. rewrite <- (ksum_add L). ext. rewrite <- (ksum_add L). ext. rewrite (E_comm i0 c b). ring. }
  assert (P2 : ksum n (fun i => ksum n (fun j => (kd b (E i e) * E j c + E i e * kd b (E j c)) * phi (g i j))) == a2 + S1).
  { unfold a2, S1. rewrite <- (ksum_add L). ext. rewrite <- (ksum_add L). ext. ring. }
  assert (P3 : ksum n (fun i => ksum n (fun j => (kd e (E i b) * E j c + E i b * kd e (E j c)) * phi (g i j))) == a2 + a1).
  { transitivity (ksum n (fun i => ksum n (fun j => kd b (E i e) * E j c * phi (g i j))) + ksum n (fun i => ksum n (fun j => E i b * kd c (E j e) * phi (g i j)))).
    - rewrite <- (ksum_add L). ext. rewrite <- (ksum_add L). ext. rewrite (E_comm i e b), (E_comm i0 e c). ring.
    - apply VaP; [reflexivity|]. unfold a1. rewrite (ksum_swap L). ext. ext. rewrite (phiP _ _ (HS i0 i Hi0 Hi)). ring. }
  rewrite P1, P2, P3.
  set (d1 := ksum n (fun i => ksum n (fun j => ksum n (fun k => E i e * E j b * E k c * phi (kd k (g i j)))))).
  set (d2 := ksum n (fun i => ksum n (fun j => ksum n (fun k => E i e * E j c * E k b * phi (kd k (g i j)))))).
  set (d3 := ksum n (fun i => ksum n (fun j => ksum n (fun k => E i b * E j c * E k e * phi (kd k (g i j)))))).
  assert (Q : ksum n (fun i => ksum n (fun j => ksum n (fun k => E i e * E j b * E k c * phi (GL i j k)))) == kinv 2 * (d1 + d2 - d3)).
  { assert (D2 : d2 == ksum n (fun i => ksum n (fun j => ksum n (fun k => E i e * E j b * E k c * phi (kd j (g i k)))))).
    { unfold d2. ext. rewrite (ksum_swap L). ext. ext. ring. }
    assert (D3 : d3 == ksum n (fun i => ksum n (fun j => ksum n (fun k => E i e * E j b * E k c * phi (kd i (g j k)))))).
    { unfold d3. transitivity (ksum n (fun k => ksum n (fun i => ksum n (fun j => E i b * E j c * E k e * phi (kd k (g i j)))))).
      - transitivity (ksum n (fun i => ksum n (fun k => ksum n (fun j => E i b * E j c * E k e * phi (kd k (g i j)))))).
        + ext. apply (ksum_swap L).
        + apply (ksum_swap L).
      - ext. ext. ext. ring. }
    rewrite D2, D3. unfold d1. rewrite <- (ksum_add L), <- (ksum_sub L), <- (ksum_l L). ext.
    rewrite <- (ksum_add L), <- (ksum_sub L), <- (ksum_l L). ext. rewrite <- (ksum_add L), <- (ksum_sub L), <- (ksum_l L). ext.
    unfold GL, GamL. rewrite (cc_mul A B n phi X CC), (phi_inv 2) by discriminate. rewrite phi_sub, (cc_add A B n phi X CC). ring. }
  rewrite Q. transitivity (kinv 2 * S1 + kinv 2 * S1 + kinv 2 * (d1 + d2 - d3)); [ring|]. rewrite (half_half L). reflexivity.
Qed.
(** cancelling the Jacobian and the metric *)
Lemma cancel_gE (f h : nat -> B) : (forall e, (e < n)%nat ->
    ksum n (fun i => ksum n (fun j => E i e * phi (g i j) * f j)) == ksum n (fun i => ksum n (fun j => E i e * phi (g i j) * h j))) ->
  forall i, (i < n)%nat -> f i == h i.
Proof.
  intros H.
  assert (K : forall u v : nat -> B, (forall e, (e < n)%nat -> ksum n (fun i => E i e * u i) == ksum n (fun i => E i e * v i)) -> forall k, (k < n)%nat -> u k == v k).
  { assert (Z : forall u k, (k < n)%nat -> ksum n (fun e => Y e k * ksum n (fun i => E i e * u i)) == u k).
    { intros u k Hk. rewrite sum3, (ksum_swap L). transitivity (ksum n (fun i => u i * kdelta i k)).
      - ext. transitivity (u i * ksum n (fun m => E i m * Y m k)); [rewrite <- (ksum_l L); ext; ring|]. rewrite (proj1 (HY i k Hi Hk)). reflexivity.
      - apply (ksum_delta_r L). exact Hk. }
    intros u v Huv k Hk. rewrite <- (Z u k Hk), <- (Z v k Hk). ext. rewrite Huv by assumption. reflexivity. }
  assert (M : forall k, (k < n)%nat -> ksum n (fun j => phi (g k j) * f j) == ksum n (fun j => phi (g k j) * h j)).
  { apply K. intros e He. rewrite !sum3. transitivity (ksum n (fun i => ksum n (fun j => E i e * phi (g i j) * f j))); [ext; ext; ring|].
    rewrite (H e He). ext. ext. ring. }
  assert (Z : forall u k, (k < n)%nat -> ksum n (fun e => phi (gi k e) * ksum n (fun i => phi (g e i) * u i)) == u k).
  { intros u k Hk. rewrite sum3, (ksum_swap L). transitivity (ksum n (fun i => kdelta k i * u i)).
    - ext. rewrite <- (phi_delta k i), <- (phiP _ _ (proj2 (HI k i Hk Hi))), phi_sum, <- (ksum_r L). ext. rewrite (cc_mul A B n phi X CC). ring.
    - apply (ksum_delta L). exact Hk. }
  intros i Hi. rewrite <- (Z f i Hi), <- (Z h i Hi). ext. rewrite (M _ Hi0). reflexivity.
Qed.
(** the transformation law of the connection: sum_a E_ia G'^a_bc = d_c E_ib + om_c,ij E_jb *)
Lemma connection_law i b c : (i < n)%nat -> (b < n)%nat -> (c < n)%nat -> ksum n (fun a => E i a * G' a b c) == F c i b.
Proof.
  intros Hi Hb Hc. revert i Hi. apply cancel_gE. intros e He.
  transitivity (GL' e b c).
  - unfold GL'. rewrite <- (gG L n g' gi' HI' e b c He). fold G'.
    transitivity (ksum n (fun i => ksum n (fun a => ksum n (fun j => E i e * phi (g i j) * E j a * G' a b c)))).
    + ext. transitivity (ksum n (fun j => ksum n (fun a => E i e * phi (g i j) * E j a * G' a b c))).
      * ext. rewrite <- (ksum_l L). ext. ring.
      * apply (ksum_swap L).
    + rewrite (ksum_swap L). ext. rewrite (HT' e i He Hi). rewrite <- (ksum_r L). ext. rewrite <- (ksum_r L). ext. ring.
  - rewrite (GL'_eq e b c He Hb Hc).
    transitivity (ksum n (fun i => ksum n (fun j => E i e * phi (g i j) * kd c (E j b))) + ksum n (fun i => ksum n (fun j => E i e * phi (g i j) * ksum n (fun k => om c j k * E k b)))).
    2:{ rewrite <- (ksum_add L). ext. rewrite <- (ksum_add L). ext. unfold F. ring. }
    apply VaP.
    + ext. ext. rewrite (E_comm i0 b c). ring.
    + ext. transitivity (E i e * ksum n (fun k => ksum n (fun l => E k b * E l c * phi (GL i k l)))).
      { rewrite <- (ksum_l L). ext. rewrite <- (ksum_l L). ext. ring. }
      transitivity (E i e * ksum n (fun j => phi (g i j) * ksum n (fun k => om c j k * E k b))).
      2:{ rewrite <- (ksum_l L). ext. ring. }
      apply VmP; [reflexivity|]. unfold om.
      transitivity (ksum n (fun k => ksum n (fun l => ksum n (fun j => E k b * E l c * (phi (g i j) * phi (G j k l)))))).
      * ext. ext. rewrite (ksum_l L). apply VmP; [reflexivity|]. unfold GL. rewrite <- (phiP _ _ (gG LA n g gi HI i i0 i1 Hi)), phi_sum. ext.
        rewrite (cc_mul A B n phi X CC). reflexivity.
      * symmetry. transitivity (ksum n (fun j => ksum n (fun k => ksum n (fun l => E k b * E l c * (phi (g i j) * phi (G j k l)))))).
        { ext. rewrite <- (ksum_l L). ext. rewrite <- (ksum_r L), <- (ksum_l L). ext. ring. }
        rewrite (ksum_swap L). ext. apply (ksum_swap L).
Qed.
(** ** curvature *)
Let R := Riem n g gi. Let R' := Riem n g' gi'.
Lemma dom c d i j : (c < n)%nat -> kd c (om d i j) ==
  ksum n (fun k => ksum n (fun l => E l c * E k d * phi (kd l (G i j k)))) + ksum n (fun k => phi (G i j k) * kd c (E k d)).
Proof.
  intros Hc. unfold om. rewrite (kd_sum L), <- (ksum_add L). ext. rewrite (kd_mul B L), (chain c (G i j i0) Hc), <- (ksum_r L).
  apply VaP; [|reflexivity]. ext. ring.
Qed.
(** the curvature of the pulled-back connection matrices *)
Lemma curv_om c d i j : (c < n)%nat -> (d < n)%nat -> (i < n)%nat -> (j < n)%nat ->
  kd c (om d i j) - kd d (om c i j) + (ksum n (fun m => om c i m * om d m j) - ksum n (fun m => om d i m * om c m j))
  == ksum n (fun k => ksum n (fun l => E k c * E l d * phi (R i j k l))).
Proof.
  intros Hc Hd Hi Hj. rewrite !dom by assumption.
  rewrite (ksum_ext L n (fun k => phi (G i j k) * kd d (E k c)) (fun k => phi (G i j k) * kd c (E k d))) by (intros k Hk; rewrite (E_comm k d c); reflexivity).
  assert (W : forall c d, ksum n (fun m => om c i m * om d m j) == ksum n (fun k => ksum n (fun l => ksum n (fun m => E k c * E l d * (phi (G i m k) * phi (G m j l)))))).
  { intros c0 d0. transitivity (ksum n (fun m => ksum n (fun k => ksum n (fun l => E k c0 * E l d0 * (phi (G i m k) * phi (G m j l)))))).
    - ext. unfold om. rewrite <- (ksum_r L). ext. rewrite <- (ksum_l L). ext. ring.
    - rewrite (ksum_swap L). ext. apply (ksum_swap L). }
  rewrite (W c d), (W d c).
  assert (T1 : ksum n (fun k => ksum n (fun l => E l c * E k d * phi (kd l (G i j k)))) == ksum n (fun k => ksum n (fun l => E k c * E l d * phi (kd k (G i j l))))) by apply (ksum_swap L).
  assert (T2 : ksum n (fun k => ksum n (fun l => E l d * E k c * phi (kd l (G i j k)))) == ksum n (fun k => ksum n (fun l => E k c * E l d * phi (kd l (G i j k))))).
  { ext. ext. ring. }
  assert (T3 : ksum n (fun k => ksum n (fun l => ksum n (fun m => E k d * E l c * (phi (G i m k) * phi (G m j l))))) == ksum n (fun k => ksum n (fun l => ksum n (fun m => E k c * E l d * (phi (G i m l) * phi (G m j k)))))).
  { rewrite (ksum_swap L). ext. ext. ext. ring. }
  rewrite T1, T2, T3.
  transitivity (ksum n (fun k => ksum n (fun l => E k c * E l d * phi (kd k (G i j l)))) - ksum n (fun k => ksum n (fun l => E k c * E l d * phi (kd l (G i j k))))
    + (ksum n (fun k => ksum n (fun l => ksum n (fun m => E k c * E l d * (phi (G i m k) * phi (G m j l))))) - ksum n (fun k => ksum n (fun l => ksum n (fun m => E k c * E l d * (phi (G i m l) * phi (G m j k))))))); [ring|].
  rewrite <- !(ksum_sub L), <- (ksum_add L). ext. rewrite <- !(ksum_sub L), <- (ksum_add L). ext.
  unfold R, Riem. fold G. rewrite (cc_add A B n phi X CC), phi_sub, phi_sum.
  rewrite (ksum_ext L n (fun p => phi (G i p i0 * G p j i1 - G i p i1 * G p j i0)) (fun m => phi (G i m i0) * phi (G m j i1) - phi (G i m i1) * phi (G m j i0)))
    by (intros m Hm; rewrite phi_sub, !(cc_mul A B n phi X CC); reflexivity).
  rewrite !(ksum_l L), (ksum_sub L). ring.
Qed.
Lemma riemann_law i b c d : (i < n)%nat -> (b < n)%nat -> (c < n)%nat -> (d < n)%nat ->
  ksum n (fun a => E i a * R' a b c d) == ksum n (fun j => E j b * ksum n (fun k => ksum n (fun l => E k c * E l d * phi (R i j k l)))).
Proof.
  intros Hi Hb Hc Hd.
  assert (P : forall c d, (c < n)%nat -> (d < n)%nat ->
    ksum n (fun a => E i a * kd c (G' a b d)) + ksum n (fun a => E i a * ksum n (fun p => G' a p c * G' p b d))
    == kd c (kd d (E i b)) + (ksum n (fun j => kd c (om d i j) * E j b) + ksum n (fun j => om d i j * kd c (E j b)))
       + (ksum n (fun j => om c i j * kd d (E j b)) + ksum n (fun j => ksum n (fun m => om c i m * om d m j) * E j b))).
  { intros c0 d0 Hc0 Hd0.
    assert (P1 : ksum n (fun a => E i a * kd c0 (G' a b d0)) == kd c0 (F d0 i b) - ksum n (fun a => kd c0 (E i a) * G' a b d0)).
    { rewrite <- (VdP c0 _ _ (connection_law i b d0 Hi Hb Hd0)), (kd_sum L), <- (ksum_sub L). ext. rewrite (kd_mul B L). ring. }
    assert (P2 : ksum n (fun a => E i a * ksum n (fun p => G' a p c0 * G' p b d0)) == ksum n (fun p => F c0 i p * G' p b d0)).
    { rewrite sum3, (ksum_swap L). ext. rewrite <- (connection_law i i0 c0 Hi Hi0 Hc0), <- (ksum_r L). ext. ring. }
    assert (P3 : ksum n (fun p => F c0 i p * G' p b d0) == ksum n (fun p => kd c0 (E i p) * G' p b d0) + ksum n (fun j => om c0 i j * F d0 j b)).
    { unfold F at 1. rewrite (ksum_ext L n _ (fun p => kd c0 (E i p) * G' p b d0 + ksum n (fun j => om c0 i j * E j p * G' p b d0))).
      2:{ intros p Hp. rewrite (ksum_r L). ring. }
      rewrite (ksum_add L). apply VaP; [reflexivity|]. rewrite (ksum_swap L). ext.
      rewrite <- (connection_law i0 b d0 Hi0 Hb Hd0), <- (ksum_l L). ext. ring. }
    assert (P4 : kd c0 (F d0 i b) == kd c0 (kd d0 (E i b)) + (ksum n (fun j => kd c0 (om d0 i j) * E j b) + ksum n (fun j => om d0 i j * kd c0 (E j b)))).
    { unfold F. rewrite (kd_add B L), (kd_sum L), <- (ksum_add L). apply VaP; [reflexivity|]. ext. apply (kd_mul B L). }
    assert (P5 : ksum n (fun j => om c0 i j * F d0 j b) == ksum n (fun j => om c0 i j * kd d0 (E j b)) + ksum n (fun j => ksum n (fun m => om c0 i m * om d0 m j) * E j b)).
    { unfold F. rewrite (ksum_ext L n _ (fun j => om c0 i j * kd d0 (E j b) + ksum n (fun k => om c0 i j * om d0 j k * E k b))).
      2:{ intros j Hj. rewrite (ksum_ext L n (fun k => om c0 i j * om d0 j k * E k b) (fun k => om c0 i j * (om d0 j k * E k b))) by (intros; ring). rewrite (ksum_l L). ring. }
      rewrite (ksum_add L). apply VaP; [reflexivity|]. rewrite (ksum_swap L). ext. rewrite (ksum_r L). reflexivity. }
    rewrite P1, P2, P3, P4, P5. ring. }
  transitivity ((ksum n (fun a => E i a * kd c (G' a b d)) + ksum n (fun a => E i a * ksum n (fun p => G' a p c * G' p b d)))
     - (ksum n (fun a => E i a * kd d (G' a b c)) + ksum n (fun a => E i a * ksum n (fun p => G' a p d * G' p b c)))).
  { rewrite <- !(ksum_add L), <- (ksum_sub L). ext. unfold R', Riem. fold G'. rewrite (ksum_sub L). ring. }
  rewrite (P c d Hc Hd), (P d c Hd Hc).
  transitivity (ksum n (fun j => (kd c (om d i j) - kd d (om c i j) + (ksum n (fun m => om c i m * om d m j) - ksum n (fun m => om d i m * om c m j))) * E j b)).
  { rewrite (ksum_ext L n (fun j => (kd c (om d i j) - kd d (om c i j) + (ksum n (fun m => om c i m * om d m j) - ksum n (fun m => om d i m * om c m j))) * E j b)
      (fun j => (kd c (om d i j) * E j b - kd d (om c i j) * E j b) + (ksum n (fun m => om c i m * om d m j) * E j b - ksum n (fun m => om d i m * om c m j) * E j b))) by (intros; ring).
    rewrite (ksum_add L), !(ksum_sub L). rewrite (kd_comm B L c d). ring. }
  ext. rewrite curv_om by assumption. ring.
Qed.
(** R_abcd: four Jacobian factors *)
Lemma riemann_lowered a b c d : (a < n)%nat -> (b < n)%nat -> (c < n)%nat -> (d < n)%nat ->
  RiemL n g' gi' a b c d == ksum n (fun i => ksum n (fun j => ksum n (fun k => ksum n (fun l => E i a * E j b * E k c * E l d * phi (RiemL n g gi i j k l))))).
Proof.
  intros Ha Hb Hc Hd. unfold RiemL. fold R R'.
  transitivity (ksum n (fun i => ksum n (fun m => E i a * phi (g i m) * ksum n (fun e => E m e * R' e b c d)))).
  - transitivity (ksum n (fun e => ksum n (fun i => ksum n (fun m => E i a * E m e * phi (g i m) * R' e b c d)))).
    + ext. rewrite (HT' a i Ha Hi), <- (ksum_r L). ext. rewrite <- (ksum_r L). reflexivity.
    + rewrite (ksum_swap L). ext. rewrite (ksum_swap L). ext. rewrite <- (ksum_l L). ext. ring.
  - ext. transitivity (ksum n (fun m => ksum n (fun j => ksum n (fun k => ksum n (fun l => E i a * E j b * E k c * E l d * (phi (g i m) * phi (R m j k l))))))).
    + ext. rewrite riemann_law by assumption. rewrite <- (ksum_l L). ext. rewrite <- !(ksum_l L). ext. rewrite <- !(ksum_l L). ext. ring.
    + rewrite (ksum_swap L). ext. rewrite (ksum_swap L). ext. rewrite (ksum_swap L). ext. rewrite (ksum_l L). apply VmP; [reflexivity|].
      rewrite phi_sum. ext. rewrite (cc_mul A B n phi X CC). reflexivity.
Qed.
Lemma EY_delta a b : (a < n)%nat -> (b < n)%nat -> ksum n (fun i => Y a i * E i b) == kdelta a b.
Proof. intros Ha Hb. apply (proj2 (HY a b Ha Hb)). Qed.
Lemma YE (f : nat -> B) a : (a < n)%nat -> ksum n (fun i => Y a i * ksum n (fun b => E i b * f b)) == f a.
Proof.
  intros Ha. rewrite sum3, (ksum_swap L). transitivity (ksum n (fun b => kdelta a b * f b)); [|apply (ksum_delta L); exact Ha].
  ext. rewrite <- (EY_delta a i Ha Hi), <- (ksum_r L). ext. ring.
Qed.
(** Ricci: two Jacobian factors *)
Lemma ricci_law b d : (b < n)%nat -> (d < n)%nat ->
  Ric n g' gi' b d == ksum n (fun j => ksum n (fun l => E j b * E l d * phi (Ric n g gi j l))).
Proof.
  intros Hb Hd. unfold Ric. fold R R'.
  transitivity (ksum n (fun a => ksum n (fun i => Y a i * ksum n (fun e => E i e * R' e b a d)))).
  { ext. rewrite (YE (fun e => R' e b i d) i Hi). reflexivity. }
  transitivity (ksum n (fun i => ksum n (fun j => ksum n (fun k => ksum n (fun l => ksum n (fun a => Y a i * E k a) * (E j b * E l d * phi (R i j k l))))))).
  { rewrite (ksum_swap L). ext.
    transitivity (ksum n (fun a => ksum n (fun j => ksum n (fun k => ksum n (fun l => Y a i * E k a * (E j b * E l d * phi (R i j k l))))))).
    - ext. rewrite riemann_law by assumption. rewrite <- (ksum_l L). ext. rewrite <- !(ksum_l L). ext. rewrite <- !(ksum_l L). ext. ring.
    - rewrite (ksum_swap L). ext. rewrite (ksum_swap L). ext. rewrite (ksum_swap L). ext. apply (ksum_r L). }
  transitivity (ksum n (fun i => ksum n (fun j => ksum n (fun l => ksum n (fun k => kdelta i k * (E j b * E l d * phi (R i j k l))))))).
  { ext. ext. rewrite (ksum_swap L). ext. ext. apply VmP; [|reflexivity].
    rewrite (kdelta_sym i i2), <- (proj1 (HY i2 i Hi2 Hi)). ext. ring. }
  transitivity (ksum n (fun i => ksum n (fun j => ksum n (fun l => E j b * E l d * phi (R i j i l))))).
  { ext. ext. ext. apply (ksum_delta L n i (fun k => E i0 b * E i1 d * phi (R i i0 k i1)) Hi). }
  rewrite (ksum_swap L). ext. rewrite (ksum_swap L). ext. rewrite (ksum_l L), phi_sum. reflexivity.
Qed.
(** the inverse metric *)
Lemma gi'_law a b : (a < n)%nat -> (b < n)%nat -> gi' a b == ksum n (fun i => ksum n (fun j => Y a i * Y b j * phi (gi i j))).
Proof.
  intros Ha Hb.
  set (h := fun a b => ksum n (fun i => ksum n (fun j => Y a i * Y b j * phi (gi i j)))).
  assert (K : forall c b, (c < n)%nat -> (b < n)%nat -> ksum n (fun a => g' c a * h a b) == kdelta c b).
  { intros c0 b0 Hc Hb0.
    transitivity (ksum n (fun i => ksum n (fun k => ksum n (fun l => ksum n (fun j => ksum n (fun a => E j a * Y a k) * (E i c0 * Y b0 l * (phi (g i j) * phi (gi k l)))))))).
    { transitivity (ksum n (fun a => ksum n (fun i => ksum n (fun j => ksum n (fun k => ksum n (fun l => E j a * Y a k * (E i c0 * Y b0 l * (phi (g i j) * phi (gi k l))))))))).
      - ext. rewrite (HT' c0 i Hc Hi), <- (ksum_r L). ext. rewrite <- (ksum_r L). ext. unfold h. rewrite <- (ksum_l L). ext. rewrite <- (ksum_l L). ext. ring.
      - rewrite (ksum_swap L). ext.
        transitivity (ksum n (fun a => ksum n (fun k => ksum n (fun l => ksum n (fun j => E j a * Y a k * (E i c0 * Y b0 l * (phi (g i j) * phi (gi k l)))))))).
        + ext. rewrite (ksum_swap L). ext. apply (ksum_swap L).
        + rewrite (ksum_swap L). ext. rewrite (ksum_swap L). ext. rewrite (ksum_swap L). ext. apply (ksum_r L). }
    transitivity (ksum n (fun i => ksum n (fun l => E i c0 * Y b0 l * ksum n (fun k => phi (g i k) * phi (gi k l))))).
    { ext. rewrite (ksum_swap L). ext. rewrite <- (ksum_l L). ext.
      transitivity (ksum n (fun j => (E i c0 * Y b0 i0 * (phi (g i j) * phi (gi i1 i0))) * kdelta j i1)).
      - ext. rewrite (proj1 (HY i2 i1 Hi2 Hi1)). ring.
      - apply (ksum_delta_r L n i1 (fun j => E i c0 * Y b0 i0 * (phi (g i j) * phi (gi i1 i0))) Hi1). }
    transitivity (ksum n (fun i => ksum n (fun l => kdelta i l * (E i c0 * Y b0 l)))).
    { ext. ext. rewrite <- (phi_delta i i0), <- (phiP _ _ (proj1 (HI i i0 Hi Hi0))), phi_sum.
      rewrite (ksum_ext L n (fun i1 => phi (g i i1 * gi i1 i0)) (fun k => phi (g i k) * phi (gi k i0))) by (intros; apply (cc_mul A B n phi X CC)). ring. }
    transitivity (ksum n (fun i => Y b0 i * E i c0)).
    { ext. rewrite (ksum_delta L n i (fun l => E i c0 * Y b0 l) Hi). ring. }
    rewrite (EY_delta b0 c0 Hb0 Hc). rewrite (kdelta_sym b0 c0). reflexivity. }
  transitivity (ksum n (fun m => gi' a m * kdelta m b)); [symmetry; apply (ksum_delta_r L n b (fun m => gi' a m) Hb)|].
  transitivity (ksum n (fun m => gi' a m * ksum n (fun e => g' m e * h e b))).
  { ext. rewrite K by assumption. reflexivity. }
  apply (raise L n g' gi' HI' a (fun e => h e b) Ha).
Qed.
Lemma trace_law (T : nat -> nat -> A) (T' : nat -> nat -> B) :
  (forall b d, (b < n)%nat -> (d < n)%nat -> T' b d == ksum n (fun j => ksum n (fun l => E j b * E l d * phi (T j l)))) ->
  trace2 n gi' T' == phi (trace2 n gi T).
Proof.
  intros H. unfold trace2. rewrite phi_sum.
  transitivity (ksum n (fun b => ksum n (fun d => ksum n (fun p => ksum n (fun q => ksum n (fun j => ksum n (fun l => (Y b p * E j b) * (Y d q * E l d) * (phi (gi p q) * phi (T j l))))))))).
  { ext. ext. rewrite (H i i0 Hi Hi0), (gi'_law i i0 Hi Hi0), <- (ksum_r L). ext. rewrite <- (ksum_r L). ext. rewrite <- (ksum_l L). ext. rewrite <- (ksum_l L). ext. ring. }
  transitivity (ksum n (fun p => ksum n (fun q => ksum n (fun j => ksum n (fun l => ksum n (fun b => E j b * Y b p) * ksum n (fun d => E l d * Y d q) * (phi (gi p q) * phi (T j l))))))).
  { transitivity (ksum n (fun b => ksum n (fun p => ksum n (fun q => ksum n (fun j => ksum n (fun l => ksum n (fun d => (E j b * Y b p) * (E l d * Y d q) * (phi (gi p q) * phi (T j l))))))))).
    - ext. rewrite (ksum_swap L). ext. rewrite (ksum_swap L). ext. rewrite (ksum_swap L). ext. rewrite (ksum_swap L). ext. ext. ring.
    - rewrite (ksum_swap L). ext. rewrite (ksum_swap L). ext. rewrite (ksum_swap L). ext. rewrite (ksum_swap L). ext.
      rewrite (ksum_ext L n _ (fun b => (E i1 b * Y b i) * (ksum n (fun d => E i2 d * Y d i0) * (phi (gi i i0) * phi (T i1 i2))))).
      + rewrite (ksum_r L). ring.
      + intros b Hb. rewrite <- (ksum_r L), <- (ksum_l L). ext. ring. }
  ext. rewrite phi_sum. ext.
  transitivity (ksum n (fun j => ksum n (fun l => kdelta j i * kdelta l i0 * (phi (gi i i0) * phi (T j l))))).
  { ext. ext. rewrite (proj1 (HY i1 i Hi1 Hi)), (proj1 (HY i2 i0 Hi2 Hi0)). reflexivity. }
  transitivity (ksum n (fun j => (phi (gi i i0) * phi (T j i0)) * kdelta j i)).
  { ext. transitivity (ksum n (fun l => (kdelta i1 i * (phi (gi i i0) * phi (T i1 l))) * kdelta l i0)); [ext; ring|].
    rewrite (ksum_delta_r L n i0 (fun l => kdelta i1 i * (phi (gi i i0) * phi (T i1 l))) Hi0). ring. }
  rewrite (ksum_delta_r L n i (fun j => phi (gi i i0) * phi (T j i0)) Hi). rewrite (cc_mul A B n phi X CC). reflexivity.
Qed.
Lemma scalar_law : Scal n g' gi' == phi (Scal n g gi).
Proof. exact (trace_law (Ric n g gi) (Ric n g' gi') ricci_law). Qed.
Lemma lin2 (S T : nat -> nat -> A) (S' T' : nat -> nat -> B) (u v : A) (u' v' : B) : u' == phi u -> v' == phi v ->
  (forall b d, (b < n)%nat -> (d < n)%nat -> S' b d == ksum n (fun j => ksum n (fun l => E j b * E l d * phi (S j l)))) ->
  (forall b d, (b < n)%nat -> (d < n)%nat -> T' b d == ksum n (fun j => ksum n (fun l => E j b * E l d * phi (T j l)))) ->
  forall b d, (b < n)%nat -> (d < n)%nat -> u' * S' b d - v' * T' b d == ksum n (fun j => ksum n (fun l => E j b * E l d * phi (u * S j l - v * T j l))).
Proof.
  intros Hu Hv HS1 HT1 b d Hb Hd. rewrite (HS1 b d Hb Hd), (HT1 b d Hb Hd), Hu, Hv, <- !(ksum_l L), <- (ksum_sub L). ext.
  rewrite <- !(ksum_l L), <- (ksum_sub L). ext. rewrite phi_sub, !(cc_mul A B n phi X CC). ring.
Qed.
Lemma einstein_law b d : (b < n)%nat -> (d < n)%nat ->
  Ein n g' gi' b d == ksum n (fun j => ksum n (fun l => E j b * E l d * phi (Ein n g gi j l))).
Proof.
  intros Hb Hd. transitivity (1 * Ric n g' gi' b d - (kinv 2 * Scal n g' gi') * g' b d); [unfold Ein; ring|].
  rewrite (lin2 (Ric n g gi) g (Ric n g' gi') g' 1 (kinv 2 * Scal n g gi)); try assumption.
  - ext. ext. apply VmP; [reflexivity|]. apply phiP. unfold Ein. ring.
  - symmetry. apply (cc_1 A B n phi X CC).
  - rewrite (cc_mul A B n phi X CC), (phi_inv 2), scalar_law by discriminate. reflexivity.
  - exact ricci_law.
Qed.
Lemma schouten_law b d : (3 <= n)%nat -> (b < n)%nat -> (d < n)%nat ->
  Sch n g' gi' b d == ksum n (fun j => ksum n (fun l => E j b * E l d * phi (Sch n g gi j l))).
Proof.
  intros Hn Hb Hd. transitivity (kinv (n - 2) * Ric n g' gi' b d - (kinv (n - 2) * (kinv (2 * (n - 1)) * Scal n g' gi')) * g' b d); [unfold Sch; ring|].
  rewrite (lin2 (Ric n g gi) g (Ric n g' gi') g' (kinv (n - 2)) (kinv (n - 2) * (kinv (2 * (n - 1)) * Scal n g gi))); try assumption.
  - ext. ext. apply VmP; [reflexivity|]. apply phiP. unfold Sch. ring.
  - symmetry. apply phi_inv. lia.
  - rewrite !(cc_mul A B n phi X CC), !phi_inv, scalar_law by lia. reflexivity.
  - exact ricci_law.
Qed.
(** four-index transformation law *)
Definition tens4 (T : nat -> nat -> nat -> nat -> A) (T' : nat -> nat -> nat -> nat -> B) : Prop :=
  forall a b c d, (a < n)%nat -> (b < n)%nat -> (c < n)%nat -> (d < n)%nat ->
   T' a b c d == ksum n (fun i => ksum n (fun j => ksum n (fun k => ksum n (fun l => E i a * E j b * E k c * E l d * phi (T i j k l))))).
Lemma tens4_sub S T S' T' : tens4 S S' -> tens4 T T' -> tens4 (fun i j k l => S i j k l - T i j k l) (fun i j k l => S' i j k l - T' i j k l).
Proof.
  intros H1 H2 a b c d Ha Hb Hc Hd. rewrite (H1 a b c d), (H2 a b c d) by assumption.
  rewrite <- (ksum_sub L). ext. rewrite <- (ksum_sub L). ext. rewrite <- (ksum_sub L). ext. rewrite <- (ksum_sub L). ext. rewrite phi_sub. ring.
Qed.
Lemma tens4_add S T S' T' : tens4 S S' -> tens4 T T' -> tens4 (fun i j k l => S i j k l + T i j k l) (fun i j k l => S' i j k l + T' i j k l).
Proof.
  intros H1 H2 a b c d Ha Hb Hc Hd. rewrite (H1 a b c d), (H2 a b c d) by assumption.
  rewrite <- (ksum_add L). ext. rewrite <- (ksum_add L). ext. rewrite <- (ksum_add L). ext. rewrite <- (ksum_add L). ext. rewrite (cc_add A B n phi X CC). ring.
Qed.
Definition tens2 (T : nat -> nat -> A) (T' : nat -> nat -> B) : Prop := forall b d, (b < n)%nat -> (d < n)%nat -> T' b d == ksum n (fun j => ksum n (fun l => E j b * E l d * phi (T j l))).
(** the product of two 2-tensors, indices (1,3)(2,4), (2,4)(1,3), (1,4)(2,3), (2,3)(1,4) *)
Lemma prod_13 P Q P' Q' : tens2 P P' -> tens2 Q Q' -> tens4 (fun i k l m => P i l * Q k m) (fun i k l m => P' i l * Q' k m).
Proof.
  intros H1 H2 a b c d Ha Hb Hc Hd. rewrite (H1 a c), (H2 b d) by assumption.
  rewrite <- (ksum_r L). ext. transitivity (ksum n (fun k => ksum n (fun j => ksum n (fun l => E i a * E j b * E k c * E l d * phi (P i k * Q j l))))).
  - rewrite <- (ksum_r L). ext. rewrite <- (ksum_l L). ext. rewrite <- (ksum_l L). ext. rewrite (cc_mul A B n phi X CC). ring.
  - apply (ksum_swap L).
Qed.
Lemma prod_14 P Q P' Q' : tens2 P P' -> tens2 Q Q' -> tens4 (fun i k l m => P i m * Q k l) (fun i k l m => P' i m * Q' k l).
Proof.
  intros H1 H2 a b c d Ha Hb Hc Hd. rewrite (H1 a d), (H2 b c) by assumption.
  rewrite <- (ksum_r L). ext. transitivity (ksum n (fun l => ksum n (fun j => ksum n (fun k => E i a * E j b * E k c * E l d * phi (P i l * Q j k))))).
  - rewrite <- (ksum_r L). ext. rewrite <- (ksum_l L). ext. rewrite <- (ksum_l L). ext. rewrite (cc_mul A B n phi X CC). ring.
  - rewrite (ksum_swap L). ext. apply (ksum_swap L).
Qed.
Lemma prod_24 P Q P' Q' : tens2 P P' -> tens2 Q Q' -> tens4 (fun i k l m => P k m * Q i l) (fun i k l m => P' k m * Q' i l).
Proof.
  intros H1 H2 a b c d Ha Hb Hc Hd. transitivity (Q' a c * P' b d); [ring|]. rewrite (prod_13 Q P Q' P' H2 H1 a b c d Ha Hb Hc Hd).
  ext. ext. ext. ext. apply VmP; [reflexivity|]. apply phiP. ring.
Qed.
Lemma prod_23 P Q P' Q' : tens2 P P' -> tens2 Q Q' -> tens4 (fun i k l m => P k l * Q i m) (fun i k l m => P' k l * Q' i m).
Proof.
  intros H1 H2 a b c d Ha Hb Hc Hd. transitivity (Q' a d * P' b c); [ring|]. rewrite (prod_14 Q P Q' P' H2 H1 a b c d Ha Hb Hc Hd).
  ext. ext. ext. ext. apply VmP; [reflexivity|]. apply phiP. ring.
Qed.
Lemma weyl_law : (3 <= n)%nat -> tens4 (Wey n g gi) (Wey n g' gi').
Proof.
  intros Hn.
  assert (HP : tens2 (Sch n g gi) (Sch n g' gi')) by (intros b d; apply schouten_law; exact Hn).
  assert (HG : tens2 g g') by exact HT'.
  assert (K : tens4 (KN g (Sch n g gi)) (KN g' (Sch n g' gi'))).
  { unfold KN. apply tens4_sub; [apply tens4_sub; [apply tens4_add|]|].
    - exact (prod_13 _ _ _ _ HP HG).
    - exact (prod_24 _ _ _ _ HP HG).
    - exact (prod_14 _ _ _ _ HP HG).
    - exact (prod_23 _ _ _ _ HP HG). }
  assert (RL : tens4 (RiemL n g gi) (RiemL n g' gi')) by (intros a b c d; apply riemann_lowered).
  assert (M := tens4_sub _ _ _ _ RL K). intros a b c d Ha Hb Hc Hd.
  transitivity (RiemL n g' gi' a b c d - KN g' (Sch n g' gi') a b c d).
  { rewrite (Riem_decomp L n g' gi' a b c d Hn). ring. }
  rewrite (M a b c d Ha Hb Hc Hd). ext. ext. ext. ext. apply VmP; [reflexivity|]. apply phiP.
  rewrite (Riem_decomp LA n g gi i i0 i1 i2 Hn). ring.
Qed.
End Cov.
