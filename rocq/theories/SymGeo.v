(** Pseudo-Riemannian geometry over an abstract differential ring, in any dimension n: textbook definitions (the
    specification of C44-C50) and their classical identities. *)
From Coq Require Import List Arith Lia Setoid Morphisms Ring.
From Verif Require Import SymAlg.
Import ListNotations.

Section Defs.
Context {A : dops}.
Local Open Scope K_scope.
Variables (n : nat) (g gi : nat -> nat -> A).
Definition symmetric_metric : Prop := forall i j, (i < n)%nat -> (j < n)%nat -> g i j == g j i.
Definition inverse_metrics : Prop := forall i j, (i < n)%nat -> (j < n)%nat ->
  ksum n (fun m => g i m * gi m j) == kdelta i j /\ ksum n (fun m => gi i m * g m j) == kdelta i j.
(** Gamma^i_jk = 1/2 g^im (d_k g_mj + d_j g_mk - d_m g_jk) *)
Definition Gam (i j k : nat) : A := kinv 2 * ksum n (fun m => gi i m * (kd k (g m j) + kd j (g m k) - kd m (g j k))).
(** Gamma_t,jk *)
Definition GamL (t j k : nat) : A := kinv 2 * (kd k (g t j) + kd j (g t k) - kd t (g j k)).
(** R^t_srv *)
Definition Riem (t s r v : nat) : A :=
  kd r (Gam t s v) - kd v (Gam t s r) + ksum n (fun p => Gam t p r * Gam p s v - Gam t p v * Gam p s r).
(** R_tsrv *)
Definition RiemL (t s r v : nat) : A := ksum n (fun m => g t m * Riem m s r v).
(** R_sv = R^t_stv *)
Definition Ric (s v : nat) : A := ksum n (fun t => Riem t s t v).
(** R = g^sv R_sv *)
Definition Scal : A := ksum n (fun s => ksum n (fun v => gi s v * Ric s v)).
Definition Ein (s v : nat) : A := Ric s v - kinv 2 * g s v * Scal.
(** covariant derivative of a symmetric or general (0,2) tensor, nabla_a T_sv *)
Definition nab2 (T : nat -> nat -> A) (a s v : nat) : A :=
  kd a (T s v) - ksum n (fun m => Gam m s a * T m v) - ksum n (fun m => Gam m v a * T s m).
(** divergence g^ts nabla_t T_sa *)
Definition div2 (T : nat -> nat -> A) (a : nat) : A := ksum n (fun t => ksum n (fun s => gi t s * nab2 T t s a)).
(** nabla_a R^t_srv *)
Definition nabR (a t s r v : nat) : A :=
  kd a (Riem t s r v) + ksum n (fun m => Gam t m a * Riem m s r v) - ksum n (fun m => Gam m s a * Riem t m r v)
  - ksum n (fun m => Gam m r a * Riem t s m v) - ksum n (fun m => Gam m v a * Riem t s r m).
(** trace g^sv T_sv *)
Definition trace2 (T : nat -> nat -> A) : A := ksum n (fun s => ksum n (fun v => gi s v * T s v)).
End Defs.

Section Thm.
Context {A : dops} (L : dlaws A).
Local Open Scope K_scope.
Local Instance GE : Equivalence (@keq A) := keq_equiv A L.
Local Instance GaP : Proper (keq ==> keq ==> keq) (@kadd A) := kadd_p A L.
Local Instance GmP : Proper (keq ==> keq ==> keq) (@kmul A) := kmul_p A L.
Local Instance GsP : Proper (keq ==> keq ==> keq) (@ksub A) := ksub_p A L.
Local Instance GoP : Proper (keq ==> keq) (@kopp A) := kopp_p A L.
Local Instance GdP i : Proper (keq ==> keq) (@kd A i) := kd_p A L i.
Add Ring Gring : (k_ring A L).
Variables (n : nat) (g gi : nat -> nat -> A).
Hypotheses (HS : symmetric_metric n g) (HI : inverse_metrics n g gi).
Let G := Gam n g gi. Let GL := GamL g. Let R := Riem n g gi. Let RL := RiemL n g gi.
Notation "'S_' f" := (ksum n f) (at level 10, f at level 9).
Ltac ext := apply (ksum_ext L); let i := fresh "i" in let Hi := fresh "Hi" in intros i Hi.

Lemma gi_sym i j : (i < n)%nat -> (j < n)%nat -> gi i j == gi j i.
Proof.
  intros Hi Hj.
  transitivity (ksum n (fun m => ksum n (fun p => gi i p * g p m) * gi j m)).
  - transitivity (ksum n (fun p => gi i p * ksum n (fun m => gi j m * g m p))).
    + transitivity (ksum n (fun p => gi i p * kdelta j p)).
      * symmetry. rewrite (ksum_ext L n _ (fun p => kdelta j p * gi i p)) by (intros; ring). apply (ksum_delta L). exact Hj.
      * ext. rewrite (proj2 (HI j i0 Hj Hi0)). reflexivity.
    + transitivity (ksum n (fun p => ksum n (fun m => gi i p * g p m * gi j m))).
      * ext. rewrite <- (ksum_l L). ext. rewrite (HS i1 i0 Hi1 Hi0). ring.
      * rewrite (ksum_swap L). ext. rewrite (ksum_r L). reflexivity.
  - transitivity (ksum n (fun m => kdelta i m * gi j m)); [ext; rewrite (proj2 (HI i i0 Hi Hi0)); reflexivity|]. apply (ksum_delta L). exact Hi.
Qed.
Lemma Gam_sym i j k : (j < n)%nat -> (k < n)%nat -> G i j k == G i k j.
Proof.
  intros Hj Hk. unfold G, Gam. apply GmP; [reflexivity|]. ext. rewrite (kd_p A L i0 _ _ (HS j k Hj Hk)). ring.
Qed.
Lemma GamL_sym t j k : (j < n)%nat -> (k < n)%nat -> GL t j k == GL t k j.
Proof. intros Hj Hk. unfold GL, GamL. rewrite (kd_p A L t _ _ (HS j k Hj Hk)). ring. Qed.
Lemma lower t (F : nat -> A) : (t < n)%nat -> ksum n (fun m => g t m * ksum n (fun p => gi m p * F p)) == F t.
Proof.
  intros Ht. transitivity (ksum n (fun p => ksum n (fun m => g t m * gi m p) * F p)).
  - transitivity (ksum n (fun m => ksum n (fun p => g t m * gi m p * F p))).
    + ext. rewrite <- (ksum_l L). ext. ring.
    + rewrite (ksum_swap L). ext. apply (ksum_r L).
  - rewrite (ksum_ext L n _ (fun p => kdelta t p * F p)); [apply (ksum_delta L); exact Ht|]. intros p Hp. rewrite (proj1 (HI t p Ht Hp)). reflexivity.
Qed.
Lemma raise t (F : nat -> A) : (t < n)%nat -> ksum n (fun m => gi t m * ksum n (fun p => g m p * F p)) == F t.
Proof.
  intros Ht. transitivity (ksum n (fun p => ksum n (fun m => gi t m * g m p) * F p)).
  - transitivity (ksum n (fun m => ksum n (fun p => gi t m * g m p * F p))).
    + ext. rewrite <- (ksum_l L). ext. ring.
    + rewrite (ksum_swap L). ext. apply (ksum_r L).
  - rewrite (ksum_ext L n _ (fun p => kdelta t p * F p)); [apply (ksum_delta L); exact Ht|]. intros p Hp. rewrite (proj2 (HI t p Ht Hp)). reflexivity.
Qed.
Lemma gG t j k : (t < n)%nat -> ksum n (fun m => g t m * G m j k) == GL t j k.
Proof.
  intros Ht. unfold G, Gam, GL, GamL.
  transitivity (kinv 2 * ksum n (fun m => g t m * ksum n (fun p => gi m p * (kd k (g p j) + kd j (g p k) - kd p (g j k))))).
  - rewrite <- (ksum_l L). ext. ring.
  - rewrite lower by exact Ht. reflexivity.
Qed.
(** Gamma_i,jk + Gamma_j,ik = d_k g_ij *)
Lemma compat i j k : (i < n)%nat -> (j < n)%nat -> (k < n)%nat -> GL i j k + GL j i k == kd k (g i j).
Proof.
  intros Hi Hj Hk. unfold GL, GamL.
  rewrite (kd_p A L k _ _ (HS j i Hj Hi)), (kd_p A L j _ _ (HS i k Hi Hk)), (kd_p A L i _ _ (HS j k Hj Hk)).
  transitivity (kinv 2 * kd k (g i j) + kinv 2 * kd k (g i j)); [|apply (half_half L)].
  rewrite (kd_p A L j _ _ (HS k i Hk Hi)), (kd_p A L i _ _ (HS k j Hk Hj)).
  rewrite (kd_p A L j _ _ (HS i k Hi Hk)), (kd_p A L i _ _ (HS j k Hj Hk)). ring.
Qed.
(** metric compatibility: nabla_k g_ij = 0 *)
Lemma nabla_g k i j : (i < n)%nat -> (j < n)%nat -> (k < n)%nat -> nab2 n g gi g k i j == 0.
Proof.
  intros Hi Hj Hk. unfold nab2. rewrite <- (compat i j k Hi Hj Hk). fold G.
  rewrite (ksum_ext L n (fun m => G m i k * g m j) (fun m => g j m * G m i k)) by (intros m Hm; rewrite (HS m j Hm Hj); ring).
  rewrite (ksum_ext L n (fun m => G m j k * g i m) (fun m => g i m * G m j k)) by (intros; ring).
  rewrite !gG by assumption. ring.
Qed.
Lemma GG_swap t r s v : ksum n (fun m => GL m t r * G m s v) == ksum n (fun m => G m t r * GL m s v).
Proof.
  transitivity (ksum n (fun m => ksum n (fun p => g m p * G p t r * G m s v))).
  - ext. rewrite <- (gG i t r Hi). rewrite <- (ksum_r L). reflexivity.
  - rewrite (ksum_swap L). ext. rewrite <- (gG i s v Hi). rewrite <- (ksum_l L). ext. rewrite (HS i0 i Hi0 Hi). ring.
Qed.
Lemma RL_formula t s r v : (t < n)%nat -> (r < n)%nat -> (v < n)%nat ->
  RL t s r v == kd r (GL t s v) - kd v (GL t s r) - ksum n (fun m => GL m t r * G m s v) + ksum n (fun m => GL m t v * G m s r).
Proof.
  intros Ht Hr Hv.
  assert (P : forall a b, (a < n)%nat -> ksum n (fun m => g t m * kd a (G m s b)) ==
      kd a (GL t s b) - ksum n (fun m => GL t m a * G m s b) - ksum n (fun m => GL m t a * G m s b)).
  { intros a b Ha. rewrite <- (kd_p A L a _ _ (gG t s b Ht)). rewrite (kd_sum L).
    rewrite (ksum_ext L n (fun j => kd a (g t j * G j s b)) (fun m => (GL t m a * G m s b + GL m t a * G m s b) + g t m * kd a (G m s b))).
    - rewrite !(ksum_add L). ring.
    - intros m Hm. rewrite (kd_mul A L). rewrite <- (compat t m a Ht Hm Ha). ring. }
  assert (Q : forall a b, ksum n (fun m => g t m * ksum n (fun p => G m p a * G p s b)) == ksum n (fun p => GL t p a * G p s b)).
  { intros a b. transitivity (ksum n (fun p => ksum n (fun m => g t m * G m p a) * G p s b)).
    - transitivity (ksum n (fun m => ksum n (fun p => g t m * G m p a * G p s b))).
      + ext. rewrite <- (ksum_l L). ext. ring.
      + rewrite (ksum_swap L). ext. apply (ksum_r L).
    - ext. rewrite gG by exact Ht. reflexivity. }
  unfold RL, RiemL, Riem. fold G.
  rewrite (ksum_ext L n _ (fun m => (g t m * kd r (G m s v) - g t m * kd v (G m s r))
      + (g t m * ksum n (fun p => G m p r * G p s v) - g t m * ksum n (fun p => G m p v * G p s r)))).
  - rewrite (ksum_add L), !(ksum_sub L), !P, !Q by assumption. ring.
  - intros m Hm. rewrite (ksum_sub L). ring.
Qed.

(** ** symmetries of the curvature *)
Lemma R_anti t s r v : R t s r v == - R t s v r.
Proof.
  unfold R, Riem. rewrite !(ksum_sub L). ring.
Qed.
Lemma RL_anti34 t s r v : RL t s r v == - RL t s v r.
Proof. unfold RL, RiemL. fold R. rewrite <- (ksum_opp L). ext. rewrite R_anti. ring. Qed.
Lemma R_bianchi1 t s r v : (s < n)%nat -> (r < n)%nat -> (v < n)%nat -> R t s r v + R t r v s + R t v s r == 0.
Proof.
  intros Hs Hr Hv. unfold R, Riem. fold G. rewrite !(ksum_sub L).
  assert (E : forall a p q, (p < n)%nat -> (q < n)%nat -> ksum n (fun m => G t m a * G m p q) == ksum n (fun m => G t m a * G m q p))
    by (intros; ext; rewrite (Gam_sym i p q) by assumption; reflexivity).
  rewrite (E r v s Hv Hs), (E v r s Hr Hs), (E s v r Hv Hr).
  rewrite (kd_p A L v _ _ (Gam_sym t r s Hr Hs)), (kd_p A L r _ _ (Gam_sym t v s Hv Hs)), (kd_p A L s _ _ (Gam_sym t v r Hv Hr)). ring.
Qed.
Lemma RL_bianchi1 t s r v : (s < n)%nat -> (r < n)%nat -> (v < n)%nat -> RL t s r v + RL t r v s + RL t v s r == 0.
Proof.
  intros Hs Hr Hv. unfold RL, RiemL. fold R. rewrite <- !(ksum_add L). apply (ksum_zero L). intros m Hm.
  transitivity (g t m * (R m s r v + R m r v s + R m v s r)); [ring|]. rewrite R_bianchi1 by assumption. ring.
Qed.
Lemma RL_anti12 t s r v : (t < n)%nat -> (s < n)%nat -> (r < n)%nat -> (v < n)%nat -> RL t s r v == - RL s t r v.
Proof.
  intros Ht Hs Hr Hv. rewrite !RL_formula by assumption.
  assert (E1 : kd r (GL t s v) + kd r (GL s t v) == kd r (kd v (g t s))).
  { rewrite <- (kd_add A L). apply GdP. apply compat; assumption. }
  assert (E2 : kd v (GL t s r) + kd v (GL s t r) == kd r (kd v (g t s))).
  { rewrite <- (kd_add A L). rewrite (kd_comm A L r v). apply GdP. apply compat; assumption. }
  rewrite (GG_swap t r s v), (GG_swap t v s r).
  rewrite (ksum_ext L n (fun m => G m t r * GL m s v) (fun m => GL m s v * G m t r)) by (intros; ring).
  rewrite (ksum_ext L n (fun m => G m t v * GL m s r) (fun m => GL m s r * G m t v)) by (intros; ring).
  transitivity (kd r (GL t s v) + kd r (GL s t v) - (kd v (GL t s r) + kd v (GL s t r))
     - (kd r (GL s t v) - kd v (GL s t r) - ksum n (fun m => GL m s r * G m t v) + ksum n (fun m => GL m s v * G m t r))); [ring|].
  rewrite E1, E2. ring.
Qed.
Lemma RL_pair a b c d : (a < n)%nat -> (b < n)%nat -> (c < n)%nat -> (d < n)%nat -> RL a b c d == RL c d a b.
Proof.
  intros Ha Hb Hc Hd. apply (kinv_cancel L 2); [discriminate|].
  assert (B : forall t s r v, (s < n)%nat -> (r < n)%nat -> (v < n)%nat -> RL t s r v == - RL t r v s - RL t v s r).
  { intros t s r v H1 H2 H3. transitivity (RL t s r v + RL t r v s + RL t v s r - RL t r v s - RL t v s r); [ring|]. rewrite RL_bianchi1 by assumption. ring. }
  assert (F : forall t s r v, (t < n)%nat -> (s < n)%nat -> (r < n)%nat -> (v < n)%nat -> RL t s r v == RL s t v r).
  { intros t s r v H1 H2 H3 H4. rewrite RL_anti12, RL_anti34 by assumption. ring. }
  transitivity (RL a b c d + RL b a d c); [cbn [kofn]; rewrite <- (F a b c d) by assumption; ring|].
  rewrite (B a b c d), (B b a d c) by assumption.
  transitivity (RL c d a b + RL d c b a); [|cbn [kofn]; rewrite <- (F c d a b) by assumption; ring].
  rewrite (B c d a b), (B d c b a) by assumption.
  rewrite (F c a b d), (F c b d a), (F d b a c), (F d a c b) by assumption. ring.
Qed.
Lemma R_raise t s r v : (t < n)%nat -> ksum n (fun m => gi t m * RL m s r v) == R t s r v.
Proof. intros Ht. unfold RL, RiemL. fold R. apply (raise t (fun p => R p s r v)). exact Ht. Qed.
Lemma Ric_RL s v : Ric n g gi s v == ksum n (fun t => ksum n (fun m => gi t m * RL m s t v)).
Proof. unfold Ric. fold R. ext. symmetry. apply R_raise. exact Hi. Qed.
Lemma Ric_sym s v : (s < n)%nat -> (v < n)%nat -> Ric n g gi s v == Ric n g gi v s.
Proof.
  intros Hs Hv. rewrite !Ric_RL. rewrite (ksum_swap L). ext. ext. rewrite (RL_pair i s i0 v) by assumption. rewrite (gi_sym i0 i) by assumption. reflexivity.
Qed.

(** ** second Bianchi identity *)
Lemma R_matrix t s r v : R t s r v == kd r (G t s v) - kd v (G t s r) + (ksum n (fun p => G t p r * G p s v) - ksum n (fun p => G t p v * G p s r)).
Proof. unfold R, Riem. fold G. rewrite (ksum_sub L). reflexivity. Qed.
Definition MM (a b : nat) (t s : nat) : A := ksum n (fun p => G t p a * G p s b).
Lemma assoc3 a b c t s : ksum n (fun p => G t p a * MM b c p s) == ksum n (fun q => MM a b t q * G q s c).
Proof.
  unfold MM. transitivity (ksum n (fun p => ksum n (fun q => G t p a * G p q b * G q s c))).
  - ext. rewrite <- (ksum_l L). ext. ring.
  - rewrite (ksum_swap L). ext. apply (ksum_r L).
Qed.
Lemma bianchi2_core a t s r v :
  kd a (R t s r v) + ksum n (fun m => G t m a * R m s r v) - ksum n (fun m => R t m r v * G m s a)
  == (kd a (kd r (G t s v)) - kd a (kd v (G t s r)))
     + (ksum n (fun p => kd a (G t p r) * G p s v) + ksum n (fun p => G t p r * kd a (G p s v))
        - ksum n (fun p => kd a (G t p v) * G p s r) - ksum n (fun p => G t p v * kd a (G p s r)))
     + (ksum n (fun p => G t p a * kd r (G p s v)) - ksum n (fun p => G t p a * kd v (G p s r))
        + ksum n (fun p => G t p a * MM r v p s) - ksum n (fun p => G t p a * MM v r p s))
     - (ksum n (fun p => kd r (G t p v) * G p s a) - ksum n (fun p => kd v (G t p r) * G p s a)
        + ksum n (fun p => G t p r * MM v a p s) - ksum n (fun p => G t p v * MM r a p s)).
Proof.
  rewrite (kd_p A L a _ _ (R_matrix t s r v)). rewrite (kd_add A L), !(kd_sub L), !(kd_sum L).
  rewrite (ksum_ext L n (fun j => kd a (G t j r * G j s v)) (fun p => kd a (G t p r) * G p s v + G t p r * kd a (G p s v))) by (intros; apply (kd_mul A L)).
  rewrite (ksum_ext L n (fun j => kd a (G t j v * G j s r)) (fun p => kd a (G t p v) * G p s r + G t p v * kd a (G p s r))) by (intros; apply (kd_mul A L)).
  rewrite !(ksum_add L).
  rewrite (ksum_ext L n (fun m => G t m a * R m s r v) (fun p => G t p a * kd r (G p s v) - G t p a * kd v (G p s r) + (G t p a * MM r v p s - G t p a * MM v r p s)))
    by (intros p Hp; rewrite R_matrix; unfold MM; ring).
  rewrite (ksum_ext L n (fun m => R t m r v * G m s a) (fun p => kd r (G t p v) * G p s a - kd v (G t p r) * G p s a + (MM r v t p * G p s a - MM v r t p * G p s a)))
    by (intros p Hp; rewrite R_matrix; unfold MM; ring).
  rewrite !(ksum_add L), !(ksum_sub L), <- !assoc3. ring.
Qed.
Lemma bianchi2 a t s r v : (a < n)%nat -> (r < n)%nat -> (v < n)%nat ->
  nabR n g gi a t s r v + nabR n g gi r t s v a + nabR n g gi v t s a r == 0.
Proof.
  intros Ha Hr Hv. unfold nabR. fold G. fold R.
  rewrite (ksum_ext L n (fun m => G m s a * R t m r v) (fun m => R t m r v * G m s a)) by (intros; ring).
  rewrite (ksum_ext L n (fun m => G m s r * R t m v a) (fun m => R t m v a * G m s r)) by (intros; ring).
  rewrite (ksum_ext L n (fun m => G m s v * R t m a r) (fun m => R t m a r * G m s v)) by (intros; ring).
  rewrite !bianchi2_core.
  assert (E : forall p q x, (p < n)%nat -> (q < n)%nat -> ksum n (fun m => G m p q * R t s x m) == - ksum n (fun m => G m q p * R t s m x)).
  { intros p q x Hp Hq. rewrite <- (ksum_opp L). ext. rewrite (Gam_sym i p q), (R_anti t s x i) by assumption. ring. }
  rewrite (E v a r), (E a r v), (E r v a) by assumption.
  rewrite (kd_comm A L r v (G t s a)), (kd_comm A L a r (G t s v)), (kd_comm A L a v (G t s r)). ring.
Qed.

(** ** metric compatibility of the inverse metric, contraction lemmas *)
Lemma kd_gi b i j : (b < n)%nat -> (i < n)%nat -> (j < n)%nat ->
  kd b (gi i j) == - ksum n (fun p => G i p b * gi p j) - ksum n (fun p => G j p b * gi i p).
Proof.
  intros Hb Hi Hj.
  (* gi i j = sum_m gi i m * delta_mj; differentiate sum_p gi i p g p q = delta, then raise *)
  assert (D : forall q, (q < n)%nat -> ksum n (fun p => kd b (gi i p) * g p q) == - ksum n (fun p => gi i p * kd b (g p q))).
  { intros q Hq. assert (Z : kd b (ksum n (fun p => gi i p * g p q)) == 0).
    { rewrite (kd_p A L b _ _ (proj2 (HI i q Hi Hq))). unfold kdelta. destruct (Nat.eqb i q); [apply (kd_1 L)|apply (kd_0 L)]. }
    rewrite (kd_sum L) in Z.
    rewrite (ksum_ext L n _ (fun p => kd b (gi i p) * g p q + gi i p * kd b (g p q))) in Z by (intros; apply (kd_mul A L)).
    rewrite (ksum_add L) in Z. transitivity (ksum n (fun p => kd b (gi i p) * g p q) + ksum n (fun p => gi i p * kd b (g p q)) - ksum n (fun p => gi i p * kd b (g p q))); [ring|].
    rewrite Z. ring. }
  transitivity (ksum n (fun q => ksum n (fun p => kd b (gi i p) * g p q) * gi q j)).
  { transitivity (ksum n (fun p => kd b (gi i p) * kdelta p j)).
    - symmetry. apply (ksum_delta_r L). exact Hj.
    - transitivity (ksum n (fun p => ksum n (fun q => kd b (gi i p) * g p q * gi q j))).
      + ext. rewrite <- (proj1 (HI i0 j Hi0 Hj)). rewrite <- (ksum_l L). ext. ring.
      + rewrite (ksum_swap L). ext. apply (ksum_r L). }
  rewrite (ksum_ext L n _ (fun q => - (ksum n (fun p => gi i p * GL p q b) * gi q j) - ksum n (fun p => gi i p * GL q p b) * gi q j)).
  2: { intros q Hq. rewrite (D q Hq). rewrite (ksum_ext L n (fun p => gi i p * kd b (g p q)) (fun p => gi i p * GL p q b + gi i p * GL q p b)).
       - rewrite (ksum_add L). ring.
       - intros p Hp. rewrite <- (compat p q b Hp Hq Hb). ring. }
  rewrite (ksum_sub L), (ksum_opp L).
  assert (RG : forall x y z, (x < n)%nat -> ksum n (fun p => gi x p * GL p y z) == G x y z).
  { intros x y z Hx. transitivity (ksum n (fun m => gi x m * ksum n (fun p => g m p * G p y z))).
    - ext. rewrite gG by exact Hi0. reflexivity.
    - apply (raise x (fun p => G p y z)). exact Hx. }
  rewrite (ksum_ext L n (fun q => ksum n (fun p => gi i p * GL p q b) * gi q j) (fun p => G i p b * gi p j)) by (intros q Hq; rewrite (RG i q b Hi); reflexivity).
  assert (E : ksum n (fun q => ksum n (fun p => gi i p * GL q p b) * gi q j) == ksum n (fun p => G j p b * gi i p)).
  { transitivity (ksum n (fun p => ksum n (fun q => gi i p * GL q p b * gi q j))).
    - rewrite (ksum_swap L). ext. rewrite <- (ksum_r L). reflexivity.
    - ext. rewrite <- (RG j i0 b Hj). rewrite <- (ksum_r L). ext. rewrite (gi_sym i1 j) by assumption. ring. }
  rewrite E. reflexivity.
Qed.
(** d_b (g^sv F_sv) = g^sv (nabla_b F)_sv *)
Lemma contract_gi b (F : nat -> nat -> A) : (b < n)%nat ->
  kd b (ksum n (fun s => ksum n (fun v => gi s v * F s v)))
  == ksum n (fun s => ksum n (fun v => gi s v * (kd b (F s v) - ksum n (fun m => G m s b * F m v) - ksum n (fun m => G m v b * F s m)))).
Proof.
  intros Hb. rewrite (kd_sum L).
  rewrite (ksum_ext L n _ (fun s => ksum n (fun v => gi s v * kd b (F s v)) - ksum n (fun v => ksum n (fun p => G s p b * gi p v * F s v)) - ksum n (fun v => ksum n (fun p => G v p b * gi s p * F s v)))).
  2: { intros s Hs. rewrite (kd_sum L). rewrite (ksum_ext L n _ (fun v => gi s v * kd b (F s v) - ksum n (fun p => G s p b * gi p v * F s v) - ksum n (fun p => G v p b * gi s p * F s v))).
       - rewrite !(ksum_sub L). reflexivity.
       - intros v Hv. rewrite (kd_mul A L), (kd_gi b s v Hb Hs Hv). rewrite !(ksum_r L). ring. }
  rewrite !(ksum_sub L).
  transitivity (ksum n (fun s => ksum n (fun v => gi s v * kd b (F s v))) - ksum n (fun s => ksum n (fun v => gi s v * ksum n (fun m => G m s b * F m v)))
     - ksum n (fun s => ksum n (fun v => gi s v * ksum n (fun m => G m v b * F s m)))).
  - apply GsP; [apply GsP; [reflexivity|]|].
    + rewrite (ksum_swap L n n (fun s v => ksum n (fun p => G s p b * gi p v * F s v))). rewrite (ksum_swap L n n (fun s v => gi s v * ksum n (fun m => G m s b * F m v))).
      ext. rewrite (ksum_swap L). ext. rewrite <- (ksum_l L). ext. ring.
    + ext. rewrite (ksum_swap L). ext. rewrite <- (ksum_l L). ext. ring.
  - symmetry. rewrite (ksum_ext L n _ (fun s => ksum n (fun v => gi s v * kd b (F s v)) - ksum n (fun v => gi s v * ksum n (fun m => G m s b * F m v)) - ksum n (fun v => gi s v * ksum n (fun m => G m v b * F s m)))).
    + rewrite !(ksum_sub L). reflexivity.
    + intros s Hs. rewrite <- !(ksum_sub L). ext. ring.
Qed.
(** g^tm (nabla_b F)_m = nabla_b (g^tm F_m) *)
Lemma raise_gi b t (F : nat -> A) : (b < n)%nat -> (t < n)%nat ->
  ksum n (fun m => gi t m * (kd b (F m) - ksum n (fun p => G p m b * F p)))
  == kd b (ksum n (fun m => gi t m * F m)) + ksum n (fun p => G t p b * ksum n (fun m => gi p m * F m)).
Proof.
  intros Hb Ht. rewrite (kd_sum L).
  rewrite (ksum_ext L n (fun j => kd b (gi t j * F j)) (fun m => gi t m * kd b (F m) - ksum n (fun p => G t p b * gi p m * F m) - ksum n (fun p => G m p b * gi t p * F m))).
  2: { intros m Hm. rewrite (kd_mul A L), (kd_gi b t m Hb Ht Hm). rewrite !(ksum_r L). ring. }
  rewrite !(ksum_sub L).
  assert (E1 : ksum n (fun m => ksum n (fun p => G t p b * gi p m * F m)) == ksum n (fun p => G t p b * ksum n (fun m => gi p m * F m))).
  { rewrite (ksum_swap L). ext. rewrite <- (ksum_l L). ext. ring. }
  assert (E2 : ksum n (fun m => ksum n (fun p => G m p b * gi t p * F m)) == ksum n (fun m => gi t m * ksum n (fun p => G p m b * F p))).
  { rewrite (ksum_swap L). ext. rewrite <- (ksum_l L). ext. ring. }
  rewrite E1, E2. rewrite (ksum_ext L n _ (fun m => gi t m * kd b (F m) - gi t m * ksum n (fun p => G p m b * F p))) by (intros; ring).
  rewrite (ksum_sub L). ring.
Qed.

(** ** contracted Bianchi identity *)
Let RC := Ric n g gi.
Lemma nabR_anti a t s r v : nabR n g gi a t s r v == - nabR n g gi a t s v r.
Proof.
  unfold nabR. fold G R. rewrite (kd_p A L a _ _ (R_anti t s r v)), (kd_opp L).
  rewrite (ksum_ext L n (fun m => G t m a * R m s r v) (fun m => - (G t m a * R m s v r))) by (intros m Hm; rewrite (R_anti m s r v); ring).
  rewrite (ksum_ext L n (fun m => G m s a * R t m r v) (fun m => - (G m s a * R t m v r))) by (intros m Hm; rewrite (R_anti t m r v); ring).
  rewrite (ksum_ext L n (fun m => G m r a * R t s m v) (fun m => - (G m r a * R t s v m))) by (intros m Hm; rewrite (R_anti t s m v); ring).
  rewrite (ksum_ext L n (fun m => G m v a * R t s r m) (fun m => - (G m v a * R t s m r))) by (intros m Hm; rewrite (R_anti t s r m); ring).
  rewrite !(ksum_opp L). ring.
Qed.
Lemma contr1 a s v : ksum n (fun t => nabR n g gi a t s t v) == nab2 n g gi RC a s v.
Proof.
  unfold nabR, nab2. fold G R. rewrite !(ksum_sub L), (ksum_add L).
  assert (E1 : ksum n (fun t => kd a (R t s t v)) == kd a (RC s v)) by (unfold RC, Ric; fold R; symmetry; apply (kd_sum L)).
  assert (E2 : ksum n (fun t => ksum n (fun m => G m s a * R t m t v)) == ksum n (fun m => G m s a * RC m v)).
  { rewrite (ksum_swap L). ext. rewrite (ksum_l L). reflexivity. }
  assert (E3 : ksum n (fun t => ksum n (fun m => G m v a * R t s t m)) == ksum n (fun m => G m v a * RC s m)).
  { rewrite (ksum_swap L). ext. rewrite (ksum_l L). reflexivity. }
  assert (E4 : ksum n (fun t => ksum n (fun m => G t m a * R m s t v)) == ksum n (fun t => ksum n (fun m => G m t a * R t s m v))).
  { rewrite (ksum_swap L). reflexivity. }
  rewrite E1, E2, E3, E4. ring.
Qed.
Lemma contr2 a s v : (a < n)%nat -> (v < n)%nat ->
  nab2 n g gi RC a s v + ksum n (fun t => nabR n g gi t t s v a) - nab2 n g gi RC v s a == 0.
Proof.
  intros Ha Hv. rewrite <- !contr1. rewrite <- (ksum_add L), <- (ksum_sub L). apply (ksum_zero L). intros t Ht.
  rewrite <- (bianchi2 a t s t v Ha Ht Hv). rewrite (nabR_anti v t s a t). ring.
Qed.
Definition Ymix (t a : nat) : A := ksum n (fun m => gi t m * RC m a).
Lemma X_Y t a : (t < n)%nat -> (a < n)%nat -> ksum n (fun s => ksum n (fun v => gi s v * R t s v a)) == - Ymix t a.
Proof.
  intros Ht Ha. unfold Ymix.
  transitivity (ksum n (fun m => gi t m * ksum n (fun s => ksum n (fun v => gi s v * RL m s v a)))).
  - transitivity (ksum n (fun s => ksum n (fun v => ksum n (fun m => gi t m * (gi s v * RL m s v a))))).
    + ext. ext. rewrite <- (R_raise t i i0 a Ht). rewrite <- (ksum_l L). ext. ring.
    + transitivity (ksum n (fun s => ksum n (fun m => ksum n (fun v => gi t m * (gi s v * RL m s v a))))).
      * ext. apply (ksum_swap L).
      * rewrite (ksum_swap L). ext. rewrite <- (ksum_l L). ext. apply (ksum_l L).
  - rewrite <- (ksum_opp L). ext. unfold RC. rewrite Ric_RL.
    transitivity (gi t i * - ksum n (fun t0 => ksum n (fun m => gi t0 m * RL m i t0 a))); [|ring].
    apply GmP; [reflexivity|]. rewrite (ksum_swap L). rewrite <- (ksum_opp L). ext. rewrite <- (ksum_opp L). ext.
    rewrite (RL_anti12 i i1 i0 a) by assumption. rewrite (gi_sym i1 i0) by assumption. ring.
Qed.
Lemma nab_X b t a : (b < n)%nat -> (t < n)%nat -> (a < n)%nat ->
  ksum n (fun s => ksum n (fun v => gi s v * nabR n g gi b t s v a))
  == - (kd b (Ymix t a) + ksum n (fun m => G t m b * Ymix m a) - ksum n (fun m => G m a b * Ymix t m)).
Proof.
  intros Hb Ht Ha.
  assert (C := contract_gi b (fun s v => R t s v a) Hb). rewrite (kd_p A L b _ _ (X_Y t a Ht Ha)), (kd_opp L) in C.
  assert (E1 : ksum n (fun s => ksum n (fun v => gi s v * ksum n (fun m => G t m b * R m s v a))) == - ksum n (fun m => G t m b * Ymix m a)).
  { rewrite <- (ksum_opp L). transitivity (ksum n (fun m => G t m b * ksum n (fun s => ksum n (fun v => gi s v * R m s v a)))).
    - transitivity (ksum n (fun s => ksum n (fun m => ksum n (fun v => G t m b * (gi s v * R m s v a))))).
      + ext. rewrite (ksum_swap L). ext. rewrite <- (ksum_l L). ext. ring.
      + rewrite (ksum_swap L). ext. rewrite <- (ksum_l L). ext. apply (ksum_l L).
    - ext. rewrite X_Y by assumption. ring. }
  assert (E2 : ksum n (fun s => ksum n (fun v => gi s v * ksum n (fun m => G m a b * R t s v m))) == - ksum n (fun m => G m a b * Ymix t m)).
  { rewrite <- (ksum_opp L). transitivity (ksum n (fun m => G m a b * ksum n (fun s => ksum n (fun v => gi s v * R t s v m)))).
    - transitivity (ksum n (fun s => ksum n (fun m => ksum n (fun v => G m a b * (gi s v * R t s v m))))).
      + ext. rewrite (ksum_swap L). ext. rewrite <- (ksum_l L). ext. ring.
      + rewrite (ksum_swap L). ext. rewrite <- (ksum_l L). ext. apply (ksum_l L).
    - ext. rewrite X_Y by assumption. ring. }
  transitivity (- kd b (Ymix t a) + (- ksum n (fun m => G t m b * Ymix m a)) - (- ksum n (fun m => G m a b * Ymix t m))); [|ring].
  rewrite C, <- E1, <- E2. rewrite <- (ksum_add L), <- (ksum_sub L). ext. rewrite <- (ksum_add L), <- (ksum_sub L). ext.
  unfold nabR. fold G R. ring.
Qed.
Lemma div_Ric_Y a : (a < n)%nat ->
  div2 n g gi RC a == ksum n (fun t => kd t (Ymix t a) + ksum n (fun m => G t m t * Ymix m a) - ksum n (fun m => G m a t * Ymix t m)).
Proof.
  intros Ha. unfold div2. ext. assert (E := raise_gi i i (fun m => RC m a) Hi Hi). fold (Ymix i a) in E.
  unfold Ymix at 2. rewrite <- E.
  assert (E2 : ksum n (fun m => G m a i * Ymix i m) == ksum n (fun s => gi i s * ksum n (fun m => G m a i * RC s m))).
  { transitivity (ksum n (fun m => ksum n (fun s => gi i s * (G m a i * RC s m)))).
    - ext. unfold Ymix. rewrite <- (ksum_l L). ext. ring.
    - rewrite (ksum_swap L). ext. apply (ksum_l L). }
  rewrite E2, <- (ksum_sub L). ext. unfold nab2. fold G. ring.
Qed.
(** g^ts nabla_t R_sa = 1/2 d_a R *)
Lemma contracted_bianchi a : (a < n)%nat -> div2 n g gi RC a + div2 n g gi RC a == kd a (Scal n g gi).
Proof.
  intros Ha.
  assert (E1 : ksum n (fun s => ksum n (fun v => gi s v * nab2 n g gi RC a s v)) == kd a (Scal n g gi)).
  { symmetry. unfold Scal. fold RC. rewrite contract_gi by exact Ha. reflexivity. }
  assert (E2 : ksum n (fun s => ksum n (fun v => gi s v * nab2 n g gi RC v s a)) == div2 n g gi RC a).
  { unfold div2. rewrite (ksum_swap L). ext. ext. rewrite (gi_sym i0 i) by assumption. reflexivity. }
  assert (E3 : ksum n (fun s => ksum n (fun v => gi s v * ksum n (fun t => nabR n g gi t t s v a))) == - div2 n g gi RC a).
  { rewrite (div_Ric_Y a Ha). rewrite <- (ksum_opp L).
    transitivity (ksum n (fun t => ksum n (fun s => ksum n (fun v => gi s v * nabR n g gi t t s v a)))).
    - transitivity (ksum n (fun s => ksum n (fun t => ksum n (fun v => gi s v * nabR n g gi t t s v a)))).
      + ext. rewrite (ksum_swap L). ext. rewrite (ksum_l L). reflexivity.
      + apply (ksum_swap L).
    - ext. apply nab_X; assumption. }
  assert (Z : ksum n (fun s => ksum n (fun v => gi s v * nab2 n g gi RC a s v)) + ksum n (fun s => ksum n (fun v => gi s v * ksum n (fun t => nabR n g gi t t s v a)))
      - ksum n (fun s => ksum n (fun v => gi s v * nab2 n g gi RC v s a)) == 0).
  { rewrite <- (ksum_add L), <- (ksum_sub L). apply (ksum_zero L). intros s Hs. rewrite <- (ksum_add L), <- (ksum_sub L). apply (ksum_zero L). intros v Hv.
    transitivity (gi s v * (nab2 n g gi RC a s v + ksum n (fun t => nabR n g gi t t s v a) - nab2 n g gi RC v s a)); [ring|].
    rewrite contr2 by assumption. ring. }
  rewrite E1, E2, E3 in Z.
  transitivity (kd a (Scal n g gi) - (kd a (Scal n g gi) + - div2 n g gi RC a - div2 n g gi RC a)); [ring|]. rewrite Z. ring.
Qed.
Lemma nab2_ext T T' a s v : (s < n)%nat -> (v < n)%nat -> (forall i j, (i < n)%nat -> (j < n)%nat -> T i j == T' i j) -> nab2 n g gi T a s v == nab2 n g gi T' a s v.
Proof.
  intros Hs Hv H. unfold nab2. rewrite (kd_p A L a _ _ (H s v Hs Hv)). apply GsP; [apply GsP; [reflexivity|]|]; ext; rewrite H by assumption; reflexivity.
Qed.
Lemma nab2_sub T T' a s v : nab2 n g gi (fun i j => T i j - T' i j) a s v == nab2 n g gi T a s v - nab2 n g gi T' a s v.
Proof.
  unfold nab2. rewrite (kd_sub L). fold G.
  rewrite (ksum_ext L n (fun m => G m s a * (T m v - T' m v)) (fun m => G m s a * T m v - G m s a * T' m v)) by (intros; ring).
  rewrite (ksum_ext L n (fun m => G m v a * (T s m - T' s m)) (fun m => G m v a * T s m - G m v a * T' s m)) by (intros; ring).
  rewrite !(ksum_sub L). ring.
Qed.
Lemma nab2_scal f T a s v : nab2 n g gi (fun i j => f * T i j) a s v == kd a f * T s v + f * nab2 n g gi T a s v.
Proof.
  unfold nab2. rewrite (kd_mul A L). fold G.
  rewrite (ksum_ext L n (fun m => G m s a * (f * T m v)) (fun m => f * (G m s a * T m v))) by (intros; ring).
  rewrite (ksum_ext L n (fun m => G m v a * (f * T s m)) (fun m => f * (G m v a * T s m))) by (intros; ring).
  rewrite !(ksum_l L). ring.
Qed.
Lemma div2_ext T T' a : (a < n)%nat -> (forall i j, (i < n)%nat -> (j < n)%nat -> T i j == T' i j) -> div2 n g gi T a == div2 n g gi T' a.
Proof. intros Ha H. unfold div2. ext. ext. rewrite (nab2_ext T T') by assumption. reflexivity. Qed.
Lemma div2_sub T T' a : div2 n g gi (fun i j => T i j - T' i j) a == div2 n g gi T a - div2 n g gi T' a.
Proof.
  unfold div2. rewrite <- (ksum_sub L). ext. rewrite <- (ksum_sub L). ext. rewrite nab2_sub. ring.
Qed.
Lemma div2_g f a : (a < n)%nat -> div2 n g gi (fun i j => f * g i j) a == kd a f.
Proof.
  intros Ha. unfold div2. transitivity (ksum n (fun t => kd t f * kdelta t a)).
  - ext. rewrite <- (proj2 (HI i a Hi Ha)). rewrite <- (ksum_l L). ext. rewrite nab2_scal, nabla_g by assumption. ring.
  - apply (ksum_delta_r L n a (fun t => kd t f)). exact Ha.
Qed.
Lemma div2_scal f T a : (forall t, (t < n)%nat -> kd t f == 0) -> div2 n g gi (fun i j => f * T i j) a == f * div2 n g gi T a.
Proof.
  intros Hf. unfold div2. rewrite <- (ksum_l L). ext. rewrite <- (ksum_l L). ext. rewrite nab2_scal, Hf by assumption. ring.
Qed.
(** the Einstein tensor is divergence free *)
Lemma div_Ein a : (a < n)%nat -> div2 n g gi (Ein n g gi) a == 0.
Proof.
  intros Ha.
  rewrite (div2_ext _ (fun i j => RC i j - (kinv 2 * Scal n g gi) * g i j)) by (try exact Ha; intros; unfold Ein; fold RC; ring).
  rewrite div2_sub, div2_g by exact Ha. rewrite (kd_mul A L), (kd_inv L) by discriminate.
  rewrite <- (contracted_bianchi a Ha).
  transitivity (div2 n g gi RC a - (kinv 2 * div2 n g gi RC a + kinv 2 * div2 n g gi RC a)); [ring|]. rewrite (half_half L). ring.
Qed.
Lemma Ein_sym s v : (s < n)%nat -> (v < n)%nat -> Ein n g gi s v == Ein n g gi v s.
Proof. intros Hs Hv. unfold Ein. rewrite (Ric_sym s v), (HS s v) by assumption. reflexivity. Qed.
Lemma trace_g : trace2 n gi g == kofn n.
Proof.
  unfold trace2. rewrite <- (ksum_trace_delta L). ext. rewrite <- (proj2 (HI i i Hi Hi)). ext. rewrite (HS i i0) by assumption. reflexivity.
Qed.
Lemma trace2_sub T T' : trace2 n gi (fun i j => T i j - T' i j) == trace2 n gi T - trace2 n gi T'.
Proof. unfold trace2. rewrite <- (ksum_sub L). ext. rewrite <- (ksum_sub L). ext. ring. Qed.
Lemma trace2_scal f T : trace2 n gi (fun i j => f * T i j) == f * trace2 n gi T.
Proof. unfold trace2. rewrite <- (ksum_l L). ext. rewrite <- (ksum_l L). ext. ring. Qed.
Lemma trace2_ext T T' : (forall i j, (i < n)%nat -> (j < n)%nat -> T i j == T' i j) -> trace2 n gi T == trace2 n gi T'.
Proof. intros H. unfold trace2. ext. ext. rewrite H by assumption. reflexivity. Qed.
(** trace of the Einstein tensor: (1 - n/2) R, stated without division *)
Lemma trace_Ein : kofn 2 * trace2 n gi (Ein n g gi) == (kofn 2 - kofn n) * Scal n g gi.
Proof.
  rewrite (trace2_ext _ (fun i j => RC i j - (kinv 2 * Scal n g gi) * g i j)) by (intros; unfold Ein; fold RC; ring).
  rewrite trace2_sub, trace2_scal, trace_g. change (trace2 n gi RC) with (Scal n g gi).
  transitivity (kofn 2 * Scal n g gi - (kofn 2 * kinv 2) * kofn n * Scal n g gi); [ring|]. rewrite (kinv_law L) by discriminate. ring.
Qed.
End Thm.
