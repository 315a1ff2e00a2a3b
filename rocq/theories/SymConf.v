(** Conformal rescaling: the Weyl tensor of f*g is the Weyl tensor of g. *)
From Coq Require Import String Ascii List Arith Lia Bool Setoid Morphisms Ring.
From Verif Require Import Base SymAlg SymModel SymLoops SymGeo SymGeo2 SymMove SymConn SymFinal SymCov2.
Import ListNotations.
Local Open Scope nat_scope.

Section Conf.
Context {A : dops} (L : dlaws A).
Local Open Scope K_scope.
Local Instance ZE : Equivalence (@keq A) := keq_equiv A L.
Local Instance ZaP : Proper (keq ==> keq ==> keq) (@kadd A) := kadd_p A L.
Local Instance ZmP : Proper (keq ==> keq ==> keq) (@kmul A) := kmul_p A L.
Local Instance ZsP : Proper (keq ==> keq ==> keq) (@ksub A) := ksub_p A L.
Local Instance ZoP : Proper (keq ==> keq) (@kopp A) := kopp_p A L.
Local Instance ZdP i : Proper (keq ==> keq) (@kd A i) := kd_p A L i.
Add Ring Zring : (k_ring A L).
Variables (n : nat) (g gi g' gi' : nat -> nat -> A) (f z : A).
Hypotheses (HS : symmetric_metric n g) (HI : inverse_metrics n g gi) (HI' : inverse_metrics n g' gi').
Hypotheses (Hf : f * z == 1) (HG : forall i j, (i < n)%nat -> (j < n)%nat -> g' i j == f * g i j).
Ltac ext := apply (ksum_ext L); let i := fresh "i" in let Hi := fresh "Hi" in intros i Hi.

Lemma conf_sym : symmetric_metric n g'.
Proof. intros i j Hi Hj. rewrite !HG by assumption. rewrite (HS i j Hi Hj). reflexivity. Qed.
Let HS' := conf_sym.
(** the inverse metric is divided by f *)
Lemma conf_gi i j : (i < n)%nat -> (j < n)%nat -> gi' i j == z * gi i j.
Proof.
  intros Hi Hj.
  transitivity (ksum n (fun m => kdelta i m * gi' m j)); [symmetry; apply (ksum_delta L n i (fun m => gi' m j) Hi)|].
  transitivity (ksum n (fun m => z * (gi i m * kdelta m j))).
  - transitivity (ksum n (fun m => ksum n (fun p => gi i p * g p m) * gi' m j)).
    { ext. rewrite (proj2 (HI i i0 Hi Hi0)). reflexivity. }
    transitivity (ksum n (fun p => ksum n (fun m => z * (gi i p * (g' p m * gi' m j))))).
    + rewrite (ksum_swap L). 
      transitivity (ksum n (fun m => ksum n (fun p => gi i p * g p m * gi' m j))); [ext; symmetry; apply (ksum_r L)|].
      rewrite (ksum_swap L). rewrite (ksum_swap L). rewrite (ksum_swap L n n (fun p m => gi i p * g p m * gi' m j)) || idtac.
      ext. ext. rewrite HG by assumption. transitivity ((f * z) * (gi i i1 * g i1 i0 * gi' i0 j)); [rewrite Hf; ring|ring].
    + ext. rewrite !(ksum_l L). rewrite (proj1 (HI' i0 j Hi0 Hj)). reflexivity.
  - rewrite (ksum_l L). rewrite (ksum_delta_r L n j (fun m => gi i m) Hj). reflexivity.
Qed.
Definition cu (i : nat) : A := kinv 2 * (z * kd i f).
Let u := cu.
Lemma kd_z i : kd i z == - (z * z * kd i f).
Proof.
  assert (E := kd_p A L i _ _ Hf). rewrite (kd_mul A L), (kd_1 L) in E.
  transitivity ((f * z) * kd i z); [rewrite Hf; ring|]. transitivity (z * (kd i f * z + f * kd i z) - z * z * kd i f); [ring|]. rewrite E. ring.
Qed.
Lemma kd_f i : kd i f == f * (u i + u i).
Proof.
  unfold u, cu. transitivity (f * (kinv 2 * (z * kd i f) + kinv 2 * (z * kd i f))); [|ring]. rewrite (half_half L).
  transitivity ((f * z) * kd i f); [rewrite Hf; ring|ring].
Qed.
Lemma u_closed i j : kd i (u j) == kd j (u i).
Proof.
  unfold u, cu. rewrite !(kd_mul A L), !(kd_inv L) by lia. rewrite !kd_z, (kd_comm A L i j). ring.
Qed.
Definition ex (t j k : nat) : A := GamL g t j k + u k * g t j + u j * g t k - u t * g j k.
Lemma conf_GL t j k : (t < n)%nat -> (j < n)%nat -> (k < n)%nat -> GamL g' t j k == f * ex t j k.
Proof.
  intros Ht Hj Hk. unfold ex, GamL. rewrite (kd_p A L k _ _ (HG t j Ht Hj)), (kd_p A L j _ _ (HG t k Ht Hk)), (kd_p A L t _ _ (HG j k Hj Hk)).
  rewrite !(kd_mul A L), !kd_f.
  transitivity (f * kinv 2 * (kd k (g t j) + kd j (g t k) - kd t (g j k)) + f * ((kinv 2 * (u k * g t j) + kinv 2 * (u k * g t j)) + (kinv 2 * (u j * g t k) + kinv 2 * (u j * g t k)) - (kinv 2 * (u t * g j k) + kinv 2 * (u t * g j k)))); [ring|].
  rewrite !(half_half L). ring.
Qed.
Definition uu (m : nat) : A := ksum n (fun p => gi m p * u p).
Lemma Gam_raise (h hi : nat -> nat -> A) m j k : Gam n h hi m j k == ksum n (fun p => hi m p * GamL h p j k).
Proof. unfold Gam, GamL. rewrite <- (ksum_l L). ext. ring. Qed.
Lemma conf_G m j k : (m < n)%nat -> (j < n)%nat -> (k < n)%nat -> Gam n g' gi' m j k == Gam n g gi m j k + u k * kdelta m j + u j * kdelta m k - g j k * uu m.
Proof.
  intros Hm Hj Hk. rewrite !Gam_raise. 
  transitivity (ksum n (fun p => gi m p * GamL g p j k + u k * (gi m p * g p j) + u j * (gi m p * g p k) - g j k * (gi m p * u p))).
  - ext. rewrite (conf_gi m i Hm Hi), (conf_GL i j k Hi Hj Hk). unfold ex.
    transitivity ((f * z) * (gi m i * (GamL g i j k + u k * g i j + u j * g i k - u i * g j k))); [ring|]. rewrite Hf. ring.
  - rewrite (ksum_sub L), !(ksum_add L), !(ksum_l L). rewrite (proj2 (HI m j Hm Hj)), (proj2 (HI m k Hm Hk)). reflexivity.
Qed.
Definition u2 : A := ksum n (fun m => u m * uu m).
Definition KK (s v : nat) : A := ksum n (fun m => u m * Gam n g gi m s v).
Lemma g_uu t : (t < n)%nat -> ksum n (fun m => g m t * uu m) == u t.
Proof. intros Ht. rewrite <- (lower L n g gi HI t u Ht). ext. rewrite (HS i t Hi Ht). reflexivity. Qed.
Lemma GL_uu t r : ksum n (fun m => GamL g m t r * uu m) == KK t r.
Proof.
  unfold KK, uu. transitivity (ksum n (fun m => ksum n (fun p => GamL g m t r * (gi m p * u p)))); [ext; symmetry; apply (ksum_l L)|].
  rewrite (ksum_swap L). ext. rewrite Gam_raise. rewrite <- (ksum_l L). ext. rewrite (gi_sym L n g gi HS HI i i0 Hi Hi0). ring.
Qed.
Lemma E_G t r s v : (t < n)%nat -> (r < n)%nat -> ksum n (fun m => ex m t r * Gam n g gi m s v) ==
  ksum n (fun m => GamL g m t r * Gam n g gi m s v) + u r * GamL g t s v + u t * GamL g r s v - g t r * KK s v.
Proof.
  intros Ht Hr. 
  assert (Q : forall a, (a < n)%nat -> ksum n (fun m => g m a * Gam n g gi m s v) == GamL g a s v).
  { intros a Ha. rewrite <- (gG L n g gi HI a s v Ha). ext. rewrite (HS i a Hi Ha). reflexivity. }
  rewrite <- (Q t Ht), <- (Q r Hr). unfold KK.
  rewrite <- !(ksum_l L), <- !(ksum_add L), <- (ksum_sub L). ext. unfold ex. ring.
Qed.
Lemma E_uu t r : (t < n)%nat -> (r < n)%nat -> ksum n (fun m => ex m t r * uu m) == KK t r + u r * u t + u t * u r - g t r * u2.
Proof.
  intros Ht Hr. rewrite <- (GL_uu t r). transitivity (ksum n (fun m => GamL g m t r * uu m) + u r * ksum n (fun m => g m t * uu m) + u t * ksum n (fun m => g m r * uu m) - g t r * u2).
  - unfold u2. rewrite <- !(ksum_l L), <- !(ksum_add L), <- (ksum_sub L). ext. unfold ex. ring.
  - rewrite !g_uu by assumption. ring.
Qed.
Lemma E_G' t r s v : (t < n)%nat -> (r < n)%nat -> (s < n)%nat -> (v < n)%nat -> ksum n (fun m => GamL g' m t r * Gam n g' gi' m s v) ==
  f * (ksum n (fun m => GamL g m t r * Gam n g gi m s v) + u r * GamL g t s v + u t * GamL g r s v - g t r * KK s v + u v * ex s t r + u s * ex v t r - g s v * (KK t r + u r * u t + u t * u r - g t r * u2)).
Proof.
  intros Ht Hr Hs Hv. rewrite <- (E_uu t r Ht Hr), <- (E_G t r s v Ht Hr).
  rewrite <- (ksum_delta L n s (fun m => ex m t r) Hs), <- (ksum_delta L n v (fun m => ex m t r) Hv).
  rewrite <- !(ksum_l L), <- !(ksum_add L), <- (ksum_sub L), <- (ksum_l L). ext.
  rewrite (conf_GL i t r Hi Ht Hr), (conf_G i s v Hi Hs Hv). rewrite (kdelta_sym i s), (kdelta_sym i v). ring.
Qed.
Lemma d_ex a t j k : (t < n)%nat -> (j < n)%nat -> (k < n)%nat -> (a < n)%nat -> kd a (ex t j k) ==
  kd a (GamL g t j k) + (kd a (u k) * g t j + u k * (GamL g t j a + GamL g j t a)) + (kd a (u j) * g t k + u j * (GamL g t k a + GamL g k t a)) - (kd a (u t) * g j k + u t * (GamL g j k a + GamL g k j a)).
Proof.
  intros Ht Hj Hk Ha. unfold ex. rewrite (kd_sub L), !(kd_add A L), !(kd_mul A L).
  rewrite !(compat L n g HS) by assumption. reflexivity.
Qed.
Lemma GL_sym t j k : (j < n)%nat -> (k < n)%nat -> GamL g t j k == GamL g t k j.
Proof. exact (GamL_sym L n g HS t j k). Qed.
Lemma KK_sym s v : (s < n)%nat -> (v < n)%nat -> KK s v == KK v s.
Proof. intros Hs Hv. unfold KK. ext. rewrite (Gam_sym L n g gi HS i s v Hs Hv). reflexivity. Qed.
(** the Schouten-like tensor of the rescaling *)
Definition TT (i j : nat) : A := KK i j + u i * u j - kd i (u j) - kinv 2 * u2 * g i j.
Lemma conf_RL t s r v : (t < n)%nat -> (s < n)%nat -> (r < n)%nat -> (v < n)%nat ->
  RiemL n g' gi' t s r v == f * (RiemL n g gi t s r v + KN g TT t s r v).
Proof.
  intros Ht Hs Hr Hv. rewrite (RL_formula L n g' gi' HS' HI') by assumption. rewrite (RL_formula L n g gi HS HI) by assumption.
  rewrite (kd_p A L r _ _ (conf_GL t s v Ht Hs Hv)), (kd_p A L v _ _ (conf_GL t s r Ht Hs Hr)). rewrite !(kd_mul A L), !kd_f, !E_G', !d_ex by assumption.
  unfold KN, TT, ex. set (S1 := ksum n (fun m => GamL g m t r * Gam n g gi m s v)). set (S2 := ksum n (fun m => GamL g m t v * Gam n g gi m s r)).
  rewrite ?(HS s t), ?(u_closed s t), ?(KK_sym s t) by assumption.
  rewrite ?(GL_sym t s t) by assumption.
  rewrite ?(GL_sym s s t) by assumption.
  rewrite ?(GL_sym r s t) by assumption.
  rewrite ?(GL_sym v s t) by assumption.
  rewrite ?(HS r t), ?(u_closed r t), ?(KK_sym r t) by assumption.
  rewrite ?(GL_sym t r t) by assumption.
  rewrite ?(GL_sym s r t) by assumption.
  rewrite ?(GL_sym r r t) by assumption.
  rewrite ?(GL_sym v r t) by assumption.
  rewrite ?(HS r s), ?(u_closed r s), ?(KK_sym r s) by assumption.
  rewrite ?(GL_sym t r s) by assumption.
  rewrite ?(GL_sym s r s) by assumption.
  rewrite ?(GL_sym r r s) by assumption.
  rewrite ?(GL_sym v r s) by assumption.
  rewrite ?(HS v t), ?(u_closed v t), ?(KK_sym v t) by assumption.
  rewrite ?(GL_sym t v t) by assumption.
  rewrite ?(GL_sym s v t) by assumption.
  rewrite ?(GL_sym r v t) by assumption.
  rewrite ?(GL_sym v v t) by assumption.
  rewrite ?(HS v s), ?(u_closed v s), ?(KK_sym v s) by assumption.
  rewrite ?(GL_sym t v s) by assumption.
  rewrite ?(GL_sym s v s) by assumption.
  rewrite ?(GL_sym r v s) by assumption.
  rewrite ?(GL_sym v v s) by assumption.
  rewrite ?(HS v r), ?(u_closed v r), ?(KK_sym v r) by assumption.
  rewrite ?(GL_sym t v r) by assumption.
  rewrite ?(GL_sym s v r) by assumption.
  rewrite ?(GL_sym r v r) by assumption.
  rewrite ?(GL_sym v v r) by assumption.
  assert (H2 : kinv 2 * u2 + kinv 2 * u2 == u2) by apply (half_half L).
  match goal with |- ?a == ?b => transitivity (b + f * ((kinv 2 * u2 + kinv 2 * u2) - u2) * (g t r * g s v - g t v * g s r)); [ring|rewrite H2; ring] end.
Qed.
(** a Kulkarni-Nomizu product with vanishing trace is zero *)
Lemma KN_trace (P : nat -> nat -> A) k m : (k < n)%nat -> (m < n)%nat ->
  ksum n (fun i => ksum n (fun l => gi i l * KN g P i k l m)) == trace2 n gi P * g k m + (kofn n - 1 - 1) * P k m.
Proof.
  intros Hk Hm. unfold KN.
  rewrite (ksum_ext L n _ (fun i => ksum n (fun l => gi i l * (P i l * g k m)) + ksum n (fun l => gi i l * (g i l * P k m)) - ksum n (fun l => gi i l * (P i m * g k l)) - ksum n (fun l => gi i l * (P k l * g i m)))).
  2:{ intros i Hi. rewrite <- (ksum_add L), <- !(ksum_sub L). ext. ring. }
  rewrite !(ksum_sub L), (ksum_add L). rewrite !(tr_T L).
  rewrite (tr_gg L n g gi HS HI (fun i => P i m) k Hk), (tr_gg' L n g gi HS HI (fun l => P k l) m Hm), (trace_g L n g gi HS HI). ring.
Qed.
Lemma KN_zero (P : nat -> nat -> A) : (3 <= n)%nat ->
  (forall k m, (k < n)%nat -> (m < n)%nat -> ksum n (fun i => ksum n (fun l => gi i l * KN g P i k l m)) == 0) ->
  forall k m, (k < n)%nat -> (m < n)%nat -> P k m == 0.
Proof.
  intros Hn H. 
  assert (N2 : @kofn A n - 1 - 1 == kofn (n - 2)). { replace n with (S (S (n - 2))) at 1 by lia. cbn [kofn]. ring. }
  assert (Q : forall k m, (k < n)%nat -> (m < n)%nat -> trace2 n gi P * g k m + kofn (n - 2) * P k m == 0).
  { intros k m Hk Hm. rewrite <- N2, <- (KN_trace P k m Hk Hm). apply H; assumption. }
  assert (T : trace2 n gi P == 0).
  { assert (E : trace2 n gi (fun k m => trace2 n gi P * g k m - (- kofn (n - 2)) * P k m) == 0).
    { unfold trace2 at 1. apply (ksum_zero L). intros i Hi. apply (ksum_zero L). intros j Hj. rewrite <- (Q i j Hi Hj) at 1 || idtac. 
      transitivity (gi i j * (trace2 n gi P * g i j + kofn (n - 2) * P i j)); [ring|]. rewrite (Q i j Hi Hj). ring. }
    rewrite (trace2_sub L), !(trace2_scal L), (trace_g L n g gi HS HI) in E.
    apply (kinv_cancel L (n + (n - 2))); [lia|]. rewrite (kofn_add L). transitivity (0 : A); [|ring]. rewrite <- E. ring. }
  intros k m Hk Hm. assert (E := Q k m Hk Hm). rewrite T in E. apply (kinv_cancel L (n - 2)); [lia|]. transitivity (0 * g k m + kofn (n - 2) * P k m); [ring|]. rewrite E. ring.
Qed.
Let PP (i j : nat) : A := TT i j + Sch n g gi i j - Sch n g' gi' i j.
Lemma conf_W_KN i k l m : (3 <= n)%nat -> (i < n)%nat -> (k < n)%nat -> (l < n)%nat -> (m < n)%nat ->
  Wey n g' gi' i k l m == f * (Wey n g gi i k l m + KN g PP i k l m).
Proof.
  intros Hn Hi Hk Hl Hm. assert (D := Riem_decomp L n g gi i k l m Hn). assert (D' := Riem_decomp L n g' gi' i k l m Hn).
  rewrite (conf_RL i k l m Hi Hk Hl Hm), D in D'.
  assert (K : KN g' (Sch n g' gi') i k l m == f * KN g (Sch n g' gi') i k l m) by (unfold KN; rewrite !HG by assumption; ring).
  rewrite K in D'. transitivity (Wey n g' gi' i k l m + f * KN g (Sch n g' gi') i k l m - f * KN g (Sch n g' gi') i k l m); [ring|].
  rewrite <- D'. unfold PP, KN. ring.
Qed.
Lemma conf_PP : (3 <= n)%nat -> forall k m, (k < n)%nat -> (m < n)%nat -> PP k m == 0.
Proof.
  intros Hn. apply KN_zero; [exact Hn|]. intros k m Hk Hm.
  assert (T' := W_trace L n g' gi' HS' HI' k m Hn Hk Hm). assert (T := W_trace L n g gi HS HI k m Hn Hk Hm).
  transitivity (ksum n (fun i => ksum n (fun l => gi' i l * Wey n g' gi' i k l m)) - ksum n (fun i => ksum n (fun l => gi i l * Wey n g gi i k l m))); [|rewrite T, T'; ring].
  rewrite <- (ksum_sub L). ext. rewrite <- (ksum_sub L). ext. rewrite (conf_gi i i0 Hi Hi0), (conf_W_KN i k i0 m Hn Hi Hk Hi0 Hm).
  transitivity ((f * z) * (gi i i0 * (Wey n g gi i k i0 m + KN g PP i k i0 m)) - gi i i0 * Wey n g gi i k i0 m); [rewrite Hf; ring|ring].
Qed.
Lemma conf_weyl i k l m : (3 <= n)%nat -> (i < n)%nat -> (k < n)%nat -> (l < n)%nat -> (m < n)%nat -> Wey n g' gi' i k l m == f * Wey n g gi i k l m.
Proof. intros Hn Hi Hk Hl Hm. rewrite conf_W_KN by assumption. unfold KN. rewrite !conf_PP by assumption. ring. Qed.
Lemma conf_schouten i j : (3 <= n)%nat -> (i < n)%nat -> (j < n)%nat -> Sch n g' gi' i j == Sch n g gi i j + TT i j.
Proof. intros Hn Hi Hj. assert (E := conf_PP Hn i j Hi Hj). unfold PP in E. transitivity (TT i j + Sch n g gi i j - 0); [rewrite <- E; ring|ring]. Qed.
End Conf.

(** the factor by which raising divides: z for every contravariant index *)
Fixpoint up_factor {A : dops} (z : A) (c : config) : A :=
  match c with [] => 1%K | w :: c' => if Ascii.eqb w chU then (z * up_factor z c')%K else up_factor z c' end.

Section Obj.
Context {A : dops} (L : dlaws A).
Local Open Scope K_scope.
Local Instance QE : Equivalence (@keq A) := keq_equiv A L.
Local Instance QaP : Proper (keq ==> keq ==> keq) (@kadd A) := kadd_p A L.
Local Instance QmP : Proper (keq ==> keq ==> keq) (@kmul A) := kmul_p A L.
Local Instance QsP : Proper (keq ==> keq ==> keq) (@ksub A) := ksub_p A L.
Local Instance QoP : Proper (keq ==> keq) (@kopp A) := kopp_p A L.
Local Instance QdP i : Proper (keq ==> keq) (@kd A i) := kd_p A L i.
Add Ring Qring : (k_ring A L).
Ltac ext := apply (ksum_ext L); let i := fresh "i" in let Hi := fresh "Hi" in intros i Hi.
Variables (m m' : metric A) (g gi g' gi' : nat -> nat -> A) (f z : A).
Hypotheses (HP : covariant_pair m g gi) (HP' : covariant_pair m' g' gi') (HS : symmetric_metric (m_n m) g) (HN : m_n m' = m_n m).
Hypotheses (Hf : f * z == 1) (HG : forall i j, (i < m_n m)%nat -> (j < m_n m)%nat -> g' i j == f * g i j).
Let n := m_n m.
Let HI : inverse_metrics n g gi := pair_inv L m g gi HP.
Let HI' : inverse_metrics n g' gi'.
Proof. unfold n. rewrite <- HN. exact (pair_inv L m' g' gi' HP'). Qed.
Let HS2 : symmetric_metric (m_n m') g'.
Proof. rewrite HN. exact (conf_sym L n g g' f HS HG). Qed.
Let CG : forall i j, (i < n)%nat -> (j < n)%nat -> gi' i j == z * gi i j := conf_gi L n g gi g' gi' f z HI HI' Hf HG.

(** what moving indices with the rescaled metric does *)
Fixpoint mfac (old new : config) : A :=
  match old, new with o :: old', w :: new' => if Ascii.eqb w o then mfac old' new' else (if Ascii.eqb w chU then z else f) * mfac old' new' | _, _ => 1 end.
Lemma move_conf old : forall new T idx k, List.length new = List.length old -> valid n (List.length old) idx ->
  move n g' gi' old new (fun r => k * T r) idx == k * mfac old new * move n g gi old new T idx.
Proof.
  induction old as [|o old IH]; intros new T idx k Hl [Vl Vf]; destruct new as [|w new]; try discriminate; destruct idx as [|i idx]; try discriminate; cbn [move mfac].
  - ring.
  - cbn [List.length] in *. inversion Vf as [|? ? Hi Hr]; subst. destruct (Ascii.eqb w o).
    + apply (IH new (fun r => T (i :: r)) idx k); [lia|split; [lia|exact Hr]].
    + rewrite <- (ksum_l L). ext. rewrite (IH new (fun r => T (i0 :: r)) idx k (f_equal pred Hl) (conj (f_equal pred Vl) Hr)).
      destruct (Ascii.eqb w chU); [rewrite (CG i i0 Hi Hi0)|rewrite (HG i i0 Hi Hi0)]; ring.
Qed.
Lemma obt_conf ctor ctor' c0 T T' k (Ec : exists r, ctor m = Ok r /\ t_cfg r = c0 /\ represents m g gi r c0 T) (Ec' : exists r, ctor' m' = Ok r /\ t_cfg r = c0 /\ represents m' g' gi' r c0 T') :
  config_checker c0 = true -> (forall idx, valid n (List.length c0) idx -> T' idx == k * T idx) ->
  forall c, List.length c = List.length c0 -> config_checker c = true ->
  exists t t', obtained ctor m c t /\ obtained ctor' m' c t' /\ t_cfg t = c /\ t_cfg t' = c /\
  forall idx, valid n (List.length c0) idx -> t_arr t' idx == k * mfac c0 c * t_arr t idx.
Proof.
  intros C0 H c Hl Hc. destruct Ec as [r [E [C R]]]. destruct Ec' as [r' [E' [C' R']]].
  destruct (rep_change L m g gi HP r c0 T c None R C0 Hl Hc (or_introl eq_refl)) as [t [E1 [R1 K1]]].
  destruct (rep_change L m' g' gi' HP' r' c0 T' c None R' C0 Hl Hc (or_introl eq_refl)) as [t' [E1' [R1' K1']]].
  exists t, t'. split; [exists r; split; assumption|]. split; [exists r'; split; assumption|]. split; [exact K1|]. split; [exact K1'|].
  intros idx V. destruct R1 as [_ [_ [_ [_ R5]]]]. destruct R1' as [_ [_ [_ [_ R5']]]]. rewrite R5' by (rewrite HN; exact V). rewrite R5 by exact V. rewrite K1, K1', HN.
  fold n. rewrite <- (move_conf c0 c T idx k Hl V). apply (move_ext_valid L); assumption.
Qed.
Lemma mfac_l c k : List.length c = k -> config_checker c = true -> mfac (repeat chL k) c == up_factor z c.
Proof.
  revert k. induction c as [|w c IH]; intros k Hk Hc; subst k; [reflexivity|]. cbn [List.length repeat mfac up_factor].
  cbn [config_checker forallb] in Hc. unfold config_checker in *. cbn [forallb] in Hc. apply andb_true_iff in Hc. destruct Hc as [Hw Hc].
  destruct (Ascii.eqb_spec w chU) as [->|Nu].
  - replace (Ascii.eqb chU chL) with false by reflexivity. rewrite IH by auto. reflexivity.
  - destruct (Ascii.eqb_spec w chL) as [->|Nl]; [apply IH; auto|]. exfalso.
    revert Hw. destruct (Ascii.eqb_spec w chU); try contradiction. destruct (Ascii.eqb_spec w chL); try contradiction. discriminate.
Qed.
(** the Weyl tensor in every configuration *)
Lemma weyl_conformal : (4 <= m_n m)%nat -> forall c, List.length c = 4%nat -> config_checker c = true ->
  exists t t', obtained weyl_from_metric m c t /\ obtained weyl_from_metric m' c t' /\ t_cfg t = c /\ t_cfg t' = c /\
  forall idx, valid (m_n m) 4 idx -> t_arr t' idx == f * up_factor z c * t_arr t idx.
Proof.
  intros Hn c Hl Hc. assert (K := weyl_metric L m' g' gi' HP' HS2). rewrite HN in K. specialize (K Hn).
  destruct (obt_conf weyl_from_metric weyl_from_metric (cf "llll") (WeyT n g gi) (WeyT n g' gi') f (weyl_metric L m g gi HP HS Hn) K eq_refl) with (c := c) as [t [t' [O1 [O2 [C1 [C2 V]]]]]]; [| exact Hl | exact Hc |].
  - intros idx V. destruct (valid4 m idx V) as [a [b [c' [d [-> [Ha [Hb [Hc' Hd]]]]]]]]. cbn [WeyT].
    apply (conf_weyl L n g gi g' gi' f z HS HI HI' Hf HG); try assumption. unfold n; lia.
  - exists t, t'. do 4 (split; [assumption|]). intros idx Vi. rewrite (V idx Vi). change (cf "llll") with (repeat chL 4). rewrite (mfac_l c 4 Hl Hc). reflexivity.
Qed.
(** in the configuration ulll the two Weyl tensors are the same *)
Lemma weyl_conformal_ulll : (4 <= m_n m)%nat -> exists t t', obtained weyl_from_metric m (cf "ulll") t /\ obtained weyl_from_metric m' (cf "ulll") t' /\
  forall idx, valid (m_n m) 4 idx -> t_arr t' idx == t_arr t idx.
Proof.
  intros Hn. destruct (weyl_conformal Hn (cf "ulll") eq_refl eq_refl) as [t [t' [O1 [O2 [_ [_ V]]]]]]. exists t, t'. split; [exact O1|]. split; [exact O2|].
  intros idx Vi. rewrite (V idx Vi). change (f * (z * 1) * t_arr t idx == t_arr t idx). transitivity ((f * z) * t_arr t idx); [ring|]. rewrite Hf. ring.
Qed.
(** the Schouten tensor *)
Lemma schouten_conformal : (3 <= m_n m)%nat -> exists t t', schouten_from_metric m = Ok t /\ schouten_from_metric m' = Ok t' /\ t_cfg t = cf "ll" /\ t_cfg t' = cf "ll" /\
  forall i j, (i < m_n m)%nat -> (j < m_n m)%nat ->
  let u k := kinv 2 * (z * kd k f) in
  t_arr t' [i; j] == t_arr t [i; j] + (ksum (m_n m) (fun k => u k * Gam (m_n m) g gi k i j) + u i * u j - kd i (u j)
     - kinv 2 * ksum (m_n m) (fun k => u k * ksum (m_n m) (fun l => gi k l * u l)) * g i j).
Proof.
  intros Hn. destruct (schouten_metric L m g gi HP HS Hn) as [t [E1 [C1 R1]]]. assert (K := schouten_metric L m' g' gi' HP' HS2). rewrite HN in K. destruct (K Hn) as [t' [E2 [C2 R2]]].
  exists t, t'. do 4 (split; [assumption|]). intros i j Hi Hj. cbv zeta.
  assert (V1 := rep_native L m g gi t (cf "ll") _ [i; j] R1 C1 (mkvalid2 m i j Hi Hj)).
  assert (V2 := rep_native L m' g' gi' t' (cf "ll") _ [i; j] R2 C2). rewrite HN in V2. specialize (V2 (mkvalid2 m i j Hi Hj)).
  rewrite V1, V2. cbn [SchT]. exact (conf_schouten L n g gi g' gi' f z HS HI HI' Hf HG i j Hn Hi Hj).
Qed.
(** a constant factor (a change of units) *)
Lemma constant_factor : (forall k, (k < m_n m)%nat -> kd k f == 0) ->
  (exists ch ch', christoffels_from_metric m = Ok ch /\ christoffels_from_metric m' = Ok ch' /\ forall i j k, (i < m_n m)%nat -> (j < m_n m)%nat -> (k < m_n m)%nat -> t_arr ch' [i; j; k] == t_arr ch [i; j; k]) /\
  (exists r r', riemann_from_metric m = Ok r /\ riemann_from_metric m' = Ok r' /\ forall i j k l, (i < m_n m)%nat -> (j < m_n m)%nat -> (k < m_n m)%nat -> (l < m_n m)%nat -> t_arr r' [i; j; k; l] == t_arr r [i; j; k; l]) /\
  (exists r r', ricci_from_metric m = Ok r /\ ricci_from_metric m' = Ok r' /\ forall i j, (i < m_n m)%nat -> (j < m_n m)%nat -> t_arr r' [i; j] == t_arr r [i; j]) /\
  (exists s s', scalar_from_metric m = Ok s /\ scalar_from_metric m' = Ok s' /\ scalar_expr s' == z * scalar_expr s) /\
  (exists e e', einstein_from_metric m = Ok e /\ einstein_from_metric m' = Ok e' /\ forall i j, (i < m_n m)%nat -> (j < m_n m)%nat -> t_arr e' [i; j] == t_arr e [i; j]).
Proof.
  intros H0. fold n in H0 |- *. 
  assert (U0 : forall k, (k < n)%nat -> cu f z k == 0) by (intros k Hk; unfold cu; rewrite (H0 k Hk); ring).
  assert (G0 : forall i j k, (i < n)%nat -> (j < n)%nat -> (k < n)%nat -> Gam n g' gi' i j k == Gam n g gi i j k).
  { intros i j k Hi Hj Hk. rewrite (conf_G L n g gi g' gi' f z HI HI' Hf HG i j k Hi Hj Hk). rewrite (U0 j Hj), (U0 k Hk).
    assert (Z : uu n gi f z i == 0) by (unfold uu; apply (ksum_zero L); intros p Hp; rewrite (U0 p Hp); ring). rewrite Z. ring. }
  assert (R0 : forall i j k l, (i < n)%nat -> (j < n)%nat -> (k < n)%nat -> (l < n)%nat -> Riem n g' gi' i j k l == Riem n g gi i j k l).
  { intros i j k l Hi Hj Hk Hl. unfold Riem. rewrite (kd_p A L k _ _ (G0 i j l Hi Hj Hl)), (kd_p A L l _ _ (G0 i j k Hi Hj Hk)).
    apply QaP; [reflexivity|]. ext. rewrite !G0 by assumption. reflexivity. }
  assert (C0 : forall i j, (i < n)%nat -> (j < n)%nat -> Ric n g' gi' i j == Ric n g gi i j) by (intros i j Hi Hj; unfold Ric; ext; apply R0; assumption).
  assert (S0 : Scal n g' gi' == z * Scal n g gi).
  { unfold Scal. rewrite <- (ksum_l L). ext. rewrite <- (ksum_l L). ext. rewrite (CG i i0 Hi Hi0), (C0 i i0 Hi Hi0). ring. }
  destruct (chr_rep L m g gi HP HS) as [ch [E1 [D1 R1]]]. assert (K1 := chr_rep L m' g' gi' HP' HS2). rewrite HN in K1. destruct K1 as [ch' [E1' [D1' R1']]].
  destruct (riem_metric L m g gi HP HS) as [r [E2 [D2 R2]]]. assert (K2 := riem_metric L m' g' gi' HP' HS2). rewrite HN in K2. destruct K2 as [r' [E2' [D2' R2']]].
  destruct (ricci_metric L m g gi HP HS) as [rc [E3 [D3 R3]]]. assert (K3 := ricci_metric L m' g' gi' HP' HS2). rewrite HN in K3. destruct K3 as [rc' [E3' [D3' R3']]].
  destruct (scalar_metric L m g gi HP HS) as [s [E4 [_ [_ V4]]]]. assert (K4 := scalar_metric L m' g' gi' HP' HS2). rewrite HN in K4. destruct K4 as [s' [E4' [_ [_ V4']]]].
  destruct (ein_metric L m g gi HP HS) as [e [E5 [D5 R5]]]. assert (K5 := ein_metric L m' g' gi' HP' HS2). rewrite HN in K5. destruct K5 as [e' [E5' [D5' R5']]].
  split; [|split; [|split; [|split]]].
  - exists ch, ch'. split; [exact E1|]. split; [exact E1'|]. intros i j k Hi Hj Hk. rewrite (rep_native L m g gi ch _ _ [i; j; k] R1 D1 (mkvalid3 m i j k Hi Hj Hk)).
    assert (V := rep_native L m' g' gi' ch' _ _ [i; j; k] R1' D1'). rewrite HN in V. rewrite (V (mkvalid3 m i j k Hi Hj Hk)). apply G0; assumption.
  - exists r, r'. split; [exact E2|]. split; [exact E2'|]. intros i j k l Hi Hj Hk Hl. rewrite (rep_native L m g gi r _ _ [i; j; k; l] R2 D2 (mkvalid4 m i j k l Hi Hj Hk Hl)).
    assert (V := rep_native L m' g' gi' r' _ _ [i; j; k; l] R2' D2'). rewrite HN in V. rewrite (V (mkvalid4 m i j k l Hi Hj Hk Hl)). apply R0; assumption.
  - exists rc, rc'. split; [exact E3|]. split; [exact E3'|]. intros i j Hi Hj. rewrite (rep_native L m g gi rc _ _ [i; j] R3 D3 (mkvalid2 m i j Hi Hj)).
    assert (V := rep_native L m' g' gi' rc' _ _ [i; j] R3' D3'). rewrite HN in V. rewrite (V (mkvalid2 m i j Hi Hj)). apply C0; assumption.
  - exists s, s'. split; [exact E4|]. split; [exact E4'|]. rewrite V4, V4'. exact S0.
  - exists e, e'. split; [exact E5|]. split; [exact E5'|]. intros i j Hi Hj. rewrite (rep_native L m g gi e _ _ [i; j] R5 D5 (mkvalid2 m i j Hi Hj)).
    assert (V := rep_native L m' g' gi' e' _ _ [i; j] R5' D5'). rewrite HN in V. rewrite (V (mkvalid2 m i j Hi Hj)). change (Ein n g' gi' i j == Ein n g gi i j). unfold Ein.
    rewrite (C0 i j Hi Hj), S0, (HG i j Hi Hj). transitivity (Ric n g gi i j - kinv 2 * (f * z) * g i j * Scal n g gi); [ring|]. rewrite Hf. ring.
Qed.
End Obj.

(** ** witness: exp(2 x0) times the flat metric *)
From Coq Require Import Reals Lra.
From Verif Require Import ExprModel SymWitness.
Definition flat_g (i j : nat) : KU Uall := if Nat.eqb i j then uconst Uall 1%R else uconst Uall 0%R.
Definition flat_metric (n : nat) : metric (diag_ops Uall) :=
  @mkmetric (diag_ops Uall) n (fun idx => match idx with [i; j] => flat_g i j | _ => uconst Uall 0%R end) (cf "ll").
Definition conf_f : KU Uall := uexp Uall (umul Uall (uconst Uall 2%R) (uvar Uall 0)).
Local Open Scope R_scope.
Lemma one_nz p : Uall p -> ev Uall (uconst Uall 1) p <> 0.
Proof. intros _. change (1 <> 0). lra. Qed.
Lemma flat_inv n : is_inverse Uall n flat_g (diag_cand Uall flat_g).
Proof.
  assert (D : forall m, ueq Uall (umul Uall (flat_g m m) (diag_cand Uall flat_g m m)) (uconst Uall 1)).
  { intros m p Hp. unfold diag_cand, flat_g. rewrite !Nat.eqb_refl.
    transitivity (ev Uall (uconst Uall 1) p * (ev Uall (uconst Uall 1) p / ev Uall (uconst Uall 1) p)).
    - rewrite <- (udiv_ev Uall (uconst Uall 1) (uconst Uall 1) one_nz p). reflexivity.
    - change (ev Uall (uconst Uall 1) p) with 1. field. }
  intros i j Hi Hj. set (A := expr_ops Uall (simp_id Uall) (fun _ _ => None)).
  assert (L : dlaws A). { apply expr_laws; [intros p k _; apply Coquelicot.Hierarchy.filter_forall; intros; exact I|apply simp_id_ok|]. intros ? ? ? H. discriminate H. }
  assert (EQ : Equivalence (@keq A)) by (apply L).
  assert (E : forall (F G : nat -> nat -> KU Uall), (forall a b, a <> b -> F a b = uconst Uall 0) -> (forall a b, a <> b -> G a b = uconst Uall 0) ->
     (forall m, ueq Uall (umul Uall (F m m) (G m m)) (uconst Uall 1)) -> @keq A (@ksum A n (fun m => umul Uall (F i m) (G m j))) (@kdelta A i j)).
  { intros F G HF HG HD. transitivity (@ksum A n (fun m => @kmul A (@kdelta A i m) (@kdelta A m j))).
    - apply (ksum_ext L). intros m Hm p Hp. unfold kdelta. destruct (Nat.eqb_spec i m) as [->|N1].
      + destruct (Nat.eqb_spec m j) as [->|N2].
        * rewrite (HD j p Hp). unfold ev. cbn. ring.
        * rewrite (HG m j N2). unfold ev. cbn. ring.
      + rewrite (HF i m N1). unfold ev. cbn. ring.
    - apply (ksum_delta L n i (fun m => @kdelta A m j)). exact Hi. }
  split; apply E.
  - intros a b N. unfold flat_g. destruct (Nat.eqb_spec a b); [contradiction|reflexivity].
  - intros a b N. unfold diag_cand. destruct (Nat.eqb_spec a b); [contradiction|reflexivity].
  - exact D.
  - intros a b N. unfold diag_cand. destruct (Nat.eqb_spec a b); [contradiction|reflexivity].
  - intros a b N. unfold flat_g. destruct (Nat.eqb_spec a b); [contradiction|reflexivity].
  - intros m p Hp. rewrite <- (D m p Hp). unfold ev. cbn. ring.
Qed.
Lemma conformal_witness (n : nat) : let A := diag_ops Uall in dlaws A /\ exists (g gi g' gi' : nat -> nat -> A) (f z : A),
  covariant_pair (flat_metric n) g gi /\ covariant_pair (conf_metric n) g' gi' /\ symmetric_metric n g /\ m_n (conf_metric n) = m_n (flat_metric n) /\
  (f * z == 1)%K /\ (forall i j, (i < n)%nat -> (j < n)%nat -> (g' i j == f * g i j)%K) /\ ~ (kd 0 f == 0)%K.
Proof.
  split; [exact all_laws|]. exists flat_g, (diag_cand Uall flat_g), conf_g, (diag_cand Uall conf_g), conf_f, (@kdiv (diag_ops Uall) (uconst Uall 1) conf_f).
  split. { exists (flat_metric n). split; [reflexivity|]. split; [reflexivity|]. change (minv_diag Uall n flat_g = Some (diag_cand Uall flat_g)).
    unfold minv_diag. destruct (EM_inf _) as [H|H]; [reflexivity|]. exfalso. apply H. apply flat_inv. }
  split; [apply conf_pair|]. split. { intros i j _ _ p _. unfold flat_g. rewrite Nat.eqb_sym. reflexivity. }
  split; [reflexivity|]. split; [|split].
  - intros p Hp. change (ev Uall conf_f p * ev Uall (udiv Uall (uconst Uall 1) conf_f) p = 1). rewrite (udiv_ev Uall (uconst Uall 1) conf_f exp_nz p).
    change (ev Uall (uconst Uall 1) p) with 1. field. apply exp_nz. exact Hp.
  - intros i j _ _ p _. unfold conf_g, flat_g. destruct (Nat.eqb i j); unfold ev; cbn; ring.
  - intros H. specialize (H (fun _ => 0) I). unfold ev, conf_f in H. cbn in H. rewrite Rmult_0_r, exp_0 in H. lra.
Qed.
