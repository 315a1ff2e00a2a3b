(** Weyl and Schouten tensors: textbook definitions in any dimension, and their identities (specification of C49, C50). *)
From Coq Require Import List Arith Lia Setoid Morphisms Ring.
From Verif Require Import SymAlg SymGeo.
Import ListNotations.

Section Defs.
Context {A : dops}.
Local Open Scope K_scope.
Variables (n : nat) (g gi : nat -> nat -> A).
(** Schouten: P_ij = (R_ij - R g_ij / (2(n-1))) / (n-2) *)
Definition Sch (i j : nat) : A := kinv (n - 2) * (Ric n g gi i j - kinv (2 * (n - 1)) * (Scal n g gi * g i j)).
(** Kulkarni-Nomizu product of P and g *)
Definition KN (P : nat -> nat -> A) (i k l m : nat) : A := P i l * g k m + P k m * g i l - P i m * g k l - P k l * g i m.
(** Weyl: C_iklm = R_iklm + (R_im g_kl - R_il g_km + R_kl g_im - R_km g_il)/(n-2) + R (g_il g_km - g_im g_kl)/((n-1)(n-2)) *)
Definition Wey (i k l m : nat) : A :=
  RiemL n g gi i k l m
  + kinv (n - 2) * (Ric n g gi i m * g k l - Ric n g gi i l * g k m + Ric n g gi k l * g i m - Ric n g gi k m * g i l)
  + kinv ((n - 1) * (n - 2)) * (Scal n g gi * (g i l * g k m - g i m * g k l)).
End Defs.

Section Thm.
Context {A : dops} (L : dlaws A).
Local Open Scope K_scope.
Local Instance HE : Equivalence (@keq A) := keq_equiv A L.
Local Instance HaP : Proper (keq ==> keq ==> keq) (@kadd A) := kadd_p A L.
Local Instance HmP : Proper (keq ==> keq ==> keq) (@kmul A) := kmul_p A L.
Local Instance HsP : Proper (keq ==> keq ==> keq) (@ksub A) := ksub_p A L.
Local Instance HoP : Proper (keq ==> keq) (@kopp A) := kopp_p A L.
Add Ring Hring : (k_ring A L).
Variables (n : nat) (g gi : nat -> nat -> A).
Hypotheses (HS : symmetric_metric n g) (HI : inverse_metrics n g gi).
Let RL := RiemL n g gi. Let RC := Ric n g gi. Let RS := Scal n g gi. Let W := Wey n g gi.
Ltac ext := apply (ksum_ext L); let i := fresh "i" in let Hi := fresh "Hi" in intros i Hi.

Lemma W_anti12 i k l m : (i < n)%nat -> (k < n)%nat -> (l < n)%nat -> (m < n)%nat -> W i k l m == - W k i l m.
Proof. intros Hi Hk Hl Hm. unfold W, Wey. fold RL. unfold RL. rewrite (RL_anti12 L n g gi HS HI i k l m) by assumption. ring. Qed.
Lemma W_anti34 i k l m : (i < n)%nat -> (k < n)%nat -> (l < n)%nat -> (m < n)%nat -> W i k l m == - W i k m l.
Proof. intros Hi Hk Hl Hm. unfold W, Wey. rewrite (RL_anti34 L n g gi i k l m). ring. Qed.
Lemma W_pair i k l m : (i < n)%nat -> (k < n)%nat -> (l < n)%nat -> (m < n)%nat -> W i k l m == W l m i k.
Proof.
  intros Hi Hk Hl Hm. unfold W, Wey. rewrite (RL_pair L n g gi HS HI i k l m) by assumption. fold RC.
  rewrite (HS k l), (HS k m), (HS i m), (HS i l) by assumption. unfold RC.
  rewrite (Ric_sym L n g gi HS HI i m), (Ric_sym L n g gi HS HI i l), (Ric_sym L n g gi HS HI k l), (Ric_sym L n g gi HS HI k m) by assumption. ring.
Qed.
Lemma W_bianchi1 i k l m : (i < n)%nat -> (k < n)%nat -> (l < n)%nat -> (m < n)%nat -> W i k l m + W i l m k + W i m k l == 0.
Proof.
  intros Hi Hk Hl Hm. assert (B := RL_bianchi1 L n g gi HS i k l m Hk Hl Hm). unfold W, Wey. fold RC.
  rewrite (HS l k), (HS m k), (HS m l) by assumption. unfold RC.
  rewrite (Ric_sym L n g gi HS HI l k), (Ric_sym L n g gi HS HI m k), (Ric_sym L n g gi HS HI m l) by assumption.
  match goal with |- ?x == 0 => transitivity (RiemL n g gi i k l m + RiemL n g gi i l m k + RiemL n g gi i m k l); [ring|exact B] end.
Qed.
Lemma kinv_mul a b : a <> 0%nat -> b <> 0%nat -> @kinv A (a * b) == kinv a * kinv b.
Proof.
  intros Ha Hb. apply (kinv_cancel L (a * b)); [intros E; apply Nat.mul_eq_0 in E; tauto|]. rewrite (kinv_law L) by (intros E; apply Nat.mul_eq_0 in E; tauto).
  rewrite (kofn_mul L). symmetry. transitivity ((kofn a * kinv a) * (kofn b * @kinv A b)); [ring|]. rewrite !(kinv_law L) by assumption. ring.
Qed.
Lemma tr_gg (F : nat -> A) k : (k < n)%nat -> ksum n (fun i => ksum n (fun l => gi i l * (F i * g k l))) == F k.
Proof.
  intros Hk. transitivity (ksum n (fun i => F i * kdelta i k)); [|apply (ksum_delta_r L); exact Hk].
  ext. rewrite <- (proj2 (HI i k Hi Hk)). rewrite <- (ksum_l L). ext. rewrite (HS k i0) by assumption. ring.
Qed.
Lemma tr_T T c : ksum n (fun i => ksum n (fun l => gi i l * (T i l * c))) == trace2 n gi T * c.
Proof. unfold trace2. rewrite <- (ksum_r L). ext. rewrite <- (ksum_r L). ext. ring. Qed.
Lemma tr_gg' (F : nat -> A) m : (m < n)%nat -> ksum n (fun i => ksum n (fun l => gi i l * (F l * g i m))) == F m.
Proof.
  intros Hk. rewrite (ksum_swap L). transitivity (ksum n (fun i => F i * kdelta i m)); [|apply (ksum_delta_r L); exact Hk].
  ext. rewrite <- (proj2 (HI i m Hi Hk)). rewrite <- (ksum_l L). ext. rewrite (gi_sym L n g gi HS HI i0 i) by assumption. ring.
Qed.
(** g^il C_iklm = 0 *)
Lemma W_trace k m : (3 <= n)%nat -> (k < n)%nat -> (m < n)%nat -> ksum n (fun i => ksum n (fun l => gi i l * W i k l m)) == 0.
Proof.
  intros Hn Hk Hm. unfold W, Wey. fold RL RC RS.
  rewrite (ksum_ext L n _ (fun i => ksum n (fun l => gi i l * RL i k l m) + (kinv (n - 2) * (ksum n (fun l => gi i l * (RC i m * g k l)) - ksum n (fun l => gi i l * (RC i l * g k m))
      + ksum n (fun l => gi i l * (RC k l * g i m)) - ksum n (fun l => gi i l * (g i l * RC k m))) + (kinv ((n - 1) * (n - 2)) * RS) * (ksum n (fun l => gi i l * (g i l * g k m)) - ksum n (fun l => gi i l * (g i m * g k l)))))).
  2: { intros i Hi. rewrite <- !(ksum_sub L), <- !(ksum_add L), <- !(ksum_sub L), <- !(ksum_l L), <- !(ksum_add L). ext. ring. }
  rewrite !(ksum_add L), !(ksum_l L), !(ksum_sub L), !(ksum_add L), !(ksum_sub L).
  rewrite (tr_gg (fun i => RC i m) k Hk), (tr_T RC), (tr_gg' (fun l => RC k l) m Hm), !(tr_T g), (tr_gg (fun i => g i m) k Hk).
  rewrite (trace_g L n g gi HS HI). change (trace2 n gi RC) with RS.
  assert (E : ksum n (fun i => ksum n (fun l => gi i l * RL i k l m)) == RC k m).
  { unfold RC. rewrite (Ric_RL L n g gi HI). rewrite (ksum_swap L). ext. ext. rewrite (gi_sym L n g gi HS HI i0 i) by assumption. reflexivity. }
  rewrite E. rewrite kinv_mul by lia.
  assert (I1 : kofn (n - 1) * @kinv A (n - 1) == 1) by (apply (kinv_law L); lia).
  assert (I2 : kofn (n - 2) * @kinv A (n - 2) == 1) by (apply (kinv_law L); lia).
  assert (N1 : @kofn A n == kofn (n - 1) + 1) by (replace n with (S (n - 1)) at 1 by lia; reflexivity).
  assert (N2 : @kofn A (n - 1) == kofn (n - 2) + 1) by (replace (n - 1)%nat with (S (n - 2)) at 1 by lia; reflexivity).
  transitivity (RC k m - (kofn (n - 2) * kinv (n - 2)) * RC k m - kinv (n - 2) * RS * g k m + kinv (n - 2) * (kofn (n - 1) * kinv (n - 1)) * RS * g k m).
  - rewrite N1, N2. ring.
  - rewrite I1, I2. ring.
Qed.
(** R_iklm = C_iklm + (P KN g)_iklm *)
Lemma Riem_decomp i k l m : (3 <= n)%nat -> RL i k l m == W i k l m + KN g (Sch n g gi) i k l m.
Proof.
  intros Hn. unfold W, Wey, KN, Sch. fold RL RC RS. rewrite !kinv_mul by lia.
  transitivity (RL i k l m + kinv (n - 1) * kinv (n - 2) * RS * (g i l * g k m - g i m * g k l) - kinv (n - 1) * kinv (n - 2) * RS * (g i l * g k m - g i m * g k l)); [ring|].
  transitivity (RL i k l m + kinv (n - 1) * kinv (n - 2) * RS * (g i l * g k m - g i m * g k l) - (kofn 2 * kinv 2) * kinv (n - 1) * kinv (n - 2) * RS * (g i l * g k m - g i m * g k l)).
  - rewrite (kinv_law L 2) by discriminate. ring.
  - cbn [kofn]. ring.
Qed.
Lemma Sch_sym i j : (i < n)%nat -> (j < n)%nat -> Sch n g gi i j == Sch n g gi j i.
Proof. intros Hi Hj. unfold Sch. rewrite (HS i j), (Ric_sym L n g gi HS HI i j) by assumption. reflexivity. Qed.
(** g^ij P_ij = R / (2 (n-1)) *)
Lemma Sch_trace : (3 <= n)%nat -> trace2 n gi (Sch n g gi) == kinv (2 * (n - 1)) * RS.
Proof.
  intros Hn. unfold Sch.
  rewrite (trace2_ext L n gi _ (fun i j => kinv (n - 2) * (RC i j - (kinv (2 * (n - 1)) * RS) * g i j))) by (intros; unfold RC, RS; ring).
  rewrite (trace2_scal L), (trace2_sub L), (trace2_scal L), (trace_g L n g gi HS HI). change (trace2 n gi RC) with RS.
  rewrite kinv_mul by lia.
  assert (I0 : kofn 2 * @kinv A 2 == 1) by (apply (kinv_law L); lia).
  assert (I1 : kofn (n - 1) * @kinv A (n - 1) == 1) by (apply (kinv_law L); lia).
  assert (I2 : kofn (n - 2) * @kinv A (n - 2) == 1) by (apply (kinv_law L); lia).
  assert (N1 : @kofn A n == kofn (n - 1) + 1) by (replace n with (S (n - 1)) at 1 by lia; reflexivity).
  assert (N2 : @kofn A (n - 1) == kofn (n - 2) + 1) by (replace (n - 1)%nat with (S (n - 2)) at 1 by lia; reflexivity).
  transitivity (kinv (n - 2) * RS * ((kofn 2 * kinv 2) * (kofn (n - 1) * kinv (n - 1)) - kinv 2 * kinv (n - 1) * kofn n)).
  - rewrite I0, I1. ring.
  - transitivity ((kofn (n - 2) * kinv (n - 2)) * kinv 2 * kinv (n - 1) * RS); [|rewrite I2; ring]. rewrite N1, N2. cbn [kofn]. ring.
Qed.
End Thm.
