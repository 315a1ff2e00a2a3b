(** Rounding errors of Schwarzschild's metric_covariant, christoffels and f_vec. *)
From Coq Require Import String Reals List ZArith Lra Lia Bool.
From Coquelicot Require Import Coquelicot.
From Verif Require Import Base Calc DualModel DualSpec DualProofs DualDiff GeoUtilsModel GeoUtilsSpec GeoUtilsProofs CoordModel CoordProofs2 ConvModel ConvProofs FantasyModel FantasyHam ProgCont FantasyOrder
  MetricModel MetricSpec MetricProofs MetricProofs2 MetricProofs3 MetricProofs4 FloatModel FloatTrack FloatRK.
From Verif Require Import FloatMetricModel FloatMetric FloatMetric2 FloatMetric3.
Import ListNotations.
Open Scope R_scope.

Section Exact.
Variables (c G : R) (o : mobj).
Hypothesis Hc : c <> 0.
Let rs := sch_rad c G o.
Lemma rs_mean w : meaning w (schRadE c G o) = rs.
Proof. reflexivity. Qed.
Lemma sch_covE w : mtab (fun a b => meaning w (schCovE c G o a b)) = sch_g c rs (w 2%nat) (w 3%nat).
Proof. reflexivity. Qed.
Lemma sch_chE w i j k : w 9%nat = cos (w 3%nat) / sin (w 3%nat) -> (i < 4)%nat -> (j < 4)%nat -> (k < 4)%nat -> meaning w (schChE c G o i j k) = sch_ch c rs (w 2%nat) (w 3%nat) i j k.
Proof.
  intros H Hi Hj Hk. nat4' i Hi; (nat4' j Hj); (nat4' k Hk); try reflexivity; exact H.
Qed.
Lemma sch_accE chE ch w v : (forall i j k, (i < 4)%nat -> (j < 4)%nat -> (k < 4)%nat -> meaning w (chE i j k) = ch i j k) -> (forall i, (i < 4)%nat -> w (5 + i)%nat = q4nth v i) ->
  q4tab (fun i => meaning w (schAccE chE i)) = sch_accel ch v.
Proof.
  intros H Hv. assert (V0 := Hv 0%nat ltac:(lia)). assert (V1 := Hv 1%nat ltac:(lia)). assert (V2 := Hv 2%nat ltac:(lia)). assert (V3 := Hv 3%nat ltac:(lia)). cbn in V0, V1, V2, V3.
  unfold q4tab, sch_accel, schAccE. cbn [meaning]. rewrite V0, V1, V2, V3. rewrite !H by lia. reflexivity.
Qed.
Definition schD (z : nat -> R) : Prop := z 2%nat <> 0 /\ rs * z 2%nat - z 2%nat ^ 2 <> 0 /\ sin (z 3%nat) <> 0.
Lemma sch_cov_def w i j : w 2%nat <> 0 -> 1 - rs / w 2%nat <> 0 -> (i < 4)%nat -> (j < 4)%nat -> below 9 (schCovE c G o i j) = true /\ defined_at w (schCovE c G o i j).
Proof.
  intros H1 H2 Hi Hj. assert (P := c2ne c Hc). split; [nat4' i Hi; (nat4' j Hj); reflexivity|].
  nat4' i Hi; (nat4' j Hj); unfold schCovE, schRadE; cbn [defined_at meaning]; repeat match goal with |- _ /\ _ => split end; try exact I; try (left; discriminate); first [exact P|exact H1|exact H2].
Qed.
Lemma sch_ch_def w i j k : schD w -> (i < 4)%nat -> (j < 4)%nat -> (k < 4)%nat -> below 10 (schChE c G o i j k) = true /\ defined_at w (schChE c G o i j k).
Proof.
  intros (H1 & H2 & H3) Hi Hj Hk. assert (P := c2ne c Hc). assert (P3 : powerRZ (w 2%nat) 3 <> 0) by (apply powerRZ_NOR; exact H1). split; [nat4' i Hi; (nat4' j Hj); (nat4' k Hk); reflexivity|].
  nat4' i Hi; (nat4' j Hj); (nat4' k Hk); unfold schChE, schRadE; cbn [defined_at meaning]; repeat match goal with |- _ /\ _ => split end; try exact I; try (left; discriminate); first [exact P|exact H1|exact H2|exact P3].
Qed.
Lemma sch_acc_def chE w : (forall i j k, (i < 4)%nat -> (j < 4)%nat -> (k < 4)%nat -> below 10 (chE i j k) = true /\ defined_at w (chE i j k)) ->
  forall i, (i < 4)%nat -> below 10 (schAccE chE i) = true /\ defined_at w (schAccE chE i).
Proof.
  intros H. assert (B : forall k i j, (k < 4)%nat -> (i < 4)%nat -> (j < 4)%nat -> below 10 (chE k i j) = true) by (intros; apply H; assumption).
  assert (D : forall k i j, (k < 4)%nat -> (i < 4)%nat -> (j < 4)%nat -> defined_at w (chE k i j)) by (intros; apply H; assumption). clear H.
  intros i Li. nat4' i Li; unfold schAccE; cbn [defined_at below];
    (split; [repeat (apply andb_true_intro; split); first [reflexivity|apply B; lia]|repeat match goal with |- _ /\ _ => split end; try exact I; try (left; discriminate); apply D; lia]).
Qed.
End Exact.

Section Track.
Context {J : Type} (F : (J -> Prop) -> Prop) {FF : Filter F} (u : J -> R) (K : R) (e : J -> fenv).
Hypothesis HK : 0 <= K.
Hypothesis Hu0 : F (fun j => 0 <= u j).
Hypothesis Hu : filterlim u F (locally 0).
Hypothesis HE : F (fun j => good K (u j) (e j)).
Notation AA := (AA e).
Notation nrF := (nr F u).
Notation nrE := (nrE F u).
Variables (c G : R) (o : mobj).
Hypothesis Hc : c <> 0.
Hypothesis Hsys : mo_sys o = Sph.
Let rs := sch_rad c G o.
Definition cotz (z : nat -> R) : R := cos (z 3%nat) / sin (z 3%nat).
Definition S1 (z : nat -> R) : nat -> R := ext 9 z [cotz z].
Lemma cot_env q x l v : nrE 9 q x l -> nrF v (fun j => cotz (x j)) (cotz l) -> nrE 10 (fun j => ext 9 (q j) [v j]) (fun j => S1 (x j)) (S1 l).
Proof. intros H N. apply (ext_ok F u 9 1 q x l (fun j => [v j]) (fun j => [cotz (x j)])); [exact H|]. intros [|i] Hi; [exact N|lia]. Qed.
Lemma sch_cov_track q x l : nrE 9 q x l -> l 2%nat <> 0 -> 1 - rs / l 2%nat <> 0 -> oktoM F u (fun j => matF (AA j) (q j) (schCovE c G o)) (fun j => mtab (fun a b => meaning (x j) (schCovE c G o a b))) (mtab (fun a b => meaning l (schCovE c G o a b))).
Proof. intros H D1 D2. apply (matF_ok F u K e Hu0 Hu HE 9 q x l (schCovE c G o) H). intros i j. apply sch_cov_def; assumption. Qed.
Lemma sch_ch_track th q x l : (forall j, th j = q j 3%nat) -> nrE 9 q x l -> schD c G o l ->
  okT F (fun j => let* k := cotA (e j) (th j) in arr3A (e j) (ext 9 (q j) [k]) (schChE c G o)) (fun v => nr3 F u v (fun j i a b => meaning (S1 (x j)) (schChE c G o i a b)) (fun i a b => meaning (S1 l) (schChE c G o i a b))).
Proof.
  intros Et H D. assert (Ht : nrF th (fun j => x j 3%nat) (l 3%nat)). { generalize (H 3%nat ltac:(lia)). apply (nr_ext_all F u); [intros j; symmetry; apply Et|reflexivity]. }
  apply (okT_bind F _ _ _ _ (cot_ok F u K e Hu0 Hu HE th (fun j => x j 3%nat) (l 3%nat) (proj2 (proj2 D)) Ht)). intros k Nk.
  apply (arr3_ok F u K e Hu0 Hu HE 10 (fun j => ext 9 (q j) [k j]) (fun j => S1 (x j)) (S1 l)); [apply cot_env; assumption|]. intros i a b. apply sch_ch_def; [exact Hc|exact D].
Qed.
Definition schX (z : nat -> R) : V4 := q4tab (fun i => meaning (S1 z) (schAccE (schChE c G o) i)).
Lemma sch_f_track tt y q x l : (forall j, q j = venv (tt j) (y j)) -> nrE 9 q x l -> schD c G o l ->
  okT F (fun j => sch_fA (e j) c G o (tt j) (y j)) (fun v => nr8 F u v (fun j => out8 (x j) (schX (x j))) (out8 l (schX l))).
Proof.
  intros Eq H D. unfold sch_fA. rewrite Hsys.
  apply (okT_ext F (fun j => let* k := cotA (e j) (q j 3%nat) in tabR 8 (fun i => if Nat.ltb i 4 then Ok (q j (5 + i)%nat) else runF (AA j) (ext 9 (q j) [k]) (schAccE (schChE c G o) (i - 4))))).
  { intros j. rewrite Eq. reflexivity. }
  apply (okT_bind F _ _ _ _ (cot_ok F u K e Hu0 Hu HE (fun j => q j 3%nat) (fun j => x j 3%nat) (l 3%nat) (proj2 (proj2 D)) (H 3%nat ltac:(lia)))). intros k Nk.
  assert (N := cot_env q x l k H Nk).
  destruct (tabR_ok F u 8 (fun i j => if Nat.ltb i 4 then Ok (q j (5 + i)%nat) else runF (AA j) (ext 9 (q j) [k j]) (schAccE (schChE c G o) (i - 4)))
    (fun i j => nth i (out8 (x j) (schX (x j))) 0) (fun i => nth i (out8 l (schX l)) 0)) as (v & E & N').
  { intros i Hi. rewrite nth_out8 by exact Hi. apply (okT_imp F _ (fun v => nrF v (fun j => if Nat.ltb i 4 then x j (5 + i)%nat else q4nth (schX (x j)) (i - 4)) (if Nat.ltb i 4 then l (5 + i)%nat else q4nth (schX l) (i - 4)))).
    { intros v. apply (nr_ext_all F u); [reflexivity|]. intros j. rewrite nth_out8 by exact Hi. reflexivity. }
    destruct (Nat.ltb_spec i 4) as [L|L]; [apply (okT_ok F); apply H; lia|]. unfold schX. rewrite q4nth_tab by lia.
    destruct (sch_acc_def (schChE c G o) (S1 l) (fun i j k => sch_ch_def c G o Hc (S1 l) i j k D) (i - 4) ltac:(lia)) as [B1 B2].
    apply (okT_imp F _ (fun v => nrF v (fun j => meaning (S1 (x j)) (schAccE (schChE c G o) (i - 4))) (meaning (S1 l) (schAccE (schChE c G o) (i - 4))))).
    { intros v. apply (nr_ext_all F u); [reflexivity|]. intros j. rewrite q4nth_tab by lia. reflexivity. }
    apply (runF_ok F u K e Hu0 Hu HE 10 (fun j => ext 9 (q j) [k j]) (fun j => S1 (x j)) (S1 l) _ N B1 B2). }
  exists v. split; [exact E|]. exact N'.
Qed.
End Track.
