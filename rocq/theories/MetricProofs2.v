From Coq Require Import Reals List ZArith Lra Lia Bool.
From Coquelicot Require Import Coquelicot.
From Verif Require Import Base Calc GeoUtilsModel GeoUtilsProofs CoordModel CoordProofs2 ConvModel ConvProofs MetricModel MetricSpec MetricProofs.
Import ListNotations.
Open Scope R_scope.

Lemma finite_if_ok {A} dens (a : A) : List.Forall (fun d => d <> 0) dens -> finite_if dens a = Ok a.
Proof.
  intros H. unfold finite_if. replace (existsb _ dens) with false; [reflexivity|].
  symmetry. induction H as [|d l Hd _ IH]; [reflexivity|]. simpl. destruct (Req_EM_T d 0); [contradiction|exact IH].
Qed.
Lemma finite_if_inv {A} dens (a b : A) : finite_if dens a = Ok b -> b = a /\ List.Forall (fun d => d <> 0) dens.
Proof.
  unfold finite_if. destruct (existsb _ dens) eqn:E; [discriminate|]. intros H; apply Ok_inj in H. split; [auto|].
  clear H. induction dens as [|d l IH]; [constructor|]. simpl in E. destruct (Req_EM_T d 0); [discriminate|].
  constructor; [assumption|apply IH; exact E].
Qed.

Lemma path_coord p t v k : has_velocity p t v -> (k < 4)%nat -> is_derive (fun s => q4nth (p s) k) t (q4nth v k).
Proof. auto. Qed.
Lemma path_r p t v : has_velocity p t v -> is_derive (fun s => c1 (p s)) t (c1 v).
Proof. intros H. exact (H 1%nat ltac:(lia)). Qed.
Lemma path_th p t v : has_velocity p t v -> is_derive (fun s => c2 (p s)) t (c2 v).
Proof. intros H. exact (H 2%nat ltac:(lia)). Qed.

Lemma sq_pow2 x : x ^ 2 = x * x. Proof. ring. Qed.
Lemma sin2_pow x : sin x ^ 2 = 1 - cos x ^ 2.
Proof. assert (H := sin2_cos2 x). unfold Rsqr in H. lra. Qed.

(** ** Schwarzschild *)
Definition sch_dg (c r_s r th : R) : arr3 :=
  let d := zeros3 in
  let d := set3 d 1 0 0 (c ^ 2 * r_s / r ^ 2) in
  let d := set3 d 1 1 1 (r_s / r ^ 2 / (1 - r_s / r) ^ 2) in
  let d := set3 d 1 2 2 (-2 * r) in
  let d := set3 d 1 3 3 (-2 * r * sin th ^ 2) in
  set3 d 2 3 3 (-2 * r ^ 2 * sin th * cos th).

Lemma sch_gradient c G o x : mo_sys o = Sph -> c1 x <> 0 -> 1 - sch_rad c G o / c1 x <> 0 ->
  is_gradient (sch_cov c G o) x (sch_dg c (sch_rad c G o) (c1 x) (c2 x)).
Proof.
  intros Hs H1 H2 p t v Hp Hv. assert (Dr := path_r p t v Hv). assert (Dt := path_th p t v Hv).
  rewrite <- Hp in *. clear x Hp. set (rs := sch_rad c G o) in *.
  assert (Ldom : locally t (fun s => c1 (p s) <> 0 /\ 1 - rs / c1 (p s) <> 0)).
  { apply filter_and.
    - apply locally_nonzero; [|exact H1]. eapply D_continuous; exact Dr.
    - apply (locally_nonzero (fun s => 1 - rs / c1 (p s))); [|exact H2].
      eapply D_continuous. apply (D_minus (fun _ => 1) (fun s => rs / c1 (p s))); [apply D_const|].
      apply (D_div (fun _ => rs) (fun s => c1 (p s))); [exact H1|apply D_const|exact Dr]. }
  assert (L : locally t (fun s => sch_cov c G o (p s) = Ok (sch_g c rs (c1 (p s)) (c2 (p s))))).
  { revert Ldom. apply filter_imp. intros s [A B]. unfold sch_cov. rewrite Hs. fold rs. apply finite_if_ok.
    repeat constructor; assumption. }
  split; [revert L; apply filter_imp; intros s E; eauto|].
  intros i j Hi Hj.
  apply D_loc with (f := fun s => mnth (sch_g c rs (c1 (p s)) (c2 (p s))) i j).
  { revert L; apply filter_imp; intros s E. rewrite E. reflexivity. }
  assert (NZ : c1 (p t) - rs <> 0).
  { intros E. apply H2. replace rs with (c1 (p t)) by lra. field. exact H1. }
  idx4 i Hi; (idx4 j Hj);
  cbv [sch_dg set3 zeros3 sum4 mnth q4nth sch_g Nat.eqb andb]; cbn [c0 c1 c2 c3];
  D_auto; try assumption; simpl INR; simpl pred; try ring; field; repeat split; assumption.
Qed.

Lemma det_sch c rs r th : r <> 0 -> 1 - rs / r <> 0 -> det4 (sch_g c rs r th) = - (c ^ 2 * r ^ 4 * sin th ^ 2).
Proof.
  intros H1 H2. cbv [det4 minor4 skip sch_g mnth q4nth Nat.ltb Nat.leb]; cbn [c0 c1 c2 c3].
  assert (r - rs <> 0). { intros E. apply H2. replace rs with r by lra. field; exact H1. }
  field. split; assumption.
Qed.

(** every entry of an array of shape (4,4,4), checked one by one *)
Definition eq3 (a b : arr3) : Prop := forall i k l, (i < 4)%nat -> (k < 4)%nat -> (l < 4)%nat -> a i k l = b i k l.

Definition diag_inv (g : M4) : M4 := mtab (fun i j => if Nat.eqb i j then / mnth g i i else 0).

Lemma sch_connection c G o x ch : c <> 0 -> sch_christoffels c G o x = Ok ch -> is_connection (sch_cov c G o) x ch.
Proof.
  intros Hc H. unfold sch_christoffels in H. destruct (mo_sys o) eqn:Hs; try discriminate.
  apply finite_if_inv in H. destruct H as [-> H]. set (rs := sch_rad c G o) in *.
  inversion_clear H as [|? ? H1 H']. inversion_clear H' as [|? ? H2 H'']. inversion_clear H'' as [|? ? H3 _].
  set (r := c1 x) in *. set (th := c2 x) in *.
  assert (Hr : r - rs <> 0). { intros E. apply H2. replace rs with r by lra. ring. }
  assert (H4 : 1 - rs / r <> 0). { intros E. apply Hr. replace (r - rs) with (r * (1 - rs / r)) by (field; exact H1). rewrite E. ring. }
  exists (sch_g c rs r th), (diag_inv (sch_g c rs r th)), (sch_dg c rs r th).
  split; [unfold sch_cov; rewrite Hs; apply finite_if_ok; repeat constructor; assumption|].
  split; [|split].
  - split; apply M4_eq; intros i j Hi Hj; rewrite mm_entry by assumption; unfold id4, diag_inv; rewrite mnth_tab by assumption;
    unfold sum4; rewrite !(mnth_tab (fun i j => if Nat.eqb i j then / mnth (sch_g c rs r th) i i else 0)) by (assumption || lia);
    idx4 i Hi; (idx4 j Hj); cbv [sch_g mnth q4nth Nat.eqb]; cbn [c0 c1 c2 c3]; try ring; field;
    repeat split; assumption.
  - apply sch_gradient; assumption.
  - intros i k l Hi Hk Hl. unfold levi_civita, sum4, diag_inv.
    rewrite !(mnth_tab (fun i j => if Nat.eqb i j then / mnth (sch_g c rs r th) i i else 0)) by (assumption || lia).
    assert (Hr2 : rs * r - r ^ 2 <> 0) by exact H2.
    assert (Hr3 : rs - r <> 0) by lra.
    idx4 i Hi; (idx4 k Hk); (idx4 l Hl);
    cbv [sch_ch set3 set3s zeros3 sch_dg sch_g mnth q4nth Nat.eqb andb]; cbn [c0 c1 c2 c3]; try ring;
    field; repeat split; assumption.
Qed.
