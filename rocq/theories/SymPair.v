(** What [covariant_pair] means in terms of the stored array alone. *)
From Coq Require Import String Ascii List Arith Lia Bool Setoid Morphisms Ring.
From Verif Require Import Base SymAlg SymModel SymLoops SymGeo SymGeo2 SymMove SymConn.
Import ListNotations.
Open Scope nat_scope.

(** the covariant components of a metric stored with covariant indices are the stored ones *)
Lemma covariant_stored : forall (A : dops) (m : metric A) (g gi : nat -> nat -> A),
  m_cfg m = ["l"; "l"]%char ->
  (covariant_pair m g gi <-> (g = (fun i j => m_arr m [i; j]) /\ kminv (m_n m) g = Some gi)).
Proof.
  intros A m g gi H. unfold covariant_pair, m_lower. change ["l"%char; "l"%char] with (cf "ll") in H. rewrite H, cfg_eqb_refl. split.
  - intros [low [E [Eg K]]]. injection E as <-. split; [symmetry; exact Eg|exact K].
  - intros [-> K]. exists m. split; [reflexivity|split; [reflexivity|exact K]].
Qed.
(** those of a metric stored with contravariant indices are the entries of the (simplified) inverse matrix *)
Lemma contravariant_stored : forall (A : dops) (m : metric A) (g gi : nat -> nat -> A),
  m_cfg m = ["u"; "u"]%char ->
  (covariant_pair m g gi <->
   exists h, kminv (m_n m) (fun i j => m_arr m [i; j]) = Some h /\ g = (fun i j => ksimp (h i j)) /\ kminv (m_n m) g = Some gi).
Proof.
  intros A m g gi H. unfold covariant_pair, m_lower, m_inv, m_change_config. change ["u"%char; "u"%char] with (cf "uu") in H. rewrite H.
  change (cfg_eqb (cf "uu") (cf "ll")) with false. change (cfg_eqb (cf "ll") (cf "uu")) with false.
  change (cfg_eqb (cf "ll") (cf "ll")) with true. cbn [orb].
  change (fun i j => m_arr m [i; j]) with (mat_of (m_arr m)). destruct (kminv (m_n m) (mat_of (m_arr m))) as [h|]; split.
  - intros [low [E [Eg K]]]. injection E as <-. exists h. split; [reflexivity|]. split; [symmetry; exact Eg|exact K].
  - intros [h' [E [-> K]]]. injection E as <-. eexists. split; [reflexivity|]. split; [reflexivity|exact K].
  - intros [low [E _]]. discriminate.
  - intros [h' [E _]]. discriminate.
Qed.
(** so in both cases the two matrices are mutually inverse and one of them has the values of the stored array *)
Lemma pair_of_metric : forall (A : dops) (L : dlaws A) (m : metric A) (g gi : nat -> nat -> A),
  covariant_pair m g gi ->
  inverse_metrics (m_n m) g gi
  /\ (m_cfg m = ["l"; "l"]%char -> forall i j, g i j = m_arr m [i; j])
  /\ (m_cfg m = ["u"; "u"]%char -> forall i j, i < m_n m -> j < m_n m -> (gi i j == m_arr m [i; j])%K).
Proof.
  intros A L m g gi HP.
  assert (HI : inverse_metrics (m_n m) g gi).
  { destruct HP as [low [_ [_ K]]]. intros i j Hi Hj. exact (kminv_law A L _ g gi K i j Hi Hj). }
  split; [exact HI|]. split.
  - intros H i j. apply (covariant_stored A m g gi H) in HP as [-> _]. reflexivity.
  - intros H i j Hi Hj. apply (contravariant_stored A m g gi H) in HP as [h [E [Eg K]]].
    assert (Eh := kminv_law A L _ _ _ E).
    pose proof (keq_equiv A L) as Q. pose proof (kmul_p A L) as Pm. pose proof (kadd_p A L) as Pa.
    pose proof (k_ring A L) as RT.
    set (n := m_n m) in *. set (a := fun i j => m_arr m [i; j]) in *. change (m_arr m [i; j]) with (a i j).
    (* gi = (a h) gi = a (h gi) = a *)
    transitivity (ksum n (fun p => kdelta i p * gi p j)%K); [symmetry; apply (ksum_delta L n i (fun p => gi p j) Hi)|].
    transitivity (ksum n (fun p => ksum n (fun q => a i q * h q p) * gi p j)%K).
    { apply (ksum_ext L). intros p Hp. apply Pm; [|reflexivity]. symmetry. apply (Eh i p Hi Hp). }
    transitivity (ksum n (fun p => ksum n (fun q => a i q * h q p * gi p j))%K).
    { apply (ksum_ext L). intros p Hp. symmetry. apply (ksum_r L). }
    transitivity (ksum n (fun q => ksum n (fun p => a i q * h q p * gi p j))%K); [apply (ksum_swap L)|].
    transitivity (ksum n (fun q => a i q * ksum n (fun p => g q p * gi p j))%K).
    { apply (ksum_ext L). intros q Hq.
      transitivity (ksum n (fun p => a i q * (g q p * gi p j))%K); [|apply (ksum_l L)].
      apply (ksum_ext L). intros p Hp. rewrite (Rmul_assoc RT). apply Pm; [|reflexivity].
      apply Pm; [reflexivity|]. rewrite Eg. symmetry. apply (ksimp_law A L). }
    transitivity (ksum n (fun q => a i q * kdelta q j)%K).
    { apply (ksum_ext L). intros q Hq. apply Pm; [reflexivity|]. apply (HI q j Hq Hj). }
    apply (ksum_delta_r L n j (fun q => a i q) Hj).
Qed.
(** a covariantly stored matrix that sympy cannot invert is refused by ChristoffelSymbols.from_metric *)
Lemma chr_singular_stored : forall (A : dops) (m : metric A), m_cfg m = ["l"; "l"]%char -> kminv (m_n m) (fun i j => m_arr m [i; j]) = None ->
  christoffels_from_metric m = Err ValueError.
Proof.
  intros A m H K. unfold christoffels_from_metric, m_lower. change ["l"%char; "l"%char] with (cf "ll") in H. rewrite H, cfg_eqb_refl. cbn [bindR].
  change (mat_of (m_arr m)) with (fun i j => m_arr m [i; j]). rewrite K. reflexivity.
Qed.
