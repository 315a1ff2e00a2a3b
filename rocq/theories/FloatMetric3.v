(** Rounding errors of christoffels, f_vec and the electromagnetic tensor. *)
From Coq Require Import String Reals List ZArith Lra Lia Bool.
From Coquelicot Require Import Coquelicot.
From Verif Require Import Base Calc DualModel DualSpec DualProofs DualDiff GeoUtilsModel GeoUtilsSpec GeoUtilsProofs CoordModel CoordProofs2 ConvModel ConvProofs FantasyModel FantasyHam ProgCont FantasyOrder
  MetricModel MetricSpec MetricProofs MetricProofs2 MetricProofs3 MetricProofs4 FloatModel FloatTrack FloatRK.
From Verif Require Import FloatMetricModel FloatMetric FloatMetric2.
Import ListNotations.
Open Scope R_scope.

Section Track.
Context {J : Type} (F : (J -> Prop) -> Prop) {FF : Filter F} (u : J -> R) (K : R) (e : J -> fenv).
Hypothesis HK : 0 <= K.
Hypothesis Hu0 : F (fun j => 0 <= u j).
Hypothesis Hu : filterlim u F (locally 0).
Hypothesis HE : F (fun j => good K (u j) (e j)).
Notation AA := (AA e).
Notation nrF := (nr F u).
Notation oktoF := (okto F u).
Notation nrE := (nrE F u).
Let HAA := HAA F u K e HE.

Lemma dot_comm v w : dot v w = dot w v.
Proof. unfold dot. ring. Qed.
Lemma mm_entry (m k : M4) a b : (a < 4)%nat -> (b < 4)%nat -> mnth (mm m k) a b = dot (q4nth m a) (q4nth (transpose k) b).
Proof. intros Ha Hb. unfold mnth, mm. rewrite q4nth_map. unfold mv. rewrite q4nth_map. apply dot_comm. Qed.
Lemma nrM_transpose v x l : nrM F u v x l -> nrM F u (fun j => transpose (v j)) (fun j => transpose (x j)) (transpose l).
Proof.
  intros H a b Ha Hb. unfold transpose. rewrite mnth_tab' by assumption. generalize (H b a Hb Ha). apply (nr_ext_all F u); intros j; rewrite mnth_tab' by assumption; reflexivity.
Qed.
Lemma mm_ok v x l w y m : nrM F u v x l -> nrM F u w y m -> oktoM F u (fun j => mmA (e j) (v j) (w j)) (fun j => mm (x j) (y j)) (mm l m).
Proof.
  intros H1 H2. assert (H3 := nrM_transpose _ _ _ H2).
  destruct (evok_mat F (fun a b j => a_dot (AA j) (q4nth (v j) a) (q4nth (transpose (w j)) b)) (fun a b z => nrF z (fun j => dot (q4nth (x j) a) (q4nth (transpose (y j)) b)) (dot (q4nth l a) (q4nth (transpose m) b)))) as (z & Ez & Hz).
  { intros a b Ha Hb. apply (okto_dot F u AA Hu0 Hu HAA); apply nrM_row; assumption. }
  exists (fun j => mtab (fun a b => z a b j)). split; [exact Ez|]. intros a b Ha Hb. rewrite mm_entry by assumption. generalize (Hz a b Ha Hb).
  apply (nr_ext_all F u); intros j; [rewrite mnth_tab' by assumption; reflexivity|rewrite mm_entry by assumption; reflexivity].
Qed.

Section Objects.
Variables (c G Cc : R) (o : mobj).
Hypothesis Hc : c <> 0.
Notation Z1 := (E1 c G Cc o).
Notation sgv := (sgv c G o).
Notation dlv := (dlv c G Cc o).
(** base environments: lambda_, position, velocity *)
Definition velz (z : nat -> R) : V4 := q4tab (fun i => z (5 + i)%nat).
Definition out8 (z : nat -> R) (a : V4) : list R := map (fun i => if Nat.ltb i 4 then z (5 + i)%nat else q4nth a (i - 4)) (seq 0 8).
Lemma nth_out8 z a i : (i < 8)%nat -> nth i (out8 z a) 0 = if Nat.ltb i 4 then z (5 + i)%nat else q4nth a (i - 4).
Proof. intros H. unfold out8. do 8 (destruct i as [|i]; [reflexivity|]). lia. Qed.
Definition nr8 (v : J -> list R) (x : J -> list R) (l : list R) : Prop := forall i, (i < 8)%nat -> nrF (fun j => nth i (v j) 0) (fun j => nth i (x j) 0) (nth i l 0).
Lemma out8_ok q x l a y m : nrE 9 q x l -> nrV F u a y m -> nr8 (fun j => out8 (q j) (a j)) (fun j => out8 (x j) (y j)) (out8 l m).
Proof.
  intros H1 H2 i Hi. rewrite nth_out8 by exact Hi. apply (nr_ext_all F u (fun j => if Nat.ltb i 4 then q j (5 + i)%nat else q4nth (a j) (i - 4)) (fun j => if Nat.ltb i 4 then x j (5 + i)%nat else q4nth (y j) (i - 4))).
  { intros j. rewrite nth_out8 by exact Hi. reflexivity. } { intros j. rewrite nth_out8 by exact Hi. reflexivity. }
  destruct (Nat.ltb_spec i 4); [apply H1; lia|apply H2; lia].
Qed.
(** a Boyer-Lindquist class *)
Definition blX (cov : nat -> nat -> pexpr) (dg : nat -> nat -> nat -> pexpr) (z : nat -> R) : V4 := q4tab (fun i => meaning (E2 c G Cc o cov z) (blAccE (blChE dg) i)).
Definition class (cov : nat -> nat -> pexpr) (dg : nat -> nat -> nat -> pexpr) : Prop :=
  (forall w i j, w 9%nat <> 0 -> w 10%nat <> 0 -> (i < 4)%nat -> (j < 4)%nat -> below 11 (cov i j) = true /\ defined_at w (cov i j)) /\
  (forall w k i j, w 9%nat <> 0 -> w 10%nat <> 0 -> (k < 4)%nat -> (i < 4)%nat -> (j < 4)%nat -> below 11 (dg k i j) = true /\ defined_at w (dg k i j)).
Lemma kerr_class : class (kerrCovE c G o) (kerrDgE c G o).
Proof. split; [exact (kerr_cov_def c G o Hc)|exact (kerr_dg_def c G o Hc)]. Qed.
Lemma kn_class : class (knCovE c G o) (knDgE c G o).
Proof. split; [exact (kn_cov_def c G o Hc)|exact (kn_dg_def c G o Hc)]. Qed.
Section Class.
Variables (par : J -> (nat -> R) -> Res (nat -> R)) (cov : nat -> nat -> pexpr) (dg : nat -> nat -> nat -> pexpr).
Hypothesis Hp : parok F u c G Cc o par.
Hypothesis Hcl : class cov dg.
Hypothesis Hsys : mo_sys o = BL.
Lemma cov_track q x l : nrE 9 q x l -> sgv l <> 0 -> dlv l <> 0 -> oktoM F u (fun j => bl_covA (e j) o (par j) cov (q j)) (fun j => gM c G Cc o cov (x j)) (gM c G Cc o cov l).
Proof. intros H S D. apply (cov_ok F u K e Hu0 Hu HE c G Cc o par cov q x l Hp H S Hsys). intros i j. apply (proj1 Hcl); [exact S|exact D]. Qed.
Lemma env_track q x l : nrE 9 q x l -> sgv l <> 0 -> dlv l <> 0 -> det4 (gM c G Cc o cov l) <> 0 ->
  okT F (fun j => bl_envA (e j) o (par j) cov (q j)) (fun w => nrE 27 w (fun j => E2 c G Cc o cov (x j)) (E2 c G Cc o cov l)).
Proof. intros H S D Dt. apply (env_ok F u K e HK Hu0 Hu HE c G Cc o par cov q x l Hp H S Hsys); [|exact Dt]. intros i j. apply (proj1 Hcl); [exact S|exact D]. Qed.
Lemma ch_track q x l : nrE 9 q x l -> sgv l <> 0 -> dlv l <> 0 -> det4 (gM c G Cc o cov l) <> 0 ->
  okT F (fun j => bl_chA (e j) o (par j) cov dg (q j)) (fun v => nr3 F u v (fun j i a b => meaning (E2 c G Cc o cov (x j)) (blChE dg i a b)) (fun i a b => meaning (E2 c G Cc o cov l) (blChE dg i a b))).
Proof.
  intros H S D Dt. unfold bl_chA. apply (okT_bind F _ _ _ _ (env_track q x l H S D Dt)). intros w N. apply (arr3_ok F u K e Hu0 Hu HE 27 w (fun j => E2 c G Cc o cov (x j)) (E2 c G Cc o cov l) (blChE dg) N).
  apply bl_ch_def. intros k i j. apply (proj2 Hcl); [exact S|exact D].
Qed.
Lemma acc_track q x l : nrE 9 q x l -> sgv l <> 0 -> dlv l <> 0 -> det4 (gM c G Cc o cov l) <> 0 ->
  oktoV F u (fun j => bl_accA (e j) o (par j) cov dg (q j)) (fun j => blX cov dg (x j)) (blX cov dg l).
Proof.
  intros H S D Dt. unfold bl_accA. apply (okT_bind F _ _ _ _ (env_track q x l H S D Dt)). intros w N. apply (vec_ok F u K e Hu0 Hu HE 27 w (fun j => E2 c G Cc o cov (x j)) (E2 c G Cc o cov l) _ N).
  apply bl_acc_def. apply bl_ch_def. intros k i j. apply (proj2 Hcl); [exact S|exact D].
Qed.
Lemma inv_track' q x l : nrE 9 q x l -> sgv l <> 0 -> dlv l <> 0 -> det4 (gM c G Cc o cov l) <> 0 ->
  oktoM F u (fun j => bl_invA (e j) o (par j) cov (q j)) (fun j => inv4 (gM c G Cc o cov (x j))) (inv4 (gM c G Cc o cov l)).
Proof. intros H S D Dt. unfold bl_invA. apply (okT_bind F _ _ _ _ (cov_track q x l H S D)). intros v N. apply (inv_track F u K e HK Hu0 Hu HE v (fun j => gM c G Cc o cov (x j))); assumption. Qed.
End Class.
(** Kerr.f_vec *)
Lemma kerr_f_track tt y q x l : (forall j, q j = venv (tt j) (y j)) -> valid_spin o -> mo_sys o = BL -> nrE 9 q x l -> sgv l <> 0 -> dlv l <> 0 -> det4 (gM c G Cc o (kerrCovE c G o) l) <> 0 ->
  okT F (fun j => kerr_fA (e j) c G Cc o (tt j) (y j)) (fun v => nr8 v (fun j => out8 (x j) (blX (kerrCovE c G o) (kerrDgE c G o) (x j))) (out8 l (blX (kerrCovE c G o) (kerrDgE c G o) l))).
Proof.
  intros Eq S Sy H D1 D2 D3. unfold kerr_fA. apply (okT_ext F (fun j => let* a := bl_accA (e j) o (kerr_parA (e j) c G Cc o) (kerrCovE c G o) (kerrDgE c G o) (q j) in Ok (out8 (q j) a))).
  { intros j. rewrite Eq. reflexivity. }
  apply (okT_bind F _ _ _ _ (acc_track _ _ _ (kerr_par_ok F u K e Hu0 Hu HE c G Cc o Hc S) kerr_class Sy q x l H D1 D2 D3)). intros a N. apply (okT_ok F). apply out8_ok; assumption.
Qed.
(** the electromagnetic tensor *)
Definition rQv : R := sqrt (meaning (fun _ => 0) (#(q_val (mo_Q o)) .^ 2 .* EConst G .* EConst Cc ./ EConst c .^ 4)).
Hypothesis HG : 0 < G.
Hypothesis HC : 0 < Cc.
Lemma nr_ev (v : J -> R) k : F (fun j => v j = k) -> nrF v (fun _ => k) k.
Proof. intros H. apply (nr_ext F u (fun _ => k) (fun _ => k)); [|apply filter_forall; reflexivity|apply (nr_const F u)]. revert H. apply filter_imp. intros j E. symmetry. exact E. Qed.
Lemma rQ_ok q x l : nrE 9 q x l -> okT F (fun j => let* rQ2 := runF (AA j) (q j) (#(q_val (mo_Q o)) .^ 2 .* EConst G .* EConst Cc ./ EConst c .^ 4) in a_sqrt (AA j) rQ2) (fun v => nrF v (fun _ => rQv) rQv).
Proof.
  intros H. destruct (Req_dec (q_val (mo_Q o)) 0) as [Q0|Q0].
  - assert (rQv = 0) as ->. { unfold rQv. rewrite Q0. cbn [meaning]. replace (powerRZ 0 2 * G * Cc / powerRZ c 4) with 0; [apply sqrt_0|]. change (powerRZ 0 2) with (0 ^ 2). unfold Rdiv. ring. }
    rewrite Q0. destruct (okto_num F u AA Hu0 Hu HAA G) as (g' & Eg & _). destruct (okto_num F u AA Hu0 Hu HAA Cc) as (k' & Ek & _). destruct (okto_num F u AA Hu0 Hu HAA c) as (c' & Ec & Nc).
    assert (Z4 : (0 <= 4)%Z) by lia. destruct (okto_pow F u AA Hu0 Hu HAA _ _ _ 4 (or_introl Z4) Nc) as (d & Ed & Nd). assert (D0 := nr_ne0 F u Hu0 Hu _ _ _ (c4ne c Hc) Nd).
    exists (fun _ => 0). split; [|apply (nr_const F u)]. unfold evok in *. generalize (filter_and _ _ (filter_and _ _ (filter_and _ _ Eg Ek) (filter_and _ _ Ec Ed)) (filter_and _ _ D0 HE)). apply filter_imp.
    intros j [[[X1 X2] [X3 X4]] [X5 (_ & _ & _ & Y1 & Y2 & Y3 & Y4 & Y5)]]. unfold runF. cbn [runA]. change (fe_A (e j)) with (AA j) in *. rewrite X1, X2, X3, Y1. cbn [bindR mapR py_powZA]. rewrite Y2, X4. cbn [bindR mapR py_mulA]. rewrite Y3. cbn [bindR mapR py_mulA]. rewrite Y3. cbn [bindR mapR py_divA].
    rewrite Y4 by exact X5. cbn [bindR mapR pf_only]. exact Y5.
  - assert (P : 0 < meaning l (#(q_val (mo_Q o)) .^ 2 .* EConst G .* EConst Cc ./ EConst c .^ 4)).
    { cbn [meaning]. change (powerRZ (q_val (mo_Q o)) 2) with (q_val (mo_Q o) ^ 2). change (powerRZ c 4) with (c ^ 4). assert (0 < q_val (mo_Q o) ^ 2) by (apply pow2_gt_0; exact Q0). assert (0 < c ^ 4) by (replace (c ^ 4) with ((c ^ 2) ^ 2) by ring; apply pow2_gt_0; apply pow_nonzero; exact Hc).
      apply Rdiv_lt_0_compat; [|assumption]. apply Rmult_lt_0_compat; [apply Rmult_lt_0_compat|]; assumption. }
    apply (okT_bind F _ (fun v => nrF v (fun j => meaning (x j) (#(q_val (mo_Q o)) .^ 2 .* EConst G .* EConst Cc ./ EConst c .^ 4)) (meaning l (#(q_val (mo_Q o)) .^ 2 .* EConst G .* EConst Cc ./ EConst c .^ 4)))).
    { apply (runF_ok F u K e Hu0 Hu HE 9); [exact H|reflexivity|]. cbn [defined_at meaning]. repeat split; try (left; discriminate). exact (c4ne c Hc). }
    intros v N. exact (okto_sqrt F u AA Hu0 Hu HAA _ _ _ P N).
Qed.
Definition FM (z : nat -> R) : M4 := mtab (fun a b => meaning (ext 11 (Z1 z) [rQv]) (emE c G o a b)).
Lemma em_cov_track q x l : valid_spin o -> nrE 9 q x l -> sgv l <> 0 -> oktoM F u (fun j => em_covA (e j) c G Cc o (q j)) (fun j => FM (x j)) (FM l).
Proof.
  intros S H D. unfold em_covA. apply (okT_bind F _ _ _ _ (kn_par_ok F u K e Hu0 Hu HE c G Cc o Hc S q x l H D)). intros w N.
  assert (Q := rQ_ok q x l H). destruct Q as (rq & Er & Nr).
  apply (okT_ev F (fun j => matF (AA j) (ext 11 (w j) [rq j]) (emE c G o))).
  { unfold evok in Er. revert Er. apply filter_imp. intros j E. change (fe_A (e j)) with (AA j) in *. destruct (runF (AA j) (q j) _) as [r2|]; [|discriminate E]. cbn [bindR] in E |- *. rewrite E. reflexivity. }
  apply (matF_ok F u K e Hu0 Hu HE 12 (fun j => ext 11 (w j) [rq j]) (fun j => ext 11 (Z1 (x j)) [rQv]) (ext 11 (Z1 l) [rQv])).
  { apply (ext_ok F u 11 1 w (fun j => Z1 (x j)) (Z1 l) (fun j => [rq j]) (fun _ => [rQv])); [exact N|]. intros [|i] Hi; [exact Nr|lia]. }
  intros a b Ha Hb. assert (D' : ext 11 (Z1 l) [rQv] 9%nat <> 0) by exact D. assert (D2 : powerRZ (ext 11 (Z1 l) [rQv] 9%nat) 2 <> 0) by (apply powerRZ_NOR; exact D'). assert (P := c2ne c Hc). split; [nat4' a Ha; (nat4' b Hb); reflexivity|].
  nat4' a Ha; (nat4' b Hb); unfold emE, alphaE; cbn [defined_at meaning]; repeat match goal with |- _ /\ _ => split end; try exact I; try (left; discriminate); first [exact P|exact D2].
Qed.
Definition FcM (z : nat -> R) : M4 := let gi := inv4 (gM c G Cc o (knCovE c G o) z) in mm (mm gi (FM z)) gi.
Lemma em_contra_track q x l : valid_spin o -> mo_sys o = BL -> nrE 9 q x l -> sgv l <> 0 -> dlv l <> 0 -> det4 (gM c G Cc o (knCovE c G o) l) <> 0 ->
  oktoM F u (fun j => em_contraA (e j) c G Cc o (q j)) (fun j => FcM (x j)) (FcM l).
Proof.
  intros S Sy H D1 D2 D3. unfold em_contraA. apply (okT_bind F _ _ _ _ (em_cov_track q x l S H D1)). intros f N1.
  apply (okT_bind F _ _ _ _ (inv_track' _ _ _ (kn_par_ok F u K e Hu0 Hu HE c G Cc o Hc S) kn_class Sy q x l H D1 D2 D3)). intros gc N2.
  apply (okT_bind F _ _ _ _ (mm_ok _ _ _ _ _ _ N2 N1)). intros m N3. exact (mm_ok _ _ _ _ _ _ N3 N2).
Qed.
Definition knX (z : nat -> R) : V4 := vsub (blX (knCovE c G o) (knDgE c G o) z) (vscal (q_val (mo_q o)) (mv (transpose (gM c G Cc o (knCovE c G o) z)) (mv (FcM z) (velz z)))).
Lemma vel_ok q x l : nrE 9 q x l -> nrV F u (fun j => velz (q j)) (fun j => velz (x j)) (velz l).
Proof. intros H i Hi. unfold velz. rewrite q4nth_tab by exact Hi. generalize (H (5 + i)%nat ltac:(lia)). apply (nr_ext_all F u); intros j; rewrite q4nth_tab by exact Hi; reflexivity. Qed.
Lemma kn_f_track tt y q x l : (forall j, q j = venv (tt j) (y j)) -> valid_spin o -> mo_sys o = BL -> nrE 9 q x l -> sgv l <> 0 -> dlv l <> 0 -> det4 (gM c G Cc o (knCovE c G o) l) <> 0 ->
  okT F (fun j => kn_fA (e j) c G Cc o (tt j) (y j)) (fun v => nr8 v (fun j => out8 (x j) (knX (x j))) (out8 l (knX l))).
Proof.
  intros Eq S Sy H D1 D2 D3. assert (Hp := kn_par_ok F u K e Hu0 Hu HE c G Cc o Hc S).
  unfold kn_fA. apply (okT_ext F (fun j => let* a := bl_accA (e j) o (kn_parA (e j) c G Cc o) (knCovE c G o) (knDgE c G o) (q j) in let* f := em_contraA (e j) c G Cc o (q j) in
    let* g := bl_covA (e j) o (kn_parA (e j) c G Cc o) (knCovE c G o) (q j) in let* w := mvA (AA j) f (velz (q j)) in let* w := mvA (AA j) (transpose g) w in
    let* k := a_num (AA j) (q_val (mo_q o)) in let* w := vscalA (AA j) k w in let* a := vsubA (AA j) a w in Ok (out8 (q j) a))).
  { intros j. rewrite Eq. reflexivity. }
  apply (okT_bind F _ _ _ _ (acc_track _ _ _ Hp kn_class Sy q x l H D1 D2 D3)). intros a Na.
  apply (okT_bind F _ _ _ _ (em_contra_track q x l S Sy H D1 D2 D3)). intros f Nf.
  apply (okT_bind F _ _ _ _ (cov_track _ _ _ Hp kn_class Sy q x l H D1 D2)). intros g Ng.
  apply (okT_bind F _ _ _ _ (oktoV_mv F u AA Hu0 Hu HAA _ _ _ _ _ _ Nf (vel_ok q x l H))). intros w1 N1.
  apply (okT_bind F _ _ _ _ (oktoV_mv F u AA Hu0 Hu HAA _ _ _ _ _ _ (nrM_transpose _ _ _ Ng) N1)). intros w2 N2.
  apply (okT_bind F _ _ _ _ (okto_num F u AA Hu0 Hu HAA (q_val (mo_q o)))). intros k Nk.
  apply (okT_bind F _ _ _ _ (oktoV_scal F u AA Hu0 Hu HAA _ _ _ _ _ _ Nk N2)). intros w3 N3.
  apply (okT_bind F _ _ _ _ (oktoV_sub F u AA Hu0 Hu HAA _ _ _ _ _ _ Na N3)). intros a' Na'. apply (okT_ok F). apply out8_ok; [exact H|exact Na'].
Qed.
End Objects.
End Track.
