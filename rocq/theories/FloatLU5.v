(** FloatLU.v: the computed inverse of a 4 x 4 matrix. *)
From Coq Require Import String Reals List ZArith Lra Lia Bool.
From Verif Require Import Base DualModel DualProofs GeoUtilsModel MetricModel MetricSpec MetricProofs FloatModel FloatExact FloatGlobal.
From Verif Require Import FloatLU FloatLU2 FloatLU3 FloatLU4.
Import ListNotations.
Open Scope R_scope.

(** ** exact arithmetic *)
Lemma back_exact X : forall us, backA exact us X = Ok (back us X).
Proof. induction X as [|x X IH]; intros us; [reflexivity|]. destruct us as [|u us]; [reflexivity|]. cbn [backA back]. rewrite IH. cbn [bindR]. apply axpy_exact. Qed.
Lemma divs_exact y l : y <> 0 -> seqR (fun z => a_div exact z y) l = Ok (map (fun z => z / y) l).
Proof. intros H. induction l as [|x l IH]; [reflexivity|]. cbn [seqR map]. cbn [a_div exact]. rewrite fdiv_ok by exact H. cbn [bindR]. change (a_div exact) with fdiv in IH. rewrite IH. reflexivity. Qed.
Lemma after_exact n p R0 : hd 0 (nth p R0 []) <> 0 -> afterA exact n p R0 = (let* X := gesvA exact n (step p R0) in Ok (map (fun y => y / hd 0 (nth p R0 [])) (back (tl (nth p R0 [])) X) :: X)).
Proof.
  intros H. unfold afterA. rewrite step_pick. assert (E := pick_fst [] p R0). destruct (pick [] p R0) as [r rest]. cbn [fst snd] in *. subst r.
  cbn [a_div exact]. rewrite fdiv_ok by exact H. cbn [bindR]. rewrite elim_exact by (unfold Rdiv; ring). cbn [bindR].
  destruct (gesvA exact n _) as [X|]; cbn [bindR]; [|reflexivity]. rewrite back_exact. cbn [bindR]. change fdiv with (a_div exact). rewrite divs_exact by exact H. reflexivity.
Qed.
(** in exact arithmetic the elimination stops with LinAlgError or solves the system *)
Lemma gesv_exact n : forall q R0, shape n (n + q) R0 -> gesvA exact n R0 = Err LinAlgError \/ exists X, gesvA exact n R0 = Ok X /\ shape n q X /\ solves q X R0.
Proof.
  induction n as [|n IH]; intros q R0 Hsh.
  - right. exists []. split; [reflexivity|]. split; [split; [reflexivity|constructor]|]. intros c Hc. destruct R0; [constructor|]. destruct Hsh as (L & _). discriminate L.
  - rewrite gesv_after. cbv zeta. set (p := idamax (map (hd 0) R0)).
    assert (Hp : (p < S n)%nat). { destruct (idamax_spec (map (hd 0) R0)) as (I1 & _). { destruct R0; [destruct Hsh as (L & _); discriminate L|discriminate]. } rewrite map_length, (proj1 Hsh) in I1. exact I1. }
    destruct (Req_EM_T (hd 0 (nth p R0 [])) 0) as [E|Ne]; [left; reflexivity|]. rewrite after_exact by exact Ne.
    assert (Lr : length (nth p R0 []) = S (n + q)). { assert (Fl := proj2 Hsh). rewrite Forall_forall in Fl. apply Fl. apply nth_In. rewrite (proj1 Hsh). exact Hp. }
    destruct (IH q (step p R0) (step_shape n q p R0 Hsh Hp)) as [E|(X & E & (LX & SX) & HX)]; rewrite E; cbn [bindR]; [left; reflexivity|right].
    eexists. split; [reflexivity|]. set (r := nth p R0 []) in *. set (b := back (tl r) X).
    assert (Ltl : length (tl r) = (length X + q)%nat) by (destruct r; cbn in *; lia).
    split.
    + split; [cbn; lia|]. constructor; [|exact SX]. rewrite map_length. destruct q as [|q].
      * unfold b. clear - Ltl SX. revert Ltl. generalize (tl r). induction X as [|y X IH]; intros us L; [cbn in *; lia|]. destruct us as [|u us]; [cbn in L; lia|]. inversion SX; subst. cbn in L. cbn [back]. rewrite axpy_length; rewrite IH by (try assumption; lia); lia.
      * apply (back_nth (S q) X (tl r) 0%nat); [exact Ltl|exact SX|lia].
    + intros c Hc. destruct (back_nth q X (tl r) c Ltl SX Hc) as (Lb & Eb). cbn [col map app].
      apply (step_dot n q p R0 Hsh Hp Ne); [|apply HX; exact Hc]. rewrite pick_fst. fold r. fold (col c X).
      rewrite (nth_indep _ 0 (0 / hd 0 r)) by (rewrite map_length; unfold b; lia). rewrite (map_nth (fun y => y / hd 0 r)). unfold b. rewrite Eb.
      destruct r as [|a r0]; [discriminate Lr|]. cbn [hd tl dotl] in *. field. exact Ne.
Qed.

(** ** the system of np.linalg.inv *)
Definition rows_of (w : M4) : list (list R) := map (fun i => map (fun j => mnth w i j) (seq 0 4)) (seq 0 4).
Lemma lu_rows_shape m : shape 4 (4 + 4) (lu_rows m).
Proof. split; [reflexivity|]. repeat constructor. Qed.
Lemma rows_shape w : shape 4 4 (rows_of w).
Proof. split; [reflexivity|]. repeat constructor. Qed.
Lemma lu_rows_near d v l : (forall i j, (i < 4)%nat -> (j < 4)%nat -> Rabs (mnth v i j - mnth l i j) <= d) -> nears d (lu_rows v) (lu_rows l).
Proof.
  intros H. assert (Hd : 0 <= d) by (eapply Rle_trans; [apply Rabs_pos|apply (H 0%nat 0%nat); lia]).
  assert (Z : forall a : R, Rabs (a - a) <= d) by (intros a; rewrite Rminus_eq_0, Rabs_R0; exact Hd).
  unfold lu_rows. cbn [seq map app Nat.eqb]. repeat (apply Forall2_cons; [repeat (apply Forall2_cons; [first [apply Z|apply H; lia]|]); apply Forall2_nil|]). apply Forall2_nil.
Qed.
Lemma mm_entry' (a b : M4) i j : (i < 4)%nat -> (j < 4)%nat -> mnth (mm a b) i j = mnth a i 0 * mnth b 0 j + mnth a i 1 * mnth b 1 j + mnth a i 2 * mnth b 2 j + mnth a i 3 * mnth b 3 j.
Proof. intros Hi Hj. do 4 (destruct i as [|i]; [do 4 (destruct j as [|j]; [cbv [mm mv transpose mtab q4tab q4map dot mnth q4nth c0 c1 c2 c3]; ring|]); lia|]). lia. Qed.
Lemma id_entry' i j : (i < 4)%nat -> (j < 4)%nat -> mnth id4 i j = if Nat.eqb i j then 1 else 0.
Proof. intros Hi Hj. do 4 (destruct i as [|i]; [do 4 (destruct j as [|j]; [reflexivity|]); lia|]). lia. Qed.
Lemma mnth_ext' (a b : M4) : (forall i j, (i < 4)%nat -> (j < 4)%nat -> mnth a i j = mnth b i j) -> a = b.
Proof.
  intros H. assert (E : forall m : M4, m = mtab (mnth m)) by (intros [[? ? ? ?] [? ? ? ?] [? ? ? ?] [? ? ? ?]]; reflexivity).
  rewrite (E a), (E b). unfold mtab, q4tab. rewrite !H by lia. reflexivity.
Qed.
Lemma lu_solves v w : is_inverse v w <-> solves 4 (rows_of w) (lu_rows v).
Proof.
  assert (G : solves 4 (rows_of w) (lu_rows v) <-> forall i j, (i < 4)%nat -> (j < 4)%nat -> mnth (mm v w) i j = mnth id4 i j).
  { split.
    - intros H i j Hi Hj. specialize (H j Hj). rewrite Forall_forall in H. rewrite mm_entry', id_entry' by assumption.
      assert (E := H _ (in_map _ _ i (proj2 (in_seq 4 0 i) ltac:(lia)))). clear H. revert E. cbv beta.
      do 4 (destruct j as [|j]; [do 4 (destruct i as [|i]; [cbn [seq map app col rows_of nth nege dotl Nat.eqb]; intros E; lra|]); lia|]). lia.
    - intros H c Hc. unfold lu_rows. apply Forall_map. apply Forall_forall. intros i Hi. apply in_seq in Hi. assert (E := H i c ltac:(lia) Hc). rewrite mm_entry', id_entry' in E by lia. revert E.
      do 4 (destruct c as [|c]; [do 4 (destruct i as [|i]; [cbn [seq map app col rows_of nth nege dotl Nat.eqb]; intros E; lra|]); lia|]). lia. }
  rewrite G. split.
  - intros (E & _) i j _ _. rewrite E. reflexivity.
  - intros H. assert (E : mm v w = id4).
    { revert H. generalize (mm v w). intros g H. apply mnth_ext'. exact H. }
    assert (D : det4 v <> 0). { intros Z. assert (Q := det4_mm v w). rewrite E, Z in Q. revert Q. cbv [id4 mtab q4tab mnth q4nth det4 minor4 skip Nat.ltb Nat.leb Nat.eqb c0 c1 c2 c3]. lra. }
    destruct (np_inv_defined v D) as (g & Eg). apply np_inv_ok in Eg.
    replace w with g; [exact Eg|]. destruct Eg as (E1 & E2).
    (* g = g (v w) = w *)
    assert (AS : mm g (mm v w) = mm (mm g v) w).
    { apply mnth_ext'. intros i j Hi Hj. rewrite !mm_entry' by lia. ring. }
    rewrite E, E2 in AS. clear - AS.
    assert (I1 : mm g id4 = g). { apply mnth_ext'. intros i j Hi Hj. rewrite mm_entry', !id_entry' by lia. do 4 (destruct j as [|j]; [cbn [Nat.eqb]; ring|]). lia. }
    assert (I2 : mm id4 w = w). { apply mnth_ext'. intros i j Hi Hj. rewrite mm_entry', !id_entry' by lia. do 4 (destruct i as [|i]; [cbn [Nat.eqb]; ring|]). lia. }
    rewrite I1, I2 in AS. exact AS.
Qed.

Lemma lu_nonsing v w : is_inverse v w -> nonsing 4 4 (lu_rows v).
Proof.
  intros (_ & E) y Ly H. destruct y as [|y0 [|y1 [|y2 [|y3 [|]]]]]; try discriminate Ly. clear Ly.
  assert (Q : forall i, (i < 4)%nat -> mnth v i 0 * y0 + mnth v i 1 * y1 + mnth v i 2 * y2 + mnth v i 3 * y3 = 0).
  { intros i Hi. rewrite Forall_forall in H. assert (T := H _ (in_map _ _ i (proj2 (in_seq 4 0 i) ltac:(lia)))). cbv beta in T. cbn [seq map app repeat dotl] in T. lra. }
  assert (P : forall i, (i < 4)%nat -> (if Nat.eqb i 0 then 1 else 0) * y0 + (if Nat.eqb i 1 then 1 else 0) * y1 + (if Nat.eqb i 2 then 1 else 0) * y2 + (if Nat.eqb i 3 then 1 else 0) * y3 = 0).
  { intros i Hi. rewrite <- !id_entry', <- E, !mm_entry' by lia.
    transitivity (mnth w i 0 * (mnth v 0 0 * y0 + mnth v 0 1 * y1 + mnth v 0 2 * y2 + mnth v 0 3 * y3) + mnth w i 1 * (mnth v 1 0 * y0 + mnth v 1 1 * y1 + mnth v 1 2 * y2 + mnth v 1 3 * y3)
      + mnth w i 2 * (mnth v 2 0 * y0 + mnth v 2 1 * y1 + mnth v 2 2 * y2 + mnth v 2 3 * y3) + mnth w i 3 * (mnth v 3 0 * y0 + mnth v 3 1 * y1 + mnth v 3 2 * y2 + mnth v 3 3 * y3)); [ring|]. rewrite !Q by lia. ring. }
  assert (P0 := P 0%nat ltac:(lia)). assert (P1 := P 1%nat ltac:(lia)). assert (P2 := P 2%nat ltac:(lia)). assert (P3 := P 3%nat ltac:(lia)). cbn [Nat.eqb] in *.
  apply Forall_cons; [lra|]. apply Forall_cons; [lra|]. apply Forall_cons; [lra|]. apply Forall_cons; [lra|]. apply Forall_nil.
Qed.
Lemma rows_nth w i j : (i < 4)%nat -> (j < 4)%nat -> nth j (nth i (rows_of w) []) 0 = mnth w i j.
Proof. intros Hi Hj. do 4 (destruct i as [|i]; [do 4 (destruct j as [|j]; [reflexivity|]); lia|]). lia. Qed.
Lemma mnth_mtab (f : nat -> nat -> R) i j : (i < 4)%nat -> (j < 4)%nat -> mnth (mtab f) i j = f i j.
Proof. intros Hi Hj. do 4 (destruct i as [|i]; [do 4 (destruct j as [|j]; [reflexivity|]); lia|]). lia. Qed.
Lemma four (x : list R) : length x = 4%nat -> x = [nth 0 x 0; nth 1 x 0; nth 2 x 0; nth 3 x 0].
Proof. intros L. destruct x as [|a [|b [|c [|d [|]]]]]; try discriminate L. reflexivity. Qed.
Lemma rows_tab X : shape 4 4 X -> X = rows_of (mtab (fun i j => nth j (nth i X []) 0)).
Proof.
  intros (L & S). destruct X as [|x0 [|x1 [|x2 [|x3 [|]]]]]; try discriminate L. assert (H : forall i, (i < 4)%nat -> length (nth i [x0; x1; x2; x3] []) = 4%nat) by (intros i Hi; rewrite Forall_forall in S; apply S; apply nth_In; exact Hi).
  cbn [rows_of map seq nth]. rewrite !mnth_mtab by lia. cbn [nth].
  rewrite <- (four x0) by (apply (H 0%nat); lia). rewrite <- (four x1) by (apply (H 1%nat); lia). rewrite <- (four x2) by (apply (H 2%nat); lia). rewrite <- (four x3) by (apply (H 3%nat); lia). reflexivity.
Qed.
(** near every invertible matrix the computed inverse is accurate *)
Theorem lu_local l li : is_inverse l li -> exists r C, 0 < r /\ 0 <= C /\ forall u A v vi, 0 <= u < r -> accurate u A -> (forall i j, (i < 4)%nat -> (j < 4)%nat -> Rabs (mnth v i j - mnth l i j) <= r) -> is_inverse v vi ->
  exists w, lu_inv A v = Ok w /\ forall i j, (i < 4)%nat -> (j < 4)%nat -> Rabs (mnth w i j - mnth vi i j) <= C * u.
Proof.
  intros Hl. destruct (gesv_ok 4 4 (lu_rows l) (lu_rows_shape l) (lu_nonsing l li Hl)) as (r & C & Pr & PC & H). exists r, C. split; [exact Pr|]. split; [exact PC|].
  intros u A v vi Hu HA Hv Hi. destruct (H u A (lu_rows v) (lu_rows v) (rows_of vi) Hu HA (lu_rows_near r v l Hv)) as (_ & X & E & N).
  { apply lu_rows_near. intros i j _ _. rewrite Rminus_eq_0, Rabs_R0. lra. } { apply rows_shape. } { apply lu_solves; exact Hi. }
  unfold lu_inv. rewrite E. cbn [bindR]. eexists. split; [reflexivity|]. intros i j Hi' Hj. rewrite mnth_mtab by assumption. rewrite <- (rows_nth vi i j) by assumption.
  assert (LX := Forall2_len _ _ _ N). change (length (rows_of vi)) with 4%nat in LX.
  assert (Ni := Forall2_nth_ _ _ _ [] [] i N ltac:(lia)). assert (Li := Forall2_len _ _ _ Ni).
  assert (L4 : length (nth i (rows_of vi) []) = 4%nat) by (do 4 (destruct i as [|i]; [reflexivity|]); lia).
  apply (Forall2_nth_ _ _ _ 0 0 j Ni). lia.
Qed.
(** in exact arithmetic it is the inverse, and LinAlgError is raised exactly when there is none *)
Theorem lu_inv_exact m : lu_inv exact m = np_inv m.
Proof.
  unfold lu_inv. destruct (gesv_exact 4 4 (lu_rows m) (lu_rows_shape m)) as [E|(X & E & SX & HX)]; rewrite E; cbn [bindR].
  - symmetry. apply np_inv_fails_iff. intros (g & Hg). destruct (lu_local m g Hg) as (r & C & Pr & PC & H).
    destruct (H 0 exact m g ltac:(lra) exact_accurate) as (w & Ew & _). { intros i j _ _. rewrite Rminus_eq_0, Rabs_R0. lra. } { exact Hg. }
    unfold lu_inv in Ew. rewrite E in Ew. discriminate Ew.
  - set (w := mtab (fun i j => nth j (nth i X []) 0)). assert (EX : X = rows_of w).
    { apply rows_tab; exact SX. }
    rewrite EX in HX. apply lu_solves in HX.
    destruct (np_inv m) as [g|e] eqn:Eg; [f_equal; apply (inverse_unique m); [exact HX|apply np_inv_ok; exact Eg]|].
    exfalso. assert (Q : np_inv m = Err LinAlgError) by (unfold np_inv in Eg |- *; destruct (Req_EM_T (det4 m) 0); [reflexivity|discriminate Eg]). apply np_inv_fails_iff in Q. apply Q. exists w. exact HX.
Qed.
