(** Taylor expansion of a composition of flows, with a uniform remainder bound. *)
From Coq Require Import Reals List ZArith Lra Lia Bool.
From Coquelicot Require Import Coquelicot.
From Verif Require Import Base Calc DualModel DualSpec DualProofs DualDiff GeoUtilsModel GeoUtilsSpec GeoUtilsProofs
  FantasyModel FantasyProofs FantasyProofs2 FantasyProofs3 FantasyHam FantasySymp ProgCont WordSeries WordOrder FantasyOrder.
Import ListNotations.
Open Scope R_scope.

(** ---- joint continuity of the flows ---- *)
Definition ext (x : nat -> R) (t : R) (i : nat) : R := if Nat.ltb i 16 then x i else t.
(** coordinate i after flowing for the time held in variable 16 *)
Definition rotE (w : R) (i : nat) : pexpr :=
  let j := (i mod 4)%nat in
  let qs := EAdd (EVar j) (EVar (8 + j)) in let qd := ESub (EVar j) (EVar (8 + j)) in
  let ps := EAdd (EVar (4 + j)) (EVar (12 + j)) in let pd := ESub (EVar (4 + j)) (EVar (12 + j)) in
  let co := ECos (EMul (EConst (2 * w)) (EVar 16)) in let si := ESin (EMul (EConst (2 * w)) (EVar 16)) in
  EMul (EConst (/ 2)) (match (i / 4)%nat with
    | 0%nat => EAdd (EAdd qs (EMul co qd)) (EMul si pd) | 1%nat => ESub (EAdd ps (EMul co pd)) (EMul si qd)
    | 2%nat => ESub (ESub qs (EMul co qd)) (EMul si pd) | _ => EAdd (ESub ps (EMul co pd)) (EMul si qd) end).
Definition flowE (g : metricP) (w : R) (X : gen) (i : nat) : pexpr :=
  match X with GC => rotE w i | _ => EAdd (EVar i) (EMul (EVar 16) (field (Hgen g w X) i)) end.
Lemma below_le N M e : (N <= M)%nat -> below N e = true -> below M e = true.
Proof. intros L. induction e; cbn [below]; intros H; try (apply andb_prop in H as [H1 H2]; rewrite IHe1, IHe2 by assumption; reflexivity); auto. apply Nat.ltb_lt in H. apply Nat.ltb_lt. lia. Qed.
Lemma ext_meaning e x t : below 16 e = true -> meaning (ext x t) e = meaning x e.
Proof. intros H. apply (meaning_ext_b 16); [exact H|]. intros k Hk. unfold ext. apply Nat.ltb_lt in Hk. rewrite Hk. reflexivity. Qed.
Lemma ext_defined e x t : below 16 e = true -> defined_at x e -> defined_at (ext x t) e.
Proof. intros H. apply (defined_ext_b 16); [exact H|]. intros k Hk. unfold ext. apply Nat.ltb_lt in Hk. rewrite Hk. reflexivity. Qed.
Lemma flowE_spec g w X i s t : well_formed g -> (i < 16)%nat -> hdef g (flat s) ->
  below 17 (flowE g w X i) = true /\ defined_at (ext (flat s) t) (flowE g w X i) /\ meaning (ext (flat s) t) (flowE g w X i) = flat (gflow g w X t s) i.
Proof.
  intros Hwf Hi Hd.
  assert (Q : forall H, below 16 H = true -> defined_at (flat s) H ->
    let e := EAdd (EVar i) (EMul (EVar 16) (field H i)) in
    below 17 e = true /\ defined_at (ext (flat s) t) e /\ meaning (ext (flat s) t) e = flat (shear H t s) i).
  { intros H Hb HD e. unfold e. cbn [below defined_at meaning]. rewrite ext_meaning by (apply field_below; exact Hb). split; [|split].
    - rewrite (below_le 16 17 (field H i)) by (try lia; apply field_below; exact Hb). cbn [andb]. rewrite andb_true_r. apply Nat.ltb_lt. lia.
    - repeat split. apply ext_defined; [apply field_below; exact Hb|apply field_defined; exact HD].
    - unfold shear. rewrite flat_unflat by exact Hi. unfold ext. assert (L : (i <? 16)%nat = true) by (apply Nat.ltb_lt; exact Hi). rewrite L. reflexivity. }
  destruct X; cbn [flowE].
  - apply (Q (HA g)); [apply (Hgen_below g w GA Hwf)|apply Hd].
  - apply (Q (HB g)); [apply (Hgen_below g w GB Hwf)|apply Hd].
  - clear Q. cbn [gflow]. revert i Hi. apply lt16; (split; [reflexivity|split; [cbv; tauto|reflexivity]]).
Qed.
Lemma flow_near g w X (s0 : state) : well_formed g -> hdef g (flat s0) -> forall r, 0 < r ->
  exists rho, 0 < rho /\ forall t s, Rabs t < rho -> near 16 rho (flat s0) (flat s) -> near 16 r (flat s0) (flat (gflow g w X t s)).
Proof.
  intros Hwf Hd r Hr.
  assert (O : nearf 16 (flat s0) (fun y => hdef g y)).
  { apply filter_and.
    - destruct (prog_near 16 (HA g) (flat s0) (Hgen_below g w GA Hwf) (proj1 Hd) 1 ltac:(lra)) as (a & Ha & H). exists a. split; [exact Ha|]. intros y Hy. apply H. exact Hy.
    - destruct (prog_near 16 (HB g) (flat s0) (Hgen_below g w GB Hwf) (proj2 Hd) 1 ltac:(lra)) as (a & Ha & H). exists a. split; [exact Ha|]. intros y Hy. apply H. exact Hy. }
  destruct O as (a & Ha & O).
  assert (K : forall i, (i < 16)%nat -> exists rho, 0 < rho /\ forall t s, Rabs t < rho -> near 16 rho (flat s0) (flat s) -> Rabs (flat (gflow g w X t s) i - flat s0 i) < r).
  { intros i Hi. destruct (flowE_spec g w X i s0 0 Hwf Hi Hd) as (B & D & E). rewrite gflow_0 in E.
    destruct (prog_near 17 (flowE g w X i) _ B D r Hr) as (rho & Hrho & H). exists (Rmin rho a). split; [apply Rmin_pos; assumption|].
    intros t s Ht Hs. rewrite <- E. destruct (flowE_spec g w X i s t Hwf Hi) as (_ & _ & <-).
    { apply O. eapply near_le; [apply Rmin_r|exact Hs]. }
    apply H. intros k Hk. unfold ext. destruct (Nat.ltb_spec k 16).
    - eapply Rlt_le_trans; [apply Hs; assumption|apply Rmin_l].
    - rewrite Rminus_0_r. eapply Rlt_le_trans; [exact Ht|apply Rmin_l]. }
  assert (U : forall n, (n <= 16)%nat -> exists rho, 0 < rho /\ forall t s, Rabs t < rho -> near 16 rho (flat s0) (flat s) -> forall i, (i < n)%nat -> Rabs (flat (gflow g w X t s) i - flat s0 i) < r).
  { induction n as [|n IH]; intros Hn; [exists 1; split; [lra|intros; lia]|].
    destruct (IH ltac:(lia)) as (r1 & R1 & H1). destruct (K n ltac:(lia)) as (r2 & R2 & H2). exists (Rmin r1 r2). split; [apply Rmin_pos; assumption|].
    intros t s Ht Hs i Hi. destruct (Nat.eq_dec i n) as [->|].
    - apply H2; [eapply Rlt_le_trans; [exact Ht|apply Rmin_r]|eapply near_le; [apply Rmin_r|exact Hs]].
    - apply H1; [eapply Rlt_le_trans; [exact Ht|apply Rmin_l]|eapply near_le; [apply Rmin_l|exact Hs]|lia]. }
  destruct (U 16%nat ltac:(lia)) as (rho & Hrho & H). exists rho. split; [exact Hrho|]. intros t s Ht Hs i Hi. apply H; assumption.
Qed.
Lemma hdef_near g (s0 : state) : well_formed g -> hdef g (flat s0) -> exists r, 0 < r /\ forall s, near 16 r (flat s0) (flat s) -> hdef g (flat s).
Proof.
  intros Hwf Hd.
  destruct (prog_near 16 (HA g) (flat s0) (Hgen_below g 0 GA Hwf) (proj1 Hd) 1 ltac:(lra)) as (a & Ha & H).
  destruct (prog_near 16 (HB g) (flat s0) (Hgen_below g 0 GB Hwf) (proj2 Hd) 1 ltac:(lra)) as (b & Hb & H').
  exists (Rmin a b). split; [apply Rmin_pos; assumption|]. intros s Hs. split; [apply H|apply H']; (eapply near_le; [|exact Hs]); auto using Rmin_l, Rmin_r.
Qed.

(** ---- expansion of one flow ---- *)
Lemma wlie_rep g w X k v e : wlie g w (rep (S k) X v) e = lie (Hgen g w X) (wlie g w (rep k X v) e).
Proof. reflexivity. Qed.
Lemma rep_app k X (v : word) : rep k X v = rep k X [] ++ v.
Proof. induction k as [|k IH]; cbn [rep app]; congruence. Qed.
Lemma flow_expand g w X (s0 : state) v e n : well_formed g -> hdef g (flat s0) -> below 16 e = true -> defined_at (flat s0) e ->
  exists rho M, 0 < rho /\ 0 <= M /\ forall t s, Rabs t < rho -> near 16 rho (flat s0) (flat s) ->
    Rabs (meaning (flat (gflow g w X t s)) (wlie g w v e) - rsum (S n) (fun k => t ^ k / INR (fact k) * meaning (flat s) (wlie g w (rep k X v) e))) <= M * Rabs t ^ S n.
Proof.
  intros Hwf Hd Hb He.
  destruct (hdef_near g s0 Hwf Hd) as (r1 & R1 & H1).
  destruct (prog_near 16 e (flat s0) Hb He 1 ltac:(lra)) as (r2 & R2 & H2).
  destruct (prog_bounded 16 (wlie g w (rep (S n) X v) e) (flat s0)) as (r3 & M & R3 & HM & H3).
  { apply wlie_below; assumption. } { apply wlie_defined; assumption. }
  set (r := Rmin r1 (Rmin r2 r3)). assert (Hr : 0 < r) by (unfold r; repeat apply Rmin_pos; assumption).
  destruct (flow_near g w X s0 Hwf Hd r Hr) as (rho & Hrho & Hn).
  exists rho, M. split; [exact Hrho|]. split; [exact HM|]. intros t s Ht Hs.
  assert (Hin : forall u, Rabs u < rho -> near 16 r (flat s0) (flat (gflow g w X u s))) by (intros; apply Hn; assumption).
  assert (T := taylor_bound n (fun k u => meaning (flat (gflow g w X u s)) (wlie g w (rep k X v) e)) rho M HM).
  cbn beta in T. rewrite (rsum_ext (S n) _ (fun k => t ^ k / INR (fact k) * meaning (flat (gflow g w X 0 s)) (wlie g w (rep k X v) e))) by (intros; rewrite gflow_0; reflexivity).
  apply T; [| |exact Ht].
  - intros k u Hk Hu. rewrite wlie_rep. apply lie_path.
    + apply wlie_below; assumption.
    + apply wlie_defined.
      * apply H1. eapply near_le; [|apply Hin; exact Hu]. unfold r. apply Rmin_l.
      * apply H2. eapply near_le; [|apply Hin; exact Hu]. unfold r. eapply Rle_trans; [apply Rmin_r|apply Rmin_l].
    + apply gflow_deriv. exact Hwf.
  - intros u Hu. apply H3. eapply near_le; [|apply Hin; exact Hu]. unfold r. eapply Rle_trans; [apply Rmin_r|apply Rmin_r].
Qed.

(** finitely many words can be treated uniformly *)
Lemma words_uniform (P : word -> R -> R -> Prop) :
  (forall v a b M N, P v b M -> a <= b -> M <= N -> P v a N) ->
  (forall v, exists rho M, 0 < rho /\ 0 <= M /\ P v rho M) ->
  forall n, exists rho M, 0 < rho /\ 0 <= M /\ forall v, (length v <= n)%nat -> P v rho M.
Proof.
  intros Hmono Hex n. revert P Hmono Hex. induction n as [|n IH]; intros P Hmono Hex.
  - destruct (Hex []) as (rho & M & Hr & HM & H). exists rho, M. split; [exact Hr|]. split; [exact HM|]. intros [|X v] Hv; [exact H|cbn in Hv; lia].
  - destruct (Hex []) as (r0 & M0 & Hr0 & HM0 & H0).
    assert (E : forall X, exists rho M, 0 < rho /\ 0 <= M /\ forall v, (length v <= n)%nat -> P (X :: v) rho M).
    { intros X. apply (IH (fun v => P (X :: v))); [intros v; apply (Hmono (X :: v))|intros v; apply (Hex (X :: v))]. }
    destruct (E GA) as (ra & Ma & Hra & HMa & Ha). destruct (E GB) as (rb & Mb & Hrb & HMb & Hb). destruct (E GC) as (rc & Mc & Hrc & HMc & Hc).
    exists (Rmin r0 (Rmin ra (Rmin rb rc))), (M0 + (Ma + (Mb + Mc))). split; [repeat apply Rmin_pos; assumption|]. split; [lra|].
    assert (L1 : Rmin r0 (Rmin ra (Rmin rb rc)) <= r0) by apply Rmin_l.
    assert (L2 : Rmin r0 (Rmin ra (Rmin rb rc)) <= ra) by (eapply Rle_trans; [apply Rmin_r|apply Rmin_l]).
    assert (L3 : Rmin r0 (Rmin ra (Rmin rb rc)) <= rb) by (eapply Rle_trans; [apply Rmin_r|eapply Rle_trans; [apply Rmin_r|apply Rmin_l]]).
    assert (L4 : Rmin r0 (Rmin ra (Rmin rb rc)) <= rc) by (eapply Rle_trans; [apply Rmin_r|eapply Rle_trans; [apply Rmin_r|apply Rmin_r]]).
    intros [|X v] Hv.
    + eapply Hmono; [exact H0|exact L1|lra].
    + cbn in Hv. destruct X; (eapply Hmono; [first [apply Ha|apply Hb|apply Hc]; lia|assumption|lra]).
Qed.
(** exchange of the two sums of a triangle *)
Lemma tri_swap n (F : nat -> word -> R) :
  wsum n (fun v => rsum (S (n - length v)) (fun k => F k v)) = rsum (S n) (fun k => wsum (n - k) (F k)).
Proof.
  assert (T : forall (a : nat -> nat -> R), rsum (S n) (fun j => rsum (S (n - j)) (fun k => a j k)) = rsum (S n) (fun k => rsum (S (n - k)) (fun j => a j k))).
  { intros a.
    assert (Q : forall m N (f : nat -> R), (m <= N)%nat -> rsum m f = rsum N (fun k => if Nat.ltb k m then f k else 0)).
    { intros m N f L. induction L as [|N L IH].
      - apply rsum_ext. intros i Hi. apply Nat.ltb_lt in Hi. rewrite Hi. reflexivity.
      - cbn [rsum]. rewrite <- IH. destruct (Nat.ltb_spec N m); [lia|]. ring. }
    transitivity (rsum (S n) (fun j => rsum (S n) (fun k => if Nat.leb (j + k) n then a j k else 0))).
    { apply rsum_ext. intros j Hj. rewrite (Q (S (n - j)) (S n)) by lia. apply rsum_ext. intros k Hk. destruct (Nat.ltb_spec k (S (n - j))), (Nat.leb_spec (j + k) n); try lia; reflexivity. }
    rewrite rsum_swap. apply rsum_ext. intros k Hk. rewrite (Q (S (n - k)) (S n)) by lia. apply rsum_ext. intros j Hj. destruct (Nat.ltb_spec j (S (n - k))), (Nat.leb_spec (j + k) n); try lia; reflexivity. }
  assert (Hr : forall j m (G : nat -> word -> R), hsum j (fun v => rsum m (fun k => G k v)) = rsum m (fun k => hsum j (G k))).
  { induction j as [|j IH]; intros m G; cbn [hsum]; [reflexivity|]. unfold gsum. rewrite !IH, <- !rsum_plus. reflexivity. }
  rewrite wsum_hsum. transitivity (rsum (S n) (fun j => rsum (S (n - j)) (fun k => hsum j (F k)))).
  { apply rsum_ext. intros j Hj. rewrite <- Hr. apply hsum_ext. intros v Hv. rewrite Hv. reflexivity. }
  rewrite (T (fun j k => hsum j (F k))). apply rsum_ext. intros k Hk. rewrite wsum_hsum. reflexivity.
Qed.

(** ---- expansion of a composition ---- *)
Fixpoint compose (g : metricP) (w : R) (l : list (gen * R)) (d : R) (s : state) : state :=
  match l with [] => s | (X, a) :: l => compose g w l d (gflow g w X (a * d) s) end.
Definition series (g : metricP) (w : R) (c : word -> R) (n : nat) (d : R) (s : state) (e : pexpr) : R :=
  wsum n (fun v => c v * (d ^ length v * meaning (flat s) (wlie g w v e))).
Lemma small_scale a rho : 0 < rho -> exists r, 0 < r /\ forall d, Rabs d < r -> Rabs (a * d) < rho.
Proof.
  intros Hr. exists (rho / (Rabs a + 1)). assert (P := Rabs_pos a). split; [apply Rdiv_lt_0_compat; lra|]. intros d Hd. rewrite Rabs_mult.
  apply Rmult_lt_compat_r with (r := Rabs a + 1) in Hd; [|lra]. unfold Rdiv in Hd. rewrite Rmult_assoc, Rinv_l, Rmult_1_r in Hd by lra.
  assert (P2 := Rabs_pos d). nra.
Qed.
Lemma compose_near g w l (s0 : state) : well_formed g -> hdef g (flat s0) -> forall r, 0 < r ->
  exists rho, 0 < rho /\ forall d s, Rabs d < rho -> near 16 rho (flat s0) (flat s) -> near 16 r (flat s0) (flat (compose g w l d s)).
Proof.
  intros Hwf Hd. induction l as [|[X a] l IH]; intros r Hr; cbn [compose].
  - exists r. split; [exact Hr|]. auto.
  - destruct (IH r Hr) as (r1 & R1 & H1). destruct (flow_near g w X s0 Hwf Hd r1 R1) as (r2 & R2 & H2). destruct (small_scale a r2 R2) as (r3 & R3 & H3).
    exists (Rmin r1 (Rmin r2 r3)). split; [repeat apply Rmin_pos; assumption|]. intros d s Hds Hs. apply H1.
    + eapply Rlt_le_trans; [exact Hds|apply Rmin_l].
    + apply H2; [apply H3; eapply Rlt_le_trans; [exact Hds|eapply Rle_trans; [apply Rmin_r|apply Rmin_r]]|].
      eapply near_le; [|exact Hs]. eapply Rle_trans; [apply Rmin_r|apply Rmin_l].
Qed.
Lemma compose_expand g w (s0 : state) e n : well_formed g -> hdef g (flat s0) -> below 16 e = true -> defined_at (flat s0) e ->
  forall l, exists rho M, 0 < rho /\ 0 <= M /\ forall d s, Rabs d < rho -> near 16 rho (flat s0) (flat s) ->
    Rabs (meaning (flat (compose g w l d s)) e - series g w (coef l) n d s e) <= M * Rabs d ^ S n.
Proof.
  intros Hwf Hd Hb He. induction l as [|[X a] l IH]; cbn [compose].
  - exists 1, 0. split; [lra|]. split; [lra|]. intros d s _ _. unfold series.
    assert (Z : forall m, wsum m (fun v => coef [] v * (d ^ length v * meaning (flat s) (wlie g w v e))) = meaning (flat s) e).
    { intros [|m]; cbn [wsum coef wlie length pow]; [ring|]. unfold gsum.
      assert (Z : forall X, wsum m (fun v : word => 0 * (d ^ length (X :: v) * meaning (flat s) (lie (Hgen g w X) (wlie g w v e)))) = 0) by (intros; rewrite wsum_scal; ring).
      cbn [length pow] in Z. rewrite !Z. ring. }
    rewrite Z, Rminus_eq_0, Rabs_R0, Rmult_0_l. lra.
  - destruct IH as (r1 & M1 & R1 & HM1 & H1).
    destruct (flow_near g w X s0 Hwf Hd r1 R1) as (r2 & R2 & H2).
    destruct (words_uniform (fun v rho M => (length v <= n)%nat -> forall t s, Rabs t < rho -> near 16 rho (flat s0) (flat s) ->
      Rabs (meaning (flat (gflow g w X t s)) (wlie g w v e) - rsum (S (n - length v)) (fun k => t ^ k / INR (fact k) * meaning (flat s) (wlie g w (rep k X v) e))) <= M * Rabs t ^ S (n - length v))) with (n := n) as (r3 & M3 & R3 & HM3 & H3).
    { intros v x y M N HP Hxy HMN Hv t s Ht Hs. eapply Rle_trans; [apply (HP Hv); [lra|eapply near_le; [exact Hxy|exact Hs]]|]. apply Rmult_le_compat_r; [apply pow_le, Rabs_pos|exact HMN]. }
    { intros v. destruct (flow_expand g w X s0 v e (n - length v) Hwf Hd Hb He) as (rho & M & A & B & C). exists rho, M. split; [exact A|]. split; [exact B|]. intros _. exact C. }
    destruct (small_scale a (Rmin r2 r3) (Rmin_pos _ _ R2 R3)) as (r4 & R4 & H4).
    set (K := wsum n (fun v => Rabs (coef l v) * (M3 * Rabs a ^ S (n - length v)))).
    assert (HK : 0 <= K).
    { apply wsum_nonneg. intros v Hv. apply Rmult_le_pos; [apply Rabs_pos|]. apply Rmult_le_pos; [exact HM3|apply pow_le, Rabs_pos]. }
    exists (Rmin r1 (Rmin (Rmin r2 r3) r4)), (M1 + K). split; [repeat apply Rmin_pos; assumption|]. split; [lra|].
    intros d s Hds Hs.
    assert (L1 : Rabs d < r1) by (eapply Rlt_le_trans; [exact Hds|apply Rmin_l]).
    assert (L4 : Rabs d < r4) by (eapply Rlt_le_trans; [exact Hds|eapply Rle_trans; [apply Rmin_r|apply Rmin_r]]).
    assert (N2 : near 16 r2 (flat s0) (flat s)) by (eapply near_le; [|exact Hs]; eapply Rle_trans; [apply Rmin_r|eapply Rle_trans; [apply Rmin_l|apply Rmin_l]]).
    assert (N3 : near 16 r3 (flat s0) (flat s)) by (eapply near_le; [|exact Hs]; eapply Rle_trans; [apply Rmin_r|eapply Rle_trans; [apply Rmin_l|apply Rmin_r]]).
    assert (T2 : Rabs (a * d) < r2) by (eapply Rlt_le_trans; [apply H4; exact L4|apply Rmin_l]).
    assert (T3 : Rabs (a * d) < r3) by (eapply Rlt_le_trans; [apply H4; exact L4|apply Rmin_r]).
    set (s' := gflow g w X (a * d) s).
    assert (B1 := H1 d s' L1 (H2 (a * d) s T2 N2)).
    assert (B2 : Rabs (series g w (coef l) n d s' e - series g w (coef ((X, a) :: l)) n d s e) <= K * Rabs d ^ S n).
    { assert (E : series g w (coef ((X, a) :: l)) n d s e =
         wsum n (fun v => coef l v * (d ^ length v * rsum (S (n - length v)) (fun k => (a * d) ^ k / INR (fact k) * meaning (flat s) (wlie g w (rep k X v) e))))).
      { unfold series. cbn [coef]. rewrite dcoef_sum.
        transitivity (wsum n (fun v => rsum (S (n - length v)) (fun k => expc a k * (coef l v * (d ^ length (rep k X v) * meaning (flat s) (wlie g w (rep k X v) e)))))).
        - rewrite tri_swap. apply rsum_ext. intros k Hk. rewrite wsum_scal. reflexivity.
        - apply wsum_ext. intros v Hv. rewrite <- rsum_scal, <- rsum_scal. apply rsum_ext. intros k Hk.
          assert (LR : length (rep k X v) = (k + length v)%nat) by (clear; induction k as [|k IH]; cbn [rep length]; [reflexivity|rewrite IH; reflexivity]).
          rewrite LR, pow_add. unfold expc. rewrite Rpow_mult_distr. unfold Rdiv. ring. }
      rewrite E. unfold series. set (A := wsum n _) at 1. set (B := wsum n _). 
      assert (AB : A - B = wsum n (fun v => coef l v * (d ^ length v * (meaning (flat s') (wlie g w v e) - rsum (S (n - length v)) (fun k => (a * d) ^ k / INR (fact k) * meaning (flat s) (wlie g w (rep k X v) e)))))).
      { replace (A - B) with (A + (-1) * B) by ring. unfold A, B. rewrite <- wsum_scal, <- wsum_plus. apply wsum_ext. intros v Hv. ring. }
      rewrite AB. rewrite (Rmult_comm K). unfold K. rewrite <- wsum_scal. apply wsum_Rabs. intros v Hv.
      rewrite !Rabs_mult. specialize (H3 v Hv Hv (a * d) s T3 N3). fold s' in H3.
      replace (Rabs d ^ S n) with (Rabs (d ^ length v) * Rabs d ^ S (n - length v)) by (rewrite <- RPow_abs, <- pow_add; f_equal; lia).
      set (Z := Rabs (_ - _)) in *. rewrite Rabs_mult, Rpow_mult_distr in H3.
      replace (Rabs (d ^ length v) * Rabs d ^ S (n - length v) * (Rabs (coef l v) * (M3 * Rabs a ^ S (n - length v)))) with
        (Rabs (coef l v) * (Rabs (d ^ length v) * (M3 * (Rabs a ^ S (n - length v) * Rabs d ^ S (n - length v))))) by ring.
      apply Rmult_le_compat_l; [apply Rabs_pos|]. apply Rmult_le_compat_l; [apply Rabs_pos|]. exact H3. }
    replace (meaning (flat (compose g w l d s')) e - series g w (coef ((X, a) :: l)) n d s e) with
      ((meaning (flat (compose g w l d s')) e - series g w (coef l) n d s' e) + (series g w (coef l) n d s' e - series g w (coef ((X, a) :: l)) n d s e)) by ring.
    eapply Rle_trans; [apply Rabs_triang|]. lra.
Qed.
