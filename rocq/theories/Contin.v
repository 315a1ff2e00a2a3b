(** C127: continuation of the solutions of a system of programs that cannot leave a box. *)
From Coq Require Import String Reals List ZArith Lra Lia Bool Classical.
From Coquelicot Require Import Coquelicot.
From Verif Require Import Base Calc DualModel DualSpec DualProofs DualDiff FantasyOrder ProgCont FantasyGlobal FantasyGlobal2 RKProg Picard PicardProg.
Import ListNotations.
Open Scope R_scope.

(** a box in the coordinates below k, a ball in the others *)
Definition in_box (N : nat) (lo hi z : nat -> R) : Prop := forall i, (i < N)%nat -> lo i <= z i <= hi i.
Definition put (z : nat -> R) (k : nat) (s : R) : nat -> R := fun i => if Nat.eqb i k then s else z i.

(** a property that holds with some constant near every point of a box holds with one constant on the box *)
Lemma uniform_box N lo hi (V : R -> (nat -> R) -> Prop) : (forall i, (i < N)%nat -> lo i <= hi i) ->
  (forall d d' z, 0 < d' <= d -> V d z -> V d' z) -> (forall z z' d, (forall i, (i < N)%nat -> z i = z' i) -> V d z -> V d z') ->
  (forall z, in_box N lo hi z -> exists r d, 0 < r /\ 0 < d /\ forall z', near N r z z' -> V d z') ->
  exists d, 0 < d /\ forall z, in_box N lo hi z -> V d z.
Proof.
  intros Hlh Hmono Hext Hloc.
  assert (Q : forall k, (k <= N)%nat -> forall z, in_box N lo hi z -> exists r d, 0 < r /\ 0 < d /\ forall z', (forall i, (i < k)%nat -> lo i <= z' i <= hi i) -> (forall i, (k <= i < N)%nat -> Rabs (z' i - z i) < r) -> V d z').
  { induction k as [|k IH]; intros Hk z Hz.
    - destruct (Hloc z Hz) as (r & d & Hr & Hd & H). exists r, d. split; [exact Hr|]. split; [exact Hd|]. intros z' _ Hn. apply H. intros i Hi. apply Hn. lia.
    - destruct (real_induction (fun x y => exists r d, 0 < r /\ 0 < d /\ forall z', (forall i, (i < k)%nat -> lo i <= z' i <= hi i) -> x <= z' k <= y -> (forall i, (S k <= i < N)%nat -> Rabs (z' i - z i) < r) -> V d z') (lo k) (hi k) (Hlh k ltac:(lia))) as (r & d & Hr & Hd & H).
      + intros x y x' y' (r & d & Hr & Hd & H) Hx Hy. exists r, d. split; [exact Hr|]. split; [exact Hd|]. intros z' A B C. apply H; [exact A|lra|exact C].
      + intros x y w _ (r & d & Hr & Hd & H) (r' & d' & Hr' & Hd' & H'). exists (Rmin r r'), (Rmin d d'). split; [apply Rmin_pos; assumption|]. split; [apply Rmin_pos; assumption|].
        intros z' A B C. destruct (Rle_dec (z' k) y) as [L|L].
        * apply (Hmono d); [split; [apply Rmin_pos; assumption|apply Rmin_l]|]. apply H; [exact A|lra|]. intros i Hi. eapply Rlt_le_trans; [apply C; exact Hi|apply Rmin_l].
        * apply (Hmono d'); [split; [apply Rmin_pos; assumption|apply Rmin_r]|]. apply H'; [exact A|lra|]. intros i Hi. eapply Rlt_le_trans; [apply C; exact Hi|apply Rmin_r].
      + intros s Hs. destruct (IH ltac:(lia) (put z k s)) as (r & d & Hr & Hd & H). { intros i Hi. unfold put. destruct (Nat.eqb_spec i k) as [->|_]; [exact Hs|apply Hz; exact Hi]. }
        exists (r / 2). split; [lra|]. exists r, d. split; [exact Hr|]. split; [exact Hd|]. intros z' A B C. apply H; [exact A|]. intros i Hi. unfold put. destruct (Nat.eqb_spec i k) as [->|Hn]; [apply Rabs_def1; lra|apply C; lia].
      + exists r, d. split; [exact Hr|]. split; [exact Hd|]. intros z' A C. apply H; [intros i Hi; apply A; lia|apply A; lia|exact C]. }
  destruct (Q N (le_n N) lo ltac:(intros i Hi; split; [lra|apply Hlh; exact Hi])) as (r & d & Hr & Hd & H).
  exists d. split; [exact Hd|]. intros z Hz. apply H; [exact Hz|intros i Hi; lia].
Qed.

(** ---- local existence with one duration for all starting points near z0 ---- *)
Definition field_at (N : nat) (es : nat -> pexpr) (y : R -> nat -> R) (t : R) : Prop := forall i, (i < N)%nat -> defined_at (y t) (es i) /\ is_derive (fun u => y u i) t (meaning (y t) (es i)).
Definition lasts (N : nat) (es : nat -> pexpr) (d : R) (z : nat -> R) : Prop := exists y, (forall i, (i < N)%nat -> y 0 i = z i) /\ forall t, Rabs t < d -> field_at N es y t.
Lemma picard_dur N G z0 r M L : 0 < r -> 0 <= M -> 0 <= L -> (forall z i, near N r z0 z -> (i < N)%nat -> Rabs (G z i) <= M) ->
  (forall z z' i eps, near N r z0 z -> near N r z0 z' -> (forall k, (k < N)%nat -> Rabs (z k - z' k) <= eps) -> (i < N)%nat -> Rabs (G z i - G z' i) <= L * eps) ->
  exists y, (forall i, (i < N)%nat -> y 0 i = z0 i) /\ forall t, Rabs t < dur r M L -> near N r z0 (y t) /\ forall i, (i < N)%nat -> is_derive (fun u => y u i) t (G (y t) i).
Proof.
  intros Hr HM HL HB Hlip. assert (DP := dur_pos r M L Hr HM HL).
  assert (St : steady N z0 r M L (sol G z0)) by (apply sol_steady; assumption).
  exists (sol G z0). split; [intros i Hi; apply (St i Hi)|]. intros t Ht.
  split; [apply (steady_near N z0 r M L Hr HM HL _ t St Ht)|]. intros i Hi.
  assert (Lc : locally t (fun s => Rabs s < dur r M L)).
  { assert (Q : 0 < dur r M L - Rabs t) by lra. exists (mkposreal _ Q). intros s Hs. unfold ball in Hs; cbn in Hs. unfold AbsRing_ball, abs, minus, plus, opp in Hs; cbn in Hs. change (Rabs (s - t) < dur r M L - Rabs t) in Hs.
    replace s with (t + (s - t)) by ring. eapply Rle_lt_trans; [apply Rabs_triang|lra]. }
  apply (is_derive_ext_loc (fun u => next G z0 (sol G z0) u i)).
  { revert Lc. apply filter_imp. intros s Hs. symmetry. apply (sol_fix N G z0 r M L Hr HM HL HB Hlip s i Hs Hi). }
  unfold next. rewrite <- (Rplus_0_l (G (sol G z0 t) i)). apply (D_plus (fun _ => z0 i) (fun u => RInt (fun s => G (sol G z0 s) i) 0 u)); [apply D_const|].
  apply (is_derive_RInt (fun s => G (sol G z0 s) i) (fun u => RInt (fun s => G (sol G z0 s) i) 0 u) 0 t).
  - revert Lc. apply filter_imp. intros s Hs. apply (RInt_correct (V := R_CompleteNormedModule)). apply (steady_int N G z0 r M L Hr HM HL HB Hlip (sol G z0) i 0 s St Hi); [rewrite Rabs_R0; exact DP|exact Hs].
  - apply (steady_cont N G z0 r M L Hr HM HL Hlip (sol G z0) i t St Hi Ht).
Qed.
Lemma local_time N es z0 : (forall i, (i < N)%nat -> below N (es i) = true) -> (forall i, (i < N)%nat -> defined_at z0 (es i)) ->
  exists r d, 0 < r /\ 0 < d /\ forall z, near N r z0 z -> lasts N es d z.
Proof.
  intros Hs Hd.
  destruct (uniform_below (fun i r M => forall z, near N r z0 z -> defined_at z (es i) /\ Rabs (meaning z (es i)) <= M) N) as (r1 & M & Hr1 & HM & H1).
  { intros i r r' M M' _ H Hr HM z Hz. destruct (H z (near_le _ _ _ _ _ Hr Hz)) as [A B]. split; [exact A|lra]. }
  { intros i Hi. exact (prog_bounded N (es i) z0 (Hs i Hi) (Hd i Hi)). }
  destruct (uniform_below (fun i r L => forall z z', near N r z0 z -> near N r z0 z' -> forall eps, (forall k, (k < N)%nat -> Rabs (z k - z' k) <= eps) -> 0 <= eps -> Rabs (meaning z (es i) - meaning z' (es i)) <= L * eps) N) as (r2 & L & Hr2 & HL & H2).
  { intros i r r' M0 M' HM0 H Hr HM' z z' Hz Hz' eps He E0. eapply Rle_trans; [apply (H z z'); [exact (near_le _ _ _ _ _ Hr Hz)|exact (near_le _ _ _ _ _ Hr Hz')|exact He|exact E0]|].
    apply Rmult_le_compat_r; assumption. }
  { intros i Hi. destruct (prog_lip N (es i) z0 (Hs i Hi) (Hd i Hi)) as (r & L & Hr & HL & H). exists r, L. split; [exact Hr|]. split; [exact HL|]. intros z z' Hz Hz' eps He _. apply (H z z'); assumption. }
  set (r := Rmin r1 r2 / 2). assert (P0 : 0 < Rmin r1 r2) by (apply Rmin_pos; assumption). assert (Hr : 0 < r) by (unfold r; lra). assert (R1 := Rmin_l r1 r2). assert (R2 := Rmin_r r1 r2).
  exists r, (dur r M L). split; [exact Hr|]. split; [apply dur_pos; assumption|]. intros z1 Hz1.
  assert (NN : forall z, near N r z1 z -> near N r1 z0 z /\ near N r2 z0 z).
  { intros z Hz. split; intros i Hi; assert (A := Hz i Hi); assert (B := Hz1 i Hi); replace (z i - z0 i) with ((z i - z1 i) + (z1 i - z0 i)) by ring; (eapply Rle_lt_trans; [apply Rabs_triang|]); unfold r in *; lra. }
  destruct (picard_dur N (fun z i => meaning z (es i)) z1 r M L Hr HM HL) as (y & E0 & H).
  - intros z i Hz Hi. apply (H1 i Hi). apply NN. exact Hz.
  - intros z z' i eps Hz Hz' He Hi. apply (H2 i Hi z z'); [apply NN; exact Hz|apply NN; exact Hz'|exact He|]. eapply Rle_trans; [apply Rabs_pos|exact (He i Hi)].
  - exists y. split; [exact E0|]. intros t Ht i Hi. destruct (H t Ht) as [Hn D]. split; [apply (H1 i Hi); apply NN; exact Hn|apply D; exact Hi].
Qed.

(** ---- gluing ---- *)
Lemma D_glue (f g : R -> R) t l : f t = g t -> is_derive f t l -> is_derive g t l -> is_derive (fun u => if Rle_dec u t then f u else g u) t l.
Proof.
  intros E Df Dg. split; [apply is_linear_scal_l|]. intros x Hx. assert (x = t) as -> by (symmetry; apply is_filter_lim_locally_unique; exact Hx).
  destruct Df as [_ Df]. destruct Dg as [_ Dg]. specialize (Df t (fun P H => H)). specialize (Dg t (fun P H => H)). intros eps. generalize (filter_and _ _ (Df eps) (Dg eps)). apply filter_imp. intros u [A B].
  destruct (Rle_dec t t) as [_|Nn]; [|lra]. destruct (Rle_dec u t) as [_|_]; [exact A|]. rewrite E. exact B.
Qed.
Definition solves_to (N : nat) (es : nat -> pexpr) (z0 : nat -> R) (S : R) (y : R -> nat -> R) : Prop := (forall i, (i < N)%nat -> y 0 i = z0 i) /\ forall t, 0 <= t <= S -> locally t (field_at N es y).
Lemma field_ext N es y y' t : (forall i, (i < N)%nat -> below N (es i) = true) -> locally t (fun u => forall i, (i < N)%nat -> y u i = y' u i) -> field_at N es y t -> field_at N es y' t.
Proof.
  intros Hb HL H i Hi. assert (E := locally_singleton _ _ HL). destruct (H i Hi) as [A B]. split; [apply (defined_ext_b N (es i) (y t)); [apply Hb; exact Hi|exact E|exact A]|].
  rewrite <- (meaning_ext_b N (es i) (y t) (y' t) (Hb i Hi) E). apply (is_derive_ext_loc (fun u => y u i)); [|exact B]. revert HL. apply filter_imp. intros u Hu. apply Hu. exact Hi.
Qed.
Lemma extend N es z0 S d y : (forall i, (i < N)%nat -> below N (es i) = true) -> 0 <= S -> solves_to N es z0 S y -> 0 < d -> lasts N es d (y S) -> exists y', solves_to N es z0 (S + d / 2) y'.
Proof.
  intros Hb HS [E0 H] Hd (z & Ez & Hz). set (y' := fun u => if Rle_dec u S then y u else z (u - S)). exists y'.
  assert (Hz' : forall u, Rabs (u - S) < d -> field_at N es (fun v => z (v - S)) u).
  { intros u Hu i Hi. destruct (Hz (u - S) Hu i Hi) as [A B]. split; [exact A|]. apply (D_eq _ _ (1 * meaning (z (u - S)) (es i))); [|ring]. apply (is_derive_comp (fun v => z v i) (fun v => v - S)); [exact B|]. auto_derive; [exact I|ring]. }
  split; [intros i Hi; unfold y'; destruct (Rle_dec 0 S) as [_|Nn]; [apply E0; exact Hi|lra]|].
  assert (L : forall u, u < S -> field_at N es y u -> field_at N es y' u).
  { intros u Hu HF. apply (field_ext N es y); [exact Hb| |exact HF]. generalize (open_lt S u Hu). apply filter_imp. intros v Hv i Hi. unfold y'. destruct (Rle_dec v S) as [_|Nn]; [reflexivity|lra]. }
  assert (R : forall u, S < u -> Rabs (u - S) < d -> field_at N es y' u).
  { intros u Hu Hd'. apply (field_ext N es (fun v => z (v - S))); [exact Hb| |apply Hz'; exact Hd']. generalize (open_gt S u Hu). apply filter_imp. intros v Hv i Hi. unfold y'. destruct (Rle_dec v S) as [Nn|_]; [lra|reflexivity]. }
  assert (M : field_at N es y' S).
  { assert (F := locally_singleton _ _ (H S ltac:(lra))). assert (Z0 : Rabs (S - S) < d) by (rewrite Rminus_eq_0, Rabs_R0; exact Hd). assert (F' := Hz' S Z0). intros i Hi. destruct (F i Hi) as [A B]. destruct (F' i Hi) as [A' B'].
    assert (EY : forall j, y' S j = y S j) by (intros j; unfold y'; destruct (Rle_dec S S) as [_|Nn]; [reflexivity|lra]).
    assert (EZ : forall j, (j < N)%nat -> z (S - S) j = y S j) by (intros j Hj; rewrite Rminus_eq_0; apply Ez; exact Hj).
    split; [apply (defined_ext_b N (es i) (y S)); [apply Hb; exact Hi|intros j _; symmetry; apply EY|exact A]|].
    rewrite <- (meaning_ext_b N (es i) (y S) (y' S) (Hb i Hi)) by (intros j _; symmetry; apply EY).
    rewrite (meaning_ext_b N (es i) (z (S - S)) (y S) (Hb i Hi) EZ) in B'.
    apply (is_derive_ext (fun u => if Rle_dec u S then y u i else z (u - S) i)); [intros u; unfold y'; destruct (Rle_dec u S); reflexivity|].
    apply D_glue; [symmetry; apply EZ; exact Hi|exact B|exact B']. }
  intros t Ht. destruct (Rlt_le_dec t S) as [Lt|Ge].
  - generalize (filter_and _ _ (open_lt S t Lt) (H t ltac:(lra))). apply filter_imp. intros u [A B]. apply L; assumption.
  - assert (N1 : locally t (fun u => Rabs (u - S) < d)).
    { assert (P : 0 < d - (t - S)) by lra. exists (mkposreal _ P). intros u Hu. unfold ball in Hu; cbn in Hu. unfold AbsRing_ball, abs, minus, plus, opp in Hu; cbn in Hu. change (Rabs (u - t) < d - (t - S)) in Hu. replace (u - S) with ((u - t) + (t - S)) by ring. eapply Rle_lt_trans; [apply Rabs_triang|]. rewrite (Rabs_right (t - S)) by lra. lra. }
    destruct (Rle_lt_or_eq_dec _ _ Ge) as [Gt|Eq].
    + generalize (filter_and _ _ (open_gt S t Gt) N1). apply filter_imp. intros u [A B]. apply R; assumption.
    + subst t. assert (HH : locally S (field_at N es y)) by (apply H; lra). generalize (filter_and _ _ HH N1). apply filter_imp. intros u [A B]. destruct (Rtotal_order u S) as [Q|[Q|Q]]; [apply L; assumption|subst u; exact M|apply R; assumption].
Qed.

Lemma archimed_nat x : exists n, x < INR n.
Proof. exists (Z.to_nat (up x)). destruct (archimed x) as [A _]. destruct (Z_le_dec 0 (up x)) as [L|L]; [rewrite INR_IZR_INZ, Z2Nat.id by exact L; lra|]. assert (up x < 0)%Z by lia. apply IZR_lt in H. assert (P := pos_INR (Z.to_nat (up x))). lra. Qed.
(** ---- the theorem: a solution that cannot leave a box where the programs evaluate exists on all of [0, T] ---- *)
Theorem trapped N es z0 lo hi T : (forall i, (i < N)%nat -> below N (es i) = true) -> 0 <= T -> in_box N lo hi z0 ->
  (forall z, in_box N lo hi z -> forall i, (i < N)%nat -> defined_at z (es i)) ->
  (forall S y, 0 <= S <= T -> solves_to N es z0 S y -> in_box N lo hi (y S)) ->
  exists y, solves_to N es z0 T y.
Proof.
  intros Hb HT H0 Hd Htrap.
  destruct (uniform_box N lo hi (lasts N es)) as (d & Pd & HV).
  - intros i Hi. assert (A := H0 i Hi). lra.
  - intros d d' z Hdd (y & E & H). exists y. split; [exact E|]. intros t Ht. apply H. lra.
  - intros z z' d E (y & E' & H). exists y. split; [intros i Hi; rewrite <- E by exact Hi; apply E'; exact Hi|exact H].
  - intros z Hz. apply local_time; [exact Hb|]. intros i Hi. apply Hd; assumption.
  - assert (Q : forall n, exists y, solves_to N es z0 (Rmin T (INR n * (d / 2))) y).
    { induction n as [|n (y & Hy)].
      - destruct (HV z0 H0) as (y & E & H). exists y. split; [exact E|]. intros t Ht. rewrite Rmult_0_l, Rmin_right in Ht by exact HT. assert (t = 0) as -> by lra.
        exists (mkposreal _ Pd). intros u Hu. apply H. unfold ball in Hu; cbn in Hu. unfold AbsRing_ball, abs, minus, plus, opp in Hu; cbn in Hu. change (Rabs (u - 0) < d) in Hu. rewrite Rminus_0_r in Hu. exact Hu.
      - set (S := Rmin T (INR n * (d / 2))) in *. assert (P : 0 <= INR n * (d / 2)) by (apply Rmult_le_pos; [apply pos_INR|lra]). assert (SB : 0 <= S <= T) by (split; [apply Rmin_glb; assumption|apply Rmin_l]).
        destruct (extend N es z0 S d y Hb (proj1 SB) Hy Pd (HV _ (Htrap S y SB Hy))) as (y' & E' & H'). exists y'. split; [exact E'|]. intros t Ht. apply H'. split; [apply Ht|]. apply Rle_trans with (1 := proj2 Ht).
        rewrite S_INR. replace ((INR n + 1) * (d / 2)) with (INR n * (d / 2) + d / 2) by ring. unfold S. unfold Rmin. destruct (Rle_dec T (INR n * (d / 2) + d / 2)), (Rle_dec T (INR n * (d / 2))); lra. }
    destruct (archimed_nat (T / (d / 2))) as [n Hn]. destruct (Q n) as (y & Hy). rewrite Rmin_left in Hy; [exists y; exact Hy|].
    apply Rlt_le in Hn. apply (Rmult_le_compat_r (d / 2)) in Hn; [|lra]. unfold Rdiv at 1 in Hn. rewrite Rmult_assoc, Rinv_l in Hn by lra. lra.
Qed.
