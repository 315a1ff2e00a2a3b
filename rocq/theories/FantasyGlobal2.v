(** Global convergence of the Fantasy integrator: N steps of size T / N follow a geodesic on [0, T] within C / N^n. *)
From Coq Require Import Reals List ZArith Lra Lia Bool.
From Coquelicot Require Import Coquelicot.
From Verif Require Import Base Calc DualModel DualSpec DualProofs DualDiff GeoUtilsModel GeoUtilsSpec GeoUtilsProofs
  FantasyModel FantasyProofs FantasyProofs2 FantasyProofs3 FantasyHam FantasySymp ProgCont WordSeries WordOrder FantasyOrder FantasyOrder2 FantasyOrder3 FantasyGlobal.
Import ListNotations.
Open Scope R_scope.

(** ---- the exact solution, expanded at any point near the centre ---- *)
Lemma exact_expand_near g w (s : R -> state) e n : well_formed g -> solves g w s -> hdef g (flat (s 0)) -> below 16 e = true -> defined_at (flat (s 0)) e ->
  exists rho M, 0 < rho /\ 0 <= M /\ forall t d, Rabs t < rho -> Rabs d < rho -> Rabs (meaning (flat (s (t + d))) e - series g w expcoef n d (s t) e) <= M * Rabs d ^ S n.
Proof.
  intros Hwf Hsol Hd Hb He.
  destruct (hdef_near g (s 0) Hwf Hd) as (r1 & R1 & H1).
  destruct (prog_near 16 e (flat (s 0)) Hb He 1 ltac:(lra)) as (r2 & R2 & H2).
  destruct (words_uniform (fun v rho M => forall y, near 16 rho (flat (s 0)) y -> Rabs (meaning y (wlie g w v e)) <= M)) with (n := S n) as (r3 & M & R3 & HM & H3).
  { intros v a b A B HP Hab HAB y Hy. eapply Rle_trans; [apply HP; eapply near_le; [exact Hab|exact Hy]|exact HAB]. }
  { intros v. destruct (prog_bounded 16 (wlie g w v e) (flat (s 0))) as (r & A & Hr & HA & H). { apply wlie_below; assumption. } { apply wlie_defined; assumption. }
    exists r, A. split; [exact Hr|]. split; [exact HA|]. intros y Hy. apply H. exact Hy. }
  assert (Hsol' := Hsol). destruct Hsol' as (r0 & R0 & H0).
  destruct (solves_near g w s Hsol (Rmin r1 (Rmin r2 r3))) as (rho & Hrho & Hn). { repeat apply Rmin_pos; assumption. }
  set (h := Rmin r0 rho / 2).
  assert (Hm : 0 < Rmin r0 rho) by (apply Rmin_pos; assumption).
  exists h, (3 ^ S n * M). split; [unfold h; lra|]. split; [apply Rmult_le_pos; [apply pow_le; lra|exact HM]|].
  intros t d Ht Hdd.
  assert (Hsum : forall u, Rabs u < h -> Rabs (t + u) < Rmin r0 rho) by (intros u Hu; eapply Rle_lt_trans; [apply Rabs_triang|]; unfold h in *; lra).
  assert (Hin : forall u, Rabs u < h -> near 16 r1 (flat (s 0)) (flat (s (t + u))) /\ near 16 r2 (flat (s 0)) (flat (s (t + u))) /\ near 16 r3 (flat (s 0)) (flat (s (t + u)))).
  { intros u Hu. assert (N := Hn (t + u) ltac:(eapply Rlt_le_trans; [apply Hsum; exact Hu|apply Rmin_r])).
    split; [|split]; (eapply near_le; [|exact N]); [apply Rmin_l|eapply Rle_trans; [apply Rmin_r|apply Rmin_l]|eapply Rle_trans; [apply Rmin_r|apply Rmin_r]]. }
  assert (T := taylor_bound n (fun k u => hsum k (fun v => meaning (flat (s (t + u))) (wlie g w v e))) h (3 ^ S n * M)).
  cbn beta in T.
  assert (E : series g w expcoef n d (s t) e = rsum (S n) (fun k => d ^ k / INR (fact k) * hsum k (fun v => meaning (flat (s (t + 0))) (wlie g w v e)))).
  { rewrite Rplus_0_r. unfold series. rewrite wsum_hsum. apply rsum_ext. intros k Hk. rewrite <- hsum_scal. apply hsum_ext. intros v Hv. unfold expcoef. rewrite Hv. unfold Rdiv. ring. }
  rewrite E. change (meaning (flat (s (t + d))) e) with (hsum 0 (fun v => meaning (flat (s (t + d))) (wlie g w v e))).
  apply T; [apply Rmult_le_pos; [apply pow_le; lra|exact HM]| | |exact Hdd].
  - intros k u Hk Hu. destruct (Hin u Hu) as (N1 & N2 & N3).
    assert (G : hsum (S k) (fun v => meaning (flat (s (t + u))) (wlie g w v e)) = hsum k (fun v => gsum (fun X => meaning (flat (s (t + u))) (wlie g w (X :: v) e)))).
    { cbn [hsum]. unfold gsum. rewrite !hsum_plus. reflexivity. }
    rewrite G. apply (D_hsum k (fun v u => meaning (flat (s (t + u))) (wlie g w v e))). intros v.
    rewrite <- (Rmult_1_l (gsum _)). apply (D_comp (fun x => meaning (flat (s x)) (wlie g w v e)) (fun x => t + x) u).
    + apply wlie_path; try assumption; [apply H1; exact N1|apply H2; exact N2|]. intros i Hi. apply H0; [eapply Rlt_le_trans; [apply Hsum; exact Hu|apply Rmin_l]|exact Hi].
    + auto_derive; [exact I|ring].
  - intros u Hu. apply hsum_Rabs. intros v Hv. apply H3; [lia|]. apply Hin. exact Hu.
Qed.

(** ---- consistency and stability of a step near one point of the solution ---- *)
Definition close (rho : R) (a b : state) : Prop := forall i, (i < 16)%nat -> Rabs (flat b i - flat a i) < rho.
Definition within (eps : R) (a b : state) : Prop := forall i, (i < 16)%nat -> Rabs (flat a i - flat b i) <= eps.
Definition good (f : R -> state -> Res state) (n : nat) (s : R -> state) (rho M L : R) (t : R) : Prop :=
  (forall d, Rabs d < rho -> exists y', f d (s t) = Ok y' /\ within (M * Rabs d ^ S n) y' (s (t + d))) /\
  (forall d y z, Rabs d < rho -> close rho (s t) y -> close rho (s t) z -> exists y' z', f d y = Ok y' /\ f d z = Ok z' /\ forall eps, within eps y z -> within ((1 + L * Rabs d) * eps) y' z').
Lemma good_le f n s rho M L t rho' M' L' : good f n s rho M L t -> rho' <= rho -> M <= M' -> L <= L' -> good f n s rho' M' L' t.
Proof.
  intros [A B] H1 H2 H3. split.
  - intros d Hd. destruct (A d ltac:(lra)) as (y' & E & W). exists y'. split; [exact E|]. intros i Hi. eapply Rle_trans; [apply W; exact Hi|]. apply Rmult_le_compat_r; [apply pow_le, Rabs_pos|exact H2].
  - intros d y z Hd Hy Hz. destruct (B d y z ltac:(lra)) as (y' & z' & E1 & E2 & W); [intros i Hi; specialize (Hy i Hi); lra|intros i Hi; specialize (Hz i Hi); lra|].
    exists y', z'. split; [exact E1|]. split; [exact E2|]. intros eps He i Hi. assert (E0 : 0 <= eps) by (eapply Rle_trans; [apply Rabs_pos|apply (He 0%nat); lia]).
    eapply Rle_trans; [apply (W eps He i Hi)|]. apply Rmult_le_compat_r; [exact E0|]. assert (P := Rabs_pos d). nra.
Qed.
Lemma step_compose_near order g w f (s0 : state) : integrator_of order (metricfun_of g) w = Ok f -> well_formed g -> symmetric_program g -> hdef g (flat s0) ->
  exists rho, 0 < rho /\ forall d s, Rabs d < rho -> near 16 rho (flat s0) (flat s) -> f d s = Ok (compose g w (composed (weights order)) d s).
Proof.
  intros Hf Hwf Hsym Hd. destruct (regular_small g w (composed (weights order)) s0 Hwf Hsym Hd) as (rho & Hr & H). exists rho. split; [exact Hr|]. intros d s Hds Hs.
  rewrite (order_is_weights order _ _ _ Hf), <- step_run, step_stages_composed, <- compose_map.
  assert (R := H d s Hds Hs). revert R. generalize (map (stage_of d) (composed (weights order))). intros l. clear -Hwf Hsym. revert s. induction l as [|a l IH]; intros s Hr; cbn [run_stages stages_map]; [reflexivity|].
  cbn [regular] in Hr. destruct Hr as [OK Hr]. fold (stage_ok g a s) in OK. rewrite (stage_map_ok g w a s Hwf Hsym OK) in *. cbn [bindR]. apply IH. exact Hr.
Qed.
Lemma good_near order g w f n (s : R -> state) : integrator_of order (metricfun_of g) w = Ok f -> well_formed g -> symmetric_program g ->
  (forall v, (length v <= n)%nat -> coef (composed (weights order)) v = expcoef v) -> solves g w s -> hdef g (flat (s 0)) ->
  exists rho M L, 0 < rho /\ 0 <= M /\ 0 <= L /\ forall t, Rabs t < rho -> good f n s rho M L t.
Proof.
  intros Hf Hwf Hsym Hc Hs Hd.
  destruct (step_compose_near order g w f (s 0) Hf Hwf Hsym Hd) as (r0 & R0 & H0).
  destruct (compose_lip g w (s 0) Hwf Hd (composed (weights order))) as (r1 & L & R1 & HL & H1).
  destruct (uniform_below (fun i r M => forall d x, Rabs d < r -> near 16 r (flat (s 0)) (flat x) -> Rabs (flat (compose g w (composed (weights order)) d x) i - series g w expcoef n d x (EVar i)) <= M * Rabs d ^ S n) 16) as (r2 & M2 & R2 & HM2 & H2).
  { intros k r r' M M' _ HP Hr HM d x Hdd Hx. eapply Rle_trans; [apply HP; [lra|eapply near_le; eassumption]|]. apply Rmult_le_compat_r; [apply pow_le, Rabs_pos|exact HM]. }
  { intros i Hi. assert (Hb : below 16 (EVar i) = true) by (cbn [below]; apply Nat.ltb_lt; exact Hi).
    destruct (compose_expand g w (s 0) (EVar i) n Hwf Hd Hb I (composed (weights order))) as (r & M & A & B & C). exists r, M. split; [exact A|]. split; [exact B|].
    intros d x Hdd Hx. assert (D := C d x Hdd Hx). cbn [meaning] in D.
    assert (E : series g w (coef (composed (weights order))) n d x (EVar i) = series g w expcoef n d x (EVar i)) by (unfold series; apply wsum_ext; intros v Hv; rewrite (Hc v Hv); reflexivity).
    rewrite E in D. exact D. }
  destruct (uniform_below (fun i r M => forall t d, Rabs t < r -> Rabs d < r -> Rabs (flat (s (t + d)) i - series g w expcoef n d (s t) (EVar i)) <= M * Rabs d ^ S n) 16) as (r3 & M3 & R3 & HM3 & H3).
  { intros k r r' M M' _ HP Hr HM t d Ht Hdd. eapply Rle_trans; [apply HP; lra|]. apply Rmult_le_compat_r; [apply pow_le, Rabs_pos|exact HM]. }
  { intros i Hi. apply (exact_expand_near g w s (EVar i) n Hwf Hs Hd); [cbn [below]; apply Nat.ltb_lt; exact Hi|exact I]. }
  set (m := Rmin r0 (Rmin r1 (Rmin r2 r3))). assert (M0 : 0 < m) by (unfold m; repeat apply Rmin_pos; assumption).
  assert (N0 : m <= r0) by apply Rmin_l. assert (N1 : m <= r1) by (unfold m; eapply Rle_trans; [apply Rmin_r|apply Rmin_l]).
  assert (N2 : m <= r2) by (unfold m; do 2 (eapply Rle_trans; [apply Rmin_r|]); apply Rmin_l).
  assert (N3 : m <= r3) by (unfold m; do 2 (eapply Rle_trans; [apply Rmin_r|]); apply Rmin_r). clearbody m.
  destruct (solves_near g w s Hs (m / 2) ltac:(lra)) as (r4 & R4 & H4).
  set (rho := Rmin (m / 2) r4). assert (P0 : 0 < rho) by (apply Rmin_pos; lra). assert (P1 : rho <= m / 2) by apply Rmin_l. assert (P2 : rho <= r4) by apply Rmin_r. clearbody rho.
  exists rho, (M2 + M3), L. split; [exact P0|]. split; [lra|]. split; [exact HL|]. intros t Ht. assert (Nt := H4 t ltac:(lra)).
  assert (Nt' : near 16 m (flat (s 0)) (flat (s t))) by (eapply near_le; [|exact Nt]; lra).
  assert (Nc : forall y, close rho (s t) y -> near 16 m (flat (s 0)) (flat y)).
  { intros y Hy i Hi. assert (A := Hy i Hi). assert (B := Nt i Hi). apply Rabs_def2 in A. apply Rabs_def2 in B. apply Rabs_def1; lra. }
  split.
  - intros d Hdd. exists (compose g w (composed (weights order)) d (s t)). split; [apply H0; [lra|eapply near_le; [exact N0|exact Nt']]|]. intros i Hi.
    assert (A := H2 i Hi d (s t) ltac:(lra) (near_le _ _ _ _ _ N2 Nt')). assert (B := H3 i Hi t d ltac:(lra) ltac:(lra)). set (S0 := series _ _ _ _ _ _ _) in *.
    replace (flat (compose g w (composed (weights order)) d (s t)) i - flat (s (t + d)) i) with ((flat (compose g w (composed (weights order)) d (s t)) i - S0) + - (flat (s (t + d)) i - S0)) by ring.
    eapply Rle_trans; [apply Rabs_triang|]. rewrite Rabs_Ropp. lra.
  - intros d y z Hdd Hy Hz. exists (compose g w (composed (weights order)) d y), (compose g w (composed (weights order)) d z).
    split; [apply H0; [lra|eapply near_le; [exact N0|apply Nc, Hy]]|]. split; [apply H0; [lra|eapply near_le; [exact N0|apply Nc, Hz]]|].
    intros eps He i Hi. apply H1; [lra|eapply near_le; [exact N1|apply Nc, Hy]|eapply near_le; [exact N1|apply Nc, Hz]|exact He|exact Hi].
Qed.

(** ---- uniformity on a compact interval (real induction) ---- *)
Lemma real_induction (P : R -> R -> Prop) a b : a <= b ->
  (forall x y x' y', P x y -> x <= x' -> y' <= y -> P x' y') ->
  (forall x y z, x <= y <= z -> P x y -> P y z -> P x z) ->
  (forall x, a <= x <= b -> exists e, 0 < e /\ P (x - e) (x + e)) -> P a b.
Proof.
  intros Hab Hmon Hjoin Hloc.
  set (E := fun x => a <= x <= b /\ P a x).
  assert (Ea : E a). { split; [lra|]. destruct (Hloc a ltac:(lra)) as (e & He & H). eapply Hmon; [exact H|lra|lra]. }
  destruct (completeness E) as (m & Hub & Hlub).
  { exists b. intros x Hx. apply Hx. } { exists a. exact Ea. }
  assert (Am : a <= m <= b). { split; [apply Hub; exact Ea|]. apply Hlub. intros x Hx. apply Hx. }
  destruct (Hloc m Am) as (e & He & H).
  assert (X : exists x, E x /\ m - e < x).
  { apply Classical_Prop.NNPP. intros N. assert (U : is_upper_bound E (m - e)). { intros x Hx. apply Rnot_lt_le. intros L. apply N. exists x. split; assumption. }
    assert (Q := Hlub _ U). lra. }
  destruct X as (x & Hx & Lx). assert (Lxm : x <= m) by (apply Hub; exact Hx).
  assert (Y : E (Rmin b (m + e))).
  { split; [split; [apply Rmin_glb; lra|apply Rmin_l]|]. apply (Hjoin a x); [split; [apply Hx|apply Rmin_glb; [apply Hx|lra]]|apply Hx|]. eapply Hmon; [exact H|lra|apply Rmin_r]. }
  destruct (Rle_dec b (m + e)) as [L|L]; [rewrite Rmin_left in Y by lra; apply Y|]. rewrite Rmin_right in Y by lra. assert (Q := Hub _ Y). lra.
Qed.
Lemma good_compact f n s a b : a <= b ->
  (forall x, a <= x <= b -> exists rho M L, 0 < rho /\ 0 <= M /\ 0 <= L /\ forall t, Rabs (t - x) < rho -> good f n s rho M L t) ->
  exists rho M L, 0 < rho /\ 0 <= M /\ 0 <= L /\ forall t, a <= t <= b -> good f n s rho M L t.
Proof.
  intros Hab Hloc. apply (real_induction (fun x y => exists rho M L, 0 < rho /\ 0 <= M /\ 0 <= L /\ forall t, x <= t <= y -> good f n s rho M L t) a b Hab).
  - intros x y x' y' (rho & M & L & A & B & C & D) H1 H2. exists rho, M, L. repeat (split; [assumption|]). intros t Ht. apply D. lra.
  - intros x y z Hy (rho & M & L & A & B & C & D) (rho' & M' & L' & A' & B' & C' & D').
    exists (Rmin rho rho'), (Rmax M M'), (Rmax L L'). split; [apply Rmin_pos; assumption|]. split; [eapply Rle_trans; [exact B|apply Rmax_l]|]. split; [eapply Rle_trans; [exact C|apply Rmax_l]|].
    intros t Ht. destruct (Rle_dec t y) as [K|K].
    + eapply good_le; [apply D; lra|apply Rmin_l|apply Rmax_l|apply Rmax_l].
    + eapply good_le; [apply D'; lra|apply Rmin_r|apply Rmax_r|apply Rmax_r].
  - intros x Hx. destruct (Hloc x Hx) as (rho & M & L & A & B & C & D). exists (rho / 2). split; [lra|]. exists rho, M, L. repeat (split; [assumption|]). intros t Ht. apply D. apply Rabs_def1; lra.
Qed.

(** ---- accumulation of errors ---- *)
Lemma converge f n s T rho M L : 0 < T -> 0 < rho -> 0 <= M -> 0 <= L -> (forall t, 0 <= t <= T -> good f n s rho M L t) -> (0 < n)%nat ->
  forall N, (0 < N)%nat -> T / INR N < rho -> T * M * exp (L * T) * (T / INR N) ^ n < rho ->
  forall k, (k <= N)%nat -> exists l, length l = k /\ chain (f (T / INR N)) (s 0) l /\ (forall j y, nth_error (s 0 :: l) j = Some y -> within (T * M * exp (L * T) * (T / INR N) ^ n) y (s (INR j * (T / INR N)))).
Proof.
  intros HT Hr HM HL HG Hn N HN Hh HB. set (h := T / INR N) in *. set (B := T * M * exp (L * T) * h ^ n) in *.
  assert (PN : 0 < INR N) by (apply lt_0_INR; exact HN).
  assert (Ph : 0 < h) by (unfold h; apply Rdiv_lt_0_compat; assumption).
  assert (Ah : Rabs h = h) by (apply Rabs_right; lra).
  assert (hN : forall k, (k <= N)%nat -> 0 <= INR k * h <= T).
  { intros k Hk. assert (P := pos_INR k). split; [apply Rmult_le_pos; lra|]. apply le_INR in Hk. replace T with (INR N * h) by (unfold h; field; lra). apply Rmult_le_compat_r; lra. }
  set (err := fun k : nat => INR k * h * (M * h ^ n) * (1 + L * h) ^ k).
  assert (Lh : 0 <= L * h) by (apply Rmult_le_pos; lra).
  assert (Mh : 0 <= M * h ^ n) by (apply Rmult_le_pos; [exact HM|apply pow_le; lra]).
  assert (EB : forall k, (k <= N)%nat -> 0 <= err k <= B).
  { intros k Hk. assert (Q := hN k Hk). assert (E1 : 1 <= (1 + L * h) ^ k) by (apply pow_R1_Rle; lra).
    assert (E2 : (1 + L * h) ^ k <= exp (L * T)).
    { assert (P : forall j, (1 + L * h) ^ j <= exp (INR j * (L * h))).
      { induction j as [|j IH]; [cbn; rewrite Rmult_0_l, exp_0; lra|]. rewrite S_INR. cbn [pow]. replace ((INR j + 1) * (L * h)) with (L * h + INR j * (L * h)) by ring. rewrite exp_plus.
        apply Rmult_le_compat; [lra|apply pow_le; lra| |exact IH]. apply exp_ineq1_le. }
      eapply Rle_trans; [apply P|]. assert (X : INR k * (L * h) <= L * T) by (replace (INR k * (L * h)) with (L * (INR k * h)) by ring; apply Rmult_le_compat_l; lra).
      destruct X as [X|X]; [apply Rlt_le, exp_increasing, X|rewrite X; lra]. }
    unfold err, B. split; [apply Rmult_le_pos; [apply Rmult_le_pos; [apply Q|exact Mh]|lra]|].
    replace (T * M * exp (L * T) * h ^ n) with (T * (M * h ^ n) * exp (L * T)) by ring.
    apply Rmult_le_compat; [apply Rmult_le_pos; [apply Q|exact Mh]|lra|apply Rmult_le_compat_r; [exact Mh|apply Q]|exact E2]. }
  assert (ES : forall k, (1 + L * h) * err k + M * h ^ S n <= err (S k)).
  { intros k. unfold err. rewrite S_INR. cbn [pow]. assert (E1 : 1 <= (1 + L * h) ^ k) by (apply pow_R1_Rle; lra).
    assert (E2 : 1 <= (1 + L * h) * (1 + L * h) ^ k) by nra. assert (Q : 0 <= h * (M * h ^ n)) by (apply Rmult_le_pos; lra).
    replace ((INR k + 1) * h * (M * h ^ n) * ((1 + L * h) * (1 + L * h) ^ k)) with ((1 + L * h) * (INR k * h * (M * h ^ n) * (1 + L * h) ^ k) + h * (M * h ^ n) * ((1 + L * h) * (1 + L * h) ^ k)) by ring.
    replace (M * (h * h ^ n)) with (h * (M * h ^ n) * 1) by ring. apply Rplus_le_compat_l, Rmult_le_compat_l; assumption. }
  assert (K : forall m k y, (k + m <= N)%nat -> within (err k) y (s (INR k * h)) ->
    exists l, length l = m /\ chain (f h) y l /\ forall j z, nth_error (y :: l) j = Some z -> within (err (k + j)%nat) z (s (INR (k + j) * h))).
  { induction m as [|m IH]; intros k y Hk Hy.
    - exists []. split; [reflexivity|]. split; [constructor|]. intros [|j] z Hz; cbn in Hz; [injection Hz as <-; rewrite Nat.add_0_r; exact Hy|destruct j; discriminate].
    - destruct (HG (INR k * h) (hN k ltac:(lia))) as [G1 G2].
      destruct (G1 h ltac:(rewrite Ah; exact Hh)) as (x' & Ex & Wx).
      destruct (G2 h y (s (INR k * h)) ltac:(rewrite Ah; exact Hh)) as (y' & x'' & Ey & Ex' & Wy).
      { intros i Hi. eapply Rle_lt_trans; [apply Hy; exact Hi|]. assert (Q := EB k ltac:(lia)). lra. }
      { intros i Hi. rewrite Rminus_eq_0, Rabs_R0. exact Hr. }
      rewrite Ex in Ex'. apply Ok_inj in Ex'. subst x''. specialize (Wy _ Hy). rewrite Ah in Wx, Wy.
      assert (W : within (err (S k)) y' (s (INR (S k) * h))).
      { intros i Hi. rewrite S_INR, Rmult_plus_distr_r, Rmult_1_l. eapply Rle_trans; [|apply ES]. assert (A1 := Wx i Hi). assert (A2 := Wy i Hi).
        replace (flat y' i - flat (s (INR k * h + h)) i) with ((flat y' i - flat x' i) + (flat x' i - flat (s (INR k * h + h)) i)) by ring.
        eapply Rle_trans; [apply Rabs_triang|]. lra. }
      destruct (IH (S k) y' ltac:(lia) W) as (l & Ll & Cl & Wl). exists (y' :: l). split; [cbn; congruence|]. split; [constructor; assumption|].
      intros [|j] z Hz; [cbn in Hz; injection Hz as <-; rewrite Nat.add_0_r; exact Hy|]. cbn [nth_error] in Hz. rewrite Nat.add_succ_r. apply (Wl j z Hz). }
  intros k Hk. destruct (K k 0%nat (s 0) Hk) as (l & Ll & Cl & Wl).
  { intros i Hi. unfold err. cbn [INR]. rewrite !Rmult_0_l, Rminus_eq_0, Rabs_R0. lra. }
  exists l. split; [exact Ll|]. split; [exact Cl|]. intros j y Hj i Hi. cbn [Nat.add] in Wl. eapply Rle_trans; [apply (Wl j y Hj i Hi)|]. apply EB.
  assert (X : (j < length (s 0%R :: l))%nat) by (apply nth_error_Some; congruence). cbn in X. lia.
Qed.
