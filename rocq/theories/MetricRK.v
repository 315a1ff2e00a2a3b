(** C106: RK4naive applied to the equations of motion of the metric classes. *)
From Coq Require Import String Reals List ZArith Lra Lia Bool.
From Coquelicot Require Import Coquelicot.
From Verif Require Import Base Calc DualModel DualSpec DualProofs DualDiff GeoUtilsModel GeoUtilsSpec GeoUtilsProofs GeodesicModel GeodesicProofs CoordModel CoordProofs2 ConvModel ConvProofs
  FantasyModel FantasyProofs FantasyProofs2 FantasyProofs3 FantasyHam FantasyOrder FantasyGlobal FantasyGlobal2 FantasyGlobal3 FantasyCircular ProgCont
  RKModel RKProofs RKOrder RKOrder2 RKGlobal RKGlobal2 RKProg
  MetricModel MetricSpec MetricProofs MetricProofs2 MetricProofs3 MetricProofs4 MetricProofs5 MetricProofs6 MetricProofs7 MetricUnify MetricHamilton MetricHamilton2.
Import ListNotations.
Open Scope R_scope.

(** *** right-hand sides that agree with a program wherever the program is defined *)
Definition implements (n : nat) (f : R -> Y -> Y) (es : nat -> pexpr) : Prop :=
  forall t y, defined_for n es t y -> forall i, (i < n)%nat -> f t y i = program_rhs es t y i.
Lemma defined_box n es t0 y0 : system n es -> defined_for n es t0 y0 -> exists r, 0 < r /\ forall t y, in_box n r t0 y0 t y -> defined_for n es t y.
Proof.
  intros Hs Hd.
  assert (Q : forall m, (m <= n)%nat -> exists r, 0 < r /\ forall t y, in_box n r t0 y0 t y -> forall i, (i < m)%nat -> defined_at (point t y) (es i)).
  { induction m as [|m IH]; intros Hm; [exists 1; split; [lra|]; intros; lia|]. destruct (IH ltac:(lia)) as (r & Hr & H).
    destruct (prog_near (S n) (es m) (point t0 y0) (Hs m ltac:(lia)) (Hd m ltac:(lia)) 1 ltac:(lra)) as (r' & Hr' & H').
    exists (Rmin r r'). split; [apply Rmin_pos; assumption|]. intros t y [A B] i Hi. assert (M1 := Rmin_l r r'). assert (M2 := Rmin_r r r').
    destruct (Nat.eq_dec i m) as [-> |]; [|apply H; [split; [lra|]; intros j Hj; specialize (B j Hj); lra|lia]].
    apply H'. apply near_box. split; [cbn [point]; lra|]. intros j Hj. cbn [point]. specialize (B j Hj). lra. }
  destruct (Q n (le_n n)) as (r & Hr & H). exists r. split; [exact Hr|]. intros t y Hb i Hi. apply H; assumption.
Qed.
Lemma ball_R (x eps u : R) : Rabs (u - x) < eps -> forall h : 0 < eps, ball x (mkposreal eps h) u.
Proof. intros H h. unfold ball; cbn. unfold AbsRing_ball, abs, minus, plus, opp; cbn. exact H. Qed.
Lemma of_ball (x : R) eps u : ball x eps u -> Rabs (u - x) < eps.
Proof. intros H. exact H. Qed.
Lemma smooth_rhs_local n f f' t0 y0 r0 : 0 < r0 -> (forall t y i, (i < n)%nat -> in_box n r0 t0 y0 t y -> f t y i = f' t y i) ->
  smooth_rhs n f t0 y0 -> smooth_rhs n f' t0 y0.
Proof.
  intros Hr0 E (r & L & ft & fy & Hr & HL & H). exists (Rmin r r0), L, ft, fy. split; [apply Rmin_pos; assumption|]. split; [exact HL|].
  assert (M1 := Rmin_l r r0). assert (M2 := Rmin_r r r0).
  assert (W : forall t y, in_box n (Rmin r r0) t0 y0 t y -> in_box n r t0 y0 t y) by (intros t y [A B]; split; [lra|]; intros j Hj; specialize (B j Hj); lra).
  intros i t y Hi Hb. destruct (H i t y Hi (W _ _ Hb)) as (D1 & D2 & D3). destruct Hb as [B1 B2]. split; [|split].
  - eapply D_ext_loc; [|exact D1]. assert (P : 0 < r0 - Rabs (t - t0)) by lra. exists (mkposreal _ P). intros u Hu. apply of_ball in Hu. cbn in Hu. apply E; [exact Hi|]. split.
    + replace (u - t0) with ((u - t) + (t - t0)) by ring. eapply Rle_lt_trans; [apply Rabs_triang|]. lra.
    + intros j Hj. specialize (B2 j Hj). lra.
  - intros j Hj. eapply D_ext_loc; [|apply D2; exact Hj]. assert (B3 := B2 j Hj). assert (P : 0 < r0 - Rabs (y j - y0 j)) by lra. exists (mkposreal _ P). intros u Hu. apply of_ball in Hu. cbn in Hu. apply E; [exact Hi|]. split; [lra|].
    intros k Hk. unfold setj. destruct (Nat.eqb_spec k j) as [-> |]; [|specialize (B2 k Hk); lra].
    replace (u - y0 j) with ((u - y j) + (y j - y0 j)) by ring. eapply Rle_lt_trans; [apply Rabs_triang|]. lra.
  - intros t' y' Hb'. apply D3. apply W. exact Hb'.
Qed.
Lemma curve_in_box n f (y : R -> Y) t0 r : 0 < r -> solves_near n f y t0 -> exists d, 0 < d /\ forall t, Rabs (t - t0) < d -> in_box n r t0 (y t0) t (y t).
Proof.
  intros Hr (r1 & Hr1 & H).
  assert (Q : forall m, (m <= n)%nat -> exists d, 0 < d /\ forall t, Rabs (t - t0) < d -> forall i, (i < m)%nat -> Rabs (y t i - y t0 i) < r).
  { induction m as [|m IH]; intros Hm; [exists 1; split; [lra|]; intros; lia|]. destruct (IH ltac:(lia)) as (d & Hd & K).
    assert (A := H t0 m ltac:(rewrite Rminus_eq_0, Rabs_R0; exact Hr1) ltac:(lia)). apply D_continuous in A.
    destruct (A (fun v => Rabs (v - y t0 m) < r)) as [e1 E1]. { exists (mkposreal r Hr). intros v Hv. exact Hv. }
    exists (Rmin d e1). split; [apply Rmin_pos; [exact Hd|apply cond_pos]|]. intros t Ht i Hi. assert (M1 := Rmin_l d e1). assert (M2 := Rmin_r d e1).
    destruct (Nat.eq_dec i m) as [-> |]; [|apply K; [lra|lia]]. apply E1. eapply Rlt_le_trans; [exact Ht|lra]. }
  destruct (Q n (le_n n)) as (d & Hd & K). exists (Rmin d r). split; [apply Rmin_pos; assumption|]. intros t Ht. assert (M1 := Rmin_l d r). assert (M2 := Rmin_r d r). split; [lra|]. intros j Hj. apply K; [lra|exact Hj].
Qed.
Lemma impl_smooth n f es y t : system n es -> implements n f es -> defined_for n es t (y t) -> solves_near n f y t ->
  smooth_rhs n f t (y t) /\ smooth_solution n f y t.
Proof.
  intros Hs Hi Hd Hsol. destruct (defined_box n es t (y t) Hs Hd) as (r & Hr & Hbox). split.
  - apply (smooth_rhs_local n (program_rhs es) f t (y t) r Hr); [|apply program_smooth; assumption].
    intros u z i Hi' Hb. symmetry. apply Hi; [apply Hbox; exact Hb|exact Hi'].
  - destruct (curve_in_box n f y t r Hr Hsol) as (d & Hd' & Hc). destruct Hsol as (r1 & Hr1 & H1).
    assert (Sp : solves_near n (program_rhs es) y t).
    { exists (Rmin d r1). split; [apply Rmin_pos; assumption|]. intros u i Hu Hi'. assert (M1 := Rmin_l d r1). assert (M2 := Rmin_r d r1).
      rewrite <- (Hi u (y u) (Hbox _ _ (Hc u ltac:(lra))) i Hi'). apply H1; [lra|exact Hi']. }
    destruct (program_solution n es y t Hs Hd Sp) as (r2 & B & D & Hr2 & H2). exists (Rmin d r2), B, D. split; [apply Rmin_pos; assumption|].
    intros u i Hu Hi'. assert (M1 := Rmin_l d r2). assert (M2 := Rmin_r d r2). destruct (H2 u i ltac:(lra) Hi') as (A1 & A2). split; [|exact A2].
    rewrite (Hi u (y u) (Hbox _ _ (Hc u ltac:(lra))) i Hi'). exact A1.
Qed.
Theorem impl_converges n f es y t0 T : reads n f -> system n es -> implements n f es -> T <> 0 ->
  (forall t, Rmin t0 (t0 + T) <= t <= Rmax t0 (t0 + T) -> defined_for n es t (y t) /\ solves_near n f y t) ->
  exists C N0, (0 < N0)%nat /\ forall N tb k i, (N0 <= N)%nat -> (k <= N)%nat -> (i < n)%nat ->
    rk_t (rk4_steps k (rk4_init f t0 (y t0) tb (T / INR N))) = t0 + INR k * (T / INR N) /\
    Rabs (rk_y (rk4_steps k (rk4_init f t0 (y t0) tb (T / INR N))) i - y (t0 + INR k * (T / INR N)) i) <= C * (Rabs T / INR N) ^ 4.
Proof.
  intros Hr Hs Hi HT H. apply rk4_converges; [exact Hr|exact HT|]. intros t Ht. destruct (H t Ht) as [A B]. apply (impl_smooth n f es); assumption.
Qed.

(** *** the equations of motion as the 8-component function passed to the integrator *)
Definition pos (y : Y) : V4 := q4tab y.
Definition vel (y : Y) : V4 := q4tab (fun k => y (4 + k)%nat).
Definition join (x v : V4) : Y := fun j => if Nat.ltb j 4 then q4nth x j else q4nth v (j - 4).
(** lambda is not used; the value on failure (in the code: non-finite entries or an exception) is never reached on the curve *)
Definition motion_rhs (f_vec : V4 -> V4 -> Res (V4 * V4)) (t : R) (y : Y) : Y :=
  match f_vec (pos y) (vel y) with Ok (v, a) => join v a | Err _ => fun _ => 0 end.
Lemma pos_join x v : pos (join x v) = x. Proof. destruct x as [x0 x1 x2 x3]; reflexivity. Qed.
Lemma vel_join x v : vel (join x v) = v. Proof. destruct v as [v0 v1 v2 v3]; reflexivity. Qed.
Lemma motion_reads f_vec : reads 8 (motion_rhs f_vec).
Proof.
  intros t y y' H i Hi. unfold motion_rhs. replace (pos y') with (pos y); [replace (vel y') with (vel y); [reflexivity|]|]; unfold pos, vel, q4tab; rewrite !H by lia; reflexivity.
Qed.
Ltac nat8 i Hi := destruct i as [|[|[|[|[|[|[|[|i]]]]]]]]; [| | | | | | | |exfalso; lia].
Lemma moves_solves f_vec X W t : locally t (moves f_vec X W) -> solves_near 8 (motion_rhs f_vec) (fun u => join (X u) (W u)) t.
Proof.
  intros [eps H]. exists eps. split; [apply cond_pos|]. intros u i Hu Hi. destruct (H u Hu) as (acc & H1 & E & H2).
  unfold motion_rhs. rewrite pos_join, vel_join, E. unfold join. destruct (Nat.ltb_spec i 4) as [L|L].
  - eapply D_ext; [|apply H1; exact L]. intros z. reflexivity.
  - eapply D_ext; [|apply (H2 (i - 4)%nat ltac:(lia))]. intros z. reflexivity.
Qed.

(** *** the Kerr-Newman equations of motion as programs in t, X^0..X^3, W^0..W^3 *)
Section Programs.
Variables (c al rs : R).
Let r := EVar 2.
Let th := EVar 3.
Definition sgP := EAdd (EMul r r) (EMul (EConst (al * al)) (EMul (ECos th) (ECos th))).
Definition dlP := EAdd (ESub (EMul r r) (EMul (EConst rs) r)) (EConst (al * al)).
Definition s2P := EMul (ESin th) (ESin th).
Definition covP (i j : nat) : pexpr :=
  match i, j with
  | 0, 0 => EMul (EConst (c * c)) (EDiv (ESub dlP (EMul (EConst (al * al)) s2P)) sgP)
  | 0, 3 | 3, 0 => EDiv (EMul (EMul (EConst (c * al * rs)) r) s2P) sgP
  | 1, 1 => ENeg (EDiv sgP dlP)
  | 2, 2 => ENeg sgP
  | 3, 3 => ENeg (EMul s2P (EDiv (ESub (EMul (EAdd (EMul r r) (EConst (al * al))) (EAdd (EMul r r) (EConst (al * al)))) (EMul dlP (EMul (EConst (al * al)) s2P))) sgP))
  | _, _ => EConst 0
  end%nat.
Definition conP (i j : nat) : pexpr :=
  match i, j with
  | 0, 0 => EDiv (ESub (EMul (EAdd (EMul r r) (EConst (al * al))) (EAdd (EMul r r) (EConst (al * al)))) (EMul dlP (EMul (EConst (al * al)) s2P))) (EMul (EConst (c * c)) (EMul sgP dlP))
  | 0, 3 | 3, 0 => EDiv (EMul (EConst (al * rs)) r) (EMul (EConst c) (EMul sgP dlP))
  | 1, 1 => ENeg (EDiv dlP sgP)
  | 2, 2 => ENeg (EDiv (EConst 1) sgP)
  | 3, 3 => ENeg (EDiv (ESub dlP (EMul (EConst (al * al)) s2P)) (EMul s2P (EMul sgP dlP)))
  | _, _ => EConst 0
  end%nat.
Definition sum4E (f : nat -> pexpr) : pexpr := EAdd (EAdd (EAdd (f 0%nat) (f 1%nat)) (f 2%nat)) (f 3%nat).
Definition velP (k : nat) : pexpr := EVar (5 + k).
Definition forceP (a : nat) : pexpr :=
  ESub (EMul (EConst (/ 2)) (sum4E (fun c => sum4E (fun d => EMul (EMul (pd (S a) (covP c d)) (velP c)) (velP d)))))
       (sum4E (fun b => EMul (sum4E (fun k => EMul (pd (S k) (covP a b)) (velP k))) (velP b))).
Definition motionP (i : nat) : pexpr := if Nat.ltb i 4 then velP i else sum4E (fun m => EMul (conP (i - 4) m) (forceP m)).
End Programs.

Section KN.
Variables (c G Cc : R) (o : mobj).
Hypothesis Hc : 0 < c.
Hypothesis HG : 0 < G.
Hypothesis HC : 0 < Cc.
Hypothesis Hsys : mo_sys o = BL.
Hypothesis Hspin : valid_spin o.
Hypothesis Hq : q_val (mo_q o) = 0.
Let al := al_of c G o.
Let rs := sch_rad c G o.
Definition knP : nat -> pexpr := motionP c al rs.
Lemma sg_mean t y : meaning (point t y) (sgP al) = sg_of al (c1 (pos y)) (c2 (pos y)).
Proof. unfold sgP, sg_of, pos, q4tab. cbn [meaning point c1 c2]. ring. Qed.
Lemma dl_mean t y : meaning (point t y) (dlP al rs) = dl_of rs al (c1 (pos y)).
Proof. unfold dlP, dl_of, pos, q4tab. cbn [meaning point c1 c2]. ring. Qed.
Lemma s2_mean t y : meaning (point t y) s2P = sin (c2 (pos y)) * sin (c2 (pos y)).
Proof. reflexivity. Qed.
Definition ok_at (y : Y) : Prop := sg_of al (c1 (pos y)) (c2 (pos y)) <> 0 /\ dl_of rs al (c1 (pos y)) <> 0 /\ sin (c2 (pos y)) <> 0.
Lemma sum4_defined z f : (forall k, (k < 4)%nat -> defined_at z (f k)) -> defined_at z (sum4E f).
Proof. intros H. unfold sum4E. cbn [defined_at]. repeat split; apply H; lia. Qed.
Lemma sum4_meaning z f : meaning z (sum4E f) = sum4 (fun k => meaning z (f k)).
Proof. reflexivity. Qed.
Lemma basic_defined z : defined_at z (sgP al) /\ defined_at z (dlP al rs) /\ defined_at z s2P.
Proof. unfold sgP, dlP, s2P. cbn [defined_at]. tauto. Qed.
Lemma cov_defined t y i j : ok_at y -> (i < 4)%nat -> (j < 4)%nat -> defined_at (point t y) (covP c al rs i j).
Proof.
  intros (H1 & H2 & H3) Hi Hj. rewrite <- (sg_mean t) in H1. rewrite <- (dl_mean t) in H2. destruct (basic_defined (point t y)) as (B1 & B2 & B3).
  nat4 i Hi; (nat4 j Hj); unfold covP; cbn [defined_at]; tauto.
Qed.
Lemma con_defined t y i j : ok_at y -> (i < 4)%nat -> (j < 4)%nat -> defined_at (point t y) (conP c al rs i j).
Proof.
  intros (H1 & H2 & H3) Hi Hj. rewrite <- (sg_mean t) in H1. rewrite <- (dl_mean t) in H2. destruct (basic_defined (point t y)) as (B1 & B2 & B3).
  assert (P1 : meaning (point t y) (EMul (EConst (c * c)) (EMul (sgP al) (dlP al rs))) <> 0) by (cbn [meaning]; repeat first [exact H1|exact H2|apply Rgt_not_eq; exact Hc|apply Rmult_integral_contrapositive_currified]).
  assert (P2 : meaning (point t y) (EMul (EConst c) (EMul (sgP al) (dlP al rs))) <> 0) by (cbn [meaning]; repeat first [exact H1|exact H2|apply Rgt_not_eq; exact Hc|apply Rmult_integral_contrapositive_currified]).
  assert (P3 : meaning (point t y) (EMul s2P (EMul (sgP al) (dlP al rs))) <> 0).
  { cbn [meaning]. rewrite s2_mean. repeat first [exact H1|exact H2|exact H3|apply Rmult_integral_contrapositive_currified]. }
  nat4 i Hi; (nat4 j Hj); unfold conP; cbn [defined_at]; try tauto.
Qed.
Lemma motion_defined t y : ok_at y -> defined_for 8 knP t y.
Proof.
  intros H i Hi. unfold knP, motionP. destruct (Nat.ltb_spec i 4) as [L|L]; [exact I|]. apply sum4_defined. intros m Hm. cbn [defined_at]. split; [apply con_defined; [exact H|lia|exact Hm]|].
  unfold forceP. cbn [defined_at]. split; [split; [exact I|]|].
  - apply sum4_defined. intros k Hk. apply sum4_defined. intros d Hd. cbn [defined_at]. split; [split; [apply pd_defined; apply cov_defined; assumption|exact I]|exact I].
  - apply sum4_defined. intros b Hb. cbn [defined_at]. split; [|exact I]. apply sum4_defined. intros k Hk. cbn [defined_at]. split; [apply pd_defined; apply cov_defined; assumption|exact I].
Qed.
Lemma defined_ok t y : defined_for 8 knP t y -> ok_at y.
Proof.
  intros H. specialize (H 7%nat ltac:(lia)). unfold knP, motionP in H. cbn [Nat.ltb Nat.leb] in H. unfold sum4E in H. cbn [Nat.sub] in H. cbn [defined_at] in H. destruct H as [_ [H _]].
  unfold conP in H. cbn [defined_at] in H. destruct H as (_ & _ & H). cbn [meaning] in H. rewrite sg_mean, dl_mean, s2_mean in H.
  repeat split; intros E; apply H; rewrite E; ring.
Qed.
Lemma knP_system : system 8 knP.
Proof. intros i Hi. nat8 i Hi; reflexivity. Qed.
Lemma cov_mean t y i j : (i < 4)%nat -> (j < 4)%nat ->
  meaning (point t y) (covP c al rs i j) = mnth (MetricModel.kn_g c al (sg_of al (c1 (pos y)) (c2 (pos y))) (dl_of rs al (c1 (pos y))) (c1 (pos y)) (c2 (pos y))) i j.
Proof.
  intros Hi Hj. unfold MetricModel.kn_g. nat4 i Hi; (nat4 j Hj); unfold covP, mnth; cbn [q4nth c0 c1 c2 c3 meaning]; try reflexivity; rewrite ?sg_mean, ?dl_mean, ?s2_mean; cbn [point]; change (y 1%nat) with (c1 (pos y)); unfold dl_of, Rdiv; ring.
Qed.
Lemma con_mean t y : ok_at y -> is_inverse (MetricModel.kn_g c al (sg_of al (c1 (pos y)) (c2 (pos y))) (dl_of rs al (c1 (pos y))) (c1 (pos y)) (c2 (pos y))) (mtab (fun i j => meaning (point t y) (conP c al rs i j))).
Proof.
  intros (H1 & H2 & H3). set (R := c1 (pos y)) in *. set (sn := sin (c2 (pos y))) in *. set (S := sg_of al R (c2 (pos y))) in *. set (D := dl_of rs al R) in *.
  assert (E : mtab (fun i j => meaning (point t y) (conP c al rs i j)) =
    let g03 := (al * rs * R) / (c * (S * D)) in
    mkQ4 (mkQ4 (((R * R + al * al) * (R * R + al * al) - D * (al * al * (sn * sn))) / (c * c * (S * D))) 0 0 g03) (mkQ4 0 (- (D / S)) 0 0) (mkQ4 0 0 (- (1 / S)) 0)
         (mkQ4 g03 0 0 (- ((D - al * al * (sn * sn)) / (sn * sn * (S * D)))))).
  { unfold mtab, q4tab, conP. cbn [meaning]. rewrite sg_mean, dl_mean, s2_mean. cbn [point]. change (y 1%nat) with R. fold sn. fold S D. cbv zeta. reflexivity. }
  rewrite E. cbv zeta. clear E.
  assert (ES : S = R * R + al * al - al * al * (sn * sn)). { unfold S, sg_of, sn. assert (Q := sin2_cos2 (c2 (pos y))). unfold Rsqr in Q. transitivity (R * R + al * al * (cos (c2 (pos y)) * cos (c2 (pos y)))); [ring|]. replace (cos (c2 (pos y)) * cos (c2 (pos y))) with (1 - sin (c2 (pos y)) * sin (c2 (pos y))) by lra. ring. }
  assert (ED : rs * R = R * R + al * al - D) by (unfold D, dl_of; ring).
  assert (Hc' : c <> 0) by lra.
  replace (al * rs * R) with (al * (R * R + al * al - D)) by (rewrite <- ED; ring). clear ED.
  unfold MetricModel.kn_g. fold sn. 
  assert (T1 : (D - al * al * (sn * sn)) * ((R * R + al * al) * (R * R + al * al) - D * (al * al * (sn * sn))) + al * al * (sn * sn) * (R * R + al * al - D) * (R * R + al * al - D) = S * S * D) by (rewrite ES; ring).
  assert (sn2 : sn * sn <> 0) by (apply Rmult_integral_contrapositive_currified; exact H3).
  split; apply Q4_eq; apply Q4_eq; cbv [mm mv transpose mtab q4tab q4map dot mnth q4nth c0 c1 c2 c3 id4 Nat.eqb]; try (field; repeat split; assumption).
  all: try (transitivity ((S * S * D) / (S * S * D)); [rewrite <- T1 at 1; field; repeat split; assumption|field; repeat split; assumption]).
Qed.

Lemma ok_dom y : ok_at y <-> bl_dom c G o (pos y) /\ sin (c2 (pos y)) <> 0.
Proof. unfold ok_at, bl_dom. fold al rs. tauto. Qed.
Lemma rsum9 (f : nat -> R) : rsum 9 f = f 0%nat + f 1%nat + f 2%nat + f 3%nat + f 4%nat + f 5%nat + f 6%nat + f 7%nat + f 8%nat.
Proof. cbn [rsum]. ring. Qed.
Lemma cov_below i j : (i < 4)%nat -> (j < 4)%nat -> below 9 (covP c al rs i j) = true.
Proof. intros Hi Hj. nat4 i Hi; (nat4 j Hj); reflexivity. Qed.
Lemma programs_gradient tt x w : bl_dom c G o x -> is_gradient (MetricModel.kn_cov c G Cc o) x (fun k i j => meaning (point tt (join x w)) (pd (S k) (covP c al rs i j))).
Proof.
  intros D p t v Hp Hv.
  assert (L : locally t (fun s => exists g, MetricModel.kn_cov c G Cc o (p s) = Ok g)).
  { set (dg := kn_dg c rs al (sg_of al (c1 x) (c2 x)) (dl_of rs al (c1 x)) (c1 x) (c2 x)).
    assert (E : exists dg, kn_dgdx c G Cc o x = Ok dg).
    { unfold kn_dgdx. rewrite kn_params_eq by exact Hspin. cbn [bindR]. eexists. apply finite_if_ok. repeat constructor; apply D. }
    destruct E as [dg' E]. apply (kn_dgdx_gradient c G Cc o x dg' Hsys E p t v Hp Hv). }
  split; [exact L|]. intros i j Hi Hj. subst x.
  assert (P := pd_path 9 (covP c al rs i j) (cov_below i j Hi Hj) (fun k u => point tt (join (p u) w) k)
     (fun k => match k with O => 0 | S k => if Nat.ltb k 4 then q4nth v k else 0 end) t).
  assert (Q : is_derive (fun u => meaning (fun k => point tt (join (p u) w) k) (covP c al rs i j)) t
     (rsum 9 (fun k => match k with O => 0 | S k => if Nat.ltb k 4 then q4nth v k else 0 end * meaning (fun k => point tt (join (p t) w) k) (pd k (covP c al rs i j))))).
  { apply P.
    - intros [|k] Hk; [exact (D_const tt t)|]. unfold point, join. destruct (Nat.ltb_spec k 4) as [M|M]; [exact (Hv k M)|exact (D_const (q4nth w (k - 4)) t)].
    - assert (Hsg : meaning (point tt (join (p t) w)) (sgP al) <> 0) by (rewrite sg_mean, pos_join; apply D).
      assert (Hdl : meaning (point tt (join (p t) w)) (dlP al rs) <> 0) by (rewrite dl_mean, pos_join; apply D).
      destruct (basic_defined (point tt (join (p t) w))) as (B1 & B2 & B3). change (fun k => point tt (join (p t) w) k) with (point tt (join (p t) w)).
      clear P. nat4 i Hi; (nat4 j Hj); unfold covP; cbn [defined_at]; tauto. }
  eapply D_eq; [eapply D_ext_loc; [|exact Q]|].
  - revert L. apply filter_imp. intros u [g Hg]. assert (Du := kn_cov_dom _ _ _ _ _ _ Hg). rewrite kn_cov_eq in Hg by exact Du. apply Ok_inj in Hg. subst g. rewrite kn_cov_eq by exact Du. cbn [entry].
    change (fun k => point tt (join (p u) w) k) with (point tt (join (p u) w)). rewrite cov_mean by assumption. rewrite pos_join. reflexivity.
  - rewrite rsum9. cbn [Nat.ltb Nat.leb]. unfold sum4. change (fun k => point tt (join (p t) w) k) with (point tt (join (p t) w)). ring.
Qed.
Lemma kn_implements : implements 8 (motion_rhs (kn_f_vec c G Cc o)) knP.
Proof.
  intros t y Hd i Hi. assert (Ok := defined_ok t y Hd). destruct (proj1 (ok_dom y) Ok) as [D Hs]. unfold motion_rhs.
  destruct (kn_f_vec_defined c G Cc o (pos y) (vel y) Hc HG HC D Hs) as [[v1 acc] E]. rewrite E.
  assert (E' := kn_f_vec_uncharged _ _ _ _ _ _ _ _ Hq E). destruct E' as [-> [ch [Hch Ha]]].
  unfold program_rhs, knP, motionP, join. destruct (Nat.ltb_spec i 4) as [L|L]; [nat4 i L; reflexivity|].
  set (x := pos y) in *. set (gi := mtab (fun i j => meaning (point t y) (conP c al rs i j))).
  assert (Yj : forall k e, meaning (point t (join x (vel y))) (pd k (covP c al rs (fst e) (snd e))) = meaning (point t y) (pd k (covP c al rs (fst e) (snd e))) \/ (4 <= fst e)%nat \/ (4 <= snd e)%nat).
  { intros k [a b]. cbn [fst snd]. destruct (le_lt_dec 4 a) as [A|A]; [right; left; exact A|]. destruct (le_lt_dec 4 b) as [B|B]; [right; right; exact B|]. left.
    apply (meaning_ext_b 9); [apply pd_below; apply cov_below; assumption|]. intros [|m] Hm; [reflexivity|]. cbn [point]. unfold join, x, pos, vel. destruct (Nat.ltb_spec m 4) as [M|M].
    - rewrite q4nth_tab' by exact M. reflexivity.
    - rewrite q4nth_tab' by lia. f_equal. lia. }
  assert (K : is_connection (MetricModel.kn_cov c G Cc o) x (levi_civita gi (fun k i j => meaning (point t (join x (vel y))) (pd (S k) (covP c al rs i j))))).
  { eexists _, gi, _. split; [apply kn_cov_eq; exact D|]. split; [apply con_mean; exact Ok|]. split; [apply programs_gradient; exact D|]. intros; reflexivity. }
  assert (U := connection_unique _ _ _ _ (kn_connection _ _ _ _ _ _ Hch) K).
  rewrite Ha. unfold geodesic_accel. rewrite q4nth_tab' by lia. set (W := q4nth (vel y)).
  set (dG := fun k i j => meaning (point t y) (pd (S k) (covP c al rs i j))).
  transitivity (accel (mnth gi) dG W (i - 4)).
  - unfold accel. f_equal. apply sum4_ext. intros k Hk. apply sum4_ext. intros l Hl. rewrite (U (i - 4)%nat k l ltac:(lia) Hk Hl). unfold levi_civita. f_equal. f_equal. f_equal. apply sum4_ext. intros m Hm. f_equal. unfold dG.
    assert (Yk : forall k' a b, (a < 4)%nat -> (b < 4)%nat -> meaning (point t (join x (vel y))) (pd k' (covP c al rs a b)) = meaning (point t y) (pd k' (covP c al rs a b))) by (intros k' a b A B; destruct (Yj k' (a, b)) as [Z|[Z|Z]]; cbn [fst snd] in *; [exact Z|lia|lia]).
    rewrite !Yk by assumption. reflexivity.
  - rewrite accel_force. rewrite sum4_meaning. apply sum4_ext. intros m Hm. cbn [meaning]. apply f_equal2; [unfold gi; rewrite mnth_tab by lia; reflexivity|].
    unfold force, forceP. cbn [meaning]. rewrite !sum4_meaning. apply f_equal2; [apply f_equal|].
    + apply sum4_ext. intros a A. rewrite sum4_meaning. apply sum4_ext. intros d Hd'. cbn [meaning]. unfold dG, W, vel. rewrite !q4nth_tab' by assumption. reflexivity.
    + apply sum4_ext. intros b B. cbn [meaning]. rewrite sum4_meaning. unfold W, vel at 2. rewrite q4nth_tab' by exact B. unfold velP. cbn [meaning point]. f_equal.
Qed.
Lemma kn_rk4 X W T : T <> 0 -> (forall t, Rmin 0 T <= t <= Rmax 0 T -> locally t (moves (kn_f_vec c G Cc o) X W)) ->
  exists C N0, (0 < N0)%nat /\ forall N tb k i, (N0 <= N)%nat -> (k <= N)%nat -> (i < 4)%nat ->
    let st := rk4_steps k (rk4_init (motion_rhs (kn_f_vec c G Cc o)) 0 (join (X 0) (W 0)) tb (T / INR N)) in
    rk_t st = INR k * (T / INR N) /\
    Rabs (q4nth (pos (rk_y st)) i - q4nth (X (INR k * (T / INR N))) i) <= C * (Rabs T / INR N) ^ 4 /\
    Rabs (q4nth (vel (rk_y st)) i - q4nth (W (INR k * (T / INR N))) i) <= C * (Rabs T / INR N) ^ 4.
Proof.
  intros HT HL.
  destruct (impl_converges 8 (motion_rhs (kn_f_vec c G Cc o)) knP (fun u => join (X u) (W u)) 0 T (motion_reads _) knP_system kn_implements HT) as (C & N0 & HN0 & H).
  { rewrite Rplus_0_l. intros t Ht. split; [|apply moves_solves; apply HL; exact Ht]. apply motion_defined. apply ok_dom. rewrite pos_join.
    destruct (locally_singleton _ _ (HL t Ht)) as (acc & _ & E & _). assert (Hc' : c <> 0) by lra. apply (kn_christoffels_defined c G Cc o (X t) Hc'). unfold kn_f_vec in E. rewrite Hsys in E.
    apply bindR_Ok in E. destruct E as [ch [E _]]. exists ch. exact E. }
  exists C, N0. split; [exact HN0|]. intros N tb k i HN Hk Hi. cbv zeta. destruct (H N tb k i HN Hk ltac:(lia)) as [A B]. destruct (H N tb k (4 + i)%nat HN Hk ltac:(lia)) as [_ B2]. rewrite Rplus_0_l in A, B, B2.
  split; [exact A|]. unfold pos, vel. rewrite !q4nth_tab' by exact Hi. split.
  - unfold join in B at 2. destruct (Nat.ltb_spec i 4); [exact B|lia].
  - unfold join in B2 at 2. destruct (Nat.ltb_spec (4 + i) 4); [lia|]. replace (4 + i - 4)%nat with i in B2 by lia. exact B2.
Qed.
End KN.
Lemma motion_rhs_ext f f' : (forall x v y, f x v = Ok y <-> f' x v = Ok y) -> forall t y i, motion_rhs f t y i = motion_rhs f' t y i.
Proof.
  intros H t y i. unfold motion_rhs. destruct (f (pos y) (vel y)) as [z|e] eqn:E.
  - apply H in E. rewrite E. reflexivity.
  - destruct (f' (pos y) (vel y)) as [z|e'] eqn:E'; [|reflexivity]. apply H in E'. rewrite E' in E. discriminate.
Qed.

Lemma motion_rhs_eq f f' : (forall x v y, f x v = Ok y <-> f' x v = Ok y) -> motion_rhs f = motion_rhs f'.
Proof.
  intros H. apply FunctionalExtensionality.functional_extensionality. intros t. apply FunctionalExtensionality.functional_extensionality. intros y. apply FunctionalExtensionality.functional_extensionality. intros i.
  apply motion_rhs_ext. exact H.
Qed.
Lemma sch_rk4 c G o X W T : 0 < c -> 0 < G -> mo_sys o = Sph -> T <> 0 -> (forall t, Rmin 0 T <= t <= Rmax 0 T -> locally t (moves (sch_f_vec c G o) X W)) ->
  exists C N0, (0 < N0)%nat /\ forall N tb k i, (N0 <= N)%nat -> (k <= N)%nat -> (i < 4)%nat ->
    let st := rk4_steps k (rk4_init (motion_rhs (sch_f_vec c G o)) 0 (join (X 0) (W 0)) tb (T / INR N)) in
    rk_t st = INR k * (T / INR N) /\
    Rabs (q4nth (pos (rk_y st)) i - q4nth (X (INR k * (T / INR N))) i) <= C * (Rabs T / INR N) ^ 4 /\
    Rabs (q4nth (vel (rk_y st)) i - q4nth (W (INR k * (T / INR N))) i) <= C * (Rabs T / INR N) ^ 4.
Proof.
  intros Hc HG S HT HL. rewrite (motion_rhs_eq (sch_f_vec c G o) (kn_f_vec c G 1 (as_kn o))) by (intros x v y; apply sch_as_kn; assumption).
  apply (kn_rk4 c G 1 (as_kn o) Hc HG Rlt_0_1 eq_refl (as_kn_spin o) eq_refl X W T HT).
  intros t Ht. generalize (HL t Ht). apply filter_imp. intros u Hu. apply (sch_moves c G o X W u Hc HG S). exact Hu.
Qed.
(** the two solvers agree up to the error of the Hamiltonian integrator *)
Lemma h_pow T h n : 0 <= h <= T -> n = 2%nat \/ n = 4%nat -> h ^ 4 <= (1 + T ^ 2) * h ^ n.
Proof.
  intros [H1 H2] [-> | ->].
  - assert (A : h ^ 2 <= T ^ 2) by (apply pow_incr; lra). assert (B : 0 <= h ^ 2) by (apply pow_le; lra). replace (h ^ 4) with (h ^ 2 * h ^ 2) by ring. nra.
  - assert (B : 0 <= h ^ 4) by (apply pow_le; lra). assert (A : 0 <= T ^ 2) by (apply pow_le; lra). nra.
Qed.
Lemma kn_solvers_agree c G Cc o g X W T order w f n : 0 < c -> 0 < G -> 0 < Cc -> q_val (mo_M o) <> 0 -> mo_sys o = BL -> valid_spin o -> is_kn g (q_val (mo_a o)) 0 -> q_val (mo_q o) = 0 -> 0 < T ->
  (forall t, 0 <= t <= T -> locally t (moves (kn_f_vec c G Cc o) X W)) ->
  integrator_of order (metricfun_of g) w = Ok f -> n = 2%nat \/ (order = 4 /\ n = 4)%nat ->
  exists q0 p0, si_point c G o q0 = X 0 /\ si_velocity c G o g q0 p0 = W 0 /\
  exists C N0, (0 < N0)%nat /\ forall N tl rtol atol suppress tb, (N0 <= N)%nat ->
  exists rows, calculate_trajectory g q0 p0 tl false (mkkw N (T / INR N) rtol atol order w suppress) = Ok (seq 0 N, rows) /\ length rows = N /\
  forall k row, nth_error rows k = Some row -> forall i, (i < 4)%nat ->
    Rabs (q4nth (si_point c G o (fst row)) i - q4nth (pos (rk_y (rk4_steps (S k) (rk4_init (motion_rhs (kn_f_vec c G Cc o)) 0 (join (X 0) (W 0)) tb (T / INR N))))) i) <= C * (T / INR N) ^ n.
Proof.
  intros Hc HG HC HM Hsys Hspin Hg Hq HT HL Hf Hn.
  destruct (moves_trajectory c G Cc o g Hc HG HC HM Hsys Hspin Hg X W T order w f n Hq HT HL Hf Hn) as (q0 & p0 & E1 & E2 & C & N0 & HN0 & H).
  destruct (kn_rk4 c G Cc o Hc HG HC Hsys Hspin Hq X W T ltac:(lra)) as (C' & N1 & HN1 & H').
  { rewrite Rmin_left, Rmax_right by lra. exact HL. }
  exists q0, p0. split; [exact E1|]. split; [exact E2|]. exists (C + Rabs C' * (1 + T ^ 2)), (Nat.max N0 N1). split; [lia|]. intros N tl rtol atol suppress tb HN.
  destruct (H N tl rtol atol suppress ltac:(lia)) as (rows & Er & Hlen & Hrow). exists rows. split; [exact Er|]. split; [exact Hlen|]. intros k row Hr i Hi.
  assert (Kk : (S k <= N)%nat) by (rewrite <- Hlen; apply nth_error_Some; rewrite Hr; discriminate).
  destruct (H' N tb (S k) i ltac:(lia) Kk Hi) as (_ & B & _). cbv zeta in B. assert (A := Hrow k row Hr i Hi).
  set (h := T / INR N) in *. assert (Np : 1 <= INR N) by (apply (le_INR 1); lia).
  assert (Hh : 0 <= h <= T). { unfold h. split; [left; apply Rdiv_lt_0_compat; lra|]. apply Rmult_le_reg_r with (INR N); [lra|]. unfold Rdiv. rewrite Rmult_assoc, Rinv_l by lra. nra. }
  rewrite (Rabs_right T) in B by lra. fold h in B. assert (HP := h_pow T h n Hh ltac:(tauto)).
  set (u := q4nth (si_point c G o (fst row)) i) in *. set (x := q4nth (X (INR (S k) * h)) i) in *.
  match goal with |- Rabs (u - ?r) <= _ => set (z := r) in * end.
  replace (u - z) with ((u - x) - (z - x)) by ring. unfold Rminus at 1. eapply Rle_trans; [apply Rabs_triang|]. rewrite Rabs_Ropp.
  assert (Bp : C' * h ^ 4 <= Rabs C' * ((1 + T ^ 2) * h ^ n)).
  { eapply Rle_trans; [apply Rmult_le_compat_r; [apply pow_le; lra|apply Rle_abs]|]. apply Rmult_le_compat_l; [apply Rabs_pos|exact HP]. }
  replace ((C + Rabs C' * (1 + T ^ 2)) * h ^ n) with (C * h ^ n + Rabs C' * ((1 + T ^ 2) * h ^ n)) by ring. lra.
Qed.
Lemma sch_solvers_agree c G o g X W T order w f n : 0 < c -> 0 < G -> q_val (mo_M o) <> 0 -> mo_sys o = Sph -> is_kn g 0 0 -> 0 < T ->
  (forall t, 0 <= t <= T -> locally t (moves (sch_f_vec c G o) X W)) ->
  integrator_of order (metricfun_of g) w = Ok f -> n = 2%nat \/ (order = 4 /\ n = 4)%nat ->
  exists q0 p0, si_point c G o q0 = X 0 /\ si_velocity c G o g q0 p0 = W 0 /\
  exists C N0, (0 < N0)%nat /\ forall N tl rtol atol suppress tb, (N0 <= N)%nat ->
  exists rows, calculate_trajectory g q0 p0 tl false (mkkw N (T / INR N) rtol atol order w suppress) = Ok (seq 0 N, rows) /\ length rows = N /\
  forall k row, nth_error rows k = Some row -> forall i, (i < 4)%nat ->
    Rabs (q4nth (si_point c G o (fst row)) i - q4nth (pos (rk_y (rk4_steps (S k) (rk4_init (motion_rhs (sch_f_vec c G o)) 0 (join (X 0) (W 0)) tb (T / INR N))))) i) <= C * (T / INR N) ^ n.
Proof.
  intros Hc HG HM S Hg HT HL. rewrite (motion_rhs_eq (sch_f_vec c G o) (kn_f_vec c G 1 (as_kn o))) by (intros x v y; apply sch_as_kn; assumption).
  apply (kn_solvers_agree c G 1 (as_kn o) g X W T order w f n Hc HG Rlt_0_1 HM eq_refl (as_kn_spin o) Hg eq_refl HT).
  intros t Ht. generalize (HL t Ht). apply filter_imp. intros u Hu. apply (sch_moves c G o X W u Hc HG S). exact Hu.
Qed.
(** a motion: the circular orbit at r = 9 around a Schwarzschild hole *)
Lemma circular_moves c G o : 0 < c -> 0 < G -> q_val (mo_M o) <> 0 -> mo_sys o = Sph ->
  forall t, moves (sch_f_vec c G o) (fun u => si_point c G o (circ_q 0 0 3 1 u)) (fun u => si_velocity c G o schE (circ_q 0 0 3 1 u) (circ_p 0 0 3 1 u)) t.
Proof.
  intros Hc HG HM S t. assert (Ok3 : circ_ok 0 0 3) by (unfold circ_ok, c_r, DeltaS; split; lra).
  apply sch_iff; try assumption; try apply named_is_kn; try (unfold circ_q, c_r; cbn [c1 c2]; rewrite ?sin_PI2; lra).
  apply circ_hamilton; [exact Ok3|apply named_is_kn].
Qed.
Lemma kn_rk4' c G Cc o X W T : 0 < c -> 0 < G -> 0 < Cc -> mo_sys o = BL -> valid_spin o -> q_val (mo_q o) = 0 -> T <> 0 ->
  (forall t, Rmin 0 T <= t <= Rmax 0 T -> locally t (moves (kn_f_vec c G Cc o) X W)) ->
  exists C N0, (0 < N0)%nat /\ forall N tb k i, (N0 <= N)%nat -> (k <= N)%nat -> (i < 4)%nat ->
    let st := rk4_steps k (rk4_init (motion_rhs (kn_f_vec c G Cc o)) 0 (join (X 0) (W 0)) tb (T / INR N)) in
    rk_t st = INR k * (T / INR N) /\
    Rabs (q4nth (pos (rk_y st)) i - q4nth (X (INR k * (T / INR N))) i) <= C * (Rabs T / INR N) ^ 4 /\
    Rabs (q4nth (vel (rk_y st)) i - q4nth (W (INR k * (T / INR N))) i) <= C * (Rabs T / INR N) ^ 4.
Proof. intros. apply kn_rk4; assumption. Qed.
