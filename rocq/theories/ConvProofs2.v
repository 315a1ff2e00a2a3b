From Coq Require Import String Reals List ZArith Lra Lia Bool.
From Verif Require Import Base GeoUtilsModel GeoUtilsProofs CoordModel CoordProofs CoordProofs2 ConvModel ConvProofs.
Import ListNotations.
Open Scope R_scope.

(** C29 *)
Definition symmetric4 (g : M4) : Prop := forall i j, (i < 4)%nat -> (j < 4)%nat -> mnth g i j = mnth g j i.
(** g(v,v) *)
Definition norm2 (g : M4) (v : V4) : R := dot v (mv g v).

Lemma norm2_quadratic c g u a b d : symmetric4 g ->
  norm2 g (mkQ4 u a b d) = let '(A, B, C) := v0_coeffs c g a b d in A * u ^ 2 + B * u + C + c ^ 2.
Proof.
  intros S. unfold norm2, dot, mv, q4map, v0_coeffs. cbn [c0 c1 c2 c3].
  assert (E := fun i j Hi Hj => S i j Hi Hj).
  assert (E01 := S 0%nat 1%nat ltac:(lia) ltac:(lia)). assert (E02 := S 0%nat 2%nat ltac:(lia) ltac:(lia)).
  assert (E03 := S 0%nat 3%nat ltac:(lia) ltac:(lia)). assert (E12 := S 1%nat 2%nat ltac:(lia) ltac:(lia)).
  assert (E13 := S 1%nat 3%nat ltac:(lia) ltac:(lia)). assert (E23 := S 2%nat 3%nat ltac:(lia) ltac:(lia)).
  clear E S. unfold mnth, q4nth in *. unfold dot. cbn [c0 c1 c2 c3].
  rewrite <- E01, <- E02, <- E03, <- E12, <- E13, <- E23. ring.
Qed.

Lemma v0_normalised c g a b d u : symmetric4 g -> v0 c g a b d = Ok u -> norm2 g (mkQ4 u a b d) = c ^ 2.
Proof.
  intros S H. rewrite (norm2_quadratic c) by exact S. revert H. unfold v0.
  destruct (v0_coeffs c g a b d) as [[A B] C]. unfold np_sqrt.
  destruct (Rle_dec 0 (B ^ 2 - 4 * A * C)) as [HD|]; cbn [bindR]; [|discriminate]. unfold np_div.
  destruct (Req_EM_T (2 * A) 0) as [|HA]; [discriminate|]. intros H; apply Ok_inj in H; subst u.
  assert (E := sqrt_sqrt _ HD). set (s := sqrt (B ^ 2 - 4 * A * C)) in *. clearbody s.
  assert (HA' : A <> 0) by (intros ->; apply HA; ring).
  apply Rmult_eq_reg_l with (4 * A); [|lra].
  replace (4 * A * (A * ((- B + s) / (2 * A)) ^ 2 + B * ((- B + s) / (2 * A)) + C + c ^ 2))
    with (s * s - B * B + 4 * A * C + 4 * A * c ^ 2) by (field; exact HA').
  rewrite E. ring.
Qed.

(** exactly when the call succeeds *)
Lemma v0_defined c g a b d : (exists u, v0 c g a b d = Ok u) <->
  let '(A, B, C) := v0_coeffs c g a b d in 0 <= B ^ 2 - 4 * A * C /\ A <> 0.
Proof.
  unfold v0. destruct (v0_coeffs c g a b d) as [[A B] C]. unfold np_sqrt.
  destruct (Rle_dec 0 (B ^ 2 - 4 * A * C)) as [HD|HD]; cbn [bindR].
  - unfold np_div. destruct (Req_EM_T (2 * A) 0) as [H|H].
    + split; [intros [u H1]; discriminate|intros [_ H1]; lra].
    + split; [intros _; split; [exact HD|intros ->; apply H; ring]|intros _; eexists; reflexivity].
  - split; [intros [u H1]; discriminate|intros [H _]; contradiction].
Qed.

(** future directed outside the ergosphere (g_00 > 0) when the spatial part is time-like (h(v,v) < c^2) *)
Lemma v0_future c g a b d : symmetric4 g -> 0 < mnth g 0 0 -> norm2 g (mkQ4 0 a b d) < c ^ 2 ->
  exists u, v0 c g a b d = Ok u /\ 0 < u.
Proof.
  intros S HA HC. rewrite (norm2_quadratic c) in HC by exact S. unfold v0. unfold v0_coeffs in *. cbv beta iota zeta in HC.
  set (A := mnth g 0 0) in *. set (B := 2 * (mnth g 0 1 * a + mnth g 0 2 * b + mnth g 0 3 * d)) in *.
  match goal with |- context [B ^ 2 - 4 * A * ?c1] => set (C := c1) in * end.
  assert (HC' : C < 0) by lra. clearbody A B C.
  assert (HD : 0 < - (A * C)) by nra.
  unfold np_sqrt. destruct (Rle_dec 0 (B ^ 2 - 4 * A * C)) as [H|H]; [|nra]. cbn [bindR].
  rewrite np_div_ok by lra. eexists; split; [reflexivity|].
  apply Rdiv_lt_0_compat; [|lra].
  assert (Rabs B < sqrt (B ^ 2 - 4 * A * C)).
  { rewrite <- sqrt_Rsqr_abs. apply sqrt_lt_1; unfold Rsqr; nra. }
  assert (B <= Rabs B) by apply Rle_abs. lra.
Qed.

(** velocity(metric): outcome and the object's state *)
Lemma velocity_ok c k g v : snd (velocity c k g) = Ok v ->
  df_sys k = me_sys g
  /\ (exists m, me_cov g (df_position c k) = Ok m /\ (symmetric4 m -> norm2 m v = c ^ 2))
  /\ (let '(a, b, d) := df_v k in c1 v = si a /\ c2 v = si b /\ c3 v = si d)
  /\ df_vt (fst (velocity c k g)) = Some (in_si (c0 v) DSpeed).
Proof.
  unfold velocity, set_v_t. destruct (system_eqb (df_sys k) (me_sys g)) eqn:Es; [|discriminate].
  assert (Es' : df_sys k = me_sys g) by (destruct (df_sys k), (me_sys g); simpl in Es; congruence).
  destruct (me_cov g (df_position c k)) as [m|e] eqn:Em; cbn [bindR]; [|discriminate].
  destruct (df_v k) as [[a b] d] eqn:Ev. destruct (v0 c m (si a) (si b) (si d)) as [u|e] eqn:Eu; cbn [bindR]; [|discriminate].
  cbn [df_v df_vt snd fst]. intros H; injection H as <-. cbn [c0 c1 c2 c3 in_si q_val].
  split; [exact Es'|]. split; [|split; [tauto|reflexivity]].
  exists m; split; [reflexivity|]. intros S. eapply v0_normalised; eassumption.
Qed.

Lemma velocity_mismatch c k g : df_sys k <> me_sys g -> velocity c k g = (k, Err CoordinateError).
Proof.
  intros H. unfold velocity, set_v_t. assert (E : system_eqb (df_sys k) (me_sys g) = false).
  { destruct (df_sys k), (me_sys g); simpl; congruence. }
  rewrite E. reflexivity.
Qed.

(** everything but v_t is immutable; a failing call changes nothing *)
Lemma velocity_frame c k g : let k' := fst (velocity c k g) in
  df_sys k' = df_sys k /\ df_q k' = df_q k /\ df_v k' = df_v k /\ df_conv k' = df_conv k
  /\ ((exists e, snd (velocity c k g) = Err e) -> k' = k).
Proof.
  cbv zeta. unfold velocity, set_v_t. destruct (system_eqb (df_sys k) (me_sys g)); cbn [fst snd]; [|tauto].
  destruct (me_cov g (df_position c k)) as [m|e]; cbn [bindR fst snd]; [|tauto].
  destruct (df_v k) as [[a b] d] eqn:Ev. destruct (v0 c m (si a) (si b) (si d)) as [u|e]; cbn [bindR fst snd]; [|tauto].
  cbn [df_v df_sys df_q df_conv df_vt fst snd]. repeat split.
  intros [e H]; discriminate.
Qed.

(** Any history of velocity() calls: the result of each call does not depend on the earlier ones, and v_t is the time
    component returned by the last successful call. *)
Fixpoint vel_calls (c : R) (k : diffl) (gs : list metric) : diffl * list (Res V4) :=
  match gs with
  | [] => (k, [])
  | g :: r => let '(k1, o) := velocity c k g in let '(k2, os) := vel_calls c k1 r in (k2, o :: os)
  end.
Definition last_ok (os : list (Res V4)) : option V4 :=
  fold_left (fun acc o => match o with Ok v => Some v | Err _ => acc end) os None.

Lemma velocity_indep c k k' g : df_sys k' = df_sys k -> df_q k' = df_q k -> df_v k' = df_v k ->
  snd (velocity c k' g) = snd (velocity c k g).
Proof.
  intros E1 E2 E3. unfold velocity, set_v_t, df_position. rewrite E1, E2, E3.
  destruct (system_eqb (df_sys k) (me_sys g)); [|reflexivity]. destruct (me_cov g _); cbn [bindR]; [|reflexivity].
  destruct (df_v k) as [[va vb] vd] eqn:Ev. destruct v0; cbn [bindR]; reflexivity.
Qed.

Lemma vel_history c k gs : 
  snd (vel_calls c k gs) = map (fun g => snd (velocity c k g)) gs
  /\ df_vt (fst (vel_calls c k gs)) =
     match last_ok (snd (vel_calls c k gs)) with Some v => Some (in_si (c0 v) DSpeed) | None => df_vt k end
  /\ df_sys (fst (vel_calls c k gs)) = df_sys k /\ df_q (fst (vel_calls c k gs)) = df_q k /\ df_v (fst (vel_calls c k gs)) = df_v k.
Proof.
  assert (L : forall os a0, fold_left (fun acc (o : Res V4) => match o with Ok v => Some v | Err _ => acc end) os a0 =
     match last_ok os with Some v => Some v | None => a0 end).
  { induction os as [|o os IH] using rev_ind; intros a0; [reflexivity|].
    unfold last_ok. rewrite !fold_left_app. simpl. destruct o; [reflexivity|]. rewrite (IH a0). reflexivity. }
  revert k. induction gs as [|g gs IH]; intros k; [simpl; auto|].
  simpl. destruct (velocity c k g) as [k1 o] eqn:E. destruct (vel_calls c k1 gs) as [k2 os] eqn:E2.
  specialize (IH k1). rewrite E2 in IH. cbn [fst snd] in *. destruct IH as [H1 [H2 [H3 [H4 H5]]]].
  assert (F := velocity_frame c k g). rewrite E in F. cbv zeta in F. cbn [fst snd] in F. destruct F as [F1 [F2 [F3 [F4 F5]]]].
  split; [|split; [|split; [congruence|split; congruence]]].
  - f_equal. rewrite H1. apply map_ext. intros g'. apply velocity_indep; assumption.
  - rewrite H2. unfold last_ok at 2. simpl. rewrite L. destruct (last_ok os) as [w|]; [reflexivity|].
    destruct o as [v|e].
    + assert (V := velocity_ok c k g v). rewrite E in V. cbn [fst snd] in V. apply V. reflexivity.
    + rewrite (F5 (ex_intro _ e eq_refl)). reflexivity.
Qed.

(** C30 *)
Definition component (k : coord) (i : nat) : item := IQty (q4nth (co_q k) i).
Lemma getitem_int k (i : Z) : (-4 <= i < 4)%Z ->
  getitem k (KInt i) = Ok (component k (Z.to_nat (i mod 4))).
Proof.
  intros H. assert (C : (i = -4 \/ i = -3 \/ i = -2 \/ i = -1 \/ i = 0 \/ i = 1 \/ i = 2 \/ i = 3)%Z) by lia.
  destruct k as [s q cv]; destruct s; repeat (destruct C as [C|C]; [subst i; reflexivity|]); subst i; reflexivity.
Qed.
Lemma tuple_get_out {A} (l : list A) i : (i < - Z.of_nat (List.length l) \/ Z.of_nat (List.length l) <= i)%Z -> tuple_get l i = Err IndexError.
Proof.
  intros H. unfold tuple_get. destruct (Z.ltb_spec i 0).
  - destruct (Z.ltb_spec (i + Z.of_nat (length l)) 0); [reflexivity|lia].
  - destruct (Z.ltb_spec i 0); [lia|]. destruct (nth_error l (Z.to_nat i)) eqn:E; [|reflexivity].
    assert (N : nth_error l (Z.to_nat i) <> None) by congruence. apply nth_error_Some in N. lia.
Qed.
Lemma getitem_int_out k (i : Z) : (i < -4 \/ 4 <= i)%Z -> getitem k (KInt i) = Err IndexError.
Proof.
  intros H. unfold getitem. rewrite tuple_get_out; [reflexivity|]. destruct (co_sys k); simpl; lia.
Qed.
Lemma getitem_name k s (i : nat) : (i < 4)%nat -> nth_error (names (co_sys k)) i = Some s ->
  getitem k (KStr s) = Ok (component k i) /\ getitem k (KStr s) = getitem k (KInt (Z.of_nat i)).
Proof.
  intros Hi H. destruct k as [sy q cv].
  destruct i as [|[|[|[|i]]]]; [..|lia]; destruct sy; simpl in H; injection H as <-; split; reflexivity.
Qed.
Lemma getitem_system k : getitem k (KStr "system") = Ok (ISystem (co_sys k)).
Proof. destruct k as [[] q cv]; reflexivity. Qed.
Lemma getitem_unknown k s : ~ In s (names (co_sys k)) -> s <> "system"%string -> getitem k (KStr s) = Err KeyError.
Proof.
  intros H1 H2. unfold getitem, dimension. destruct k as [sy q cv]. cbn [co_sys co_q] in *.
  assert (E : forall n, (In n (names sy) \/ n = "system"%string) -> String.eqb n s = false).
  { intros n Hn. apply String.eqb_neq. intros ->. destruct Hn as [Hn|Hn]; [exact (H1 Hn)|congruence]. }
  destruct sy; cbn [names combine app dict_get]; rewrite !E by (simpl; tauto); reflexivity.
Qed.

(** the documented keys, written out *)
Lemma getitem_documented : forall (k : coord),
  getitem k (KStr "t") = Ok (IQty (c0 (co_q k)))
  /\ (co_sys k = Cart -> getitem k (KStr "x") = Ok (IQty (c1 (co_q k))) /\ getitem k (KStr "y") = Ok (IQty (c2 (co_q k)))
       /\ getitem k (KStr "z") = Ok (IQty (c3 (co_q k))))
  /\ (co_sys k = Sph \/ co_sys k = BL -> getitem k (KStr "r") = Ok (IQty (c1 (co_q k))) /\ getitem k (KStr "theta") = Ok (IQty (c2 (co_q k)))
       /\ getitem k (KStr "phi") = Ok (IQty (c3 (co_q k)))).
Proof.
  intros [sy q cv]. split; [destruct sy; reflexivity|]. split.
  - cbn [co_sys]. intros ->. repeat split; reflexivity.
  - cbn [co_sys]. intros [-> | ->]; repeat split; reflexivity.
Qed.
(** every other string is a KeyError *)
Lemma getitem_undocumented : forall (k : coord) (s : string),
  ~ In s (match co_sys k with Cart => ["t"; "x"; "y"; "z"; "system"] | _ => ["t"; "r"; "theta"; "phi"; "system"] end)%string ->
  getitem k (KStr s) = Err KeyError.
Proof.
  intros k s H. apply getitem_unknown; intros Hi; apply H; destruct (co_sys k); cbn [names] in Hi; simpl in *; intuition.
Qed.

(** C31 *)
Lemma lorentz_def c a b d : 0 < c -> a * a + b * b + d * d < c ^ 2 ->
  exists y, lorentz_factor c a b d = Ok y /\ 1 <= y /\ (y = 1 <-> a = 0 /\ b = 0 /\ d = 0)
   /\ y * y * (1 - (a * a + b * b + d * d) / c ^ 2) = 1.
Proof.
  intros Hc H. unfold lorentz_factor. set (n := a * a + b * b + d * d) in *.
  assert (Hc2 : 0 < c ^ 2) by nra.
  assert (Hn : 0 <= n) by (unfold n; nra).
  assert (Hq : 0 <= n / c ^ 2) by (apply Rmult_le_pos; [exact Hn|left; apply Rinv_0_lt_compat; exact Hc2]).
  assert (Hq1 : n / c ^ 2 < 1).
  { apply Rmult_lt_reg_r with (c ^ 2); [exact Hc2|]. unfold Rdiv. rewrite Rmult_assoc, Rinv_l by lra. lra. }
  rewrite np_sqrt_ok by lra. cbn [bindR].
  assert (Hs : 0 < sqrt (1 - n / c ^ 2)) by (apply sqrt_lt_R0; lra).
  assert (Hs2 := sqrt_sqrt (1 - n / c ^ 2) ltac:(lra)).
  set (s := sqrt (1 - n / c ^ 2)) in *. assert (Hs1 : s <= 1) by nra.
  rewrite np_div_ok by lra. eexists; split; [reflexivity|]. split; [|split].
  - apply Rmult_le_reg_r with s; [exact Hs|]. unfold Rdiv. rewrite Rmult_assoc, Rinv_l by lra. lra.
  - split.
    + intros E. assert (s = 1) by (apply Rmult_eq_reg_l with (1 / s); [|rewrite E; lra]; rewrite E at 2; field; lra).
      assert (n / c ^ 2 = 0) by nra. assert (n = 0).
      { replace n with (n / c ^ 2 * c ^ 2) by (field; lra). rewrite H1. ring. }
      unfold n in H2. split; [|split]; nra.
    + intros [-> [-> ->]]. assert (n = 0) by (unfold n; ring). rewrite H0 in Hs2.
      replace (1 - 0 / c ^ 2) with 1 in Hs2 by (field; lra). assert (s = 1) by nra. rewrite H1. field.
  - rewrite <- Hs2. field. lra.
Qed.

Lemma lorentz_superluminal c a b d : 0 < c -> c ^ 2 <= a * a + b * b + d * d -> lorentz_factor c a b d = Err NonFinite.
Proof.
  intros Hc H. unfold lorentz_factor. assert (Hc2 : 0 < c ^ 2) by nra.
  set (n := a * a + b * b + d * d) in *.
  assert (Hq : 1 <= n / c ^ 2).
  { apply Rmult_le_reg_r with (c ^ 2); [exact Hc2|]. unfold Rdiv. rewrite Rmult_assoc, Rinv_l by lra. lra. }
  unfold np_sqrt. destruct Rle_dec as [L|L]; [|reflexivity]. cbn [bindR].
  replace (1 - n / c ^ 2) with 0 by lra. rewrite sqrt_0. unfold np_div. destruct Req_EM_T; [reflexivity|congruence].
Qed.

(** same speed, same factor: in particular invariant under every rotation *)
Lemma lorentz_speed_only c a b d a' b' d' : a * a + b * b + d * d = a' * a' + b' * b' + d' * d' ->
  lorentz_factor c a b d = lorentz_factor c a' b' d'.
Proof. intros H. unfold lorentz_factor. rewrite H. reflexivity. Qed.
