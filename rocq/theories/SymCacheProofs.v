(** C56: invariants of the metric inverse cache over every history of calls. *)
From Coq Require Import String Ascii List Arith Lia Bool Setoid Morphisms Ring.
From Verif Require Import Base SymAlg SymModel SymGeo SymConn SymCacheModel.
Import ListNotations.
Open Scope nat_scope.

Definition opp_cfg (c : config) : config := if cfg_eqb c (cf "ll") then cf "uu" else cf "ll".
(** b is the matrix inverse of a *)
Definition inverse_arr {A : dops} (n : nat) (a b : arr A) : Prop := inverse_metrics n (mat_of a) (mat_of b).

Section S.
Context {A : dops} (L : dlaws A) (n : nat).
Local Open Scope K_scope.
Local Instance XE : Equivalence (@keq A) := keq_equiv A L.
Local Instance XaP : Proper (keq ==> keq ==> keq) (@kadd A) := kadd_p A L.
Local Instance XmP : Proper (keq ==> keq ==> keq) (@kmul A) := kmul_p A L.
Local Instance XsP : Proper (keq ==> keq ==> keq) (@ksub A) := ksub_p A L.
Local Instance XoP : Proper (keq ==> keq) (@kopp A) := kopp_p A L.
Add Ring Xring : (k_ring A L).
Ltac ext := apply (ksum_ext L); let i := fresh "i" in let Hi := fresh "Hi" in intros i Hi.

Lemma inverse_sym (a b : arr A) : inverse_arr n a b -> inverse_arr n b a.
Proof. intros H i j Hi Hj. destruct (H i j Hi Hj). split; assumption. Qed.
Lemma inverse_ext (a a' b b' : arr A) : (forall i j, a [i; j] == a' [i; j]) -> (forall i j, b [i; j] == b' [i; j]) -> inverse_arr n a b -> inverse_arr n a' b'.
Proof.
  intros Ha Hb H i j Hi Hj. destruct (H i j Hi Hj) as [H1 H2]. unfold mat_of in *. split.
  - rewrite <- H1. ext. rewrite Ha, Hb. reflexivity.
  - rewrite <- H2. ext. rewrite Ha, Hb. reflexivity.
Qed.
Lemma inverse_unique (a b c : arr A) i j : inverse_arr n a b -> inverse_arr n a c -> (i < n)%nat -> (j < n)%nat -> b [i; j] == c [i; j].
Proof.
  intros Hb Hc Hi Hj. transitivity (ksum n (fun m => b [i; m] * kdelta m j)); [symmetry; apply (ksum_delta_r L n j (fun m => b [i; m])); exact Hj|].
  transitivity (ksum n (fun m => ksum n (fun p => b [i; m] * a [m; p] * c [p; j]))).
  - ext. rewrite <- (proj1 (Hc i0 j Hi0 Hj)). rewrite <- (ksum_l L). ext. unfold mat_of. ring.
  - rewrite (ksum_swap L). transitivity (ksum n (fun p => kdelta i p * c [p; j])); [|apply (ksum_delta L n i (fun p => c [p; j])); exact Hi].
    ext. rewrite <- (proj2 (Hb i i0 Hi Hi0)). rewrite (ksum_r L). reflexivity.
Qed.

(** ** the invariant *)
Definition good (h : heap A) : Prop := forall i o, nth_error h i = Some o -> (o_cfg o = cf "ll" \/ o_cfg o = cf "uu") /\
  forall j, o_inv o = Some j -> exists p, nth_error h j = Some p /\ o_cfg p = opp_cfg (o_cfg o) /\ inverse_arr n (o_arr o) (o_arr p).
(** later heaps: same objects, same configuration, equal entries, a filled cache stays *)
Definition later (h h' : heap A) : Prop := forall i o, nth_error h i = Some o -> exists o', nth_error h' i = Some o' /\ o_cfg o' = o_cfg o /\
  (forall x y, o_arr o' [x; y] == o_arr o [x; y]) /\ (forall j, o_inv o = Some j -> o_inv o' = Some j).
Lemma later_refl h : later h h.
Proof. intros i o H. exists o. repeat split; auto. reflexivity. Qed.
Lemma later_trans h1 h2 h3 : later h1 h2 -> later h2 h3 -> later h1 h3.
Proof.
  intros H1 H2 i o H. destruct (H1 i o H) as [o1 [E1 [C1 [A1 V1]]]]. destruct (H2 i o1 E1) as [o2 [E2 [C2 [A2 V2]]]].
  exists o2. split; [exact E2|]. split; [congruence|]. split; [intros; rewrite A2; apply A1|auto].
Qed.
Lemma nth_hset (h : heap A) i o k : (i < List.length h)%nat -> nth_error (hset h i o) k = if Nat.eqb k i then Some o else nth_error h k.
Proof.
  intros Hi. unfold hset. destruct (Nat.eqb_spec k i) as [->|N].
  - rewrite nth_error_app2 by (rewrite firstn_length; lia). rewrite firstn_length, Nat.min_l, Nat.sub_diag by lia. reflexivity.
  - destruct (Nat.lt_ge_cases k i).
    + rewrite nth_error_app1 by (rewrite firstn_length; lia). rewrite <- (firstn_skipn i h) at 2. rewrite nth_error_app1 by (rewrite firstn_length; lia). reflexivity.
    + rewrite nth_error_app2 by (rewrite firstn_length; lia). rewrite firstn_length, Nat.min_l by lia.
      rewrite <- (firstn_skipn (S i) h) at 2. rewrite nth_error_app2 by (rewrite firstn_length; lia). rewrite firstn_length, Nat.min_l by lia.
      replace (k - i)%nat with (S (k - S i)) by lia. reflexivity.
Qed.
Lemma hset_len (h : heap A) i o : (i < List.length h)%nat -> List.length (hset h i o) = List.length h.
Proof. intros H. unfold hset. rewrite app_length, firstn_length. cbn [List.length]. rewrite skipn_length. lia. Qed.
Lemma nth_app_old (h : heap A) o i : (i < List.length h)%nat -> nth_error (h ++ [o]) i = nth_error h i.
Proof. intros H. apply nth_error_app1. exact H. Qed.
Lemma nth_app_new (h : heap A) o : nth_error (h ++ [o]) (List.length h) = Some o.
Proof. rewrite nth_error_app2 by lia. rewrite Nat.sub_diag. reflexivity. Qed.
Lemma nth_lt {X} (h : list X) i o : nth_error h i = Some o -> (i < List.length h)%nat.
Proof. intros H. apply nth_error_Some. congruence. Qed.
Lemma later_app h o : later h (h ++ [o]).
Proof. intros i x H. exists x. rewrite nth_app_old by (eapply nth_lt; exact H). repeat split; auto. reflexivity. Qed.
Lemma good_app h o : good h -> (o_cfg o = cf "ll" \/ o_cfg o = cf "uu") ->
  (forall j, o_inv o = Some j -> exists p, nth_error h j = Some p /\ o_cfg p = opp_cfg (o_cfg o) /\ inverse_arr n (o_arr o) (o_arr p)) -> good (h ++ [o]).
Proof.
  intros G C V i x H. destruct (Nat.lt_ge_cases i (List.length h)) as [Hl|Hl].
  - rewrite nth_app_old in H by exact Hl. destruct (G i x H) as [C1 V1]. split; [exact C1|]. intros j E. destruct (V1 j E) as [p [Ep Q]]. exists p. split; [|exact Q].
    rewrite nth_app_old by (eapply nth_lt; exact Ep). exact Ep.
  - assert (i = List.length h). { assert (K := nth_lt _ _ _ H). rewrite app_length in K. cbn in K. lia. }
    subst i. rewrite nth_app_new in H. injection H as <-. split; [exact C|]. intros j E. destruct (V j E) as [p [Ep Q]]. exists p. split; [|exact Q].
    rewrite nth_app_old by (eapply nth_lt; exact Ep). exact Ep.
Qed.
(** replacing an object by one with equal entries *)
Lemma good_hset h i o o' : good h -> nth_error h i = Some o -> o_cfg o' = o_cfg o -> (forall x y, o_arr o' [x; y] == o_arr o [x; y]) ->
  (forall j, o_inv o' = Some j -> exists p, nth_error h j = Some p /\ o_cfg p = opp_cfg (o_cfg o) /\ inverse_arr n (o_arr o) (o_arr p)) -> good (hset h i o').
Proof.
  intros G E C Ar V. assert (Hl := nth_lt _ _ _ E).
  assert (Look : forall j p, nth_error h j = Some p -> exists p', nth_error (hset h i o') j = Some p' /\ o_cfg p' = o_cfg p /\ (forall x y, o_arr p' [x; y] == o_arr p [x; y])).
  { intros j p Hp. rewrite nth_hset by exact Hl. destruct (Nat.eqb_spec j i) as [->|N].
    - rewrite E in Hp. injection Hp as <-. exists o'. auto.
    - exists p. repeat split; auto. reflexivity. }
  intros k x H. rewrite nth_hset in H by exact Hl. destruct (Nat.eqb_spec k i) as [->|N].
  - injection H as <-. rewrite C. split; [apply (G i o E)|]. intros j Ej. destruct (V j Ej) as [p [Ep [Cp Ip]]]. destruct (Look j p Ep) as [p' [Ep' [Cp' Ap']]].
    exists p'. split; [exact Ep'|]. split; [congruence|]. apply (inverse_ext (o_arr o) (o_arr o') (o_arr p) (o_arr p')); [intros; symmetry; apply Ar|intros; symmetry; apply Ap'|exact Ip].
  - destruct (G k x H) as [Cx Vx]. split; [exact Cx|]. intros j Ej. destruct (Vx j Ej) as [p [Ep [Cp Ip]]]. destruct (Look j p Ep) as [p' [Ep' [Cp' Ap']]].
    exists p'. split; [exact Ep'|]. split; [congruence|]. apply (inverse_ext (o_arr x) (o_arr x) (o_arr p) (o_arr p')); [reflexivity|intros; symmetry; apply Ap'|exact Ip].
Qed.
Lemma later_hset h i o o' : nth_error h i = Some o -> o_cfg o' = o_cfg o -> (forall x y, o_arr o' [x; y] == o_arr o [x; y]) -> (forall j, o_inv o = Some j -> o_inv o' = Some j) -> later h (hset h i o').
Proof.
  intros E C Ar V k x H. rewrite nth_hset by (eapply nth_lt; exact E). destruct (Nat.eqb_spec k i) as [->|N].
  - rewrite E in H. injection H as <-. exists o'. auto.
  - exists x. repeat split; auto. reflexivity.
Qed.
Lemma opp_cases c : c = cf "ll" \/ c = cf "uu" -> (opp_cfg c = cf "ll" \/ opp_cfg c = cf "uu") /\ opp_cfg (opp_cfg c) = c /\ cfg_eqb (opp_cfg c) c = false /\
  (cfg_eqb (opp_cfg c) (cf "uu") || cfg_eqb (opp_cfg c) (cf "ll"))%bool = true.
Proof. intros [->| ->]; repeat split; auto. Qed.

(** *** one call *)
Lemma change_effect h i o new h' k : good h -> nth_error h i = Some o -> h_change_config n h i new = Ok (h', k) ->
  good h' /\ later h h' /\
  ((new = o_cfg o /\ h' = h /\ k = i) \/
   (new = opp_cfg (o_cfg o) /\ h' = h ++ [mkobj (o_arr (nth k h' (mkobj (A := A) azero [] None))) new (Some i)] /\ k = List.length h /\
     exists p, nth_error h' k = Some p /\ o_cfg p = new /\ o_inv p = Some i /\ inverse_arr n (o_arr o) (o_arr p))).
Proof.
  intros G E H. unfold h_change_config in H. rewrite E in H. destruct (G i o E) as [Co Vo]. destruct (cfg_eqb new (o_cfg o)) eqn:Q.
  - apply Ok_inj in H. injection H as <- <-. split; [exact G|]. split; [apply later_refl|]. left. apply cfg_eqb_spec in Q. auto.
  - destruct (cfg_eqb new (cf "uu") || cfg_eqb new (cf "ll"))%bool eqn:Q2; [|discriminate].
    destruct (kminv n (mat_of (o_arr o))) as [gi|] eqn:K; [|discriminate]. apply Ok_inj in H. injection H as <- <-.
    assert (En : new = opp_cfg (o_cfg o)).
    { apply orb_true_iff in Q2. destruct Q2 as [Q2|Q2]; apply cfg_eqb_spec in Q2; subst new; destruct Co as [Co|Co]; rewrite Co in *; try reflexivity; discriminate Q. }
    assert (I : inverse_arr n (o_arr o) (tsimp (arr_of gi))).
    { apply (inverse_ext (o_arr o) (o_arr o) (arr_of gi) (tsimp (arr_of gi))); [reflexivity|intros; unfold tsimp; symmetry; apply (ksimp_law A L)|].
      intros x y Hx Hy. exact (kminv_law A L n _ gi K x y Hx Hy). }
    split; [|split].
    + apply good_app; [exact G| |].
      * cbn [o_cfg]. rewrite En. apply opp_cases. exact Co.
      * cbn [o_inv o_cfg o_arr]. intros j Ej. injection Ej as <-. exists o. split; [exact E|]. split; [rewrite En; symmetry; apply opp_cases; exact Co|]. apply inverse_sym. exact I.
    + apply later_app.
    + right. split; [exact En|]. split; [|split; [reflexivity|]].
      * rewrite (nth_error_nth _ _ _ (nth_app_new h _)). reflexivity.
      * eexists. split; [apply nth_app_new|]. cbn [o_cfg o_inv o_arr]. auto.
Qed.
Lemma inv_effect h i o h' k : good h -> nth_error h i = Some o -> h_inv n h i = Ok (h', k) ->
  good h' /\ later h h' /\ (exists p, nth_error h' k = Some p /\ o_cfg p = opp_cfg (o_cfg o) /\ inverse_arr n (o_arr o) (o_arr p)) /\
  (exists o', nth_error h' i = Some o' /\ o_inv o' = Some k) /\
  (o_inv o = None -> exists p, nth_error h' k = Some p /\ o_inv p = Some i).
Proof.
  intros G E H. unfold h_inv in H. rewrite E in H. destruct (G i o E) as [Co Vo]. destruct (o_inv o) as [j|] eqn:Q.
  - apply Ok_inj in H. injection H as <- <-. split; [exact G|]. split; [apply later_refl|]. split; [exact (Vo j eq_refl)|]. split; [exists o; auto|discriminate].
  - fold (opp_cfg (o_cfg o)) in H. destruct (h_change_config n h i (opp_cfg (o_cfg o))) as [[h1 k1]|] eqn:Ch; [|discriminate]. cbn [bindR fst snd] in H. apply Ok_inj in H. injection H as <- <-.
    destruct (change_effect h i o _ h1 k1 G E Ch) as [G1 [L1 [[En _]|[_ [Eh [Ek [p [Ep [Cp [Ip Mp]]]]]]]]]].
    + exfalso. destruct (opp_cases _ Co) as [_ [_ [N _]]]. rewrite En, cfg_eqb_refl in N. discriminate.
    + destruct (L1 i o E) as [o1 [E1 [C1 [A1 _]]]].
      assert (Eo1 : o1 = o). { rewrite Eh in E1. rewrite nth_app_old in E1 by (eapply nth_lt; exact E). congruence. } subst o1.
      assert (Hl : (i < List.length h1)%nat) by (eapply nth_lt; exact E1).
      assert (Nk : k1 <> i). { intros ->. rewrite E1 in Ep. injection Ep as <-. assert (D := opp_cases _ Co). destruct D as [_ [_ [N _]]]. rewrite <- Cp, cfg_eqb_refl in N. discriminate. }
      split; [|split; [|split; [|split]]].
      * apply (good_hset h1 i o); [exact G1|exact E1|reflexivity|reflexivity|]. cbn [o_inv]. intros j Ej. injection Ej as <-. exists p. auto.
      * apply (later_trans _ h1); [exact L1|]. apply (later_hset h1 i o); [exact E1|reflexivity|reflexivity|]. rewrite Q. discriminate.
      * exists p. rewrite nth_hset by exact Hl. destruct (Nat.eqb_spec k1 i); [contradiction|]. auto.
      * eexists. rewrite nth_hset by exact Hl. rewrite Nat.eqb_refl. split; [reflexivity|]. reflexivity.
      * intros _. exists p. rewrite nth_hset by exact Hl. destruct (Nat.eqb_spec k1 i); [contradiction|]. auto.
Qed.
Lemma exec_effect h c h' k : pure_cmd c -> good h -> exec n h c = Ok (h', k) -> good h' /\ later h h'.
Proof.
  intros P G H. destruct c as [a c|i c|i|i|i]; cbn [exec pure_cmd] in *.
  - unfold h_new in H. destruct (config_checker c); [|discriminate]. destruct (Nat.eqb (List.length c) 2); [|discriminate]. apply Ok_inj in H. injection H as <- <-.
    split; [|apply later_app]. apply good_app; [exact G|exact P|]. discriminate.
  - destruct (nth_error h i) as [o|] eqn:E; [|unfold h_change_config in H; rewrite E in H; discriminate]. destruct (change_effect h i o c h' k G E H) as [G' [L' _]]. auto.
  - destruct (nth_error h i) as [o|] eqn:E; [|unfold h_inv in H; rewrite E in H; discriminate]. destruct (inv_effect h i o h' k G E H) as [G' [L' _]]. auto.
  - unfold h_lower in H. destruct (nth_error h i) as [o|] eqn:E; [|discriminate]. destruct (cfg_eqb (o_cfg o) (cf "ll")).
    + apply Ok_inj in H. injection H as <- <-. split; [exact G|apply later_refl].
    + destruct (inv_effect h i o h' k G E H) as [G' [L' _]]. auto.
  - unfold h_simplify in H. destruct (nth_error h i) as [o|] eqn:E; [|discriminate]. apply Ok_inj in H. injection H as <- <-.
    assert (S : forall x y, o_arr (mkobj (tsimp (o_arr o)) (o_cfg o) (o_inv o)) [x; y] == o_arr o [x; y]) by (intros; cbn [o_arr]; unfold tsimp; apply (ksimp_law A L)).
    split; [apply (good_hset h i o); auto; cbn [o_inv]; apply (G i o E)|apply (later_hset h i o); auto].
Qed.
Lemma run_effect cs : forall h, Forall pure_cmd cs -> good h -> good (run n h cs) /\ later h (run n h cs).
Proof.
  induction cs as [|c cs IH]; intros h P G; [split; [exact G|apply later_refl]|]. inversion P; subst. cbn [run fold_left]. change (fold_left (after n) cs (after n h c)) with (run n (after n h c) cs).
  assert (S : good (after n h c) /\ later h (after n h c)).
  { unfold after. destruct (exec n h c) as [[h' k]|] eqn:E; [eapply exec_effect; eauto|split; [exact G|apply later_refl]]. }
  destruct S as [G1 L1]. destruct (IH _ H2 G1) as [G2 L2]. split; [exact G2|]. eapply later_trans; eassumption.
Qed.
Lemma good_nil : good [].
Proof. intros [|i] o H; discriminate. Qed.

(** *** the property *)
Lemma inv_correct_ (cs : list (cmd A)) i o h' k : Forall pure_cmd cs -> let h := run n [] cs in nth_error h i = Some o -> h_inv n h i = Ok (h', k) ->
  exists p, nth_error h' k = Some p /\ o_cfg p = opp_cfg (o_cfg o) /\ inverse_arr n (o_arr o) (o_arr p).
Proof. intros P h E H. destruct (run_effect cs [] P good_nil) as [G _]. apply (inv_effect h i o h' k G E H). Qed.
(** same object for ever after *)
Lemma inv_stable_ (cs cs' : list (cmd A)) i h' k : Forall pure_cmd cs -> Forall pure_cmd cs' -> h_inv n (run n [] cs) i = Ok (h', k) ->
  h_inv n (run n h' cs') i = Ok (run n h' cs', k).
Proof.
  intros P P' H. destruct (run_effect cs [] P good_nil) as [G _]. destruct (nth_error (run n [] cs) i) as [o|] eqn:E; [|unfold h_inv in H; rewrite E in H; discriminate].
  destruct (inv_effect _ i o h' k G E H) as [G1 [_ [_ [[o' [E' V']] _]]]]. destruct (run_effect cs' h' P' G1) as [_ L2].
  destruct (L2 i o' E') as [o2 [E2 [_ [_ V2]]]]. unfold h_inv. rewrite E2, (V2 k V'). reflexivity.
Qed.
(** inv().inv() is the original object for a metric whose inverse has not been computed before, now and for ever after *)
Lemma inv_inv_identity_ (cs cs' : list (cmd A)) i o h' k : Forall pure_cmd cs -> Forall pure_cmd cs' -> nth_error (run n [] cs) i = Some o -> o_inv o = None ->
  h_inv n (run n [] cs) i = Ok (h', k) -> h_inv n (run n h' cs') k = Ok (run n h' cs', i) /\ h_inv n (run n h' cs') i = Ok (run n h' cs', k).
Proof.
  intros P P' E N H. destruct (run_effect cs [] P good_nil) as [G _].
  destruct (inv_effect _ i o h' k G E H) as [G1 [_ [_ [[o' [E' V']] Q]]]]. destruct (Q N) as [p [Ep Vp]]. destruct (run_effect cs' h' P' G1) as [_ L2].
  destruct (L2 i o' E') as [o2 [E2 [_ [_ V2]]]]. destruct (L2 k p Ep) as [p2 [Ep2 [_ [_ Vp2]]]].
  split; unfold h_inv; [rewrite Ep2, (Vp2 i Vp)|rewrite E2, (V2 k V')]; reflexivity.
Qed.
(** for every metric, inv().inv() has the original's configuration and entries *)
Lemma inv_inv_value_ (cs : list (cmd A)) i o h1 k1 h2 k2 : Forall pure_cmd cs -> nth_error (run n [] cs) i = Some o -> h_inv n (run n [] cs) i = Ok (h1, k1) -> h_inv n h1 k1 = Ok (h2, k2) ->
  exists p, nth_error h2 k2 = Some p /\ o_cfg p = o_cfg o /\ forall x y, (x < n)%nat -> (y < n)%nat -> o_arr p [x; y] == o_arr o [x; y].
Proof.
  intros P E H1 H2. destruct (run_effect cs [] P good_nil) as [G _].
  destruct (inv_effect _ i o h1 k1 G E H1) as [G1 [_ [[p1 [Ep1 [Cp1 Ip1]]] _]]].
  destruct (inv_effect _ k1 p1 h2 k2 G1 Ep1 H2) as [G2 [_ [[p2 [Ep2 [Cp2 Ip2]]] _]]].
  exists p2. split; [exact Ep2|]. split; [rewrite Cp2, Cp1; apply opp_cases; apply (G i o E)|]. intros x y Hx Hy.
  apply (inverse_unique (o_arr p1)); [exact Ip2|apply inverse_sym; exact Ip1|exact Hx|exact Hy].
Qed.
(** lower_config *)
Lemma lower_correct_ (cs : list (cmd A)) i o h' k : Forall pure_cmd cs -> nth_error (run n [] cs) i = Some o -> h_lower n (run n [] cs) i = Ok (h', k) ->
  exists p, nth_error h' k = Some p /\ o_cfg p = cf "ll" /\ ((o_cfg o = cf "ll" /\ k = i /\ p = o) \/ (o_cfg o = cf "uu" /\ inverse_arr n (o_arr o) (o_arr p))).
Proof.
  intros P E H. destruct (run_effect cs [] P good_nil) as [G _]. unfold h_lower in H. rewrite E in H. destruct (cfg_eqb (o_cfg o) (cf "ll")) eqn:Q.
  - apply Ok_inj in H. injection H as <- <-. apply cfg_eqb_spec in Q. exists o. split; [exact E|]. split; [exact Q|]. left. auto.
  - destruct (inv_effect _ i o h' k G E H) as [_ [_ [[p [Ep [Cp Ip]]] _]]]. exists p. split; [exact Ep|].
    destruct (proj1 (G i o E)) as [C|C]; rewrite C in *; [discriminate|]. split; [exact Cp|]. right. auto.
Qed.
(** change_config *)
Lemma change_correct_ (cs : list (cmd A)) i o new : Forall pure_cmd cs -> let h := run n [] cs in nth_error h i = Some o ->
  (new = o_cfg o -> h_change_config n h i new = Ok (h, i)) /\
  (new <> cf "ll" -> new <> cf "uu" -> h_change_config n h i new = Err ValueError) /\
  (forall h' k, new <> o_cfg o -> h_change_config n h i new = Ok (h', k) -> exists p, nth_error h' k = Some p /\ o_cfg p = new /\ inverse_arr n (o_arr o) (o_arr p) /\ later h h').
Proof.
  intros P h E. destruct (run_effect cs [] P good_nil) as [G _]. split; [|split].
  - intros ->. unfold h_change_config. rewrite E, cfg_eqb_refl. reflexivity.
  - intros N1 N2. unfold h_change_config. rewrite E. destruct (cfg_eqb new (o_cfg o)) eqn:Q; [exfalso; apply cfg_eqb_spec in Q; subst; destruct (proj1 (G i o E)); congruence|].
    destruct (cfg_eqb new (cf "uu")) eqn:Q1; [apply cfg_eqb_spec in Q1; contradiction|]. destruct (cfg_eqb new (cf "ll")) eqn:Q2; [apply cfg_eqb_spec in Q2; contradiction|]. reflexivity.
  - intros h' k N H. destruct (change_effect h i o new h' k G E H) as [_ [L' [[En _]|[En [_ [_ [p [Ep [Cp [_ Ip]]]]]]]]]]; [contradiction|]. exists p. auto.
Qed.
(** every object keeps its configuration and its entries' values for ever *)
Lemma history_preserves_ (cs cs' : list (cmd A)) i o : Forall pure_cmd cs -> Forall pure_cmd cs' -> nth_error (run n [] cs) i = Some o ->
  exists o', nth_error (run n (run n [] cs) cs') i = Some o' /\ o_cfg o' = o_cfg o /\ forall x y, o_arr o' [x; y] == o_arr o [x; y].
Proof.
  intros P P' E. destruct (run_effect cs [] P good_nil) as [G _]. destruct (run_effect cs' _ P' G) as [_ L']. destruct (L' i o E) as [o' [E' [C' [A' _]]]]. exists o'. auto.
Qed.
End S.

(** a singular metric raises and caches nothing *)
Lemma inv_singular (A : dops) (n : nat) (h : heap A) i o : nth_error h i = Some o -> (o_cfg o = cf "ll" \/ o_cfg o = cf "uu") -> o_inv o = None -> kminv n (mat_of (o_arr o)) = None ->
  h_inv n h i = Err ValueError.
Proof. intros E C N K. unfold h_inv, h_change_config. rewrite E, N, K. destruct C as [C|C]; rewrite C; reflexivity. Qed.
(** identity of inv().inv() fails for an object made by change_config once the original's own inverse was computed *)
Lemma inv_inv_other_object (A : dops) (n : nat) (a : arr A) gi : kminv n (mat_of a) = Some gi ->
  let h := run n [] [New a (cf "ll"); Inv 0; ChangeConfig 0 (cf "uu")] in
  List.length h = 3 /\ h_inv n h 2 = Ok (h, 0) /\ h_inv n h 0 = Ok (h, 1).
Proof.
  intros K h.
  set (o0 := mkobj a (cf "ll") (Some 1)). set (o1 := mkobj (tsimp (arr_of gi)) (cf "uu") (Some 0)).
  assert (H1 : after n [] (New a (cf "ll")) = [mkobj a (cf "ll") None]) by reflexivity.
  assert (H2 : after n [mkobj a (cf "ll") None] (Inv 0) = [o0; o1]).
  { unfold after, exec, h_inv. cbn [nth_error o_inv]. unfold h_change_config. cbn [nth_error o_cfg o_arr].
    change (cfg_eqb (cf "ll") (cf "ll")) with true. cbv iota. change (cfg_eqb (cf "uu") (cf "ll")) with false. cbv iota.
    change (cfg_eqb (cf "uu") (cf "uu") || false)%bool with true. cbv iota. rewrite K. reflexivity. }
  assert (H3 : after n [o0; o1] (ChangeConfig 0 (cf "uu")) = [o0; o1; o1]).
  { unfold after, exec, h_change_config. cbn [nth_error o_cfg o_arr o0].
    change (cfg_eqb (cf "uu") (cf "ll")) with false. cbv iota.
    change (cfg_eqb (cf "uu") (cf "uu") || false)%bool with true. cbv iota. rewrite K. reflexivity. }
  assert (E : h = [o0; o1; o1]) by (unfold h, run; cbn [fold_left]; rewrite H1, H2, H3; reflexivity).
  rewrite E. split; [reflexivity|]. split; reflexivity.
Qed.
(** a metric labelled ul: its "inverse" is labelled ll, and lower_config of what change_config("uu") gave comes back labelled ul *)
Lemma mixed_lower (A : dops) (n : nat) (a : arr A) gi : kminv n (mat_of a) = Some gi ->
  let h := run n [] [New a (cf "ul"); ChangeConfig 0 (cf "uu")] in
  h_lower n h 1 = Ok (h, 0) /\ exists o, nth_error h 0 = Some o /\ o_cfg o = cf "ul".
Proof.
  intros K h.
  assert (H1 : after n [] (New a (cf "ul")) = [mkobj a (cf "ul") None]) by reflexivity.
  assert (H2 : after n [mkobj a (cf "ul") None] (ChangeConfig 0 (cf "uu")) = [mkobj a (cf "ul") None; mkobj (tsimp (arr_of gi)) (cf "uu") (Some 0)]).
  { unfold after, exec, h_change_config. cbn [nth_error o_cfg o_arr].
    change (cfg_eqb (cf "uu") (cf "ul")) with false. cbv iota.
    change (cfg_eqb (cf "uu") (cf "uu") || cfg_eqb (cf "uu") (cf "ll"))%bool with true. cbv iota. rewrite K. reflexivity. }
  assert (E : h = [mkobj a (cf "ul") None; mkobj (tsimp (arr_of gi)) (cf "uu") (Some 0)]) by (unfold h, run; cbn [fold_left]; rewrite H1, H2; reflexivity).
  rewrite E. split; [reflexivity|]. eexists. split; reflexivity.
Qed.
Lemma inv_fresh (A : dops) (n : nat) (a : arr A) gi : kminv n (mat_of a) = Some gi ->
  exists h', h_inv n (run n [] [New a (cf "ll")]) 0 = Ok (h', 1) /\ h_inv n h' 1 = Ok (h', 0).
Proof.
  intros K. set (o0 := mkobj a (cf "ll") (Some 1)). set (o1 := mkobj (tsimp (arr_of gi)) (cf "uu") (Some 0)).
  assert (H1 : run n [] [New a (cf "ll")] = [mkobj a (cf "ll") None]) by reflexivity. rewrite H1.
  exists [o0; o1]. split; [|reflexivity].
  unfold h_inv. cbn [nth_error o_inv]. unfold h_change_config. cbn [nth_error o_cfg o_arr].
  change (cfg_eqb (cf "ll") (cf "ll")) with true. cbv iota. change (cfg_eqb (cf "uu") (cf "ll")) with false. cbv iota.
  change (cfg_eqb (cf "uu") (cf "uu") || false)%bool with true. cbv iota. rewrite K. reflexivity.
Qed.
