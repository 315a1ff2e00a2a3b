(** C51-C55, C57-C60: index gymnastics, products, Lorentz transforms, construction, substitution, flattening. *)
From Coq Require Import String Ascii List Arith Lia Bool Setoid Morphisms Ring FinFun.
From Verif Require Import Base SymAlg SymModel SymLoops SymGeo SymMove SymConn SymTensorModel.
Import ListNotations.
Open Scope nat_scope.

(** ** specifications *)
(** Lorentz transformation as the code applies it: upper index  sum_k L[x,k] T..k..,  lower index  sum_k L[k,x] T..k.. *)
Fixpoint ltspec {A : dops} (n : nat) (lam : nat -> nat -> A) (cfg : config) (T : list nat -> A) (idx : list nat) : A :=
  match cfg, idx with
  | c :: cfg', x :: idx' => ksum n (fun k => kmul (if Ascii.eqb c chU then lam x k else lam k x) (ltspec n lam cfg' (fun r => T (k :: r)) idx'))
  | _, _ => T idx
  end.
(** all multi-indices of a shape, in row-major (lexicographic) order *)
Fixpoint all_idx (shape : list nat) : list (list nat) :=
  match shape with [] => [[]] | d :: sh => flat_map (fun i => map (cons i) (all_idx sh)) (seq 0 d) end.

Section S.
Context {A : dops} (L : dlaws A).
Local Open Scope K_scope.
Local Instance TE : Equivalence (@keq A) := keq_equiv A L.
Local Instance TaP : Proper (keq ==> keq ==> keq) (@kadd A) := kadd_p A L.
Local Instance TmP : Proper (keq ==> keq ==> keq) (@kmul A) := kmul_p A L.
Local Instance TsP : Proper (keq ==> keq ==> keq) (@ksub A) := ksub_p A L.
Local Instance ToP : Proper (keq ==> keq) (@kopp A) := kopp_p A L.
Add Ring Tring : (k_ring A L).
Ltac ext := apply (ksum_ext L); let i := fresh "i" in let Hi := fresh "Hi" in intros i Hi.

(** *** C51 *)
Lemma change_config_spec_ (m : metric A) (g gi : nat -> nat -> A) (t : tens A) (mt : option (metric A)) (new : config) :
  covariant_pair m g gi -> (mt = Some m \/ (mt = None /\ t_parent t = Some m)) -> List.length new = List.length (t_cfg t) -> config_checker new = true ->
  exists t', t_change_config t new mt = Ok t' /\ t_cfg t' = new /\ t_n t' = t_n t /\ t_parent t' = Some m /\
  forall idx, valid (m_n m) (List.length (t_cfg t)) idx -> t_arr t' idx == move (m_n m) g gi (t_cfg t) new (t_arr t) idx.
Proof.
  intros HP Hm Hl Hc. unfold t_change_config.
  replace (match mt with Some m0 => Some m0 | None => t_parent t end) with (Some m) by (destruct Hm as [->|[-> ->]]; reflexivity).
  destruct (change_at L m g gi HP (t_arr t) (t_cfg t) new Hl Hc) as [a [E H]]. rewrite E. cbn [bindR]. eexists. split; [reflexivity|]. repeat (split; [reflexivity|]). exact H.
Qed.
Lemma change_config_comp_ (m : metric A) (g gi : nat -> nat -> A) (t t1 t2 : tens A) (mt1 mt2 : option (metric A)) (mid new : config) :
  covariant_pair m g gi -> (mt1 = Some m \/ (mt1 = None /\ t_parent t = Some m)) -> (mt2 = Some m \/ mt2 = None) -> config_checker (t_cfg t) = true ->
  t_change_config t mid mt1 = Ok t1 -> t_change_config t1 new mt2 = Ok t2 ->
  exists t', t_change_config t new mt1 = Ok t' /\ t_cfg t2 = t_cfg t' /\ forall idx, valid (m_n m) (List.length (t_cfg t)) idx -> t_arr t2 idx == t_arr t' idx.
Proof.
  intros HP H1 H2 Ck E1 E2.
  assert (V : forall (t t' : tens A) c mt, t_change_config t c mt = Ok t' -> List.length c = List.length (t_cfg t) /\ config_checker c = true).
  { intros u u' c mt E. unfold t_change_config in E. destruct (match mt with Some m0 => Some m0 | None => t_parent u end); [|discriminate].
    unfold change_config_arr in E. destruct (Nat.eqb_spec (List.length c) (List.length (t_cfg u))); [|discriminate]. destruct (config_checker c); [|discriminate]. split; [assumption|reflexivity]. }
  destruct (V _ _ _ _ E1) as [La Ca]. destruct (V _ _ _ _ E2) as [Lb Cb].
  destruct (change_config_spec_ m g gi t mt1 mid HP H1 La Ca) as [u1 [F1 [G1 [_ [P1 S1]]]]]. rewrite E1 in F1. apply Ok_inj in F1. subst u1.
  destruct (change_config_spec_ m g gi t1 mt2 new HP) as [u2 [F2 [G2 [_ [_ S2]]]]]; [destruct H2 as [->| ->]; auto|exact Lb|exact Cb|]. rewrite E2 in F2. apply Ok_inj in F2. subst u2.
  rewrite G1 in Lb. destruct (change_config_spec_ m g gi t mt1 new HP H1 ltac:(congruence) Cb) as [t' [E' [G' [_ [_ S']]]]].
  exists t'. split; [exact E'|]. split; [congruence|]. intros idx Hv. rewrite S2 by (rewrite G1, La; exact Hv). rewrite S' by exact Hv. rewrite G1.
  rewrite (move_ext_valid L _ g gi mid new _ (move (m_n m) g gi (t_cfg t) mid (t_arr t))).
  - apply (move_comp L _ g gi (pair_inv L m g gi HP)); try assumption; try congruence; apply Hv.
  - exact Lb.
  - rewrite La. exact Hv.
  - intros r Hr. apply S1. rewrite <- La. exact Hr.
Qed.
Lemma change_config_round_ (m : metric A) (g gi : nat -> nat -> A) (t t1 : tens A) (mt1 mt2 : option (metric A)) (mid : config) :
  covariant_pair m g gi -> (mt1 = Some m \/ (mt1 = None /\ t_parent t = Some m)) -> (mt2 = Some m \/ mt2 = None) -> config_checker (t_cfg t) = true ->
  t_change_config t mid mt1 = Ok t1 ->
  exists t2, t_change_config t1 (t_cfg t) mt2 = Ok t2 /\ t_cfg t2 = t_cfg t /\ forall idx, valid (m_n m) (List.length (t_cfg t)) idx -> t_arr t2 idx == t_arr t idx.
Proof.
  intros HP H1 H2 Ck E1.
  assert (V : List.length mid = List.length (t_cfg t) /\ config_checker mid = true).
  { unfold t_change_config in E1. destruct (match mt1 with Some m0 => Some m0 | None => t_parent t end); [|discriminate].
    unfold change_config_arr in E1. destruct (Nat.eqb_spec (List.length mid) (List.length (t_cfg t))); [|discriminate]. destruct (config_checker mid); [|discriminate]. split; [assumption|reflexivity]. }
  destruct V as [La Ca]. destruct (change_config_spec_ m g gi t mt1 mid HP H1 La Ca) as [u1 [F1 [G1 [_ [P1 S1]]]]]. rewrite E1 in F1. apply Ok_inj in F1. subst u1.
  destruct (change_config_spec_ m g gi t1 mt2 (t_cfg t) HP) as [t2 [F2 [G2 _]]]; [destruct H2 as [->| ->]; auto|congruence|exact Ck|].
  exists t2. split; [exact F2|]. split; [exact G2|]. intros idx Hv.
  destruct (change_config_comp_ m g gi t t1 t2 mt1 mt2 mid (t_cfg t) HP H1 H2 Ck E1 F2) as [t' [E' [_ S']]]. rewrite S' by exact Hv.
  destruct (change_config_spec_ m g gi t mt1 (t_cfg t) HP H1 eq_refl Ck) as [u [F [_ [_ [_ S]]]]]. rewrite E' in F. apply Ok_inj in F. subst u. rewrite S by exact Hv.
  apply (move_refl L). apply Hv.
Qed.
Lemma move_single_ n (g gi : nat -> nat -> A) pre o w post T p x q : w <> o -> List.length p = List.length pre -> List.length q = List.length post ->
  move n g gi (pre ++ o :: post) (pre ++ w :: post) T (p ++ x :: q) == ksum n (fun k => (if Ascii.eqb w chU then gi else g) x k * T (p ++ k :: q)).
Proof.
  intros N. revert T p. induction pre as [|c pre IH]; intros T [|y p] Hp Hq; try discriminate; cbn [app move].
  - destruct (Ascii.eqb_spec w o); [contradiction|]. ext. rewrite (move_refl L n g gi post (fun r => T (i :: r)) q Hq). reflexivity.
  - rewrite Ascii.eqb_refl. apply (IH (fun r => T (y :: r)) p); [cbn in Hp; lia|exact Hq].
Qed.

(** *** C52, C53 *)
Lemma product_outer_ (t1 t2 : tens A) : exists t, tensor_product t1 t2 None None = Ok t /\ t_cfg t = t_cfg t1 ++ t_cfg t2 /\ t_n t = t_n t1 /\
  forall i1 i2, List.length i1 = List.length (t_cfg t1) -> List.length i2 = List.length (t_cfg t2) -> t_arr t (i1 ++ i2) = t_arr t1 i1 * t_arr t2 i2.
Proof.
  eexists. split; [reflexivity|]. split; [reflexivity|]. split; [reflexivity|]. intros i1 i2 H1 H2. cbn [t_arr]. unfold tprod. rewrite <- H1.
  rewrite firstn_app, skipn_app, Nat.sub_diag, firstn_all, skipn_all. cbn. rewrite app_nil_r. reflexivity.
Qed.
Lemma product_contract_ (t1 t2 : tens A) a1 c1 b1 a2 c2 b2 : t_cfg t1 = a1 ++ c1 :: b1 -> t_cfg t2 = a2 ++ c2 :: b2 ->
  (c1 = c2 -> tensor_product t1 t2 (Some (List.length a1)) (Some (List.length a2)) = Err ValueError) /\
  (c1 <> c2 -> exists t, tensor_product t1 t2 (Some (List.length a1)) (Some (List.length a2)) = Ok t /\ t_cfg t = (a1 ++ b1) ++ (a2 ++ b2) /\ t_n t = t_n t1 /\
    forall p1 q1 p2 q2, List.length p1 = List.length a1 -> List.length q1 = List.length b1 -> List.length p2 = List.length a2 -> List.length q2 = List.length b2 ->
    t_arr t ((p1 ++ q1) ++ (p2 ++ q2)) == ksum (t_n t1) (fun k => t_arr t1 (p1 ++ k :: q1) * t_arr t2 (p2 ++ k :: q2))).
Proof.
  intros E1 E2. unfold tensor_product. replace (or_is_none (Some (List.length a1)) (Some (List.length a2))) with false by (destruct (List.length a1); reflexivity).
  unfold getch. rewrite E1, E2.
  assert (Nm : forall (x : ascii) l l', nth_error (l ++ x :: l') (List.length l) = Some x) by (intros x l l'; rewrite nth_error_app2 by lia; rewrite Nat.sub_diag; reflexivity).
  rewrite !Nm. cbn [bindR]. split.
  - intros ->. rewrite Ascii.eqb_refl. reflexivity.
  - intros N. destruct (Ascii.eqb_spec c1 c2); [contradiction|]. eexists. split; [reflexivity|]. cbn [t_cfg t_n t_arr].
    assert (Rm : forall (x : ascii) l l', remove_at (List.length l) (l ++ x :: l') = l ++ l').
    { intros x l l'. unfold remove_at. rewrite firstn_app, skipn_app, Nat.sub_diag, firstn_all. rewrite skipn_all2 by lia. replace (S (List.length l) - List.length l)%nat with 1%nat by lia. cbn [firstn skipn app]. rewrite app_nil_r. reflexivity. }
    rewrite !Rm. split; [reflexivity|]. split; [reflexivity|]. intros p1 q1 p2 q2 P1 Q1 P2 Q2. unfold tsimp. rewrite (ksimp_law A L). unfold tcontract. ext.
    rewrite <- P1. rewrite <- (app_assoc p1 q1). rewrite insert_mid.
    replace (p1 ++ i :: q1 ++ p2 ++ q2) with ((p1 ++ i :: q1 ++ p2) ++ q2) by (rewrite <- !app_assoc; cbn [app]; rewrite <- app_assoc; reflexivity).
    replace (List.length (a1 ++ c1 :: b1) + List.length a2)%nat with (List.length (p1 ++ i :: q1 ++ p2)) by (rewrite !app_length; cbn [List.length]; rewrite !app_length; lia).
    rewrite insert_mid. unfold tprod.
    replace (p1 ++ i :: q1 ++ p2) with ((p1 ++ i :: q1) ++ p2) by (rewrite <- app_assoc; reflexivity). rewrite <- app_assoc.
    replace (List.length (a1 ++ c1 :: b1)) with (List.length (p1 ++ i :: q1)) by (rewrite !app_length; cbn [List.length]; lia).
    rewrite firstn_app, skipn_app, Nat.sub_diag, firstn_all, skipn_all. cbn [firstn skipn app]. rewrite app_nil_r. reflexivity.
Qed.
(** *** C54, C55 *)
Lemma ltspec_ext n (lam : nat -> nat -> A) cfg : forall T T' idx, (forall r, List.length r = List.length idx -> T r == T' r) -> ltspec n lam cfg T idx == ltspec n lam cfg T' idx.
Proof.
  induction cfg as [|c cfg IH]; intros T T' [|i idx] H; cbn [ltspec]; try (apply H; reflexivity).
  ext. apply TmP; [reflexivity|]. apply IH. intros r Hr. apply H. cbn. congruence.
Qed.
Lemma ltspec_scal n (lam : nat -> nat -> A) cfg : forall (c : A) T idx, ltspec n lam cfg (fun r => c * T r) idx == c * ltspec n lam cfg T idx.
Proof.
  induction cfg as [|o cfg IH]; intros c T [|i idx]; cbn [ltspec]; try reflexivity. rewrite <- (ksum_l L). ext. rewrite IH. ring.
Qed.
Lemma ltspec_sum n (lam : nat -> nat -> A) cfg : forall k (T : nat -> list nat -> A) idx,
  ltspec n lam cfg (fun r => ksum k (fun p => T p r)) idx == ksum k (fun p => ltspec n lam cfg (T p) idx).
Proof.
  induction cfg as [|o cfg IH]; intros k T [|i idx]; cbn [ltspec]; try reflexivity. rewrite (ksum_swap L). ext.
  rewrite (IH k (fun p r => T p (i0 :: r))). rewrite <- (ksum_l L). reflexivity.
Qed.
Lemma lt_fold n (lam : arr A) cfg : forall (t : arr A) pre idx, List.length idx = List.length cfg ->
  fold_left (fun a '(i, ch) => act_axis n (List.length pre + List.length cfg) lam (if Ascii.eqb ch chU then 1 else 0) i a)
    (combine (seq (List.length pre) (List.length cfg)) cfg) t (pre ++ idx)
  == ltspec n (mat_of lam) cfg (fun r => t (pre ++ r)) idx.
Proof.
  induction cfg as [|o cfg IH]; intros t pre [|i idx] Hl; try discriminate; [reflexivity|].
  cbn [List.length] in *. cbn [List.length seq combine fold_left ltspec].
  replace (pre ++ i :: idx) with ((pre ++ [i]) ++ idx) by (rewrite <- app_assoc; reflexivity).
  assert (Lp : List.length (pre ++ [i]) = S (List.length pre)) by (rewrite app_length; cbn; lia).
  specialize (IH (act_axis n (List.length pre + S (List.length cfg)) lam (if Ascii.eqb o chU then 1 else 0) (List.length pre) t) (pre ++ [i]) idx ltac:(lia)).
  rewrite Lp in IH. replace (S (List.length pre) + List.length cfg)%nat with (List.length pre + S (List.length cfg))%nat in IH by lia. rewrite IH.
  transitivity (ltspec n (mat_of lam) cfg (fun r => ksum n (fun k => (if Ascii.eqb o chU then mat_of lam i k else mat_of lam k i) * t (pre ++ k :: r))) idx).
  - apply ltspec_ext. intros r Hr. rewrite <- app_assoc. cbn [app]. replace (List.length cfg) with (List.length r) by lia.
    destruct (Ascii.eqb o chU); [apply (act_axis_at L)|apply (act_axis_at0 L)].
  - rewrite ltspec_sum. ext. apply (ltspec_scal n (mat_of lam) cfg _ (fun r => t (pre ++ i0 :: r))).
Qed.
Lemma lorentz_spec_ (t : tens A) (lam : arr A) : let r := lorentz_transform t lam in t_cfg r = t_cfg t /\ t_n r = t_n t /\
  forall idx, List.length idx = List.length (t_cfg t) -> t_arr r idx == ltspec (t_n t) (mat_of lam) (t_cfg t) (t_arr t) idx.
Proof. split; [reflexivity|]. split; [reflexivity|]. intros idx H. exact (lt_fold (t_n t) lam (t_cfg t) (t_arr t) [] idx H). Qed.
Lemma lorentz_metric_ (t : tens A) (lam : arr A) : t_cfg t = cf "ll" ->
  (forall x y, (x < t_n t)%nat -> (y < t_n t)%nat -> ksum (t_n t) (fun k => ksum (t_n t) (fun l => lam [k; x] * t_arr t [k; l] * lam [l; y])) == t_arr t [x; y]) ->
  forall x y, (x < t_n t)%nat -> (y < t_n t)%nat -> t_arr (lorentz_transform t lam) [x; y] == t_arr t [x; y].
Proof.
  intros C H x y Hx Hy. destruct (lorentz_spec_ t lam) as [_ [_ S]]. rewrite S by (rewrite C; reflexivity). rewrite C, <- (H x y Hx Hy).
  change (ltspec (t_n t) (mat_of lam) (cf "ll") (t_arr t) [x; y]) with (ksum (t_n t) (fun k => lam [k; x] * ksum (t_n t) (fun l => lam [l; y] * t_arr t [k; l]))).
  ext. rewrite <- (ksum_l L). ext. ring.
Qed.
Lemma lorentz_metric_uu_ (t : tens A) (lam : arr A) : t_cfg t = cf "uu" ->
  (forall x y, (x < t_n t)%nat -> (y < t_n t)%nat -> ksum (t_n t) (fun k => ksum (t_n t) (fun l => lam [x; k] * t_arr t [k; l] * lam [y; l])) == t_arr t [x; y]) ->
  forall x y, (x < t_n t)%nat -> (y < t_n t)%nat -> t_arr (lorentz_transform t lam) [x; y] == t_arr t [x; y].
Proof.
  intros C H x y Hx Hy. destruct (lorentz_spec_ t lam) as [_ [_ S]]. rewrite S by (rewrite C; reflexivity). rewrite C, <- (H x y Hx Hy).
  change (ltspec (t_n t) (mat_of lam) (cf "uu") (t_arr t) [x; y]) with (ksum (t_n t) (fun k => lam [x; k] * ksum (t_n t) (fun l => lam [y; l] * t_arr t [k; l]))).
  ext. rewrite <- (ksum_l L). ext. ring.
Qed.
(** the identity transformation changes nothing, in every rank and configuration *)
Lemma ltspec_id n cfg : forall T idx, List.length idx = List.length cfg -> Forall (fun i => (i < n)%nat) idx -> ltspec n (@kdelta A) cfg T idx == T idx.
Proof.
  induction cfg as [|c cfg IH]; intros T [|i idx] H F; try discriminate; cbn [ltspec]; [reflexivity|]. inversion F; subst.
  transitivity (ksum n (fun k => kdelta i k * T (k :: idx))); [|apply (ksum_delta L n i (fun k => T (k :: idx))); assumption].
  ext. rewrite (IH (fun r => T (i0 :: r))) by (try assumption; cbn in H; lia). destruct (Ascii.eqb c chU); [reflexivity|]. rewrite kdelta_sym. reflexivity.
Qed.
Lemma lorentz_id_ (t : tens A) (lam : arr A) : (forall x y, lam [x; y] = kdelta x y) ->
  forall idx, valid (t_n t) (List.length (t_cfg t)) idx -> t_arr (lorentz_transform t lam) idx == t_arr t idx.
Proof.
  intros H idx [V F]. destruct (lorentz_spec_ t lam) as [_ [_ S]]. rewrite S by exact V. rewrite <- (ltspec_id (t_n t) (t_cfg t) (t_arr t) idx V F).
  clear S. generalize (t_arr t). revert idx V F. induction (t_cfg t) as [|c cfg IH]; intros [|i idx] V F T; try discriminate; cbn [ltspec]; [reflexivity|].
  inversion F; subst. ext. rewrite (IH idx) by (try assumption; cbn in V; lia). unfold mat_of. rewrite !H. reflexivity.
Qed.
(** contraction of a transformed vector with a transformed covector *)
Lemma lorentz_contract_ (v w : tens A) (lam : arr A) : t_cfg v = cf "u" -> t_cfg w = cf "l" -> t_n w = t_n v ->
  ksum (t_n v) (fun x => t_arr (lorentz_transform v lam) [x] * t_arr (lorentz_transform w lam) [x])
  == ksum (t_n v) (fun k => ksum (t_n v) (fun l => t_arr w [l] * ksum (t_n v) (fun x => lam [l; x] * lam [x; k]) * t_arr v [k])).
Proof.
  intros Cv Cw Hn. destruct (lorentz_spec_ v lam) as [_ [_ Sv]]. destruct (lorentz_spec_ w lam) as [_ [_ Sw]]. set (n := t_n v) in *.
  transitivity (ksum n (fun x => ksum n (fun k => ksum n (fun l => t_arr w [l] * (lam [l; x] * lam [x; k]) * t_arr v [k])))).
  - ext. rewrite Sv by (rewrite Cv; reflexivity). rewrite Sw by (rewrite Cw; reflexivity). rewrite Cv, Cw, Hn.
    change (ltspec n (mat_of lam) (cf "u") (t_arr v) [i]) with (ksum n (fun k => lam [i; k] * t_arr v [k])).
    change (ltspec n (mat_of lam) (cf "l") (t_arr w) [i]) with (ksum n (fun l => lam [l; i] * t_arr w [l])).
    rewrite <- (ksum_r L). ext. rewrite <- (ksum_l L). ext. ring.
  - rewrite (ksum_swap L). ext. rewrite (ksum_swap L). ext. rewrite <- (ksum_l L), <- (ksum_r L). reflexivity.
Qed.
Lemma lorentz_invariant_iff_ n (lam : arr A) :
  (forall v w : tens A, t_cfg v = cf "u" -> t_cfg w = cf "l" -> t_n v = n -> t_n w = n ->
     ksum n (fun x => t_arr (lorentz_transform v lam) [x] * t_arr (lorentz_transform w lam) [x]) == ksum n (fun x => t_arr v [x] * t_arr w [x]))
  <-> (forall l k, (l < n)%nat -> (k < n)%nat -> ksum n (fun x => lam [l; x] * lam [x; k]) == kdelta l k).
Proof.
  split.
  - intros H l k Hl Hk.
    set (v := @mktens A n (fun idx => match idx with [x] => kdelta x k | _ => 0 end) (cf "u") None).
    set (w := @mktens A n (fun idx => match idx with [x] => kdelta l x | _ => 0 end) (cf "l") None).
    assert (E := H v w eq_refl eq_refl eq_refl eq_refl). assert (C := lorentz_contract_ v w lam eq_refl eq_refl eq_refl). change (t_n v) with n in C. rewrite C in E. cbn [v w t_arr] in E.
    transitivity (ksum n (fun k0 => ksum n (fun l0 => kdelta l l0 * ksum n (fun x => lam [l0; x] * lam [x; k0]) * kdelta k0 k))).
    + symmetry. transitivity (ksum n (fun k0 => ksum n (fun x => lam [l; x] * lam [x; k0]) * kdelta k0 k)); [|apply (ksum_delta_r L n k (fun k0 => ksum n (fun x => lam [l; x] * lam [x; k0]))); exact Hk].
      ext. rewrite (ksum_r L). rewrite (ksum_delta L n l (fun l0 => ksum n (fun x => lam [l0; x] * lam [x; i]))) by exact Hl. reflexivity.
    + rewrite E. transitivity (ksum n (fun x => @kdelta A l x * kdelta x k)); [ext; ring|]. apply (ksum_delta L n l (fun x => kdelta x k)). exact Hl.
  - intros H v w Cv Cw Nv Nw. subst n. rewrite (lorentz_contract_ v w lam Cv Cw Nw). ext.
    transitivity (ksum (t_n v) (fun l => t_arr w [l] * kdelta l i * t_arr v [i])).
    + ext. rewrite H by assumption. reflexivity.
    + rewrite (ksum_r L), (ksum_delta_r L (t_n v) i (fun l => t_arr w [l])) by assumption. ring.
Qed.

(** *** C59 *)
Lemma tm_reciprocal_ (t : tmatrix A) : tm_inv t = None ->
  let '(t1, v1) := tm_inv_call t in let '(t2, v2) := tm_inv_call t1 in
  t2 = t1 /\ v2 = v1 /\ tm_n t1 = tm_n t /\ tm_arr t1 = tm_arr t /\ forall i j, v1 i j = 1 / tm_arr t i j.
Proof. intros H. unfold tm_inv_call. rewrite H. cbn. auto. Qed.
(** for a symmetric matrix of invertible entries the diagonal of A * A.inv() is n *)
Lemma tm_symmetric_ n (a : nat -> nat -> A) : (forall i j, (i < n)%nat -> (j < n)%nat -> a i j == a j i /\ exists z, a i j * z == 1) ->
  forall i, (i < n)%nat -> ksum n (fun m => a i m * (1 / a m i)) == kofn n.
Proof.
  intros H i Hi. rewrite <- (ksum_one L). ext. destruct (H i0 i Hi0 Hi) as [Hs [z Hz]]. rewrite (proj1 (H i i0 Hi Hi0)). rewrite (kdiv_mul L 1 (a i0 i) z Hz). transitivity (a i0 i * z); [ring|exact Hz].
Qed.
(** for every 2x2 matrix of invertible entries A.inv() is not an inverse *)
Lemma tm_two_ (a : nat -> nat -> A) : ~ ((1 : A) == 0) -> (forall i j, (i < 2)%nat -> (j < 2)%nat -> exists z, a i j * z == 1) ->
  ~ (forall i j, (i < 2)%nat -> (j < 2)%nat -> ksum 2 (fun m => a i m * (1 / a m j)) == kdelta i j).
Proof.
  intros N H E. assert (E0 := E 0%nat 0%nat ltac:(lia) ltac:(lia)). cbn [ksum] in E0. unfold kdelta in E0. cbn [Nat.eqb] in E0.
  destruct (H 0%nat 0%nat ltac:(lia) ltac:(lia)) as [z0 Z0]. destruct (H 1%nat 0%nat ltac:(lia) ltac:(lia)) as [z1 Z1]. destruct (H 0%nat 1%nat ltac:(lia) ltac:(lia)) as [z2 Z2].
  rewrite (kdiv_mul L 1 _ z0 Z0), (kdiv_mul L 1 _ z1 Z1) in E0. apply N.
  assert (Q : a 0%nat 1%nat * z1 == 0).
  { transitivity (0 + a 0%nat 0%nat * (1 * z0) + a 0%nat 1%nat * (1 * z1) - a 0%nat 0%nat * z0); [ring|]. rewrite E0, Z0. ring. }
  transitivity ((a 0%nat 1%nat * z2) * (a 1%nat 0%nat * z1)); [rewrite Z1, Z2; ring|]. transitivity (a 0%nat 1%nat * z1 * (z2 * a 1%nat 0%nat)); [ring|]. rewrite Q. ring.
Qed.
Lemma tm_symmetric_not_ n (a : nat -> nat -> A) : ~ ((1 : A) == 0) -> (2 <= n)%nat -> (forall i j, (i < n)%nat -> (j < n)%nat -> a i j == a j i /\ exists z, a i j * z == 1) ->
  ~ (forall i j, (i < n)%nat -> (j < n)%nat -> ksum n (fun m => a i m * (1 / a m j)) == kdelta i j).
Proof.
  intros N Hn H E. assert (E0 := E 0%nat 0%nat ltac:(lia) ltac:(lia)). rewrite (tm_symmetric_ n a H 0%nat ltac:(lia)) in E0. unfold kdelta in E0. cbn [Nat.eqb] in E0.
  replace n with (S (n - 1)) in E0 by lia. cbn [kofn] in E0.
  assert (Q : @kofn A (n - 1) == 0) by (transitivity (kofn (n - 1) + 1 - 1 : A); [ring|]; rewrite E0; ring).
  apply N. rewrite <- (kinv_law L (n - 1) ltac:(lia)). rewrite Q. ring.
Qed.
Lemma tm_one_ (a : nat -> nat -> A) : (exists z, a 0%nat 0%nat * z == 1) -> ksum 1 (fun m => a 0%nat m * (1 / a m 0%nat)) == 1.
Proof. intros [z Hz]. cbn [ksum]. rewrite (kdiv_mul L 1 _ z Hz). transitivity (a 0%nat 0%nat * z); [ring|exact Hz]. Qed.
End S.

(** *** C53 *)
Lemma product_one_index (A : dops) (t1 t2 : tens A) :
  tensor_product t1 t2 (Some 0) None = tensor_product t1 t2 None None /\
  (forall i, S i < List.length (t_cfg t1) -> tensor_product t1 t2 (Some (S i)) None = Err TypeError) /\
  (forall i, List.length (t_cfg t1) <= S i -> tensor_product t1 t2 (Some (S i)) None = Err IndexError) /\
  (forall j, tensor_product t1 t2 None (Some j) = Err TypeError).
Proof.
  split; [reflexivity|]. split; [|split].
  - intros i H. unfold tensor_product, getch. cbn [or_is_none]. destruct (nth_error (t_cfg t1) (S i)) eqn:E; [reflexivity|]. apply nth_error_None in E. lia.
  - intros i H. unfold tensor_product, getch. cbn [or_is_none]. apply nth_error_None in H. rewrite H. reflexivity.
  - intros j. reflexivity.
Qed.
Lemma product_refuted (A : dops) (t1 t2 : tens A) : exists t, tensor_product t1 t2 (Some 0) None = Ok t /\ t_cfg t = t_cfg t1 ++ t_cfg t2.
Proof. eexists. split; reflexivity. Qed.
(** indices out of range *)
Lemma product_range (A : dops) (t1 t2 : tens A) i j : List.length (t_cfg t1) <= i \/ (i < List.length (t_cfg t1) /\ List.length (t_cfg t2) <= j) ->
  tensor_product t1 t2 (Some i) (Some j) = Err IndexError.
Proof.
  intros H. unfold tensor_product. replace (or_is_none (Some i) (Some j)) with false by (destruct i; reflexivity). unfold getch.
  destruct H as [H|[H1 H2]].
  - apply nth_error_None in H. rewrite H. reflexivity.
  - destruct (nth_error (t_cfg t1) i) eqn:E; [|apply nth_error_None in E; lia]. cbn [bindR]. apply nth_error_None in H2. rewrite H2. reflexivity.
Qed.

(** *** errors of change_config (C51) *)
Lemma change_config_bad (A : dops) (m : metric A) (t : tens A) (mt : option (metric A)) new :
  (mt = Some m \/ (mt = None /\ t_parent t = Some m)) -> List.length new <> List.length (t_cfg t) \/ config_checker new = false ->
  t_change_config t new mt = Err ValueError.
Proof.
  intros Hm H. unfold t_change_config. replace (match mt with Some m0 => Some m0 | None => t_parent t end) with (Some m) by (destruct Hm as [->|[-> ->]]; reflexivity).
  unfold change_config_arr. destruct (Nat.eqb_spec (List.length new) (List.length (t_cfg t))); [|reflexivity].
  destruct H as [H|H]; [contradiction|]. rewrite H. reflexivity.
Qed.
Lemma change_config_nometric (A : dops) (t : tens A) new : t_parent t = None -> t_change_config t new None = Err PyException.
Proof. intros H. unfold t_change_config. rewrite H. reflexivity. Qed.
Lemma config_checker_spec (c : config) : config_checker c = true <-> Forall (fun ch => ch = "l"%char \/ ch = "u"%char) c.
Proof.
  unfold config_checker. rewrite forallb_forall, Forall_forall. split; intros H x Hx; specialize (H x Hx).
  - apply orb_true_iff in H. destruct H as [H|H]; apply Ascii.eqb_eq in H; auto.
  - apply orb_true_iff. destruct H as [->| ->]; [left|right]; reflexivity.
Qed.

(** *** C57 *)
Lemma tensor_init_iff (a : arrarg) (c : cfgarg) sh s : tensor_init a c = Ok (sh, s) <->
  a = ArrLike sh /\ c = CfgStr s /\ Forall (fun ch => ch = "l"%char \/ ch = "u"%char) s /\ List.length sh = List.length s.
Proof.
  rewrite <- config_checker_spec. unfold tensor_init. split.
  - destruct a as [sh'|]; [|discriminate]. destruct c as [s'|]; [|discriminate]. destruct (config_checker s') eqn:E; [|discriminate].
    destruct (Nat.eqb_spec (List.length sh') (List.length s')) as [El|]; cbn [negb]; [|discriminate]. intros H. injection H as -> ->. auto.
  - intros [-> [-> [-> ->]]]. rewrite Nat.eqb_refl. reflexivity.
Qed.
Lemma tensor_init_errors (a : arrarg) (c : cfgarg) :
  (tensor_init a c = Err TypeError <-> a = ArrOther \/ c = CfgOther \/ exists s, c = CfgStr s /\ ~ Forall (fun ch => ch = "l"%char \/ ch = "u"%char) s) /\
  (tensor_init a c = Err ValueError <-> exists sh s, a = ArrLike sh /\ c = CfgStr s /\ Forall (fun ch => ch = "l"%char \/ ch = "u"%char) s /\ List.length sh <> List.length s).
Proof.
  unfold tensor_init. destruct a as [sh|].
  2:{ split; split; intros H; [left; reflexivity|reflexivity|discriminate|destruct H as [? [? [H _]]]; discriminate]. }
  destruct c as [s|].
  2:{ split; split; intros H; [right; left; reflexivity|reflexivity|discriminate|destruct H as [? [? [_ [H _]]]]; discriminate]. }
  destruct (config_checker s) eqn:E.
  - assert (F := proj1 (config_checker_spec s) E). destruct (Nat.eqb_spec (List.length sh) (List.length s)) as [El|El]; cbn [negb].
    + split; split; intros H; try discriminate.
      * destruct H as [H|[H|[s' [H N]]]]; try discriminate. injection H as <-. contradiction.
      * destruct H as [sh' [s' [H1 [H2 [_ N]]]]]. injection H1 as <-. injection H2 as <-. contradiction.
    + split; split; intros H; try discriminate; try reflexivity.
      * destruct H as [H|[H|[s' [H N]]]]; try discriminate. injection H as <-. contradiction.
      * exists sh, s. auto.
  - assert (F : ~ Forall (fun ch => ch = "l"%char \/ ch = "u"%char) s) by (rewrite <- config_checker_spec, E; discriminate).
    split; split; intros H; try discriminate; try reflexivity.
    + right. right. exists s. auto.
    + destruct H as [sh' [s' [H1 [H2 [N _]]]]]. injection H2 as <-. contradiction.
Qed.
Lemma base_init_iff (a : arrarg) (sy : symsarg) (c : cfgarg) (vars funs : collarg) sh s n : base_init a sy c vars funs = Ok (sh, s, n) <->
  tensor_init a c = Ok (sh, s) /\ sy = SymsSeq n /\ vars = Coll /\ funs = Coll /\ (sh = [] \/ exists r, sh = n :: r).
Proof.
  unfold base_init. split.
  - destruct (tensor_init a c) as [[sh' s']|]; [|discriminate]. cbn [bindR]. destruct sh' as [|d r].
    + cbn [bindR]. destruct sy; try discriminate. destruct vars, funs; try discriminate. intros H. injection H as <- <- <-. repeat split; auto.
    + destruct sy as [k|k|]; cbn [syms_len bindR]; try discriminate; destruct (Nat.eqb_spec d k) as [Ed|]; cbn [negb bindR]; try discriminate.
      destruct vars, funs; try discriminate. intros H. injection H as <- <- <-. repeat split; auto. right. exists r. congruence.
  - intros [-> [-> [-> [-> H]]]]. cbn [bindR]. destruct H as [->|[r ->]]; cbn [syms_len bindR]; [reflexivity|]. rewrite Nat.eqb_refl. reflexivity.
Qed.
Lemma sub_init_iff (k : nat) (a : arrarg) (sy : symsarg) (c : cfgarg) sh s n : sub_init k a sy c = Ok (sh, s, n) <->
  base_init a sy c Coll Coll = Ok (sh, s, n) /\ List.length s = k.
Proof.
  unfold sub_init. split.
  - destruct (base_init a sy c Coll Coll) as [[[sh' s'] n']|]; [|discriminate]. cbn [bindR]. destruct (Nat.eqb_spec (List.length s') k); cbn [negb]; [|discriminate].
    intros H. injection H as <- <- <-. auto.
  - intros [-> H]. cbn [bindR]. apply Nat.eqb_eq in H. rewrite H. reflexivity.
Qed.
(** hence rank = order = len(config) for every accepted object of a fixed-order class, and a config of another length raises ValueError *)
Lemma sub_init_bad (k : nat) (a : arrarg) (sy : symsarg) (c : cfgarg) sh s n : base_init a sy c Coll Coll = Ok (sh, s, n) -> List.length s <> k -> sub_init k a sy c = Err ValueError.
Proof. intros E H. unfold sub_init. rewrite E. cbn [bindR]. apply Nat.eqb_neq in H. rewrite H. reflexivity. Qed.

(** *** C58 *)
Lemma subs_spec (A : dops) (rank : nat) (sub : A -> A) (a : arr A) (c : config) :
  (rank = 2 -> exists b, tensor_subs rank sub a c = Ok (b, cf "ll") /\ forall idx, b idx = sub (a idx)) /\
  (rank <> 2 -> tensor_subs rank sub a c = Err ValueError).
Proof.
  unfold tensor_subs. split; intros H.
  - subst. eexists. split; [reflexivity|]. reflexivity.
  - destruct (Nat.eqb_spec rank (List.length (cf "ll"))) as [E|E]; [cbn in E; lia|reflexivity].
Qed.
Lemma subs_refuted (A : dops) : ~ (forall (sub : A -> A) (a : arr A) (c : config), config_checker c = true -> exists b, tensor_subs (List.length c) sub a c = Ok (b, c)).
Proof. intros H. destruct (H (fun x => x) azero (cf "uu") eq_refl) as [b E]. unfold tensor_subs in E. cbn in E. injection E as E. discriminate. Qed.

(** *** C60 *)
Lemma flat1_list {A : dops} (l : list (nlist A)) : flat1 (NList l) = flat_map flat1 l.
Proof.
  cbn [flat1]. induction l as [|[x|s] l IH]; [reflexivity| |]; cbn [flat_map]; rewrite <- IH; reflexivity.
Qed.
Lemma flatten_tolist (A : dops) (shape : list nat) : forall a : arr A, flat1 (tolist shape a) = map a (all_idx shape).
Proof.
  induction shape as [|d sh IH]; intros a; [reflexivity|]. cbn [tolist all_idx]. rewrite flat1_list.
  induction (seq 0 d) as [|i l IHl]; [reflexivity|]. cbn [map flat_map]. rewrite IHl, IH, map_app, map_map. reflexivity.
Qed.
Lemma all_idx_len shape : List.length (all_idx shape) = fold_right Nat.mul 1 shape.
Proof.
  induction shape as [|d sh IH]; [reflexivity|]. cbn [all_idx fold_right].
  assert (E : forall l, List.length (flat_map (fun i => map (cons i) (all_idx sh)) l) = List.length l * fold_right Nat.mul 1 sh).
  { induction l as [|i l IHl]; [reflexivity|]. cbn [flat_map List.length]. rewrite app_length, map_length, IHl, IH. lia. }
  rewrite E, seq_length. reflexivity.
Qed.
Lemma all_idx_nth shape : forall idx, Forall2 (fun i d => i < d) idx shape -> nth_error (all_idx shape) (flat_pos shape idx) = Some idx.
Proof.
  induction shape as [|d sh IH]; intros idx H; inversion H as [|i d' r sh' Hi Hr]; subst; [reflexivity|].
  cbn [all_idx flat_pos]. assert (P := all_idx_len sh). set (N := fold_right Nat.mul 1 sh) in *.
  assert (B : flat_pos sh r < N). { rewrite <- P. apply nth_error_Some. rewrite IH by exact Hr. discriminate. }
  assert (E : forall l k, k < List.length l -> nth_error (flat_map (fun i => map (cons i) (all_idx sh)) l) (k * N + flat_pos sh r) = Some (nth k l 0 :: r)).
  { induction l as [|x l IHl]; intros k Hk; [cbn in Hk; lia|]. cbn [flat_map]. destruct k as [|k].
    - rewrite nth_error_app1 by (rewrite map_length, P; lia). cbn [Nat.mul Nat.add nth]. rewrite nth_error_map, IH by exact Hr. reflexivity.
    - rewrite nth_error_app2 by (rewrite map_length, P; lia). rewrite map_length, P. replace (S k * N + flat_pos sh r - N) with (k * N + flat_pos sh r) by lia.
      cbn [nth]. apply IHl. cbn in Hk. lia. }
  rewrite E by (rewrite seq_length; exact Hi). rewrite seq_nth by exact Hi. reflexivity.
Qed.
Lemma nodup_app {X} (l l' : list X) : NoDup l -> NoDup l' -> (forall x, In x l -> ~ In x l') -> NoDup (l ++ l').
Proof.
  induction l as [|x l IH]; intros H1 H2 H; [exact H2|]. inversion H1; subst. cbn [app]. constructor.
  - rewrite in_app_iff. intros [K|K]; [contradiction|]. apply (H x); [left; reflexivity|exact K].
  - apply IH; try assumption. intros y Hy. apply H. right. exact Hy.
Qed.
Lemma all_idx_nodup shape : NoDup (all_idx shape) /\ forall idx, In idx (all_idx shape) <-> Forall2 (fun i d => i < d) idx shape.
Proof.
  induction shape as [|d sh [IH1 IH2]].
  - split; [repeat constructor; intros []|]. intros idx. split; [intros [<-|[]]; constructor|]. intros H. inversion H. left. reflexivity.
  - split.
    + cbn [all_idx]. assert (E : forall l, NoDup l -> NoDup (flat_map (fun i => map (cons i) (all_idx sh)) l)).
      { induction l as [|x l IHl]; intros ND; [constructor|]. inversion ND as [|? ? N1 N2]; subst. cbn [flat_map]. apply nodup_app.
        - apply FinFun.Injective_map_NoDup; [intros u v Huv; congruence|exact IH1].
        - apply IHl. exact N2.
        - intros y Hy1 Hy2. apply in_map_iff in Hy1. destruct Hy1 as [r [<- _]]. apply in_flat_map in Hy2. destruct Hy2 as [x' [Hx' Hy2]].
          apply in_map_iff in Hy2. destruct Hy2 as [r' [E' _]]. injection E' as -> ->. contradiction. }
      apply E. apply seq_NoDup.
    + intros idx. cbn [all_idx]. rewrite in_flat_map. split.
      * intros [i [Hi H]]. apply in_seq in Hi. apply in_map_iff in H. destruct H as [r [<- Hr]]. constructor; [lia|]. apply IH2. exact Hr.
      * intros H. inversion H as [|i d' r sh' Hi Hr]; subst. exists i. split; [apply in_seq; lia|]. apply in_map_iff. exists r. split; [reflexivity|]. apply IH2. exact Hr.
Qed.
Lemma simplify_array_spec (A : dops) (L : dlaws A) (shape : list nat) (a : arr A) (idx : list nat) : Forall2 (fun i d => i < d) idx shape ->
  simplify_sympy_array shape a idx = ksimp (a idx) /\ keq (simplify_sympy_array shape a idx) (a idx).
Proof.
  intros H. assert (E : simplify_sympy_array shape a idx = ksimp (a idx)).
  { unfold simplify_sympy_array. destruct shape as [|d sh]; [inversion H; subst; reflexivity|].
    change (tolist (d :: sh) a) with (NList (map (fun i => tolist sh (fun r => a (i :: r))) (seq 0 d))). cbv iota.
    unfold flatten_list. change (NList (map (fun i => tolist sh (fun r => a (i :: r))) (seq 0 d))) with (tolist (d :: sh) a). rewrite flatten_tolist.
    unfold from_flat. assert (Q := all_idx_nth (d :: sh) idx H). apply (map_nth_error a) in Q. apply (map_nth_error ksimp) in Q.
    rewrite (nth_error_nth _ _ _ Q). reflexivity. }
  split; [exact E|]. rewrite E. apply (ksimp_law A L).
Qed.
