(** Raising and lowering of indices: the loop of tensor.py equals the textbook contraction of every changed index. *)
From Coq Require Import String Ascii List Arith Lia Bool Setoid Morphisms Ring.
From Verif Require Import Base SymAlg SymModel SymGeo.
Import ListNotations.
Open Scope nat_scope.

(** ** lists of indices *)
Definition valid (n r : nat) (idx : list nat) : Prop := List.length idx = r /\ Forall (fun i => i < n) idx.
Lemma index_of_app_notin a l l' : ~ In a l -> index_of a (l ++ l') = List.length l + index_of a l'.
Proof.
  induction l as [|x l IH]; intros H; cbn [app index_of List.length]; [reflexivity|].
  destruct (Nat.eqb_spec a x) as [E|E]; [subst; exfalso; apply H; left; reflexivity|]. rewrite IH by (intros N; apply H; right; exact N). reflexivity.
Qed.
Lemma index_of_app_in a l l' : In a l -> index_of a (l ++ l') = index_of a l.
Proof.
  induction l as [|x l IH]; intros H; [destruct H|]. cbn [app index_of]. destruct (Nat.eqb_spec a x) as [E|E]; [reflexivity|].
  rewrite IH; [reflexivity|]. destruct H as [->|H]; [contradiction|exact H].
Qed.
Lemma index_of_seq a s len : s <= a < s + len -> index_of a (seq s len) = a - s.
Proof.
  revert s. induction len as [|len IH]; intros s H; [lia|]. cbn [seq index_of]. destruct (Nat.eqb_spec a s) as [E|E]; [lia|]. rewrite IH by lia. lia.
Qed.
Lemma insert_seq i q : insert_at i 0 (seq 1 (i + q)) = seq 1 i ++ 0 :: seq (S i) q.
Proof.
  unfold insert_at. rewrite seq_app. rewrite firstn_app, skipn_app, seq_length, Nat.sub_diag.
  rewrite (firstn_all2 (seq 1 i)), (skipn_all2 (seq 1 i)) by (rewrite seq_length; lia).
  cbn [firstn skipn]. rewrite app_nil_r. reflexivity.
Qed.
Lemma map_nth_seq (pre post : list nat) s : map (fun m => nth (m - s) (pre ++ post) 0) (seq s (List.length pre)) = pre.
Proof.
  revert s. induction pre as [|x pre IH]; intros s; [reflexivity|]. cbn [List.length seq map app].
  rewrite Nat.sub_diag. cbn [nth]. f_equal. rewrite <- (IH (S s)) at 2. apply map_ext_in. intros m Hm. apply in_seq in Hm.
  replace (m - s) with (S (m - S s)) by lia. reflexivity.
Qed.
Lemma perm_index pre x post :
  let i := List.length pre in
  let dest := insert_at i 0 (seq 1 (i + S (List.length post) - 1)) in
  map (fun m => nth (index_of m dest) (pre ++ x :: post) 0) (seq 0 (List.length dest)) = x :: pre ++ post.
Proof.
  intros i dest. unfold dest. replace (i + S (List.length post) - 1) with (i + List.length post) by lia. rewrite insert_seq.
  set (q := List.length post). rewrite app_length. cbn [List.length]. rewrite !seq_length.
  replace (i + S q) with (S (i + q)) by lia. cbn [seq map]. f_equal.
  - rewrite index_of_app_notin by (rewrite in_seq; lia). rewrite seq_length. cbn [index_of Nat.eqb]. rewrite Nat.add_0_r. unfold i. rewrite app_nth2 by lia. rewrite Nat.sub_diag. reflexivity.
  - rewrite seq_app, map_app. f_equal.
    + transitivity (map (fun m => nth (m - 1) (pre ++ x :: post) 0) (seq 1 i)); [|apply map_nth_seq].
      apply map_ext_in. intros m Hm. rewrite index_of_app_in by exact Hm. apply in_seq in Hm. rewrite index_of_seq by lia. reflexivity.
    + transitivity (map (fun m => nth (m - S i) (post ++ []) 0) (seq (S i) q)); [|apply map_nth_seq].
      apply map_ext_in. intros m Hm. apply in_seq in Hm.
      rewrite index_of_app_notin by (rewrite in_seq; lia). rewrite seq_length. cbn [index_of]. destruct (Nat.eqb_spec m 0); [lia|].
      rewrite index_of_seq by lia. rewrite app_nil_r. unfold i. rewrite app_nth2 by lia.
      replace (List.length pre + S (m - S (List.length pre)) - List.length pre) with (S (m - S (List.length pre))) by lia. reflexivity.
Qed.
Lemma insert_mid {X} (pre post : list X) k : insert_at (List.length pre) k (pre ++ post) = pre ++ k :: post.
Proof.
  unfold insert_at. rewrite firstn_app, skipn_app, Nat.sub_diag. rewrite firstn_all, skipn_all. cbn [firstn skipn app]. rewrite app_nil_r. reflexivity.
Qed.

Section S.
Context {A : dops} (L : dlaws A).
Local Open Scope K_scope.
Local Instance ME : Equivalence (@keq A) := keq_equiv A L.
Local Instance MaP : Proper (keq ==> keq ==> keq) (@kadd A) := kadd_p A L.
Local Instance MmP : Proper (keq ==> keq ==> keq) (@kmul A) := kmul_p A L.
Local Instance MsP : Proper (keq ==> keq ==> keq) (@ksub A) := ksub_p A L.
Local Instance MoP : Proper (keq ==> keq) (@kopp A) := kopp_p A L.
Add Ring Mring : (k_ring A L).

(** one contraction step: sum_k M[x,k] t[..k..] *)
Lemma act_axis_at n (M t : arr A) pre x post :
  act_axis n (List.length pre + S (List.length post)) M 1 (List.length pre) t (pre ++ x :: post)
  == ksum n (fun k => M [x; k] * t (pre ++ k :: post)).
Proof.
  unfold act_axis, tperm. rewrite perm_index. unfold tsimp. rewrite (ksimp_law A L). unfold tcontract. apply (ksum_ext L). intros k Hk.
  change (insert_at 1 k (x :: pre ++ post)) with (x :: k :: pre ++ post).
  change (insert_at (2 + List.length pre) k (x :: k :: pre ++ post)) with (x :: k :: insert_at (List.length pre) k (pre ++ post)).
  rewrite insert_mid. unfold tprod. reflexivity.
Qed.
Lemma act_axis_at0 n (M t : arr A) pre x post :
  act_axis n (List.length pre + S (List.length post)) M 0 (List.length pre) t (pre ++ x :: post)
  == ksum n (fun k => M [k; x] * t (pre ++ k :: post)).
Proof.
  unfold act_axis, tperm. rewrite perm_index. unfold tsimp. rewrite (ksimp_law A L). unfold tcontract. apply (ksum_ext L). intros k Hk.
  change (insert_at 0 k (x :: pre ++ post)) with (k :: x :: pre ++ post).
  change (insert_at (2 + List.length pre) k (k :: x :: pre ++ post)) with (k :: x :: insert_at (List.length pre) k (pre ++ post)).
  rewrite insert_mid. unfold tprod. reflexivity.
Qed.

(** specification: every index whose letter changes is contracted with g^-1 (if it becomes 'u') or g (if it becomes 'l') *)
Fixpoint move (n : nat) (g gi : nat -> nat -> A) (old new : config) (T : list nat -> A) (idx : list nat) : A :=
  match old, new, idx with
  | o :: old', w :: new', i :: idx' =>
      if Ascii.eqb w o then move n g gi old' new' (fun r => T (i :: r)) idx'
      else ksum n (fun m => (if Ascii.eqb w chU then gi else g) i m * move n g gi old' new' (fun r => T (m :: r)) idx')
  | _, _, _ => T idx
  end.

Lemma move_ext_valid n g gi old : forall new T T' idx, List.length new = List.length old -> valid n (List.length old) idx ->
  (forall r, valid n (List.length old) r -> T r == T' r) -> move n g gi old new T idx == move n g gi old new T' idx.
Proof.
  induction old as [|o old IH]; intros new T T' idx Hn [Hl Hf] H; destruct new as [|w new]; try discriminate; destruct idx as [|i idx]; try discriminate; cbn [move].
  - apply H. split; [reflexivity|constructor].
  - cbn [List.length] in *. inversion Hf as [|? ? Hi Hr]; subst. destruct (Ascii.eqb w o).
    + apply IH; [lia|split; [lia|exact Hr]|]. intros r [Rl Rf]. apply H. split; [cbn; lia|constructor; assumption].
    + apply (ksum_ext L). intros m Hm. apply MmP; [reflexivity|]. apply IH; [lia|split; [lia|exact Hr]|].
      intros r [Rl Rf]. apply H. split; [cbn; lia|constructor; assumption].
Qed.
Lemma move_ext n g gi old : forall new T T' idx, (forall r, List.length r = List.length idx -> T r == T' r) -> move n g gi old new T idx == move n g gi old new T' idx.
Proof.
  induction old as [|o old IH]; intros new T T' idx H; destruct new as [|w new]; destruct idx as [|i idx]; cbn [move]; try (apply H; reflexivity).
  destruct (Ascii.eqb w o).
  - apply IH. intros r Hr. apply H. cbn. congruence.
  - apply (ksum_ext L). intros m Hm. apply MmP; [reflexivity|]. apply IH. intros r Hr. apply H. cbn. congruence.
Qed.
Lemma move_scal n g gi old : forall new (c : A) T idx, move n g gi old new (fun r => c * T r) idx == c * move n g gi old new T idx.
Proof.
  induction old as [|o old IH]; intros new c T idx; destruct new as [|w new]; destruct idx as [|i idx]; cbn [move]; try reflexivity.
  destruct (Ascii.eqb w o); [apply IH|]. rewrite <- (ksum_l L). apply (ksum_ext L). intros m Hm. rewrite IH. ring.
Qed.
Lemma move_sum n g gi old : forall new k (T : nat -> list nat -> A) idx,
  move n g gi old new (fun r => ksum k (fun p => T p r)) idx == ksum k (fun p => move n g gi old new (T p) idx).
Proof.
  induction old as [|o old IH]; intros new k T idx; destruct new as [|w new]; destruct idx as [|i idx]; cbn [move]; try reflexivity.
  destruct (Ascii.eqb w o); [apply (IH new k (fun p r => T p (i :: r)))|]. rewrite (ksum_swap L). apply (ksum_ext L). intros m Hm.
  rewrite (IH new k (fun p r => T p (m :: r))). rewrite <- (ksum_l L). reflexivity.
Qed.
Lemma move_refl n g gi c : forall T idx, List.length idx = List.length c -> move n g gi c c T idx == T idx.
Proof.
  induction c as [|o c IH]; intros T [|i idx] H; try discriminate; cbn [move]; [reflexivity|]. rewrite Ascii.eqb_refl. apply (IH (fun r => T (i :: r))). cbn in H. lia.
Qed.
Lemma ud c : (Ascii.eqb c chL || Ascii.eqb c chU)%bool = true -> c = chL \/ c = chU.
Proof. intros H. apply orb_true_iff in H. destruct H as [H|H]; apply Ascii.eqb_eq in H; auto. Qed.
(** raising and lowering compose *)
Lemma move_comp n g gi (HI : inverse_metrics n g gi) old : forall mid new T idx,
  List.length mid = List.length old -> List.length new = List.length old -> List.length idx = List.length old -> Forall (fun i => (i < n)%nat) idx ->
  config_checker old = true -> config_checker mid = true -> config_checker new = true ->
  move n g gi mid new (move n g gi old mid T) idx == move n g gi old new T idx.
Proof.
  induction old as [|o old IH]; intros mid new T idx Hm Hn Hl Hf Co Cm Cn; destruct mid as [|w mid]; try discriminate; destruct new as [|z new]; try discriminate;
    destruct idx as [|i idx]; try discriminate; [reflexivity|].
  cbn [List.length] in *. cbn [config_checker forallb] in Co, Cm, Cn. apply andb_true_iff in Co, Cm, Cn. destruct Co as [Co1 Co], Cm as [Cm1 Cm], Cn as [Cn1 Cn].
  inversion Hf as [|? ? Hi Hr]; subst.
  assert (IH' : forall T, move n g gi mid new (move n g gi old mid T) idx == move n g gi old new T idx) by (intros; apply IH; try lia; assumption).
  cbn [move]. destruct (Ascii.eqb_spec z w) as [E1|E1]; destruct (Ascii.eqb_spec w o) as [E2|E2].
  - subst. rewrite Ascii.eqb_refl. apply IH'.
  - subst z. destruct (Ascii.eqb_spec w o); [contradiction|]. rewrite move_sum. apply (ksum_ext L). intros m Hm'.
    rewrite move_scal. apply MmP; [reflexivity|]. apply IH'.
  - subst w. destruct (Ascii.eqb_spec z o); [contradiction|]. apply (ksum_ext L). intros m Hm'. apply MmP; [reflexivity|]. apply IH'.
  - assert (E : z = o). { destruct (ud _ Co1), (ud _ Cm1), (ud _ Cn1); subst; congruence. }
    subst z. rewrite Ascii.eqb_refl.
    transitivity (ksum n (fun m => (if Ascii.eqb o chU then gi else g) i m * ksum n (fun p => (if Ascii.eqb w chU then gi else g) m p * move n g gi old new (fun r => T (p :: r)) idx))).
    + apply (ksum_ext L). intros m Hm'. apply MmP; [reflexivity|]. rewrite move_sum. apply (ksum_ext L). intros p Hp. rewrite move_scal. apply MmP; [reflexivity|]. apply IH'.
    + destruct (ud _ Co1) as [->| ->]; destruct (ud _ Cm1) as [->| ->]; try contradiction.
      * change (Ascii.eqb chL chU) with false. change (Ascii.eqb chU chU) with true. cbv iota. exact (lower L n g gi HI i (fun p => move n g gi old new (fun r => T (p :: r)) idx) Hi).
      * change (Ascii.eqb chL chU) with false. change (Ascii.eqb chU chU) with true. cbv iota. exact (raise L n g gi HI i (fun p => move n g gi old new (fun r => T (p :: r)) idx) Hi).
Qed.

(** the loop over the axes computes [move] *)
Lemma chain_move n (g gi : arr A) old : forall new (t : arr A) pre idx,
  List.length new = List.length old -> List.length idx = List.length old ->
  fold_left (fun t '(i, action) => match action with None => t | Some true => act_axis n (List.length pre + List.length old) gi 1 i t
     | Some false => act_axis n (List.length pre + List.length old) g 1 i t end)
    (combine (seq (List.length pre) (List.length (difference_list new old))) (difference_list new old)) t (pre ++ idx)
  == move n (mat_of g) (mat_of gi) old new (fun r => t (pre ++ r)) idx.
Proof.
  induction old as [|o old IH]; intros new t pre idx Hn Hl; destruct new as [|w new]; try discriminate; destruct idx as [|i idx]; try discriminate; [reflexivity|].
  cbn [List.length] in *. cbn [difference_list List.length seq combine fold_left move].
  replace (pre ++ i :: idx) with ((pre ++ [i]) ++ idx) by (rewrite <- app_assoc; reflexivity).
  assert (Lp : List.length (pre ++ [i]) = S (List.length pre)) by (rewrite app_length; cbn; lia).
  assert (IH' : forall t', fold_left (fun t '(i, action) => match action with None => t | Some true => act_axis n (List.length pre + S (List.length old)) gi 1 i t
     | Some false => act_axis n (List.length pre + S (List.length old)) g 1 i t end)
    (combine (seq (S (List.length pre)) (List.length (difference_list new old))) (difference_list new old)) t' ((pre ++ [i]) ++ idx)
    == move n (mat_of g) (mat_of gi) old new (fun r => t' ((pre ++ [i]) ++ r)) idx).
  { intros t'. specialize (IH new t' (pre ++ [i]) idx). rewrite Lp in IH. replace (S (List.length pre) + List.length old)%nat with (List.length pre + S (List.length old))%nat in IH by lia.
    apply IH; lia. }
  assert (Ax : forall (M : arr A), move n (mat_of g) (mat_of gi) old new (fun r => act_axis n (List.length pre + S (List.length old)) M 1 (List.length pre) t ((pre ++ [i]) ++ r)) idx
     == ksum n (fun m => mat_of M i m * move n (mat_of g) (mat_of gi) old new (fun r => t (pre ++ m :: r)) idx)).
  { intros M. transitivity (move n (mat_of g) (mat_of gi) old new (fun r => ksum n (fun m => mat_of M i m * t (pre ++ m :: r))) idx).
    - apply move_ext. intros r Hr. rewrite <- app_assoc. cbn [app]. replace (List.length old) with (List.length r) by lia. apply act_axis_at.
    - rewrite move_sum. apply (ksum_ext L). intros m Hm. apply (move_scal n (mat_of g) (mat_of gi) old new (mat_of M i m) (fun r => t (pre ++ m :: r))). }
  destruct (Ascii.eqb w o).
  - rewrite IH'. apply move_ext. intros r _. rewrite <- app_assoc. reflexivity.
  - destruct (Ascii.eqb w chU); rewrite IH'; apply Ax.
Qed.
Lemma chain_config_change_at n (g gi : arr A) old new t idx : List.length new = List.length old -> List.length idx = List.length old ->
  chain_config_change n (List.length old) g gi (difference_list new old) t idx == move n (mat_of g) (mat_of gi) old new t idx.
Proof. intros H1 H2. exact (chain_move n g gi old new t [] idx H1 H2). Qed.
End S.
