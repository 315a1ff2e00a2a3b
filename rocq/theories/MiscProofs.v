(** Proofs about find, primitive, the exception classes, Body and tensor_lambdify. *)
From Coq Require Import String Ascii Reals List Arith Lia Bool Sorted Permutation.
From Verif Require Import Base CoordModel ConvModel ExprModel MiscModel.
Import ListNotations.
Local Open Scope nat_scope.

(** ** find *)
Lemma prefix_iff a b : String.prefix a b = true <-> exists r, b = (a ++ r)%string.
Proof.
  revert b. induction a as [|c a IH]; intros b.
  - split; [intros _; exists b; reflexivity|intros _; destruct b; reflexivity].
  - destruct b as [|d b]; cbn [String.prefix].
    + split; [discriminate|intros [r H]; discriminate].
    + destruct (ascii_dec c d) as [-> |N].
      * rewrite IH. split; intros [r H]; exists r; [rewrite H; reflexivity|injection H; auto].
      * split; [discriminate|intros [r H]; injection H; congruence].
Qed.
Lemma contains_iff b a : contains b a = true <-> exists p r, b = (p ++ a ++ r)%string.
Proof.
  induction b as [|c b IH]; cbn [contains]; rewrite orb_true_iff, prefix_iff.
  - split.
    + intros [[r H]|H]; [exists EmptyString, r; exact H|discriminate].
    + intros [p [r H]]. left. destruct p; [exists r; exact H|discriminate].
  - rewrite IH. split.
    + intros [[r H]|[p [r H]]]; [exists EmptyString, r; exact H|exists (String c p), r; rewrite H; reflexivity].
    + intros [p [r H]]. destruct p as [|d p]; [left; exists r; exact H|right; exists p, r; injection H; auto].
Qed.
(** characters of a string *)
Fixpoint chars (s : string) : list ascii := match s with EmptyString => [] | String c r => c :: chars r end.
Lemma existsb_str_iff f s : existsb_str f s = true <-> exists c, In c (chars s) /\ f c = true.
Proof.
  induction s as [|c s IH]; cbn; [split; [discriminate|intros [? [[] _]]]|]. rewrite orb_true_iff, IH. split.
  - intros [H|[d [H1 H2]]]; [exists c|exists d]; auto.
  - intros [d [[-> |H1] H2]]; [left; exact H2|right; exists d; auto].
Qed.
Definition upper_letter (c : ascii) : Prop := (65 <= nat_of_ascii c <= 90).
Definition lower_letter (c : ascii) : Prop := (97 <= nat_of_ascii c <= 122).
(** all lower case: no upper case letter, and some lower case one *)
Definition all_lower (s : string) : Prop := (exists c, In c (chars s) /\ lower_letter c) /\ ~ exists c, In c (chars s) /\ upper_letter c.
Lemma islower_iff s : islower s = true <-> all_lower s.
Proof.
  unfold islower, all_lower. rewrite andb_true_iff, negb_true_iff, <- not_true_iff_false, !existsb_str_iff. unfold is_lower, is_upper, upper_letter, lower_letter.
  split; intros [[c [H1 H2]] H3].
  - rewrite andb_true_iff, !Nat.leb_le in H2. split; [exists c; auto|]. intros [d [K1 K2]]. apply H3. exists d. rewrite andb_true_iff, !Nat.leb_le. auto.
  - split; [exists c; rewrite andb_true_iff, !Nat.leb_le; auto|]. intros [d [K1 K2]]. apply H3. exists d. rewrite andb_true_iff, !Nat.leb_le in K2. auto.
Qed.
(** the search string occurs in the name, ignoring case *)
Definition occurs_nocase (s x : string) : Prop := exists p r, lower x = (p ++ lower s ++ r)%string.
Lemma find_spec dir s x : In x (find dir s) <-> In x dir /\ occurs_nocase s x /\ ~ all_lower x.
Proof.
  unfold find. rewrite filter_In, andb_true_iff, contains_iff, negb_true_iff, <- not_true_iff_false, islower_iff. unfold occurs_nocase. tauto.
Qed.
(** order and multiplicity are those of dir() *)
Lemma find_order dir s : exists keep : string -> bool, find dir s = filter keep dir.
Proof. eexists. reflexivity. Qed.
Lemma find_nodup dir s : NoDup dir -> NoDup (find dir s).
Proof. apply NoDup_filter. Qed.
Lemma find_nocase dir s s' : lower s = lower s' -> find dir s = find dir s'.
Proof. intros H. unfold find. rewrite H. reflexivity. Qed.
Lemma lower_app a b : lower (a ++ b) = (lower a ++ lower b)%string.
Proof. induction a as [|c a IH]; [reflexivity|]. cbn. rewrite IH. reflexivity. Qed.
Lemma append_assoc (a b c : string) : ((a ++ b) ++ c = a ++ b ++ c)%string.
Proof. induction a as [|x a IH]; [reflexivity|]. cbn. rewrite IH. reflexivity. Qed.
(** a longer search string finds no more *)
Lemma find_narrow dir p s r x : In x (find dir (p ++ s ++ r)) -> In x (find dir s).
Proof.
  rewrite !find_spec. intros [H1 [[a [b H2]] H3]]. split; [exact H1|]. split; [|exact H3]. exists (a ++ lower p)%string, (lower r ++ b)%string.
  rewrite H2, !lower_app, !append_assoc. reflexivity.
Qed.
(** the public constructors, and nothing else, can be found *)
Definition constructors : list string := firstn 19 predefined_dir.
Lemma find_all : find predefined_dir "" = constructors.
Proof. reflexivity. Qed.
Lemma find_sound s x : In x (find predefined_dir s) -> In x constructors.
Proof. intros H. rewrite <- find_all. apply (find_narrow predefined_dir "" "" s x). exact H. Qed.
Lemma find_itself x : In x constructors -> In x (find predefined_dir x).
Proof.
  intros H. rewrite <- find_all in H. apply find_spec in H. apply find_spec. destruct H as [H1 [_ H3]]. split; [exact H1|]. split; [|exact H3].
  exists EmptyString, EmptyString. cbn. induction (lower x) as [|c s IH]; [reflexivity|cbn; f_equal; exact IH].
Qed.

(** ** primitive *)
Definition prim1 {T} (a : pyarg T) : pyout T := match a with AQty q => OVal (q_val q) | AOther x => OObj x end.
Lemma primitive_spec (T : Type) (args : list (pyarg T)) : List.length (primitive_args args) = List.length args /\
  forall i, nth_error (primitive_args args) i = option_map prim1 (nth_error args i).
Proof.
  assert (E : primitive_args args = map prim1 args).
  { unfold primitive_args. assert (G : forall acc, fold_left (fun acc item => match item with AQty q => acc ++ [OVal (q_val q)] | AOther x => acc ++ [OObj x] end) args acc = acc ++ map prim1 args).
    { induction args as [|a l IH]; intros acc; [symmetry; apply app_nil_r|]. cbn. destruct a; rewrite IH, <- app_assoc; reflexivity. }
    apply G. }
  rewrite E. split; [apply map_length|]. intros i. apply nth_error_map.
Qed.

(** ** exception messages *)
(** split at spaces *)
Fixpoint split_sp (s : string) : list string :=
  match s with
  | EmptyString => [EmptyString]
  | String c r => if Ascii.eqb c " " then EmptyString :: split_sp r
      else match split_sp r with [] => [String c EmptyString] | h :: t => String c h :: t end
  end.
Definition no_space (s : string) : Prop := ~ In " "%char (chars s).
Lemma split_nonnil s : split_sp s <> [].
Proof. destruct s; cbn; [discriminate|]. destruct (Ascii.eqb _ _); [discriminate|]. destruct (split_sp s); discriminate. Qed.
Lemma split_word w s : no_space w -> split_sp (w ++ " " ++ s) = w :: split_sp s.
Proof.
  induction w as [|c w IH]; intros H; [reflexivity|]. cbn in H |- *. destruct (Ascii.eqb_spec c " ") as [-> |N]; [exfalso; apply H; left; reflexivity|].
  cbn in IH. rewrite IH; [reflexivity|]. intros K. apply H. right. exact K.
Qed.
Lemma split_last w : no_space w -> split_sp w = [w].
Proof.
  induction w as [|c w IH]; intros H; [reflexivity|]. cbn in H |- *. destruct (Ascii.eqb_spec c " ") as [-> |N]; [exfalso; apply H; left; reflexivity|].
  rewrite IH; [reflexivity|]. intros K. apply H. right. exact K.
Qed.
(** every argument can be read back from the message, in order *)
Lemma message_keeps args : args <> [] -> Forall no_space args -> split_sp (error_message args) = args.
Proof.
  unfold error_message. induction args as [|a l IH]; intros N H; [contradiction|]. inversion_clear H as [|? ? Ha Hl]. destruct l as [|b l].
  - cbn. apply split_last. exact Ha.
  - change (join " " (a :: b :: l)) with (a ++ " " ++ join " " (b :: l))%string. rewrite split_word by exact Ha. f_equal. apply IH; [discriminate|exact Hl].
Qed.
Lemma message_eqs : error_message [] = EmptyString /\ (forall a, error_message [a] = a) /\
  forall a b l, error_message (a :: b :: l) = (a ++ " " ++ error_message (b :: l))%string.
Proof. repeat split. Qed.
Lemma repr_spec cls args : exists m, error_repr cls args = (cls ++ " : " ++ m)%string /\ m = error_message args.
Proof. eexists. split; reflexivity. Qed.

(** ** Body *)
Definition has_dim (d : dim) (n : pynum) : Prop := exists q, n = NQty q /\ q_dim q = d.
Lemma dim_eqb_iff a b : dim_eqb a b = true <-> a = b.
Proof. destruct a, b; split; (reflexivity || discriminate). Qed.
Lemma qinput_ok d n : (exists q, qinput d n = Ok q) <-> has_dim d n.
Proof.
  unfold qinput, has_dim. destruct n as [x|q]; [split; [intros [q H]; discriminate|intros [q [H _]]; discriminate]|].
  destruct (dim_eqb (q_dim q) d) eqn:E.
  - apply dim_eqb_iff in E. split; [intros _; exists q; auto|intros _; exists q; reflexivity].
  - split; [intros [q' H]; discriminate|]. intros [q' [H1 H2]]. injection H1 as <-. apply dim_eqb_iff in H2. congruence.
Qed.
Lemma qinput_val d n q : qinput d n = Ok q -> n = NQty q.
Proof. unfold qinput. destruct n as [x|p]; [discriminate|]. destruct (dim_eqb _ _); [|discriminate]. intros H. injection H as <-. reflexivity. Qed.
Lemma body_ok_iff m q R k : (exists b, post_init m q R k = Ok b) <-> has_dim DMass m /\ has_dim DCharge q /\ has_dim DLength R.
Proof.
  rewrite <- !qinput_ok. unfold post_init. destruct (qinput DMass m) as [m'|]; cbn [bindR]; [|split; [intros [b H]; discriminate|intros [[x H] _]; discriminate]].
  destruct (qinput DCharge q) as [q'|]; cbn [bindR]; [|split; [intros [b H]; discriminate|intros [_ [[x H] _]]; discriminate]].
  destruct (qinput DLength R) as [R'|]; cbn [bindR]; [|split; [intros [b H]; discriminate|intros [_ [_ [x H]]]; discriminate]].
  split; [intros _; repeat split; eexists; reflexivity|]. intros _. destruct k as [|d|]; try (eexists; reflexivity). destruct (df_v d) as [[a b] c], (df_sys d); eexists; reflexivity.
Qed.
Lemma body_state m q R k b : post_init m q R k = Ok b ->
  m = NQty (b_mass b) /\ q = NQty (b_q b) /\ R = NQty (b_R b) /\
  match k with
  | Diff d => let '(va, vb, vc) := df_v d in b_pos b = Some [c1 (df_q d); c2 (df_q d); c3 (df_q d)] /\ b_vel b = Some [va; vb; vc]
  | _ => b_pos b = None /\ b_vel b = None
  end.
Proof.
  unfold post_init. destruct (qinput DMass m) as [m'|] eqn:E1; cbn [bindR]; [|discriminate]. destruct (qinput DCharge q) as [q'|] eqn:E2; cbn [bindR]; [|discriminate].
  destruct (qinput DLength R) as [R'|] eqn:E3; cbn [bindR]; [|discriminate]. apply qinput_val in E1, E2, E3.
  destruct k as [|d|]; [intros H; injection H as <-; auto| |intros H; injection H as <-; auto].
  destruct (df_v d) as [[va vb] vc]. destruct (df_sys d); intros H; injection H as <-; auto.
Qed.

(** ** tensor_lambdify *)
Section Lam.
Variable name : nat -> string.
Definition by_name (x y : nat) : Prop := String.leb (name x) (name y) = true.
Lemma insert_perm x l : Permutation (x :: l) (insert_sym name x l).
Proof. induction l as [|y l IH]; cbn; [reflexivity|]. destruct (String.leb _ _); [reflexivity|]. rewrite perm_swap. constructor. exact IH. Qed.
Lemma sort_perm l : Permutation l (sort_syms name l).
Proof. induction l as [|x l IH]; cbn; [constructor|]. etransitivity; [|apply insert_perm]. constructor. exact IH. Qed.
Lemma ascii_cmp_lt a b : (a ?= b)%char = Lt <-> (N_of_ascii a < N_of_ascii b)%N.
Proof. unfold Ascii.compare. apply N.compare_lt_iff. Qed.
Lemma ascii_cmp_eq a b : (a ?= b)%char = Eq <-> a = b.
Proof.
  unfold Ascii.compare. rewrite N.compare_eq_iff. split; [|intros ->; reflexivity]. intros H. rewrite <- (ascii_N_embedding a), <- (ascii_N_embedding b), H. reflexivity.
Qed.
Lemma str_leb_trans a b c : String.leb a b = true -> String.leb b c = true -> String.leb a c = true.
Proof.
  unfold String.leb. revert b c. induction a as [|x a IH]; intros [|y b] [|z c]; cbn; try (reflexivity || discriminate).
  destruct (x ?= y)%char eqn:E1; try discriminate; destruct (y ?= z)%char eqn:E2; try discriminate; intros H1 H2.
  - apply ascii_cmp_eq in E1, E2. subst. assert (E : (z ?= z)%char = Eq) by (apply ascii_cmp_eq; reflexivity). rewrite E. apply (IH b c); assumption.
  - apply ascii_cmp_eq in E1. subst. rewrite E2. reflexivity.
  - apply ascii_cmp_eq in E2. subst. rewrite E1. reflexivity.
  - apply ascii_cmp_lt in E1, E2. assert (E : (x ?= z)%char = Lt) by (apply ascii_cmp_lt; eapply N.lt_trans; eassumption). rewrite E. reflexivity.
Qed.
Lemma insert_sorted x l : StronglySorted by_name l -> StronglySorted by_name (insert_sym name x l).
Proof.
  induction 1 as [|y l Hs IH Hy]; cbn; [repeat constructor|]. destruct (String.leb (name x) (name y)) eqn:E.
  - constructor; [constructor; assumption|]. constructor; [exact E|]. eapply Forall_impl; [|exact Hy]. intros z Hz. unfold by_name in *. eapply str_leb_trans; eassumption.
  - constructor; [exact IH|]. assert (P := insert_perm x l). eapply Permutation_Forall; [exact P|]. constructor; [|exact Hy].
    unfold by_name. destruct (String.leb_total (name y) (name x)); [assumption|congruence].
Qed.
Lemma sort_sorted l : StronglySorted by_name (sort_syms name l).
Proof. induction l; cbn; [constructor|]. apply insert_sorted. exact IHl. Qed.
Lemma mem_iff x l : mem x l = true <-> In x l.
Proof. unfold mem. rewrite existsb_exists. split; [intros [y [H1 H2]]; apply Nat.eqb_eq in H2; subst; exact H1|intros H; exists x; split; [exact H|apply Nat.eqb_refl]]. Qed.
(** the default argument list *)
Lemma lambdify_args syms free : NoDup free -> exists vars,
  arg_list name [] [] free syms = syms ++ vars /\ NoDup vars /\ StronglySorted by_name vars /\
  (forall x, In x vars <-> In x free /\ ~ In x syms) /\ (forall x, In x free -> In x (syms ++ vars)) /\ (NoDup syms -> NoDup (syms ++ vars)).
Proof.
  intros Hf. exists (sort_syms name (filter (fun v => negb (mem v syms)) free)). split; [reflexivity|].
  assert (P := sort_perm (filter (fun v => negb (mem v syms)) free)). set (vars := sort_syms _ _) in *.
  assert (I : forall x, In x vars <-> In x free /\ ~ In x syms).
  { intros x. split; intros H.
    - apply (Permutation_in x (Permutation_sym P)) in H. apply filter_In in H. rewrite negb_true_iff, <- not_true_iff_false, mem_iff in H. exact H.
    - apply (Permutation_in x P). apply filter_In. rewrite negb_true_iff, <- not_true_iff_false, mem_iff. exact H. }
  assert (N : NoDup vars) by (eapply Permutation_NoDup; [exact P|apply NoDup_filter; exact Hf]).
  split; [exact N|]. split; [apply sort_sorted|]. split; [exact I|]. split.
  - intros x Hx. apply in_or_app. destruct (in_dec Nat.eq_dec x syms); [left; assumption|right; apply I; auto].
  - intros Hs. assert (D : forall x, In x syms -> ~ In x vars) by (intros x Hx K; apply I in K; tauto). clearbody vars. clear - Hs N D. induction syms as [|s l IH]; [exact N|]. inversion_clear Hs as [|? ? A B]. cbn. constructor.
    + rewrite in_app_iff. intros [K|K]; [contradiction|]. apply (D s); [left; reflexivity|exact K].
    + apply IH; [exact B|]. intros x Hx. apply D. right. exact Hx.
Qed.
(** with distinct names the result does not depend on the iteration order of the set of free symbols *)
Lemma sorted_unique l l' : (forall x y, In x l -> In y l -> name x = name y -> x = y) -> StronglySorted by_name l -> StronglySorted by_name l' -> Permutation l l' -> l = l'.
Proof.
  intros Hi Hs. revert l'. induction Hs as [|x l Hs IH Hx]; intros l' Hs' P; [apply Permutation_nil in P; subst; reflexivity|].
  destruct l' as [|y l']; [apply Permutation_sym, Permutation_nil in P; discriminate|]. inversion_clear Hs' as [|? ? Hs2 Hy].
  assert (E : x = y).
  { destruct (Nat.eq_dec x y) as [|Nxy]; [assumption|]. assert (I1 : In y l) by (assert (K : In y (x :: l)) by (apply (Permutation_in y (Permutation_sym P)); left; reflexivity); destruct K; [congruence|assumption]).
    assert (I2 : In x l') by (assert (K : In x (y :: l')) by (apply (Permutation_in x P); left; reflexivity); destruct K; [congruence|assumption]).
    rewrite Forall_forall in Hx, Hy. apply Hi; [left; reflexivity|right; exact I1|]. apply String.leb_antisym; [apply Hx; exact I1|apply Hy; exact I2]. }
  subst y. f_equal. apply IH; [intros; apply Hi; (right; assumption) || assumption|exact Hs2|]. apply Permutation_cons_inv in P. exact P.
Qed.
Lemma lambdify_deterministic syms free free' : (forall x y, In x free -> In y free -> name x = name y -> x = y) -> Permutation free free' ->
  arg_list name [] [] free syms = arg_list name [] [] free' syms.
Proof.
  intros Hi P. cbn [arg_list variables_of]. f_equal. apply sorted_unique; try apply sort_sorted.
  - intros x y Hx Hy. apply (Permutation_in _ (Permutation_sym (sort_perm _))) in Hx, Hy. apply filter_In in Hx, Hy. apply Hi; tauto.
  - rewrite <- !sort_perm. clear Hi. induction P; cbn; repeat (match goal with |- context [if ?b then _ else _] => destruct b end); try constructor; try assumption; try reflexivity. etransitivity; eassumption.
Qed.
Lemma lambdify_explicit a args variables free syms : arg_list name (a :: args) variables free syms = a :: args.
Proof. reflexivity. Qed.
Lemma lambdify_variables v vs free syms : arg_list name [] (v :: vs) free syms = syms ++ v :: vs.
Proof. reflexivity. Qed.
End Lam.
Lemma eval_agree e p q : (forall i, In i (free_syms e) -> p i = q i) -> eval e p = eval e q.
Proof.
  induction e; cbn [eval free_syms]; intros H; try reflexivity; try (apply H; left; reflexivity);
   try (rewrite IHe1, IHe2 by (intros; apply H; apply in_or_app; auto); reflexivity); rewrite IHe by exact H; reflexivity.
Qed.
Lemma bind_map args (p : nat -> R) i : In i args -> bind_args args (map p args) i = Some (p i).
Proof. induction args as [|x l IH]; cbn; [intros []|]. intros H. destruct (Nat.eqb_spec i x) as [-> |N]; [reflexivity|]. apply IH. destruct H; [congruence|assumption]. Qed.
(** calling the function with values in the returned order evaluates the entry at those values *)
Lemma lambdified_correct args e p : incl (free_syms e) args -> lambdified args e (map p args) = Ok (eval e p).
Proof.
  intros H. unfold lambdified. rewrite map_length, Nat.eqb_refl.
  assert (F : forallb (fun i => match bind_args args (map p args) i with Some _ => true | None => false end) (free_syms e) = true).
  { apply forallb_forall. intros i Hi. rewrite bind_map by (apply H; exact Hi). reflexivity. }
  rewrite F. f_equal. apply eval_agree. intros i Hi. rewrite bind_map by (apply H; exact Hi). reflexivity.
Qed.
Lemma lambdify_default name syms free e p : NoDup free -> incl (free_syms e) free ->
  lambdified (arg_list name [] [] free syms) e (map p (arg_list name [] [] free syms)) = Ok (eval e p).
Proof.
  intros Hf He. apply lambdified_correct. destruct (lambdify_args name syms free Hf) as [vars [E [_ [_ [_ [I _]]]]]]. rewrite E. intros x Hx. apply I, He, Hx.
Qed.
