(** The flattened loops visit every index tuple. *)
From Coq Require Import String Ascii List Arith Lia Bool.
From Verif Require Import Base SymAlg SymModel.
Import ListNotations.
Open Scope nat_scope.

Lemma idx_eqb_spec a b : idx_eqb a b = true <-> a = b.
Proof.
  revert b. induction a as [|x a IH]; intros [|y b]; cbn [idx_eqb]; split; intros H; try discriminate; try reflexivity.
  - apply andb_true_iff in H. destruct H as [H1 H2]. apply Nat.eqb_eq in H1. apply IH in H2. congruence.
  - injection H as -> ->. rewrite Nat.eqb_refl. apply IH. reflexivity.
Qed.
Lemma idx_eqb_refl a : idx_eqb a a = true. Proof. apply idx_eqb_spec. reflexivity. Qed.

Section L.
Context {A : dops}.
Definition writes (a : arr A) (ws : list (list nat * A)) : arr A := fold_left (fun a p => aset a (fst p) (snd p)) ws a.
Lemma writes_spec F ws : forall a : arr A, (forall p, In p ws -> snd p = F (fst p)) ->
  forall idx, (In idx (map fst ws) -> writes a ws idx = F idx) /\ (~ In idx (map fst ws) -> writes a ws idx = a idx).
Proof.
  induction ws as [|w ws IH]; intros a H idx; cbn [writes map In]; [split; [tauto|reflexivity]|].
  change (writes a (w :: ws)) with (writes (aset a (fst w) (snd w)) ws).
  destruct (IH (aset a (fst w) (snd w)) (fun p Hp => H p (or_intror Hp)) idx) as [I1 I2].
  destruct (in_dec (list_eq_dec Nat.eq_dec) idx (map fst ws)) as [J|J].
  - split; [intros _; apply I1; exact J|]. tauto.
  - rewrite I2 by exact J. unfold aset. destruct (idx_eqb (fst w) idx) eqn:E.
    + apply idx_eqb_spec in E. split; [intros _; subst idx; apply H; left; reflexivity|]. intros N. exfalso. apply N. left. exact E.
    + split; [|reflexivity]. intros [K|K]; [|contradiction]. subst idx. rewrite idx_eqb_refl in E. discriminate.
Qed.
Lemma writes_other ws : forall (a : arr A) idx, ~ In idx (map fst ws) -> writes a ws idx = a idx.
Proof.
  induction ws as [|w ws IH]; intros a idx H; [reflexivity|]. change (writes a (w :: ws)) with (writes (aset a (fst w) (snd w)) ws).
  cbn [map In] in H. rewrite IH by tauto. unfold aset. destruct (idx_eqb (fst w) idx) eqn:E; [|reflexivity]. apply idx_eqb_spec in E. tauto.
Qed.
Lemma loop_other (ws : nat -> list (list nat * A)) l : forall (a : arr A) idx,
  (forall t, In t l -> ~ In idx (map fst (ws t))) -> fold_left (fun a t => writes a (ws t)) l a idx = a idx.
Proof.
  induction l as [|t l IH]; intros a idx H; [reflexivity|]. cbn [fold_left]. rewrite IH by (intros u Hu; apply H; right; exact Hu).
  apply writes_other. apply H. left. reflexivity.
Qed.
Lemma loop_writes (ws : nat -> list (list nat * A)) F l : forall a : arr A, (forall t p, In t l -> In p (ws t) -> snd p = F (fst p)) ->
  forall idx, (exists t, In t l /\ In idx (map fst (ws t))) -> fold_left (fun a t => writes a (ws t)) l a idx = F idx.
Proof.
  induction l as [|t l IH]; intros a H idx [t0 [Ht Hi]]; [destruct Ht|]. cbn [fold_left].
  destruct (in_dec (list_eq_dec Nat.eq_dec) idx (flat_map (fun t => map fst (ws t)) l)) as [J|J].
  - apply IH; [intros u p Hu Hp; apply (H u); [right|]; assumption|]. apply in_flat_map in J. exact J.
  - assert (E : t0 = t). { destruct Ht as [E|E]; [congruence|]. exfalso. apply J. apply in_flat_map. eauto. }
    subst t0. rewrite loop_other.
    + apply (writes_spec F); [intros p Hp; apply (H t); [left; reflexivity|exact Hp]|exact Hi].
    + intros u Hu N. apply J. apply in_flat_map. eauto.
Qed.
End L.

(** ** digits of the flat counter *)
Lemma digit0 n q k : k < n -> (q * n + k) mod n = k.
Proof. intros H. rewrite Nat.add_comm, Nat.mod_add by lia. apply Nat.mod_small. exact H. Qed.
Lemma div_digit n q k : k < n -> (q * n + k) / n = q.
Proof. intros H. rewrite Nat.add_comm, Nat.div_add by lia. rewrite Nat.div_small by exact H. reflexivity. Qed.
Lemma step_lt q m n k : q < m -> k < n -> q * n + k < m * n.
Proof. intros H1 H2. assert (S q * n <= m * n) by (apply Nat.mul_le_mono_r; lia). lia. Qed.
Lemma digits3 n i j k : i < n -> j < n -> k < n -> let t := (i * n + j) * n + k in
  t < n ^ 3 /\ t mod n = k /\ (t / n) mod n = j /\ (t / n ^ 2) mod n = i.
Proof.
  intros Hi Hj Hk t. unfold t. split; [|split; [|split]].
  - replace (n ^ 3) with (n * n * n) by (simpl; ring). apply step_lt; [apply step_lt|]; assumption.
  - apply digit0. exact Hk.
  - rewrite div_digit by exact Hk. apply digit0. exact Hj.
  - replace (n ^ 2) with (n * n) by (simpl; ring). rewrite <- Nat.div_div by lia. rewrite !div_digit by assumption. apply Nat.mod_small. exact Hi.
Qed.
Lemma digits4 n i j k l : i < n -> j < n -> k < n -> l < n -> let t := ((i * n + j) * n + k) * n + l in
  t < n ^ 4 /\ t mod n = l /\ (t / n) mod n = k /\ (t / n ^ 2) mod n = j /\ (t / n ^ 3) mod n = i.
Proof.
  intros Hi Hj Hk Hl t. unfold t. split; [|split; [|split; [|split]]].
  - replace (n ^ 4) with (n * n * n * n) by (simpl; ring). apply step_lt; [apply step_lt; [apply step_lt|]|]; assumption.
  - apply digit0. exact Hl.
  - rewrite div_digit by exact Hl. apply digit0. exact Hk.
  - replace (n ^ 2) with (n * n) by (simpl; ring). rewrite <- Nat.div_div by lia. rewrite !div_digit by assumption. apply digit0. exact Hj.
  - replace (n ^ 3) with (n * n * n) by (simpl; ring). rewrite <- !Nat.div_div by nia. rewrite !div_digit by assumption. apply Nat.mod_small. exact Hi.
Qed.

Section M.
Context {A : dops}.
Local Open Scope K_scope.
(** value of the Christoffel array at every index: the entry computed for (i, max j k, min j k) *)
Lemma chr_loop_at n (g : arr A) gi i j k : (i < n)%nat -> (j < n)%nat -> (k < n)%nat ->
  chr_loop n g gi [i; j; k] = chr_entry n g gi i (Nat.max j k) (Nat.min j k).
Proof.
  intros Hi Hj Hk.
  set (F := fun idx => match idx with [i; j; k] => chr_entry n g gi i (Nat.max j k) (Nat.min j k) | _ => 0 end).
  set (ws := fun t => let k := (t mod n)%nat in let j := ((t / n) mod n)%nat in let i := ((t / n ^ 2) mod n)%nat in
      if Nat.leb k j then [([i; k; j], chr_entry n g gi i j k); ([i; j; k], chr_entry n g gi i j k)] else []).
  change (chr_entry n g gi i (Nat.max j k) (Nat.min j k)) with (F [i; j; k]).
  transitivity (fold_left (fun a t => writes a (ws t)) (seq 0 (n ^ 3)) azero [i; j; k]).
  - unfold chr_loop. assert (E : forall l a, fold_left (fun l t => let k := (t mod n)%nat in let j := ((t / n) mod n)%nat in let i := ((t / n ^ 2) mod n)%nat in
        if Nat.leb k j then let v := chr_entry n g gi i j k in aset (aset l [i; k; j] v) [i; j; k] v else l) l a
      = fold_left (fun a t => writes a (ws t)) l a).
    { induction l as [|t l IH]; intros a; [reflexivity|]. cbn [fold_left]. rewrite IH. f_equal. unfold ws. cbv zeta. destruct (Nat.leb _ _); reflexivity. }
    rewrite E. reflexivity.
  - apply loop_writes.
    + intros t p _. unfold ws. cbv zeta. destruct (Nat.leb_spec (t mod n) ((t / n) mod n)) as [H|H]; [|intros []].
      intros [<-|[<-|[]]]; cbn [fst snd F]; f_equal; lia.
    + destruct (Nat.le_ge_cases k j) as [H|H].
      * exists ((i * n + j) * n + k)%nat. destruct (digits3 n i j k Hi Hj Hk) as [T [E1 [E2 E3]]]. split; [apply in_seq; split; [apply Nat.le_0_l|exact T]|].
        unfold ws. cbv zeta. rewrite E1, E2, E3. destruct (Nat.leb_spec k j); [|lia]. right; left; reflexivity.
      * exists ((i * n + k) * n + j)%nat. destruct (digits3 n i k j Hi Hk Hj) as [T [E1 [E2 E3]]]. split; [apply in_seq; split; [apply Nat.le_0_l|exact T]|].
        unfold ws. cbv zeta. rewrite E1, E2, E3. destruct (Nat.leb_spec j k); [|lia]. left; reflexivity.
Qed.
Lemma riem_loop_at n (G : arr A) t s r v : (t < n)%nat -> (s < n)%nat -> (r < n)%nat -> (v < n)%nat ->
  riem_loop n G [t; s; r; v] = ksimp (riem_entry n G t s r v).
Proof.
  intros Ht Hs Hr Hv.
  set (F := fun idx => match idx with [t; s; r; v] => ksimp (riem_entry n G t s r v) | _ => 0 end).
  change (ksimp (riem_entry n G t s r v)) with (F [t; s; r; v]).
  apply (loop_writes (fun i => [([((i / n ^ 3) mod n); ((i / n ^ 2) mod n); ((i / n) mod n); (i mod n)]%nat,
     ksimp (riem_entry n G ((i / n ^ 3) mod n) ((i / n ^ 2) mod n) ((i / n) mod n) (i mod n)))])).
  - intros u p _ [<-|[]]. reflexivity.
  - exists (((t * n + s) * n + r) * n + v)%nat. destruct (digits4 n t s r v Ht Hs Hr Hv) as [T [E1 [E2 [E3 E4]]]].
    split; [apply in_seq; split; [apply Nat.le_0_l|exact T]|]. cbn [map fst]. rewrite E1, E2, E3, E4. left. reflexivity.
Qed.
Lemma weyl_loop_at n (Rm Rc g : arr A) R i k l m : (i < n)%nat -> (k < n)%nat -> (l < n)%nat -> (m < n)%nat ->
  weyl_loop n Rm Rc g R [i; k; l; m] = weyl_entry n Rm Rc g R i k l m.
Proof.
  intros Hi Hk Hl Hm.
  set (F := fun idx => match idx with [i; k; l; m] => weyl_entry n Rm Rc g R i k l m | _ => 0 end).
  change (weyl_entry n Rm Rc g R i k l m) with (F [i; k; l; m]).
  apply (loop_writes (fun t => [([(t mod n); ((t / n) mod n); ((t / n ^ 2) mod n); ((t / n ^ 3) mod n)]%nat,
     weyl_entry n Rm Rc g R (t mod n) ((t / n) mod n) ((t / n ^ 2) mod n) ((t / n ^ 3) mod n))])).
  - intros u p _ [<-|[]]. reflexivity.
  - exists (((m * n + l) * n + k) * n + i)%nat. destruct (digits4 n m l k i Hm Hl Hk Hi) as [T [E1 [E2 [E3 E4]]]].
    split; [apply in_seq; split; [apply Nat.le_0_l|exact T]|]. cbn [map fst]. rewrite E1, E2, E3, E4. left. reflexivity.
Qed.
End M.
