(** C67: the flattened loops decode their counter with binary64 true division.
    christoffel.py:64-69, riemann.py:80-86, weyl.py:76-81. *)
From Coq Require Import Reals ZArith List Arith Lia Lra.
From Flocq Require Import Core.
From Verif Require Import Base SymAlg SymModel SymLoops SymTensorModel SymTensorProofs.
Import ListNotations.
Open Scope R_scope.

(** int(t / d) for Python ints: [/] rounds the exact quotient to the nearest binary64 number (ties to even), int truncates *)
Definition fexp64 : Z -> Z := FLT_exp (-1074) 53.
Definition r64 (x : R) : R := round radix2 fexp64 ZnearestE x.
Definition fdiv (t d : nat) : nat := Z.to_nat (Ztrunc (r64 (INR t / INR d))).

Lemma int_format (k : Z) : (Z.abs k <= 2 ^ 53)%Z -> generic_format radix2 fexp64 (IZR k).
Proof.
  intros H. destruct (Z.eq_dec (Z.abs k) (2 ^ 53)) as [E|E].
  - assert (G : generic_format radix2 fexp64 (bpow radix2 53)) by (apply generic_format_bpow; unfold fexp64, FLT_exp; lia).
    change (bpow radix2 53) with (IZR (2 ^ 53)) in G. destruct (Z.abs_spec k) as [[_ K]|[_ K]]; rewrite K in E.
    + rewrite E. exact G.
    + replace k with (- (2 ^ 53))%Z by lia. rewrite opp_IZR. apply generic_format_opp. exact G.
  - apply generic_format_FLT. exists (Float radix2 k 0); [|cbn; lia|cbn; lia]. unfold F2R. cbn [Fnum Fexp]. rewrite Rmult_1_r. reflexivity.
Qed.

Lemma fdiv_bounds (t d : Z) : (0 <= t < 2 ^ 53)%Z -> (0 < d <= 2 ^ 53)%Z ->
  IZR (t / d) <= r64 (IZR t / IZR d) < IZR (t / d + 1).
Proof.
  intros Ht Hd. set (q := (t / d)%Z). assert (Hq0 : (0 <= q)%Z) by (apply Z.div_pos; lia).
  assert (Hqt : (q * d <= t)%Z) by (rewrite Z.mul_comm; apply Z.mul_div_le; lia).
  assert (Hqt' : (t < (q + 1) * d)%Z) by (unfold q; assert (H := Z.mul_succ_div_gt t d ltac:(lia)); lia).
  assert (Hq : (q < 2 ^ 53)%Z) by nia.
  assert (Dp : 0 < IZR d) by (apply IZR_lt; lia).
  assert (Vfe : Valid_exp fexp64) by (apply FLT_exp_valid; unfold Prec_gt_0; lia).
  assert (X1 : IZR q <= IZR t / IZR d).
  { apply Rmult_le_reg_r with (IZR d); [exact Dp|]. replace (IZR t / IZR d * IZR d) with (IZR t) by (field; lra). rewrite <- mult_IZR. apply IZR_le. lia. }
  assert (X2 : IZR t / IZR d <= IZR (q + 1) - / IZR d).
  { apply Rmult_le_reg_r with (IZR d); [exact Dp|]. replace (IZR t / IZR d * IZR d) with (IZR t) by (field; lra).
    replace ((IZR (q + 1) - / IZR d) * IZR d) with (IZR (q + 1) * IZR d - 1) by (field; lra). rewrite <- mult_IZR, <- (minus_IZR _ 1). apply IZR_le. lia. }
  assert (F1 : generic_format radix2 fexp64 (IZR q)) by (apply int_format; lia).
  assert (F2 : generic_format radix2 fexp64 (IZR (q + 1))) by (apply int_format; lia).
  split.
  - rewrite <- (round_generic radix2 fexp64 ZnearestE (IZR q) F1). apply round_le; [exact Vfe|apply valid_rnd_N|exact X1].
  - set (u := pred radix2 fexp64 (IZR (q + 1))).
    assert (Q1 : 0 < IZR (q + 1)) by (apply IZR_lt; lia).
    assert (Fu : generic_format radix2 fexp64 u) by (apply generic_format_pred; assumption).
    assert (Lu : u < IZR (q + 1)) by (apply pred_lt_id; lra).
    assert (Su : succ radix2 fexp64 u = IZR (q + 1)) by (apply succ_pred; assumption).
    apply Rle_lt_trans with u; [|exact Lu].
    apply round_N_le_midp; [exact Vfe|exact Fu|]. rewrite Su.
    apply Rle_lt_trans with (1 := X2).
    (* half the gap below q + 1 is smaller than 1/d *)
    assert (U : IZR (q + 1) - u = ulp radix2 fexp64 u) by (rewrite <- Su; unfold u; rewrite succ_eq_pos; [ring|]; apply pred_ge_0; assumption).
    assert (G : ulp radix2 fexp64 u < 2 * / IZR d); [|lra].
    assert (U0 : 0 <= u) by (apply pred_ge_0; assumption).
    destruct (Z.eq_dec q 0) as [Eq|Nq].
    { (* the gap below 1 is 2^-53 *)
      assert (u = 1 - bpow radix2 (-53)) as Hu.
      { unfold u. rewrite Eq. change (IZR (0 + 1)) with (bpow radix2 0). rewrite pred_bpow. reflexivity. }
      rewrite <- U, Hu, Eq. change (IZR (0 + 1)) with 1. apply Rle_lt_trans with (/ IZR (2 ^ 53)).
      - change (bpow radix2 (-53)) with (/ IZR (2 ^ 53)). lra.
      - apply Rle_lt_trans with (/ IZR d); [apply Rinv_le; [lra|apply IZR_le; lia]|]. assert (0 < / IZR d) by (apply Rinv_0_lt_compat; lra). lra. }
    assert (QP : IZR q <= u) by (apply pred_ge_gt; [exact Vfe|exact F1|exact F2|apply IZR_lt; lia]).
    assert (Q2 : 0 < IZR q) by (apply IZR_lt; lia).
    rewrite ulp_neq_0 by lra. unfold cexp.
    set (m := mag radix2 u). destruct m as [e He] eqn:Em. assert (Hm := He ltac:(lra)). rewrite Rabs_pos_eq in Hm by lra. cbn [mag_val].
    (* 2^(e-1) <= u < q + 1, so 2^(e-1) <= q *)
    assert (E1 : (1 <= e)%Z).
    { destruct (Z.le_gt_cases 1 e) as [|L]; [assumption|exfalso]. assert (bpow radix2 e <= bpow radix2 0) by (apply bpow_le; lia).
      change (bpow radix2 0) with 1 in H. assert (1 <= IZR q) by (apply IZR_le; lia). lra. }
    assert (E2 : (2 ^ (e - 1) <= q)%Z).
    { apply Z.lt_succ_r. apply lt_IZR. unfold Z.succ. apply Rle_lt_trans with (2 := Lu). rewrite <- (IZR_Zpower radix2) in Hm by lia. apply Hm. }
    assert (E3 : (e <= 53)%Z).
    { destruct (Z.le_gt_cases e 53) as [|L]; [assumption|exfalso]. assert (2 ^ 53 <= 2 ^ (e - 1))%Z by (apply Z.pow_le_mono_r; lia). lia. }
    replace (fexp64 e) with (e - 53)%Z by (unfold fexp64, FLT_exp; lia).
    apply Rmult_lt_reg_r with (IZR d); [exact Dp|]. replace (2 * / IZR d * IZR d) with 2 by (field; lra).
    replace (e - 53)%Z with (- (53 - e))%Z by ring. rewrite bpow_opp. assert (B : bpow radix2 (53 - e) = IZR (2 ^ (53 - e))) by (rewrite <- (IZR_Zpower radix2) by lia; reflexivity).
    rewrite B. assert (Pp : (0 < 2 ^ (53 - e))%Z) by (apply Z.pow_pos_nonneg; lia). assert (0 < IZR (2 ^ (53 - e))) by (apply IZR_lt; lia).
    apply Rmult_lt_reg_l with (IZR (2 ^ (53 - e))); [assumption|]. rewrite <- Rmult_assoc, Rinv_r, Rmult_1_l by lra. rewrite <- mult_IZR.
    apply IZR_lt. assert (W : (2 ^ (53 - e) * 2 * 2 ^ (e - 1) = 2 ^ 53)%Z).
    { replace (2 ^ (53 - e) * 2)%Z with (2 ^ (53 - e + 1))%Z by (rewrite Z.pow_add_r by lia; reflexivity). rewrite <- Z.pow_add_r by lia. f_equal. lia. }
    nia.
Qed.

(** the decoded quotient is the exact one *)
Lemma fdiv_exact t d : (Z.of_nat t < 2 ^ 53)%Z -> (0 < Z.of_nat d <= 2 ^ 53)%Z -> fdiv t d = (t / d)%nat.
Proof.
  intros Ht Hd. assert (B := fdiv_bounds (Z.of_nat t) (Z.of_nat d) ltac:(lia) Hd). unfold fdiv. rewrite !INR_IZR_INZ.
  assert (Q0 : (0 <= Z.of_nat t / Z.of_nat d)%Z) by (apply Z.div_pos; lia). assert (0 <= IZR (Z.of_nat t / Z.of_nat d)) by (apply IZR_le; exact Q0).
  rewrite Ztrunc_floor by lra. rewrite (Zfloor_imp (Z.of_nat t / Z.of_nat d)) by exact B. rewrite <- Nat2Z.inj_div. apply Nat2Z.id.
Qed.
(** beyond 2^53 it is not *)
Lemma fdiv_sharp : Ztrunc (r64 (IZR (2 ^ 53 + 1) / IZR 1)) <> (2 ^ 53 + 1)%Z.
Proof.
  assert (Vfe : Valid_exp fexp64) by (apply FLT_exp_valid; unfold Prec_gt_0; lia).
  assert (F : generic_format radix2 fexp64 (bpow radix2 53)) by (apply generic_format_bpow; unfold fexp64, FLT_exp; lia).
  intros E. assert (H : r64 (IZR (2 ^ 53 + 1) / IZR 1) = IZR (2 ^ 53 + 1)).
  { (* every value in [2^53, 2^54] is even *)
    assert (G : generic_format radix2 fexp64 (r64 (IZR (2 ^ 53 + 1) / IZR 1))) by (apply generic_format_round; [exact Vfe|apply valid_rnd_N]).
    set (x := r64 _) in *. assert (L : bpow radix2 53 <= x) by (apply round_ge_generic; [exact Vfe|apply valid_rnd_N|exact F|]; unfold Rdiv; rewrite Rinv_1, Rmult_1_r; change (bpow radix2 53) with (IZR (2 ^ 53)); apply IZR_le; lia).
    unfold generic_format in G. rewrite <- E. rewrite G. unfold F2R. cbn [Fnum Fexp]. 
    assert (C : (0 <= cexp radix2 fexp64 x)%Z).
    { unfold cexp, fexp64, FLT_exp. destruct (mag radix2 x) as [e He]. cbn [mag_val]. assert (0 < bpow radix2 53) by apply bpow_gt_0. specialize (He ltac:(lra)). rewrite Rabs_pos_eq in He by lra.
      assert (53 < e)%Z; [|lia]. apply (lt_bpow radix2). lra. }
    rewrite <- (IZR_Zpower radix2) by exact C. rewrite <- mult_IZR. rewrite Ztrunc_IZR. reflexivity. }
  assert (G : generic_format radix2 fexp64 (IZR (2 ^ 53 + 1))) by (rewrite <- H; apply generic_format_round; [exact Vfe|apply valid_rnd_N]).
  assert (S : succ radix2 fexp64 (bpow radix2 53) = bpow radix2 53 + 2).
  { rewrite succ_eq_pos by (apply Rlt_le, bpow_gt_0). rewrite ulp_bpow. reflexivity. }
  assert (K := succ_le_lt radix2 fexp64 (bpow radix2 53) (IZR (2 ^ 53 + 1)) F G ltac:(change (bpow radix2 53) with (IZR (2 ^ 53)); apply IZR_lt; lia)).
  rewrite S in K. change (bpow radix2 53) with (IZR (2 ^ 53)) in K. rewrite <- (plus_IZR _ 2) in K. apply le_IZR in K. lia.
Qed.

(** the indices as the code computes them *)
Definition dec3 (n t : nat) : list nat := [fdiv t (n ^ 2) mod n; fdiv t n mod n; t mod n]%nat.
Definition dec4 (n t : nat) : list nat := [fdiv t (n ^ 3) mod n; fdiv t (n ^ 2) mod n; fdiv t n mod n; t mod n]%nat.
(** weyl.py:77-82 lists them in the opposite order *)
Definition decw (n t : nat) : list nat := [t mod n; fdiv t n mod n; fdiv t (n ^ 2) mod n; fdiv t (n ^ 3) mod n]%nat.

Section D.
Variable n : nat.
Hypothesis Hn : (0 < n)%nat.
Lemma fd1 t m : (Z.of_nat n ^ Z.of_nat m <= 2 ^ 53)%Z -> (t < n ^ m)%nat -> forall k, (k <= m)%nat -> fdiv t (n ^ k) = (t / n ^ k)%nat.
Proof.
  intros Hb Ht k Hk. assert (P : (0 < Z.of_nat n ^ Z.of_nat k)%Z) by (apply Z.pow_pos_nonneg; lia).
  assert (L : (Z.of_nat n ^ Z.of_nat k <= Z.of_nat n ^ Z.of_nat m)%Z) by (apply Z.pow_le_mono_r; lia).
  apply fdiv_exact; [|rewrite Nat2Z.inj_pow; lia]. apply Nat2Z.inj_lt in Ht. rewrite Nat2Z.inj_pow in Ht. lia.
Qed.
End D.
Lemma fdn n m t : (0 < n)%nat -> (0 < m)%nat -> (Z.of_nat n ^ Z.of_nat m <= 2 ^ 53)%Z -> (t < n ^ m)%nat -> fdiv t n = (t / n)%nat.
Proof. intros Hn Hm Hb Ht. assert (E := fd1 n Hn t m Hb Ht 1 ltac:(lia)). rewrite Nat.pow_1_r in E. exact E. Qed.
Lemma npos n m t : (t < n ^ m)%nat -> (0 < m)%nat -> (0 < n)%nat.
Proof. intros Ht Hm. destruct n; [|lia]. destruct m; [lia|]. rewrite Nat.pow_0_l in Ht by lia. lia. Qed.
Lemma dec3_exact n t : (Z.of_nat n ^ 3 <= 2 ^ 53)%Z -> (t < n ^ 3)%nat -> dec3 n t = [(t / n ^ 2) mod n; (t / n) mod n; t mod n]%nat.
Proof.
  intros Hb Ht. assert (Hn := npos n 3 t Ht ltac:(lia)). unfold dec3.
  rewrite (fd1 n Hn t 3 Hb Ht 2) by lia. rewrite (fdn n 3 t) by (assumption || lia). reflexivity.
Qed.
Lemma dec4_exact n t : (Z.of_nat n ^ 4 <= 2 ^ 53)%Z -> (t < n ^ 4)%nat -> dec4 n t = [(t / n ^ 3) mod n; (t / n ^ 2) mod n; (t / n) mod n; t mod n]%nat.
Proof.
  intros Hb Ht. assert (Hn := npos n 4 t Ht ltac:(lia)). unfold dec4.
  rewrite (fd1 n Hn t 4 Hb Ht 3), (fd1 n Hn t 4 Hb Ht 2) by lia. rewrite (fdn n 4 t) by (assumption || lia). reflexivity.
Qed.
Lemma decw_rev n t : decw n t = rev (dec4 n t).
Proof. reflexivity. Qed.
Lemma list_eq_nth {B} (l l' : list B) : List.length l = List.length l' -> (forall k, (k < List.length l)%nat -> nth_error l k = nth_error l' k) -> l = l'.
Proof.
  revert l'. induction l as [|x l IH]; intros [|y l'] HL H; try discriminate; [reflexivity|]. assert (H0 := H 0%nat ltac:(cbn; lia)). cbn in H0. injection H0 as ->.
  f_equal. apply IH; [cbn in HL; lia|]. intros k Hk. apply (H (S k)). cbn. lia.
Qed.
Lemma visits_gen n m (dec : nat -> list nat) : (forall t, (t < n ^ m)%nat -> Forall2 (fun i d => (i < d)%nat) (dec t) (repeat n m) /\ flat_pos (repeat n m) (dec t) = t) ->
  map dec (seq 0 (n ^ m)) = all_idx (repeat n m).
Proof.
  intros H. assert (P : forall m, fold_right Nat.mul 1%nat (repeat n m) = (n ^ m)%nat) by (induction m0 as [|m0 IH]; cbn; [reflexivity|rewrite IH; reflexivity]).
  apply list_eq_nth.
  - rewrite map_length, seq_length, all_idx_len, P. reflexivity.
  - intros k Hk. rewrite map_length, seq_length in Hk. destruct (H k Hk) as [H1 H2]. rewrite nth_error_map.
    assert (E : nth_error (seq 0 (n ^ m)) k = Some k). { rewrite (nth_error_nth' _ 0%nat) by (rewrite seq_length; exact Hk). rewrite seq_nth by exact Hk. reflexivity. }
    rewrite E. cbn [option_map]. rewrite <- H2 at 2. symmetry. apply all_idx_nth. exact H1.
Qed.
(** every index tuple is visited exactly once, in row-major order *)
Lemma visits3 n : (Z.of_nat n ^ 3 <= 2 ^ 53)%Z -> map (dec3 n) (seq 0 (n ^ 3)) = all_idx [n; n; n].
Proof.
  intros Hb. apply (visits_gen n 3). intros t Ht. rewrite dec3_exact by assumption. assert (Hn := npos n 3 t Ht ltac:(lia)).
  split; [repeat constructor; apply Nat.mod_upper_bound; lia|]. cbn [repeat flat_pos fold_right].
  assert (N2 : (n ^ 2 = n * n)%nat) by (cbn; lia). assert (N3 : (n ^ 3 = n * n * n)%nat) by (cbn; lia). rewrite N3 in Ht. rewrite N2. rewrite <- Nat.div_div by lia.
  assert (A1 := Nat.div_mod_eq t n). assert (A2 := Nat.div_mod_eq (t / n) n). assert (A3 := Nat.mod_small (t / n / n) n). rewrite A3; [nia|].
  apply Nat.div_lt_upper_bound; [lia|]. apply Nat.div_lt_upper_bound; lia.
Qed.
Lemma visits4 n : (Z.of_nat n ^ 4 <= 2 ^ 53)%Z -> map (dec4 n) (seq 0 (n ^ 4)) = all_idx [n; n; n; n].
Proof.
  intros Hb. apply (visits_gen n 4). intros t Ht. rewrite dec4_exact by assumption. assert (Hn := npos n 4 t Ht ltac:(lia)).
  split; [repeat constructor; apply Nat.mod_upper_bound; lia|]. cbn [repeat flat_pos fold_right].
  assert (N2 : (n ^ 2 = n * n)%nat) by (cbn; lia). assert (N3 : (n ^ 3 = n * n * n)%nat) by (cbn; lia). assert (N4 : (n ^ 4 = n * n * n * n)%nat) by (cbn; lia). rewrite N4 in Ht. rewrite N2, N3.
  rewrite <- !Nat.div_div by lia.
  assert (A1 := Nat.div_mod_eq t n). assert (A2 := Nat.div_mod_eq (t / n) n). assert (A3 := Nat.div_mod_eq (t / n / n) n). rewrite (Nat.mod_small (t / n / n / n) n).
  - set (a := (t / n)%nat) in *. set (b := (a / n)%nat) in *. set (c := (b / n)%nat) in *. transitivity (n * (n * (n * c + b mod n) + a mod n) + t mod n)%nat; [ring|]. rewrite <- A3, <- A2. symmetry. exact A1.
  - apply Nat.div_lt_upper_bound; [lia|]. apply Nat.div_lt_upper_bound; [lia|]. apply Nat.div_lt_upper_bound; lia.
Qed.
Lemma visitsw n : (Z.of_nat n ^ 4 <= 2 ^ 53)%Z -> map (decw n) (seq 0 (n ^ 4)) = map (@rev nat) (all_idx [n; n; n; n]).
Proof. intros Hb. rewrite <- visits4 by exact Hb. rewrite map_map. apply map_ext. intros t. apply decw_rev. Qed.

(** the loops with the code's floating-point decoding are the loops of the model *)
Section L.
Context {A : dops}.
Definition chr_loop_float (n : nat) (g : arr A) (gi : nat -> nat -> A) : arr A :=
  fold_left (fun l t =>
    let k := (t mod n)%nat in let j := (fdiv t n mod n)%nat in let i := (fdiv t (n ^ 2) mod n)%nat in
    if Nat.leb k j then
      let v := chr_entry n g gi i j k in aset (aset l [i; k; j] v) [i; j; k] v
    else l) (seq 0 (n ^ 3)) azero.
Definition riem_loop_float (n : nat) (G : arr A) : arr A :=
  fold_left (fun l i =>
    let v := (i mod n)%nat in let r := (fdiv i n mod n)%nat in let s := (fdiv i (n ^ 2) mod n)%nat in let t := (fdiv i (n ^ 3) mod n)%nat in
    aset l [t; s; r; v] (ksimp (riem_entry n G t s r v))) (seq 0 (n ^ 4)) azero.
Lemma fold_ext_in {B C} (f g : B -> C -> B) l b : (forall b x, In x l -> f b x = g b x) -> fold_left f l b = fold_left g l b.
Proof. revert b. induction l as [|x l IH]; intros b H; [reflexivity|]. cbn. rewrite H by (left; reflexivity). apply IH. intros. apply H. right. assumption. Qed.
Lemma chr_loop_same (n : nat) (g : arr A) (gi : nat -> nat -> A) : (Z.of_nat n ^ 3 <= 2 ^ 53)%Z -> chr_loop_float n g gi = chr_loop n g gi.
Proof.
  intros Hb. apply fold_ext_in. intros l t Ht. apply in_seq in Ht. assert (T : (t < n ^ 3)%nat) by (destruct Ht as [_ Ht]; exact Ht). assert (E := dec3_exact n t Hb T). unfold dec3 in E.
  assert (E1 := f_equal (fun l => nth 0 l 0%nat) E). assert (E2 := f_equal (fun l => nth 1 l 0%nat) E). cbn [nth] in E1, E2. rewrite E1, E2. reflexivity.
Qed.
Lemma riem_loop_same (n : nat) (G : arr A) : (Z.of_nat n ^ 4 <= 2 ^ 53)%Z -> riem_loop_float n G = riem_loop n G.
Proof.
  intros Hb. apply fold_ext_in. intros l t Ht. apply in_seq in Ht. assert (T : (t < n ^ 4)%nat) by (destruct Ht as [_ Ht]; exact Ht). assert (E := dec4_exact n t Hb T). unfold dec4 in E.
  assert (E1 := f_equal (fun l => nth 0 l 0%nat) E). assert (E2 := f_equal (fun l => nth 1 l 0%nat) E). assert (E3 := f_equal (fun l => nth 2 l 0%nat) E). cbn [nth] in E1, E2, E3. rewrite E1, E2, E3. reflexivity.
Qed.
End L.
