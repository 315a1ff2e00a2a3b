(** FloatLU.v: accuracy of the elimination near every nonsingular system. *)
From Coq Require Import String Reals List ZArith Lra Lia Bool.
From Verif Require Import Base GeoUtilsModel FloatModel DualModel DualProofs FloatExact FloatGlobal.
From Verif Require Import FloatLU FloatLU2 FloatLU3.
Import ListNotations.
Open Scope R_scope.

Lemma axpy_exact l xs ys : axpyA exact l xs ys = Ok (axpy l xs ys).
Proof. revert ys. induction xs as [|x xs IH]; intros [|y ys]; cbn [axpyA axpy]; try reflexivity. cbn. rewrite IH. reflexivity. Qed.
Lemma elim_exact f r rows : f = / hd 0 r -> seqR (elimA exact f r) rows = Ok (map (elim r) rows).
Proof. intros ->. induction rows as [|x rows IH]; [reflexivity|]. cbn [seqR map]. unfold elimA at 1. cbn [a_mul exact bindR]. rewrite axpy_exact. cbn [bindR]. rewrite IH. reflexivity. Qed.
Lemma shape_near e n k R1 R0 : nears e R1 R0 -> shape n k R0 -> shape n k R1.
Proof. intros H (L & S). split; [rewrite (Forall2_len _ _ _ H); exact L|]. clear L. induction H as [|a b l m H HH IH]; [constructor|]. inversion S; subst. constructor; [exact (Forall2_len _ _ _ H)|apply IH; assumption]. Qed.
Lemma step_pick p R0 : step p R0 = map (elim (nth p R0 [])) (snd (pick [] p R0)).
Proof. rewrite <- (pick_fst [] p R0). unfold step. destruct (pick [] p R0). reflexivity. Qed.
Lemma bnds_pick M p rows : (p < length rows)%nat -> bnds M rows -> bnd M (nth p rows []) /\ bnds M (snd (pick [] p rows)).
Proof. intros Hp H. rewrite <- (pick_fst [] p rows). apply (pick_Forall (bnd M) [] p rows Hp). exact H. Qed.
Lemma near_head e p R1 R0 : 0 <= e -> nears e R1 R0 -> (p < length R1)%nat -> Rabs (hd 0 (nth p R1 []) - hd 0 (nth p R0 [])) <= e.
Proof. intros He H Hp. apply near_hd; [exact He|]. exact (Forall2_nth_ _ _ _ [] [] p H Hp). Qed.

Lemma after_ok n q p R0 : shape (S n) (S n + q) R0 -> (p < S n)%nat -> hd 0 (nth p R0 []) <> 0 ->
  (exists r C, 0 < r /\ 0 <= C /\ accurate_near n q (fun A => gesvA A n) (step p R0) r C) ->
  exists r C, 0 < r /\ 0 <= C /\ accurate_near (S n) q (fun A => afterA A n p) R0 r C.
Proof.
  intros Hsh Hp Hh (rI & CI & RI & PI & IH). destruct (exists_bnds R0) as (M0 & PM0 & B0). set (M := M0 + 1). set (h := Rabs (hd 0 (nth p R0 []))). assert (Hpos : 0 < h) by (apply Rabs_pos_lt; exact Hh). set (m := h / 2).
  destruct (elim_u M m 1 ltac:(unfold M; lra) ltac:(unfold m; lra) ltac:(lra)) as (r1 & C1 & R1p & P1 & H1).
  set (K := CI * (C1 + 1)). assert (PK : 0 <= K) by (unfold K; apply Rmult_le_pos; lra).
  destruct (back_u n (M + CI) (1 + K) ltac:(unfold M; lra) ltac:(lra)) as (r2 & C2 & R2p & P2 & H2).
  destruct (divs_u C2 m (1 + C2) P2 ltac:(unfold m; lra) ltac:(lra)) as (r3 & C3 & R3p & P3 & H3).
  set (r := Rmin (Rmin 1 m) (Rmin (Rmin r1 (rI / (C1 + 1))) (Rmin r2 r3))). assert (Q0 : 0 < rI / (C1 + 1)) by (apply Rdiv_lt_0_compat; lra).
  assert (Hr : 0 < r) by (unfold r; repeat apply Rmin_pos; try assumption; try lra; unfold m; lra).
  assert (Hle : r <= 1 /\ r <= m /\ r <= r1 /\ r <= rI / (C1 + 1) /\ r <= r2 /\ r <= r3).
  { unfold r. assert (T1 := Rmin_l (Rmin 1 m) (Rmin (Rmin r1 (rI / (C1 + 1))) (Rmin r2 r3))). assert (T2 := Rmin_r (Rmin 1 m) (Rmin (Rmin r1 (rI / (C1 + 1))) (Rmin r2 r3))). assert (T3 := Rmin_l 1 m). assert (T4 := Rmin_r 1 m).
    assert (T5 := Rmin_l (Rmin r1 (rI / (C1 + 1))) (Rmin r2 r3)). assert (T6 := Rmin_r (Rmin r1 (rI / (C1 + 1))) (Rmin r2 r3)). assert (T7 := Rmin_l r1 (rI / (C1 + 1))). assert (T8 := Rmin_r r1 (rI / (C1 + 1))). assert (T9 := Rmin_l r2 r3). assert (T10 := Rmin_r r2 r3). repeat split; lra. }
  destruct Hle as (L1 & L2 & L3 & L4 & L5 & L6). clearbody r.
  exists (r / 2), (CI + K + C3). split; [lra|]. split; [clear - PK P3 PI; lra|].
  intros d A R1 R' X Hd HA N1 N' (LX & SX) HX.
  assert (Sh1 := shape_near _ _ _ _ _ N1 Hsh). assert (Sh' := shape_near _ _ _ _ _ N' Sh1).
  assert (Lp0 : (p < length R0)%nat) by (rewrite (proj1 Hsh); exact Hp). assert (Lp1 : (p < length R1)%nat) by (rewrite (proj1 Sh1); exact Hp). assert (Lp' : (p < length R')%nat) by (rewrite (proj1 Sh'); exact Hp).
  assert (B1 : bnds M R1). { eapply bnds_le; [|exact (bnds_near M0 _ _ _ B0 N1)]. unfold M; lra. }
  assert (h1 : m <= Rabs (hd 0 (nth p R1 []))).
  { assert (Z := near_head (r / 2) p R1 R0 ltac:(lra) N1 Lp1). assert (T := Rabs_triang (hd 0 (nth p R1 [])) (- (hd 0 (nth p R1 []) - hd 0 (nth p R0 [])))). replace (hd 0 (nth p R1 []) + - (hd 0 (nth p R1 []) - hd 0 (nth p R0 []))) with (hd 0 (nth p R0 [])) in T by ring. rewrite Rabs_Ropp in T. fold h in T. unfold m in *. lra. }
  assert (h1n : hd 0 (nth p R1 []) <> 0) by (intros E; rewrite E, Rabs_R0 in h1; unfold m in h1; lra).
  destruct (bnds_pick M p R1 Lp1 B1) as (Br1 & Bs1). destruct (pick_near d p R' R1 Lp' N') as (Nr & Ns). rewrite !pick_fst in Nr.
  destruct (H1 d A (nth p R1 []) (nth p R' []) (snd (pick [] p R1)) (snd (pick [] p R')) ltac:(lra) HA Br1 Bs1 h1 ltac:(rewrite Rmult_1_l; exact Nr) ltac:(rewrite Rmult_1_l; exact Ns)) as (_ & f & rest' & Ef & Erest & Nrest).
  rewrite <- step_pick in Nrest.
  (* the exact step at R1 is near the one at R0 *)
  assert (NS : nears rI (step p R1) (step p R0)).
  { destruct (pick_near _ p R1 R0 Lp1 N1) as (Nr0 & Ns0). rewrite !pick_fst in Nr0. assert (B0' : bnds M R0) by (eapply bnds_le; [|exact B0]; unfold M; lra). destruct (bnds_pick M p R0 Lp0 B0') as (Br0 & Bs0).
    destruct (H1 (r / 2) exact (nth p R0 []) (nth p R1 []) (snd (pick [] p R0)) (snd (pick [] p R1)) ltac:(lra) (accurate_le 0 (r / 2) exact ltac:(lra) exact_accurate) Br0 Bs0 ltac:(fold h; unfold m; lra) ltac:(rewrite Rmult_1_l; exact Nr0) ltac:(rewrite Rmult_1_l; exact Ns0)) as (Nz & f0 & rest0 & Ef0 & Erest0 & Nrest0).
    assert (F0 : f0 = / hd 0 (nth p R1 [])). { cbn [a_div exact] in Ef0. rewrite fdiv_ok in Ef0 by exact Nz. apply Ok_inj in Ef0. rewrite <- Ef0. unfold Rdiv. ring. }
    rewrite (elim_exact f0 _ _ F0) in Erest0. apply Ok_inj in Erest0. subst rest0. rewrite <- !step_pick in Nrest0. eapply nears_le; [|exact Nrest0].
    apply Rle_trans with ((C1 + 1) * (rI / (C1 + 1))); [apply Rmult_le_compat; lra|]. right. field. lra. }
  set (d' := (C1 + 1) * d). assert (Dd : d <= d') by (unfold d'; rewrite <- (Rmult_1_l d) at 1; apply Rmult_le_compat_r; lra).
  assert (Dr : d' < rI). { unfold d'. apply Rle_lt_trans with ((C1 + 1) * (r / 2)); [apply Rmult_le_compat_l; lra|]. apply Rlt_le_trans with ((C1 + 1) * (rI / (C1 + 1))); [apply Rmult_lt_compat_l; lra|]. right. field. lra. }
  destruct X as [|x X]; [discriminate LX|]. assert (Lx := Forall_inv SX). assert (SX' := Forall_inv_tail SX). cbn beta in Lx. cbn in LX.
  assert (HXs := step_solves n q p R1 Sh1 Hp h1n x X HX).
  destruct (IH d' A (step p R1) rest' X ltac:(lra) (accurate_le d d' A Dd HA) NS) as (BX & X' & EX & NX).
  { eapply nears_le; [|exact Nrest]. unfold d'. apply Rmult_le_compat_r; lra. } { split; [lia|exact SX']. } { exact HXs. }
  assert (NX' : nears (K * d) X' X) by (eapply nears_le; [|exact NX]; unfold K, d'; right; ring).
  assert (Kd : 0 <= K * d) by (apply Rmult_le_pos; lra). assert (C2d : 0 <= C2 * d) by (apply Rmult_le_pos; lra). assert (CId : 0 <= CI * d) by (apply Rmult_le_pos; lra). assert (C3d : 0 <= C3 * d) by (apply Rmult_le_pos; lra).
  destruct (H2 d A (tl (nth p R1 [])) (tl (nth p R' [])) X X' ltac:(lra) HA ltac:(lia)) as (Bb & b & Eb & Nb).
  { apply bnd_tl. eapply bnd_le; [|exact Br1]. lra. } { eapply bnds_le; [|exact BX]. unfold M; lra. } { apply near_tl. eapply near_le; [|exact Nr]. rewrite Rmult_plus_distr_r; lra. } { eapply nears_le; [|exact NX']. rewrite Rmult_plus_distr_r; lra. }
  destruct (H3 d A (hd 0 (nth p R1 [])) (hd 0 (nth p R' [])) (back (tl (nth p R1 [])) X) b ltac:(lra) HA Bb h1) as (Bx & x' & Ex & Nx).
  { eapply Rle_trans; [apply (near_hd d); [lra|exact Nr]|]. rewrite Rmult_plus_distr_r; lra. } { eapply near_le; [|exact Nb]. rewrite Rmult_plus_distr_r; lra. }
  assert (Ex0 : map (fun y => y / hd 0 (nth p R1 [])) (back (tl (nth p R1 [])) X) = x).
  { apply (back_solves q); try assumption.
    - assert (Fl := proj2 Sh1). rewrite Forall_forall in Fl. rewrite (Fl (nth p R1 [])) by (apply nth_In; exact Lp1). lia.
    - intros c Hc. specialize (HX c Hc). rewrite Forall_forall in HX. apply HX. apply nth_In; exact Lp1. }
  rewrite Ex0 in Bx, Nx. split.
  - constructor; [eapply bnd_le; [|exact Bx]; lra|eapply bnds_le; [|exact BX]; lra].
  - exists (x' :: X'). split; [|constructor; [eapply near_le; [|exact Nx]|eapply nears_le; [|exact NX']]; rewrite !Rmult_plus_distr_r; lra].
    unfold afterA. assert (Ep := pick_fst [] p R'). destruct (pick [] p R') as [r0 rs0]. cbn [fst snd] in *. subst r0. rewrite Ef. cbn [bindR]. rewrite Erest. cbn [bindR]. rewrite EX. cbn [bindR]. rewrite Eb. cbn [bindR]. rewrite Ex. reflexivity.
Qed.

(** the pivot the computation picks is one of the exact nonzero ones *)
Lemma gesv_ok n : forall q R0, shape n (n + q) R0 -> nonsing n q R0 -> exists r C, 0 < r /\ 0 <= C /\ accurate_near n q (fun A => gesvA A n) R0 r C.
Proof.
  induction n as [|n IH]; intros q R0 Hsh Hns.
  - exists 1, 0. split; [lra|]. split; [lra|]. intros d A R1 R' X _ _ _ _ (L & _) _. destruct X; [|discriminate L]. split; [constructor|]. exists []. split; [reflexivity|constructor].
  - destruct (pivot_exists n q R0 Hsh Hns) as (q0 & Hq0 & Hh0). set (h := Rabs (hd 0 (nth q0 R0 []))). assert (Hpos : 0 < h) by (apply Rabs_pos_lt; exact Hh0).
    destruct (finite_choice (fun p r C => hd 0 (nth p R0 []) <> 0 -> accurate_near (S n) q (fun A => afterA A n p) R0 r C) (S n)) as (r & C & Pr & PC & H).
    { intros p r C r' C' Hr HC Q Hn. eapply accurate_near_le; [exact Hr|exact HC|apply Q; exact Hn]. }
    { intros p Hp. destruct (Req_EM_T (hd 0 (nth p R0 [])) 0) as [E|Ne]; [exists 1, 0; split; [lra|]; split; [lra|]; intros; contradiction|].
      destruct (after_ok n q p R0 Hsh Hp Ne (IH q (step p R0) (step_shape n q p R0 Hsh Hp) (step_nonsing n q p R0 Hsh Hp Ne Hns))) as (r & C & Pr & PC & Q). exists r, C. split; [exact Pr|]. split; [exact PC|]. intros _; exact Q. }
    assert (D1 := Rmin_l r (h / 8)). assert (D2 := Rmin_r r (h / 8)). exists (Rmin r (h / 8)), C. split; [apply Rmin_pos; lra|]. split; [exact PC|].
    intros d A R1 R' X Hd HA N1 N' SX HX.
    assert (Sh1 := shape_near _ _ _ _ _ N1 Hsh). assert (Sh' := shape_near _ _ _ _ _ N' Sh1).
    set (p := idamax (map (hd 0) R')).
    assert (Hp : (p < S n)%nat /\ Rabs (hd 0 (nth q0 R' [])) <= Rabs (hd 0 (nth p R' []))).
    { destruct (idamax_spec (map (hd 0) R')) as (I1 & I2). { destruct R'; [destruct Sh' as (L & _); discriminate L|discriminate]. } fold p in I1, I2. rewrite map_length in I1, I2. rewrite (proj1 Sh') in I1, I2. split; [exact I1|]. specialize (I2 q0 Hq0). change 0 with (hd 0 []) in I2. rewrite !map_nth in I2. exact I2. }
    destruct Hp as (Hp & Hbig).
    assert (Z : forall k, (k < S n)%nat -> Rabs (hd 0 (nth k R' []) - hd 0 (nth k R0 [])) <= h / 4).
    { intros k Hk. assert (Z1 := near_head (Rmin r (h / 8)) k R1 R0 ltac:(lra) N1 ltac:(rewrite (proj1 Sh1); exact Hk)). assert (Z2 := near_head d k R' R1 ltac:(lra) N' ltac:(rewrite (proj1 Sh'); exact Hk)).
      replace (hd 0 (nth k R' []) - hd 0 (nth k R0 [])) with ((hd 0 (nth k R' []) - hd 0 (nth k R1 [])) + (hd 0 (nth k R1 []) - hd 0 (nth k R0 []))) by ring. eapply Rle_trans; [apply Rabs_triang|]. lra. }
    assert (Zq : 3 / 4 * h <= Rabs (hd 0 (nth q0 R' []))).
    { assert (T := Rabs_triang (hd 0 (nth q0 R' [])) (- (hd 0 (nth q0 R' []) - hd 0 (nth q0 R0 [])))). replace (hd 0 (nth q0 R' []) + - (hd 0 (nth q0 R' []) - hd 0 (nth q0 R0 []))) with (hd 0 (nth q0 R0 [])) in T by ring. rewrite Rabs_Ropp in T. fold h in T. assert (Z1 := Z q0 Hq0). lra. }
    assert (Np' : hd 0 (nth p R' []) <> 0) by (intros E; rewrite E, Rabs_R0 in Hbig; lra).
    assert (Np0 : hd 0 (nth p R0 []) <> 0). { intros E. assert (Z1 := Z p Hp). rewrite E, Rminus_0_r in Z1. lra. }
    destruct (H p Hp Np0 d A R1 R' X ltac:(lra) HA (nears_le _ _ _ _ D1 N1) N' SX HX) as (BX & X' & EX & NX). split; [exact BX|]. exists X'. split; [|exact NX].
    rewrite gesv_after. cbv zeta. fold p. destruct (Req_EM_T (hd 0 (nth p R' [])) 0); [contradiction|]. exact EX.
Qed.
