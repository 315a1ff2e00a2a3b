(** TransformationMatrix.from_new2old (symbolic/helpers.py:136-169). *)
From Coq Require Import List Arith Lia Setoid Morphisms Ring.
From Verif Require Import Base SymAlg SymModel SymTensorModel SymTensorProofs.
Import ListNotations.
Local Open Scope nat_scope.

Section T.
Context {A : dops}.
Local Open Scope K_scope.
(** helpers.py:154-164: derive_by_array(new2old, new_coords)[i][j] = d new2old[j] / d new_coords[i]; np.reciprocal acts entrywise;
    the constructor checks rank 2, which derive_by_array of a list by a list always has.  sympy's 1/0 (zoo) is outside the scalar domain. *)
Definition from_new2old (n : nat) (new2old : nat -> A) : tmatrix A := mktm n (fun i j => 1 / kd i (new2old j)) None.
(** helpers.py:167-169 *)
Definition from_old2new (n : nat) (old2new : nat -> A) : Res (tmatrix A) := Err NotImplementedError.
(** helpers.py:124-133: __new__ *)
Definition tm_new (rank n : nat) (a : nat -> nat -> A) : Res (tmatrix A) := if Nat.eqb rank 2 then Ok (mktm n a None) else Err ValueError.
End T.

Section S.
Context {A : dops} (L : dlaws A).
Local Open Scope K_scope.
Local Instance TE : Equivalence (@keq A) := keq_equiv A L.
Local Instance TaP : Proper (keq ==> keq ==> keq) (@kadd A) := kadd_p A L.
Local Instance TmP : Proper (keq ==> keq ==> keq) (@kmul A) := kmul_p A L.
Local Instance TsP : Proper (keq ==> keq ==> keq) (@ksub A) := ksub_p A L.
Local Instance ToP : Proper (keq ==> keq) (@kopp A) := kopp_p A L.
Local Instance TvP : Proper (keq ==> keq ==> keq) (@kdiv A) := kdiv_p A L.
Add Ring Tring : (k_ring A L).
Ltac ext := apply (ksum_ext L); let i := fresh "i" in let Hi := fresh "Hi" in intros i Hi.

Lemma recip (x z : A) : x * z == 1 -> (1 / x) * x == 1 /\ 1 / (1 / x) == x.
Proof.
  intros H. assert (E : 1 / x == z) by (rewrite (kdiv_mul L 1 x z H); ring). assert (H' : z * x == 1) by (rewrite <- H; ring).
  split; [rewrite E; exact H'|]. rewrite E. rewrite (kdiv_mul L 1 z x H'). ring.
Qed.
(** when no partial derivative d old_j / d new_i vanishes: the entries are the reciprocals of the partial derivatives, the
    method inv() of the result gives the partial derivatives back, and the matrix times the Jacobian has diagonal n *)
Lemma new2old_entries n (X : nat -> A) : (forall i j, (i < n)%nat -> (j < n)%nat -> exists z, kd i (X j) * z == 1) ->
  (forall i j, (i < n)%nat -> (j < n)%nat -> tm_arr (from_new2old n X) i j * kd i (X j) == 1) /\
  (forall i j, (i < n)%nat -> (j < n)%nat -> snd (tm_inv_call (from_new2old n X)) i j == kd i (X j)) /\
  (forall i, (i < n)%nat -> ksum n (fun j => tm_arr (from_new2old n X) i j * kd i (X j)) == kofn n).
Proof.
  intros H. assert (P : forall i j, (i < n)%nat -> (j < n)%nat -> tm_arr (from_new2old n X) i j * kd i (X j) == 1).
  { intros i j Hi Hj. destruct (H i j Hi Hj) as [z Hz]. exact (proj1 (recip _ _ Hz)). }
  split; [exact P|]. split.
  - intros i j Hi Hj. destruct (H i j Hi Hj) as [z Hz]. exact (proj2 (recip _ _ Hz)).
  - intros i Hi. rewrite <- (ksum_one L). ext. apply P; assumption.
Qed.
(** so in two or more dimensions it is never the matrix d new_i / d old_j, whose product with the Jacobian is the identity *)
Lemma new2old_never n (X : nat -> A) : ~ ((1 : A) == 0) -> (2 <= n)%nat -> (forall i j, (i < n)%nat -> (j < n)%nat -> exists z, kd i (X j) * z == 1) ->
  ~ (forall i k, (i < n)%nat -> (k < n)%nat -> ksum n (fun j => tm_arr (from_new2old n X) i j * kd k (X j)) == kdelta i k).
Proof.
  intros N Hn H E. assert (E0 := E 0%nat 0%nat ltac:(lia) ltac:(lia)). rewrite (proj2 (proj2 (new2old_entries n X H)) 0%nat ltac:(lia)) in E0.
  unfold kdelta in E0. cbn [Nat.eqb] in E0. replace n with (S (n - 1)) in E0 by lia. cbn [kofn] in E0.
  assert (Q : @kofn A (n - 1) == 0) by (transitivity (kofn (n - 1) + 1 - 1 : A); [ring|]; rewrite E0; ring).
  apply N. rewrite <- (kinv_law L (n - 1) ltac:(lia)). rewrite Q. ring.
Qed.
(** in one dimension it is *)
Lemma new2old_one (X : nat -> A) : (exists z, kd 0%nat (X 0%nat) * z == 1) ->
  ksum 1 (fun j => tm_arr (from_new2old 1 X) 0%nat j * kd 0%nat (X j)) == 1.
Proof.
  intros [z Hz]. cbn [ksum]. change (tm_arr (from_new2old 1 X) 0 0) with (1 / kd 0 (X 0%nat)). rewrite (proj1 (recip _ _ Hz)). ring.
Qed.
End S.
Lemma tm_new_rank (A : dops) rank n (a : nat -> nat -> A) : (rank = 2%nat -> tm_new rank n a = Ok (mktm n a None)) /\ (rank <> 2%nat -> tm_new rank n a = Err ValueError).
Proof. unfold tm_new. split; intros H; destruct (Nat.eqb_spec rank 2); congruence. Qed.
Lemma old2new_raises (A : dops) n (o : nat -> A) : from_old2new n o = Err NotImplementedError.
Proof. reflexivity. Qed.

(** witness: old = (x0 + 2 x1, 2 x0 + x1) *)
From Coq Require Import Reals Lra.
From Verif Require Import ExprModel SymWitness SymTensorWitness.
Local Open Scope R_scope.
Definition lin_old (j : nat) : KU Uall := match j with
  | O => @kadd (diag_ops Uall) (uvar Uall 0) (@kmul (diag_ops Uall) (uconst Uall 2) (uvar Uall 1))
  | _ => @kadd (diag_ops Uall) (@kmul (diag_ops Uall) (uconst Uall 2) (uvar Uall 0)) (uvar Uall 1) end.
Lemma lin_old_d i j p : (i < 2)%nat -> (j < 2)%nat -> ev Uall (@kd (diag_ops Uall) i (lin_old j)) p = if Nat.eqb i j then 1 else 2.
Proof.
  intros Hi Hj. assert (Q : (i = 0 \/ i = 1)%nat /\ (j = 0 \/ j = 1)%nat) by lia. destruct Q as [[-> | ->] [-> | ->]]; unfold ev; cbn; ring.
Qed.
(** the partial derivatives are invertible, the Jacobian matrix has an inverse (d new_i / d old_j), and from_new2old is not it *)
Lemma new2old_refuted : exists (old : nat -> diag_ops Uall),
  (forall i j, (i < 2)%nat -> (j < 2)%nat -> exists z, @keq (diag_ops Uall) (@kmul (diag_ops Uall) (kd i (old j)) z) (@k1 (diag_ops Uall))) /\
  (exists J' : nat -> nat -> diag_ops Uall, forall i k, (i < 2)%nat -> (k < 2)%nat ->
     @keq (diag_ops Uall) (ksum 2 (fun j => @kmul (diag_ops Uall) (J' i j) (kd k (old j)))) (kdelta i k)) /\
  ~ (forall i k, (i < 2)%nat -> (k < 2)%nat ->
     @keq (diag_ops Uall) (ksum 2 (fun j => @kmul (diag_ops Uall) (tm_arr (from_new2old (A := diag_ops Uall) 2 old) i j) (kd k (old j)))) (kdelta i k)).
Proof.
  exists lin_old. assert (I : forall i j, (i < 2)%nat -> (j < 2)%nat -> exists z, @keq (diag_ops Uall) (@kmul (diag_ops Uall) (@kd (diag_ops Uall) i (lin_old j)) z) (@k1 (diag_ops Uall))).
  { intros i j Hi Hj. exists (uconst Uall (if Nat.eqb i j then 1 else 1 / 2)). intros p _. rewrite evm, lin_old_d by assumption. rewrite evc. change (ev Uall (@k1 AO) p) with 1. destruct (Nat.eqb i j); field. }
  split; [exact I|]. split.
  - exists (fun i j => c2 (-1/3) (2/3) (2/3) (-1/3) [i; j]). two; intros p _; rewrite ksum2, !evm, !lin_old_d by lia; unfold kdelta, c2; cbn [Nat.eqb]; rewrite ?evc; change (ev Uall (@k1 AO) p) with 1; change (ev Uall (@k0 AO) p) with 0; field.
  - apply (new2old_never all_laws 2 lin_old); [| lia | exact I]. intros E. specialize (E (fun _ => 0) Logic.I). change (1 = 0) in E. lra.
Qed.
