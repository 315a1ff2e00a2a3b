(** A metric stored with contravariant indices that meets the hypotheses of C44-C50. *)
From Coq Require Import String Ascii Reals List Arith Lia Bool Setoid Morphisms Ring Lra.
From Coquelicot Require Import Coquelicot.
From Verif Require Import Base SymAlg SymModel SymLoops SymGeo SymGeo2 SymMove SymConn SymFinal ExprModel SymWitness SymPair.
Import ListNotations.
Local Open Scope nat_scope.
Local Open Scope R_scope.
Lemma diag_is_inverse (n : nat) (g : nat -> nat -> KU Uall) :
  (forall a b, a <> b -> g a b = uconst Uall 0) -> (forall m p, Uall p -> ev Uall (g m m) p <> 0) -> is_inverse Uall n g (diag_cand Uall g).
Proof.
  intros Z NZ.
  assert (D : forall m, ueq Uall (umul Uall (g m m) (diag_cand Uall g m m)) (uconst Uall 1)).
  { intros m p Hp. unfold diag_cand. rewrite !Nat.eqb_refl.
    transitivity (ev Uall (g m m) p * (ev Uall (uconst Uall 1) p / ev Uall (g m m) p)).
    - rewrite <- (udiv_ev Uall (uconst Uall 1) _ (NZ m) p). reflexivity.
    - change (ev Uall (uconst Uall 1) p) with 1. field. apply NZ. exact Hp. }
  intros i j Hi Hj. set (A := expr_ops Uall (simp_id Uall) (fun _ _ => None)).
  assert (L : dlaws A). { apply expr_laws; [intros p k _; apply filter_forall; intros; exact I|apply simp_id_ok|]. intros ? ? ? H. discriminate H. }
  assert (EQ : Equivalence (@keq A)) by (apply L).
  assert (E : forall (F G : nat -> nat -> KU Uall), (forall a b, a <> b -> F a b = uconst Uall 0) -> (forall a b, a <> b -> G a b = uconst Uall 0) ->
     (forall m, ueq Uall (umul Uall (F m m) (G m m)) (uconst Uall 1)) -> @keq A (@ksum A n (fun m => umul Uall (F i m) (G m j))) (@kdelta A i j)).
  { intros F G HF HG HD. transitivity (@ksum A n (fun m => @kmul A (@kdelta A i m) (@kdelta A m j))).
    - apply (ksum_ext L). intros m Hm p Hp. unfold kdelta. destruct (Nat.eqb_spec i m) as [->|N1].
      + destruct (Nat.eqb_spec m j) as [->|N2].
        * rewrite (HD j p Hp). unfold ev. cbn. ring.
        * rewrite (HG m j N2). unfold ev. cbn. ring.
      + rewrite (HF i m N1). unfold ev. cbn. ring.
    - apply (ksum_delta L n i (fun m => @kdelta A m j)). exact Hi. }
  assert (C : forall a b, a <> b -> diag_cand Uall g a b = uconst Uall 0).
  { intros a b N. unfold diag_cand. destruct (Nat.eqb_spec a b); [contradiction|reflexivity]. }
  split; apply E; try assumption.
  intros m p Hp. rewrite <- (D m p Hp). unfold ev. cbn. ring.
Qed.
Lemma minv_diag_some (n : nat) (g : nat -> nat -> KU Uall) : (forall a b, a <> b -> g a b = uconst Uall 0) -> (forall m p, Uall p -> ev Uall (g m m) p <> 0) ->
  minv_diag Uall n g = Some (diag_cand Uall g).
Proof.
  intros H1 H2. unfold minv_diag. destruct (EM_inf _) as [H|H]; [reflexivity|]. exfalso. apply H. apply diag_is_inverse; assumption.
Qed.
(** exp(2 x0) delta^ij given as the contravariant metric *)
Definition contra_metric (n : nat) : metric (diag_ops Uall) :=
  @mkmetric (diag_ops Uall) n (fun idx => match idx with [i; j] => conf_g i j | _ => uconst Uall 0%R end) (cf "uu").
Lemma contra_pair (n : nat) : m_cfg (contra_metric n) = ["u"; "u"]%char /\
  covariant_pair (contra_metric n) (diag_cand Uall conf_g) (diag_cand Uall (diag_cand Uall conf_g)) /\ symmetric_metric (A := diag_ops Uall) n (diag_cand Uall conf_g).
Proof.
  split; [reflexivity|]. split.
  - apply (contravariant_stored (diag_ops Uall) (contra_metric n)); [reflexivity|]. exists (diag_cand Uall conf_g).
    split; [|split; [reflexivity|]].
    + change (minv_diag Uall n conf_g = Some (diag_cand Uall conf_g)). apply minv_diag_some.
      * intros a b N. unfold conf_g. destruct (Nat.eqb_spec a b); [contradiction|reflexivity].
      * intros m p Hp. unfold conf_g. rewrite Nat.eqb_refl. apply exp_nz. exact Hp.
    + change (minv_diag Uall n (diag_cand Uall conf_g) = Some (diag_cand Uall (diag_cand Uall conf_g))). apply minv_diag_some.
      * intros a b N. unfold diag_cand. destruct (Nat.eqb_spec a b); [contradiction|reflexivity].
      * intros m p Hp. unfold diag_cand, conf_g. rewrite !Nat.eqb_refl. rewrite (udiv_ev Uall (uconst Uall 1) _ exp_nz p).
        apply Rgt_not_eq. apply Rdiv_lt_0_compat; [unfold ev; cbn; lra|unfold ev; cbn; apply exp_pos].
  - intros i j _ _ p _. unfold diag_cand. rewrite Nat.eqb_sym. destruct (Nat.eqb_spec j i) as [->|]; reflexivity.
Qed.
