(** Error cases of the symbolic constructors and a concrete curved metric meeting the hypotheses of C44-C51. *)
From Coq Require Import String Ascii Reals List Arith Lia Bool Setoid Morphisms Ring Lra.
From Coquelicot Require Import Coquelicot.
From Verif Require Import Base SymAlg SymModel SymLoops SymGeo SymGeo2 SymMove SymConn SymFinal ExprModel.
Import ListNotations.
Local Open Scope nat_scope.

Lemma chr_singular (A : dops) (m low : metric A) : m_lower m = Ok low -> kminv (m_n m) (mat_of (m_arr low)) = None -> christoffels_from_metric m = Err ValueError.
Proof. intros H1 H2. unfold christoffels_from_metric. rewrite H1. cbn [bindR]. rewrite H2. reflexivity. Qed.
Lemma weyl_dim3 (A : dops) (m : metric A) : m_n m = 3%nat -> exists w, weyl_from_metric m = Ok w /\ t_cfg w = cf "llll" /\ forall idx, t_arr w idx = k0.
Proof. intros H. unfold weyl_from_metric. rewrite H. eexists. split; [reflexivity|]. split; reflexivity. Qed.
Lemma weyl_low (A : dops) (m : metric A) : (m_n m < 3)%nat -> weyl_from_metric m = Err ValueError.
Proof.
  intros H. unfold weyl_from_metric. destruct (Nat.ltb_spec 3 (m_n m)); [lia|]. destruct (Nat.eqb_spec (m_n m) 3); [lia|]. reflexivity.
Qed.
Lemma schouten_low (A : dops) (m : metric A) : (m_n m < 3)%nat -> schouten_from_metric m = Err ValueError.
Proof. intros H. unfold schouten_from_metric. destruct (Nat.leb_spec 3 (m_n m)); [lia|]. reflexivity. Qed.

(** every symbol value is allowed *)
Definition Uall : (nat -> R) -> Prop := fun _ => True.
Lemma all_laws : dlaws (diag_ops Uall).
Proof. apply diag_laws. intros p i _. apply filter_forall. intros x. exact I. Qed.
(** exp(2 x0) delta_ij *)
Definition conf_g (i j : nat) : KU Uall :=
  if Nat.eqb i j then uexp Uall (umul Uall (uconst Uall 2%R) (uvar Uall 0)) else uconst Uall 0%R.
Definition conf_metric (n : nat) : metric (diag_ops Uall) :=
  @mkmetric (diag_ops Uall) n (fun idx => match idx with [i; j] => conf_g i j | _ => uconst Uall 0%R end) (cf "ll").
Local Open Scope R_scope.
Lemma exp_nz p : Uall p -> ev Uall (uexp Uall (umul Uall (uconst Uall 2) (uvar Uall 0))) p <> 0.
Proof. intros _. unfold ev. cbn. apply Rgt_not_eq. apply exp_pos. Qed.
Lemma conf_inv n : is_inverse Uall n conf_g (diag_cand Uall conf_g).
Proof.
  assert (D : forall m, ueq Uall (umul Uall (conf_g m m) (diag_cand Uall conf_g m m)) (uconst Uall 1)).
  { intros m p Hp. unfold diag_cand, conf_g. rewrite !Nat.eqb_refl.
    transitivity (ev Uall (uexp Uall (umul Uall (uconst Uall 2) (uvar Uall 0))) p * (ev Uall (uconst Uall 1) p / ev Uall (uexp Uall (umul Uall (uconst Uall 2) (uvar Uall 0))) p)).
    - rewrite <- (udiv_ev Uall (uconst Uall 1) _ exp_nz p). reflexivity.
    - change (ev Uall (uconst Uall 1) p) with 1. field. apply exp_nz. exact Hp. }
  intros i j Hi Hj. set (A := expr_ops Uall (simp_id Uall) (fun _ _ => None)).
  assert (L : dlaws A). { apply expr_laws; [intros p k _; apply filter_forall; intros; exact I|apply simp_id_ok|]. intros ? ? ? H. discriminate H. }
  assert (EQ : Equivalence (@keq A)) by (apply L).
  assert (E : forall (F G : nat -> nat -> KU Uall), (forall a b, a <> b -> F a b = uconst Uall 0) -> (forall a b, a <> b -> G a b = uconst Uall 0) ->
     (forall m, ueq Uall (umul Uall (F m m) (G m m)) (uconst Uall 1)) -> @keq A (@ksum A n (fun m => umul Uall (F i m) (G m j))) (@kdelta A i j)).
  { intros F G HF HG HD. transitivity (@ksum A n (fun m => @kmul A (@kdelta A i m) (@kdelta A m j))).
    - apply (ksum_ext L). intros m Hm p Hp. unfold kdelta. destruct (Nat.eqb_spec i m) as [->|N1].
      + destruct (Nat.eqb_spec m j) as [->|N2].
        * rewrite (HD j p Hp). unfold ev. cbn. ring.
        * rewrite (HG m j N2). unfold ev. cbn. ring.
      + rewrite (HF i m N1). unfold ev. cbn. ring.
    - apply (ksum_delta L n i (fun m => @kdelta A m j)). exact Hi. }
  split; apply E.
  - intros a b N. unfold conf_g. destruct (Nat.eqb_spec a b); [contradiction|reflexivity].
  - intros a b N. unfold diag_cand. destruct (Nat.eqb_spec a b); [contradiction|reflexivity].
  - exact D.
  - intros a b N. unfold diag_cand. destruct (Nat.eqb_spec a b); [contradiction|reflexivity].
  - intros a b N. unfold conf_g. destruct (Nat.eqb_spec a b); [contradiction|reflexivity].
  - intros m p Hp. rewrite <- (D m p Hp). unfold ev. cbn. ring.
Qed.
Lemma conf_pair (n : nat) : covariant_pair (conf_metric n) conf_g (diag_cand Uall conf_g) /\ symmetric_metric (A := diag_ops Uall) n conf_g.
Proof.
  split.
  - exists (conf_metric n). split; [reflexivity|]. split; [reflexivity|]. change (minv_diag Uall n conf_g = Some (diag_cand Uall conf_g)).
    unfold minv_diag. destruct (EM_inf _) as [H|H]; [reflexivity|]. exfalso. apply H. apply conf_inv.
  - intros i j _ _ p _. unfold conf_g. rewrite Nat.eqb_sym. reflexivity.
Qed.
(** its Christoffel symbol Gamma^0_00 is 1: the metric is not constant *)
Lemma conf_christoffel (n : nat) : (1 <= n)%nat -> exists ch, christoffels_from_metric (conf_metric n) = Ok ch /\ @keq (diag_ops Uall) (t_arr ch [0%nat; 0%nat; 0%nat]) (uconst Uall 1).
Proof.
  intros Hn. destruct (conf_pair n) as [HP HS]. destruct (chr_all_ all_laws (conf_metric n) conf_g _ HP HS) as [ch [E [_ [_ [_ F]]]]].
  exists ch. split; [exact E|]. destruct (F 0%nat 0%nat 0%nat) as [V _]; [exact Hn..|].
  assert (EQ : Equivalence (@keq (diag_ops Uall))) by (apply all_laws).
  etransitivity; [exact V|]. cbn [m_n conf_metric].
  intros p Hp. 
  assert (S : @keq (diag_ops Uall) (@ksum (diag_ops Uall) n (fun l => @kmul (diag_ops Uall) (diag_cand Uall conf_g 0 l)
      (@ksub (diag_ops Uall) (@kadd (diag_ops Uall) (@kd (diag_ops Uall) 0 (conf_g l 0)) (@kd (diag_ops Uall) 0 (conf_g l 0))) (@kd (diag_ops Uall) l (conf_g 0 0))))) (uconst Uall 2)).
  { etransitivity; [apply (ksum_ext all_laws) with (g := fun l => @kmul (diag_ops Uall) (@kdelta (diag_ops Uall) 0 l) (uconst Uall 2))|].
    - intros l Hl q Hq. unfold kdelta, diag_cand, conf_g. destruct (Nat.eqb_spec 0 l) as [<-|N].
      + change (ev Uall (udiv Uall (uconst Uall 1) (uexp Uall (umul Uall (uconst Uall 2) (uvar Uall 0)))) q
          * (ev Uall (udiff Uall 0 (uexp Uall (umul Uall (uconst Uall 2) (uvar Uall 0)))) q + ev Uall (udiff Uall 0 (uexp Uall (umul Uall (uconst Uall 2) (uvar Uall 0)))) q
             - ev Uall (udiff Uall 0 (uexp Uall (umul Uall (uconst Uall 2) (uvar Uall 0)))) q) = 1 * 2).
        rewrite (udiv_ev Uall (uconst Uall 1) _ exp_nz q). unfold ev. cbn. field. apply Rgt_not_eq. apply exp_pos.
      + unfold ev. cbn. ring.
    - apply (ksum_delta all_laws n 0%nat (fun _ => uconst Uall 2)). exact Hn. }
  assert (K := kinv_law all_laws 2 ltac:(discriminate) p Hp). 
  specialize (S p Hp). change (ev Uall (@kofn (diag_ops Uall) 2) p * ev Uall (@kinv (diag_ops Uall) 2) p = 1) in K. unfold diag_ops in K. rewrite ev_kofn in K. simpl INR in K.
  change (ev Uall (@kinv (diag_ops Uall) 2) p * ev Uall (@ksum (diag_ops Uall) n (fun l => @kmul (diag_ops Uall) (diag_cand Uall conf_g 0 l)
      (@ksub (diag_ops Uall) (@kadd (diag_ops Uall) (@kd (diag_ops Uall) 0 (conf_g l 0)) (@kd (diag_ops Uall) 0 (conf_g l 0))) (@kd (diag_ops Uall) l (conf_g 0 0))))) p = 1).
  change (ev Uall (@ksum (diag_ops Uall) n (fun l => @kmul (diag_ops Uall) (diag_cand Uall conf_g 0 l)
      (@ksub (diag_ops Uall) (@kadd (diag_ops Uall) (@kd (diag_ops Uall) 0 (conf_g l 0)) (@kd (diag_ops Uall) 0 (conf_g l 0))) (@kd (diag_ops Uall) l (conf_g 0 0))))) p = 2) in S.
  rewrite S. change (ev Uall (@kinv (diag_ops Uall) 2) p) with (ev Uall (@kinv (expr_ops Uall (simp_id Uall) (minv_diag Uall)) 2) p). lra.
Qed.
