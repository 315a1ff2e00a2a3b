(** Scalars of the symbolic part of einsteinpy: what sympy expressions provide.
    The algorithms (SymModel.v) are written over the operations record [dops]; the theorems assume the laws [dlaws]:
    a commutative ring of characteristic 0 up to an equality [keq] ("the two expressions denote the same function"),
    with commuting partial derivatives, a value-preserving [simplify], and a matrix inverse that, when it returns,
    returns a two-sided inverse.  ExprModel.v gives the concrete instance. *)
From Coq Require Import List Arith Lia Setoid Morphisms Ring.
Import ListNotations.

Record dops := mkdops {
  K :> Type;
  keq : K -> K -> Prop;
  k0 : K; k1 : K;
  kadd : K -> K -> K; kmul : K -> K -> K; ksub : K -> K -> K; kopp : K -> K;
  kdiv : K -> K -> K;
  kd : nat -> K -> K;                    (* sympy.diff(expr, syms[i]) *)
  ksimp : K -> K;                        (* sympy.simplify *)
  kminv : nat -> (nat -> nat -> K) -> option (nat -> nat -> K)   (* sympy.Matrix(...).inv(), None = raises *)
}.
Arguments k0 {d}. Arguments k1 {d}. Arguments keq {d}. Arguments kadd {d}. Arguments kmul {d}. Arguments ksub {d}.
Arguments kopp {d}. Arguments kdiv {d}. Arguments kd {d}. Arguments ksimp {d}. Arguments kminv {d}.

Declare Scope K_scope.
Delimit Scope K_scope with K.
Infix "+" := kadd : K_scope. Infix "*" := kmul : K_scope. Infix "-" := ksub : K_scope. Infix "/" := kdiv : K_scope.
Notation "- x" := (kopp x) : K_scope. Infix "==" := keq (at level 70, no associativity) : K_scope.
Notation "0" := k0 : K_scope. Notation "1" := k1 : K_scope.

Section Sums.
Context {A : dops}.
Open Scope K_scope.
(** the integer n as a scalar *)
Fixpoint kofn (n : nat) : A := match n with O => 0 | S m => kofn m + 1 end.
(** mathematical sum over i < n *)
Fixpoint ksum (n : nat) (f : nat -> A) : A := match n with O => 0 | S m => ksum m f + f m end.
(** the rational number 1/n *)
Definition kinv (n : nat) : A := 1 / kofn n.
Definition kdelta (i j : nat) : A := if Nat.eqb i j then 1 else 0.
End Sums.

Record dlaws (A : dops) : Prop := mkdlaws {
  keq_equiv : Equivalence (@keq A);
  kadd_p : Proper (keq ==> keq ==> keq) (@kadd A);
  kmul_p : Proper (keq ==> keq ==> keq) (@kmul A);
  ksub_p : Proper (keq ==> keq ==> keq) (@ksub A);
  kopp_p : Proper (keq ==> keq) (@kopp A);
  k_ring : ring_theory (@k0 A) k1 kadd kmul ksub kopp keq;
  kdiv_p : Proper (keq ==> keq ==> keq) (@kdiv A);
  kdiv_law : forall x y z : A, (y * z == 1)%K -> ((x / y) * y == x)%K;
  kchar0 : forall n, n <> O -> exists z : A, (kofn n * z == 1)%K;
  kd_p : forall i, Proper (keq ==> keq) (@kd A i);
  kd_add : forall i (x y : A), (kd i (x + y) == kd i x + kd i y)%K;
  kd_mul : forall i (x y : A), (kd i (x * y) == kd i x * y + x * kd i y)%K;
  kd_comm : forall i j (x : A), (kd i (kd j x) == kd j (kd i x))%K;
  ksimp_law : forall x : A, (ksimp x == x)%K;
  kminv_law : forall n (g gi : nat -> nat -> A), kminv n g = Some gi -> forall i j, (i < n)%nat -> (j < n)%nat ->
    (ksum n (fun m => g i m * gi m j) == kdelta i j)%K /\ (ksum n (fun m => gi i m * g m j) == kdelta i j)%K
}.

Section Theory.
Context {A : dops} (L : dlaws A).
Open Scope K_scope.
Local Instance KE : Equivalence (@keq A) := keq_equiv A L.
Local Instance KaP : Proper (keq ==> keq ==> keq) (@kadd A) := kadd_p A L.
Local Instance KmP : Proper (keq ==> keq ==> keq) (@kmul A) := kmul_p A L.
Local Instance KsP : Proper (keq ==> keq ==> keq) (@ksub A) := ksub_p A L.
Local Instance KoP : Proper (keq ==> keq) (@kopp A) := kopp_p A L.
Local Instance KdP i : Proper (keq ==> keq) (@kd A i) := kd_p A L i.
Local Instance KvP : Proper (keq ==> keq ==> keq) (@kdiv A) := kdiv_p A L.
Add Ring Kring : (k_ring A L).

Lemma kinv_law n : n <> O -> @kofn A n * kinv n == 1.
Proof.
  intros H. destruct (kchar0 A L n H) as [z Hz]. unfold kinv. rewrite <- (kdiv_law A L 1 (kofn n) z Hz) at 2. ring.
Qed.
Lemma kdiv_mul (x y z : A) : y * z == 1 -> x / y == x * z.
Proof.
  intros H. transitivity (x / y * (y * z)); [rewrite H; ring|]. transitivity ((x / y * y) * z); [ring|]. rewrite (kdiv_law A L x y z H). reflexivity.
Qed.
Lemma kdiv_n (x : A) n : n <> O -> x / kofn n == kinv n * x.
Proof. intros H. rewrite (kdiv_mul x (kofn n) (kinv n)) by (apply kinv_law; exact H). ring. Qed.
Lemma ksum_ext n (f g : nat -> A) : (forall i, (i < n)%nat -> f i == g i) -> ksum n f == ksum n g.
Proof.
  induction n as [|n IH]; intros H; cbn [ksum]; [reflexivity|].
  rewrite IH by (intros; apply H; lia). rewrite (H n) by lia. reflexivity.
Qed.
Lemma ksum_add n (f g : nat -> A) : ksum n (fun i => f i + g i) == ksum n f + ksum n g.
Proof. induction n as [|n IH]; cbn [ksum]; [ring|]. rewrite IH. ring. Qed.
Lemma ksum_sub n (f g : nat -> A) : ksum n (fun i => f i - g i) == ksum n f - ksum n g.
Proof. induction n as [|n IH]; cbn [ksum]; [ring|]. rewrite IH. ring. Qed.
Lemma ksum_opp n (f : nat -> A) : ksum n (fun i => - f i) == - ksum n f.
Proof. induction n as [|n IH]; cbn [ksum]; [ring|]. rewrite IH. ring. Qed.
Lemma ksum_l n (c : A) f : ksum n (fun i => c * f i) == c * ksum n f.
Proof. induction n as [|n IH]; cbn [ksum]; [ring|]. rewrite IH. ring. Qed.
Lemma ksum_r n (c : A) f : ksum n (fun i => f i * c) == ksum n f * c.
Proof. induction n as [|n IH]; cbn [ksum]; [ring|]. rewrite IH. ring. Qed.
Lemma ksum_0 n : ksum n (fun _ => 0 : A) == 0.
Proof. induction n as [|n IH]; cbn [ksum]; [reflexivity|]. rewrite IH. ring. Qed.
Lemma ksum_zero n (f : nat -> A) : (forall i, (i < n)%nat -> f i == 0) -> ksum n f == 0.
Proof. intros H. rewrite (ksum_ext n f (fun _ => 0)) by exact H. apply ksum_0. Qed.
Lemma ksum_swap n m (f : nat -> nat -> A) : ksum n (fun i => ksum m (fun j => f i j)) == ksum m (fun j => ksum n (fun i => f i j)).
Proof.
  induction n as [|n IH]; cbn [ksum]; [symmetry; apply ksum_0|]. rewrite IH. symmetry. apply ksum_add.
Qed.
Lemma ksum_delta n k (f : nat -> A) : (k < n)%nat -> ksum n (fun i => kdelta k i * f i) == f k.
Proof.
  induction n as [|n IH]; intros H; [lia|]. cbn [ksum]. destruct (Nat.eq_dec k n) as [->|N].
  - rewrite ksum_zero.
    + unfold kdelta. rewrite Nat.eqb_refl. ring.
    + intros i Hi. unfold kdelta. destruct (Nat.eqb_spec n i); [lia|ring].
  - rewrite IH by lia. unfold kdelta. destruct (Nat.eqb_spec k n); [lia|ring].
Qed.
Lemma kdelta_sym i j : @kdelta A i j = kdelta j i.
Proof. unfold kdelta. rewrite Nat.eqb_sym. reflexivity. Qed.
Lemma ksum_delta_r n k (f : nat -> A) : (k < n)%nat -> ksum n (fun i => f i * kdelta i k) == f k.
Proof.
  intros H. rewrite (ksum_ext n _ (fun i => kdelta k i * f i)) by (intros; rewrite (kdelta_sym i k); ring). apply ksum_delta; exact H.
Qed.
Lemma ksum_one n : ksum n (fun _ => 1 : A) == kofn n.
Proof. induction n as [|n IH]; cbn [ksum kofn]; [reflexivity|]. rewrite IH. reflexivity. Qed.
Lemma ksum_trace_delta n : ksum n (fun i => @kdelta A i i) == kofn n.
Proof. rewrite <- ksum_one. apply ksum_ext. intros i _. unfold kdelta. rewrite Nat.eqb_refl. reflexivity. Qed.

Lemma kd_0 i : kd i (0 : A) == 0.
Proof.
  assert (H := kd_add A L i 0 0). rewrite (kd_p A L i (0 + 0) 0) in H by ring.
  transitivity (kd i (0:A) + kd i (0:A) - kd i (0:A)); [ring|]. rewrite <- H at 1. ring.
Qed.
Lemma kd_1 i : kd i (1 : A) == 0.
Proof.
  assert (H := kd_mul A L i 1 1). rewrite (kd_p A L i (1 * 1) 1) in H by ring.
  transitivity (kd i (1:A) * 1 + 1 * kd i (1:A) - kd i (1:A)); [ring|]. rewrite <- H at 1. ring.
Qed.
Lemma kd_opp i (x : A) : kd i (- x) == - kd i x.
Proof.
  assert (H := kd_add A L i x (- x)). rewrite (kd_p A L i (x + - x) 0), kd_0 in H by ring.
  transitivity (kd i x + kd i (- x) - kd i x); [ring|]. rewrite <- H. ring.
Qed.
Lemma kd_sub i (x y : A) : kd i (x - y) == kd i x - kd i y.
Proof. rewrite (kd_p A L i (x - y) (x + - y)) by ring. rewrite (kd_add A L), kd_opp. ring. Qed.
Lemma kd_sum i n (f : nat -> A) : kd i (ksum n f) == ksum n (fun j => kd i (f j)).
Proof. induction n as [|n IH]; cbn [ksum]; [apply kd_0|]. rewrite (kd_add A L), IH. reflexivity. Qed.
Lemma kd_ofn i n : kd i (@kofn A n) == 0.
Proof. induction n as [|n IH]; cbn [kofn]; [apply kd_0|]. rewrite (kd_add A L), IH, kd_1. ring. Qed.
Lemma kinv_cancel n (x y : A) : n <> O -> kofn n * x == kofn n * y -> x == y.
Proof.
  intros Hn H. transitivity (kofn n * kinv n * x); [rewrite kinv_law by exact Hn; ring|].
  transitivity (kinv n * (kofn n * x)); [ring|]. rewrite H. transitivity (kofn n * kinv n * y); [ring|]. rewrite kinv_law by exact Hn. ring.
Qed.
Lemma kd_inv i n : n <> O -> kd i (@kinv A n) == 0.
Proof.
  intros Hn. apply (kinv_cancel n); [exact Hn|]. transitivity (kd i (kofn n * @kinv A n)).
  - rewrite (kd_mul A L), kd_ofn. ring.
  - rewrite (kd_p A L i _ _ (kinv_law n Hn)), kd_1. ring.
Qed.
Lemma kofn_add n m : @kofn A (n + m) == kofn n + kofn m.
Proof. induction m as [|m IH]; [rewrite Nat.add_0_r; cbn [kofn]; ring|]. rewrite Nat.add_succ_r. cbn [kofn]. rewrite IH. ring. Qed.
Lemma kofn_mul n m : @kofn A (n * m) == kofn n * kofn m.
Proof. induction m as [|m IH]; [rewrite Nat.mul_0_r; cbn [kofn]; ring|]. rewrite Nat.mul_succ_r, kofn_add. cbn [kofn]. rewrite IH. ring. Qed.
Lemma half_half (x : A) : kinv 2 * x + kinv 2 * x == x.
Proof.
  transitivity (kofn 2 * kinv 2 * x); [cbn [kofn]; ring|]. rewrite kinv_law by discriminate. ring.
Qed.
End Theory.
