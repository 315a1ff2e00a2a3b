(** FloatLU.v: the equations, pivoting, and the accuracy of the computed inverse. *)
From Coq Require Import String Reals List ZArith Lra Lia Bool.
From Verif Require Import Base GeoUtilsModel FloatModel FloatExact FloatGlobal.
From Verif Require Import FloatLU FloatLU2.
Import ListNotations.
Open Scope R_scope.

Fixpoint dotl (l m : list R) : R := match l, m with x :: l, y :: m => x * y + dotl l m | _, _ => 0 end.
Definition nege (q c : nat) : list R := map (fun k => if Nat.eqb k c then -1 else 0) (seq 0 q).
Definition col (c : nat) (X : list (list R)) : list R := map (fun x => nth c x 0) X.
Definition solves (q : nat) (X R0 : list (list R)) : Prop := forall c, (c < q)%nat -> Forall (fun row => dotl row (col c X ++ nege q c) = 0) R0.
Definition nonsing (n q : nat) (R0 : list (list R)) : Prop := forall y, length y = n -> Forall (fun row => dotl row (y ++ repeat 0 q) = 0) R0 -> Forall (fun x => x = 0) y.
Definition shape (n k : nat) (R0 : list (list R)) : Prop := length R0 = n /\ Forall (fun row => length row = k) R0.

Lemma dot_axpy l xs ys Z : length xs = length ys -> dotl (axpy l xs ys) Z = dotl xs Z - l * dotl ys Z.
Proof. revert ys Z. induction xs as [|x xs IH]; intros [|y ys] [|z Z] H; cbn in *; try lia; try lra. rewrite IH by lia. ring. Qed.
Lemma dot_elim r row z Z k : length r = S k -> length row = S k -> hd 0 r <> 0 -> dotl (elim r row) Z = dotl row (z :: Z) - hd 0 row * / hd 0 r * dotl r (z :: Z).
Proof.
  intros L1 L2 H. destruct r as [|a r]; [discriminate|]. destruct row as [|b row]; [discriminate|]. cbn in L1, L2. unfold elim. cbn [hd tl dotl] in *. rewrite dot_axpy by lia. field. exact H.
Qed.
Lemma elim_length r row k : length r = S k -> length row = S k -> length (elim r row) = k.
Proof. intros L1 L2. destruct r; [discriminate|]. destruct row; [discriminate|]. cbn in *. unfold elim; cbn [tl]. rewrite axpy_length; lia. Qed.
(** ** pivoting *)
Lemma imax_spec l : forall best bi i, (bi < i)%nat -> let p := imax best bi i l in ((p = bi /\ forall k, (k < length l)%nat -> Rabs (nth k l 0) <= best) \/
  (exists k, (k < length l)%nat /\ p = (i + k)%nat /\ best < Rabs (nth k l 0) /\ forall k', (k' < length l)%nat -> Rabs (nth k' l 0) <= Rabs (nth k l 0))).
Proof.
  induction l as [|x l IH]; intros best bi i Hi; cbn [imax]; [left; split; [reflexivity|intros k Hk; cbn in Hk; lia]|].
  destruct (Rlt_dec best (Rabs x)) as [L|N].
  - destruct (IH (Rabs x) i (S i) ltac:(lia)) as [(E & H)|(k & Hk & E & L2 & H)].
    + right. exists 0%nat. cbn [length nth]. split; [lia|]. split; [rewrite E; lia|]. split; [exact L|]. intros [|k'] Hk'; [lra|]. apply H. lia.
    + right. exists (S k). cbn [length nth]. split; [lia|]. split; [rewrite E; lia|]. split; [lra|]. intros [|k'] Hk'; [lra|]. apply H. lia.
  - destruct (IH best bi (S i) ltac:(lia)) as [(E & H)|(k & Hk & E & L2 & H)].
    + left. split; [exact E|]. intros [|k] Hk; [cbn; lra|]. apply H. cbn in Hk. lia.
    + right. exists (S k). cbn [length nth]. split; [lia|]. split; [rewrite E; lia|]. split; [lra|]. intros [|k'] Hk'; [lra|]. apply H. lia.
Qed.
Lemma idamax_spec l : l <> [] -> (idamax l < length l)%nat /\ forall k, (k < length l)%nat -> Rabs (nth k l 0) <= Rabs (nth (idamax l) l 0).
Proof.
  intros H. destruct l as [|x l]; [congruence|]. cbn [idamax]. destruct (imax_spec l (Rabs x) 0%nat 1%nat ltac:(lia)) as [(E & K)|(k & Hk & E & L & K)].
  - rewrite E. split; [cbn; lia|]. intros [|k] Hk; [lra|]. apply K. cbn in Hk. lia.
  - rewrite E. cbn [Nat.add length nth]. split; [lia|]. intros [|k'] Hk'; [lra|]. apply K. lia.
Qed.
Lemma put_Forall {B} (P : B -> Prop) (dflt : B) p r rs : (p < length rs)%nat -> (P (nth p rs dflt) /\ Forall P (put p r rs)) <-> (P r /\ Forall P rs).
Proof.
  revert p. induction rs as [|s rs IH]; intros p H; [cbn in H; lia|]. destruct p as [|p]; cbn [nth put].
  - split; intros (H1 & H2); inversion H2; subst; repeat constructor; assumption.
  - cbn in H. assert (I := IH p ltac:(lia)). split; intros (H1 & H2); inversion H2; subst.
    + destruct (proj1 I (Logic.conj H1 H5)). split; [assumption|constructor; assumption].
    + destruct (proj2 I (Logic.conj H1 H5)). split; [assumption|constructor; assumption].
Qed.
Lemma pick_Forall {B} (P : B -> Prop) dflt p rows : (p < length rows)%nat -> (P (fst (pick dflt p rows)) /\ Forall P (snd (pick dflt p rows))) <-> Forall P rows.
Proof.
  intros H. destruct rows as [|r rs]; [cbn in H; lia|]. destruct p as [|p]; cbn [pick fst snd].
  - split; [intros (H1 & H2); constructor; assumption|intros K; inversion K; split; assumption].
  - cbn in H. rewrite (put_Forall P dflt p r rs) by lia. split; [intros (H1 & H2); constructor; assumption|intros K; inversion K; split; assumption].
Qed.
Lemma put_length {B} p (r : B) rs : length (put p r rs) = length rs.
Proof. revert p. induction rs as [|s rs IH]; intros [|p]; cbn; auto. Qed.
Lemma pick_length {B} (dflt : B) p rows n : length rows = S n -> length (snd (pick dflt p rows)) = n.
Proof. destruct rows as [|r rs]; [discriminate|]. intros H. cbn in H. destruct p; cbn [pick snd]; [lia|rewrite put_length; lia]. Qed.
Lemma pick_fst {B} (dflt : B) p rows : fst (pick dflt p rows) = nth p rows dflt.
Proof. destruct rows as [|r rs]; [destruct p; reflexivity|]. destruct p; reflexivity. Qed.
Lemma Forall2_nth_ {B D} (P : B -> D -> Prop) l m x y p : Forall2 P l m -> (p < length l)%nat -> P (nth p l x) (nth p m y).
Proof. intros H. revert p. induction H; intros p Hp; [cbn in Hp; lia|]. destruct p; cbn; [assumption|]. apply IHForall2. cbn in Hp. lia. Qed.
Lemma put_Forall2 {B D} (P : B -> D -> Prop) p r s l m : P r s -> Forall2 P l m -> Forall2 P (put p r l) (put p s m).
Proof. intros Hr H. revert p. induction H; intros [|p]; cbn [put]; constructor; auto. Qed.
Lemma pick_near e p rows rows0 : (p < length rows)%nat -> nears e rows rows0 -> near e (fst (pick [] p rows)) (fst (pick [] p rows0)) /\ nears e (snd (pick [] p rows)) (snd (pick [] p rows0)).
Proof.
  intros Hp H. destruct H as [|r r0 rs rs0 Hr H]; [cbn in Hp; lia|]. destruct p as [|p]; cbn [pick fst snd]; [split; assumption|]. cbn in Hp. split; [apply (Forall2_nth_ _ _ _ _ _ p H); lia|apply put_Forall2; assumption].
Qed.
Lemma Forall2_len {B D} (P : B -> D -> Prop) l m : Forall2 P l m -> length l = length m.
Proof. induction 1; cbn; auto. Qed.
Lemma near_trans a b l m k : near a l m -> near b m k -> near (a + b) l k.
Proof. intros H. revert k. induction H as [|x y l m H HH IH]; intros k K; inversion K; subst; constructor; [|apply IH; assumption]. match goal with |- Rabs (?x - ?z) <= _ => replace (x - z) with ((x - y) + (y - z)) by ring end. eapply Rle_trans; [apply Rabs_triang|lra]. Qed.

Lemma elim_all r l z Z k : length r = S k -> hd 0 r <> 0 -> dotl r (z :: Z) = 0 -> Forall (fun row => length row = S k) l -> Forall (fun row => dotl row (z :: Z) = 0) l <-> Forall (fun row => dotl (elim r row) Z = 0) l.
Proof.
  intros L1 Hh E L2. induction L2 as [|x l Lx L2 IH]; [split; constructor|]. assert (D := dot_elim r x z Z k L1 Lx Hh). rewrite E in D.
  split; intros H; inversion H; subst; constructor; try lra; apply IH; assumption.
Qed.
(** ** the steps preserve the equations *)
Section Steps.
Variables (n q p : nat) (R0 : list (list R)).
Hypothesis Hsh : shape (S n) (S n + q) R0.
Hypothesis Hp : (p < S n)%nat.
Hypothesis Hh : hd 0 (nth p R0 []) <> 0.
Let r := fst (pick [] p R0). Let rest := snd (pick [] p R0).
Lemma Er : r = nth p R0 []. Proof. apply pick_fst. Qed.
Lemma Hr : length r = S (n + q) /\ Forall (fun row => length row = S (n + q)) rest.
Proof. apply (pick_Forall (fun row => length row = S (n + q)) [] p R0); [rewrite (proj1 Hsh); exact Hp|apply Hsh]. Qed.
Lemma step_eq : step p R0 = map (elim r) rest.
Proof. unfold step, r, rest. destruct (pick [] p R0). reflexivity. Qed.
Lemma step_shape : shape n (n + q) (step p R0).
Proof.
  rewrite step_eq. split; [rewrite map_length; apply pick_length, Hsh|]. apply Forall_map. destruct Hr as (L1 & L2). revert L2. apply Forall_impl. intros row L2. apply (elim_length r row (n + q)); assumption.
Qed.
Lemma step_dot z Z : dotl r (z :: Z) = 0 -> Forall (fun row => dotl row (z :: Z) = 0) R0 <-> Forall (fun row => dotl row Z = 0) (step p R0).
Proof.
  intros E. rewrite <- (pick_Forall _ [] p R0) by (rewrite (proj1 Hsh); exact Hp). fold r rest. rewrite step_eq, Forall_map.
  destruct Hr as (L1 & L2). rewrite <- (elim_all r rest z Z (n + q) L1 ltac:(rewrite Er; exact Hh) E L2). split; [intros (_ & H); exact H|intros H; split; assumption].
Qed.
Lemma step_nonsing : nonsing (S n) q R0 -> nonsing n q (step p R0).
Proof.
  intros H y Ly Hy. destruct Hr as (L1 & _). destruct r as [|a r'] eqn:Er'; [discriminate L1|]. assert (Ha : a <> 0) by (intros ->; apply Hh; rewrite <- Er, Er'; reflexivity).
  set (z := - (dotl r' (y ++ repeat 0 q)) / a).
  assert (D : dotl r (z :: (y ++ repeat 0 q)) = 0) by (rewrite Er'; cbn [dotl]; unfold z; field; exact Ha).
  apply (step_dot z) in Hy; [|exact D]. assert (Q := H (z :: y) ltac:(cbn; lia) Hy). inversion Q; assumption.
Qed.
Lemma step_solves x X : solves q (x :: X) R0 -> solves q X (step p R0).
Proof.
  intros H c Hc. specialize (H c Hc). cbn [col map app] in H. assert (D : dotl r (nth c x 0 :: (col c X ++ nege q c)) = 0).
  { apply (pick_Forall _ [] p R0) in H; [|rewrite (proj1 Hsh); exact Hp]. apply H. }
  apply (step_dot (nth c x 0)); assumption.
Qed.
End Steps.
Lemma pivot_exists n q R0 : shape (S n) (S n + q) R0 -> nonsing (S n) q R0 -> exists p, (p < S n)%nat /\ hd 0 (nth p R0 []) <> 0.
Proof.
  intros (L & Hs) H. destruct (Forall_Exists_dec (fun row => hd 0 row = 0) (fun row => Req_EM_T (hd 0 row) 0) R0) as [All|Ex].
  - exfalso. assert (Q : Forall (fun x => x = 0) (1 :: repeat 0 n)).
    { apply H; [cbn; rewrite repeat_length; reflexivity|]. revert All. apply Forall_impl. intros row E. destruct row as [|a row]; [reflexivity|]. cbn [hd] in E. subst a. cbn [app dotl].
      assert (Z : forall m l, dotl l (repeat 0 n ++ repeat 0 m) = 0). { intros m l. rewrite <- repeat_app. generalize (n + m)%nat. intros k. revert k. induction l as [|u l IH]; intros [|k]; cbn; try reflexivity. rewrite IH. ring. }
      rewrite Z. ring. }
    inversion Q. lra.
  - apply Exists_nth in Ex. destruct Ex as (p & d & Hp & E). exists p. split; [lia|]. rewrite (nth_indep R0 [] d Hp). exact E.
Qed.
(** the exact back substitution gives the unknown *)
Lemma dot_nege us q c : length us = q -> (c < q)%nat -> nth c us 0 = - dotl us (nege q c).
Proof.
  unfold nege. intros L Hc. assert (G : forall us s c, (s <= c)%nat -> (c < s + length us)%nat -> nth (c - s) us 0 = - dotl us (map (fun k => if Nat.eqb k c then -1 else 0) (seq s (length us)))).
  { clear. induction us as [|u us IH]; intros s c H1 H2; [cbn in H2; lia|]. cbn [length seq map dotl]. destruct (Nat.eqb_spec s c) as [->|N].
    - rewrite Nat.sub_diag. cbn [nth]. assert (Z : forall us s, (c < s)%nat -> dotl us (map (fun k => if Nat.eqb k c then -1 else 0) (seq s (length us))) = 0).
      { clear. induction us as [|u us IH]; intros s H; [reflexivity|]. cbn [length seq map dotl]. destruct (Nat.eqb_spec s c); [lia|]. rewrite IH by lia. ring. }
      rewrite Z by lia. ring.
    - replace (c - s)%nat with (S (c - S s))%nat by lia. cbn [nth]. rewrite (IH (S s) c) by (cbn in H2; lia). ring. }
  specialize (G us 0%nat c ltac:(lia) ltac:(lia)). rewrite Nat.sub_0_r, L in G. exact G.
Qed.
Lemma nth_axpy l xs ys c : length xs = length ys -> nth c (axpy l xs ys) 0 = nth c xs 0 - l * nth c ys 0.
Proof. revert ys c. induction xs as [|x xs IH]; intros [|y ys] [|c] H; cbn in *; try lia; try lra; try (apply IH; lia). Qed.
Lemma back_nth q X : forall us c, length us = (length X + q)%nat -> Forall (fun x => length x = q) X -> (c < q)%nat -> length (back us X) = q /\ nth c (back us X) 0 = - dotl us (col c X ++ nege q c).
Proof.
  induction X as [|x X IH]; intros us c L HX Hc.
  - cbn [back col map app]. cbn in L. split; [exact L|apply dot_nege; assumption].
  - destruct us as [|u us]; [cbn in L; lia|]. inversion HX; subst. cbn in L. destruct (IH us c ltac:(lia) ltac:(assumption) Hc) as (L1 & E). cbn [back]. split; [rewrite axpy_length; lia|].
    rewrite nth_axpy by lia. rewrite E. cbn [col map app dotl]. fold (col c X). ring.
Qed.
Lemma back_solves q r x X : hd 0 r <> 0 -> length r = S (length X + q) -> length x = q -> Forall (fun x => length x = q) X ->
  (forall c, (c < q)%nat -> dotl r (col c (x :: X) ++ nege q c) = 0) -> map (fun y => y / hd 0 r) (back (tl r) X) = x.
Proof.
  intros Hh Lr Lx HX H. destruct r as [|u us]; [discriminate|]. cbn [hd tl] in *. cbn in Lr.
  destruct (Nat.eq_dec q 0) as [->|Nq].
  { destruct x; [|discriminate]. assert (Z : length (back us X) = 0%nat). { clear - Lr HX. revert us Lr. induction X as [|y X IH]; intros us L; [cbn in *; lia|]. destruct us as [|u us]; [cbn in L; lia|]. inversion HX; subst. cbn in L. cbn [back]. rewrite axpy_length; rewrite IH by (try assumption; lia); lia. } destruct (back us X); [reflexivity|discriminate]. }
  assert (LB : length (back us X) = q) by (apply (back_nth q X us 0%nat); try assumption; lia).
  apply nth_ext with (d := 0) (d' := 0); [rewrite map_length; lia|]. intros c Hc. rewrite map_length in Hc. rewrite (nth_indep _ 0 (0 / u)) by (rewrite map_length; lia). rewrite (map_nth (fun y => y / u)).
  destruct (back_nth q X us c ltac:(lia) HX ltac:(lia)) as (_ & E). rewrite E. specialize (H c ltac:(lia)). cbn [col map app dotl] in H. fold (col c X) in H.
  apply Rmult_eq_reg_r with u; [|exact Hh]. unfold Rdiv. rewrite Rmult_assoc, Rinv_l, Rmult_1_r by exact Hh. lra.
Qed.

(** ** the main induction *)
Definition afterA (A : arith) (n p : nat) (rows : list (list R)) : Res (list (list R)) :=
  let '(r, rest) := pick [] p rows in
  let* f := a_div A 1 (hd 0 r) in let* rest' := seqR (elimA A f r) rest in let* X := gesvA A n rest' in let* b := backA A (tl r) X in let* x := seqR (fun y => a_div A y (hd 0 r)) b in Ok (x :: X).
Lemma gesv_after A n rows : gesvA A (S n) rows = (let p := idamax (map (hd 0) rows) in if Req_EM_T (hd 0 (nth p rows [])) 0 then Err LinAlgError else afterA A n p rows).
Proof. cbn [gesvA]. unfold afterA. cbv zeta. rewrite <- (pick_fst [] (idamax (map (hd 0) rows)) rows). destruct (pick [] (idamax (map (hd 0) rows)) rows) as [r rest]. reflexivity. Qed.
(** what is to be shown of a way go of continuing *)
Definition accurate_near (n q : nat) (go : arith -> list (list R) -> Res (list (list R))) (R0 : list (list R)) (r C : R) : Prop :=
  forall d A R1 R' X, 0 <= d < r -> accurate d A -> nears r R1 R0 -> nears d R' R1 -> shape n q X -> solves q X R1 -> bnds C X /\ exists X', go A R' = Ok X' /\ nears (C * d) X' X.
Lemma accurate_near_le n q go R0 r C r' C' : r' <= r -> C <= C' -> accurate_near n q go R0 r C -> accurate_near n q go R0 r' C'.
Proof.
  intros Hr HC H d A R1 R' X Hd HA N1 N' Hs HX. destruct (H d A R1 R' X ltac:(lra) HA (nears_le _ _ _ _ Hr N1) N' Hs HX) as (B & X' & E & N). split; [eapply bnds_le; eassumption|]. exists X'. split; [exact E|]. eapply nears_le; [|exact N]. apply Rmult_le_compat_r; lra.
Qed.
Lemma finite_choice (Q : nat -> R -> R -> Prop) N : (forall p r C r' C', r' <= r -> C <= C' -> Q p r C -> Q p r' C') -> (forall p, (p < N)%nat -> exists r C, 0 < r /\ 0 <= C /\ Q p r C) ->
  exists r C, 0 < r /\ 0 <= C /\ forall p, (p < N)%nat -> Q p r C.
Proof.
  intros Mono. induction N as [|N IH]; intros H; [exists 1, 0; split; [lra|]; split; [lra|]; intros p Hp; lia|].
  destruct IH as (r1 & C1 & R1 & P1 & H1). { intros p Hp. apply H. lia. } destruct (H N ltac:(lia)) as (r2 & C2 & R2 & P2 & H2).
  exists (Rmin r1 r2), (C1 + C2). split; [apply Rmin_pos; assumption|]. split; [lra|]. intros p Hp. destruct (Nat.eq_dec p N) as [->|Ne].
  - apply (Mono N r2 C2); [apply Rmin_r|lra|exact H2].
  - apply (Mono p r1 C1); [apply Rmin_l|lra|apply H1; lia].
Qed.
Lemma Forall2_refl_near e l : 0 <= e -> near e l l.
Proof. intros He. induction l; constructor; [rewrite Rminus_eq_0, Rabs_R0; exact He|assumption]. Qed.
