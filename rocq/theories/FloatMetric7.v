(** C116: f_vec of the metric classes as lists of programs in lambda_, position and velocity; f_vec in floating point follows them. *)
From Coq Require Import String Reals List ZArith Lra Lia Bool.
From Coquelicot Require Import Coquelicot.
From Verif Require Import Base Calc DualModel DualSpec DualProofs DualDiff GeoUtilsModel GeoUtilsSpec GeoUtilsProofs CoordModel CoordProofs2 ConvModel ConvProofs FantasyModel FantasyHam ProgCont FantasyOrder FantasyGlobal FantasyGlobal2 FantasyGlobal3
  RKModel RKProofs RKOrder RKOrder2 RKGlobal RKGlobal2 RKProg
  MetricModel MetricSpec MetricProofs MetricProofs2 MetricProofs3 MetricProofs4 MetricUnify MetricHamilton MetricHamilton2 MetricRK FloatModel FloatTrack FloatRK.
From Verif Require Import FloatRKG FloatMetricModel FloatMetric FloatMetric2 FloatMetric3 FloatMetric4 FloatMetric5.
Import ListNotations.
Open Scope R_scope.

(** *** substitution of programs for variables *)
Fixpoint subst (s : nat -> pexpr) (p : pexpr) : pexpr :=
  match p with
  | EVar i => s i | EConst x => EConst x
  | EAdd a b => EAdd (subst s a) (subst s b) | ESub a b => ESub (subst s a) (subst s b) | EMul a b => EMul (subst s a) (subst s b) | EDiv a b => EDiv (subst s a) (subst s b)
  | ENeg a => ENeg (subst s a) | EPow a n => EPow (subst s a) n | EPowR a q => EPowR (subst s a) q
  | ESin a => ESin (subst s a) | ECos a => ECos (subst s a) | ETan a => ETan (subst s a) | ELog a => ELog (subst s a) | EExp a => EExp (subst s a)
  end.
Lemma subst_meaning z s p : meaning z (subst s p) = meaning (fun k => meaning z (s k)) p.
Proof. induction p; cbn [subst meaning]; rewrite ?IHp, ?IHp1, ?IHp2; reflexivity. Qed.
Lemma subst_below m n s p : below m p = true -> (forall k, (k < m)%nat -> below n (s k) = true) -> below n (subst s p) = true.
Proof.
  intros Hb Hs. induction p; cbn [subst below] in *; try (apply andb_prop in Hb as [H1 H2]; rewrite IHp1, IHp2 by assumption; reflexivity); auto.
  apply Hs. apply Nat.ltb_lt. exact Hb.
Qed.
Lemma subst_defined m z s p : below m p = true -> (forall k, (k < m)%nat -> defined_at z (s k)) -> defined_at (fun k => meaning z (s k)) p -> defined_at z (subst s p).
Proof.
  intros Hb Hs. induction p; cbn [subst below defined_at] in *; intros Hd; try (apply andb_prop in Hb as [H1 H2]); rewrite ?subst_meaning; try tauto.
  apply Hs. apply Nat.ltb_lt. exact Hb.
Qed.

(** *** matrices of programs *)
Definition mtx := nat -> nat -> pexpr.
Definition mz (z : nat -> R) (m : mtx) : M4 := mtab (fun a b => meaning z (m a b)).
Definition dotE (a b : nat -> pexpr) : pexpr := a 0%nat .* b 0%nat .+ a 1%nat .* b 1%nat .+ a 2%nat .* b 2%nat .+ a 3%nat .* b 3%nat.
Definition mmE (m k : mtx) : mtx := fun i j => dotE (fun a => k a j) (m i).
Definition mvE (m : mtx) (v : nat -> pexpr) : nat -> pexpr := fun i => dotE (m i) v.
Definition minorE (m : mtx) (i j : nat) : pexpr :=
  let e a b := m (skip i a) (skip j b) in
  e 0%nat 0%nat .* (e 1%nat 1%nat .* e 2%nat 2%nat .- e 1%nat 2%nat .* e 2%nat 1%nat)
  .- e 0%nat 1%nat .* (e 1%nat 0%nat .* e 2%nat 2%nat .- e 1%nat 2%nat .* e 2%nat 0%nat)
  .+ e 0%nat 2%nat .* (e 1%nat 0%nat .* e 2%nat 1%nat .- e 1%nat 1%nat .* e 2%nat 0%nat).
Definition detE (m : mtx) : pexpr := m 0%nat 0%nat .* minorE m 0 0 .- m 0%nat 1%nat .* minorE m 0 1 .+ m 0%nat 2%nat .* minorE m 0 2 .- m 0%nat 3%nat .* minorE m 0 3.
Definition invE (m : mtx) : mtx := fun i j => #(sgn4 i j) .* minorE m j i ./ detE m.
Definition allM (P : pexpr -> Prop) (m : mtx) : Prop := forall i j, (i < 4)%nat -> (j < 4)%nat -> P (m i j).
Lemma det_mean z m : meaning z (detE m) = det4 (mz z m).
Proof. reflexivity. Qed.
Lemma inv_mean z m i j : (i < 4)%nat -> (j < 4)%nat -> meaning z (invE m i j) = mnth (inv4 (mz z m)) i j.
Proof. intros Hi Hj. nat4' i Hi; (nat4' j Hj); reflexivity. Qed.
Lemma skip_lt i a : (i < 4)%nat -> (a < 3)%nat -> (skip i a < 4)%nat.
Proof. intros Hi Ha. unfold skip. destruct (Nat.ltb a i); lia. Qed.
Section Closed.
Variable P : pexpr -> Prop.
Hypothesis Ha : forall a b, P a -> P b -> P (a .+ b).
Hypothesis Hs : forall a b, P a -> P b -> P (a .- b).
Hypothesis Hm : forall a b, P a -> P b -> P (a .* b).
Lemma minor_closed m i j : allM P m -> (i < 4)%nat -> (j < 4)%nat -> P (minorE m i j).
Proof. intros H Hi Hj. unfold minorE. assert (E : forall a b, (a < 3)%nat -> (b < 3)%nat -> P (m (skip i a) (skip j b))) by (intros a b A B; apply H; apply skip_lt; assumption). repeat first [apply E; lia|apply Ha|apply Hs|apply Hm]. Qed.
Lemma det_closed m : allM P m -> P (detE m).
Proof. intros H. unfold detE. repeat first [apply minor_closed; [exact H|lia|lia]|apply H; lia|apply Ha|apply Hs|apply Hm]. Qed.
Lemma dot_closed a b : (forall i, (i < 4)%nat -> P (a i)) -> (forall i, (i < 4)%nat -> P (b i)) -> P (dotE a b).
Proof. intros H1 H2. unfold dotE. repeat first [apply H1; lia|apply H2; lia|apply Ha|apply Hm]. Qed.
Lemma mm_closed m k : allM P m -> allM P k -> allM P (mmE m k).
Proof. intros H1 H2 i j Hi Hj. apply dot_closed; intros a A; [apply H2|apply H1]; assumption. Qed.
Lemma mv_closed m v : allM P m -> (forall i, (i < 4)%nat -> P (v i)) -> forall i, (i < 4)%nat -> P (mvE m v i).
Proof. intros H1 H2 i Hi. apply dot_closed; [intros a A; apply H1; assumption|exact H2]. Qed.
End Closed.
Lemma bl_add n a b : below n a = true -> below n b = true -> below n (a .+ b) = true. Proof. intros A B. cbn [below]. rewrite A, B. reflexivity. Qed.
Lemma bl_sub n a b : below n a = true -> below n b = true -> below n (a .- b) = true. Proof. intros A B. cbn [below]. rewrite A, B. reflexivity. Qed.
Lemma bl_mul n a b : below n a = true -> below n b = true -> below n (a .* b) = true. Proof. intros A B. cbn [below]. rewrite A, B. reflexivity. Qed.
Lemma bl_div n a b : below n a = true -> below n b = true -> below n (a ./ b) = true. Proof. intros A B. cbn [below]. rewrite A, B. reflexivity. Qed.
Lemma df_add z a b : defined_at z a -> defined_at z b -> defined_at z (a .+ b). Proof. split; assumption. Qed.
Lemma df_sub z a b : defined_at z a -> defined_at z b -> defined_at z (a .- b). Proof. split; assumption. Qed.
Lemma df_mul z a b : defined_at z a -> defined_at z b -> defined_at z (a .* b). Proof. split; assumption. Qed.
Lemma inv_below n m : allM (fun p => below n p = true) m -> allM (fun p => below n p = true) (invE m).
Proof. intros H i j Hi Hj. apply bl_div; [apply bl_mul; [reflexivity|]|]; [apply (minor_closed (fun p => below n p = true) (bl_add n) (bl_sub n) (bl_mul n)); assumption|apply (det_closed (fun p => below n p = true) (bl_add n) (bl_sub n) (bl_mul n)); assumption]. Qed.
Lemma inv_defined z m : allM (defined_at z) m -> det4 (mz z m) <> 0 -> allM (defined_at z) (invE m).
Proof.
  intros H D i j Hi Hj. split; [split; [exact I|apply (minor_closed (defined_at z) (df_add z) (df_sub z) (df_mul z)); assumption]|]. split; [apply (det_closed (defined_at z) (df_add z) (df_sub z) (df_mul z)); assumption|]. rewrite det_mean. exact D.
Qed.
Lemma mz_mm z m k : mz z (mmE m k) = mm (mz z m) (mz z k).
Proof. reflexivity. Qed.
Lemma mz_mv z m v i : (i < 4)%nat -> meaning z (mvE m v i) = q4nth (mv (mz z m) (q4tab (fun a => meaning z (v a)))) i.
Proof. intros Hi. nat4' i Hi; reflexivity. Qed.

(** *** Kerr and Kerr-Newman *)
Section Objects.
Variables (c G Cc : R) (o : mobj).
Hypothesis Hc : c <> 0.
Notation sgv := (sgv c G o).
Notation dlv := (dlv c G Cc o).
(** the stored values sigma and delta *)
Definition s1 (k : nat) : pexpr := match k with 9 => sigmaE c G o | 10 => deltaE c G Cc o | _ => EVar k end%nat.
Definition gE (cov : mtx) : mtx := fun i j => subst s1 (cov i j).
Definition s2 (cov : mtx) (k : nat) : pexpr := if Nat.ltb k 11 then s1 k else invE (gE cov) ((k - 11) / 4)%nat ((k - 11) mod 4)%nat.
(** division by zero in here means f_vec has no finite value *)
Definition guardE (cov : mtx) : pexpr := #0 .* (#1 ./ sigmaE c G o .+ #1 ./ deltaE c G Cc o .+ #1 ./ detE (gE cov)).
Definition accE (cov : mtx) (dg : nat -> nat -> nat -> pexpr) (i : nat) : pexpr := subst (s2 cov) (blAccE (blChE dg) i) .+ guardE cov.
Definition velE (k : nat) : pexpr := EVar (5 + k).
Definition kerrP (i : nat) : pexpr := if Nat.ltb i 4 then velE i else accE (kerrCovE c G o) (kerrDgE c G o) (i - 4).
Definition s3 (k : nat) : pexpr := match k with 11 => EConst (rQv c G Cc o) | _ => s1 k end%nat.
Definition FE : mtx := fun i j => subst s3 (emE c G o i j).
Definition FcE : mtx := let gi := invE (gE (knCovE c G o)) in mmE (mmE gi FE) gi.
Definition chargeE (i : nat) : pexpr := #(q_val (mo_q o)) .* mvE (fun a b => gE (knCovE c G o) b a) (mvE FcE velE) i.
Definition knPq (i : nat) : pexpr := if Nat.ltb i 4 then velE i else accE (knCovE c G o) (knDgE c G o) (i - 4) .- chargeE (i - 4).

Lemma s1_below k : (k < 11)%nat -> below 9 (s1 k) = true.
Proof. intros H. do 11 (destruct k as [|k]; [reflexivity|]). lia. Qed.
Lemma sigma_defined z : defined_at z (sigmaE c G o).
Proof. unfold sigmaE, alphaE. cbn [defined_at meaning]. assert (P := c2ne c Hc). repeat match goal with |- _ /\ _ => split end; try exact I; try (left; discriminate); exact P. Qed.
Lemma delta_defined z : defined_at z (deltaE c G Cc o).
Proof. unfold deltaE, alphaE. cbn [defined_at meaning]. assert (P := c2ne c Hc). assert (P4 := c4ne c Hc). repeat match goal with |- _ /\ _ => split end; try exact I; try (left; discriminate); first [exact P|exact P4]. Qed.
Lemma s1_defined z k : (k < 11)%nat -> defined_at z (s1 k).
Proof. intros H. do 9 (destruct k as [|k]; [exact I|]). destruct k as [|k]; [apply sigma_defined|]. destruct k as [|k]; [apply delta_defined|]. lia. Qed.
Lemma s1_mean z k : (k < 11)%nat -> meaning z (s1 k) = E1 c G Cc o z k.
Proof. intros H. do 11 (destruct k as [|k]; [reflexivity|]). lia. Qed.
Section Class.
Variables (cov : mtx) (dg : nat -> nat -> nat -> pexpr).
Hypothesis Hcl : class cov dg.
Lemma covb i j : (i < 4)%nat -> (j < 4)%nat -> below 11 (cov i j) = true.
Proof. apply (proj1 Hcl (fun _ => 1)); exact R1_neq_R0. Qed.
Lemma dgb k i j : (k < 4)%nat -> (i < 4)%nat -> (j < 4)%nat -> below 11 (dg k i j) = true.
Proof. apply (proj2 Hcl (fun _ => 1)); exact R1_neq_R0. Qed.
Lemma g_mean z : mz z (gE cov) = gM c G Cc o cov z.
Proof.
  assert (E : forall a b, (a < 4)%nat -> (b < 4)%nat -> meaning z (gE cov a b) = meaning (E1 c G Cc o z) (cov a b)).
  { intros a b Ha Hb. unfold gE. rewrite subst_meaning. apply (meaning_ext_b 11); [apply covb; assumption|]. intros k Hk. apply s1_mean. exact Hk. }
  unfold mz, gM, mtab, q4tab. rewrite !E by lia. reflexivity.
Qed.
Lemma g_below : allM (fun p => below 9 p = true) (gE cov).
Proof. intros i j Hi Hj. apply (subst_below 11); [apply covb; assumption|apply s1_below]. Qed.
Lemma ext_def m z w p : below m p = true -> (forall k, (k < m)%nat -> z k = w k) -> defined_at w p -> defined_at z p.
Proof. intros H1 H2 H3.  apply (defined_ext_b m p w z); [exact H1| |exact H3]. intros k Hk. first [apply H2|symmetry; apply H2]; exact Hk. Qed.
Lemma g_defined z : sgv z <> 0 -> dlv z <> 0 -> allM (defined_at z) (gE cov).
Proof.
  intros S D i j Hi Hj. apply (subst_defined 11); [apply covb; assumption|apply s1_defined|]. apply (ext_def 11 _ (E1 c G Cc o z)); [apply covb; assumption|intros k Hk; apply s1_mean; exact Hk|].
  apply (proj1 Hcl); [exact S|exact D|exact Hi|exact Hj].
Qed.
Lemma s2_below k : (k < 27)%nat -> below 9 (s2 cov k) = true.
Proof.
  intros H. unfold s2. destruct (Nat.ltb_spec k 11) as [L|L]; [apply s1_below; exact L|]. apply (inv_below 9 (gE cov) g_below); [apply Nat.div_lt_upper_bound; lia|apply Nat.mod_upper_bound; lia].
Qed.
Lemma s2_defined z k : sgv z <> 0 -> dlv z <> 0 -> det4 (gM c G Cc o cov z) <> 0 -> (k < 27)%nat -> defined_at z (s2 cov k).
Proof.
  intros S D Dt H. unfold s2. destruct (Nat.ltb_spec k 11) as [L|L]; [apply s1_defined; exact L|]. apply inv_defined; [apply g_defined; assumption|rewrite g_mean; exact Dt|apply Nat.div_lt_upper_bound; lia|apply Nat.mod_upper_bound; lia].
Qed.
Lemma s2_mean z k : (k < 27)%nat -> meaning z (s2 cov k) = E2 c G Cc o cov z k.
Proof.
  intros H. unfold s2. destruct (Nat.ltb_spec k 11) as [L|L].
  - rewrite s1_mean by exact L. unfold E2, ext. apply Nat.ltb_lt in L. rewrite L. reflexivity.
  - rewrite inv_mean by first [apply Nat.div_lt_upper_bound; lia|apply Nat.mod_upper_bound; lia]. rewrite g_mean. assert (Q := E2_inv c G Cc o cov z ((k - 11) / 4)%nat ((k - 11) mod 4)%nat).
    rewrite <- Q by first [apply Nat.div_lt_upper_bound; lia|apply Nat.mod_upper_bound; lia]. f_equal. rewrite <- Nat.div_mod by lia. lia.
Qed.
Lemma acc_mean z i : (i < 4)%nat -> meaning z (accE cov dg i) = q4nth (blX c G Cc o cov dg z) i.
Proof.
  intros Hi. unfold accE. cbn [meaning]. rewrite subst_meaning. unfold guardE. cbn [meaning]. unfold blX. rewrite q4nth_tab by exact Hi.
  rewrite (meaning_ext_b 27 _ (fun k => meaning z (s2 cov k)) (E2 c G Cc o cov z)); [ring| |intros k Hk; apply s2_mean; exact Hk].
  apply (bl_acc_def (blChE dg) (fun _ => 1)); [|exact Hi]. apply bl_ch_def. intros a b d A B D. apply (proj2 Hcl (fun _ => 1)); first [exact R1_neq_R0|assumption].
Qed.
Lemma acc_below i : (i < 4)%nat -> below 9 (accE cov dg i) = true.
Proof.
  intros Hi. unfold accE. apply bl_add.
  - apply (subst_below 27); [|exact s2_below]. apply (bl_acc_def (blChE dg) (fun _ => 1)); [|exact Hi]. apply bl_ch_def. intros a b d A B D. apply (proj2 Hcl (fun _ => 1)); first [exact R1_neq_R0|assumption].
  - unfold guardE. apply bl_mul; [reflexivity|]. apply bl_add; [reflexivity|]. apply bl_div; [reflexivity|]. apply (det_closed (fun p => below 9 p = true) (bl_add 9) (bl_sub 9) (bl_mul 9)). exact g_below.
Qed.
Lemma acc_defined z i : (i < 4)%nat -> sgv z <> 0 -> dlv z <> 0 -> det4 (gM c G Cc o cov z) <> 0 -> defined_at z (accE cov dg i).
Proof.
  intros Hi S D Dt. assert (B : below 27 (blAccE (blChE dg) i) = true /\ defined_at (E2 c G Cc o cov z) (blAccE (blChE dg) i)).
  { apply bl_acc_def; [|exact Hi]. apply bl_ch_def. intros a b d A B D'. apply (proj2 Hcl (E2 c G Cc o cov z)); [exact S|exact D|assumption..]. }
  destruct B as [B1 B2]. split.
  - apply (subst_defined 27); [exact B1|intros k; apply s2_defined; assumption|]. apply (ext_def 27 _ (E2 c G Cc o cov z)); [exact B1|intros k Hk; apply s2_mean; exact Hk|exact B2].
  - unfold guardE. cbn [defined_at]. split; [exact I|]. split; [split|].
    + split; [exact I|]. split; [apply sigma_defined|exact S].
    + split; [exact I|]. split; [apply delta_defined|exact D].
    + split; [exact I|]. split; [apply (det_closed (defined_at z) (df_add z) (df_sub z) (df_mul z)); apply g_defined; assumption|]. rewrite det_mean, g_mean. exact Dt.
Qed.
Lemma acc_needs z i : defined_at z (accE cov dg i) -> sgv z <> 0 /\ dlv z <> 0 /\ det4 (gM c G Cc o cov z) <> 0.
Proof.
  intros [_ H]. unfold guardE in H. cbn [defined_at] in H. destruct H as (_ & ((_ & _ & S) & (_ & _ & D)) & (_ & _ & Dt)). split; [exact S|]. split; [exact D|]. rewrite det_mean, g_mean in Dt. exact Dt.
Qed.
End Class.
Notation KC := (kerr_class c G o Hc).
Notation NC := (kn_class c G o Hc).
Lemma F_mean z : mz z FE = FM c G Cc o z.
Proof.
  assert (E : forall a b, (a < 4)%nat -> (b < 4)%nat -> meaning z (FE a b) = meaning (ext 11 (E1 c G Cc o z) [rQv c G Cc o]) (emE c G o a b)).
  { intros a b Ha Hb. unfold FE. rewrite subst_meaning. apply (meaning_ext_b 12); [nat4' a Ha; (nat4' b Hb); reflexivity|]. intros k Hk. do 12 (destruct k as [|k]; [reflexivity|]). lia. }
  unfold mz, FM, mtab, q4tab. rewrite !E by lia. reflexivity.
Qed.
Lemma Fc_mean z : mz z FcE = FcM c G Cc o z.
Proof.
  unfold FcE, FcM. rewrite !mz_mm, F_mean.
  assert (I : mz z (invE (gE (knCovE c G o))) = inv4 (gM c G Cc o (knCovE c G o) z)).
  { unfold mz at 1. unfold inv4 at 1. unfold mtab, q4tab. rewrite !inv_mean by lia. rewrite (g_mean _ _ NC). unfold inv4. rewrite !FloatTrack.mnth_tab' by lia. reflexivity. }
  rewrite I. reflexivity.
Qed.
Lemma charge_mean z i : (i < 4)%nat -> meaning z (chargeE i) = q_val (mo_q o) * q4nth (mv (transpose (gM c G Cc o (knCovE c G o) z)) (mv (FcM c G Cc o z) (velz z))) i.
Proof.
  intros Hi. unfold chargeE. cbn [meaning]. f_equal. rewrite mz_mv by exact Hi. f_equal.
Qed.
Lemma kn_mean z i : (i < 8)%nat -> meaning z (knPq i) = nth i (out8 z (knX c G Cc o z)) 0.
Proof.
  intros Hi. rewrite nth_out8 by exact Hi. unfold knPq. destruct (Nat.ltb_spec i 4) as [L|L]; [reflexivity|]. cbn [meaning]. rewrite (acc_mean _ _ NC) by lia. rewrite charge_mean by lia.
  unfold knX. assert (V : forall a b k, (k < 4)%nat -> q4nth (vsub a b) k = q4nth a k - q4nth b k) by (intros a b k Hk; destruct a, b; nat4' k Hk; reflexivity).
  assert (V2 : forall s a k, (k < 4)%nat -> q4nth (vscal s a) k = s * q4nth a k) by (intros s a k Hk; destruct a; nat4' k Hk; reflexivity).
  rewrite V, V2 by lia. reflexivity.
Qed.
Lemma kerr_mean z i : (i < 8)%nat -> meaning z (kerrP i) = nth i (out8 z (blX c G Cc o (kerrCovE c G o) (kerrDgE c G o) z)) 0.
Proof. intros Hi. rewrite nth_out8 by exact Hi. unfold kerrP. destruct (Nat.ltb_spec i 4) as [L|L]; [reflexivity|]. apply (acc_mean _ _ KC). lia. Qed.
Lemma kerr_system : system 8 kerrP.
Proof. intros i Hi. unfold kerrP. destruct (Nat.ltb_spec i 4) as [L|L]; [apply Nat.ltb_lt; lia|]. apply (acc_below _ _ KC). lia. Qed.
Lemma charge_below i : (i < 4)%nat -> below 9 (chargeE i) = true.
Proof.
  intros Hi. unfold chargeE. apply bl_mul; [reflexivity|].
  assert (C1 := fun m k => mm_closed (fun p => below 9 p = true) (bl_add 9) (bl_mul 9) m k). assert (C2 := fun m v => mv_closed (fun p => below 9 p = true) (bl_add 9) (bl_mul 9) m v).
  assert (Gb := g_below _ _ NC). assert (Ib := inv_below 9 _ Gb).
  apply C2; [intros a b A B; apply Gb; assumption| |exact Hi]. apply C2; [|intros k Hk; apply Nat.ltb_lt; lia]. apply C1; [apply C1; [exact Ib|]|exact Ib].
  intros a b A B. apply (subst_below 12); [nat4' a A; (nat4' b B); reflexivity|]. intros k Hk. do 12 (destruct k as [|k]; [reflexivity|]). lia.
Qed.
Lemma kn_system : system 8 knPq.
Proof. intros i Hi. unfold knPq. destruct (Nat.ltb_spec i 4) as [L|L]; [apply Nat.ltb_lt; lia|]. apply bl_sub; [apply (acc_below _ _ NC); lia|apply charge_below; lia]. Qed.
Lemma em_def w a b : w 9%nat <> 0 -> (a < 4)%nat -> (b < 4)%nat -> below 12 (emE c G o a b) = true /\ defined_at w (emE c G o a b).
Proof.
  intros D Ha Hb. assert (D2 : powerRZ (w 9%nat) 2 <> 0) by (apply powerRZ_NOR; exact D). assert (P := c2ne c Hc). split; [nat4' a Ha; (nat4' b Hb); reflexivity|].
  nat4' a Ha; (nat4' b Hb); unfold emE, alphaE; cbn [defined_at meaning]; repeat match goal with |- _ /\ _ => split end; try exact I; try (left; discriminate); first [exact P|exact D2].
Qed.
Lemma charge_defined z i : (i < 4)%nat -> sgv z <> 0 -> dlv z <> 0 -> det4 (gM c G Cc o (knCovE c G o) z) <> 0 -> defined_at z (chargeE i).
Proof.
  intros Hi S D Dt. unfold chargeE. split; [exact I|].
  assert (C1 := fun m k => mm_closed (defined_at z) (df_add z) (df_mul z) m k). assert (C2 := fun m v => mv_closed (defined_at z) (df_add z) (df_mul z) m v).
  assert (Gb := g_defined _ _ NC z S D). assert (Ib := inv_defined z _ Gb ltac:(rewrite (g_mean _ _ NC); exact Dt)).
  apply C2; [intros a b A B; apply Gb; assumption| |exact Hi]. apply C2; [|intros k Hk; exact Logic.I]. apply C1; [apply C1; [exact Ib|]|exact Ib].
  intros a b A B. destruct (em_def (fun k => meaning z (s3 k)) a b S A B) as [B1 B2].
  apply (subst_defined 12); [exact B1| |exact B2]. intros k Hk. unfold s3. destruct (Nat.eq_dec k 11) as [-> |Nk]; [exact I|].
  assert (L : (k < 11)%nat) by lia. assert (Q := s1_defined z k L). do 11 (destruct k as [|k]; [exact Q|]). lia.
Qed.
Lemma kerr_defined z : sgv z <> 0 -> dlv z <> 0 -> det4 (gM c G Cc o (kerrCovE c G o) z) <> 0 -> forall i, (i < 8)%nat -> defined_at z (kerrP i).
Proof. intros S D Dt i Hi. unfold kerrP. destruct (Nat.ltb_spec i 4) as [L|L]; [exact I|]. apply (acc_defined _ _ KC); [lia|assumption..]. Qed.
Lemma kn_defined z : sgv z <> 0 -> dlv z <> 0 -> det4 (gM c G Cc o (knCovE c G o) z) <> 0 -> forall i, (i < 8)%nat -> defined_at z (knPq i).
Proof. intros S D Dt i Hi. unfold knPq. destruct (Nat.ltb_spec i 4) as [L|L]; [exact I|]. split; [apply (acc_defined _ _ NC); [lia|assumption..]|apply charge_defined; [lia|assumption..]]. Qed.
Lemma kerr_needs n t y : (4 < n)%nat -> defined_for n kerrP t y -> sgv (point t y) <> 0 /\ dlv (point t y) <> 0 /\ det4 (gM c G Cc o (kerrCovE c G o) (point t y)) <> 0.
Proof. intros L H. assert (Q : defined_at (point t y) (accE (kerrCovE c G o) (kerrDgE c G o) 0)) by exact (H 4%nat L). exact (acc_needs _ _ KC (point t y) 0 Q). Qed.
Lemma kn_needs n t y : (4 < n)%nat -> defined_for n knPq t y -> sgv (point t y) <> 0 /\ dlv (point t y) <> 0 /\ det4 (gM c G Cc o (knCovE c G o) (point t y)) <> 0.
Proof. intros L H. assert (Q : defined_at (point t y) (accE (knCovE c G o) (knDgE c G o) 0 .- chargeE 0)) by exact (H 4%nat L). apply proj1 in Q. exact (acc_needs _ _ NC (point t y) 0 Q). Qed.
Lemma lt48 : (4 < 8)%nat. Proof. lia. Qed.
(** lambda_ and vec as stored values *)
Lemma in_env {J} (F : (J -> Prop) -> Prop) {FF : Filter F} u t' t tl y' y yl : nr F u t' t tl -> nrL F u 8 y' y yl ->
  nrE F u 9 (fun j => venv (t' j) (y' j)) (fun j => point (t j) (fun k => y k j)) (point tl yl).
Proof. intros H1 H2 [|i] Hi; [exact H1|]. apply H2. lia. Qed.
Lemma kerr_follows K : 0 <= K -> valid_spin o -> mo_sys o = BL -> follows (good K) 8 kerrP (fun e => kerr_fA e c G Cc o).
Proof.
  intros HK V S J F FF u e Hu0 Hu HE t' t tl y' y yl Hd Ht Hy. destruct (kerr_needs _ _ _ lt48 Hd) as (D1 & D2 & D3).
  refine (okT_imp F _ _ _ _ (kerr_f_track F u K e HK Hu0 Hu HE c G Cc o Hc t' y' _ _ _ (fun _ => eq_refl) V S (in_env F u _ _ _ _ _ _ Ht Hy) D1 D2 D3)).
  intros v N i Hi. unfold program_rhs. rewrite kerr_mean by exact Hi. generalize (N i Hi). apply (nr_ext_all F u); [reflexivity|]. intros j. rewrite kerr_mean by exact Hi. reflexivity.
Qed.
Lemma kn_follows K : 0 <= K -> 0 < G -> 0 < Cc -> valid_spin o -> mo_sys o = BL -> follows (good K) 8 knPq (fun e => kn_fA e c G Cc o).
Proof.
  intros HK HG HC V S J F FF u e Hu0 Hu HE t' t tl y' y yl Hd Ht Hy. destruct (kn_needs _ _ _ lt48 Hd) as (D1 & D2 & D3).
  refine (okT_imp F _ _ _ _ (kn_f_track F u K e HK Hu0 Hu HE c G Cc o Hc HG HC t' y' _ _ _ (fun _ => eq_refl) V S (in_env F u _ _ _ _ _ _ Ht Hy) D1 D2 D3)).
  intros v N i Hi. unfold program_rhs. rewrite kn_mean by exact Hi. generalize (N i Hi). apply (nr_ext_all F u); [reflexivity|]. intros j. rewrite kn_mean by exact Hi. reflexivity.
Qed.
(** where the programs are defined *)
Lemma xz_point t y : xz (point t y) = pos y. Proof. reflexivity. Qed.
Lemma velz_point t y : velz (point t y) = vel y. Proof. reflexivity. Qed.
Lemma kn_det_sin z : valid_spin o -> mo_sys o = BL -> sgv z <> 0 -> dlv z <> 0 -> det4 (gM c G Cc o (knCovE c G o) z) <> 0 -> sin (z 3%nat) <> 0.
Proof.
  intros V S D1 D2 D3. assert (D : okz c G Cc o z) by (split; [exact S|]; split; [exact V|]; split; assumption).
  apply (proj1 (kn_contra_defined c G Cc o (xz z) Hc)). exists (inv4 (gM c G Cc o (knCovE c G o) z)). unfold metric_contravariant. rewrite kn_cov_z by exact D. cbn [bindR]. unfold np_inv. destruct (Req_EM_T _ 0) as [E|E]; [contradiction|reflexivity].
Qed.
Lemma kerr_kn_gM z : sgv z <> 0 -> dlv z <> 0 -> gM c G Cc o (kerrCovE c G o) z = gM c G Cc o (knCovE c G o) z.
Proof. rewrite kerr_gM, kn_gM, sgv_eq, dlv_eq. intros E1 E2. apply kerr_kn; assumption. Qed.
Lemma kerr_implements : valid_spin o -> mo_sys o = BL -> implements 8 (motion_rhs (kerr_f_vec c G Cc o)) kerrP.
Proof.
  intros V S t y Hd i Hi. destruct (kerr_needs _ _ _ lt48 Hd) as (D1 & D2 & D3). set (z := point t y) in *.
  assert (D3' := D3). rewrite (kerr_kn_gM z D1 D2) in D3'. assert (Sn := kn_det_sin z V S D1 D2 D3').
  destruct (kerr_f_vec_defined c G Cc o (xz z) (velz z) Hc (proj2 (dom_okz c G Cc o z) (Logic.conj S (Logic.conj V (Logic.conj D1 D2)))) Sn) as [[w a] Ef].
  unfold motion_rhs. change (pos y) with (xz z). change (vel y) with (velz z). rewrite Ef. destruct (kerr_f_inv c G Cc o z w a Ef) as (_ & _ & -> & ->).
  unfold program_rhs. fold z. rewrite kerr_mean, nth_out8 by exact Hi. unfold join. destruct (Nat.ltb_spec i 4) as [L|L]; [|reflexivity]. unfold velz. rewrite q4nth_tab by exact L. reflexivity.
Qed.
Lemma kn_implements' : 0 < c -> 0 < G -> 0 < Cc -> valid_spin o -> mo_sys o = BL -> implements 8 (motion_rhs (kn_f_vec c G Cc o)) knPq.
Proof.
  intros Hc' HG HC V S t y Hd i Hi. destruct (kn_needs _ _ _ lt48 Hd) as (D1 & D2 & D3). set (z := point t y) in *.
  assert (Sn := kn_det_sin z V S D1 D2 D3).
  destruct (kn_f_vec_defined c G Cc o (xz z) (velz z) Hc' HG HC (proj2 (dom_okz c G Cc o z) (Logic.conj S (Logic.conj V (Logic.conj D1 D2)))) Sn) as [[w a] Ef].
  unfold motion_rhs. change (pos y) with (xz z). change (vel y) with (velz z). rewrite Ef. destruct (kn_f_inv c G Cc o z w a Ef) as (_ & _ & -> & ->).
  unfold program_rhs. fold z. rewrite kn_mean, nth_out8 by exact Hi. unfold join. destruct (Nat.ltb_spec i 4) as [L|L]; [|reflexivity]. unfold velz. rewrite q4nth_tab by exact L. reflexivity.
Qed.
(** a motion stays where the programs are defined *)
Lemma kerr_moves_defined X W t : locally t (moves (kerr_f_vec c G Cc o) X W) -> defined_for 8 kerrP t (join (X t) (W t)).
Proof.
  intros H. destruct (locally_singleton _ _ H) as (acc & _ & E & _). set (z := point t (join (X t) (W t))).
  assert (E' : kerr_f_vec c G Cc o (xz z) (velz z) = Ok (W t, acc)) by (unfold z; rewrite xz_point, velz_point, pos_join, vel_join; exact E).
  destruct (kerr_f_inv c G Cc o z _ _ E') as ((_ & _ & D1 & D2) & D3 & _). intros i Hi. apply kerr_defined; assumption.
Qed.
Lemma kn_moves_defined X W t : locally t (moves (kn_f_vec c G Cc o) X W) -> defined_for 8 knPq t (join (X t) (W t)).
Proof.
  intros H. destruct (locally_singleton _ _ H) as (acc & _ & E & _). set (z := point t (join (X t) (W t))).
  assert (E' : kn_f_vec c G Cc o (xz z) (velz z) = Ok (W t, acc)) by (unfold z; rewrite xz_point, velz_point, pos_join, vel_join; exact E).
  destruct (kn_f_inv c G Cc o z _ _ E') as ((_ & _ & D1 & D2) & D3 & _). intros i Hi. apply kn_defined; assumption.
Qed.
End Objects.

(** *** Schwarzschild *)
Section Sch.
Variables (c G : R) (o : mobj).
Hypothesis Hc : c <> 0.
Definition sS (k : nat) : pexpr := match k with 9 => ECos (EVar 3) ./ ESin (EVar 3) | _ => EVar k end%nat.
Definition schGuard : pexpr := #0 .* (#1 ./ EVar 2 .+ #1 ./ (schRadE c G o .* EVar 2 .- EVar 2 .^ 2) .+ #1 ./ ESin (EVar 3)).
Definition schP (i : nat) : pexpr := if Nat.ltb i 4 then velE i else subst sS (schAccE (schChE c G o) (i - 4)) .+ schGuard.
Lemma sS_mean z k : (k < 10)%nat -> meaning z (sS k) = S1 z k.
Proof. intros H. do 10 (destruct k as [|k]; [reflexivity|]). lia. Qed.
Lemma schAcc_below i : (i < 4)%nat -> below 10 (schAccE (schChE c G o) i) = true.
Proof. intros Hi. nat4' i Hi; reflexivity. Qed.
Lemma sch_mean z i : (i < 8)%nat -> meaning z (schP i) = nth i (out8 z (schX c G o z)) 0.
Proof.
  intros Hi. rewrite nth_out8 by exact Hi. unfold schP. destruct (Nat.ltb_spec i 4) as [L|L]; [reflexivity|]. cbn [meaning]. rewrite subst_meaning. unfold schGuard. cbn [meaning]. unfold schX. rewrite q4nth_tab by lia.
  rewrite (meaning_ext_b 10 _ (fun k => meaning z (sS k)) (S1 z)); [ring|apply schAcc_below; lia|intros k Hk; apply sS_mean; exact Hk].
Qed.
Lemma sch_system : system 8 schP.
Proof. intros i Hi. unfold schP. destruct (Nat.ltb_spec i 4) as [L|L]; [apply Nat.ltb_lt; lia|]. apply bl_add; [|reflexivity]. apply (subst_below 10); [apply schAcc_below; lia|]. intros k Hk. do 10 (destruct k as [|k]; [reflexivity|]). lia. Qed.
Lemma sch_needs z i : (4 <= i)%nat -> defined_at z (schP i) -> schD c G o z.
Proof.
  intros Hi H. unfold schP in H. destruct (Nat.ltb_spec i 4) as [L|L]; [lia|]. destruct H as [_ H]. unfold schGuard in H. cbn [defined_at] in H. destruct H as (_ & (((_ & _ & H1) & (_ & _ & H2)) & (_ & _ & H3))). split; [exact H1|]. split; [exact H2|exact H3].
Qed.
Lemma sch_defined z : schD c G o z -> forall i, (i < 8)%nat -> defined_at z (schP i).
Proof.
  intros D i Hi. unfold schP. destruct (Nat.ltb_spec i 4) as [L|L]; [exact I|].
  destruct (sch_acc_def (schChE c G o) (S1 z) (fun i j k => sch_ch_def c G o Hc (S1 z) i j k D) (i - 4) ltac:(lia)) as [B1 B2]. destruct D as (H1 & H2 & H3). split.
  - apply (subst_defined 10); [exact B1| |apply (ext_def 10 _ (S1 z)); [exact B1|intros k Hk; apply sS_mean; exact Hk|exact B2]].
    intros k Hk. do 9 (destruct k as [|k]; [exact I|]). destruct k as [|k]; [|lia]. cbn [sS defined_at]. split; [exact I|]. split; [exact I|exact H3].
  - assert (P := c2ne c Hc). unfold schGuard, schRadE. cbn [defined_at meaning]. repeat match goal with |- _ /\ _ => split end; try exact I; try (left; discriminate); first [exact P|exact H1|exact H2|exact H3].
Qed.
Lemma sch_follows K : 0 <= K -> mo_sys o = Sph -> follows (good K) 8 schP (fun e => sch_fA e c G o).
Proof.
  intros HK S J F FF u e Hu0 Hu HE t' t tl y' y yl Hd Ht Hy. assert (D := sch_needs _ _ (le_n 4) (Hd 4%nat ltac:(lia))).
  refine (okT_imp F _ _ _ _ (sch_f_track F u K e Hu0 Hu HE c G o Hc S t' y' _ _ _ (fun _ => eq_refl) (in_env F u _ _ _ _ _ _ Ht Hy) D)).
  intros v N i Hi. unfold program_rhs. rewrite sch_mean by exact Hi. generalize (N i Hi). apply (nr_ext_all F u); [reflexivity|]. intros j. rewrite sch_mean by exact Hi. reflexivity.
Qed.
Lemma sch_implements : mo_sys o = Sph -> implements 8 (motion_rhs (sch_f_vec c G o)) schP.
Proof.
  intros S t y Hd i Hi. assert (D := sch_needs _ _ (le_n 4) (Hd 4%nat ltac:(lia))). set (z := point t y) in *.
  assert (Ef : exists w a, sch_f_vec c G o (xz z) (velz z) = Ok (w, a)).
  { unfold sch_f_vec, sch_christoffels. rewrite S. destruct D as (H1 & H2 & H3). rewrite finite_if_ok by (repeat constructor; assumption). cbn [bindR]. eexists _, _. reflexivity. }
  destruct Ef as (w & a & Ef). unfold motion_rhs. change (pos y) with (xz z). change (vel y) with (velz z). rewrite Ef. destruct (sch_f_inv c G o z w a Ef) as (_ & _ & -> & ->).
  unfold program_rhs. fold z. rewrite sch_mean, nth_out8 by exact Hi. unfold join. destruct (Nat.ltb_spec i 4) as [L|L]; [|reflexivity]. unfold velz. rewrite q4nth_tab by exact L. reflexivity.
Qed.
Lemma sch_moves_defined X W t : locally t (moves (sch_f_vec c G o) X W) -> defined_for 8 schP t (join (X t) (W t)).
Proof.
  intros H. destruct (locally_singleton _ _ H) as (acc & _ & E & _). set (z := point t (join (X t) (W t))).
  assert (E' : sch_f_vec c G o (xz z) (velz z) = Ok (W t, acc)) by (unfold z; rewrite xz_point, velz_point, pos_join, vel_join; exact E).
  destruct (sch_f_inv c G o z _ _ E') as (_ & D & _). intros i Hi. apply sch_defined; assumption.
Qed.
End Sch.
