(** Order conditions of the splitting scheme: coefficients of the words of the second-order scheme and of its compositions. *)
From Coq Require Import Reals List ZArith Lra Lia Bool.
From Verif Require Import Base DualDiff WordSeries.
Import ListNotations.
Open Scope R_scope.

Definition strang : list (gen * R) := [(GA, / 2); (GB, / 2); (GC, 1); (GB, / 2); (GA, / 2)].
Definition scale (z : R) (l : list (gen * R)) : list (gen * R) := map (fun p => (fst p, z * snd p)) l.
Fixpoint composed (ws : list R) : list (gen * R) := match ws with [] => [] | z :: ws => scale z strang ++ composed ws end.

Ltac calc := cbn [strang coef dcoef gen_eqb]; unfold expc; cbn [fact pow Nat.mul Nat.add]; cbn [INR]; field.
Lemma gen_cases (P : gen -> Prop) : P GA -> P GB -> P GC -> forall X, P X.
Proof. intros. destruct X; assumption. Qed.
Lemma strang_0 : coef strang [] = 1.
Proof. calc. Qed.
Lemma strang_1 : forall X, coef strang [X] = 1.
Proof. apply gen_cases; calc. Qed.
Lemma strang_2 : forall X Y, coef strang [X; Y] = / 2.
Proof. intros X Y; revert X; apply gen_cases; revert Y; apply gen_cases; calc. Qed.
(** symmetry of the scheme fixes the fourth-order words from the third-order ones *)
Lemma strang_4 : forall X Y Z T, coef strang [X; Y; Z; T] = / 2 * (coef strang [X; Y; Z] + coef strang [Y; Z; T]) - / 8.
Proof. intros X Y Z T; revert X; apply gen_cases; revert Y; apply gen_cases; revert Z; apply gen_cases; revert T; apply gen_cases; calc. Qed.

Definition wsum1 (ws : list R) : R := fold_right Rplus 0 ws.
Definition wsum3 (ws : list R) : R := fold_right (fun z a => z ^ 3 + a) 0 ws.

(** compositions up to third order *)
Lemma composed_0 ws : coef (composed ws) [] = 1.
Proof. induction ws as [|z ws IH]; cbn [composed]; [reflexivity|]. rewrite coef_app. cbn [conv]. unfold scale. rewrite coef_scale, IH, strang_0. cbn [length pow]. ring. Qed.
Lemma composed_1 ws X : coef (composed ws) [X] = wsum1 ws.
Proof.
  induction ws as [|z ws IH]; cbn [composed]; [reflexivity|]. rewrite coef_app. cbn [conv]. unfold scale. rewrite !coef_scale, IH, composed_0, strang_0, strang_1. cbn [length pow wsum1 fold_right]. fold (wsum1 ws). ring.
Qed.
Lemma composed_2 ws X Y : coef (composed ws) [X; Y] = / 2 * wsum1 ws ^ 2.
Proof.
  induction ws as [|z ws IH]; cbn [composed]; [cbn; ring|]. rewrite coef_app. cbn [conv]. unfold scale. rewrite !coef_scale, IH, composed_0, composed_1, strang_0, strang_1, strang_2. cbn [length pow wsum1 fold_right]. fold (wsum1 ws). field.
Qed.
Lemma composed_3 ws X Y Z : coef (composed ws) [X; Y; Z] = / 6 * wsum1 ws ^ 3 + wsum3 ws * (coef strang [X; Y; Z] - / 6).
Proof.
  induction ws as [|z ws IH]; cbn [composed]; [cbn; ring|]. rewrite coef_app. cbn [conv]. unfold scale. rewrite !coef_scale, IH, composed_0, composed_1, composed_2, strang_0, strang_1, strang_2.
  set (s := coef strang [X; Y; Z]). clearbody s. unfold wsum3, wsum1; cbn [fold_right]. fold (wsum1 ws) (wsum3 ws). cbn [length pow]. field.
Qed.
(** the symmetric triple composition with cancelling cubes is exact through fourth order *)
Lemma triple_4 z1 z0 X Y Z T : 2 * z1 + z0 = 1 -> 2 * z1 ^ 3 + z0 ^ 3 = 0 -> coef (composed [z1; z0; z1]) [X; Y; Z; T] = / 24.
Proof.
  intros H1 H3. cbn [composed]. rewrite !coef_app. cbn [conv]. rewrite !coef_app. cbn [conv]. unfold scale. rewrite !coef_app. cbn [conv]. rewrite !coef_scale.
  rewrite !strang_0, !strang_1, !strang_2, !strang_4. cbn [length pow coef].
  set (s := coef strang [X; Y; Z]). set (t := coef strang [Y; Z; T]). clearbody s t.
  assert (E0 : z0 = 1 - 2 * z1) by lra. subst z0.
  assert (E3 : z1 * z1 * z1 = 2 * (z1 * z1) - z1 + / 6). { cbn [pow] in H3. field_simplify in H3. lra. }
  transitivity ((1 - 3 * s - 3 * t) * (z1 * z1 * z1 - (2 * (z1 * z1) - z1 + / 6)) + / 24); [field|rewrite E3; ring].
Qed.
