(** The algorithm of FloatLU.v is accurate near every invertible matrix. *)
From Coq Require Import String Reals List ZArith Lra Lia Bool.
From Verif Require Import Base GeoUtilsModel FloatModel.
From Verif Require Import FloatLU.
Import ListNotations.
Open Scope R_scope.

Lemma near_le e e' l m : e <= e' -> near e l m -> near e' l m.
Proof. intros H. induction 1; constructor; [lra|assumption]. Qed.
Lemma nears_le e e' l m : e <= e' -> nears e l m -> nears e' l m.
Proof. intros H. induction 1; constructor; [eapply near_le; eassumption|assumption]. Qed.
Lemma bnd_le e e' l : e <= e' -> bnd e l -> bnd e' l.
Proof. intros H. apply Forall_impl. intros; lra. Qed.
Lemma bnds_le e e' l : e <= e' -> bnds e l -> bnds e' l.
Proof. intros H. apply Forall_impl. intros a; apply bnd_le; exact H. Qed.
Lemma bnd_near M e l l0 : bnd M l0 -> near e l l0 -> bnd (M + e) l.
Proof. intros HB H. induction H as [|x y l l0 H HH IH]; [constructor|]. inversion HB; subst. constructor; [|apply IH; assumption]. replace x with ((x - y) + y) by ring. eapply Rle_trans; [apply Rabs_triang|lra]. Qed.
Lemma bnds_near M e l l0 : bnds M l0 -> nears e l l0 -> bnds (M + e) l.
Proof. intros HB H. induction H as [|x y l l0 H HH IH]; [constructor|]. inversion HB; subst. constructor; [eapply bnd_near; eassumption|apply IH; assumption]. Qed.
Lemma near_hd e l m : 0 <= e -> near e l m -> Rabs (hd 0 l - hd 0 m) <= e.
Proof. intros He H. destruct H; cbn; [rewrite Rminus_0_r, Rabs_R0; exact He|assumption]. Qed.
Lemma near_tl e l m : near e l m -> near e (tl l) (tl m).
Proof. intros H. destruct H; [constructor|assumption]. Qed.
Lemma bnd_hd M l : 0 <= M -> bnd M l -> Rabs (hd 0 l) <= M.
Proof. intros HM H. destruct H; cbn; [rewrite Rabs_R0; exact HM|assumption]. Qed.
Lemma bnd_tl M l : bnd M l -> bnd M (tl l).
Proof. intros H. destruct H; [constructor|assumption]. Qed.
Lemma exists_bnd l : exists M, 0 <= M /\ bnd M l.
Proof. induction l as [|x l (M & HM & H)]; [exists 0; split; [lra|constructor]|]. exists (M + Rabs x). assert (P := Rabs_pos x). split; [lra|]. constructor; [lra|eapply bnd_le; [|exact H]; lra]. Qed.
Lemma exists_bnds l : exists M, 0 <= M /\ bnds M l.
Proof. induction l as [|x l (M & HM & H)]; [exists 0; split; [lra|constructor]|]. destruct (exists_bnd x) as (M' & HM' & H'). exists (M + M'). split; [lra|]. constructor; [eapply bnd_le; [|exact H']; lra|eapply bnds_le; [|exact H]; lra]. Qed.

(** ** axpy *)
Lemma axpy_u M C : 0 <= M -> 0 <= C -> exists r C', 0 < r /\ 0 <= C' /\ forall d A l l' xs xs' ys ys', 0 <= d < r -> accurate d A -> Rabs l <= M -> bnd M xs -> bnd M ys ->
  Rabs (l' - l) <= C * d -> near (C * d) xs' xs -> near (C * d) ys' ys -> bnd C' (axpy l xs ys) /\ exists zs, axpyA A l' xs' ys' = Ok zs /\ near (C' * d) zs (axpy l xs ys).
Proof.
  intros HM HC. destruct (mul_u M C HM HC) as (r1 & C1 & R1 & P1 & H1). destruct (sub_u (M + M * M) (C + C1) ltac:(nra) ltac:(lra)) as (r2 & C2 & R2 & P2 & H2).
  exists (Rmin r1 r2), (C2 + (M + M * M)). split; [apply Rmin_pos; assumption|]. assert (MM : 0 <= M * M) by (apply Rmult_le_pos; assumption). split; [lra|].
  intros d A l l' xs xs' ys ys' Hd HA Hl Bx By Nl Nx Ny. assert (D1 := Rmin_l r1 r2). assert (D2 := Rmin_r r1 r2).
  revert ys ys' By Ny. induction Nx as [|x' x xs' xs Hx Nx IH]; intros ys ys' By Ny; [split; [constructor|]; exists []; split; [reflexivity|constructor]|].
  destruct Ny as [|y' y ys' ys Hy Ny]; [split; [constructor|]; exists []; split; [reflexivity|constructor]|].
  inversion Bx; subst. inversion By; subst. destruct (IH ltac:(assumption) ys ys' ltac:(assumption) Ny) as (B & zs & E & Nz).
  destruct (H1 d A l y l' y' ltac:(lra) HA Hl ltac:(assumption) Nl Hy) as (m & Em & Hm).
  assert (Bm : Rabs (l * y) <= M * M) by (rewrite Rabs_mult; apply Rmult_le_compat; try apply Rabs_pos; assumption).
  assert (Cd : 0 <= C * d) by (apply Rmult_le_pos; lra). assert (Cd1 : 0 <= C1 * d) by (apply Rmult_le_pos; lra). assert (M0 : 0 <= (M + M * M) * d) by (apply Rmult_le_pos; lra).
  destruct (H2 d A x (l * y) x' m ltac:(lra) HA ltac:(lra) ltac:(lra) ltac:(rewrite Rmult_plus_distr_r; lra) ltac:(rewrite Rmult_plus_distr_r; lra)) as (z & Ez & Hz).
  split.
  - cbn [axpy]. constructor; [|exact B]. unfold Rminus. eapply Rle_trans; [apply Rabs_triang|]. rewrite Rabs_Ropp. lra.
  - exists (z :: zs). split; [cbn [axpyA]; rewrite Em; cbn [bindR]; rewrite Ez; cbn [bindR]; rewrite E; reflexivity|]. cbn [axpy]. constructor; [rewrite Rmult_plus_distr_r; lra|exact Nz].
Qed.

(** ** one elimination step with a given pivot row *)
Lemma seqR_near {B D E} (f : B -> Res D) (P : B -> E -> Prop) (Q : D -> E -> Prop) : (forall b e, P b e -> exists y, f b = Ok y /\ Q y e) ->
  forall l m, Forall2 P l m -> exists l', seqR f l = Ok l' /\ Forall2 Q l' m.
Proof.
  intros H l m HF. induction HF as [|b e l m Hb HF (l' & E1 & IH)]; [exists []; split; [reflexivity|constructor]|].
  destruct (H b e Hb) as (y & Ey & Qy). exists (y :: l'). split; [cbn [seqR]; rewrite Ey; cbn [bindR]; rewrite E1; reflexivity|constructor; assumption].
Qed.
Lemma elim_u M m C : 0 <= M -> 0 < m -> 0 <= C -> exists r C', 0 < r /\ 0 <= C' /\ forall d A r0 r' rows rows', 0 <= d < r -> accurate d A -> bnd M r0 -> bnds M rows -> m <= Rabs (hd 0 r0) ->
  near (C * d) r' r0 -> nears (C * d) rows' rows -> hd 0 r' <> 0 /\ exists f rest, a_div A 1 (hd 0 r') = Ok f /\ seqR (elimA A f r') rows' = Ok rest /\ nears (C' * d) rest (map (elim r0) rows).
Proof.
  intros HM Hm HC. destruct (div_u 1 m C ltac:(lra) Hm HC) as (r1 & C1 & R1 & P1 & H1).
  assert (Im : 0 < / m) by (apply Rinv_0_lt_compat; exact Hm).
  destruct (mul_u (M + / m) (C + C1) ltac:(lra) ltac:(lra)) as (r2 & C2 & R2 & P2 & H2).
  assert (MI : 0 <= M * / m) by (apply Rmult_le_pos; lra).
  destruct (axpy_u (M + M * / m) (C + C2) ltac:(lra) ltac:(lra)) as (r3 & C3 & R3 & P3 & H3).
  exists (Rmin r1 (Rmin r2 r3)), C3. split; [repeat apply Rmin_pos; assumption|]. split; [exact P3|].
  intros d A r0 r' rows rows' Hd HA Br Brs Hh Nr Nrs. assert (D1 := Rmin_l r1 (Rmin r2 r3)). assert (D2 := Rmin_r r1 (Rmin r2 r3)). assert (D3 := Rmin_l r2 r3). assert (D4 := Rmin_r r2 r3).
  assert (Cd : 0 <= C * d) by (apply Rmult_le_pos; lra). assert (Cd1 : 0 <= C1 * d) by (apply Rmult_le_pos; lra). assert (Cd2 : 0 <= C2 * d) by (apply Rmult_le_pos; lra).
  destruct (H1 d A 1 (hd 0 r0) 1 (hd 0 r') ltac:(lra) HA ltac:(rewrite Rabs_R1; lra) Hh ltac:(rewrite Rminus_eq_0, Rabs_R0; exact Cd) (near_hd _ _ _ Cd Nr)) as (Nz & f & Ef & Hf).
  split; [exact Nz|].
  assert (G : exists rest, seqR (elimA A f r') rows' = Ok rest /\ Forall2 (fun y e => near (C3 * d) y (elim r0 e)) rest rows).
  { refine (seqR_near (elimA A f r') (fun row' row => near (C * d) row' row /\ bnd M row) _ _ rows' rows _).
    - intros row' row (N & B). assert (Ih : Rabs (/ hd 0 r0) <= / m) by (rewrite Rabs_inv; apply Rinv_le_contravar; assumption).
      replace (1 / hd 0 r0) with (/ hd 0 r0) in Hf by (unfold Rdiv; ring).
      assert (Bh := bnd_hd _ _ HM B).
      destruct (H2 d A (hd 0 row) (/ hd 0 r0) (hd 0 row') f ltac:(lra) HA ltac:(lra) ltac:(lra) ltac:(eapply Rle_trans; [apply (near_hd _ _ _ Cd N)|rewrite Rmult_plus_distr_r; lra]) ltac:(rewrite Rmult_plus_distr_r; lra)) as (l & El & Hl).
      destruct (H3 d A (hd 0 row * / hd 0 r0) l (tl row) (tl row') (tl r0) (tl r') ltac:(lra) HA) as (_ & zs & Ez & Hz).
      + rewrite Rabs_mult. assert (Rabs (hd 0 row) * Rabs (/ hd 0 r0) <= M * / m) by (apply Rmult_le_compat; try apply Rabs_pos; assumption). lra.
      + apply bnd_tl. eapply bnd_le; [|exact B]; lra.
      + apply bnd_tl. eapply bnd_le; [|exact Br]; lra.
      + rewrite Rmult_plus_distr_r; lra.
      + apply near_tl. eapply near_le; [|exact N]. rewrite Rmult_plus_distr_r; lra.
      + apply near_tl. eapply near_le; [|exact Nr]. rewrite Rmult_plus_distr_r; lra.
      + exists zs. split; [unfold elimA; rewrite El; cbn [bindR]; exact Ez|exact Hz].
    - clear - Nrs Brs. induction Nrs as [|a b l l' H HH IH]; [constructor|]. inversion Brs; subst. constructor; [split; assumption|apply IH; assumption]. }
  destruct G as (rest & E & G). exists f, rest. split; [exact Ef|]. split; [exact E|]. clear - G. induction G; cbn [map]; constructor; assumption.
Qed.

(** ** back substitution *)
Lemma back_u n M C : 0 <= M -> 0 <= C -> exists r C', 0 < r /\ 0 <= C' /\ forall d A us us' X X', 0 <= d < r -> accurate d A -> length X = n -> bnd M us -> bnds M X -> near (C * d) us' us -> nears (C * d) X' X ->
  bnd C' (back us X) /\ exists b, backA A us' X' = Ok b /\ near (C' * d) b (back us X).
Proof.
  intros HM HC. induction n as [|n (r1 & C1 & R1 & P1 & IH)].
  - exists 1, (M + C). split; [lra|]. split; [lra|]. intros d A us us' X X' Hd HA L Bu BX Nu NX. destruct X; [|discriminate L]. inversion NX; subst.
    assert (0 <= M * d) by (apply Rmult_le_pos; lra). split; [cbn [back]; eapply bnd_le; [|exact Bu]; lra|]. exists us'. split; [reflexivity|]. eapply near_le; [|exact Nu]. lra.
  - destruct (axpy_u (M + C1) (C + C1) ltac:(lra) ltac:(lra)) as (r2 & C2 & R2 & P2 & H2). exists (Rmin r1 r2), C2. split; [apply Rmin_pos; assumption|]. split; [exact P2|].
    intros d A us us' X X' Hd HA L Bu BX Nu NX. assert (D1 := Rmin_l r1 r2). assert (D2 := Rmin_r r1 r2). destruct NX as [|x' x X' X Nx NX]; [discriminate L|]. inversion BX; subst.
    assert (Cd : 0 <= C * d) by (apply Rmult_le_pos; lra). assert (Cd1 : 0 <= C1 * d) by (apply Rmult_le_pos; lra).
    destruct Nu as [|u' u us' us Hu Nu]; [cbn [back backA]; split; [constructor|]; exists []; split; [reflexivity|constructor]|]. inversion Bu; subst. cbn in L.
    destruct (IH d A us us' X X' ltac:(lra) HA ltac:(lia) ltac:(assumption) ltac:(assumption) Nu NX) as (B & b & Eb & Nb).
    destruct (H2 d A u u' (back us X) b x x' ltac:(lra) HA ltac:(lra) ltac:(eapply bnd_le; [|exact B]; lra) ltac:(eapply bnd_le; [|eassumption]; lra)) as (B2 & zs & Ez & Hz).
    + rewrite Rmult_plus_distr_r; lra.
    + eapply near_le; [|exact Nb]. rewrite Rmult_plus_distr_r; lra.
    + eapply near_le; [|exact Nx]. rewrite Rmult_plus_distr_r; lra.
    + cbn [back backA]. split; [exact B2|]. exists zs. rewrite Eb. cbn [bindR]. split; assumption.
Qed.
Lemma divs_u M m C : 0 <= M -> 0 < m -> 0 <= C -> exists r C', 0 < r /\ 0 <= C' /\ forall d A y y' b b', 0 <= d < r -> accurate d A -> bnd M b -> m <= Rabs y -> Rabs (y' - y) <= C * d -> near (C * d) b' b ->
  bnd C' (map (fun x => x / y) b) /\ exists x, seqR (fun z => a_div A z y') b' = Ok x /\ near (C' * d) x (map (fun x => x / y) b).
Proof.
  intros HM Hm HC. destruct (div_u M m C HM Hm HC) as (r1 & C1 & R1 & P1 & H1). assert (Im : 0 < / m) by (apply Rinv_0_lt_compat; exact Hm). assert (MI : 0 <= M * / m) by (apply Rmult_le_pos; lra).
  exists r1, (C1 + M * / m). split; [exact R1|]. split; [lra|]. intros d A y y' b b' Hd HA Bb Hy Ny Nb.
  assert (0 <= M * / m * d) by (apply Rmult_le_pos; lra).
  split.
  - clear Nb. induction Bb as [|x b Hx Bb IH]; cbn [map]; constructor; [|exact IH]. unfold Rdiv. rewrite Rabs_mult. assert (Rabs (/ y) <= / m) by (rewrite Rabs_inv; apply Rinv_le_contravar; assumption).
    assert (Rabs x * Rabs (/ y) <= M * / m) by (apply Rmult_le_compat; try apply Rabs_pos; assumption). lra.
  - destruct (seqR_near (fun z => a_div A z y') (fun z x => Rabs (z - x) <= C * d /\ Rabs x <= M) (fun w x => Rabs (w - x / y) <= C1 * d)) with (l := b') (m := b) as (x & E & G).
    + intros z x (N & B). destruct (H1 d A x y z y' Hd HA B Hy N Ny) as (_ & w & E & W). exists w. split; assumption.
    + clear - Nb Bb. induction Nb; [constructor|]. inversion Bb; subst. constructor; [split; assumption|apply IHNb; assumption].
    + exists x. split; [exact E|]. rewrite Rmult_plus_distr_r. clear - G H. induction G; cbn [map]; constructor; [lra|exact IHG].
Qed.
