(** C90: histories of change_config and lorentz_transform on tensor objects. *)
From Coq Require Import String Ascii List Arith Lia Bool.
From Verif Require Import Base SymAlg SymModel SymMove SymConn SymTensorModel SymTensorProofs ExprModel SymWitness SymTensorWitness ObjModel.
Import ListNotations.
Open Scope nat_scope.

(** classes with a change_config that takes a metric *)
Definition plain (c : cls) : Prop := c <> CBase /\ c <> CScalar /\ c <> CMetric.
(** the object's configuration has the length its class demands *)
Definition valid_obj {A : dops} (o : obj A) : Prop := match fixed_order (o_cls o) with Some k => List.length (t_cfg (o_t o)) = k | None => True end.

(** what a history should leave behind: the configuration of the last change_config (or the original one), the metric of the last
    change_config unless a Lorentz transformation came after it, and one tag per operation appended to the name *)
Definition newcfg {A : dops} (c : cls) (n : option config) : config := match n with Some x => x | None => default_newconfig c end.
Fixpoint final_config {A : dops} (c : cls) (start : config) (ps : list (op A)) : config :=
  match ps with [] => start | OpConfig n _ :: r => final_config c (@newcfg A c n) r | OpLorentz _ :: r => final_config c start r end.
Fixpoint final_parent {A : dops} (start : option (metric A)) (ps : list (op A)) : option (metric A) :=
  match ps with
  | [] => start
  | OpConfig _ (Some m) :: r => final_parent (Some m) r
  | OpConfig _ None :: r => final_parent start r
  | OpLorentz _ :: r => final_parent None r
  end.
Fixpoint tags {A : dops} (c : cls) (ps : list (op A)) : string :=
  match ps with
  | [] => ""
  | OpConfig n _ :: r => "__" ++ string_of_list_ascii (@newcfg A c n) ++ tags c r
  | OpLorentz _ :: r => "__lt" ++ tags c r
  end%string.

Lemma str_app_nil s : (s ++ "")%string = s.
Proof. induction s as [|a s IH]; cbn; [reflexivity|rewrite IH; reflexivity]. Qed.
Lemma str_app_assoc a b c : ((a ++ b) ++ c)%string = (a ++ b ++ c)%string.
Proof. induction a as [|x a IH]; cbn; [reflexivity|rewrite IH; reflexivity]. Qed.

Section S.
Context {A : dops}.
Lemma construct_ok c (t : tens A) n o : construct c t n = Ok o -> o = mkobj c t n /\ valid_obj o.
Proof.
  unfold construct, valid_obj. destruct (fixed_order c) as [k|] eqn:E.
  - destruct (Nat.eqb_spec (List.length (t_cfg t)) k) as [H|]; [|discriminate]. intros H0. apply Ok_inj in H0. subst o. cbn [o_cls o_t]. rewrite E. auto.
  - intros H0. apply Ok_inj in H0. subst o. cbn [o_cls o_t]. rewrite E. auto.
Qed.
Lemma construct_valid c (t : tens A) n : (forall k, fixed_order c = Some k -> List.length (t_cfg t) = k) -> construct c t n = Ok (mkobj c t n).
Proof. intros H. unfold construct. destruct (fixed_order c) as [k|]; [|reflexivity]. rewrite (H k eq_refl), Nat.eqb_refl. reflexivity. Qed.

Lemma t_change_parts (t t' : tens A) new mt : t_change_config t new mt = Ok t' ->
  List.length new = List.length (t_cfg t) /\ t_cfg t' = new /\ t_n t' = t_n t /\ t_parent t' = match mt with Some m => Some m | None => t_parent t end.
Proof.
  unfold t_change_config. destruct (match mt with Some m0 => Some m0 | None => t_parent t end) as [m|] eqn:E; [|discriminate].
  unfold change_config_arr. destruct (Nat.eqb_spec (List.length new) (List.length (t_cfg t))) as [H|H]; [|discriminate]. cbn [andb].
  destruct (config_checker new); [|discriminate]. destruct (m_lower m) as [g|]; [|discriminate]. cbn [bindR]. destruct (m_inv g) as [gi|]; [|discriminate]. cbn [bindR].
  intros H0. apply Ok_inj in H0. subst t'. cbn. auto.
Qed.
Lemma cc_plain (o : obj A) n mt : plain (o_cls o) -> obj_change_config o n mt =
  (let* t := t_change_config (o_t o) (@newcfg A (o_cls o) n) mt in construct (cc_class (o_cls o)) t (change_name (o_name o) ("__" ++ cfg_str (@newcfg A (o_cls o) n))%string)).
Proof. intros (H1 & H2 & H3). unfold obj_change_config, newcfg. destruct (o_cls o); try contradiction; reflexivity. Qed.
Lemma order_cc c : fixed_order (cc_class c) = fixed_order c.
Proof. destruct c; reflexivity. Qed.

Definition step_spec (c' : cls) (o o' : obj A) (p : op A) : Prop :=
  o_cls o' = c' /\ valid_obj o' /\ t_n (o_t o') = t_n (o_t o) /\
  match p with
  | OpConfig n mt => t_cfg (o_t o') = @newcfg A (o_cls o) n /\ t_parent (o_t o') = (match mt with Some m => Some m | None => t_parent (o_t o) end)
      /\ o_name o' = option_map (fun s => s ++ "__" ++ string_of_list_ascii (@newcfg A (o_cls o) n))%string (o_name o)
  | OpLorentz _ => t_cfg (o_t o') = t_cfg (o_t o) /\ t_parent (o_t o') = None /\ o_name o' = option_map (fun s => s ++ "__lt")%string (o_name o)
  end.
Lemma step_plain (o o' : obj A) p : plain (o_cls o) -> obj_step o p = Ok o' ->
  step_spec (match p with OpConfig _ _ => cc_class (o_cls o) | OpLorentz _ => o_cls o end) o o' p.
Proof.
  intros HP H. unfold step_spec. destruct p as [n mt|lam]; cbn [obj_step] in H.
  - rewrite cc_plain in H by exact HP. destruct (t_change_config (o_t o) (@newcfg A (o_cls o) n) mt) as [t|] eqn:E; [|discriminate]. cbn [bindR] in H.
    apply construct_ok in H. destruct H as [-> V]. destruct (t_change_parts _ _ _ _ E) as (_ & H1 & H2 & H3).
    split; [reflexivity|]. split; [exact V|]. cbn [o_t o_name]. split; [exact H2|]. split; [exact H1|]. split; [exact H3|]. unfold change_name, cfg_str. destruct (o_name o); reflexivity.
  - unfold obj_lorentz in H. apply construct_ok in H. destruct H as [-> V]. destruct HP as (H1 & H2 & H3).
    split; [destruct (o_cls o); try reflexivity; contradiction|]. split; [exact V|]. cbn [o_t o_name].
    assert (E : (match o_cls o with CMetric => mktens (t_n (lorentz_transform (o_t o) lam)) (t_arr (lorentz_transform (o_t o) lam)) (t_cfg (lorentz_transform (o_t o) lam)) (Some (mkmetric (t_n (lorentz_transform (o_t o) lam)) (t_arr (lorentz_transform (o_t o) lam)) (t_cfg (lorentz_transform (o_t o) lam)))) | _ => lorentz_transform (o_t o) lam end) = lorentz_transform (o_t o) lam)
      by (destruct (o_cls o); try reflexivity; contradiction).
    rewrite E. repeat split.
Qed.

(** every history, every class but StressEnergyMomentumTensor *)
Lemma history ps : forall o o' : obj A, plain (o_cls o) -> o_cls o <> CStress -> obj_run o ps = Ok o' ->
  o_cls o' = o_cls o /\ t_n (o_t o') = t_n (o_t o) /\ t_cfg (o_t o') = final_config (o_cls o) (t_cfg (o_t o)) ps /\
  t_parent (o_t o') = final_parent (t_parent (o_t o)) ps /\ o_name o' = option_map (fun s => s ++ tags (o_cls o) ps)%string (o_name o).
Proof.
  induction ps as [|p ps IH]; intros o o' HP HS H; cbn [obj_run] in H.
  - apply Ok_inj in H. subst o'. cbn. repeat split. destruct (o_name o) as [s|]; [cbn; rewrite str_app_nil|]; reflexivity.
  - destruct (obj_step o p) as [o1|] eqn:E; [|discriminate]. cbn [bindR] in H. destruct (step_plain o o1 p HP E) as (C & V & N & S).
    assert (C1 : o_cls o1 = o_cls o) by (rewrite C; destruct p; [|reflexivity]; destruct (o_cls o); try reflexivity; contradiction).
    destruct (IH o1 o' ltac:(rewrite C1; exact HP) ltac:(rewrite C1; exact HS) H) as (K1 & K2 & K3 & K4 & K5). rewrite C1 in *.
    split; [exact K1|]. split; [congruence|]. destruct p as [n mt|lam]; destruct S as (S1 & S2 & S3); rewrite S1 in K3; rewrite S2 in K4; rewrite S3 in K5.
    + cbn [final_config final_parent tags]. split; [exact K3|]. split; [rewrite K4; destruct mt; reflexivity|]. rewrite K5. destruct (o_name o) as [s|]; cbn [option_map]; [|reflexivity]. rewrite !str_app_assoc. cbn [append]. rewrite ?str_app_assoc. reflexivity.
    + cbn [final_config final_parent tags]. split; [exact K3|]. split; [exact K4|]. rewrite K5. destruct (o_name o) as [s|]; cbn [option_map]; [|reflexivity]. rewrite !str_app_assoc. reflexivity.
Qed.
(** the stress-energy tensor stays one exactly until the first change_config *)
Lemma stress_class ps : forall o o' : obj A, o_cls o = CStress -> obj_run o ps = Ok o' ->
  o_cls o' = if existsb (fun p => match p with OpConfig _ _ => true | OpLorentz _ => false end) ps then CEinstein else CStress.
Proof.
  induction ps as [|p ps IH]; intros o o' HC H; cbn [obj_run] in H.
  - apply Ok_inj in H. subst o'. exact HC.
  - destruct (obj_step o p) as [o1|] eqn:E; [|discriminate]. cbn [bindR] in H.
    assert (HP : plain (o_cls o)) by (rewrite HC; repeat split; discriminate). destruct (step_plain o o1 p HP E) as (C & _).
    destruct p as [n mt|lam]; cbn [existsb orb].
    + rewrite HC in C. cbn in C. destruct (history ps o1 o' ltac:(rewrite C; repeat split; discriminate) ltac:(rewrite C; discriminate) H) as (K & _). rewrite K. exact C.
    + apply (IH o1 o'); [congruence|exact H].
Qed.
(** the base class and the Ricci scalar offer no change_config; lorentz_transform of either gives a plain BaseRelativityTensor *)
Lemma base_ops (o : obj A) : o_cls o = CBase \/ o_cls o = CScalar ->
  (forall n mt, obj_change_config o n mt = Err AttributeError) /\ forall lam, exists o', obj_lorentz o lam = Ok o' /\ o_cls o' = CBase.
Proof.
  intros [H|H]; (split; [intros n mt; unfold obj_change_config; rewrite H; reflexivity|]); intros lam; unfold obj_lorentz; rewrite H; eexists; (split; [reflexivity|reflexivity]).
Qed.
(** without a metric argument and without a parent metric, every class raises Exception *)
Lemma no_metric (o : obj A) n : plain (o_cls o) -> t_parent (o_t o) = None -> obj_change_config o n None = Err PyException.
Proof. intros HP H. rewrite cc_plain by exact HP. unfold t_change_config. rewrite H. reflexivity. Qed.
(** a Lorentz-transformed tensor therefore refuses change_config until it is given a metric *)
Lemma lorentz_then_config (o o' : obj A) lam n : plain (o_cls o) -> obj_lorentz o lam = Ok o' -> obj_change_config o' n None = Err PyException.
Proof.
  intros HP H. destruct (step_plain o o' (OpLorentz lam) HP H) as (C & _ & _ & _ & P & _). apply no_metric; [rewrite C; exact HP|exact P].
Qed.
(** lorentz_transform never fails on a valid object *)
Lemma lorentz_ok (o : obj A) lam : valid_obj o -> exists o', obj_lorentz o lam = Ok o'.
Proof.
  intros V. unfold obj_lorentz. eexists. apply construct_valid. intros k Hk. unfold valid_obj in V.
  assert (E : fixed_order (o_cls o) = Some k) by (destruct (o_cls o); try exact Hk; discriminate). rewrite E in V. destruct (o_cls o); exact V.
Qed.
End S.

Section L.
Context {A : dops} (L : dlaws A).
Local Open Scope K_scope.
(** with an invertible metric and a configuration of the right length, change_config succeeds on a valid object and moves the indices *)
Lemma config_ok_ (m : metric A) (g gi : nat -> nat -> A) (o : obj A) n mt :
  plain (o_cls o) -> valid_obj o -> covariant_pair m g gi -> (mt = Some m \/ (mt = None /\ t_parent (o_t o) = Some m)) ->
  let new := match n with Some x => x | None => default_newconfig (o_cls o) end in
  List.length new = List.length (t_cfg (o_t o)) -> config_checker new = true ->
  exists o', obj_change_config o n mt = Ok o' /\ forall idx, valid (m_n m) (List.length (t_cfg (o_t o))) idx ->
    t_arr (o_t o') idx == move (m_n m) g gi (t_cfg (o_t o)) new (t_arr (o_t o)) idx.
Proof.
  intros HP V HC Hm new Hl Hk. rewrite cc_plain by exact HP. change (@newcfg A (o_cls o) n) with new.
  destruct (change_config_spec_ L m g gi (o_t o) mt new HC Hm Hl Hk) as (t' & E & Ec & _ & _ & S). rewrite E. cbn [bindR].
  rewrite construct_valid; [eexists; split; [reflexivity|exact S]|]. intros k Hk'. rewrite order_cc in Hk'. unfold valid_obj in V. rewrite Hk' in V. congruence.
Qed.
(** the defaults of newconfig have the right length for every class *)
Lemma default_ok_ (o : obj A) : plain (o_cls o) -> valid_obj o -> List.length (default_newconfig (o_cls o)) = List.length (t_cfg (o_t o)) /\ config_checker (default_newconfig (o_cls o)) = true.
Proof. intros (H1 & H2 & H3) V. unfold valid_obj in V. destruct (o_cls o); try contradiction; cbn [fixed_order] in V; rewrite V; split; reflexivity. Qed.
End L.

(** MetricTensor: a metric object is its own parent *)
Definition own_parent {A : dops} (o : obj A) : Prop := t_parent (o_t o) = Some (mkmetric (t_n (o_t o)) (t_arr (o_t o)) (t_cfg (o_t o))).
Lemma metric_steps (A : dops) ps : forall o o' : obj A, o_cls o = CMetric -> own_parent o -> obj_run o ps = Ok o' -> o_cls o' = CMetric /\ own_parent o' /\ t_n (o_t o') = t_n (o_t o).
Proof.
  induction ps as [|p ps IH]; intros o o' HC HO H; cbn [obj_run] in H.
  - apply Ok_inj in H. subst o'. auto.
  - destruct (obj_step o p) as [o1|] eqn:E; [|discriminate]. cbn [bindR] in H.
    assert (K : o_cls o1 = CMetric /\ own_parent o1 /\ t_n (o_t o1) = t_n (o_t o)).
    { destruct p as [n mt|lam]; cbn [obj_step] in E.
      - unfold obj_change_config in E. rewrite HC in E. destruct mt; [discriminate|]. destruct (cfg_eqb _ _); [apply Ok_inj in E; subst; auto|].
        destruct (m_change_config _ _) as [m|] eqn:Em; [|discriminate]. cbn [bindR] in E. apply construct_ok in E. destruct E as [-> V]. unfold own_parent. cbn [o_cls o_t t_parent t_n t_arr t_cfg].
        split; [reflexivity|]. split; [destruct m; reflexivity|]. unfold m_change_config in Em. cbn [m_n m_arr m_cfg] in Em.
        destruct (cfg_eqb _ _); [apply Ok_inj in Em; subst; reflexivity|]. destruct (_ || _)%bool; [|discriminate]. destruct (kminv _ _); [|discriminate]. apply Ok_inj in Em. subst. reflexivity.
      - unfold obj_lorentz in E. rewrite HC in E. apply construct_ok in E. destruct E as [-> V]. unfold own_parent. cbn. auto. }
    destruct K as (K1 & K2 & K3). destruct (IH o1 o' K1 K2 H) as (J1 & J2 & J3). split; [exact J1|]. split; [exact J2|congruence].
Qed.
(** witness: a Ricci tensor and a stress-energy tensor on the exp(2 x0) metric *)
Definition wit (c : cls) : obj (diag_ops Uall) := mkobj c (@mktens (diag_ops Uall) 4 (arr_of (A := diag_ops Uall) conf_g) (cf "ll") (Some (conf_metric 4))) (Some "T"%string).
Lemma wit_run c : c = CRicci \/ c = CStress -> valid_obj (wit c) /\ exists o', obj_run (wit c) [OpConfig None None; OpLorentz (arr_of (A := diag_ops Uall) conf_g)] = Ok o' /\ o_name o' = Some "T__ul__lt"%string.
Proof.
  intros HC. assert (V : valid_obj (wit c)) by (destruct HC as [-> | ->]; reflexivity). split; [exact V|].
  assert (P : plain (o_cls (wit c))) by (destruct HC as [-> | ->]; repeat split; discriminate).
  destruct (conf_pair 4) as [HP _].
  destruct (config_ok_ all_laws (conf_metric 4) conf_g _ (wit c) None None P V HP (or_intror (conj eq_refl eq_refl))) as (o1 & E1 & _); [destruct HC as [-> | ->]; reflexivity|destruct HC as [-> | ->]; reflexivity|].
  destruct (step_plain (wit c) o1 (OpConfig None None) P E1) as (C & V1 & _ & _ & _ & N).
  destruct (lorentz_ok o1 (arr_of (A := diag_ops Uall) conf_g) V1) as (o2 & E2). exists o2. split; [cbn [obj_run obj_step]; rewrite E1; cbn [bindR]; rewrite E2; reflexivity|].
  assert (P1 : plain (o_cls o1)) by (rewrite C; destruct HC as [-> | ->]; repeat split; discriminate).
  destruct (step_plain o1 o2 (OpLorentz _) P1 E2) as (_ & _ & _ & _ & _ & N2). rewrite N2, N. destruct HC as [-> | ->]; reflexivity.
Qed.
Lemma stress_refuted : exists (o o' : obj (diag_ops Uall)), o_cls o = CStress /\ valid_obj o /\ obj_change_config o None None = Ok o' /\ o_cls o' = CEinstein.
Proof.
  destruct (wit_run CStress (or_intror eq_refl)) as (V & o' & E & _). cbn [obj_run obj_step] in E. destruct (obj_change_config (wit CStress) None None) as [o1|] eqn:E1; [|discriminate].
  exists (wit CStress), o1. split; [reflexivity|]. split; [exact V|]. split; [exact E1|].
  destruct (step_plain (wit CStress) o1 (OpConfig None None)) as (C & _); [repeat split; discriminate|exact E1|exact C].
Qed.
