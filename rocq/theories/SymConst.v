(** symbolic/constants.py: the symbolic constants, over every history of calls.
    sympy (outside the model, trusted): Symbol.__new__(cls, name, **assumptions) drops the assumptions that are None and returns the object its cache
    holds for (cls, name, assumptions), making a new one if there is none; the cache is bounded and may forget entries at any time.
    Only objects of class SymbolicConstant are modelled (another class is another cache key). *)
From Coq Require Import String List Arith Lia Bool.
From Verif Require Import Base.
Import ListNotations.
Open Scope string_scope.

(** ** the model *)
(** what identifies a symbol: its name and its assumptions (as passed, in order, without those that are None) *)
Definition symkey := (string * list (string * bool))%type.
Definition sanitize (l : list (string * option bool)) : list (string * bool) :=
  flat_map (fun x => match snd x with Some b => [(fst x, b)] | None => [] end) l.
Definition symkey_eq (a b : symkey) : {a = b} + {a <> b}.
Proof. decide equality; [apply list_eq_dec; decide equality; [apply bool_dec|apply string_dec]|apply string_dec]. Defined.
(** sympy's cache and the objects made so far; objects are numbered in the order in which they are made.
    names: the string a symbol prints as and its assumptions; descs: the attribute _descriptive_name *)
Record world := mkworld { cache : list (symkey * nat); names : list symkey; descs : nat -> option string }.
Fixpoint cached (l : list (symkey * nat)) (k : symkey) : option nat :=
  match l with [] => None | (k', i) :: l => if symkey_eq k' k then Some i else cached l k end.
Definition upd_desc (f : nat -> option string) (i : nat) (d : option string) : nat -> option string := fun j => if Nat.eqb j i then d else f j.
(** constants.py:10-29 SymbolicConstant.__new__ *)
Definition new_constant (w : world) (name : string) (descriptive_name : option string) (assumptions : list (string * option bool)) : world * nat :=
  let k := (name, sanitize assumptions) in
  match cached (cache w) k with
  | Some i => (mkworld (cache w) (names w) (upd_desc (descs w) i descriptive_name), i)
  | None => let i := length (names w) in (mkworld ((k, i) :: cache w) (names w ++ [k]) (upd_desc (descs w) i descriptive_name), i)
  end.
(** constants.py:31-37 the property descriptive_name *)
Definition descriptive_name (w : world) (i : nat) : option string := descs w i.
(** constants.py:40-43: the module's constants, made when it is imported, in this order *)
Definition const_c : nat := 0.
Definition const_G : nat := 1.
Definition const_Lambda : nat := 2.
Definition const_eps_0 : nat := 3.
Definition fresh_world : world := mkworld [] [] (fun _ => None).
Definition import_module : world :=
  let w := fst (new_constant fresh_world "c" (Some "Speed Of Light") []) in
  let w := fst (new_constant w "G" (Some "Gravitational Constant") []) in
  let w := fst (new_constant w "Lambda" (Some "Cosmological Constant") []) in
  fst (new_constant w "eps_0" (Some "Permittivity of free space") []).
(** constants.py:46-62 get_constant: the dictionary is rebuilt from the module's names at every call *)
Definition get_constant (name : string) : Res nat :=
  if string_dec name "c" then Ok const_c else if string_dec name "G" then Ok const_G
  else if string_dec name "Cosmo_Const" then Ok const_Lambda else if string_dec name "eps_0" then Ok const_eps_0 else Err KeyError.
(** sympy's == between two symbols of this class: the same name and the same assumptions, in whatever order these were given *)
Definition sym_equal (w : world) (i j : nat) : Prop :=
  exists n a b, nth_error (names w) i = Some (n, a) /\ nth_error (names w) j = Some (n, b) /\ (forall x, In x a <-> In x b).

(** ** histories *)
Inductive call := New (name : string) (desc : option string) (assumptions : list (string * option bool)) | Forget (k : symkey).
Definition step (w : world) (a : call) : world :=
  match a with
  | New n d l => fst (new_constant w n d l)
  | Forget k => mkworld (filter (fun x => if symkey_eq (fst x) k then false else true) (cache w)) (names w) (descs w)
  end.
Definition run (w : world) (h : list call) : world := fold_left step h w.
Definition returned (w : world) (a : call) : option nat := match a with New n d l => Some (snd (new_constant w n d l)) | Forget _ => None end.
(** the description given in the last construction of the history that returned object i *)
Fixpoint last_given (w : world) (h : list call) (i : nat) (d : option string) : option string :=
  match h with
  | [] => d
  | a :: h => last_given (step w a) h i (match a with New n d' l => if Nat.eqb (snd (new_constant w n d' l)) i then d' else d | Forget _ => d end)
  end.

(** ** proofs *)
Definition wf (w : world) : Prop := forall k i, cached (cache w) k = Some i -> nth_error (names w) i = Some k.
Lemma cached_filter l k k' i : cached (filter (fun x => if symkey_eq (fst x) k then false else true) l) k' = Some i -> cached l k' = Some i.
Proof.
  induction l as [|[k0 j] l IH]; cbn [filter fst cached]; [discriminate|]. destruct (symkey_eq k0 k) as [E|E]; cbn [cached].
  - destruct (symkey_eq k0 k') as [E'|E']; [|exact IH]. subst. intros H. exfalso. revert H. clear IH. induction l as [|[k1 j1] l IH]; cbn [filter fst cached]; [discriminate|]. destruct (symkey_eq k1 k') as [X|X]; [exact IH|]. cbn [cached]. destruct (symkey_eq k1 k'); [contradiction|exact IH].
  - destruct (symkey_eq k0 k') as [E'|E']; [intros H; exact H|exact IH].
Qed.
Lemma new_spec w n d l : wf w -> let k := (n, sanitize l) in let '(w', i) := new_constant w n d l in
  wf w' /\ nth_error (names w') i = Some k /\ (forall j k', nth_error (names w) j = Some k' -> nth_error (names w') j = Some k') /\ descs w' i = d /\ (forall j, j <> i -> descs w' j = descs w j) /\
  (nth_error (names w) i = Some k \/ i = length (names w)).
Proof.
  intros W. cbv zeta. unfold new_constant. destruct (cached (cache w) (n, sanitize l)) as [i|] eqn:E; cbn [cache names descs].
  - assert (X := W _ _ E). split; [exact W|]. split; [exact X|]. split; [intros; assumption|]. unfold upd_desc. rewrite Nat.eqb_refl. split; [reflexivity|]. split; [|left; exact X]. intros j Hj. destruct (Nat.eqb_spec j i); [contradiction|reflexivity].
  - assert (X : nth_error (names w ++ [(n, sanitize l)]) (length (names w)) = Some (n, sanitize l)) by (rewrite nth_error_app2, Nat.sub_diag by lia; reflexivity).
    assert (Y : forall j k', nth_error (names w) j = Some k' -> nth_error (names w ++ [(n, sanitize l)]) j = Some k') by (intros j k' H; rewrite nth_error_app1; [exact H|]; apply nth_error_Some; congruence).
    split; [|split; [exact X|split; [exact Y|]]].
    + intros k i. cbn [cached cache names]. destruct (symkey_eq (n, sanitize l) k) as [<-|Hk]; [intros H; injection H as <-; exact X|]. intros H. apply Y, W, H.
    + unfold upd_desc. rewrite Nat.eqb_refl. split; [reflexivity|]. split; [|right; reflexivity]. intros j Hj. destruct (Nat.eqb_spec j (length (names w))); [contradiction|reflexivity].
Qed.
Lemma step_wf w a : wf w -> wf (step w a) /\ forall j k, nth_error (names w) j = Some k -> nth_error (names (step w a)) j = Some k.
Proof.
  intros W. destruct a as [n d l|k]; cbn [step].
  - assert (S := new_spec w n d l W). cbv zeta in S. destruct (new_constant w n d l) as [w' i]. cbn [fst]. split; apply S.
  - split; [|intros; assumption]. intros k' i. cbn [cache names]. intros H. apply W. eapply cached_filter, H.
Qed.
Lemma run_wf h : forall w, wf w -> wf (run w h) /\ forall j k, nth_error (names w) j = Some k -> nth_error (names (run w h)) j = Some k.
Proof.
  induction h as [|a h IH]; intros w W; cbn [run fold_left]; [split; [exact W|intros; assumption]|]. destruct (step_wf w a W) as (W1 & N1). destruct (IH (step w a) W1) as (W2 & N2). split; [exact W2|]. intros j k H. apply N2, N1, H.
Qed.
Lemma fresh_wf : wf fresh_world. Proof. intros k i H. discriminate. Qed.
Definition import_calls : list call := [New "c" (Some "Speed Of Light") []; New "G" (Some "Gravitational Constant") []; New "Lambda" (Some "Cosmological Constant") []; New "eps_0" (Some "Permittivity of free space") []].
Lemma import_run : import_module = run fresh_world import_calls. Proof. reflexivity. Qed.
Lemma import_wf : wf import_module. Proof. rewrite import_run. apply run_wf, fresh_wf. Qed.

(** whatever the history, get_constant returns the module's constant, which prints as it should *)
Theorem get_constant_ok h : let w := run import_module h in
  (exists i, get_constant "c" = Ok i /\ nth_error (names w) i = Some ("c", [])) /\ (exists i, get_constant "G" = Ok i /\ nth_error (names w) i = Some ("G", [])) /\
  (exists i, get_constant "Cosmo_Const" = Ok i /\ nth_error (names w) i = Some ("Lambda", [])) /\ (exists i, get_constant "eps_0" = Ok i /\ nth_error (names w) i = Some ("eps_0", [])).
Proof.
  intros w. destruct (run_wf h import_module import_wf) as (_ & N). fold w in N.
  split; [|split; [|split]]; eexists; (split; [reflexivity|]); apply N; reflexivity.
Qed.
Theorem get_constant_key name : (exists i, get_constant name = Ok i) <-> In name ["c"; "G"; "Cosmo_Const"; "eps_0"].
Proof.
  unfold get_constant. cbn [In]. split.
  - intros (i & H). destruct (string_dec name "c"); [auto|]. destruct (string_dec name "G"); [auto|]. destruct (string_dec name "Cosmo_Const"); [auto|]. destruct (string_dec name "eps_0"); [auto 6|discriminate].
  - intros [<-|[<-|[<-|[<-|[]]]]]; eexists; reflexivity.
Qed.
Theorem get_constant_error name : ~ In name ["c"; "G"; "Cosmo_Const"; "eps_0"] -> get_constant name = Err KeyError.
Proof.
  intros H. unfold get_constant. destruct (string_dec name "c"); [exfalso; apply H; subst; cbn; auto|]. destruct (string_dec name "G"); [exfalso; apply H; subst; cbn; auto|]. destruct (string_dec name "Cosmo_Const"); [exfalso; apply H; subst; cbn; auto|].
  destruct (string_dec name "eps_0"); [exfalso; apply H; subst; cbn; auto 6|reflexivity].
Qed.
(** a construction returns a symbol with the name and assumptions asked for and the description given *)
Theorem new_constant_ok h n d l : let w := run import_module h in let '(w', i) := new_constant w n d l in
  nth_error (names w') i = Some (n, sanitize l) /\ descriptive_name w' i = d /\ (forall j, j <> i -> descriptive_name w' j = descriptive_name w j) /\ (forall j k, nth_error (names w) j = Some k -> nth_error (names w') j = Some k).
Proof.
  intros w. destruct (run_wf h import_module import_wf) as (W & _). fold w in W. assert (S := new_spec w n d l W). cbv zeta in S. destruct (new_constant w n d l) as [w' i]. unfold descriptive_name. destruct S as (_ & S1 & S2 & S3 & S4 & _). split; [exact S1|]. split; [exact S3|]. split; [exact S4|exact S2].
Qed.
(** symbols of different names or assumptions are different objects and not equal; constructions of one name are equal *)
Theorem same_name_equal h1 h2 n d1 d2 l : let w1 := run import_module h1 in let i := snd (new_constant w1 n d1 l) in let w2 := run (step w1 (New n d1 l)) h2 in let j := snd (new_constant w2 n d2 l) in
  sym_equal (step w2 (New n d2 l)) i j.
Proof.
  cbv zeta. set (w1 := run import_module h1). destruct (run_wf h1 import_module import_wf) as (W1 & _). fold w1 in W1. assert (S1 := new_spec w1 n d1 l W1). cbv zeta in S1. cbn [step]. destruct (new_constant w1 n d1 l) as [w1' i]. cbn [fst snd].
  destruct S1 as (W1' & N1 & _). destruct (run_wf h2 w1' W1') as (W2 & N2). assert (S2 := new_spec (run w1' h2) n d2 l W2). cbv zeta in S2. destruct (new_constant (run w1' h2) n d2 l) as [w2' j]. cbn [fst snd]. destruct S2 as (_ & M1 & M2 & _).
  exists n, (sanitize l), (sanitize l). split; [apply M2, N2, N1|]. split; [exact M1|]. intros x. reflexivity.
Qed.
Theorem other_name_distinct h1 h2 n1 n2 d1 d2 l1 l2 : n1 <> n2 -> let w1 := run import_module h1 in let i := snd (new_constant w1 n1 d1 l1) in let w2 := run (step w1 (New n1 d1 l1)) h2 in let j := snd (new_constant w2 n2 d2 l2) in
  i <> j /\ ~ sym_equal (step w2 (New n2 d2 l2)) i j.
Proof.
  intros Hn. cbv zeta. set (w1 := run import_module h1). destruct (run_wf h1 import_module import_wf) as (W1 & _). fold w1 in W1. assert (S1 := new_spec w1 n1 d1 l1 W1). cbv zeta in S1. cbn [step]. destruct (new_constant w1 n1 d1 l1) as [w1' i]. cbn [fst snd].
  destruct S1 as (W1' & N1 & _). destruct (run_wf h2 w1' W1') as (W2 & N2). assert (S2 := new_spec (run w1' h2) n2 d2 l2 W2). cbv zeta in S2. destruct (new_constant (run w1' h2) n2 d2 l2) as [w2' j]. cbn [fst snd]. destruct S2 as (_ & M1 & M2 & _).
  assert (A := M2 _ _ (N2 _ _ N1)). split.
  - intros ->. rewrite M1 in A. injection A as A _. congruence.
  - intros (n & a & b & E1 & E2 & _). rewrite A in E1. rewrite M1 in E2. congruence.
Qed.
(** the description of an object is the one given in the last construction that returned it *)
Lemma last_given_run h : forall w, wf w -> forall i d, descs w i = d -> descs (run w h) i = last_given w h i d.
Proof.
  induction h as [|a h IH]; intros w W i d E; [exact E|]. cbn [run fold_left last_given]. destruct (step_wf w a W) as (W1 & _). apply (IH (step w a) W1). destruct a as [n d' l|k]; cbn [step]; [|exact E].
  assert (S := new_spec w n d' l W). cbv zeta in S. destruct (new_constant w n d' l) as [w' j]. cbn [fst snd]. destruct S as (_ & _ & _ & S1 & S2 & _). destruct (Nat.eqb_spec j i) as [<-|Hne]; [exact S1|]. rewrite S2 by congruence. exact E.
Qed.
Theorem description_is_last_given h i : descriptive_name (run import_module h) i = last_given import_module h i (descriptive_name import_module i).
Proof. unfold descriptive_name. apply last_given_run; [apply import_wf|reflexivity]. Qed.
(** so the module's constants keep theirs as long as nobody constructs a constant of the same name *)
Definition names_in (h : list call) : list string := flat_map (fun a => match a with New n _ _ => [n] | Forget _ => [] end) h.
Lemma desc_kept h : forall w, wf w -> forall i n a, nth_error (names w) i = Some (n, a) -> ~ In n (names_in h) -> descs (run w h) i = descs w i.
Proof.
  induction h as [|x h IH]; intros w W i n a E Hn; [reflexivity|]. cbn [run fold_left]. destruct (step_wf w x W) as (W1 & N1). fold (run (step w x) h). cbn [names_in flat_map] in Hn.
  rewrite (IH (step w x) W1 i n a (N1 _ _ E)) by (intros H; apply Hn; apply in_or_app; right; exact H). destruct x as [n' d' l|k]; cbn [step]; [|reflexivity].
  assert (S := new_spec w n' d' l W). cbv zeta in S. destruct (new_constant w n' d' l) as [w' j]. cbn [fst]. destruct S as (_ & S0 & S3 & _ & S2 & _). apply S2. intros ->. apply S3 in E. rewrite S0 in E. injection E as E _. apply Hn. left. exact E.
Qed.
Theorem constants_described h : let w := run import_module h in let own := names_in h in
  (~ In "c" own -> descriptive_name w const_c = Some "Speed Of Light") /\ (~ In "G" own -> descriptive_name w const_G = Some "Gravitational Constant") /\
  (~ In "Lambda" own -> descriptive_name w const_Lambda = Some "Cosmological Constant") /\ (~ In "eps_0" own -> descriptive_name w const_eps_0 = Some "Permittivity of free space").
Proof.
  cbv zeta. unfold descriptive_name. split; [|split; [|split]]; intros H; (erewrite desc_kept; [reflexivity|apply import_wf|reflexivity|exact H]).
Qed.
(** but a construction of the same name overwrites the description of the object handed out before *)
Theorem description_overwritten : exists h, get_constant "c" = Ok const_c /\ descriptive_name import_module const_c = Some "Speed Of Light" /\ descriptive_name (run import_module h) const_c = None.
Proof. exists [New "c" None []]. repeat split. Qed.
Theorem overwritten_when_cached h n d l i : let w := run import_module h in cached (cache w) (n, sanitize l) = Some i -> snd (new_constant w n d l) = i /\ descriptive_name (step w (New n d l)) i = d.
Proof.
  cbv zeta. intros H. cbn [step]. unfold new_constant. rewrite H. cbn [fst snd]. split; [reflexivity|]. unfold descriptive_name, upd_desc. cbn [descs]. rewrite Nat.eqb_refl. reflexivity.
Qed.
Theorem other_assumptions_distinct h1 h2 n1 n2 d1 d2 l1 l2 : (n1, sanitize l1) <> (n2, sanitize l2) -> let w1 := run import_module h1 in let i := snd (new_constant w1 n1 d1 l1) in let w2 := run (step w1 (New n1 d1 l1)) h2 in let j := snd (new_constant w2 n2 d2 l2) in i <> j.
Proof.
  intros Hn. cbv zeta. set (w1 := run import_module h1). destruct (run_wf h1 import_module import_wf) as (W1 & _). fold w1 in W1. assert (S1 := new_spec w1 n1 d1 l1 W1). cbv zeta in S1. cbn [step]. destruct (new_constant w1 n1 d1 l1) as [w1' i]. cbn [fst snd].
  destruct S1 as (W1' & N1 & _). destruct (run_wf h2 w1' W1') as (W2 & N2). assert (S2 := new_spec (run w1' h2) n2 d2 l2 W2). cbv zeta in S2. destruct (new_constant (run w1' h2) n2 d2 l2) as [w2' j]. cbn [fst snd]. destruct S2 as (_ & M1 & M2 & _).
  assert (A := M2 _ _ (N2 _ _ N1)). intros ->. rewrite M1 in A. injection A as A B. apply Hn. f_equal; congruence.
Qed.
