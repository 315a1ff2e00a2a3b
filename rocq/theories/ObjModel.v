(** Model of the tensor objects of einsteinpy.symbolic as Python objects: class, name, parent metric, and what the methods
    change_config and lorentz_transform of every class return.  The array operations are those of SymModel and SymTensorModel. *)
From Coq Require Import String Ascii List Arith Lia Bool.
From Verif Require Import Base SymAlg SymModel SymTensorModel.
Import ListNotations.
Open Scope nat_scope.

Inductive cls := CBase | CMetric | CChristoffel | CRiemann | CRicci | CScalar | CEinstein | CWeyl | CSchouten | CStress | CVector.
Lemma cls_eq_dec (a b : cls) : {a = b} + {a <> b}.
Proof. decide equality. Defined.

Section Model.
Context {A : dops}.

(** the instance attributes the methods use: arr, syms, _config, _parent_metric (in [tens]) and name *)
Record obj := mkobj { o_cls : cls; o_t : tens A; o_name : option string }.

(** self._order = k in the constructors: metric.py:38, christoffel.py:45, riemann.py:51, ricci.py:47, ricci.py:194,
    einstein.py:46, weyl.py:44, schouten.py:44, stress_energy_momentum.py:48, vector.py:41; None: tensor.py:158 *)
Definition fixed_order (c : cls) : option nat :=
  match c with
  | CBase => None | CMetric => Some 2 | CChristoffel => Some 3 | CRiemann => Some 4 | CRicci => Some 2 | CScalar => Some 0
  | CEinstein => Some 2 | CWeyl => Some 4 | CSchouten => Some 2 | CStress => Some 2 | CVector => Some 1
  end.
(** the constructors: "config should be of length {order}" (same lines); the checks on types and shapes are C57 *)
Definition construct (c : cls) (t : tens A) (name : option string) : Res obj :=
  match fixed_order c with
  | Some k => if Nat.eqb (List.length (t_cfg t)) k then Ok (mkobj c t name) else Err ValueError
  | None => Ok (mkobj c t name)
  end.

(** helpers.py:190-208 *)
Definition change_name (name : option string) (context : string) : option string :=
  match name with Some s => Some (s ++ context)%string | None => None end.
Definition cfg_str (c : config) : string := string_of_list_ascii c.

(** the default of newconfig: christoffel.py:81, riemann.py:109, ricci.py:111, einstein.py:64, weyl.py:110, schouten.py:76,
    stress_energy_momentum.py:66, vector.py:50, metric.py:45 *)
Definition default_newconfig (c : cls) : config :=
  match c with
  | CChristoffel => cf "lll" | CRiemann => cf "llll" | CRicci => cf "ul" | CEinstein => cf "ul" | CWeyl => cf "llll"
  | CSchouten => cf "ul" | CStress => cf "ul" | CVector => cf "u" | CMetric => cf "uu" | _ => []
  end.
(** the class named in the body of change_config; stress_energy_momentum.py:95 names EinsteinTensor *)
Definition cc_class (c : cls) : cls := match c with CStress => CEinstein | c => c end.

(** the change_config methods; RicciScalar and BaseRelativityTensor have none; MetricTensor.change_config takes no metric
    (metric.py:45-80) and returns self when the configuration does not change *)
Definition obj_change_config (o : obj) (newconfig : option config) (mt : option (metric A)) : Res obj :=
  let new := match newconfig with Some n => n | None => default_newconfig (o_cls o) end in
  match o_cls o with
  | CBase | CScalar => Err AttributeError
  | CMetric =>
      match mt with
      | Some _ => Err TypeError
      | None =>
          if cfg_eqb new (t_cfg (o_t o)) then Ok o
          else
            let* m := m_change_config (mkmetric (t_n (o_t o)) (t_arr (o_t o)) (t_cfg (o_t o))) new in
            construct CMetric (mktens (m_n m) (m_arr m) (m_cfg m) (Some m)) (change_name (o_name o) ("__" ++ cfg_str new)%string)
      end
  | c =>
      let* t := t_change_config (o_t o) new mt in
      construct (cc_class c) t (change_name (o_name o) ("__" ++ cfg_str new)%string)
  end.

(** tensor.py:424-459 and the overriding methods (christoffel.py:119-141, ..., metric.py:115-136): the subclass rebuilds its own
    class from the transformed array, with parent_metric None (a metric is its own parent metric); RicciScalar does not override *)
Definition lt_class (c : cls) : cls := match c with CScalar => CBase | c => c end.
Definition obj_lorentz (o : obj) (lam : arr A) : Res obj :=
  let t := lorentz_transform (o_t o) lam in
  construct (lt_class (o_cls o))
    (match o_cls o with CMetric => mktens (t_n t) (t_arr t) (t_cfg t) (Some (mkmetric (t_n t) (t_arr t) (t_cfg t))) | _ => t end)
    (change_name (o_name o) "__lt").

Inductive op := OpConfig (newconfig : option config) (mt : option (metric A)) | OpLorentz (lam : arr A).
Definition obj_step (o : obj) (p : op) : Res obj :=
  match p with OpConfig n mt => obj_change_config o n mt | OpLorentz lam => obj_lorentz o lam end.
Fixpoint obj_run (o : obj) (ps : list op) : Res obj :=
  match ps with [] => Ok o | p :: ps => let* o' := obj_step o p in obj_run o' ps end.
End Model.
Arguments obj : clear implicits.
Arguments op : clear implicits.
