(** Model of symbolic/predefined/find.py, units.py, utils/exceptions.py, bodies.py and of the argument list of
    BaseRelativityTensor.tensor_lambdify (symbolic/tensor.py).  Strings are ASCII. *)
From Coq Require Import String Ascii Reals List Arith Lia Bool.
From Verif Require Import Base CoordModel ConvModel ExprModel.
Import ListNotations.
Local Open Scope nat_scope.

(** ** str methods on ASCII *)
Definition is_upper (c : ascii) : bool := Nat.leb 65 (nat_of_ascii c) && Nat.leb (nat_of_ascii c) 90.
Definition is_lower (c : ascii) : bool := Nat.leb 97 (nat_of_ascii c) && Nat.leb (nat_of_ascii c) 122.
Definition lower_char (c : ascii) : ascii := if is_upper c then ascii_of_nat (nat_of_ascii c + 32) else c.
(** str.lower *)
Fixpoint lower (s : string) : string := match s with EmptyString => EmptyString | String c r => String (lower_char c) (lower r) end.
Fixpoint existsb_str (f : ascii -> bool) (s : string) : bool := match s with EmptyString => false | String c r => f c || existsb_str f r end.
(** str.islower: at least one cased character and no upper case one *)
Definition islower (s : string) : bool := existsb_str is_lower s && negb (existsb_str is_upper s).
(** [a in b] *)
Fixpoint contains (b a : string) : bool :=
  String.prefix a b || match b with EmptyString => false | String _ r => contains r a end.
(** find.py:4-26; [dir] is dir(einsteinpy.symbolic.predefined) *)
Definition find (dir : list string) (search_string : string) : list string :=
  let search_string := lower search_string in
  filter (fun fname => contains (lower fname) search_string && negb (islower fname)) dir.
(** predefined/__init__.py:1-13: the imported names, the submodules and the module attributes, in dir() order *)
Definition predefined_dir : list string :=
  ["AlcubierreWarp"; "AntiDeSitter"; "AntiDeSitterStatic"; "BarriolaVilekin"; "BertottiKasner"; "BesselGravitationalWave"; "CMetric";
   "Davidson"; "DeSitter"; "Ernst"; "Godel"; "JanisNewmanWinicour"; "Kerr"; "KerrNewman"; "Minkowski"; "MinkowskiCartesian";
   "MinkowskiPolar"; "ReissnerNordstorm"; "Schwarzschild"; "__builtins__"; "__cached__"; "__doc__"; "__file__"; "__loader__";
   "__name__"; "__package__"; "__path__"; "__spec__"; "alcubierre_warp"; "barriola_vilenkin"; "bertotti_kasner";
   "bessel_gravitational_wave"; "cmetric"; "davidson"; "de_sitter"; "ernst"; "find"; "godel"; "janis_newman_winicour"; "minkowski";
   "vacuum_solutions"]%string.

(** ** units.py:8-31; an argument is a Quantity or any other object *)
Inductive pyarg (T : Type) := AQty (q : quantity) | AOther (x : T).
Arguments AQty {T}. Arguments AOther {T}.
Inductive pyout (T : Type) := OVal (x : R) | OObj (x : T).
Arguments OVal {T}. Arguments OObj {T}.
Definition primitive_args {T} (args : list (pyarg T)) : list (pyout T) :=
  fold_left (fun acc item => match item with AQty q => acc ++ [OVal (q_val q)] | AOther x => acc ++ [OObj x] end) args [].

(** ** exceptions.py:11-58; an argument is its str() *)
(** " ".join(...) *)
Fixpoint join (sep : string) (l : list string) : string :=
  match l with [] => EmptyString | [x] => x | x :: r => (x ++ sep ++ join sep r)%string end.
Definition error_message (args : list string) : string := join " " args.
(** repr and str *)
Definition error_repr (class_name : string) (args : list string) : string := (class_name ++ " : " ++ error_message args)%string.

(** ** bodies.py:72-85: what __post_init__ sets.  [coords] is None, a differential or another object *)
Inductive body_coords := NoCoords | Diff (d : diffl) | OtherCoords.
Record body := mkbody { b_mass : quantity; b_q : quantity; b_R : quantity; b_pos : option (list quantity); b_vel : option (list quantity) }.
Definition post_init (mass q R : pynum) (coords : body_coords) : Res body :=
  let* mass := qinput DMass mass in
  let* q := qinput DCharge q in
  let* R := qinput DLength R in
  match coords with
  | NoCoords | OtherCoords => Ok (mkbody mass q R None None)
  | Diff d =>
      let p := df_q d in let '(a, b, c) := df_v d in
      match df_sys d with
      | Cart => Ok (mkbody mass q R (Some [c1 p; c2 p; c3 p]) (Some [a; b; c]))
      | Sph | BL => Ok (mkbody mass q R (Some [c1 p; c2 p; c3 p]) (Some [a; b; c]))
      end
  end.

(** ** tensor.py:350-355 and 414-422: variables and the argument list.
    Symbols are numbers with a name; [free] is the iteration order of the set arr.free_symbols *)
Section Lam.
Variable name : nat -> string.
Fixpoint insert_sym (x : nat) (l : list nat) : list nat :=
  match l with [] => [x] | y :: r => if String.leb (name x) (name y) then x :: l else y :: insert_sym x r end.
(** list.sort(key=name): stable *)
Definition sort_syms (l : list nat) : list nat := fold_right insert_sym [] l.
Definition mem (x : nat) (l : list nat) : bool := existsb (Nat.eqb x) l.
Definition variables_of (variables free syms : list nat) : list nat :=
  match variables with [] => sort_syms (filter (fun v => negb (mem v syms)) free) | _ => variables end.
Definition arg_list (args variables free syms : list nat) : list nat :=
  match args with [] => syms ++ variables_of variables free syms | _ => args end.
End Lam.
(** sympy.lambdify(args, e): a call with the right number of values evaluates e with each symbol bound to its value;
    an unbound symbol would be a NameError *)
Fixpoint bind_args (args : list nat) (vals : list R) : nat -> option R :=
  match args, vals with x :: a, v :: r => fun i => if Nat.eqb i x then Some v else bind_args a r i | _, _ => fun _ => None end.
Fixpoint free_syms (e : expr) : list nat :=
  match e with
  | EConst _ => [] | EVar i => [i]
  | EAdd a b | EMul a b | ESub a b | EDiv a b => free_syms a ++ free_syms b
  | EOpp a | ESin a | ECos a | EExp a | ELn a | ESqrt a => free_syms a
  end.
Definition lambdified (args : list nat) (e : expr) (vals : list R) : Res R :=
  if Nat.eqb (List.length vals) (List.length args) then
    if forallb (fun i => match bind_args args vals i with Some _ => true | None => false end) (free_syms e)
    then Ok (eval e (fun i => match bind_args args vals i with Some v => v | None => 0%R end))
    else Err PyException
  else Err TypeError.
