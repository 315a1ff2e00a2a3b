(* generated from tools/P/P_Misc.v.in by tools/genp.py: statements only, proofs are references *)
(** Properties C66-C70 and C75-C78: find, flat index decoding in floating point, the scale factor, the hypersurface embedding,
    unit stripping, exceptions, bodies and lambdified argument lists. *)
From Coq Require Import String Ascii Reals List Arith ZArith Lia Lra Permutation Sorted.
From Flocq Require Import Core.
From Coquelicot Require Import Coquelicot.
From Verif Require Import Base CoordModel ConvModel ExprModel SymAlg SymModel SymLoops SymTensorModel SymTensorProofs MiscModel MiscProofs MiscFloat CosmoModel CosmoProofs EmbedModel EmbedProofs.
Import ListNotations.
Local Open Scope R_scope.
Local Notation Forall := List.Forall.

(** C66: membership *)
Theorem C66_exact : forall dir s x,
  In x (find dir s) <-> In x dir /\ occurs_nocase s x /\ ~ all_lower x.
Proof. exact MiscProofs.find_spec. Qed.
Print Assumptions C66_exact.

(** in the order of dir() *)
Theorem C66_order : forall dir s,
  exists keep : string -> bool, find dir s = filter keep dir.
Proof. exact MiscProofs.find_order. Qed.
Print Assumptions C66_order.

Theorem C66_nodup : forall dir s,
  NoDup dir -> NoDup (find dir s).
Proof. exact MiscProofs.find_nodup. Qed.
Print Assumptions C66_nodup.

Theorem C66_case_insensitive : forall dir s s',
  lower s = lower s' -> find dir s = find dir s'.
Proof. exact MiscProofs.find_nocase. Qed.
Print Assumptions C66_case_insensitive.

(** a longer search string finds no more *)
Theorem C66_narrowing : forall dir p s r x,
  In x (find dir (p ++ s ++ r)) -> In x (find dir s).
Proof. exact MiscProofs.find_narrow. Qed.
Print Assumptions C66_narrowing.

(** the empty search string lists exactly the metric constructors *)
Theorem C66_all : 
  find predefined_dir "" = constructors.
Proof. exact MiscProofs.find_all. Qed.
Print Assumptions C66_all.

Theorem C66_only_constructors : forall s x,
  In x (find predefined_dir s) -> In x constructors.
Proof. exact MiscProofs.find_sound. Qed.
Print Assumptions C66_only_constructors.

Theorem C66_finds_itself : forall x,
  In x constructors -> In x (find predefined_dir x).
Proof. exact MiscProofs.find_itself. Qed.
Print Assumptions C66_finds_itself.

Example C66_nonvacuous : find predefined_dir "kERR" = ["Kerr"; "KerrNewman"]%string /\ find predefined_dir "no such metric" = [].
Proof. split; reflexivity. Qed.

(** C67: int(t/d) in binary64 is the quotient while t < 2^53 *)
Theorem C67_division_exact : forall t d,
  (Z.of_nat t < 2 ^ 53)%Z -> (0 < Z.of_nat d <= 2 ^ 53)%Z -> fdiv t d = (t / d)%nat.
Proof. exact MiscFloat.fdiv_exact. Qed.
Print Assumptions C67_division_exact.

(** and not beyond *)
Theorem C67_sharp : 
  Ztrunc (r64 (IZR (2 ^ 53 + 1) / IZR 1)) <> (2 ^ 53 + 1)%Z.
Proof. exact MiscFloat.fdiv_sharp. Qed.
Print Assumptions C67_sharp.

(** the decoded tuples are exactly all index tuples, once each, in order *)
Theorem C67_christoffel : forall n,
  (Z.of_nat n ^ 3 <= 2 ^ 53)%Z -> map (dec3 n) (seq 0 (n ^ 3)) = all_idx [n; n; n].
Proof. exact MiscFloat.visits3. Qed.
Print Assumptions C67_christoffel.

Theorem C67_riemann : forall n,
  (Z.of_nat n ^ 4 <= 2 ^ 53)%Z -> map (dec4 n) (seq 0 (n ^ 4)) = all_idx [n; n; n; n].
Proof. exact MiscFloat.visits4. Qed.
Print Assumptions C67_riemann.

Theorem C67_weyl : forall n,
  (Z.of_nat n ^ 4 <= 2 ^ 53)%Z -> map (decw n) (seq 0 (n ^ 4)) = map (@rev nat) (all_idx [n; n; n; n]).
Proof. exact MiscFloat.visitsw. Qed.
Print Assumptions C67_weyl.

(** the computed tensors are those of exact integer division *)
Theorem C67_christoffel_loop : forall (A : dops),
  forall (n : nat) (g : arr A) (gi : nat -> nat -> A),
  (Z.of_nat n ^ 3 <= 2 ^ 53)%Z -> chr_loop_float n g gi = chr_loop n g gi.
Proof. intros A; exact MiscFloat.chr_loop_same. Qed.
Print Assumptions C67_christoffel_loop.

Theorem C67_riemann_loop : forall (A : dops),
  forall (n : nat) (G : arr A),
  (Z.of_nat n ^ 4 <= 2 ^ 53)%Z -> riem_loop_float n G = riem_loop n G.
Proof. intros A; exact MiscFloat.riem_loop_same. Qed.
Print Assumptions C67_riemann_loop.

Example C67_nonvacuous : (Z.of_nat 4 ^ 3 <= 2 ^ 53)%Z /\ (Z.of_nat 9000 ^ 4 <= 2 ^ 53)%Z.
Proof. split; vm_compute; discriminate. Qed.

(** C68 *)
Theorem C68_derivative : forall Lam era k s,
  known era -> 0 < s ->
  exists d, scalar_factor_derivative Lam (secs s) era k = Ok d /\ is_derive (a_of Lam era k) s d.
Proof. exact CosmoProofs.derivative_correct. Qed.
Print Assumptions C68_derivative.

(** at every time, not only positive ones *)
Theorem C68_derivative_dark_energy : forall Lam k s,
  exists d, scalar_factor_derivative Lam (secs s) "ded" k = Ok d /\ is_derive (a_of Lam "ded" k) s d.
Proof. exact CosmoProofs.derivative_ded. Qed.
Print Assumptions C68_derivative_dark_energy.

Theorem C68_hubble : forall Lam k s,
  k <> 0 -> 0 < s -> 0 <= Lam -> 
  (forall a d, scalar_factor Lam (secs s) "md" k = Ok a -> scalar_factor_derivative Lam (secs s) "md" k = Ok d -> a <> 0 /\ d / a = 2 / (3 * s)) /\
  (forall a d, scalar_factor Lam (secs s) "rd" k = Ok a -> scalar_factor_derivative Lam (secs s) "rd" k = Ok d -> a <> 0 /\ d / a = 1 / (2 * s)) /\
  (forall a d, scalar_factor Lam (secs s) "ded" k = Ok a -> scalar_factor_derivative Lam (secs s) "ded" k = Ok d -> a <> 0 /\ (d / a) ^ 2 = Lam / 3).
Proof. exact CosmoProofs.hubble_rate. Qed.
Print Assumptions C68_hubble.

Theorem C68_unknown_era : forall Lam t era k q,
  qinput DTime t = Ok q -> ~ known era -> scalar_factor Lam t era k = Err ValueError /\ scalar_factor_derivative Lam t era k = Err ValueError.
Proof. exact CosmoProofs.era_error. Qed.
Print Assumptions C68_unknown_era.

Theorem C68_defined_iff : forall Lam s era k,
  (exists v, scalar_factor Lam (secs s) era k = Ok v) <-> known era /\ (era = "ded"%string \/ 0 <= s).
Proof. exact CosmoProofs.sf_defined. Qed.
Print Assumptions C68_defined_iff.

Theorem C68_unit_independent : forall Lam q era k,
  q_dim q = DTime -> scalar_factor Lam (NQty q) era k = scalar_factor Lam (secs (si q)) era k /\
  scalar_factor_derivative Lam (NQty q) era k = scalar_factor_derivative Lam (secs (si q)) era k.
Proof. exact CosmoProofs.unit_free. Qed.
Print Assumptions C68_unit_independent.

Example C68_nonvacuous : known "md" /\ known "rd" /\ known "ded" /\ ~ known "xd" /\ exists q, qinput DTime (secs 5) = Ok q.
Proof.
  unfold known. split; [tauto|]. split; [tauto|]. split; [tauto|]. split; [intuition discriminate|]. eexists. reflexivity.
Qed.

(** C69 *)
Theorem C69_terminates : forall M alpha,
  0 < M -> 0 < alpha -> exists xs ys, get_values M alpha xs ys /\ forall xs' ys', get_values M alpha xs' ys' -> xs' = xs /\ ys' = ys.
Proof. exact EmbedProofs.get_values_total. Qed.
Print Assumptions C69_terminates.

Theorem C69_samples : forall M alpha xs ys,
  0 < M -> get_values M alpha xs ys ->
  List.length xs = List.length ys /\ exists n1 n2,
  xs = map (fun k => radial_coord M (up M alpha k)) (seq 0 n1) ++ map (fun k => radial_coord M (down M alpha k)) (seq 0 n2) /\
  ys = map (zup M alpha) (seq 0 n1) ++ map (zdown M alpha) (seq 0 n2) /\
  (forall k, (k < n1)%nat -> up M alpha k < 9 * M) /\ 9 * M <= up M alpha n1 /\
  (forall k, (k < n2)%nat -> 9 * M / 4 < down M alpha k) /\ down M alpha n2 <= 9 * M / 4 /\ (0 < n2)%nat.
Proof. exact EmbedProofs.get_values_samples. Qed.
Print Assumptions C69_samples.

(** every sampled radius is in (9M/4, 9M) when 6M > 0.0001 *)
Theorem C69_range : forall M alpha,
  0 < M -> 0 < alpha -> 1 / 10000 < 6 * M -> 
  (forall k, up M alpha k < 9 * M -> 9 * M / 4 < up M alpha k < 9 * M) /\ (forall k, 9 * M / 4 < down M alpha k -> 9 * M / 4 < down M alpha k < 9 * M) /\
  up M alpha 0 = r_init M /\ down M alpha 0 = r_init M.
Proof. exact EmbedProofs.range_ok. Qed.
Print Assumptions C69_range.

(** otherwise the single sample lies beyond 9M *)
Theorem C69_small_mass_refuted : forall M alpha xs ys,
  0 < M -> 6 * M <= 1 / 10000 -> get_values M alpha xs ys -> nth_error xs 0 = Some (radial_coord M (r_init M)) /\ 9 * M <= r_init M.
Proof. exact EmbedProofs.range_refuted. Qed.
Print Assumptions C69_small_mass_refuted.

Theorem C69_negative_alpha_diverges : forall M alpha,
  0 < M -> alpha < 0 -> 1 / 10000 < 6 * M -> forall xs ys, ~ get_values M alpha xs ys.
Proof. exact EmbedProofs.negative_alpha. Qed.
Print Assumptions C69_negative_alpha_diverges.

Theorem C69_surface_terminates : forall M alpha,
  0 < M -> 0 < alpha -> exists X Y Z, get_values_surface M alpha X Y Z.
Proof. exact EmbedProofs.surface_total. Qed.
Print Assumptions C69_surface_terminates.

Theorem C69_surface : forall M alpha X Y Z,
  get_values_surface M alpha X Y Z -> exists n,
  (forall k, (k < n)%nat -> up M alpha k < 20 * M) /\ 20 * M <= up M alpha n /\
  List.length X = 60%nat /\ List.length Y = 60%nat /\ List.length Z = (60 * n)%nat /\
  forall i j, (i < 60)%nat -> (j < n)%nat ->
  let phi := INR i * (2 * PI / 59) in let R := radial_coord M (up M alpha j) in
  (exists row, nth_error X i = Some row /\ List.length row = n /\ nth_error row j = Some (emul R (Some (cos phi)))) /\
  (exists row, nth_error Y i = Some row /\ List.length row = n /\ nth_error row j = Some (emul R (Some (sin phi)))) /\
  nth_error Z (i * n + j) = Some (zup M alpha j).
Proof. exact EmbedProofs.surface_spec. Qed.
Print Assumptions C69_surface.

(** a sample exactly at 3M makes every later height nan *)
Theorem C69_undefined_after : forall M alpha k,
  0 < M -> down M alpha k = 3 * M -> forall n, (k < n)%nat -> zdown M alpha n = None.
Proof. exact EmbedProofs.undefined_after. Qed.
Print Assumptions C69_undefined_after.

Example C69_nonvacuous : exists xs ys, get_values 1 100 xs ys /\ 1 / 10000 < 6 * 1.
Proof. destruct (C69_terminates 1 100) as [xs [ys [H _]]]; try lra. exists xs, ys. split; [exact H|lra]. Qed.
Example C69_small_mass_nonvacuous : exists xs ys, get_values (1 / 100000) 100 xs ys /\ 6 * (1 / 100000) <= 1 / 10000.
Proof. destruct (C69_terminates (1 / 100000) 100) as [xs [ys [H _]]]; try lra. exists xs, ys. split; [exact H|lra]. Qed.

(** C70 *)
Theorem C70_radius : forall M r,
  0 < M -> 9 * M / 4 < r -> radial_coord M r = Some (Rof M r).
Proof. exact EmbedProofs.radial_coord_ok. Qed.
Print Assumptions C70_radius.

Theorem C70_slope_value : forall M r,
  0 < M -> 9 * M / 4 < r ->
  gradient M r = if Req_EM_T r (3 * M) then None
  else Some ((1 - 3 * M / r) * sqrt ((4 * M * r - 9 * M * M) * Rof M r / (r - 3 * M) ^ 2) / sqrt (lapse M r) ^ 3).
Proof. exact EmbedProofs.gradient_value. Qed.
Print Assumptions C70_slope_value.

Theorem C70_radius_derivative : forall M r,
  0 < M -> 9 * M / 4 < r -> is_derive (Rof M) r ((1 - 3 * M / r) / sqrt (lapse M r) ^ 3).
Proof. exact EmbedProofs.Rof_derive. Qed.
Print Assumptions C70_radius_derivative.

(** the coded slope is the isometric one times sqrt(R) *)
Theorem C70_slope_factor : forall M r,
  0 < M -> 9 * M / 4 < r -> r <> 3 * M -> exists g, gradient M r = Some g /\
  forall dZ, isometric M r dZ -> g ^ 2 = Rof M r * dZ ^ 2.
Proof. exact EmbedProofs.gradient_sq. Qed.
Print Assumptions C70_slope_factor.

Theorem C70_slope_sign : forall M r g,
  0 < M -> 9 * M / 4 < r -> gradient M r = Some g -> (3 * M < r -> 0 < g) /\ (r < 3 * M -> g < 0).
Proof. exact EmbedProofs.gradient_sign. Qed.
Print Assumptions C70_slope_sign.

Theorem C70_isometric_exists : forall M r,
  0 < M -> 9 * M / 4 < r -> exists dZ, isometric M r dZ /\ 0 < dZ ^ 2.
Proof. exact EmbedProofs.isometric_exists. Qed.
Print Assumptions C70_isometric_exists.

(** isometric only where R = 1 *)
Theorem C70_isometric_iff : forall M r,
  0 < M -> 9 * M / 4 < r -> r <> 3 * M -> forall g, gradient M r = Some g -> (isometric M r g <-> Rof M r = 1).
Proof. exact EmbedProofs.isometric_iff. Qed.
Print Assumptions C70_isometric_iff.

Theorem C70_isometric_refuted : forall r,
  9 / 4 < r -> r <> 3 -> forall g, gradient 1 r = Some g -> ~ isometric 1 r g.
Proof. exact EmbedProofs.isometric_refuted. Qed.
Print Assumptions C70_isometric_refuted.

Example C70_nonvacuous : exists g, gradient 1 10 = Some g /\ 9 / 4 < 10 /\ 10 <> 3 /\ ~ isometric 1 10 g.
Proof.
  destruct (C70_slope_factor 1 10) as [g [E _]]; try lra. exists g. split; [exact E|]. split; [lra|]. split; [lra|]. apply (C70_isometric_refuted 10); [lra|lra|exact E].
Qed.

(** C75 *)
Theorem C75_primitive : forall (T : Type) (args : list (pyarg T)),
  List.length (primitive_args args) = List.length args /\
  forall i, nth_error (primitive_args args) i = option_map prim1 (nth_error args i).
Proof. exact MiscProofs.primitive_spec. Qed.
Print Assumptions C75_primitive.

Example C75_nonvacuous : primitive_args [AQty (mkqty 3 1 DLength); AOther true; AQty (mkqty 2 1000 DMass)] = [OVal 3; OObj true; OVal 2].
Proof. reflexivity. Qed.

(** C76: splitting at spaces gives the arguments back *)
Theorem C76_message_keeps_arguments : forall args,
  args <> [] -> Forall no_space args -> split_sp (error_message args) = args.
Proof. exact MiscProofs.message_keeps. Qed.
Print Assumptions C76_message_keeps_arguments.

Theorem C76_message_equations : 
  error_message [] = EmptyString /\ (forall a, error_message [a] = a) /\
  forall a b l, error_message (a :: b :: l) = (a ++ " " ++ error_message (b :: l))%string.
Proof. exact MiscProofs.message_eqs. Qed.
Print Assumptions C76_message_equations.

Theorem C76_repr : forall cls args,
  exists m, error_repr cls args = (cls ++ " : " ++ m)%string /\ m = error_message args.
Proof. exact MiscProofs.repr_spec. Qed.
Print Assumptions C76_repr.

Example C76_nonvacuous : error_message ["a"; "b"; "7"]%string = "a b 7"%string /\ error_repr "BaseError" ["a"; "b"]%string = "BaseError : a b"%string.
Proof. split; reflexivity. Qed.

(** C77 *)
Theorem C77_defined_iff : forall m q R k,
  (exists b, post_init m q R k = Ok b) <-> has_dim DMass m /\ has_dim DCharge q /\ has_dim DLength R.
Proof. exact MiscProofs.body_ok_iff. Qed.
Print Assumptions C77_defined_iff.

Theorem C77_state : forall m q R k b,
  post_init m q R k = Ok b ->
  m = NQty (b_mass b) /\ q = NQty (b_q b) /\ R = NQty (b_R b) /\
  match k with
  | Diff d => let '(va, vb, vc) := df_v d in b_pos b = Some [c1 (df_q d); c2 (df_q d); c3 (df_q d)] /\ b_vel b = Some [va; vb; vc]
  | _ => b_pos b = None /\ b_vel b = None
  end.
Proof. exact MiscProofs.body_state. Qed.
Print Assumptions C77_state.

Example C77_nonvacuous : has_dim DMass (NQty (mkqty 1 1 DMass)) /\ has_dim DCharge (NQty (mkqty 1 1 DCharge)) /\ has_dim DLength (NQty (mkqty 1 1 DLength)).
Proof. split; [|split]; eexists; split; reflexivity. Qed.

(** C78 *)
Theorem C78_arguments : forall name : nat -> string, let by_name := fun x y => String.leb (name x) (name y) = true in
  forall syms free,
  NoDup free -> exists vars,
  arg_list name [] [] free syms = syms ++ vars /\ NoDup vars /\ StronglySorted by_name vars /\
  (forall x, In x vars <-> In x free /\ ~ In x syms) /\ (forall x, In x free -> In x (syms ++ vars)) /\ (NoDup syms -> NoDup (syms ++ vars)).
Proof. intros name; exact (MiscProofs.lambdify_args name). Qed.
Print Assumptions C78_arguments.

(** independent of the set's iteration order *)
Theorem C78_deterministic : forall name : nat -> string,
  forall syms free free',
  (forall x y, In x free -> In y free -> name x = name y -> x = y) -> Permutation free free' ->
  arg_list name [] [] free syms = arg_list name [] [] free' syms.
Proof. intros name; exact (MiscProofs.lambdify_deterministic name). Qed.
Print Assumptions C78_deterministic.

(** arguments given by the caller are kept *)
Theorem C78_explicit : forall name : nat -> string,
  forall a args variables free syms,
  arg_list name (a :: args) variables free syms = a :: args.
Proof. intros name; exact (MiscProofs.lambdify_explicit name). Qed.
Print Assumptions C78_explicit.

(** so are variables given to the constructor *)
Theorem C78_given_variables : forall name : nat -> string,
  forall v vs free syms,
  arg_list name [] (v :: vs) free syms = syms ++ v :: vs.
Proof. intros name; exact (MiscProofs.lambdify_variables name). Qed.
Print Assumptions C78_given_variables.

Theorem C78_calls_correct : forall args e p,
  incl (free_syms e) args -> lambdified args e (map p args) = Ok (eval e p).
Proof. exact MiscProofs.lambdified_correct. Qed.
Print Assumptions C78_calls_correct.

Theorem C78_default_calls_correct : forall name syms free e p,
  NoDup free -> incl (free_syms e) free ->
  lambdified (arg_list name [] [] free syms) e (map p (arg_list name [] [] free syms)) = Ok (eval e p).
Proof. exact MiscProofs.lambdify_default. Qed.
Print Assumptions C78_default_calls_correct.

Example C78_nonvacuous : let name := fun i => nth i ["t"; "r"; "M"; "a"]%string ""%string in
  arg_list name [] [] [3; 0; 2; 1]%nat [0; 1]%nat = [0; 1; 2; 3]%nat /\ NoDup [3; 0; 2; 1]%nat.
Proof. split; [reflexivity|]. repeat constructor; cbn; intuition discriminate. Qed.
