(** Properties C66-C70 and C75-C78: find, flat index decoding in floating point, the scale factor, the hypersurface embedding,
    unit stripping, exceptions, bodies and lambdified argument lists. *)
From Coq Require Import String Ascii Reals List Arith ZArith Lia Lra Permutation Sorted.
From Flocq Require Import Core.
From Coquelicot Require Import Coquelicot.
From Verif Require Import Base CoordModel ConvModel ExprModel SymAlg SymModel SymLoops SymTensorModel SymTensorProofs MiscModel MiscProofs MiscFloat CosmoModel CosmoProofs EmbedModel EmbedProofs.
Import ListNotations.
Local Open Scope R_scope.
Local Notation Forall := List.Forall.

@thm C66_exact MiscProofs.find_spec -- C66: membership
@thm C66_order MiscProofs.find_order -- in the order of dir()
@thm C66_nodup MiscProofs.find_nodup
@thm C66_case_insensitive MiscProofs.find_nocase
@thm C66_narrowing MiscProofs.find_narrow -- a longer search string finds no more
@thm C66_all MiscProofs.find_all -- the empty search string lists exactly the metric constructors
@thm C66_only_constructors MiscProofs.find_sound
@thm C66_finds_itself MiscProofs.find_itself
Example C66_nonvacuous : find predefined_dir "kERR" = ["Kerr"; "KerrNewman"]%string /\ find predefined_dir "no such metric" = [].
Proof. split; reflexivity. Qed.

@thm C67_division_exact MiscFloat.fdiv_exact -- C67: int(t/d) in binary64 is the quotient while t < 2^53
@thm C67_sharp MiscFloat.fdiv_sharp -- and not beyond
@thm C67_christoffel MiscFloat.visits3 -- the decoded tuples are exactly all index tuples, once each, in order
@thm C67_riemann MiscFloat.visits4
@thm C67_weyl MiscFloat.visitsw
@sthm C67_christoffel_loop MiscFloat.chr_loop_same | forall (A : dops), | intros A; exact MiscFloat.chr_loop_same. | the computed tensors are those of exact integer division
@sthm C67_riemann_loop MiscFloat.riem_loop_same | forall (A : dops), | intros A; exact MiscFloat.riem_loop_same.
Example C67_nonvacuous : (Z.of_nat 4 ^ 3 <= 2 ^ 53)%Z /\ (Z.of_nat 9000 ^ 4 <= 2 ^ 53)%Z.
Proof. split; vm_compute; discriminate. Qed.

@thm C68_derivative CosmoProofs.derivative_correct -- C68
@thm C68_derivative_dark_energy CosmoProofs.derivative_ded -- at every time, not only positive ones
@thm C68_hubble CosmoProofs.hubble_rate
@thm C68_unknown_era CosmoProofs.era_error
@thm C68_defined_iff CosmoProofs.sf_defined
@thm C68_unit_independent CosmoProofs.unit_free
Example C68_nonvacuous : known "md" /\ known "rd" /\ known "ded" /\ ~ known "xd" /\ exists q, qinput DTime (secs 5) = Ok q.
Proof.
  unfold known. split; [tauto|]. split; [tauto|]. split; [tauto|]. split; [intuition discriminate|]. eexists. reflexivity.
Qed.

@thm C69_terminates EmbedProofs.get_values_total -- C69
@thm C69_samples EmbedProofs.get_values_samples
@thm C69_range EmbedProofs.range_ok -- every sampled radius is in (9M/4, 9M) when 6M > 0.0001
@thm C69_small_mass_refuted EmbedProofs.range_refuted -- otherwise the single sample lies beyond 9M
@thm C69_negative_alpha_diverges EmbedProofs.negative_alpha
@thm C69_surface_terminates EmbedProofs.surface_total
@thm C69_surface EmbedProofs.surface_spec
@thm C69_undefined_after EmbedProofs.undefined_after -- a sample exactly at 3M makes every later height nan
Example C69_nonvacuous : exists xs ys, get_values 1 100 xs ys /\ 1 / 10000 < 6 * 1.
Proof. destruct (C69_terminates 1 100) as [xs [ys [H _]]]; try lra. exists xs, ys. split; [exact H|lra]. Qed.
Example C69_small_mass_nonvacuous : exists xs ys, get_values (1 / 100000) 100 xs ys /\ 6 * (1 / 100000) <= 1 / 10000.
Proof. destruct (C69_terminates (1 / 100000) 100) as [xs [ys [H _]]]; try lra. exists xs, ys. split; [exact H|lra]. Qed.

@thm C70_radius EmbedProofs.radial_coord_ok -- C70
@thm C70_slope_value EmbedProofs.gradient_value
@thm C70_radius_derivative EmbedProofs.Rof_derive
@thm C70_slope_factor EmbedProofs.gradient_sq -- the coded slope is the isometric one times sqrt(R)
@thm C70_slope_sign EmbedProofs.gradient_sign
@thm C70_isometric_exists EmbedProofs.isometric_exists
@thm C70_isometric_iff EmbedProofs.isometric_iff -- isometric only where R = 1
@thm C70_isometric_refuted EmbedProofs.isometric_refuted
Example C70_nonvacuous : exists g, gradient 1 10 = Some g /\ 9 / 4 < 10 /\ 10 <> 3 /\ ~ isometric 1 10 g.
Proof.
  destruct (C70_slope_factor 1 10) as [g [E _]]; try lra. exists g. split; [exact E|]. split; [lra|]. split; [lra|]. apply (C70_isometric_refuted 10); [lra|lra|exact E].
Qed.

@thm C75_primitive MiscProofs.primitive_spec -- C75
Example C75_nonvacuous : primitive_args [AQty (mkqty 3 1 DLength); AOther true; AQty (mkqty 2 1000 DMass)] = [OVal 3; OObj true; OVal 2].
Proof. reflexivity. Qed.

@thm C76_message_keeps_arguments MiscProofs.message_keeps -- C76: splitting at spaces gives the arguments back
@thm C76_message_equations MiscProofs.message_eqs
@thm C76_repr MiscProofs.repr_spec
Example C76_nonvacuous : error_message ["a"; "b"; "7"]%string = "a b 7"%string /\ error_repr "BaseError" ["a"; "b"]%string = "BaseError : a b"%string.
Proof. split; reflexivity. Qed.

@thm C77_defined_iff MiscProofs.body_ok_iff -- C77
@thm C77_state MiscProofs.body_state
Example C77_nonvacuous : has_dim DMass (NQty (mkqty 1 1 DMass)) /\ has_dim DCharge (NQty (mkqty 1 1 DCharge)) /\ has_dim DLength (NQty (mkqty 1 1 DLength)).
Proof. split; [|split]; eexists; split; reflexivity. Qed.

@sthm C78_arguments MiscProofs.lambdify_args | forall name : nat -> string, let by_name := fun x y => String.leb (name x) (name y) = true in | intros name; exact (MiscProofs.lambdify_args name). | C78
@sthm C78_deterministic MiscProofs.lambdify_deterministic | forall name : nat -> string, | intros name; exact (MiscProofs.lambdify_deterministic name). | independent of the set's iteration order
@sthm C78_explicit MiscProofs.lambdify_explicit | forall name : nat -> string, | intros name; exact (MiscProofs.lambdify_explicit name). | arguments given by the caller are kept
@sthm C78_given_variables MiscProofs.lambdify_variables | forall name : nat -> string, | intros name; exact (MiscProofs.lambdify_variables name). | so are variables given to the constructor
@thm C78_calls_correct MiscProofs.lambdified_correct
@thm C78_default_calls_correct MiscProofs.lambdify_default
Example C78_nonvacuous : let name := fun i => nth i ["t"; "r"; "M"; "a"]%string ""%string in
  arg_list name [] [] [3; 0; 2; 1]%nat [0; 1]%nat = [0; 1; 2; 3]%nat /\ NoDup [3; 0; 2; 1]%nat.
Proof. split; [reflexivity|]. repeat constructor; cbn; intuition discriminate. Qed.
