(** Model of src/einsteinpy/symbolic/predefined: the line elements as expression matrices, and their MetricTensor objects.
    Coordinates are the symbols 0..3; the parameter symbols (c, G, eps_0, r_s, a, Q, ...) are further symbols.
    cosh, sinh and tanh are written with exp (e^-x as 1/e^x); x**q for a non-integer q as exp(q ln x), on x > 0. *)
From Coq Require Import String Reals List Arith Lia.
From Verif Require Import Base SymAlg SymModel ExprModel.
Import ListNotations.
Open Scope R_scope.

Definition emat := nat -> nat -> expr.
Definition E0 : expr := EConst 0.
Definition E1 : expr := EConst 1.
Definition Esq (e : expr) : expr := EMul e e.
Fixpoint Epow (e : expr) (n : nat) : expr := match n with O => E1 | S O => e | S n => EMul (Epow e n) e end.
Definition Erpow (e q : expr) : expr := EExp (EMul q (ELn e)).
Definition Ecosh (x : expr) : expr := EDiv (EAdd (EExp x) (EDiv E1 (EExp x))) (EConst 2).
Definition Esinh (x : expr) : expr := EDiv (ESub (EExp x) (EDiv E1 (EExp x))) (EConst 2).
Definition Etanh (x : expr) : expr := EDiv (Esinh x) (Ecosh x).
(** sympy.diag(a, b, c, d).tolist() *)
Definition diag4 (a b c d : expr) : emat := fun i j =>
  match i, j with 0%nat, 0%nat => a | 1%nat, 1%nat => b | 2%nat, 2%nat => c | 3%nat, 3%nat => d | _, _ => E0 end.
(** metric[i][j] = metric[j][i] = v *)
Definition set_sym (m : emat) (i j : nat) (v : expr) : emat := fun i' j' =>
  if (Nat.eqb i i' && Nat.eqb j j')%bool then v else if (Nat.eqb j i' && Nat.eqb i j')%bool then v else m i' j'.
Definition X (i : nat) : expr := EVar i.

(** minkowski.py:7-20 *)
Definition MinkowskiCartesian (c : expr) : emat := diag4 (EConst (-1)) (EDiv E1 (Esq c)) (EDiv E1 (Esq c)) (EDiv E1 (Esq c)).
(** minkowski.py:26-41 *)
Definition MinkowskiPolar (c : expr) : emat :=
  let r := X 1 in let th := X 2 in let c2 := Esq c in
  diag4 (EConst (-1)) (EDiv E1 c2) (EDiv (Esq r) c2) (EDiv (EMul (Esq r) (Esq (ESin th))) c2).
(** de_sitter.py:6-21 *)
Definition AntiDeSitter : emat :=
  let t := X 0 in let ch := X 1 in let th := X 2 in
  diag4 (EConst (-1)) (Esq (ECos t)) (EMul (Esq (ECos t)) (Esq (Esinh ch))) (EMul (EMul (Esq (ECos t)) (Esq (Esinh ch))) (Esq (ESin th))).
(** de_sitter.py:24-34 *)
Definition AntiDeSitterStatic : emat :=
  let r := X 1 in let th := X 2 in
  diag4 (EOpp (Esq (Ecosh r))) E1 (Esq (Esinh r)) (EMul (Esq (Esinh r)) (Esq (ESin th))).
(** de_sitter.py:37-49; line 45 is [t = coords[1]]; alpha is the symbol al *)
Definition DeSitter (al : expr) : emat :=
  let t := X 1 in let e := EExp (EDiv (EMul (EConst 2) t) al) in diag4 (EConst (-1)) e e e.
(** vacuum_solutions.py:7-28 *)
Definition Schwarzschild (c sch : expr) : emat :=
  let r := X 1 in let th := X 2 in
  let val1 := ESub E1 (EDiv sch r) in let c2 := Esq c in
  diag4 val1 (EDiv (EConst (-1)) (EMul val1 c2)) (EDiv (EOpp (Esq r)) c2) (EDiv (EOpp (Esq (EMul r (ESin th)))) c2).
(** vacuum_solutions.py:31-65 *)
Definition SigmaS (a : expr) : expr := EAdd (Esq (X 1)) (EMul (Esq a) (Esq (ECos (X 2)))).
Definition Kerr (c sch a : expr) : emat :=
  let r := X 1 in let th := X 2 in
  let Sigma := SigmaS a in
  let Delta := EAdd (ESub (Esq r) (EMul sch r)) (Esq a) in
  let c2 := Esq c in
  set_sym
    (diag4 (ESub E1 (EDiv (EMul sch r) Sigma))
           (EDiv (EOpp Sigma) (EMul Delta c2))
           (EDiv (EOpp Sigma) c2)
           (EDiv (EOpp (EMul (EAdd (EAdd (Esq r) (Esq a)) (EDiv (EMul (EMul (EMul sch r) (Esq a)) (Esq (ESin th))) Sigma)) (Esq (ESin th)))) c2))
    0 3 (EDiv (EMul (EMul (EMul sch r) a) (Esq (ESin th))) (EMul Sigma c)).
(** vacuum_solutions.py:68-115 *)
Definition rQsqE (c G eps_0 Q : expr) : expr := EDiv (EMul (Esq Q) G) (EMul (EMul (EMul (EConst 4) (EConst PI)) eps_0) (Epow c 4)).
Definition KerrNewman (c G eps_0 sch a Q : expr) : emat :=
  let r := X 1 in let th := X 2 in
  let Sigma := SigmaS a in
  let rQsq := rQsqE c G eps_0 Q in
  let Delta := EAdd (EAdd (ESub (Esq r) (EMul sch r)) (Esq a)) rQsq in
  let c2 := Esq c in
  set_sym
    (diag4 (EAdd E1 (EDiv (ESub rQsq (EMul sch r)) Sigma))
           (EDiv (EOpp Sigma) (EMul Delta c2))
           (EDiv (EOpp Sigma) c2)
           (EDiv (EMul (ESub (EMul (EMul Delta (Esq a)) (Esq (ESin th))) (Esq (EAdd (Esq r) (Esq a)))) (Esq (ESin th))) (EMul Sigma c2)))
    0 3 (EDiv (EMul (EMul (ESub (EMul sch r) rQsq) a) (Esq (ESin th))) (EMul Sigma c)).
(** vacuum_solutions.py:118-156 *)
Definition ReissnerNordstorm (c G eps_0 sch Q : expr) : emat :=
  let r := X 1 in let th := X 2 in
  let rQsq := rQsqE c G eps_0 Q in
  let Arn := EAdd (ESub E1 (EDiv sch r)) (EDiv rQsq (Esq r)) in
  let c2 := Esq c in
  diag4 Arn (EDiv (EConst (-1)) (EMul Arn c2)) (EDiv (EOpp (Esq r)) c2) (EDiv (EMul (EOpp (Esq r)) (Esq (ESin th))) c2).
(** barriola_vilenkin.py:7-28 *)
Definition BarriolaVilekin (c k : expr) : emat :=
  let r := X 1 in let th := X 2 in
  diag4 (EConst (-1)) (EDiv E1 (Esq c)) (EDiv (Esq (EMul k r)) (Esq c)) (EDiv (Esq (EMul (EMul k r) (ESin th))) (Esq c)).
(** bertotti_kasner.py:7-30 (the argument k is not used) *)
Definition BertottiKasner (c lambd : expr) : emat :=
  let t := X 0 in let th := X 2 in
  diag4 (EConst (-1)) (EDiv (EExp (EMul (EMul (EMul (EConst 2) (ESqrt lambd)) c) t)) (Esq c)) (EDiv E1 (EMul lambd (Esq c)))
        (EDiv (Esq (ESin th)) (EMul lambd (Esq c))).
(** ernst.py:7-34 *)
Definition Ernst (B M : expr) : emat :=
  let r := X 1 in let th := X 2 in
  let lambd := EAdd E1 (Esq (EMul (EMul B r) (ESin th))) in
  let w := ESub E1 (EDiv (EMul (EConst 2) M) r) in
  diag4 (EMul (EMul (EConst (-1)) (Esq lambd)) w) (EDiv (Esq lambd) w) (Esq (EMul r lambd)) (Esq (EDiv (EMul r (ESin th)) lambd)).
(** godel.py:6-19 *)
Definition Godel (om : expr) : emat :=
  let x := X 1 in
  set_sym (diag4 (EConst (-1)) E1 (EMul (EOpp (EConst (1 / 2))) (EExp (EMul (EMul (EMul (EConst 2) (ESqrt (EConst 2))) om) x))) E1)
          0 2 (EOpp (EExp (EMul (EMul (ESqrt (EConst 2)) om) x))).
(** janis_newman_winicour.py:7-36 *)
Definition JanisNewmanWinicour (c G gam M : expr) : emat :=
  let r := X 1 in let th := X 2 in
  let r_s := EDiv (EMul (EMul (EConst 2) G) M) (Esq c) in
  let alpha := ESub E1 (EDiv r_s (EMul gam r)) in
  diag4 (EMul (EConst (-1)) (Erpow alpha gam)) (EDiv (Erpow alpha (EOpp gam)) (Esq c))
        (EMul (Esq r) (Erpow alpha (EAdd (EOpp gam) E1))) (EMul (EMul (Esq r) (Erpow alpha (EAdd (EOpp gam) E1))) (Esq (ESin th))).
(** davidson.py:6-20 *)
Definition Davidson : emat :=
  let t := X 0 in let r := X 1 in
  let e := Erpow (EAdd E1 (Esq r)) (EConst (2 / 5)) in
  diag4 (EOpp (Epow e 3)) (EMul (Erpow t (EConst (4 / 3))) e) (EDiv (Erpow t (EConst (-2 / 3))) e)
        (EDiv (EMul (Erpow t (EConst (4 / 3))) (Esq r)) e).
(** cmetric.py:6-21; f(x) and h(y) are any expressions *)
Definition CMetric (f h : expr) : emat :=
  let x := X 1 in let y := X 2 in
  let s2 := Esq (EAdd x y) in
  diag4 (EDiv (EOpp h) s2) (EDiv E1 (EMul s2 f)) (EDiv E1 (EMul s2 h)) (EDiv f s2).
(** bessel_gravitational_wave.py:7-45; J0 and J1 stand for the Bessel function terms besselj(rho, 0), besselj(rho, 1) *)
Definition BesselGravitationalWave (C J0 J1 : expr) : emat :=
  let t := X 0 in let rho := X 1 in
  let U := EMul (EMul C J0) (ECos t) in
  let K := EMul (EMul (EMul (EConst (1 / 2)) (Esq C)) rho)
             (ESub (EMul rho (EAdd (Esq J0) (Esq J1))) (EMul (EMul (EMul (EConst 2) J0) J1) (Esq (ECos t)))) in
  diag4 (EMul (EMul (EConst (-1)) (EExp (EMul (EConst (-2)) U))) (EExp (EMul (EConst 2) K)))
        (EMul (EExp (EMul (EConst (-2)) U)) (EExp (EMul (EConst 2) K)))
        (EMul (EExp (EMul (EConst (-2)) U)) (Esq rho)) (EExp (EMul (EConst 2) U)).
(** alcubierre_warp.py:7-52; line 43: r_s = sqrt((x - x_s)**2 + y + z) *)
Definition warp_radius (x_s : expr) : expr := ESqrt (EAdd (EAdd (Esq (ESub (X 1) x_s)) (X 2)) (X 3)).
Definition warp_shape (r_s sigma R : expr) : expr :=
  EDiv (ESub (Etanh (EMul sigma (EAdd r_s R))) (Etanh (EMul sigma (ESub r_s R)))) (EMul (EConst 2) (Etanh (EMul sigma R))).
Definition AlcubierreWarp (x_s sigma R v : expr) : emat :=
  let f := warp_shape (warp_radius x_s) sigma R in
  set_sym (diag4 (ESub (EMul (Esq v) (Esq f)) E1) E1 E1 E1) 0 1 (EMul (EOpp v) f).

(** ** MetricTensor(metric, coords, "ll") over the expression domain read on the chart U.
    An expression that is undefined somewhere on U has no meaning there; it is replaced by 0 (no theorem uses this case). *)
Definition lift (U : (nat -> R) -> Prop) (e : expr) : KU U :=
  match EM_inf (WDU U e) with left H => exist _ e H | right _ => uconst U 0 end.
Definition metric_of (U : (nat -> R) -> Prop) (simp : KU U -> KU U) (minv : nat -> (nat -> nat -> KU U) -> option (nat -> nat -> KU U)) (G : emat)
  : metric (expr_ops U simp minv) :=
  @mkmetric (expr_ops U simp minv) 4 (@arr_of (expr_ops U simp minv) (fun i j => lift U (G i j))) (cf "ll").
