(** Run on exact arithmetic, the floating-point programs are those of CoordModel.v. *)
From Coq Require Import Reals List ZArith Lra Lia Bool.
From Verif Require Import Base DualModel GeoUtilsModel GeoUtilsProofs CoordModel CoordProofs2 FloatModel FloatExact FloatGlobal.
From Verif Require Import FloatCoordModel.
Import ListNotations.
Open Scope R_scope.

Lemma rounds_exact x : rounds 0 (Ok x) x.
Proof. exists x. split; [reflexivity|]. rewrite Rminus_eq_0, Rabs_R0. lra. Qed.
Lemma exact2_accurate : accurate2 0 exact2.
Proof.
  split; [exact exact_accurate|..]; cbn [exact2 b_hypot b_atan2 b_acos]; intros; try apply rounds_exact.
  - left. replace (atan2 0 x) with PI; [apply rounds_exact|]. unfold atan2. destruct (Rlt_dec 0 x); [lra|]. destruct (Rlt_dec x 0); [|lra]. destruct (Rle_dec 0 0); [|lra]. unfold Rdiv. rewrite Rmult_0_l, atan_0. ring.
  - rewrite np_arccos_ok by assumption. apply rounds_exact.
Qed.
(** the value, if there is one *)
Definition value {D} (r : Res D) : option D := match r with Ok v => Some v | Err _ => None end.
Lemma value_ok {D} (r r' : Res D) v : value r = value r' -> r = Ok v <-> r' = Ok v.
Proof. destruct r, r'; cbn; intros H; split; intros E; try discriminate; congruence. Qed.
Lemma value_bind {D E} (r r' : Res D) (k k' : D -> Res E) : value r = value r' -> (forall d, value (k d) = value (k' d)) -> value (bindR r k) = value (bindR r' k').
Proof. destruct r as [d|], r' as [d'|]; cbn; intros H K; try discriminate; [|reflexivity]. injection H as ->. apply K. Qed.
Lemma value_div x y : value (fdiv x y) = value (np_div x y).
Proof. unfold fdiv, np_div. destruct (Req_EM_T y 0); reflexivity. Qed.
Lemma pow2 x : a_pow exact x 2 = Ok (x ^ 2).
Proof. cbn [exact a_pow]. unfold fpowZ. cbn [Z.ltb Z.compare]. destruct (Req_EM_T x 0); reflexivity. Qed.
Ltac ex := cbn [b_ar exact2 exact a_add a_sub a_mul a_sin a_cos b_hypot b_atan2 b_acos bindR].
Ltac go := repeat (progress (rewrite ?pow2; ex)).
Lemma to_sph_exact t x y z : cart_to_sphB exact2 t x y z = Ok (cart_to_sph t x y z).
Proof. reflexivity. Qed.
Lemma from_sph_exact t r th p : sph_to_cartB exact2 t r th p = Ok (sph_to_cart t r th p).
Proof. reflexivity. Qed.
Lemma from_sph_vel_exact r th p a b c : sph_to_cart_velB exact2 r th p a b c = Ok (sph_to_cart_vel r th p a b c).
Proof. reflexivity. Qed.
Lemma sq_nonneg x : 0 <= x ^ 2.
Proof. replace (x ^ 2) with (x * x) by ring. apply (Rle_0_sqr x). Qed.
Lemma to_sph_vel_exact x y z a b c v : cart_to_sph_velB exact2 x y z a b c = Ok v <-> cart_to_sph_vel x y z a b c = Ok v.
Proof.
  apply value_ok. assert (Hx := sq_nonneg x). assert (Hy := sq_nonneg y). assert (Hz := sq_nonneg z). unfold cart_to_sph_velB, cart_to_sph_vel, dot2B. go.
  cbn [a_sqrt a_div exact]. rewrite np_sqrt_ok by lra. ex. apply value_bind; [apply value_div|intros v_r]. rewrite np_sqrt_ok by lra. ex.
  apply value_bind; [apply value_div|intros v_th]. apply value_bind; [apply value_div|intros v_p]. reflexivity.
Qed.
Lemma xa_exact r al : xaB exact2 r al = Ok (sqrt (r ^ 2 + al ^ 2)).
Proof. unfold xaB. go. cbn [a_sqrt exact]. apply np_sqrt_ok. generalize (sq_nonneg r) (sq_nonneg al). lra. Qed.
Lemma from_bl_exact t r th p al : bl_to_cartB exact2 t r th p al = Ok (bl_to_cart t r th p al).
Proof. unfold bl_to_cartB. rewrite xa_exact. reflexivity. Qed.
Lemma from_bl_vel_exact r th p al a b c v : bl_to_cart_velB exact2 r th p al a b c = Ok v <-> bl_to_cart_vel r th p al a b c = Ok v.
Proof.
  apply value_ok. unfold bl_to_cart_velB, bl_to_cart_vel, mul4B, mul3B. rewrite xa_exact. go. cbn [a_div exact]. cbv zeta. apply value_bind; [apply value_div|intros d]. ex. apply value_bind; [apply value_div|intros e]. reflexivity.
Qed.
Lemma w_exact x y z al : bl_wB exact2 x y z al = Ok (bl_w x y z al).
Proof. unfold bl_wB, bl_w. go. reflexivity. Qed.
Lemma S_arg w z al : 0 <= w ^ 2 + 4 * al ^ 2 * z ^ 2.
Proof. assert (Hx := sq_nonneg w). assert (Hy := sq_nonneg (al * z)). replace (4 * al ^ 2 * z ^ 2) with (4 * (al * z) ^ 2) by ring. lra. Qed.
Lemma S_exact w z al : bl_SB exact2 w z al = Ok (sqrt (w ^ 2 + 4 * al ^ 2 * z ^ 2)).
Proof. unfold bl_SB. go. cbn [a_sqrt exact]. apply np_sqrt_ok, S_arg. Qed.
Lemma r_exact x y z al : bl_rB exact2 (bl_w x y z al) z al = Ok (bl_r x y z al).
Proof.
  unfold bl_rB, bl_r. rewrite S_exact. go. cbn [a_sqrt exact]. apply np_sqrt_ok. set (w := bl_w x y z al). assert (H : Rabs w <= sqrt (w ^ 2 + 4 * al ^ 2 * z ^ 2)).
  { rewrite <- sqrt_Rsqr_abs. apply sqrt_le_1_alt. unfold Rsqr. assert (Hy := sq_nonneg (al * z)). replace (4 * al ^ 2 * z ^ 2) with (4 * (al * z) ^ 2) by ring. replace (w ^ 2) with (w * w) by ring. lra. }
  assert (Q := Rle_abs (- w)). rewrite Rabs_Ropp in Q. lra.
Qed.
Lemma to_bl_exact t x y z al v : cart_to_blB exact2 t x y z al = Ok v <-> cart_to_bl t x y z al = Ok v.
Proof.
  apply value_ok. unfold cart_to_blB, cart_to_bl. rewrite w_exact. cbn [bindR]. rewrite r_exact. ex. cbv zeta. apply value_bind; [apply value_div|intros d]. ex. apply value_bind; [reflexivity|intros th]. reflexivity.
Qed.
Lemma bind_ok {D E} (d : D) (k : D -> Res E) (r : Res D) : r = Ok d -> bindR r k = k d.
Proof. intros ->. reflexivity. Qed.
Lemma e_add x y : a_add (b_ar exact2) x y = Ok (x + y). Proof. reflexivity. Qed.
Lemma e_sub x y : a_sub (b_ar exact2) x y = Ok (x - y). Proof. reflexivity. Qed.
Lemma e_mul x y : a_mul (b_ar exact2) x y = Ok (x * y). Proof. reflexivity. Qed.
Lemma e_sq x : a_pow (b_ar exact2) x 2 = Ok (x ^ 2). Proof. apply pow2. Qed.
Lemma e_dot x y a b : dot2B exact2 x y a b = Ok (x * a + y * b). Proof. reflexivity. Qed.
Lemma e_div x y : value (a_div (b_ar exact2) x y) = value (np_div x y). Proof. apply value_div. Qed.
Lemma e_sqrt x : value (a_sqrt (b_ar exact2) x) = value (np_sqrt x). Proof. reflexivity. Qed.
Ltac eo := rewrite (bind_ok _ _ _ (e_mul _ _)) || rewrite (bind_ok _ _ _ (e_add _ _)) || rewrite (bind_ok _ _ _ (e_sub _ _)) || rewrite (bind_ok _ _ _ (e_sq _)) || rewrite (bind_ok _ _ _ (e_dot _ _ _ _)).
Lemma to_bl_vel_exact x y z al a b c v : cart_to_bl_velB exact2 x y z al a b c = Ok v <-> cart_to_bl_vel x y z al a b c = Ok v.
Proof.
  apply value_ok. unfold cart_to_bl_velB, cart_to_bl_vel. rewrite (bind_ok _ _ _ (w_exact _ _ _ _)), (bind_ok _ _ _ (r_exact _ _ _ _)). cbv zeta. generalize (bl_r x y z al). generalize (bl_w x y z al). intros w r.
  repeat eo. apply value_bind; [apply e_div|intros i2r].
  assert (E2 : forall t, a_div (b_ar exact2) t 2 = Ok (t / 2)) by (intros t; change (fdiv t 2 = Ok (t / 2)); unfold fdiv; destruct (Req_EM_T 2 0) as [E|_]; [lra|reflexivity]).
  rewrite (bind_ok _ _ _ (E2 _)). repeat eo. rewrite (bind_ok _ _ _ (S_exact _ _ _)). repeat eo.
  apply value_bind; [apply e_div|intros q]. repeat eo. apply value_bind; [apply e_div|intros zr]. repeat eo. apply value_bind; [apply e_sqrt|intros s]. apply value_bind; [apply e_div|intros i]. repeat eo.
  apply value_bind; [apply e_div|intros d]. repeat eo. apply value_bind; [apply e_div|intros yx]. repeat eo. apply value_bind; [apply e_div|intros ip]. repeat eo. apply value_bind; [apply e_div|intros e]. reflexivity.
Qed.
