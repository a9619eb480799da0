(** * Numbers of the model.

    The code of coordinax computes with JAX arrays.  Every conversion in the
    model is a function polymorphic in a number type [A] with the operations
    of the class [Num]; it is run

    - on [ext]: real numbers plus one "not finite" value ([None] = NaN or an
      infinity), the model of an array element;
    - on [dual]: pairs (value, tangent) of [ext], the model of the forward-mode
      differentiation [jax.jacfwd] used by
      /repo/src/coordinax/_src/vectors/transform/velocities.py:134.

    Simplification: exact real arithmetic instead of floating point. *)
From Coq Require Import Reals Lra Lia ZArith Bool.
Open Scope R_scope.

(** ** Decidable comparisons on reals *)
Definition Rltb (x y : R) : bool := if Rlt_dec x y then true else false.
Definition Rleb (x y : R) : bool := if Rle_dec x y then true else false.
Definition Reqb (x y : R) : bool := if Req_EM_T x y then true else false.

Lemma Rltb_true x y : Rltb x y = true <-> x < y.
Proof. unfold Rltb; destruct (Rlt_dec x y); split; congruence || auto. Qed.
Lemma Rltb_false x y : Rltb x y = false <-> y <= x.
Proof. unfold Rltb; destruct (Rlt_dec x y); split; intros; try congruence; lra. Qed.
Lemma Rleb_true x y : Rleb x y = true <-> x <= y.
Proof. unfold Rleb; destruct (Rle_dec x y); split; congruence || auto. Qed.
Lemma Rleb_false x y : Rleb x y = false <-> y < x.
Proof. unfold Rleb; destruct (Rle_dec x y); split; intros; try congruence; lra. Qed.
Lemma Reqb_true x y : Reqb x y = true <-> x = y.
Proof. unfold Reqb; destruct (Req_EM_T x y); split; congruence || auto. Qed.
Lemma Reqb_false x y : Reqb x y = false <-> x <> y.
Proof. unfold Reqb; destruct (Req_EM_T x y); split; congruence || auto. Qed.

(** ** Real functions used by the code *)

(** [jnp.sign] *)
Definition Rsign (x : R) : R := if Rltb 0 x then 1 else if Rltb x 0 then -1 else 0.

(** [jnp.atan2] (without signed zeros): value in (-pi, pi], 0 at the origin. *)
Definition Ratan2 (y x : R) : R :=
  if Rltb 0 x then atan (y / x)
  else if Rltb x 0 then (if Rleb 0 y then atan (y / x) + PI else atan (y / x) - PI)
  else if Rltb 0 y then PI / 2
  else if Rltb y 0 then - (PI / 2)
  else 0.

(** [x % (360 deg)], in radians: floored modulo. *)
Definition Rwrap (x : R) : R := x - 2 * PI * IZR (Int_part (x / (2 * PI))).

(** Physical constants: metres per astronomical unit (exact, IAU 2012) and per
    parsec (IAU 2015: 648000/pi AU). *)
Definition AU : R := 149597870700.
Definition PC : R := 648000 / PI * AU.

(** ** The operations used by the code *)
Class Num (A : Type) := {
  ncst : R -> A;                (* literal constants *)
  nlen : R -> A;                (* a constant length, in SI units *)
  nang : R -> A;                (* a constant angle, in radian *)
  nadd : A -> A -> A;
  nsub : A -> A -> A;
  nmul : A -> A -> A;
  ndiv : A -> A -> A;
  nneg : A -> A;
  nsqrt : A -> A;
  nsin : A -> A;
  ncos : A -> A;
  ntan : A -> A;
  nacos : A -> A;
  natan2 : A -> A -> A;
  nabs : A -> A;
  nsign : A -> A;
  nwrap : A -> A;               (* modulo 2 pi *)
  nexp10 : A -> A;              (* 10 ** x *)
  nltb : A -> A -> bool;
  nleb : A -> A -> bool;
  neqb : A -> A -> bool
}.

Declare Scope num_scope.
Delimit Scope num_scope with num.
Infix "+" := nadd : num_scope.
Infix "-" := nsub : num_scope.
Infix "*" := nmul : num_scope.
Infix "/" := ndiv : num_scope.
Notation "- x" := (nneg x) : num_scope.
Infix "<?" := nltb : num_scope.
Infix "<=?" := nleb : num_scope.
Infix "=?" := neqb : num_scope.

Definition nsq {A} `{Num A} (x : A) : A := nmul x x.

(** ** Instance 1: reals with a "not finite" value *)
Definition ext := option R.

Definition lift1 (f : R -> R) (x : ext) : ext :=
  match x with Some a => Some (f a) | None => None end.
Definition lift2 (f : R -> R -> R) (x y : ext) : ext :=
  match x, y with Some a, Some b => Some (f a b) | _, _ => None end.
Definition lift2b (f : R -> R -> bool) (x y : ext) : bool :=
  match x, y with Some a, Some b => f a b | _, _ => false end.

Definition ediv (x y : ext) : ext :=
  match x, y with
  | Some a, Some b => if Reqb b 0 then None else Some (a / b)
  | _, _ => None
  end.
Definition esqrt (x : ext) : ext :=
  match x with Some a => if Rleb 0 a then Some (sqrt a) else None | None => None end.
Definition etan (x : ext) : ext :=
  match x with Some a => if Reqb (cos a) 0 then None else Some (tan a) | None => None end.
Definition eacos (x : ext) : ext :=
  match x with
  | Some a => if Rleb (-1) a && Rleb a 1 then Some (acos a) else None
  | None => None
  end.

#[export] Instance Num_ext : Num ext := {|
  ncst := fun r => Some r;
  nlen := fun r => Some r;
  nang := fun r => Some r;
  nadd := lift2 Rplus;
  nsub := lift2 Rminus;
  nmul := lift2 Rmult;
  ndiv := ediv;
  nneg := lift1 Ropp;
  nsqrt := esqrt;
  nsin := lift1 sin;
  ncos := lift1 cos;
  ntan := etan;
  nacos := eacos;
  natan2 := lift2 Ratan2;
  nabs := lift1 Rabs;
  nsign := lift1 Rsign;
  nwrap := lift1 Rwrap;
  nexp10 := lift1 (Rpower 10);
  nltb := lift2b Rltb;
  nleb := lift2b Rleb;
  neqb := lift2b Reqb
|}.

(** ** Instance 2: dual numbers.  The tangent of each primitive is JAX's JVP
    rule (jax 0.4.35, jax/_src/lax/lax.py); e.g. [sqrt]: [g * (0.5 / ans)],
    [acos]: [-g * rsqrt(1 - x^2)], [atan2]: [g_y x/(x^2+y^2) - g_x y/(x^2+y^2)],
    [select] takes the tangent of the selected branch, [sign] is constant,
    [x % c] has tangent [g]. *)
Record dual := mkDual { dv : ext; dd : ext }.

#[export] Instance Num_dual : Num dual := {|
  ncst := fun r => mkDual (Some r) (Some 0);
  nlen := fun r => mkDual (Some r) (Some 0);
  nang := fun r => mkDual (Some r) (Some 0);
  nadd := fun a b => mkDual (nadd (dv a) (dv b)) (nadd (dd a) (dd b));
  nsub := fun a b => mkDual (nsub (dv a) (dv b)) (nsub (dd a) (dd b));
  nmul := fun a b => mkDual (nmul (dv a) (dv b))
                            (nadd (nmul (dd a) (dv b)) (nmul (dv a) (dd b)));
  ndiv := fun a b => mkDual (ndiv (dv a) (dv b))
                            (nsub (ndiv (dd a) (dv b))
                                  (ndiv (nmul (dd b) (dv a)) (nmul (dv b) (dv b))));
  nneg := fun a => mkDual (nneg (dv a)) (nneg (dd a));
  nsqrt := fun a => mkDual (nsqrt (dv a)) (nmul (dd a) (ndiv (Some (1/2)) (nsqrt (dv a))));
  nsin := fun a => mkDual (nsin (dv a)) (nmul (dd a) (ncos (dv a)));
  ncos := fun a => mkDual (ncos (dv a)) (nneg (nmul (dd a) (nsin (dv a))));
  ntan := fun a => mkDual (ntan (dv a))
                          (nmul (dd a) (nadd (Some 1) (nmul (ntan (dv a)) (ntan (dv a)))));
  nacos := fun a => mkDual (nacos (dv a))
                           (nneg (ndiv (dd a) (nsqrt (nsub (Some 1) (nmul (dv a) (dv a))))));
  natan2 := fun a b => mkDual (natan2 (dv a) (dv b))
      (let s := nadd (nmul (dv a) (dv a)) (nmul (dv b) (dv b)) in
       nsub (nmul (dd a) (ndiv (dv b) s)) (nmul (dd b) (ndiv (dv a) s)));
  nabs := fun a => mkDual (nabs (dv a)) (nmul (dd a) (nsign (dv a)));
  nsign := fun a => mkDual (nsign (dv a)) (Some 0);
  nwrap := fun a => mkDual (nwrap (dv a)) (dd a);
  nexp10 := fun a => mkDual (nexp10 (dv a)) (nmul (nmul (dd a) (Some (ln 10))) (nexp10 (dv a)));
  nltb := fun a b => nltb (dv a) (dv b);
  nleb := fun a b => nleb (dv a) (dv b);
  neqb := fun a b => neqb (dv a) (dv b)
|}.

(** ** Facts about the real functions *)

Lemma PI_pos : 0 < PI. Proof. exact PI_RGT_0. Qed.

Lemma AU_pos : 0 < AU. Proof. unfold AU; lra. Qed.
Lemma PC_pos : 0 < PC.
Proof.
  unfold PC. apply Rmult_lt_0_compat. apply Rdiv_lt_0_compat. lra. apply PI_pos. apply AU_pos.
Qed.

Lemma Rsign_mul_abs x : Rsign x * Rabs x = x.
Proof.
  unfold Rsign. destruct (Rltb 0 x) eqn:E1.
  - apply Rltb_true in E1. rewrite Rabs_pos_eq; lra.
  - destruct (Rltb x 0) eqn:E2.
    + apply Rltb_true in E2. rewrite Rabs_left; lra.
    + apply Rltb_false in E1, E2. assert (x = 0) by lra. subst. rewrite Rabs_R0. lra.
Qed.

Lemma Rwrap_range x : 0 <= Rwrap x < 2 * PI.
Proof.
  unfold Rwrap. pose proof PI_pos as HP.
  destruct (base_Int_part (x / (2 * PI))) as [H1 H2].
  assert (Hx : x = (x / (2*PI)) * (2 * PI)) by (field; lra).
  set (k := IZR (Int_part (x / (2 * PI)))) in *.
  set (q := x / (2*PI)) in *. rewrite Hx. split; nra.
Qed.

Lemma Rwrap_eq x : exists k : Z, x = Rwrap x + 2 * PI * IZR k.
Proof. exists (Int_part (x / (2*PI))). unfold Rwrap. ring. Qed.

Lemma cos_period_Z x k : cos (x + 2 * PI * IZR k) = cos x.
Proof.
  destruct (Z_le_dec 0 k).
  - rewrite <- (Z2Nat.id k) by lia. rewrite <- INR_IZR_INZ.
    replace (2 * PI * INR (Z.to_nat k)) with (2 * INR (Z.to_nat k) * PI) by ring. apply cos_period.
  - rewrite <- (cos_period (x + 2 * PI * IZR k) (Z.to_nat (-k))).
    f_equal. rewrite INR_IZR_INZ, Z2Nat.id by lia. rewrite opp_IZR. ring.
Qed.
Lemma sin_period_Z x k : sin (x + 2 * PI * IZR k) = sin x.
Proof.
  destruct (Z_le_dec 0 k).
  - rewrite <- (Z2Nat.id k) by lia. rewrite <- INR_IZR_INZ.
    replace (2 * PI * INR (Z.to_nat k)) with (2 * INR (Z.to_nat k) * PI) by ring. apply sin_period.
  - rewrite <- (sin_period (x + 2 * PI * IZR k) (Z.to_nat (-k))).
    f_equal. rewrite INR_IZR_INZ, Z2Nat.id by lia. rewrite opp_IZR. ring.
Qed.

Lemma cos_Rwrap x : cos (Rwrap x) = cos x.
Proof. destruct (Rwrap_eq x) as [k Hk]. rewrite Hk at 2. now rewrite cos_period_Z. Qed.
Lemma sin_Rwrap x : sin (Rwrap x) = sin x.
Proof. destruct (Rwrap_eq x) as [k Hk]. rewrite Hk at 2. now rewrite sin_period_Z. Qed.

Lemma Int_part_unique x k : IZR k <= x < IZR k + 1 -> Int_part x = k.
Proof.
  intros [H1 H2]. destruct (base_Int_part x) as [H3 H4].
  assert (IZR (Int_part x) < IZR k + 1) by lra.
  assert (IZR k < IZR (Int_part x) + 1) by lra.
  rewrite <- plus_IZR in *. apply lt_IZR in H, H0. lia.
Qed.

Lemma Rwrap_id x : 0 <= x < 2 * PI -> Rwrap x = x.
Proof.
  intros [H1 H2]. pose proof PI_pos. unfold Rwrap.
  rewrite (Int_part_unique _ 0%Z). simpl; ring.
  split.
  - apply Rmult_le_reg_r with (2*PI). lra. unfold Rdiv. rewrite Rmult_assoc, Rinv_l by lra. lra.
  - apply Rmult_lt_reg_r with (2*PI). lra. unfold Rdiv. rewrite Rmult_assoc, Rinv_l by lra. lra.
Qed.

Lemma Rwrap_shift x k : Rwrap (x + 2 * PI * IZR k) = Rwrap x.
Proof.
  pose proof PI_pos. unfold Rwrap.
  assert (E : Int_part ((x + 2 * PI * IZR k) / (2 * PI)) = (Int_part (x / (2*PI)) + k)%Z).
  { apply Int_part_unique. rewrite plus_IZR.
    destruct (base_Int_part (x / (2 * PI))).
    replace ((x + 2 * PI * IZR k) / (2 * PI)) with (x / (2*PI) + IZR k) by (field; lra). lra. }
  rewrite E, plus_IZR. ring.
Qed.

(** *** atan2 *)

Lemma cos_atan x : cos (atan x) = 1 / sqrt (1 + x * x).
Proof.
  pose proof (atan_bound x) as [B1 B2].
  assert (Hc : 0 < cos (atan x)) by (apply cos_gt_0; lra).
  assert (Hs : sin (atan x) = x * cos (atan x)).
  { rewrite <- (tan_atan x) at 2. unfold tan. field. lra. }
  pose proof (sin2_cos2 (atan x)) as H. unfold Rsqr in H. rewrite Hs in H.
  assert (0 < 1 + x * x) by nra.
  assert (HH : cos (atan x) * cos (atan x) = / (1 + x * x)) by (field_simplify_eq; nra).
  assert (sqrt (1 + x * x) * cos (atan x) = 1).
  { rewrite <- (sqrt_square (cos (atan x))) by lra. rewrite <- sqrt_mult by nra.
    rewrite HH, Rinv_r by lra. apply sqrt_1. }
  assert (0 < sqrt (1 + x * x)) by (apply sqrt_lt_R0; lra).
  field_simplify_eq; lra.
Qed.
Lemma sin_atan x : sin (atan x) = x / sqrt (1 + x * x).
Proof.
  pose proof (atan_bound x) as [B1 B2].
  assert (Hc : 0 < cos (atan x)) by (apply cos_gt_0; lra).
  assert (Hs : sin (atan x) = x * cos (atan x)).
  { rewrite <- (tan_atan x) at 2. unfold tan. field. lra. }
  rewrite Hs, cos_atan. unfold Rdiv. ring.
Qed.

Lemma hypot_div x y : x <> 0 -> sqrt (x * x + y * y) = Rabs x * sqrt (1 + (y/x) * (y/x)).
Proof.
  intros Hx. replace (x * x + y * y) with ((Rabs x * Rabs x) * (1 + (y/x)*(y/x))).
  - rewrite sqrt_mult. rewrite sqrt_square. reflexivity. apply Rabs_pos.
    pose proof (Rabs_pos x); nra.
    assert (0 <= (y/x)*(y/x)) by nra. lra.
  - rewrite <- Rabs_mult, Rabs_pos_eq by nra. field; auto.
Qed.

Lemma Ratan2_polar x y :
  sqrt (x * x + y * y) * cos (Ratan2 y x) = x /\ sqrt (x * x + y * y) * sin (Ratan2 y x) = y.
Proof.
  unfold Ratan2.
  assert (Hq : 0 < sqrt (1 + (y/x) * (y/x))).
  { apply sqrt_lt_R0. assert (0 <= (y/x)*(y/x)) by nra. lra. }
  destruct (Rltb 0 x) eqn:E1.
  { apply Rltb_true in E1. rewrite cos_atan, sin_atan, hypot_div by lra.
    rewrite Rabs_pos_eq by lra. split; field; lra. }
  destruct (Rltb x 0) eqn:E2.
  { apply Rltb_true in E2. rewrite hypot_div by lra. rewrite Rabs_left by lra.
    assert (C : cos (if Rleb 0 y then atan (y / x) + PI else atan (y / x) - PI) = - cos (atan (y/x))
             /\ sin (if Rleb 0 y then atan (y / x) + PI else atan (y / x) - PI) = - sin (atan (y/x))).
    { destruct (Rleb 0 y). split; [apply neg_cos|apply neg_sin].
      rewrite <- (neg_cos (atan (y/x))), <- (neg_sin (atan (y/x))).
      rewrite <- (cos_period_Z (_ - PI) 1), <- (sin_period_Z (_ - PI) 1).
      split; f_equal; ring. }
    destruct C as [-> ->]. rewrite cos_atan, sin_atan. split; field; lra. }
  apply Rltb_false in E1, E2. assert (x = 0) by lra. subst x.
  replace (0 * 0 + y * y) with (Rsqr y) by (unfold Rsqr; ring). rewrite sqrt_Rsqr_abs.
  destruct (Rltb 0 y) eqn:E3.
  { apply Rltb_true in E3. rewrite cos_PI2, sin_PI2, Rabs_pos_eq by lra. lra. }
  destruct (Rltb y 0) eqn:E4.
  { apply Rltb_true in E4. rewrite cos_neg, sin_neg, cos_PI2, sin_PI2, Rabs_left by lra. lra. }
  apply Rltb_false in E3, E4. assert (y = 0) by lra. subst y. rewrite Rabs_R0. lra.
Qed.

Lemma Ratan2_range y x : - PI < Ratan2 y x <= PI.
Proof.
  pose proof PI_pos. unfold Ratan2.
  pose proof (atan_bound (y/x)) as [B1 B2].
  destruct (Rltb 0 x) eqn:E1. lra.
  destruct (Rltb x 0) eqn:E2.
  { apply Rltb_true in E2. destruct (Rleb 0 y) eqn:E3.
    - apply Rleb_true in E3. assert (y / x <= 0).
      { unfold Rdiv. pose proof (Rinv_lt_0_compat x E2). nra. }
      assert (atan (y/x) <= 0).
      { destruct H0. apply Rlt_le. rewrite <- atan_0. now apply atan_increasing.
        rewrite H0, atan_0. lra. }
      lra.
    - apply Rleb_false in E3. assert (0 < y / x).
      { unfold Rdiv. pose proof (Rinv_lt_0_compat x E2). nra. }
      assert (0 < atan (y/x)) by (rewrite <- atan_0; now apply atan_increasing). lra. }
  destruct (Rltb 0 y). lra. destruct (Rltb y 0); lra.
Qed.

(** Two angles in [0,2pi) with the same cosine and sine are equal. *)
Lemma angle_unique a b :
  0 <= a < 2 * PI -> 0 <= b < 2 * PI -> cos a = cos b -> sin a = sin b -> a = b.
Proof.
  intros Ha Hb Hc Hs.
  assert (H1 : cos (a - b) = 1).
  { rewrite cos_minus, Hc, Hs. pose proof (sin2_cos2 b). unfold Rsqr in *. lra. }
  assert (H2 : sin (a - b) = 0) by (rewrite sin_minus, Hc, Hs; ring).
  destruct (Rtotal_order a b) as [L|[E|G]]; auto; exfalso.
  - assert (0 < b - a < 2 * PI) by lra.
    assert (E: sin (b - a) = 0) by (replace (b - a) with (-(a-b)) by ring; rewrite sin_neg; lra).
    assert (E': cos (b - a) = 1) by (replace (b - a) with (-(a-b)) by ring; rewrite cos_neg; lra).
    destruct (Rlt_le_dec (b-a) PI). pose proof (sin_gt_0 (b-a)); lra.
    destruct (Req_EM_T (b-a) PI) as [Q|Q]. rewrite Q, cos_PI in E'; lra.
    pose proof (sin_lt_0 (b-a)); lra.
  - assert (0 < a - b < 2 * PI) by lra.
    destruct (Rlt_le_dec (a-b) PI). pose proof (sin_gt_0 (a-b)); lra.
    destruct (Req_EM_T (a-b) PI) as [Q|Q]. rewrite Q, cos_PI in H1; lra.
    pose proof (sin_lt_0 (a-b)); lra.
Qed.

Lemma Ratan2_wrap_polar r a :
  0 < r -> 0 <= a < 2 * PI -> Rwrap (Ratan2 (r * sin a) (r * cos a)) = a.
Proof.
  intros Hr Ha.
  destruct (Ratan2_polar (r * cos a) (r * sin a)) as [H1 H2].
  replace (r * cos a * (r * cos a) + r * sin a * (r * sin a)) with (r * r) in *.
  2:{ pose proof (sin2_cos2 a) as S. unfold Rsqr in S. transitivity (r*r*(sin a * sin a + cos a * cos a)). rewrite S; ring. ring. }
  rewrite sqrt_square in * by lra.
  apply angle_unique; auto. apply Rwrap_range.
  - rewrite cos_Rwrap. nra.
  - rewrite sin_Rwrap. nra.
Qed.
