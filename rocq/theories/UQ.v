(** * Numbers carrying units: a third run of the conversion code.

    coordinax computes with [unxt.Quantity] objects: a value together with a static
    unit, whose arithmetic is defined by unxt's quax rules (unxt
    _src/quantity/register_primitives.py; library, modelled here):
    - [x + y], [x - y], comparisons, [atan2]: [y] is converted to the unit of [x],
      the result is in the unit of [x]; unequal dimensions raise;
    - [x * y], [x / y], [x ** 2], [sqrt x]: values and units separately;
    - [sin], [cos], [tan]: the argument is converted to radian, the result is
      dimensionless; [acos]: the argument is converted to dimensionless, the result
      is in radian; [abs], [-x], [%]: the unit of [x]; [sign]: dimensionless.
    The value is an array element, or under [jax.jacfwd] an array element with its
    tangent (a quantity wraps the tracer; the tangent is that of the number stored,
    not of the SI value).  This file makes that a number type of the conversion code
    of Transform.v, so that the *same* functions that the other properties are about
    run on values with arbitrary units.

    Simplifications: a unit is a dimension and a positive SI scale; a dimension error
    is a number without dimension that stays so (instead of an exception; C57 shows
    that none arises); [jnp.where] keeps the unit of the selected branch (instead of
    converting to that of the first one); comparisons look at values only. *)
From Coq Require Import Reals Bool List ZArith.
From Verif Require Import Num Vectors Transform Vel Units.
Import ListNotations.
Open Scope R_scope.

(** A dimension, or a dimension error. *)
Definition udim_ := option dim.
Definition one_d_ : dim := mkDim 0 0 0 0 0.
Definition dim_mul (a b : dim) : dim :=
  mkDim (d_len a + d_len b) (d_mass a + d_mass b) (d_time a + d_time b) (d_ang a + d_ang b) (d_mag a + d_mag b).
Definition dim_div (a b : dim) : dim :=
  mkDim (d_len a - d_len b) (d_mass a - d_mass b) (d_time a - d_time b) (d_ang a - d_ang b) (d_mag a - d_mag b).
Definition half (z : Z) : option Z := if Z.even z then Some (Z.div z 2) else None.
Definition dim_sqrt (a : dim) : option dim :=
  match half (d_len a), half (d_mass a), half (d_time a), half (d_ang a), half (d_mag a) with
  | Some l, Some m, Some t, Some g, Some g' => Some (mkDim l m t g g')
  | _, _, _, _, _ => None
  end.
(** Equal dimensions; also [self.value / 5 + 1] of a DistanceModulus, where the unit
    "mag" is dropped (distances/core.py:242). *)
Definition sum_dim (a b : udim_) : udim_ :=
  match a, b with
  | Some d, Some d' => if dim_eqb d d' || (dim_eqb d mag_d && dim_eqb d' one_d_) then Some d else None
  | _, _ => None
  end.
Definition dim2 (f : dim -> dim -> dim) (a b : udim_) : udim_ :=
  match a, b with Some d, Some d' => Some (f d d') | _, _ => None end.
Definition sqrt_dim (a : udim_) : udim_ := match a with Some d => dim_sqrt d | None => None end.
(** the argument of a function that wants dimension [want] *)
Definition arg_dim (want out : dim) (a : udim_) : udim_ :=
  match a with Some d => if dim_eqb d want then Some out else None | None => None end.
Definition to_dim (out : dim) (a : udim_) : udim_ := match a with Some _ => Some out | None => None end.

(** Multiplication of a stored number by a unit conversion factor. *)
Class Scal (A : Type) := { scl : R -> A -> A }.
#[export] Instance Scal_ext : Scal ext := {| scl := fun a x => match x with Some v => Some (a * v) | None => None end |}.
#[export] Instance Scal_dual : Scal dual := {| scl := fun a x => mkDual (scl a (dv x)) (scl a (dd x)) |}.

(** value, dimension, scale of the unit *)
Record uq (A : Type) := mkUq { uqv : A; uqd : udim_; uqs : R }.
Arguments mkUq {A}. Arguments uqv {A}. Arguments uqd {A}. Arguments uqs {A}.

Section UQ.
Context {A : Type} `{NA : Num A} `{SA : Scal A}.
(** SI value *)
Definition uphys (q : uq A) : A := scl (uqs q) (uqv q).
(** value of [b] in the unit of [a] *)
Definition inunit (a b : uq A) : A := scl (uqs b / uqs a) (uqv b).

#[export] Instance Num_uq : Num (uq A) := {|
  ncst := fun r => mkUq (ncst r) (Some one_d_) 1;
  nlen := fun r => mkUq (nlen r) (Some length_d) 1;
  nang := fun r => mkUq (nang r) (Some angle_d) 1;
  nadd := fun a b => mkUq (nadd (uqv a) (inunit a b)) (sum_dim (uqd a) (uqd b)) (uqs a);
  nsub := fun a b => mkUq (nsub (uqv a) (inunit a b)) (sum_dim (uqd a) (uqd b)) (uqs a);
  nmul := fun a b => mkUq (nmul (uqv a) (uqv b)) (dim2 dim_mul (uqd a) (uqd b)) (uqs a * uqs b);
  ndiv := fun a b => mkUq (ndiv (uqv a) (uqv b)) (dim2 dim_div (uqd a) (uqd b)) (uqs a / uqs b);
  nneg := fun a => mkUq (nneg (uqv a)) (uqd a) (uqs a);
  nsqrt := fun a => mkUq (nsqrt (uqv a)) (sqrt_dim (uqd a)) (sqrt (uqs a));
  nsin := fun a => mkUq (nsin (uphys a)) (arg_dim angle_d one_d_ (uqd a)) 1;
  ncos := fun a => mkUq (ncos (uphys a)) (arg_dim angle_d one_d_ (uqd a)) 1;
  ntan := fun a => mkUq (ntan (uphys a)) (arg_dim angle_d one_d_ (uqd a)) 1;
  nacos := fun a => mkUq (nacos (uphys a)) (arg_dim one_d_ angle_d (uqd a)) 1;
  natan2 := fun a b => mkUq (natan2 (uqv a) (inunit a b)) (to_dim angle_d (sum_dim (uqd a) (uqd b))) 1;
  nabs := fun a => mkUq (nabs (uqv a)) (uqd a) (uqs a);
  nsign := fun a => mkUq (nsign (uqv a)) (to_dim one_d_ (uqd a)) 1;
  (* modulo 360 degrees, in the unit of [a] *)
  nwrap := fun a => mkUq (scl (1 / uqs a) (nwrap (uphys a))) (arg_dim angle_d angle_d (uqd a)) (uqs a);
  nexp10 := fun a => mkUq (nexp10 (uphys a)) (to_dim one_d_ (uqd a)) 1;
  nltb := fun a b => nltb (uqv a) (inunit a b);
  nleb := fun a b => nleb (uqv a) (inunit a b);
  neqb := fun a b => neqb (uqv a) (inunit a b)
|}.
End UQ.
