(** * FourVector: the operations inherited from positions, and numbers with units.

    FourVec.v models addition, subtraction, negation, norm and the exchange with arrays
    on SI values.  Added here: the operations FourVector inherits from AbstractPos
    (division and multiplication by a number, equality, products), and the same
    functions on numbers that carry units (UQ.v).

    Files modelled: vectors/d4/spacetime.py, vectors/d4/compat.py,
    vectors/base/base_pos.py, vectors/base/base.py.  Simplification: as UQ.v; one array
    element. *)
From Coq Require Import Reals Bool List ZArith.
From Verif Require Import Num Vectors Transform Arith Vel Units UQ FourVec GOp UOpThm.
Import ListNotations.

(** ** Inherited operations *)
Section Inherited.
Context {A : Type} {NA : Num A}.
Variables (m : mode) (deg : bool) (fuel : nat).
Local Open Scope num_scope.
(** What [type(v)._cartesian_cls] does for a FourVector: d4/spacetime.py:174-179
    (NotImplementedError, which is a RuntimeError) *)
Definition four_cartesian_cls : res pcls := Raise ERuntime.
(** [represent_as(v, cls)] of a FourVector: no function is registered for it in
    d1/transform.py, d2/transform.py, d3/transform.py, transform/dims.py *)
Definition four_represent_as (v : fourvec A) : res (fourvec A) := Raise ENotFound.
(** [v / k]: base/base.py:499-500, base/base_pos.py:200-219.  The fields [t] and [q] are
    divided, the attribute [c] is kept. *)
Definition gfv_div (b : bool) (v : fourvec A) (k : A) : res (fourvec A) :=
  do q <- pos_div m b (fq v) k; ret (mkFV (ft v / k) q (fc v)).
(** [k * v] and [v * k]: base/base.py:470-497, base/base_pos.py:234-346 *)
Definition gfv_mul (k : A) (v : fourvec A) : res (fourvec A) :=
  do _ <- four_cartesian_cls; four_represent_as v.
(** [v * w]: base/base_pos.py:349-377 *)
Definition gfv_mul_fv (v w : fourvec A) : res (list A) :=
  do _ <- four_cartesian_cls; Raise EType.
(** [v == w]: base/base_pos.py:96-137 *)
Definition gfv_eq (v w : fourvec A) : res bool :=
  do _ <- four_represent_as w; Raise EType.
(** [v + q], [q + v], [v - q], [q - v] for a position [q]: base/base_pos.py:180-194,
    450-460 *)
Definition gfv_add_pos (v : fourvec A) (q : pos A) : res (fourvec A) :=
  do _ <- four_cartesian_cls; four_represent_as v.
Definition gpos_add_fv (q : pos A) (v : fourvec A) : res (pos A) :=
  do _ <- represent_as m deg fuel nokw q (cart_cls (cls_of q));
  do _ <- four_represent_as v; Raise EType.
(** [v._norm2()]: d4/spacetime.py:212-226 *)
Definition gfv_norm2 (v : fourvec A) : res A :=
  do d <- pos_norm deg fuel (fq v);
  match dk d with
  | KDistance => ret (- nsq (dval d) + nsq (fc v * ft v))
  | _ => Raise EUnit
  end.
End Inherited.

(** ** In units *)
Section Units.
Variables (m : mode) (deg : bool) (fuel : nat).
(** [v.norm()]: d4/spacetime.py:228-243.  The complex square root acts on the stored
    number; the unit is the square root of the unit.  Real and imaginary part. *)
Definition ufv_norm (v : fourvec (uq ext)) : res (uq ext * uq ext) :=
  do n <- gfv_norm2 deg fuel v;
  let '(re, im) := csqrt (uqv n) in
  ret (mkUq re (sqrt_dim (uqd n)) (sqrt (uqs n)), mkUq im (sqrt_dim (uqd n)) (sqrt (uqs n))).

(** An array of quantities: the numbers and their common unit. *)
Record uarray := mkUA { uav : list ext; uad : udim_; uas : R }.
(** [jnp.stack], [jnp.concat] of quantities: everything in the unit of the first *)
Definition ua_stack (x : uq ext) (l : list (uq ext)) : uarray :=
  mkUA (map (fun y => scl (uqs y / uqs x)%R (uqv y)) (x :: l)) (uqd x) (uqs x).
Definition ua_entry (a : uarray) (v : ext) : uq ext := mkUq v (uad a) (uas a).
(** [convert(q, Quantity)]: base/compat.py:31-70 *)
Definition upos_to_array (q : pos (uq ext)) : res uarray :=
  do x <- cart_components m deg fuel q;
  match x with x :: l => ret (ua_stack x l) | [] => Raise EValue end.
(** [convert(v, Quantity)]: d4/compat.py:15-19 *)
Definition ufv_to_array (v : fourvec (uq ext)) : res uarray :=
  do a <- upos_to_array (fq v);
  ret (ua_stack (nmul (fc v) (ft v)) (map (ua_entry a) (uav a))).
(** [FourVector.from_(array)]: d4/spacetime.py:106-153; the fields [t] and [q] must be a
    time and lengths, 80-86, d3/cartesian.py:52-66 *)
Definition has_dim (d : dim) (q : uq ext) : bool :=
  match uqd q with Some d' => dim_eqb d d' | None => false end.
Definition ufv_from_array (a : uarray) : res (fourvec (uq ext)) :=
  match map (ua_entry a) (uav a) with
  | [ct; x; y; z] =>
      let t := ndiv ct c_kms in
      if has_dim time_d t && has_dim length_d x then ret (mkFV t (PCart3 x y z) c_kms) else Raise EUnit
  | [_; _; _] => Raise EValue
  | _ => Raise ENotFound
  end.
End Units.
