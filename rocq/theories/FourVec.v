(** * FourVector and the operators.

    Files modelled (under /repo/src/coordinax/_src): vectors/d4/spacetime.py,
    vectors/d4/compat.py, operators/base.py, operators/composite.py,
    operators/pipe.py, operators/identity.py, operators/boost.py,
    operators/compat.py, operators/register_simplify.py,
    operators/galilean/{boost,composite,rotation,spatial_translation,translation}.py.

    Simplification: one array element, consistent units (as for positions);
    scalar times. *)
From Coq Require Import Reals Bool List ZArith.
From Verif Require Import Num Vectors Transform Arith Vel.
Import ListNotations.

(** ** FourVector: vectors/d4/spacetime.py:39-92.  Fields [t], [q] (a 3-D
    position, [Unless(AbstractPos3D, ...)]) and the attribute [c]. *)
Record fourvec (A : Type) := mkFV { ft : A; fq : pos A; fc : A }.
Arguments mkFV {A}. Arguments ft {A}. Arguments fq {A}. Arguments fc {A}.
(** The default of [c], 299792.458 km/s: vectors/d4/spacetime.py:90-92. *)
Definition c_light : R := 299792458%R.

Section FourVector.
Variables (m : mode) (deg : bool) (fuel : nat).
Local Open Scope num_scope.

(** [-v]: d4/spacetime.py:192-208 *)
Definition fv_neg (v : fourvec ext) : res (fourvec ext) :=
  do q <- pos_neg m deg fuel (fq v); ret (mkFV (- ft v) q (fc v)).
(** [v + w]: d4/spacetime.py:311-336 *)
Definition fv_add (v w : fourvec ext) : res (fourvec ext) :=
  do q <- pos_add m deg fuel (fq v) (fq w); ret (mkFV (ft v + ft w) q (fc v)).
(** [v - w]: d4/spacetime.py:339-364 *)
Definition fv_sub (v w : fourvec ext) : res (fourvec ext) :=
  do q <- pos_sub m deg fuel (fq v) (fq w); ret (mkFV (ft v - ft w) q (fc v)).
(** [v._norm2()]: d4/spacetime.py:212-226.  If [q.norm()] is a parallax or a
    distance modulus the sum has incompatible units. *)
Definition fv_norm2 (v : fourvec ext) : res ext :=
  do d <- pos_norm deg fuel (fq v);
  match dk d with
  | KDistance => ret (- nsq (dval d) + nsq (fc v * ft v))
  | _ => Raise EUnit
  end.
(** [v.norm()]: d4/spacetime.py:228-243: complex square root, as a pair. *)
Definition csqrt (x : ext) : ext * ext :=
  if x <? ncst 0 then (ncst 0, nsqrt (- x)) else (nsqrt x, ncst 0).
Definition fv_norm (v : fourvec ext) : res (ext * ext) :=
  do n <- fv_norm2 v; ret (csqrt n).
(** [convert(v, Quantity)]: d4/compat.py:15-19 *)
Definition fv_to_array (v : fourvec ext) : res (list ext) :=
  do x <- cart_components m deg fuel (fq v); ret (fc v * ft v :: x).
(** [FourVector.from_(array)]: d4/spacetime.py:106-153 (last axis 4).  The
    overload for a last axis of 3, 284-308, always raises: it passes scalar
    entries of one array as [t], [q] and [c], and [q] cannot be built. *)
Definition fv_from_array (x : list ext) : res (fourvec ext) :=
  match x with
  | [a; x; y; z] => ret (mkFV (a / ncst c_light) (PCart3 x y z) (ncst c_light))
  | [_; _; _] => Raise EValue
  | _ => Raise ENotFound
  end.
End FourVector.
