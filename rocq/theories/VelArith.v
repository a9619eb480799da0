(** * Arithmetic and equality of velocities and accelerations.

    Files modelled (under /repo/src/coordinax/_src/vectors): d1/cartesian.py,
    d2/cartesian.py, d3/cartesian.py (the rules registered for the JAX
    primitives), base/base.py:440-501, 545-618 (the Python operators).
    An operation without a rule reaches [materialise] (base/base.py:281-294),
    which raises RuntimeError.  Simplification: operands in the same units
    (Units.v has the conversions), one array element; the scalar's shape is
    kept because the rules test it. *)
From Coq Require Import Reals Bool List Arith.
From Verif Require Import Num Vectors Transform Vel.
Import ListNotations.

(** A number or array on one side of a product: shape and element. *)
Record scalar := mkScalar { sshape : list nat; sval : ext }.
(** [any(jax.numpy.shape(lhs))]: d1/cartesian.py:254-257 etc.: some axis is not 0. *)
Definition any_axis (s : list nat) : bool := existsb (fun n => negb (Nat.eqb n 0%nat)) s.

Local Open Scope num_scope.

(** [v + w]: d1/cartesian.py:206-228, d2/cartesian.py:218-235, d3/cartesian.py:276-289. *)
Definition vadd_op (v w : vel ext) : res (vel ext) :=
  match vc v, vc w with
  | WCart1, WCart1 | WCart2, WCart2 | WCart3, WCart3 => ret (mkVel (vc v) (vplus (vcomps v) (vcomps w)))
  | _, _ => Raise ERuntime
  end.
(** [v - w]: only d3/cartesian.py:292-305. *)
Definition vminus (a b : list ext) : list ext := map (fun '(x, y) => x - y) (combine a b).
Definition vsub_op (v w : vel ext) : res (vel ext) :=
  match vc v, vc w with
  | WCart3, WCart3 => ret (mkVel WCart3 (vminus (vcomps v) (vcomps w)))
  | _, _ => Raise ERuntime
  end.
(** [k * v]: d1/cartesian.py:231-260, d2/cartesian.py:238-261; none in three dimensions. *)
Definition vscale_op (k : scalar) (v : vel ext) : res (vel ext) :=
  match vc v with
  | WCart1 | WCart2 =>
      if any_axis (sshape k) then Raise ERuntime
      else ret (mkVel (vc v) (map (fun x => sval k * x) (vcomps v)))
  | _ => Raise ERuntime
  end.
(** [v * k] ([__mul__], base/base.py:471-483) and [v / k] ([__truediv__], 499-500)
    with a plain number: no rule is registered for velocities or accelerations
    on the left of a number. *)
Definition vmul_right_op (v : vel ext) (k : scalar) : res (vel ext) := Raise ERuntime.
Definition vdiv_op (v : vel ext) (k : scalar) : res (vel ext) := Raise ERuntime.

(** [a + b]: d1/cartesian.py:297-319, d2/cartesian.py:331-348, d3/cartesian.py:386-389. *)
Definition aadd_op (a b : acc ext) : res (acc ext) :=
  match xc a, xc b with
  | XCart1, XCart1 | XCart2, XCart2 | XCart3, XCart3 => ret (mkAcc (xc a) (vplus (xcomps a) (xcomps b)))
  | _, _ => Raise ERuntime
  end.
(** [a - b]: d1/cartesian.py:352-374, d3/cartesian.py:415-418; none in two dimensions. *)
Definition asub_op (a b : acc ext) : res (acc ext) :=
  match xc a, xc b with
  | XCart1, XCart1 | XCart3, XCart3 => ret (mkAcc (xc a) (vminus (xcomps a) (xcomps b)))
  | _, _ => Raise ERuntime
  end.
(** [k * a]: d1/cartesian.py:322-349, d2/cartesian.py:351-374.  The rule next to
    CartesianAcc3D (d3/cartesian.py:392-412) is registered for CartesianPos3D. *)
Definition ascale_op (k : scalar) (a : acc ext) : res (acc ext) :=
  match xc a with
  | XCart1 | XCart2 =>
      if any_axis (sshape k) then Raise ERuntime
      else ret (mkAcc (xc a) (map (fun x => sval k * x) (xcomps a)))
  | _ => Raise ERuntime
  end.

(** [+v]: base/base.py:444-458: every component unchanged. *)
Definition vel_pos (v : vel ext) : vel ext := v.

(** [v == w]: base/base.py:545-618: a different class gives NotImplemented on both
    sides, so Python compares identities: False for two objects. *)
Fixpoint all_eqb (a b : list ext) : bool :=
  match a, b with
  | [], [] => true
  | x :: a, y :: b => (x =? y) && all_eqb a b
  | _, _ => false
  end.
Definition vel_eq (v w : vel ext) : bool := vcls_eqb (vc v) (vc w) && all_eqb (vcomps v) (vcomps w).
Definition acc_eq (a b : acc ext) : bool := xcls_eqb (xc a) (xc b) && all_eqb (xcomps a) (xcomps b).
