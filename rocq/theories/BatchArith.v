(** * Arithmetic and equality of arrays of vectors, component by component.

    Files modelled (under /repo/src/coordinax/_src/vectors): d1/cartesian.py, d2/cartesian.py,
    d3/cartesian.py (the rules registered for the primitives), base/base_pos.py:200-228
    (division, equality), base/base.py:545-618 ([__eq__]).

    A vector is the list of its component arrays, which may have different shapes
    (Shapes.v).  Simplification: operands in the same units.  The constructors of the
    Cartesian classes check no values and no shapes; [jax.tree.map] calls no
    constructor. *)
From Coq Require Import Reals List Bool Arith.
From Verif Require Import Num Vectors Shapes Arrays BatchOps VelArith.
Import ListNotations.

(** [f(a, b)] for [f] a function of [jax.lax] *)
Definition lax_zip {T U V} (f : T -> U -> V) (a : arr T) (b : arr U) : res (arr V) :=
  do s <- lax_shapes (ash a) (ash b);
  ret (mkArr s (fun idx => f (adat (broadcast_to a s) idx) (adat (broadcast_to b s) idx))).
(** [f(a, b)] for [f] a function of [jax.numpy] *)
Definition np_zip {T U V} (f : T -> U -> V) (a : arr T) (b : arr U) : res (arr V) :=
  do s <- broadcast_shapes [ash a; ash b];
  ret (mkArr s (fun idx => f (adat (broadcast_to a s) idx) (adat (broadcast_to b s) idx))).
(** [jax.tree.map(f, v, w)] for two vectors of the same class *)
Fixpoint zipR {T U V} (f : T -> U -> res V) (v : list T) (w : list U) : res (list V) :=
  match v, w with
  | [], [] => ret []
  | a :: v, b :: w => do c <- f a b; do r <- zipR f v w; ret (c :: r)
  | _, _ => Raise EValue
  end.

(** the Cartesian classes: CartesianPos1D, ..., CartesianAcc3D *)
Inductive ckind := KPos | KVel | KAcc.

Local Open Scope num_scope.

(** [v + w] for two vectors of the class of kind [k] and dimension [n] = 1, 2, 3:
    d1/cartesian.py:67-92, 206-228, 297-319; d2/cartesian.py:81-101, 218-235, 331-348;
    d3/cartesian.py:99-117, 276-289, 386-389 *)
Definition cart_sum (k : ckind) (n : nat) (v w : bvec ext) : res (bvec ext) := zipR (lax_zip nadd) v w.
(** is a rule registered for the difference?  d1/cartesian.py:136-161, 352-374;
    d2/cartesian.py:142-163; d3/cartesian.py:135-154, 292-305, 415-418 *)
Definition has_sub (k : ckind) (n : nat) : bool :=
  match k, n with
  | KPos, _ => true
  | KVel, 3%nat => true
  | KAcc, 1%nat | KAcc, 3%nat => true
  | _, _ => false
  end.
(** [v - w]; without a rule [materialise] raises (base/base.py:281-294) *)
Definition cart_diff (k : ckind) (n : nat) (v w : bvec ext) : res (bvec ext) :=
  if has_sub k n then zipR (lax_zip nsub) v w else Raise ERuntime.
(** [-q] for a Cartesian position: d1/cartesian.py:121-133, d2/cartesian.py:127-139,
    d3/cartesian.py:120-132 *)
Definition cart_neg (v : bvec ext) : bvec ext := map (fun a => mkArr (ash a) (fun idx => - adat a idx)) v.
(** [s * v]: d1/cartesian.py:95-118, 231-260, 322-349; d2/cartesian.py:104-124, 238-261,
    351-374; d3/cartesian.py:392-412 (registered for CartesianPos3D) *)
Definition has_mul (k : ckind) (n : nat) : bool :=
  match k, n with KPos, _ => true | _, 3%nat => false | _, _ => true end.
Definition cart_scale (k : ckind) (n : nat) (s : arr ext) (v : bvec ext) : res (bvec ext) :=
  if has_mul k n then
    if any_axis (ash s) then Raise ERuntime else mapR (np_zip nmul s) v
  else Raise ERuntime.

(** [q / s] for a position of any class and an array [s]: base/base_pos.py:200-219; the
    constructor runs its checks ([checks]: one per component, as in Shapes.v) *)
Definition pos_divide (checks : list (ext -> bool)) (v : bvec ext) (s : arr ext) : res (bvec ext) :=
  do l <- mapR (fun a => np_zip ndiv a s) v; construct_b checks l.

(** [v == w] for two vectors of the same class: base/base.py:613-618.  [v], [w]: the
    leaves of the trees in field order (a field of shape () that is not a coordinate, the
    Delta of ProlateSpheroidalPos, is one of them).  [jnp.array] of the list of leaves needs leaves of one
    shape; the reduction runs over the leading axis. *)
Definition stack (l : list (arr bool)) : res (arr (list bool)) :=
  match l with
  | [] => Raise EValue
  | a :: r =>
      if forallb (fun b => shape_eqb (ash b) (ash a)) r
      then ret (mkArr (ash a) (fun idx => map (fun b => adat b idx) l)) else Raise EValue
  end.
Definition vec_equal (v w : bvec ext) : res (arr bool) :=
  do l <- zipR (np_zip neqb) v w;
  do s <- stack l;
  ret (mkArr (ash s) (fun idx => forallb (fun b => b) (adat s idx))).
