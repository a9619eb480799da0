(** * Operators on velocities in floating point.

    The functions of GOpVel.v (files cited there: operators/galilean/
    spatial_translation.py:316-360, operators/boost.py, operators/identity.py,
    operators/pipe.py) run on the floating-point numbers of Float.v (simplifications
    listed there).  The Jacobian of a translation (spatial_translation.py:352) is
    obtained by running the same addition on the rounded (value, tangent) pairs of
    FVel.v. *)
From Coq Require Import Reals Bool List ZArith.
From Verif Require Import Num Vectors Transform Arith TreeArith Vel UVel FourVec Operators GOp GOpVel Float FVel.
Import ListNotations.

Section F.
Variables (f : fmt) (L : libm).
(** spatial_translation.py:352: column [i] of the Jacobian of
    [lambda q: convert((CartesianPosition(q) + self.translation), Quantity)] at the
    Cartesian array [x]; the translation is a constant. *)
Definition ftrans_column (m : mode) (deg : bool) (n : nat) (tr : pos ext) (x : list ext) (i : nat) : res (list ext) :=
  do b <- @represent_as ext (Num_fl f L) m deg n nokw tr (cart_cls (cls_of tr));
  do y <- @pos_add dual (Num_fdual f L) Traced deg n (seed_cart x i) (pos_map dconst b);
  ret (map dd (components y)).
Definition ftrans_jac (m : mode) (deg : bool) (n : nat) (tr : pos ext) (x : list ext) : res (list (list ext)) :=
  mapM (ftrans_column m deg n tr x) (seq 0 (length x)).
Definition fcallv (m : mode) (deg : bool) (n : nat) (o : op ext) (x : value ext) : res (value ext) :=
  @gcallv ext (Num_fl f L) TreeArith.Static_ext m deg n (fjacobian f L deg n) (fmatvec f L) (ftrans_jac m deg n) (fun x => x) o x.
(** the Cartesian components of a position: compat.py:31-70 *)
Definition fcart_components := @cart_components ext (Num_fl f L).
End F.
