(** * Arithmetic of velocities and accelerations, for every number type.

    VelArith.v has these operations on SI values.  Here they act on any numbers, so
    also on numbers that carry units: sums, differences and comparisons go through
    [jax.tree.map], which raises ValueError for unequal units (TreeArith.v).

    Files modelled: d1/cartesian.py:187-374, d2/cartesian.py:218-374,
    d3/cartesian.py:228-418, base/base_vel.py:107-162, base/base_acc.py:90-219,
    base/base.py:440-501, 545-618.  Simplification: one array element. *)
From Coq Require Import Reals Bool List ZArith.
From Verif Require Import Num Vectors Transform Vel Units UQ UVel Arith TreeArith VelArith GOp.
Import ListNotations.

Section G.
Context {A : Type} {NA : Num A} {SA : Static A}.
Local Open Scope num_scope.
(** [jax.tree.map(f, v, w)] on the components *)
Definition tzip (f : A -> A -> A) (a b : list A) : res (list A) :=
  if forallb (fun '(x, y) => same_unit x y) (combine a b) then ret (map (fun '(x, y) => f x y) (combine a b)) else Raise EValue.
(** [v - w]: d3/cartesian.py:292-305 *)
Definition tvel_sub (v w : vel A) : res (vel A) :=
  match vc v, vc w with
  | WCart3, WCart3 => do c <- tzip nsub (vcomps v) (vcomps w); ret (mkVel WCart3 c)
  | _, _ => Raise ERuntime
  end.
(** [k * v]: d1/cartesian.py:231-260, d2/cartesian.py:238-261.  [s]: shape of [k]. *)
Definition gvel_scale (s : list nat) (k : A) (v : vel A) : res (vel A) :=
  match vc v with
  | WCart1 | WCart2 => if any_axis s then Raise ERuntime else ret (mkVel (vc v) (map (fun x => k * x) (vcomps v)))
  | _ => Raise ERuntime
  end.
(** [a + b]: d1/cartesian.py:297-319, d2/cartesian.py:331-348, d3/cartesian.py:386-389 *)
Definition tacc_add (a b : acc A) : res (acc A) :=
  match xc a, xc b with
  | XCart1, XCart1 | XCart2, XCart2 | XCart3, XCart3 => do c <- tzip nadd (xcomps a) (xcomps b); ret (mkAcc (xc a) c)
  | _, _ => Raise ERuntime
  end.
(** [a - b]: d1/cartesian.py:352-374, d3/cartesian.py:415-418 *)
Definition tacc_sub (a b : acc A) : res (acc A) :=
  match xc a, xc b with
  | XCart1, XCart1 | XCart3, XCart3 => do c <- tzip nsub (xcomps a) (xcomps b); ret (mkAcc (xc a) c)
  | _, _ => Raise ERuntime
  end.
(** [k * a]: d1/cartesian.py:322-349, d2/cartesian.py:351-374 *)
Definition gacc_scale (s : list nat) (k : A) (a : acc A) : res (acc A) :=
  match xc a with
  | XCart1 | XCart2 => if any_axis s then Raise ERuntime else ret (mkAcc (xc a) (map (fun x => k * x) (xcomps a)))
  | _ => Raise ERuntime
  end.
(** [-a]: base/base_acc.py:90-110 *)
Definition gacc_neg (a : acc A) : acc A := mkAcc (xc a) (map nneg (xcomps a)).
(** [v == w]: base/base.py:613-618 *)
Fixpoint gall_eqb (a b : list A) : bool :=
  match a, b with
  | [], [] => true
  | x :: a, y :: b => (x =? y) && gall_eqb a b
  | _, _ => false
  end.
Definition tvel_eq (v w : vel A) : res bool :=
  if vcls_eqb (vc v) (vc w)
  then if forallb (fun '(x, y) => same_unit x y) (combine (vcomps v) (vcomps w)) then ret (gall_eqb (vcomps v) (vcomps w)) else Raise EValue
  else ret false.
Definition tacc_eq (a b : acc A) : res bool :=
  if xcls_eqb (xc a) (xc b)
  then if forallb (fun '(x, y) => same_unit x y) (combine (xcomps a) (xcomps b)) then ret (gall_eqb (xcomps a) (xcomps b)) else Raise EValue
  else ret false.
(** [a * t]: base/base_acc.py:126-150; [a * t2]: 174-198 *)
Definition gacc_mul_time (a : acc A) (t : A) : vel A := mkVel (acc_integral_cls (xc a)) (map (fun x => x * t) (xcomps a)).
Definition gacc_mul_time2 (m : mode) (a : acc A) (t2 : A) : res (pos A) :=
  gpos_from_components m (integral_cls (acc_integral_cls (xc a))) (map (fun x => x * t2) (xcomps a)).
(** The Cartesian norms: d1/cartesian.py:187-199, 281-294, d2/cartesian.py:288-301,
    d3/cartesian.py:228-240, 339-352 *)
Definition gcart_norm (x : list A) : res A :=
  match x with
  | [a] => ret (nabs a)
  | [a; b] => ret (nsqrt (a * a + b * b))
  | [a; b; c] => ret (nsqrt (a * a + b * b + c * c))
  | _ => Raise EType
  end.
(** [v.norm(q)] (jitted): base/base_vel.py:132-135; [vel_norm] in Vel.v.
    CartesianVel2D inherits [norm(position)], which is called without a position. *)
Variable (deg : bool) (fuel : nat).
Variable jac : kwargs A -> pos A -> pcls -> res (list (list A)).
Variable mv : nat -> list (list A) -> list A -> list A.
Definition gvel_norm (v : vel A) (position : pos A) : res A :=
  do c <- pvel_represent_as Traced deg fuel jac mv nokw v (vcart_cls (vc v)) position;
  match vcart_cls (vc v) with WCart2 => Raise EType | _ => gcart_norm (vcomps c) end.
(** [a.norm(v, q)]: base/base_acc.py:115-120.  The Cartesian classes take one argument at most. *)
Definition gacc_norm (a : acc A) (velocity : vel A) (position : pos A) : res A :=
  match xc a with
  | XCart1 | XCart2 | XCart3 => Raise EType
  | _ => do c <- pacc_represent_as Traced deg fuel jac mv nokw a (xcart_cls (xc a)) velocity position; gcart_norm (xcomps c)
  end.
(** [a.norm()] *)
Definition gacc_norm0 (a : acc A) : res A :=
  match xc a with XCart1 | XCart2 | XCart3 => gcart_norm (xcomps a) | _ => Raise EType end.
End G.

(** ** Products with quantities: the rule is chosen by the dimension
    (base/base_vel.py:141, base/base_acc.py:126, 153, 174, 201: [Quantity["time"]],
    [Quantity["s2"]]).  Any other dimension has no rule. *)
Definition time_dim : dim := mkDim 0 0 1 0 0.
Definition time2_dim : dim := mkDim 0 0 2 0 0.
Definition has_dim (d : dim) (q : uq ext) : bool := match uqd q with Some d' => dim_eqb d d' | None => false end.
Definition vel_times (m : mode) (v : vel (uq ext)) (q : uq ext) : res (pos (uq ext)) :=
  if has_dim time_dim q then gvel_mul_time m v q else Raise ERuntime.
(** a velocity or a position *)
Inductive moved := MVel (v : vel (uq ext)) | MPos (p : pos (uq ext)).
Definition acc_times (m : mode) (a : acc (uq ext)) (q : uq ext) : res moved :=
  if has_dim time_dim q then ret (MVel (gacc_mul_time a q))
  else if has_dim time2_dim q then do p <- gacc_mul_time2 m a q; ret (MPos p)
  else Raise ERuntime.
(** [t * a] and [t2 * a] swap the operands: base/base_acc.py:153-171, 201-219 *)
Definition times_acc (m : mode) (q : uq ext) (a : acc (uq ext)) : res moved := acc_times m a q.
(** [t * v]: no rule *)
Definition times_vel (m : mode) (q : uq ext) (v : vel (uq ext)) : res (pos (uq ext)) := Raise ERuntime.
