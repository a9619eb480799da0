(** * Arithmetic of velocities and accelerations in floating point.

    The functions of TreeArith.v, GOp.v and GVelArith.v (files cited there:
    d1/cartesian.py, d2/cartesian.py, d3/cartesian.py, base/base_vel.py,
    base/base_acc.py, base/base.py), run on the floating-point numbers of Float.v
    (simplifications listed there and in FVel.v). *)
From Coq Require Import Reals Bool List ZArith.
From Verif Require Import Num Vectors Transform Vel UVel Arith TreeArith GOp GVelArith Float FVel.
Import ListNotations.

Section F.
Variables (f : fmt) (L : libm).
Notation FN := (Num_fl f L).
Definition fvel_add := @tvel_add ext FN TreeArith.Static_ext.
Definition fvel_sub := @tvel_sub ext FN TreeArith.Static_ext.
Definition fvel_scale := @gvel_scale ext FN.
Definition fvel_neg := @gvel_neg ext FN.
Definition fvel_eq := @tvel_eq ext FN TreeArith.Static_ext.
Definition fvel_mul_time := @gvel_mul_time ext FN.
Definition fvel_norm deg fuel := @gvel_norm ext FN deg fuel (fjacobian f L deg fuel) (fmatvec f L).
Definition facc_add := @tacc_add ext FN TreeArith.Static_ext.
Definition facc_sub := @tacc_sub ext FN TreeArith.Static_ext.
Definition facc_scale := @gacc_scale ext FN.
Definition facc_neg := @gacc_neg ext FN.
Definition facc_eq := @tacc_eq ext FN TreeArith.Static_ext.
Definition facc_mul_time := @gacc_mul_time ext FN.
Definition facc_mul_time2 := @gacc_mul_time2 ext FN.
Definition facc_norm0 := @gacc_norm0 ext FN.
End F.
