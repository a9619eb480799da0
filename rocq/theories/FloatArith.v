(** * The arithmetic of positions in floating point.

    The functions of Arith.v (files cited there: base/base_pos.py:96-460,
    d1/cartesian.py, d2/cartesian.py, d3/cartesian.py) are polymorphic in the number
    type; here they run on the floating-point numbers of Float.v (simplifications
    listed there: one "not finite" value, no signed zeros, no unit factors). *)
From Coq Require Import Reals Bool List ZArith.
From Verif Require Import Num Vectors Transform Arith Float.

Section FArith.
Variable f : fmt.
Variable L : libm.
Definition fpos_add := @pos_add ext (Num_fl f L).
Definition fpos_sub := @pos_sub ext (Num_fl f L).
Definition fpos_neg := @pos_neg ext (Num_fl f L).
Definition fpos_mul := @pos_mul ext (Num_fl f L).
Definition fpos_div := @pos_div ext (Num_fl f L).
Definition fpos_norm := @pos_norm ext (Num_fl f L).
Definition fpos_eq := @pos_eq ext (Num_fl f L).
End FArith.
