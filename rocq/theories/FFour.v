(** * FourVectors in floating point.

    The functions of GOp.v and GFour.v (d4/spacetime.py:192-243, 311-364) and the exchange
    with arrays (d4/compat.py:15-19, d4/spacetime.py:106-153), run on the floating-point
    numbers of Float.v (simplifications listed there).  Simplification: the complex square
    root of a real number (d4/spacetime.py:228-243) is the rounded real square root, on
    the real or on the imaginary axis. *)
From Coq Require Import Reals Bool List ZArith.
From Verif Require Import Num Vectors Transform Arith TreeArith FourVec GOp GFour Float.
Import ListNotations.

Section F.
Variables (f : fmt) (L : libm) (m : mode) (deg : bool) (n : nat).
Notation FN := (Num_fl f L).
Definition ffv_neg := @gfv_neg ext FN m deg n.
Definition ffv_add := @gfv_add ext FN TreeArith.Static_ext m deg n.
Definition ffv_sub := @gfv_sub ext FN TreeArith.Static_ext m deg n.
Definition ffv_norm2 := @gfv_norm2 ext FN deg n.
Definition fcsqrt (x : ext) : ext * ext :=
  if @nltb ext FN x (@ncst ext FN 0) then (@ncst ext FN 0, @nsqrt ext FN (@nneg ext FN x))
  else (@nsqrt ext FN x, @ncst ext FN 0).
Definition ffv_norm (v : fourvec ext) : res (ext * ext) := do a <- ffv_norm2 v; ret (fcsqrt a).
Definition ffv_to_array (v : fourvec ext) : res (list ext) :=
  do x <- @cart_components ext FN m deg n (fq v); ret (@nmul ext FN (fc v) (ft v) :: x).
Definition ffv_from_array (x : list ext) : res (fourvec ext) :=
  match x with
  | [a; x; y; z] => ret (mkFV (@ndiv ext FN a (@ncst ext FN c_light)) (PCart3 x y z) (@ncst ext FN c_light))
  | [_; _; _] => Raise EValue
  | _ => Raise ENotFound
  end.
End F.
