(** * Operators in floating point.

    The operators of GOp.v (files cited there: operators/, galilean/) run on the
    floating-point numbers of Float.v (simplifications listed there). *)
From Coq Require Import Reals Bool List ZArith.
From Verif Require Import Num Vectors Transform Arith TreeArith Vel FourVec Operators GOp Float.

Section FOp.
Variable f : fmt.
Variable L : libm.
(** the default speed of light, d4/spacetime.py:90-92, rounded *)
Definition fcall (m : mode) (deg : bool) (n : nat) (o : op ext) (x : value ext) : res (value ext) :=
  @gcall ext (Num_fl f L) TreeArith.Static_ext m deg n (fop f c_light) o x.
Definition finverse (m : mode) (deg : bool) (n : nat) (o : op ext) : res (op ext) :=
  @ginverse ext (Num_fl f L) m deg n o.
End FOp.
