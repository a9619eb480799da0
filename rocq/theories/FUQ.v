(** * Floating-point numbers carrying units.

    coordinax stores a [unxt.Quantity]: an array of IEEE numbers with a static unit.
    UQ.v models the unit rules over any number type; here the numbers stored are those
    of a binary floating-point format (Float.v), so that unit conversion itself rounds:
    unxt multiplies the stored number by a conversion factor (unxt
    _src/quantity/register_primitives.py, [ustrip]/[uconvert]; library), which astropy
    computes as a Python float.
    Simplifications: those of Float.v and UQ.v; the factor from a unit to another is
    some approximation [fac a] of the exact ratio [a] (theorems state what they assume
    of it), and depends on the ratio only. *)
From Coq Require Import Reals Bool List ZArith.
From Verif Require Import Num Vectors Transform Units UQ Float.
Import ListNotations.
Open Scope R_scope.

(** unit conversion of a stored number: one rounded multiplication *)
Definition Scal_fl (f : fmt) (fac : R -> R) : Scal ext :=
  {| scl := fun a x => match x with Some v => fop f (fac a * v) | None => None end |}.
(** numbers of the format with units *)
Definition Num_fuq (f : fmt) (L : libm) (fac : R -> R) : Num (uq ext) :=
  @Num_uq ext (Num_fl f L) (Scal_fl f fac).
(** [represent_as] on quantities: register_vector functions, the same code *)
Definition qrepresent_as (f : fmt) (L : libm) (fac : R -> R) (m : mode) (deg : bool) (fuel : nat)
    (kw : kwargs (uq ext)) (p : pos (uq ext)) (t : pcls) : res (pos (uq ext)) :=
  @represent_as (uq ext) (Num_fuq f L fac) m deg fuel kw p t.
(** conversion of a number from a unit to another, [c] times smaller *)
Definition convert (f : fmt) (fac : R -> R) (c v : R) : ext := @scl ext (Scal_fl f fac) c (Some v).
