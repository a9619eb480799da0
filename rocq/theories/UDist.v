(** * Distance, Parallax and DistanceModulus: arrays in any unit.

    Files modelled: /repo/src/coordinax/_src/distances/core.py (all), compat.py (the
    conversions), /repo/src/coordinax/_interop/coordinax_interop_astropy/distance.py.
    Distances.v models the same functions for one element in SI units.

    Library behaviour (unxt, modelled here): [arctan2 a b] converts [b] to the unit of
    [a] and returns radians; [tan] converts its argument to radians; [a / b] divides
    values and units; [log10] converts its argument to a pure number; two units are equal
    when dimension and scale are.
    Simplifications: a unit is a dimension and an SI scale; [dtype] is left out. *)
From Coq Require Import Reals List Bool Arith ZArith.
From Verif Require Import Num Vectors Units UQ Shapes Distances.
Import ListNotations.

(** value and unit *)
Record quant := mkQuant { nval : arr ext; nunit : unit_ }.
(** a distance object: its class and its quantity *)
Record udist := mkUD { ucls : dkind; uq_ : quant }.

Definition emap (f : ext -> ext) (a : arr ext) : arr ext := mkArr (ash a) (fun idx => f (adat a idx)).
(** the values of [q] in a unit of the given scale *)
Definition strip (scale : R) (q : quant) : arr ext := emap (scl (uscale (nunit q) / scale)) (nval q).
Definition AU_unit := mkUnit length_d AU.
Definition pc_unit := mkUnit length_d PC.
Definition rad_unit := mkUnit angle_d 1%R.

Definition dkind_eqb (a b : dkind) : bool :=
  match a, b with KDistance, KDistance | KParallax, KParallax | KDistMod, KDistMod => true | _, _ => false end.

Section UDist.
Variable m : mode.
Local Open Scope num_scope.

(** ** Constructors: core.py:45-49, 142-153, 223-227 *)
Definition new_Distance (q : quant) : res udist :=
  if dim_eqb (udim (nunit q)) length_d then ret (mkUD KDistance q) else Raise EValue.
Definition new_Parallax (check_negative : bool) (q : quant) : res udist :=
  if dim_eqb (udim (nunit q)) angle_d then
    if check_negative && existsb (fun x => x <? ncst 0) (elements (nval q))
       && match m with Eager => true | Traced => false end
    then Raise ENegative else ret (mkUD KParallax q)
  else Raise EValue.
Definition new_DistMod (q : quant) : res udist :=
  if unit_eqb (nunit q) mag_unit then ret (mkUD KDistMod q) else Raise EValue.
Definition new (c : dkind) (q : quant) : res udist :=
  match c with KDistance => new_Distance q | KParallax => new_Parallax true q | KDistMod => new_DistMod q end.

(** 1 AU / tan(x): core.py:171, 293 *)
Definition au_over_tan (q : quant) : quant := mkQuant (emap (fun x => ncst 1 / ntan x) (strip 1 q)) AU_unit.
(** arctan2(1 AU, x): core.py:82, 342 *)
Definition atan_au (q : quant) : quant := mkQuant (emap (fun x => natan2 (ncst 1) x) (strip AU q)) rad_unit.
(** 10 ** (value / 5 + 1) pc: core.py:242, 319 *)
Definition ten_pow (a : arr ext) : quant := mkQuant (emap (fun x => nexp10 (x / ncst 5 + ncst 1)) a) pc_unit.
(** 5 log10(x / 10 pc) mag: core.py:99 *)
Definition five_log (q : quant) : quant :=
  mkQuant (emap (fun x => ncst 5 * elog10 (scl (uscale (nunit q) / PC) (x / ncst 10))) (nval q)) mag_unit.

(** ** [.distance]: core.py:51-63, 155-172, 229-242 *)
Definition u_distance (d : udist) : res udist :=
  match ucls d with
  | KDistance => ret d
  | KParallax => new_Distance (au_over_tan (uq_ d))
  | KDistMod => new_Distance (ten_pow (nval (uq_ d)))
  end.
(** ** [.parallax]: core.py:65-83, 174-186, 244-255 *)
Definition u_parallax (d : udist) : res udist :=
  match ucls d with
  | KParallax => ret d
  | KDistance => new_Parallax true (atan_au (uq_ d))
  | KDistMod => do l <- u_distance d; new_Parallax true (atan_au (uq_ l))
  end.
(** ** [.distance_modulus]: core.py:85-99, 188-199, 257-268 *)
Definition u_distmod (d : udist) : res udist :=
  match ucls d with
  | KDistMod => ret d
  | KDistance => new_DistMod (five_log (uq_ d))
  | KParallax => do l <- u_distance d; new_DistMod (five_log (uq_ l))
  end.

(** ** [cls.from_(x)] for a [Quantity] or distance object [x]: core.py:275-343; the other
    combinations reach unxt's constructor, which keeps the value and the unit. *)
Definition u_from (c : dkind) (q : quant) : res udist :=
  match c with
  | KDistance =>
      if dim_eqb (udim (nunit q)) angle_d then new_Distance (au_over_tan q)
      else if dim_eqb (udim (nunit q)) mag_d then new_Distance (ten_pow (strip 1 q))
      else new_Distance q
  | KParallax =>
      if dim_eqb (udim (nunit q)) length_d then new_Parallax true (atan_au q) else new_Parallax true q
  | KDistMod => new_DistMod q
  end.
(** ** [plum.convert(x, cls)]: compat.py:28-109; of an astropy Quantity:
    interop distance.py:16-71; to [Quantity]: compat.py:22-25 *)
Definition u_convert (c : dkind) (d : udist) : res udist := if dkind_eqb (ucls d) c then ret d else new c (uq_ d).
Definition u_convert_quantity (c : dkind) (q : quant) : res udist := new c q.
Definition u_quantity (d : udist) : quant := uq_ d.
End UDist.
