(** * Distance, Parallax and DistanceModulus in floating point.

    Files modelled: /repo/src/coordinax/_src/distances/core.py, compat.py (28-109), on the
    floating-point numbers of Float.v (simplifications listed there).  UDist.v models the
    same functions with exact arithmetic on arrays.

    Library behaviour (unxt): as UDist.v; converting to another unit multiplies by the
    quotient of the scales, which is itself rounded.
    Simplifications: one array element; the rounding of intermediate Python floats to the
    precision of the array is that of the constants. *)
From Coq Require Import Reals Bool List ZArith.
From Verif Require Import Num Vectors Units UQ Float.
Import ListNotations.

(** a distance object: class, stored number, scale of its unit (metres, radians;
    1 for magnitudes) *)
Record fdistance := mkFD { fdcls : dkind; fdval : ext; fdscale : R }.

Section F.
Variables (f : fmt) (L : libm) (m : mode).
(** [jnp.log10] of the library, on positive numbers *)
Variable lg : R -> R.
Notation FN := (Num_fl f L).
Definition flog10 (x : ext) : ext :=
  match x with Some a => if Rltb 0 a then fin f (lg a) else None | None => None end.
(** conversion from a unit of scale [s] to one of scale [t] *)
Definition fconv (s t : R) (x : ext) : ext := @nmul ext FN (Float.fop f (s / t)) x.
Definition fone : ext := @ncst ext FN 1.
(** [1 AU / tan(x)]: core.py:171, 293.  In AU. *)
Definition fau_over_tan (s : R) (x : ext) : ext := @ndiv ext FN fone (@ntan ext FN (fconv s 1 x)).
(** [arctan2(1 AU, x)]: core.py:82, 342.  In radians. *)
Definition fatan_au (s : R) (x : ext) : ext := @natan2 ext FN fone (fconv s AU x).
(** [10 ** (x / 5 + 1)]: core.py:242, 319.  In parsecs. *)
Definition ften_pow (x : ext) : ext := @nexp10 ext FN (@nadd ext FN (@ndiv ext FN x (@ncst ext FN 5)) fone).
(** [5 * log10(x / 10 pc)]: core.py:99 *)
Definition ffive_log (s : R) (x : ext) : ext :=
  @nmul ext FN (@ncst ext FN 5) (flog10 (fconv s PC (@ndiv ext FN x (@ncst ext FN 10)))).
(** The check of Parallax: core.py:148-153 *)
Definition fparallax (x : ext) (s : R) : res fdistance :=
  match m with
  | Eager => if @nltb ext FN x (@ncst ext FN 0) then Raise ENegative else ret (mkFD KParallax x s)
  | Traced => ret (mkFD KParallax x s)
  end.
(** [.distance]: core.py:51-63, 155-172, 229-242 *)
Definition fd_distance (d : fdistance) : fdistance :=
  match fdcls d with
  | KDistance => d
  | KParallax => mkFD KDistance (fau_over_tan (fdscale d) (fdval d)) AU
  | KDistMod => mkFD KDistance (ften_pow (fdval d)) PC
  end.
(** [.parallax]: core.py:65-83, 174-186, 244-255 *)
Definition fd_parallax (d : fdistance) : res fdistance :=
  match fdcls d with
  | KParallax => ret d
  | KDistance => fparallax (fatan_au (fdscale d) (fdval d)) 1
  | KDistMod => let l := fd_distance d in fparallax (fatan_au (fdscale l) (fdval l)) 1
  end.
(** [.distance_modulus]: core.py:85-99, 188-199, 257-268 *)
Definition fd_modulus (d : fdistance) : fdistance :=
  match fdcls d with
  | KDistMod => d
  | KDistance => mkFD KDistMod (ffive_log (fdscale d) (fdval d)) 1
  | KParallax => let l := fd_distance d in mkFD KDistMod (ffive_log (fdscale l) (fdval l)) 1
  end.
(** [Distance.from_(x)], [Parallax.from_(x)] of a distance object: core.py:275-343 *)
Definition fDistance_from (d : fdistance) : fdistance :=
  match fdcls d with
  | KParallax => mkFD KDistance (fau_over_tan (fdscale d) (fdval d)) AU
  | KDistMod => mkFD KDistance (ften_pow (fdval d)) PC
  | KDistance => d
  end.
Definition fParallax_from (d : fdistance) : res fdistance :=
  match fdcls d with
  | KDistance => fparallax (fatan_au (fdscale d) (fdval d)) 1
  | KParallax => fparallax (fdval d) (fdscale d)
  | KDistMod => Raise EValue
  end.
End F.
