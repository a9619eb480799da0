(** * Binary floating point: a third number instance for the conversion code.

    The conversions of Transform.v and Vectors.v are polymorphic in the number
    type.  Here they are run on IEEE-754 binary numbers (round to nearest,
    ties to even, gradual underflow, overflow to "not finite"), built on the
    rounding operator of the Flocq library.  JAX computes with binary32 by
    default and with binary64 under [jax_enable_x64].

    Simplifications:
    - one value [None] for NaN and both infinities; every operation on it gives
      [None] (IEEE: finite / infinity is 0), comparisons with it are false;
    - no signed zeros;
    - angles are held in radian and lengths in one unit; the conversion factors
      between units are not rounded here (see UQ.v for units);
    - constants of the code (180 deg, 360 deg ...) are the rounded radians;
    - sin, cos, tan, acos, atan2, 10**x are those of some mathematical library
      [libm], about which the theorems assume only what their statements say. *)
From Coq Require Import Reals Bool List ZArith Lra Lia.
From Flocq Require Import Core.
From Verif Require Import Num Vectors Transform.
Open Scope R_scope.

(** ** Formats *)
(** A binary format: precision in bits, exponent of the smallest positive
    number, exponent of the overflow limit. *)
Record fmt := mkFmt { fprec : Z; femin : Z; femax : Z }.
Definition binary32 : fmt := mkFmt 24 (-149) 128.
Definition binary64 : fmt := mkFmt 53 (-1074) 1024.
Definition bfloat16 : fmt := mkFmt 8 (-133) 128.

(** What the theorems need of a format; all three above satisfy it. *)
Definition fmt_ok (f : fmt) : Prop :=
  (8 <= fprec f)%Z /\ (femin f <= - 4 * fprec f)%Z /\ (2 * fprec f <= femax f)%Z.

Definition fexp_of (f : fmt) : Z -> Z := FLT_exp (femin f) (fprec f).
(** round to nearest, ties to even *)
Definition frnd (f : fmt) (x : R) : R := round radix2 (fexp_of f) ZnearestE x.
(** overflow limit and smallest positive normal number *)
Definition fmax (f : fmt) : R := bpow radix2 (femax f).
Definition fmin_normal (f : fmt) : R := bpow radix2 (femin f + fprec f - 1).
(** [x] is a finite number of the format *)
Definition isf (f : fmt) (x : R) : Prop :=
  generic_format radix2 (fexp_of f) x /\ Rabs x < fmax f.
(** half a unit in the last place of 1: the relative rounding error *)
Definition fu (f : fmt) : R := bpow radix2 (- fprec f).

(** Result of an operation: rounded, or not finite. *)
Definition fin (f : fmt) (x : R) : ext := if Rltb (Rabs x) (fmax f) then Some x else None.
Definition fop (f : fmt) (x : R) : ext := fin f (frnd f x).

(** ** The mathematical library *)
Record libm := mkLibm {
  m_sin : R -> R; m_cos : R -> R; m_tan : R -> R; m_acos : R -> R;
  m_atan2 : R -> R -> R; m_exp10 : R -> R }.

(** ** Floored modulo, [jnp.mod(x, M)] for [M > 0]: converters.py:12-28,
    d3/spherical.py:155.  JAX (jax 0.4.35, numpy/ufuncs.py, [remainder]):
    [t = lax.rem(x, M)] (exact, sign of [x]), then [t + M] if [t] is negative. *)
Definition ftrunc_rem (M x : R) : R := x - M * IZR (Ztrunc (x / M)).
Definition fmod (f : fmt) (M x : R) : ext :=
  let t := ftrunc_rem M x in
  if Rltb t 0 then fop f (t + M) else Some t.

(** ** The instance *)
Definition flift1 (g : R -> ext) (x : ext) : ext :=
  match x with Some a => g a | None => None end.
Definition flift2 (g : R -> R -> ext) (x y : ext) : ext :=
  match x, y with Some a, Some b => g a b | _, _ => None end.

Definition Num_fl (f : fmt) (L : libm) : Num ext := {|
  ncst := fun r => fop f r;
  nlen := fun r => fop f r;
  nang := fun r => fop f r;
  nadd := flift2 (fun a b => fop f (a + b));
  nsub := flift2 (fun a b => fop f (a - b));
  nmul := flift2 (fun a b => fop f (a * b));
  ndiv := flift2 (fun a b => if Reqb b 0 then None else fop f (a / b));
  nneg := lift1 Ropp;
  nsqrt := flift1 (fun a => if Rleb 0 a then fop f (sqrt a) else None);
  nsin := lift1 (m_sin L);
  ncos := lift1 (m_cos L);
  ntan := flift1 (fun a => fin f (m_tan L a));
  nacos := flift1 (fun a => if Rleb (-1) a && Rleb a 1 then Some (m_acos L a) else None);
  natan2 := lift2 (m_atan2 L);
  nabs := lift1 Rabs;
  nsign := lift1 Rsign;
  nwrap := flift1 (fmod f (frnd f (2 * PI)));
  nexp10 := flift1 (fun a => fin f (m_exp10 L a));
  nltb := lift2b Rltb;
  nleb := lift2b Rleb;
  neqb := lift2b Reqb
|}.

(** [represent_as] in floating point: the same code, run on this instance. *)
Definition frepresent_as (f : fmt) (L : libm) (m : mode) (deg : bool) (fuel : nat)
    (kw : kwargs ext) (p : pos ext) (t : pcls) : res (pos ext) :=
  @represent_as ext (Num_fl f L) m deg fuel kw p t.

(** The constructors and [from_] overloads in floating point. *)
Definition fbuild (f : fmt) (L : libm) := @build ext (Num_fl f L).
Definition ffrom_Sph (f : fmt) (L : libm) := @from_Sph ext (Num_fl f L).
Definition ffrom_MSph (f : fmt) (L : libm) := @from_MSph ext (Num_fl f L).
Definition ffrom_LonLat (f : fmt) (L : libm) := @from_LonLat ext (Num_fl f L).

(** ** Assumptions on the library, used as hypotheses of theorems.
    Range and format only: results of sin and cos are numbers of the format
    in [-1, 1], those of acos in [0, rounded pi], those of atan2 between plus
    and minus rounded pi; [acos 1 = 0]. *)
Definition libm_ok (f : fmt) (L : libm) : Prop :=
  (forall x, isf f x -> isf f (m_sin L x) /\ -1 <= m_sin L x <= 1) /\
  (forall x, isf f x -> isf f (m_cos L x) /\ -1 <= m_cos L x <= 1) /\
  (forall x, isf f x -> -1 <= x <= 1 -> isf f (m_acos L x) /\ 0 <= m_acos L x <= frnd f PI) /\
  m_acos L 1 = 0 /\
  (forall y x, isf f y -> isf f x ->
     isf f (m_atan2 L y x) /\ - frnd f PI <= m_atan2 L y x <= frnd f PI).

(** Accuracy: absolute error at most [e]. *)
Definition libm_accurate (f : fmt) (L : libm) (e : R) : Prop :=
  (forall x, isf f x -> Rabs (m_sin L x - sin x) <= e) /\
  (forall x, isf f x -> Rabs (m_cos L x - cos x) <= e).

(** The correctly rounded library: a model of the assumptions. *)
Definition cr_libm (f : fmt) : libm := mkLibm
  (fun x => frnd f (sin x)) (fun x => frnd f (cos x)) (fun x => frnd f (tan x))
  (fun x => frnd f (acos x)) (fun y x => frnd f (Ratan2 y x)) (fun x => frnd f (Rpower 10 x)).
