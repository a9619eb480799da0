(** * The vocabulary of C76: the ICRS <-> Galactocentric operators in floating point.

    [e] bounds the absolute error of the library's sine and cosine, [ea] that of its
    arcsine; [fu f] is the relative rounding error u, [eta f] the smallest positive
    number, [fmax f] the overflow limit. *)
From Coq Require Import Reals List.
From Verif Require Import Num Vectors Transform Frames SpecFrame Float FloatThm FloatConv PropFloat3.
Import ListNotations.
Open Scope R_scope.

(** The library's arcsine, on the numbers of the format. *)
Definition asin_accurate (f : fmt) (s : R -> R) (ea : R) : Prop :=
  forall x, isf f x -> -1 <= x <= 1 -> isf f (s x) /\ Rabs (s x - asin x) <= ea.
(** The relative error of one rotation matrix built from rounded angles. *)
Definition unit_error (f : fmt) (e ea : R) : R := e + ea + 8 * fu f + eta f.
Definition size (l : list R) : R := fold_right Rplus 0 (map Rabs l).
Definition within (d : R) (a b : list R) : Prop := Forall2 (fun x y => Rabs (x - y) <= d) a b.
Definition floats (f : fmt) (l : list R) : Prop := Forall (isf f) l.
(** A frame whose data are numbers of the format: the roll within +-4 rad, the Sun no
    higher than half its distance from the centre. *)
Definition float_frame (f : fmt) (g : gcf R) : Prop :=
  good_frame g /\ floats f [g_lon g; g_lat g; g_roll g; g_zsun g; dval (g_dist g)] /\ floats f (g_vsun g) /\
  Rabs (g_roll g) <= 4 /\ Rabs (g_zsun g) <= dval (g_dist g) / 2.

