(** * Specification of the Galactocentric frame: points of space, in metres, by
    Cartesian coordinates. *)
From Coq Require Import Reals List.
From Verif Require Import Num Vectors Spec Vel SpecVel Frames.
Import ListNotations.
Open Scope R_scope.

(** ** Lifting finite data into the model *)
Definition gfinite (g : gcf R) : gcf ext :=
  mkGCF (Some (g_lon g)) (Some (g_lat g)) (dist_map (@Some R) (g_dist g)) (Some (g_roll g)) (Some (g_zsun g)) (@map R ext (@Some R) (g_vsun g)).
(** Frames that make sense: a positive distance given as a length, the Sun not
    higher above the plane than its distance from the centre. *)
Definition good_frame (g : gcf R) : Prop :=
  dk (g_dist g) = KDistance /\ 0 < dval (g_dist g) /\ Rabs (g_zsun g) <= dval (g_dist g) /\ length (g_vsun g) = 3%nat.

(** The Galactic centre seen from the Sun (the ICRS origin). *)
Definition galactic_centre (g : gcf R) : list R :=
  let d := dval (g_dist g) in
  [d * cos (g_lat g) * cos (g_lon g); d * cos (g_lat g) * sin (g_lon g); d * sin (g_lat g)].
(** The Sun in the Galactocentric frame: on the negative-x side of the plane y = 0
    at height [z_sun], at the right distance. *)
Definition sun_place (g : gcf R) : list R :=
  let d := dval (g_dist g) in [- sqrt (d * d - g_zsun g * g_zsun g); 0; g_zsun g].
(** Scalar triple product (signed volume). *)
Definition det3 (a b c : list R) : R :=
  match a, b, c with
  | [a1; a2; a3], [b1; b2; b3], [c1; c2; c3] =>
      a1 * (b2 * c3 - b3 * c2) - a2 * (b1 * c3 - b3 * c1) + a3 * (b1 * c2 - b2 * c1)
  | _, _, _ => 0
  end.
(** [f'(t) = v], componentwise. *)
Definition moves (f : R -> list R) (t : R) (v : list R) : Prop :=
  forall i, (i < 3)%nat -> derivable_pt_lim (fun s => nth i (f s) 0) t (nth i v 0).
