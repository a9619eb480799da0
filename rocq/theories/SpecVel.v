(** * Specification: what a velocity object means.

    A velocity with components [u] at position [p] means: the Cartesian velocity
    (time derivative at 0) of the point whose coordinates move linearly,
    [p + t u].  Only the field names of the classes and Spec.v are used. *)
From Coq Require Import Reals List.
From Verif Require Import Num Vectors Spec Vel.
Import ListNotations.
Open Scope R_scope.

(** The position with coordinates moved by [t u] (radial parts by length;
    the focal length is a constant). *)
Definition shift (p : pos R) (u : list R) (t : R) : pos R :=
  let s i := t * nth i u 0 in
  let sd (r : dist R) i := mkDist KDistance (len r + s i) in
  match p with
  | PCart1 x => PCart1 (x + s 0%nat)
  | PRadial r => PRadial (sd r 0%nat)
  | PCart2 x y => PCart2 (x + s 0%nat) (y + s 1%nat)
  | PPolar r a => PPolar (sd r 0%nat) (a + s 1%nat)
  | PTwoSphere a b => PTwoSphere (a + s 0%nat) (b + s 1%nat)
  | PCart3 x y z => PCart3 (x + s 0%nat) (y + s 1%nat) (z + s 2%nat)
  | PCyl a b c => PCyl (a + s 0%nat) (b + s 1%nat) (c + s 2%nat)
  | PSph r a b => PSph (sd r 0%nat) (a + s 1%nat) (b + s 2%nat)
  | PMSph r a b => PMSph (sd r 0%nat) (a + s 1%nat) (b + s 2%nat)
  | PLonLat a b d => PLonLat (a + s 0%nat) (b + s 1%nat) (sd d 2%nat)
  | PProlate a b c D => PProlate (a + s 0%nat) (b + s 1%nat) (c + s 2%nat) D
  end.

(** [w] is the Cartesian velocity of the moving point. *)
Definition moves (p : pos R) (u w : list R) : Prop :=
  exists (c : nat -> R -> R) (eps : R), 0 < eps /\
    (forall t, Rabs t < eps -> denotes (shift p u t) (map (fun i => c i t) (seq 0 (length w)))) /\
    (forall i, (i < length w)%nat -> derivable_pt_lim (c i) 0 (nth i w 0)).

(** The velocity object [v] at the position [p] (in the class of positions that
    goes with [v]) means the Cartesian velocity [w].  In LonCosLatSphericalVel
    the first component is cos(lat) times the rate of the longitude. *)
Definition vel_means (p : pos R) (v : vel R) (w : list R) : Prop :=
  cls_of p = integral_cls (vc v) /\ length (vcomps v) = vdim (vc v) /\
  match vc v, p, vcomps v with
  | WLonCosLat, PLonLat _ lat _, [a; b; c] =>
      exists dlon, a = dlon * cos lat /\ moves p [dlon; b; c] w
  | WLonCosLat, _, _ => False
  | _, _, _ => moves p (vcomps v) w
  end.

(** A velocity with finite components. *)
Definition vfinite (v : vel R) : vel ext := mkVel (vc v) (map (@Some R) (vcomps v)).
Definition afinite (a : acc R) : acc ext := mkAcc (xc a) (map (@Some R) (xcomps a)).

(** Velocity classes of the five 3-D systems without attribute. *)
Definition vplain3 (c : vcls) : Prop := plain3 (integral_cls c).

(** The acceleration components [a] at position [p] with coordinate velocity [u]
    mean: the second time derivative at 0 of the Cartesian position of the point
    whose coordinates move as [p + t u + t^2/2 a]. *)
Definition acc_means (p : pos R) (u a w : list R) : Prop :=
  exists (c c' : nat -> R -> R) (eps : R), 0 < eps /\
    (forall t, Rabs t < eps ->
       denotes (shift p (vadd u (vscale (t / 2) a)) t) (map (fun i => c i t) (seq 0 (length w)))) /\
    (forall i, (i < length w)%nat ->
       (forall t, Rabs t < eps -> derivable_pt_lim (c i) t (c' i t)) /\
       derivable_pt_lim (c' i) 0 (nth i w 0)).

(** The position of a class with given coordinates (radial coordinates are
    lengths), and the same with its azimuth reduced to [0, 2 pi). *)
Definition with_coords (c : pcls) (x : list R) : option (pos R) :=
  match c, x with
  | CCart1, [a] => Some (PCart1 a)
  | CRadial, [a] => Some (PRadial (mkDist KDistance a))
  | CCart2, [a; b] => Some (PCart2 a b)
  | CPolar, [a; b] => Some (PPolar (mkDist KDistance a) b)
  | CTwoSphere, [a; b] => Some (PTwoSphere a b)
  | CCart3, [a; b; c] => Some (PCart3 a b c)
  | CCyl, [a; b; c] => Some (PCyl a b c)
  | CSph, [a; b; c] => Some (PSph (mkDist KDistance a) b c)
  | CMSph, [a; b; c] => Some (PMSph (mkDist KDistance a) b c)
  | CLonLat, [a; b; c] => Some (PLonLat a b (mkDist KDistance c))
  | _, _ => None
  end.
Definition wrap_azimuth (p : pos R) : pos R :=
  match p with
  | PPolar r a => PPolar r (Rwrap a)
  | PTwoSphere a b => PTwoSphere a (Rwrap b)
  | PCyl a b c => PCyl a (Rwrap b) c
  | PSph r a b => PSph r a (Rwrap b)
  | PMSph r a b => PMSph r (Rwrap a) b
  | PLonLat a b d => PLonLat (Rwrap a) b d
  | p => p
  end.
