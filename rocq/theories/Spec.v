(** * Specification: what a position object means, in textbook terms.

    Nothing here mentions the code of coordinax except the names of the
    classes' fields (the data type [pos]). *)
From Coq Require Import Reals List.
From Verif Require Import Num Vectors.
Import ListNotations.
Open Scope R_scope.

(** Length encoded by a distance, a parallax (p = angle subtended by 1 AU) or a
    distance modulus (m = 5 log10 (d / 10 pc)). *)
Definition len (d : dist R) : R :=
  match dk d with
  | KDistance => dval d
  | KParallax => AU / tan (dval d)
  | KDistMod => 10 * PC * Rpower 10 (dval d / 5)
  end.

(** Cylindrical radius R >= 0 and height z of the point with prolate spheroidal
    coordinates (mu, nu) and foci at z = +-Delta: the point lies on the
    spheroid tau = mu and on the hyperboloid tau = |nu| of the confocal family
      R^2 / (tau - Delta^2) + z^2 / tau = 1,
    on the side of the equatorial plane given by the sign of nu. *)
Definition on_confocal (Delta tau R z : R) : Prop :=
  R * R * tau + z * z * (tau - Delta * Delta) = tau * (tau - Delta * Delta).
Definition prolate_point (mu nu Delta R z : R) : Prop :=
  0 <= R /\ on_confocal Delta mu R z /\ on_confocal Delta (Rabs nu) R z /\
  R * R + z * z = mu + Rabs nu - Delta * Delta /\ Rsign z = Rsign nu.

(** Cartesian coordinates of the point denoted by a position object. *)
Definition denotes (p : pos R) (pt : list R) : Prop :=
  match p with
  | PCart1 x => pt = [x]
  | PRadial r => pt = [len r]
  | PCart2 x y => pt = [x; y]
  | PPolar r phi => pt = [len r * cos phi; len r * sin phi]
  | PTwoSphere theta phi => pt = [sin theta * cos phi; sin theta * sin phi; cos theta]
  | PCart3 x y z => pt = [x; y; z]
  | PCyl rho phi z => pt = [rho * cos phi; rho * sin phi; z]
  | PSph r theta phi =>
      pt = [len r * sin theta * cos phi; len r * sin theta * sin phi; len r * cos theta]
  | PMSph r theta phi =>   (* theta azimuth, phi polar *)
      pt = [len r * sin phi * cos theta; len r * sin phi * sin theta; len r * cos phi]
  | PLonLat lon lat d =>
      pt = [len d * cos lat * cos lon; len d * cos lat * sin lon; len d * sin lat]
  | PProlate mu nu phi Delta =>
      exists R z, prolate_point mu nu Delta R z /\ pt = [R * cos phi; R * sin phi; z]
  end.

(** The ranges the class documentation promises (azimuths are unconstrained). *)
Definition valid_dist (d : dist R) : Prop :=
  match dk d with
  | KDistance => 0 <= dval d
  | KParallax => 0 < dval d < PI / 2
  | KDistMod => True
  end.
Definition valid (p : pos R) : Prop :=
  match p with
  | PCart1 _ | PCart2 _ _ | PCart3 _ _ _ => True
  | PRadial r => valid_dist r
  | PPolar r _ => valid_dist r
  | PTwoSphere theta _ => 0 <= theta <= PI
  | PCyl rho _ _ => 0 <= rho
  | PSph r theta _ => valid_dist r /\ 0 <= theta <= PI
  | PMSph r _ phi => valid_dist r /\ 0 <= phi <= PI
  | PLonLat _ lat d => valid_dist d /\ - (PI / 2) <= lat <= PI / 2
  | PProlate mu nu _ Delta => 0 < Delta /\ Delta * Delta <= mu /\ Rabs nu <= Delta * Delta
  end.

(** Azimuth of a position, where it has one. *)
Definition azimuth (p : pos R) : option R :=
  match p with
  | PPolar _ phi | PTwoSphere _ phi | PCyl _ phi _ | PSph _ _ phi | PProlate _ _ phi _ => Some phi
  | PMSph _ theta _ => Some theta
  | PLonLat lon _ _ => Some lon
  | _ => None
  end.
Definition azimuth_in_range (p : pos R) : Prop :=
  match azimuth p with Some a => 0 <= a < 2 * PI | None => True end.

(** The position at which every component is a finite number. *)
Definition finite (p : pos R) : pos ext := @pos_map R ext (@Some R) p.

(** Class invariant on possibly non-finite components: every component that is
    a number respects its range. *)
Definition num_or_nan (P : R -> Prop) (x : ext) : Prop := match x with Some a => P a | None => True end.
Definition in_range (p : pos ext) : Prop :=
  match p with
  | PCart1 _ | PCart2 _ _ | PCart3 _ _ _ => True
  | PRadial r | PPolar r _ => num_or_nan (fun v => 0 <= v) (dval r)
  | PTwoSphere theta _ => num_or_nan (fun a => 0 <= a <= PI) theta
  | PCyl rho _ _ => num_or_nan (fun v => 0 <= v) rho
  | PSph r theta _ => num_or_nan (fun v => 0 <= v) (dval r) /\ num_or_nan (fun a => 0 <= a <= PI) theta
  | PMSph r _ phi => num_or_nan (fun v => 0 <= v) (dval r) /\ num_or_nan (fun a => 0 <= a <= PI) phi
  | PLonLat _ lat d =>
      num_or_nan (fun v => 0 <= v) (dval d) /\ num_or_nan (fun a => - (PI/2) <= a <= PI/2) lat
  | PProlate mu nu _ Delta =>
      num_or_nan (fun D => 0 < D /\ num_or_nan (fun a => D * D <= a) mu /\
                           num_or_nan (fun b => Rabs b <= D * D) nu) Delta
  end.

(** Euclidean length *)
Definition norm_of (pt : list R) : R := sqrt (fold_right (fun x s => x * x + s) 0 pt).

(** Pointwise vector operations *)
Definition vadd (a b : list R) : list R := map (fun '(x, y) => x + y) (combine a b).
Definition vsub (a b : list R) : list R := map (fun '(x, y) => x - y) (combine a b).
Definition vscale (k : R) (a : list R) : list R := map (fun x => k * x) a.

(** ** Vocabulary of the property statements *)

(** The 3-D classes without extra attribute. *)
Definition plain3 (c : pcls) : Prop :=
  match c with CCart3 | CCyl | CSph | CMSph | CLonLat => True | _ => False end.

(** The content of the radial field is a negative number (possible only for a
    distance modulus of an object nearer than 10 pc). *)
Definition negative_field (p : pos R) : Prop :=
  match p with
  | PRadial r | PPolar r _ | PSph r _ _ | PMSph r _ _ | PLonLat _ _ r => dval r < 0
  | _ => False
  end.
(** The radial field, if any, is a [Distance] (not a parallax or modulus). *)
Definition length_radial (p : pos R) : Prop :=
  match p with
  | PRadial r | PPolar r _ | PSph r _ _ | PMSph r _ _ | PLonLat _ _ r => dk r = KDistance
  | _ => True
  end.
Definition at_origin (p : pos R) : Prop := denotes p [0; 0; 0].
Definition has_nan (p : pos ext) : Prop := forall q, p <> finite q.


Definition plain2 (c : pcls) : Prop := match c with CCart2 | CPolar => True | _ => False end.
Definition one_d (c : pcls) : Prop := match c with CCart1 | CRadial => True | _ => False end.


Definition off_axis (p : pos R) : Prop := forall x y z, denotes p [x; y; z] -> x*x + y*y <> 0.


(** ** Specification: the point after filling in missing coordinates. *)
Definition embed_pt (p : pos R) (t : pcls) (y z theta phi : R) : option (list R) :=
  match p, t with
  | PCart1 x, CCart2 => Some [x; y]
  | PCart1 x, CCart3 => Some [x; y; z]
  | PCart1 x, CPolar => Some [x * cos phi; x * sin phi]
  | PCart1 x, CCyl => Some [x * cos phi; x * sin phi; z]
  | PCart1 x, CSph => Some [x * sin theta * cos phi; x * sin theta * sin phi; x * cos theta]
  | PCart1 x, CMSph => Some [x * sin phi * cos theta; x * sin phi * sin theta; x * cos phi]
  | PRadial r, CCart2 => Some [len r; y]
  | PRadial r, CCart3 => Some [len r; y; z]
  | PRadial r, CPolar => Some [len r * cos phi; len r * sin phi]
  | PRadial r, CCyl => Some [len r * cos phi; len r * sin phi; z]
  | PRadial r, CSph => Some [len r * sin theta * cos phi; len r * sin theta * sin phi; len r * cos theta]
  | PRadial r, CMSph => Some [len r * sin phi * cos theta; len r * sin phi * sin theta; len r * cos phi]
  | PCart2 a b, (CCart3 | CCyl | CSph | CMSph) => Some [a; b; z]
  | PPolar r a, (CCart3 | CCyl) => Some [len r * cos a; len r * sin a; z]
  | PPolar r a, CSph => Some [len r * sin theta * cos a; len r * sin theta * sin a; len r * cos theta]
  | PPolar r a, CMSph => Some [len r * sin phi * cos a; len r * sin phi * sin a; len r * cos phi]
  | _, _ => None
  end.

(** Orthogonal projection of the point, by target class. *)
Definition project_pt (t : pcls) (pt : list R) : option (list R) :=
  match t, pt with
  | (CCart2 | CPolar), x :: y :: _ => Some [x; y]
  | CCart1, x :: _ => Some [x]
  | CRadial, _ => Some [norm_of pt]
  | _, _ => None
  end.


(** The sources and targets of dimension-reducing conversions (LonLat has
    none, see [supported]; CylindricalPos -> RadialPos is treated apart). *)
Definition projectable (c t : pcls) : Prop :=
  match c, t with
  | (CCart3 | CSph | CMSph), (CCart1 | CRadial | CCart2 | CPolar) => True
  | CCyl, (CCart1 | CCart2 | CPolar) => True
  | (CCart2 | CPolar), (CCart1 | CRadial) => True
  | CProlate, (CCart1 | CRadial | CCart2 | CPolar) => True
  | _, _ => False
  end.


Definition embeddable (c t : pcls) : Prop :=
  match c, t with
  | CCart1, (CCart2 | CCart3) => True
  | (CCart2 | CPolar), (CCart3 | CCyl) => True
  | _, _ => False
  end.

Definition focus_point (Delta : R) (pt : list R) : Prop := pt = [0; 0; Delta] \/ pt = [0; 0; - Delta].
Definition not_at_focus (Delta : R) (p : pos R) : Prop := forall pt, denotes p pt -> ~ focus_point Delta pt.
Definition focal_length (p : pos R) : option R := match p with PProlate _ _ _ D => Some D | _ => None end.


(** Which ordered pairs of classes [represent_as] supports (list read off the
    overload signatures). *)
Definition supported (c t : pcls) : bool :=
  match c, t with
  | CTwoSphere, _ | _, CTwoSphere => false
  | CCart1, CLonLat | CRadial, CLonLat | CCart2, CLonLat | CPolar, CLonLat => false
  | CCart1, CProlate | CRadial, CProlate | CCart2, CProlate | CPolar, CProlate => false
  | CLonLat, (CCart1 | CRadial | CCart2 | CPolar) => false
  | _, _ => true
  end.
(** The pairs on which the re-dispatching never ends. *)
Definition diverges (c t : pcls) : bool :=
  match c, t with
  | CTwoSphere, (CCart2 | CPolar | CTwoSphere) => true
  | (CCart2 | CPolar), CTwoSphere => true
  | _, _ => false
  end.


(** Which points a class can represent: RadialPos only non-negative coordinates;
    the spherical classes give NaN at the origin; prolate coordinates need a
    focal length that arithmetic does not supply. *)
Definition can_hold (c : pcls) (pt : list R) : Prop :=
  length pt = dim_of c /\
  match c with
  | CRadial => forall x, pt = [x] -> 0 <= x
  | CSph | CMSph | CLonLat => pt <> [0; 0; 0]
  | CTwoSphere | CProlate => False
  | _ => True
  end.
(** The Cartesian position object of a point. *)
Definition cart_pos (pt : list R) : pos R :=
  match pt with
  | [x] => PCart1 x | [x; y] => PCart2 x y | [x; y; z] => PCart3 x y z | _ => PCart1 0
  end.

Definition is_cart (c : pcls) : bool := match c with CCart1 | CCart2 | CCart3 => true | _ => false end.
(** PolarPos and MathSphericalPos: a scalar multiple scales the radial field;
    all other classes are multiplied through Cartesian coordinates. *)
Definition radial_scaled (c : pcls) : bool := match c with CPolar | CMSph => true | _ => false end.
(** Componentwise product and sum of a list. *)
Definition vmul (a b : list R) : list R := map (fun '(x, y) => x * y) (combine a b).
Definition vsum (a : list R) : R := fold_right Rplus 0 a.
