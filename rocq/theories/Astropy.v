(** * Astropy interoperability: converting 3-D positions and velocities to astropy
      representation objects and back.

    Files modelled (under /repo/src/coordinax/_interop/coordinax_interop_astropy):
    constructors.py and converters.py.  Astropy itself is a library: its
    constructors are modelled by what they do to the numbers (below), its own
    [represent_as] is an argument of the model ([apy]).  Quantities are physical
    values; radial parts are lengths (a parallax or modulus has no astropy
    representation here: [EUnit]). *)
From Coq Require Import Reals Bool List.
From Verif Require Import Num Vectors Transform Vel.
Import ListNotations.

(** ** Astropy objects *)
Inductive acl := ACart | ACyl | APhys | ASph.
Inductive arep (A : Type) :=
| RCart (x y z : A)            (* CartesianRepresentation(x, y, z) *)
| RCyl (rho phi z : A)         (* CylindricalRepresentation(rho, phi, z) *)
| RPhys (phi theta r : A)      (* PhysicsSphericalRepresentation(phi, theta, r) *)
| RSph (lon lat dist : A).     (* SphericalRepresentation(lon, lat, distance) *)
Arguments RCart {A}. Arguments RCyl {A}. Arguments RPhys {A}. Arguments RSph {A}.
Definition acl_of {A} (r : arep A) : acl :=
  match r with RCart _ _ _ => ACart | RCyl _ _ _ => ACyl | RPhys _ _ _ => APhys | RSph _ _ _ => ASph end.
Definition acl_eqb (a b : acl) : bool :=
  match a, b with ACart, ACart | ACyl, ACyl | APhys, APhys | ASph, ASph => true | _, _ => false end.

(** Differentials, named as the coordinax classes with the same fields, components
    in coordinax field order: CartesianDifferential (d_x, d_y, d_z),
    CylindricalDifferential (d_rho, d_phi, d_z), PhysicsSphericalDifferential
    (d_phi, d_theta, d_r), SphericalDifferential (d_lon, d_lat, d_distance),
    SphericalCosLatDifferential (d_lon_coslat, d_lat, d_distance). *)
Inductive adif (A : Type) :=
| DCart (d_x d_y d_z : A) | DCyl (d_rho d_phi d_z : A) | DPhys (d_phi d_theta d_r : A)
| DSph (d_lon d_lat d_distance : A) | DCosLat (d_lon_coslat d_lat d_distance : A).
Arguments DCart {A}. Arguments DCyl {A}. Arguments DPhys {A}. Arguments DSph {A}. Arguments DCosLat {A}.
Inductive dcl := DcCart | DcCyl | DcPhys | DcSph | DcCosLat.
Definition dcl_of {A} (d : adif A) : dcl :=
  match d with DCart _ _ _ => DcCart | DCyl _ _ _ => DcCyl | DPhys _ _ _ => DcPhys
  | DSph _ _ _ => DcSph | DCosLat _ _ _ => DcCosLat end.
Definition dcl_eqb (a b : dcl) : bool :=
  match a, b with DcCart, DcCart | DcCyl, DcCyl | DcPhys, DcPhys | DcSph, DcSph | DcCosLat, DcCosLat => true | _, _ => false end.

Section Model.
Context {A : Type} `{NA : Num A}.
Local Open Scope num_scope.

(** Library: the astropy constructors.  [phi] of PhysicsSphericalRepresentation and
    the Longitude [lon] are wrapped into [0, 360) degrees; [theta] and the Latitude
    [lat] are range checked; a negative distance is refused by
    SphericalRepresentation; CylindricalRepresentation checks and wraps nothing. *)
Definition apy_cyl (rho phi z : A) : res (arep A) := ret (RCyl rho phi z).
Definition apy_phys (phi theta r : A) : res (arep A) :=
  if (theta <? ncst 0) || (ncst PI <? theta) then Raise EPolarRange else ret (RPhys (nwrap phi) theta r).
Definition apy_sph (lon lat d : A) : res (arep A) :=
  if (lat <? - ncst (PI / 2)) || (ncst (PI / 2) <? lat) then Raise EPolarRange
  else if d <? ncst 0 then Raise ENegative else ret (RSph (nwrap lon) lat d).

(** ** coordinax -> astropy: converters.py:82-105 (cart3_to_apycart3), 133-159
    (cyl_to_apycyl), 188-210 (sph_to_apysph), 240-264 (lonlatsph_to_apysph) *)
Definition to_apy (v : pos A) : res (arep A) :=
  match v with
  | PCart3 x y z => ret (RCart x y z)
  | PCyl rho phi z => apy_cyl rho phi z
  | PSph r theta phi => do l <- as_length r; apy_phys phi theta l
  | PLonLat lon lat d => do l <- as_length d; apy_sph lon lat l
  | _ => Raise EType
  end.
(** The registered conversions (decorators at converters.py:82-83, 133-134, 188-189,
    240-241); [None] is [apyc.BaseRepresentation].  Note line 241:
    LonLatSphericalPos is registered for PhysicsSphericalRepresentation. *)
Definition converters : list (pcls * option acl) :=
  [ (CCart3, None); (CCart3, Some ACart); (CCyl, None); (CCyl, Some ACyl);
    (CSph, None); (CSph, Some APhys); (CLonLat, None); (CLonLat, Some APhys) ].
(** Library (plum [convert(obj, T)]): a conversion method applies if [obj] is an
    instance of its source and [T] a subclass of its target; all methods of one
    source class run the same function.  Without one, [obj] must already be a [T]. *)
Definition applies (c : pcls) (T : option acl) (row : pcls * option acl) : bool :=
  pcls_eqb c (fst row) &&
  match snd row, T with
  | None, _ => true
  | Some t, Some T => acl_eqb t T
  | Some _, None => false
  end.
Definition convert_to_apy (v : pos A) (T : option acl) : res (arep A) :=
  if existsb (applies (cls_of v) T) converters then to_apy v else Raise EType.

(** ** astropy -> coordinax: [T.from_(rep)] *)
Variable apy : arep A -> acl -> arep A.   (* library: rep.represent_as(cls) *)
(** constructors.py:153-171, 174-194, 197-217, 220-240; the field converters turn the
    astropy quantities into plain quantities, so azimuths are wrapped. *)
Definition from_Cart3 (r : arep A) : res (pos A) :=
  match apy r ACart with RCart x y z => mk_Cart3 x y z | _ => Raise EType end.
Definition from_Cyl (r : arep A) : res (pos A) :=
  match apy r ACyl with RCyl rho phi z => mk_Cyl Eager rho (AsQty phi) z | _ => Raise EType end.
Definition from_SphPos (r : arep A) : res (pos A) :=
  match apy r APhys with
  | RPhys phi theta l => mk_Sph Eager (RQty KDistance l) theta (AsQty phi) | _ => Raise EType end.
Definition from_LonLatPos (r : arep A) : res (pos A) :=
  match apy r ASph with
  | RSph lon lat d => mk_LonLat Eager (AsQty lon) lat (RQty KDistance d) | _ => Raise EType end.
(** [cls.from_(rep)]: the four classes above have their own overload for every
    representation; the other 3-D classes fall back to the overloads of
    AbstractPos3D (constructors.py:64-147, precedence -1). *)
Definition from_apy (c : pcls) (r : arep A) : res (pos A) :=
  match c with
  | CCart3 => from_Cart3 r
  | CCyl => from_Cyl r
  | CSph => from_SphPos r
  | CLonLat => from_LonLatPos r
  | CMSph | CProlate =>
      match acl_of r with
      | ACart => from_Cart3 r | ACyl => from_Cyl r | APhys => from_SphPos r | ASph => from_LonLatPos r
      end
  | _ => Raise ENotFound
  end.
(** [convert(rep, cls)]: converters.py:108-126, 162-181, 213-233, 267-289. *)
Definition convert_from_apy (r : arep A) (c : pcls) : res (pos A) :=
  match acl_of r, c with
  | ACart, CCart3 | ACyl, CCyl | APhys, CSph | ASph, CLonLat => from_apy c r
  | _, _ => Raise EType
  end.
End Model.

(** ** Velocities: converters.py:296-316, 346-373, 405-431, 463-491, 525-553;
    each is registered for its own differential and for BaseDifferential. *)
Definition vel_to_apy {A} (v : vel A) : res (adif A) :=
  match vc v, vcomps v with
  | WCart3, [a; b; c] => ret (DCart a b c)
  | WCyl, [a; b; c] => ret (DCyl a b c)
  | WSph, [d_r; d_theta; d_phi] => ret (DPhys d_phi d_theta d_r)
  | WLonLat, [a; b; c] => ret (DSph a b c)
  | WLonCosLat, [a; b; c] => ret (DCosLat a b c)
  | _, _ => Raise EType
  end.
(** constructors.py:366-384, 387-406, 409-428, 431-451, 454-482 *)
Definition vel_of_apy {A} (d : adif A) : vel A :=
  match d with
  | DCart a b c => mkVel WCart3 [a; b; c]
  | DCyl a b c => mkVel WCyl [a; b; c]
  | DPhys d_phi d_theta d_r => mkVel WSph [d_r; d_theta; d_phi]
  | DSph a b c => mkVel WLonLat [a; b; c]
  | DCosLat a b c => mkVel WLonCosLat [a; b; c]
  end.
(** [cls.from_(differential)]: the class's own overload or that of AbstractVel3D
    (constructors.py:246-360); both build the class of the differential. *)
Definition vel_from_apy {A} (c : vcls) (d : adif A) : res (vel A) :=
  match c with
  | WCart3 | WCyl | WSph | WMSph | WLonLat | WLonCosLat | WProlate => ret (vel_of_apy d)
  | _ => Raise ENotFound
  end.
