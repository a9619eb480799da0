(** * Velocities and accelerations: classes, change of representation by the
      forward-mode Jacobian, norms, products with times.

    Files modelled (under /repo/src/coordinax/_src/vectors):
    transform/velocities.py, transform/accelerations.py, d1/transform.py,
    d2/transform.py, d3/transform.py (velocity overloads), base/base_vel.py,
    base/base_acc.py, and the velocity and acceleration classes of d1/, d2/, d3/.

    Simplification: one array element, consistent SI units (as for positions);
    [reshape] around the Jacobian is therefore the identity. *)
From Coq Require Import Reals Bool List.
From Verif Require Import Num Vectors Transform.
Import ListNotations.

(** ** Classes *)
Inductive vcls := WCart1 | WRadial | WCart2 | WPolar | WTwoSphere | WCart3 | WCyl
                | WSph | WMSph | WLonLat | WLonCosLat | WProlate.
Inductive xcls := XCart1 | XRadial | XCart2 | XPolar | XTwoSphere | XCart3 | XCyl
                | XSph | XMSph | XLonLat | XProlate.   (* accelerations *)

(** A velocity: its class and the components in field order
    (d1/cartesian.py:164-170 [d_x]; d1/radial.py:42-45 [d_r]; d2/cartesian.py:164-175;
    d2/polar.py:99-109 [d_r,d_phi]; d2/spherical.py:92-145 [d_theta,d_phi];
    d3/cartesian.py:197-222; d3/cylindrical.py:84-110 [d_rho,d_phi,d_z];
    d3/spherical.py:167-190 [d_r,d_theta,d_phi]; d3/mathspherical.py:225-250
    [d_r,d_theta,d_phi]; d3/lonlatspherical.py:249-264 [d_lon,d_lat,d_distance],
    279-294 [d_lon_coslat,d_lat,d_distance]; d3/spheroidal.py:129-144
    [d_mu,d_nu,d_phi]).  The constructors check nothing but units. *)
Record vel (A : Type) := mkVel { vc : vcls; vcomps : list A }.
Arguments mkVel {A}. Arguments vc {A}. Arguments vcomps {A}.
Record acc (A : Type) := mkAcc { xc : xcls; xcomps : list A }.
Arguments mkAcc {A}. Arguments xc {A}. Arguments xcomps {A}.

(** [V.integral_cls]: d1/cartesian.py:177, d1/radial.py:50, d2/cartesian.py:180,
    d2/polar.py:114, d2/spherical.py:151, d3/cartesian.py:219, d3/cylindrical.py:103,
    d3/spherical.py:188, d3/mathspherical.py:247, d3/lonlatspherical.py:269, 299,
    d3/spheroidal.py:149. *)
Definition integral_cls (c : vcls) : pcls :=
  match c with
  | WCart1 => CCart1 | WRadial => CRadial | WCart2 => CCart2 | WPolar => CPolar
  | WTwoSphere => CTwoSphere | WCart3 => CCart3 | WCyl => CCyl | WSph => CSph
  | WMSph => CMSph | WLonLat => CLonLat | WLonCosLat => CLonLat | WProlate => CProlate
  end.
(** [P.differential_cls]: d1/cartesian.py:59, d1/radial.py:37, d2/cartesian.py:48,
    d2/polar.py:58, d2/spherical.py:84, d3/cartesian.py:60, d3/cylindrical.py:60,
    d3/spherical.py:76, d3/mathspherical.py:81, d3/lonlatspherical.py:126,
    d3/spheroidal.py:124. *)
Definition differential_cls (c : pcls) : vcls :=
  match c with
  | CCart1 => WCart1 | CRadial => WRadial | CCart2 => WCart2 | CPolar => WPolar
  | CTwoSphere => WTwoSphere | CCart3 => WCart3 | CCyl => WCyl | CSph => WSph
  | CMSph => WMSph | CLonLat => WLonLat | CProlate => WProlate
  end.
(** [V.differential_cls]: d1/cartesian.py:183, d1/radial.py:55, d2/cartesian.py:185,
    d2/polar.py:119, d2/spherical.py:157, d3/cartesian.py:225, d3/cylindrical.py:108,
    d3/spherical.py:193, d3/mathspherical.py:253, d3/lonlatspherical.py:274, 304,
    d3/spheroidal.py:154. *)
Definition vel_differential_cls (c : vcls) : xcls :=
  match c with
  | WCart1 => XCart1 | WRadial => XRadial | WCart2 => XCart2 | WPolar => XPolar
  | WTwoSphere => XTwoSphere | WCart3 => XCart3 | WCyl => XCyl | WSph => XSph
  | WMSph => XMSph | WLonLat => XLonLat | WLonCosLat => XLonLat | WProlate => XProlate
  end.
(** [Acc.integral_cls]: d1/cartesian.py:275, d1/radial.py:73, d2/cartesian.py:283,
    d2/polar.py:139, d2/spherical.py:218, d3/cartesian.py:333, d3/cylindrical.py:133,
    d3/spherical.py:221, d3/mathspherical.py:282, d3/lonlatspherical.py:332,
    d3/spheroidal.py:179. *)
Definition acc_integral_cls (c : xcls) : vcls :=
  match c with
  | XCart1 => WCart1 | XRadial => WRadial | XCart2 => WCart2 | XPolar => WPolar
  | XTwoSphere => WTwoSphere | XCart3 => WCart3 | XCyl => WCyl | XSph => WSph
  | XMSph => WMSph | XLonLat => WLonLat | XProlate => WProlate
  end.
Definition vdim (c : vcls) : nat := dim_of (integral_cls c).
Definition vcls_eqb (a b : vcls) : bool :=
  match a, b with
  | WCart1, WCart1 | WRadial, WRadial | WCart2, WCart2 | WPolar, WPolar | WTwoSphere, WTwoSphere
  | WCart3, WCart3 | WCyl, WCyl | WSph, WSph | WMSph, WMSph | WLonLat, WLonLat
  | WLonCosLat, WLonCosLat | WProlate, WProlate => true
  | _, _ => false
  end.
Definition xcls_eqb (a b : xcls) : bool := vcls_eqb (acc_integral_cls a) (acc_integral_cls b).
(** [V._cartesian_cls]: d1/base.py, d2/base.py, d3/base.py. *)
Definition vcart_cls (c : vcls) : vcls :=
  match vdim c with 1%nat => WCart1 | 2%nat => WCart2 | _ => WCart3 end.
Definition xcart_cls (c : xcls) : xcls :=
  match vdim (acc_integral_cls c) with 1%nat => XCart1 | 2%nat => XCart2 | _ => XCart3 end.

(** ** Components of a position in field order, without attributes
    ([field_items(AttrFilter, v)]: Delta is a [VectorAttribute]). *)
Definition components {A} (p : pos A) : list A :=
  match p with
  | PCart1 x => [x] | PRadial r => [dval r] | PCart2 x y => [x; y]
  | PPolar r phi => [dval r; phi] | PTwoSphere a b => [a; b]
  | PCart3 x y z => [x; y; z] | PCyl a b c => [a; b; c]
  | PSph r a b => [dval r; a; b] | PMSph r a b => [dval r; a; b]
  | PLonLat a b d => [a; b; dval d]
  | PProlate mu nu phi _ => [mu; nu; phi]
  end.

(** A position with a tangent attached to each component (JAX: the input of the
    JVP); attributes get tangent 0. *)
Definition dconst (x : ext) : dual := mkDual x (Some 0%R).
Definition seed (p : pos ext) (ts : list ext) : pos dual :=
  let u i := nth i ts (Some 0%R) in
  match p with
  | PCart1 x => PCart1 (mkDual x (u 0%nat))
  | PRadial r => PRadial (mkDist (dk r) (mkDual (dval r) (u 0%nat)))
  | PCart2 x y => PCart2 (mkDual x (u 0%nat)) (mkDual y (u 1%nat))
  | PPolar r a => PPolar (mkDist (dk r) (mkDual (dval r) (u 0%nat))) (mkDual a (u 1%nat))
  | PTwoSphere a b => PTwoSphere (mkDual a (u 0%nat)) (mkDual b (u 1%nat))
  | PCart3 x y z => PCart3 (mkDual x (u 0%nat)) (mkDual y (u 1%nat)) (mkDual z (u 2%nat))
  | PCyl x y z => PCyl (mkDual x (u 0%nat)) (mkDual y (u 1%nat)) (mkDual z (u 2%nat))
  | PSph r a b => PSph (mkDist (dk r) (mkDual (dval r) (u 0%nat))) (mkDual a (u 1%nat)) (mkDual b (u 2%nat))
  | PMSph r a b => PMSph (mkDist (dk r) (mkDual (dval r) (u 0%nat))) (mkDual a (u 1%nat)) (mkDual b (u 2%nat))
  | PLonLat a b d => PLonLat (mkDual a (u 0%nat)) (mkDual b (u 1%nat)) (mkDist (dk d) (mkDual (dval d) (u 2%nat)))
  | PProlate a b c D => PProlate (mkDual a (u 0%nat)) (mkDual b (u 1%nat)) (mkDual c (u 2%nat)) (dconst D)
  end.
Definition basis (n i : nat) : list ext :=
  map (fun j => Some (if Nat.eqb i j then 1%R else 0%R)) (seq 0%nat n).

Definition omap {T U} (f : T -> U) (o : option T) : option U :=
  match o with Some x => Some (f x) | None => None end.
Definition ang_map {T U} (f : T -> U) (a : ang T) : ang U :=
  match a with AsAngle x => AsAngle (f x) | AsQty x => AsQty (f x) end.
Definition kw_map {T U} (f : T -> U) (kw : kwargs T) : kwargs U :=
  mkKw (omap f (kw_Delta kw)) (omap f (kw_y kw)) (omap f (kw_z kw))
       (omap (ang_map f) (kw_theta kw)) (omap (ang_map f) (kw_phi kw)).

(** ** The Jacobian: transform/velocities.py:127-146.
    Column [i] of the Jacobian of [represent_as(., target)] at [p]: the tangents
    of all rows when component [i] gets tangent 1 ([jax.jacfwd] pushes the
    standard basis; rows and columns of attributes are filtered out). *)
Definition jac_column (deg : bool) (fuel : nat) (kw : kwargs ext) (p : pos ext) (t : pcls) (i : nat)
  : res (list ext) :=
  do q <- represent_as Traced deg fuel (kw_map dconst kw) (seed p (basis (length (components p)) i)) t;
  ret (map dd (components q)).
Fixpoint mapM {T U} (f : T -> res U) (l : list T) : res (list U) :=
  match l with
  | [] => ret []
  | x :: l => do y <- f x; do ys <- mapM f l; ret (y :: ys)
  end.
Definition jacobian deg fuel kw p t : res (list (list ext)) :=
  mapM (jac_column deg fuel kw p t) (seq 0%nat (length (components p))).

(** Matrix (given by columns) times vector: transform/velocities.py:150-163. *)
Local Open Scope num_scope.
Definition vplus (a b : list ext) : list ext := map (fun '(x, y) => x + y) (combine a b).
Fixpoint matvec (n : nat) (cols : list (list ext)) (v : list ext) : list ext :=
  match cols, v with
  | c :: cols, x :: v => vplus (map (fun j => j * x) c) (matvec n cols v)
  | _, _ => repeat (Some 0%R : ext) n
  end.

(** [replace(pos, r=pos.r.distance)]: transform/velocities.py:118-125 *)
Definition dist_cast (d : dist ext) : rarg ext := RKeep (mkDist KDistance (distance d)).
Definition cast_distance (m : mode) (p : pos ext) : res (pos ext) :=
  match p with
  | PRadial r => mk_Radial m (dist_cast r)
  | PPolar r phi => mk_Polar m (dist_cast r) (AsAngle phi)
  | PSph r a b => mk_Sph m (dist_cast r) a (AsAngle b)
  | PMSph r a b => mk_MSph m (dist_cast r) (AsAngle a) b
  | PLonLat a b d => mk_LonLat m (AsAngle a) b (dist_cast d)
  | PProlate mu nu phi D => mk_Prolate m mu nu (AsAngle phi) D
  | _ => ret p
  end.

(** ** [represent_as(vel, target, position, **kwargs)] *)
Section Vel.
Variables (m : mode) (deg : bool) (fuel : nat).
Notation rep := (represent_as m deg fuel).

(** [jax.vmap(..., in_axes=(0, None))] over the flattened position
    (transform/velocities.py:134, transform/accelerations.py:203): every array in it
    needs a leading axis, but the attribute Delta of a ProlateSpheroidalPos, which is
    not static, is a scalar ([Shaped[Quantity["length"], ""]], d3/spheroidal.py:109):
    ValueError. *)
Definition can_map (c : pcls) : res unit := match c with CProlate => Raise EValue | _ => ret tt end.

(** The generic overload: transform/velocities.py:27-167. *)
Definition vel_generic (kw : kwargs ext) (v : vel ext) (t : vcls) (position : pos ext) : res (vel ext) :=
  do cp <- rep kw position (integral_cls (vc v));
  do cp <- cast_distance m cp;
  do _ <- can_map (integral_cls (vc v));
  do j <- jacobian deg fuel kw cp (integral_cls t);
  ret (mkVel t (matvec (vdim t) j (vcomps v))).

(** [posvec.lat] after [represent_as(posvec, LonLatSphericalPos)] *)
Definition latitude (position : pos ext) : res ext :=
  do p <- rep nokw position CLonLat;
  match p with PLonLat _ lat _ => ret lat | _ => Raise EAttribute end.
(** LonCosLatSphericalVel -> LonLatSphericalVel: d3/transform.py:878-904 *)
Definition lcl_to_lonlat (v : vel ext) (position : pos ext) : res (vel ext) :=
  match vcomps v with
  | [a; b; c] => do lat <- latitude position; ret (mkVel WLonLat [a / ncos lat; b; c])
  | _ => Raise EType
  end.
(** LonLatSphericalVel -> LonCosLatSphericalVel: the end of d3/transform.py:832-875 *)
Definition lonlat_to_lcl (v : vel ext) (position : pos ext) : res (vel ext) :=
  match vcomps v with
  | [a; b; c] => do lat <- latitude position; ret (mkVel WLonCosLat [a * ncos lat; b; c])
  | _ => Raise EType
  end.

(** Overload resolution with a position object as third argument.  The self
    overloads are (V, type[V], AbstractPos): d1/transform.py:48-61,
    d2/transform.py:39-52, d3/transform.py:100-180; TwoSphereVel has none.  The
    LonCosLat overloads are d3/transform.py:831-931 (none passes kwargs on);
    everything else of equal dimension is the generic overload. *)
Definition vel_represent_as (kw : kwargs ext) (v : vel ext) (t : vcls) (position : pos ext)
  : res (vel ext) :=
  if vcls_eqb (vc v) t && negb (vcls_eqb t WTwoSphere) then ret v
  else if negb (Nat.eqb (vdim (vc v)) (vdim t)) then Raise ENotFound
  else match vc v, t with
  | WLonCosLat, WLonLat => lcl_to_lonlat v position
  | WLonCosLat, _ => do v' <- lcl_to_lonlat v position; vel_generic nokw v' t position
  | WLonLat, WLonCosLat => lonlat_to_lcl v position
  | _, WLonCosLat => do v' <- vel_generic nokw v WLonLat position; lonlat_to_lcl v' position
  | _, _ => vel_generic kw v t position
  end.

(** With a length Quantity as position (interpreted as Cartesian,
    transform/velocities.py:104-110) the self overloads do not match: the
    generic one runs, and LonCosLat -> LonCosLat is ambiguous between
    d3/transform.py:831 and 907. *)
Definition cart_of_array (c : vcls) (x : list ext) : res (pos ext) :=
  match vdim c, x with
  | 1%nat, [a] => ret (PCart1 a) | 2%nat, [a; b] => ret (PCart2 a b) | 3%nat, [a; b; c] => ret (PCart3 a b c)
  | _, _ => Raise EValue
  end.
Definition vel_represent_as_q (kw : kwargs ext) (v : vel ext) (t : vcls) (x : list ext) : res (vel ext) :=
  if negb (Nat.eqb (vdim (vc v)) (vdim t)) then Raise ENotFound
  else match vc v, t with
  | WLonCosLat, WLonCosLat => Raise EAmbiguous
  | WLonCosLat, WLonLat => do p <- cart_of_array (vc v) x; lcl_to_lonlat v p
  | WLonCosLat, _ =>
      do p <- cart_of_array (vc v) x; do v' <- lcl_to_lonlat v p; vel_represent_as nokw v' t p
  | _, WLonCosLat =>
      do p <- cart_of_array (vc v) x; do v' <- vel_represent_as nokw v WLonLat p; lonlat_to_lcl v' p
  | _, _ => do p <- cart_of_array (vc v) x; vel_generic kw v t p
  end.
End Vel.

(** [v.norm(q)] (jitted): base/base_vel.py:132-135, then [norm()] of the Cartesian
    velocity: d1/cartesian.py:187-199 ([abs]), d3/cartesian.py:228-240 (root of the sum of
    squares).  CartesianVel2D (d2/cartesian.py:164-186) does not define [norm], so it
    has that of base/base_vel.py, which needs the position: TypeError.  For the classes
    that define [norm] the conversion is the identity. *)
Definition cart_speed (x : list ext) : ext :=
  match x with
  | [a] => nabs a
  | _ => nsqrt (fold_right (fun a s => a * a + s) (Some 0%R : ext) x)
  end.
Definition vel_norm (deg : bool) (fuel : nat) (v : vel ext) (position : pos ext) : res ext :=
  do c <- vel_represent_as Traced deg fuel nokw v (vcart_cls (vc v)) position;
  match vcart_cls (vc v) with
  | WCart2 => Raise EType
  | _ => ret (cart_speed (vcomps c))
  end.

(** [-v]: base/base_vel.py:107-127, base/base_acc.py:90-110 *)
Definition vel_neg (v : vel ext) : vel ext := mkVel (vc v) (map nneg (vcomps v)).
Definition acc_neg (a : acc ext) : acc ext := mkAcc (xc a) (map nneg (xcomps a)).

(** ** Accelerations: transform/accelerations.py:25-199.  For a prolate source the
    [vmap] fails ([can_map]).  For a prolate target the Jacobian raises for lack of
    [Delta] (kwargs are not passed, line 166 and 203); were it given, the
    constructor would get the unknown argument [d2_Delta] ([field_items] is
    unfiltered there: TypeError). *)
Definition acc_represent_as (m : mode) (deg : bool) (fuel : nat) (kw : kwargs ext)
  (a : acc ext) (t : xcls) (velocity : vel ext) (position : pos ext) : res (acc ext) :=
  let vsrc := acc_integral_cls (xc a) in
  let vtgt := acc_integral_cls t in
  if negb (Nat.eqb (vdim vsrc) (vdim vtgt)) then Raise ENotFound
  else if xcls_eqb (xc a) t && Nat.eqb (vdim vsrc) 1%nat
  then ret a    (* d1/transform.py:75-93: the only self overloads *)
  else
    do cp <- represent_as m deg fuel kw position (integral_cls vsrc);
    do cp <- cast_distance m cp;
    do _ <- vel_represent_as m deg fuel kw velocity vsrc cp;
    do _ <- can_map (integral_cls vsrc);
    do j <- jacobian deg fuel nokw cp (integral_cls vtgt);
    match vtgt with
    | WProlate => Raise EType
    | _ => ret (mkAcc t (matvec (vdim vtgt) j (xcomps a)))
    end.

(** [a.norm(v, q)]: base/base_acc.py:115-120, then [norm()] of the Cartesian acceleration:
    d1/cartesian.py:281-294, d2/cartesian.py:288-301, d3/cartesian.py:339-352.  These take
    one argument at most: on a Cartesian acceleration [a.norm(v, q)] is a TypeError. *)
Definition acc_norm (deg : bool) (fuel : nat) (a : acc ext) (velocity : vel ext) (position : pos ext)
  : res ext :=
  match xc a with
  | XCart1 | XCart2 | XCart3 => Raise EType
  | _ =>
      do c <- acc_represent_as Traced deg fuel nokw a (xcart_cls (xc a)) velocity position;
      ret (cart_speed (xcomps c))
  end.
(** [a.norm()]: the other classes need a velocity and a position. *)
Definition acc_norm0 (a : acc ext) : res ext :=
  match xc a with XCart1 | XCart2 | XCart3 => ret (cart_speed (xcomps a)) | _ => Raise EType end.

(** ** Products with times.
    [vel * t]: base/base_vel.py:141-162.  The dictionary is handed to the class
    method [from_(Mapping)] (base/base.py:64-86, [cls] applied to the keywords): the class
    constructor with plain quantities.  A LonCosLatSphericalVel yields the key
    "lon_coslat", unknown to the constructor (TypeError); a prolate velocity
    lacks [Delta] (TypeError).  CartesianVel1D/2D/3D: the same body. *)
Definition pos_from_components (m : mode) (c : pcls) (x : list ext) : res (pos ext) :=
  match c, x with
  | CCart1, [a] => mk_Cart1 a
  | CRadial, [a] => mk_Radial m (RQty KDistance a)
  | CCart2, [a; b] => mk_Cart2 a b
  | CPolar, [a; b] => mk_Polar m (RQty KDistance a) (AsQty b)
  | CTwoSphere, [a; b] => mk_TwoSphere m a (AsQty b)
  | CCart3, [a; b; c] => mk_Cart3 a b c
  | CCyl, [a; b; c] => mk_Cyl m a (AsQty b) c
  | CSph, [a; b; c] => mk_Sph m (RQty KDistance a) b (AsQty c)
  | CMSph, [a; b; c] => mk_MSph m (RQty KDistance a) (AsQty b) c
  | CLonLat, [a; b; c] => mk_LonLat m (AsQty a) b (RQty KDistance c)
  | _, _ => Raise EType
  end.
Definition vel_mul_time (m : mode) (v : vel ext) (t : ext) : res (pos ext) :=
  match vc v with
  | WLonCosLat => Raise EType
  | c => pos_from_components m (integral_cls c) (map (fun x => x * t) (vcomps v))
  end.
(** [acc * t]: base/base_acc.py:126-150; [t * acc]: 153-171;
    [acc * t2]: 174-198; [t2 * acc]: 201-219. *)
Definition acc_mul_time (a : acc ext) (t : ext) : vel ext :=
  mkVel (acc_integral_cls (xc a)) (map (fun x => x * t) (xcomps a)).
Definition time_mul_acc (t : ext) (a : acc ext) : vel ext := acc_mul_time a t.
Definition acc_mul_time2 (m : mode) (a : acc ext) (t2 : ext) : res (pos ext) :=
  pos_from_components m (integral_cls (acc_integral_cls (xc a))) (map (fun x => x * t2) (xcomps a)).
Definition time2_mul_acc (m : mode) (t2 : ext) (a : acc ext) : res (pos ext) := acc_mul_time2 m a t2.
