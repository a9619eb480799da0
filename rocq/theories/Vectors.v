(** * Position classes: data, constructors with converters and range checks,
      and the out-of-range tolerant [from_] overloads.

    Files modelled (under /repo/src/coordinax/_src/vectors): d1/cartesian.py,
    d1/radial.py, d2/cartesian.py, d2/polar.py, d2/spherical.py,
    d3/cartesian.py, d3/cylindrical.py, d3/spherical.py, d3/mathspherical.py,
    d3/lonlatspherical.py, d3/spheroidal.py, checks.py, converters.py.

    Simplification: a component is one array element holding a physical
    magnitude (metres, square metres, radians); see DESIGN.md. *)
From Coq Require Import Reals Bool List.
From Verif Require Import Num.
Import ListNotations.
Open Scope R_scope.

(** ** Results of Python calls *)
Inductive err :=
| ENegative          (* "The input radial distance r must be non-negative." *)
| EPolarRange        (* "The inclination angle must be in the range [0, pi]." *)
| EProlateRange      (* Delta <= 0, mu < Delta^2 or |nu| > Delta^2 *)
| EUnit              (* quantity of the wrong physical dimension *)
| ENotFound          (* plum NotFoundLookupError *)
| EAmbiguous         (* plum AmbiguousLookupError *)
| ERecursion         (* RecursionError *)
| EMissingDelta      (* "Delta must be provided for ProlateSpheroidalPos." *)
| EAttribute         (* AttributeError *)
| EType              (* TypeError / NotImplemented *)
| EValue             (* ValueError *)
| EFrame             (* FrameTransformError *)
| EKey               (* KeyError *)
| ERuntime           (* RuntimeError (a check of eqx.error_if) *)
| EIndex.            (* IndexError *)

(** [Ok w v]: returned [v]; [w] tells whether [IrreversibleDimensionChange]
    was issued on the way. *)
Inductive res (T : Type) := Ok (w : bool) (v : T) | Raise (e : err).
Arguments Ok {T} w v.
Arguments Raise {T} e.

Definition ret {T} (v : T) : res T := Ok false v.
Definition bind {T U} (m : res T) (f : T -> res U) : res U :=
  match m with
  | Ok w v => match f v with Ok w' v' => Ok (w || w') v' | Raise e => Raise e end
  | Raise e => Raise e
  end.
Notation "'do' x <- m ; f" := (bind m (fun x => f)) (at level 60, x name, m at level 60, right associativity).
(** [warnings.warn("irreversible dimension change", ...)] before [m]. *)
Definition warn {T} (m : res T) : res T :=
  match m with Ok _ v => Ok true v | Raise e => Raise e end.

(** Execution mode: range checks are [eqx.error_if] whose result is dropped
    (e.g. d3/spherical.py:73-76), so they raise only when the values are
    concrete ([Eager]); under tracing ([jit], [jacfwd]) they are dead code. *)
Inductive mode := Eager | Traced.

(** ** Distances as stored in radial fields: distances/core.py:26,106,206.
    [KDistance] length, [KParallax] angle, [KDistMod] magnitude. *)
Inductive dkind := KDistance | KParallax | KDistMod.
Record dist (A : Type) := mkDist { dk : dkind; dval : A }.
Arguments mkDist {A} dk dval.
Arguments dk {A} d.
Arguments dval {A} d.

(** ** Positions *)
Inductive pos (A : Type) :=
| PCart1 (x : A)                              (* CartesianPos1D, d1/cartesian.py:28 *)
| PRadial (r : dist A)                        (* RadialPos, d1/radial.py:23 *)
| PCart2 (x y : A)                            (* CartesianPos2D, d2/cartesian.py:33 *)
| PPolar (r : dist A) (phi : A)               (* PolarPos, d2/polar.py:27 *)
| PTwoSphere (theta phi : A)                  (* TwoSpherePos, d2/spherical.py:24 *)
| PCart3 (x y z : A)                          (* CartesianPos3D, d3/cartesian.py:39 *)
| PCyl (rho phi z : A)                        (* CylindricalPos, d3/cylindrical.py:29 *)
| PSph (r : dist A) (theta phi : A)           (* SphericalPos, d3/spherical.py:36 *)
| PMSph (r : dist A) (theta phi : A)          (* MathSphericalPos: theta azimuth, phi polar, d3/mathspherical.py:40 *)
| PLonLat (lon lat : A) (d : dist A)          (* LonLatSphericalPos, d3/lonlatspherical.py:37 *)
| PProlate (mu nu phi Delta : A).             (* ProlateSpheroidalPos, d3/spheroidal.py:30 *)
Arguments PCart1 {A}. Arguments PRadial {A}. Arguments PCart2 {A}. Arguments PPolar {A}.
Arguments PTwoSphere {A}. Arguments PCart3 {A}. Arguments PCyl {A}. Arguments PSph {A}.
Arguments PMSph {A}. Arguments PLonLat {A}. Arguments PProlate {A}.

Inductive pcls := CCart1 | CRadial | CCart2 | CPolar | CTwoSphere | CCart3 | CCyl
                | CSph | CMSph | CLonLat | CProlate.

Definition cls_of {A} (p : pos A) : pcls :=
  match p with
  | PCart1 _ => CCart1 | PRadial _ => CRadial | PCart2 _ _ => CCart2 | PPolar _ _ => CPolar
  | PTwoSphere _ _ => CTwoSphere | PCart3 _ _ _ => CCart3 | PCyl _ _ _ => CCyl
  | PSph _ _ _ => CSph | PMSph _ _ _ => CMSph | PLonLat _ _ _ => CLonLat
  | PProlate _ _ _ _ => CProlate
  end.

(** [cls._dimensionality()] *)
Definition dim_of (c : pcls) : nat :=
  match c with
  | CCart1 | CRadial => 1 | CCart2 | CPolar | CTwoSphere => 2 | _ => 3
  end.

Definition dist_map {A B} (f : A -> B) (d : dist A) : dist B := mkDist (dk d) (f (dval d)).
Definition pos_map {A B} (f : A -> B) (p : pos A) : pos B :=
  match p with
  | PCart1 x => PCart1 (f x)
  | PRadial r => PRadial (dist_map f r)
  | PCart2 x y => PCart2 (f x) (f y)
  | PPolar r a => PPolar (dist_map f r) (f a)
  | PTwoSphere a b => PTwoSphere (f a) (f b)
  | PCart3 x y z => PCart3 (f x) (f y) (f z)
  | PCyl a b c => PCyl (f a) (f b) (f c)
  | PSph r a b => PSph (dist_map f r) (f a) (f b)
  | PMSph r a b => PMSph (dist_map f r) (f a) (f b)
  | PLonLat a b d => PLonLat (f a) (f b) (dist_map f d)
  | PProlate a b c d => PProlate (f a) (f b) (f c) (f d)
  end.

Section Model.
Context {A : Type} `{NA : Num A}.
Local Open Scope num_scope.

(** *** [.distance] of a radial field: distances/core.py:51-63 (Distance),
    155-172 (Parallax: 1 AU / tan p), 229-242 (DistanceModulus: 10^(m/5+1) pc). *)
Definition length_of_kind (k : dkind) (v : A) : A :=
  match k with
  | KDistance => v
  | KParallax => nlen AU / ntan v
  | KDistMod => nexp10 (v / ncst 5 + ncst 1) * nlen PC
  end.
Definition distance (d : dist A) : A := length_of_kind (dk d) (dval d).

(** *** Constructor arguments.  A radial argument is either an
    [AbstractDistance] instance (kept by [Unless(AbstractDistance, ...)]) or a
    plain quantity, converted by [Distance.from_] according to its dimension
    (distances/core.py:275-320). *)
Inductive rarg := RKeep (d : dist A) | RQty (k : dkind) (v : A).
Definition conv_r (a : rarg) : dist A :=
  match a with
  | RKeep d => d
  | RQty k v => mkDist KDistance (length_of_kind k v)
  end.

(** An azimuth argument is an [Angle] (kept by [Unless(Angle, ...)]) or a plain
    quantity, wrapped modulo 360 deg (converters.py:12-28). *)
Inductive ang := AsAngle (a : A) | AsQty (a : A).
Definition ang_val (a : ang) : A := match a with AsAngle x => x | AsQty x => x end.
Definition conv_az (a : ang) : A := match a with AsAngle x => x | AsQty x => nwrap x end.

(** [Quantity["length"].from_] applied to the content of a radial field: only
    a length is accepted. *)
Definition as_length (d : dist A) : res A :=
  match dk d with KDistance => ret (dval d) | _ => Raise EUnit end.
(** the same for the product of a radial field with a dimensionless factor *)
Definition length_times (d : dist A) (f : A) : res A :=
  match dk d with KDistance => ret (dval d * f) | _ => Raise EUnit end.

(** *** Range checks: checks.py *)
(** [check_r_non_negative] checks.py:19-39, [check_non_negative] 85-106. *)
Definition check_nonneg (m : mode) (x : A) : res unit :=
  match m with
  | Traced => ret tt
  | Eager => if x <? ncst 0 then Raise ENegative else ret tt
  end.
(** [check_polar_range] checks.py:42-82. *)
Definition check_polar (m : mode) (l u x : A) : res unit :=
  match m with
  | Traced => ret tt
  | Eager => if (x <? l) || (u <? x) then Raise EPolarRange else ret tt
  end.
(** d3/spheroidal.py:112-120 with checks.py:109-138, 234-262, 172-200. *)
Definition check_prolate (m : mode) (mu nu Delta : A) : res unit :=
  match m with
  | Traced => ret tt
  | Eager =>
      if Delta <=? ncst 0 then Raise EProlateRange
      else if mu <? nsq Delta then Raise EProlateRange
      else if nsq Delta <? nabs nu then Raise EProlateRange
      else ret tt
  end.

(** *** Constructors *)
Definition mk_Cart1 (x : A) : res (pos A) := ret (PCart1 x).
Definition mk_Cart2 (x y : A) : res (pos A) := ret (PCart2 x y).
Definition mk_Cart3 (x y z : A) : res (pos A) := ret (PCart3 x y z).
(** d1/radial.py:23-38 *)
Definition mk_Radial (m : mode) (r : rarg) : res (pos A) :=
  let r := conv_r r in
  do _ <- check_nonneg m (dval r); ret (PRadial r).
(** d2/polar.py:27-59 *)
Definition mk_Polar (m : mode) (r : rarg) (phi : ang) : res (pos A) :=
  let r := conv_r r in
  do _ <- check_nonneg m (dval r); ret (PPolar r (conv_az phi)).
(** d2/spherical.py:24-85 *)
Definition mk_TwoSphere (m : mode) (theta : A) (phi : ang) : res (pos A) :=
  do _ <- check_polar m (nang 0) (nang PI) theta; ret (PTwoSphere theta (conv_az phi)).
(** d3/cylindrical.py:29-61 *)
Definition mk_Cyl (m : mode) (rho : A) (phi : ang) (z : A) : res (pos A) :=
  do _ <- check_nonneg m rho; ret (PCyl rho (conv_az phi) z).
(** d3/spherical.py:36-77 *)
Definition mk_Sph (m : mode) (r : rarg) (theta : A) (phi : ang) : res (pos A) :=
  let r := conv_r r in
  do _ <- check_nonneg m (dval r);
  do _ <- check_polar m (nang 0) (nang PI) theta;
  ret (PSph r theta (conv_az phi)).
(** d3/mathspherical.py:40-76 *)
Definition mk_MSph (m : mode) (r : rarg) (theta : ang) (phi : A) : res (pos A) :=
  let r := conv_r r in
  do _ <- check_nonneg m (dval r);
  do _ <- check_polar m (nang 0) (nang PI) phi;
  ret (PMSph r (conv_az theta) phi).
(** d3/lonlatspherical.py:37-121 *)
Definition mk_LonLat (m : mode) (lon : ang) (lat : A) (d : rarg) : res (pos A) :=
  let d := conv_r d in
  do _ <- check_polar m (- (nang (PI / 2))) (nang (PI / 2)) lat;
  do _ <- check_nonneg m (dval d);
  ret (PLonLat (conv_az lon) lat d).
(** d3/spheroidal.py:30-120 *)
Definition mk_Prolate (m : mode) (mu nu : A) (phi : ang) (Delta : A) : res (pos A) :=
  do _ <- check_prolate m mu nu Delta; ret (PProlate mu nu (conv_az phi) Delta).

(** The class constructor called with the components of [p] as arguments: radial
    parts as [AbstractDistance] objects, the azimuth as an [Angle] or as a plain
    [Quantity].  (The generated dataclass [__init__] of every class above.) *)
Definition build (m : mode) (az_qty : bool) (p : pos A) : res (pos A) :=
  let az := fun a => if az_qty then AsQty a else AsAngle a in
  match p with
  | PCart1 x => mk_Cart1 x
  | PRadial r => mk_Radial m (RKeep r)
  | PCart2 x y => mk_Cart2 x y
  | PPolar r phi => mk_Polar m (RKeep r) (az phi)
  | PTwoSphere theta phi => mk_TwoSphere m theta (az phi)
  | PCart3 x y z => mk_Cart3 x y z
  | PCyl rho phi z => mk_Cyl m rho (az phi) z
  | PSph r theta phi => mk_Sph m (RKeep r) theta (az phi)
  | PMSph r theta phi => mk_MSph m (RKeep r) (az theta) phi
  | PLonLat lon lat d => mk_LonLat m (az lon) lat (RKeep d)
  | PProlate mu nu phi Delta => mk_Prolate m mu nu (az phi) Delta
  end.

(** *** Out-of-range tolerant constructors *)
Definition sel {T} (c : bool) (a b : T) : T := if c then a else b.

(** The azimuth handed to the class constructor at the end of [from_] has been
    through [Angle + Quantity] and [select]; whether the final object is an
    [Angle] or a [Quantity] is decided by the unxt library.  [deg] says which
    ([true]: it degraded to a Quantity, so the constructor wraps it). *)
Definition redecorate (deg : bool) (a : A) : ang := if deg then AsQty a else AsAngle a.

(** SphericalPos.from_ : d3/spherical.py:80-161 *)
Definition from_Sph (m : mode) (deg : bool) (r : rarg) (theta : A) (phi : ang) : res (pos A) :=
  (* 1) Convert the inputs *)
  let r := conv_r r in
  let phi := conv_az phi in
  (* 2) handle negative distances *)
  let r_pred := dval r <? ncst 0 in
  let r := mkDist (dk r) (sel r_pred (- dval r) (dval r)) in
  let phi := sel r_pred (phi + nang PI) phi in
  let theta := sel r_pred (nang PI - theta) theta in
  (* 3) Handle polar angle outside of [0, 180] degrees *)
  let theta := nwrap theta in
  let theta_pred := theta <? nang PI in
  let theta' := sel theta_pred theta (nang (2 * PI) - theta) in
  let phi := sel theta_pred phi (phi + nang PI) in
  (* 4) Construct *)
  mk_Sph m (RKeep r) theta' (redecorate deg phi).

(** MathSphericalPos.from_ : d3/mathspherical.py:102-183 *)
Definition from_MSph (m : mode) (deg : bool) (r : rarg) (theta : ang) (phi : A) : res (pos A) :=
  let r := conv_r r in
  let theta := conv_az theta in
  let r_pred := dval r <? ncst 0 in
  let r := mkDist (dk r) (sel r_pred (- dval r) (dval r)) in
  let theta := sel r_pred (theta + nang PI) theta in
  let phi := sel r_pred (nang PI - phi) phi in
  let phi := nwrap phi in
  let phi_pred := phi <? nang PI in
  let phi' := sel phi_pred phi (nang (2 * PI) - phi) in
  let theta := sel phi_pred theta (theta + nang PI) in
  mk_MSph m (RKeep r) (redecorate deg theta) phi'.

(** LonLatSphericalPos.from_ : d3/lonlatspherical.py:148-242 *)
Definition from_LonLat (m : mode) (deg : bool) (lon : ang) (lat : A) (d : rarg) : res (pos A) :=
  let d := conv_r d in
  let lon := conv_az lon in
  (* 2) handle negative distances *)
  let d_pred := dval d <? ncst 0 in
  let d := mkDist (dk d) (sel d_pred (- dval d) (dval d)) in
  let lon := sel d_pred (lon + nang PI) lon in
  let lat := sel d_pred (- lat) lat in
  (* 3) Handle latitude outside of [-90, 90] degrees *)
  let lat_pred := lat <? - nang (PI / 2) in
  let lat' := sel lat_pred (- nang PI - lat) lat in
  let lon := sel lat_pred (lon + nang PI) lon in
  let lat_pred := nang (PI / 2) <? lat' in
  let lat'' := sel lat_pred (nang PI - lat') lat' in
  let lon := sel lat_pred (lon + nang PI) lon in
  mk_LonLat m (redecorate deg lon) lat'' (RKeep d).

End Model.
Arguments rarg A : clear implicits.
Arguments ang A : clear implicits.
