(** * Construction of operators, frames and vectors from other objects: field converters
      and [from_].

    Files modelled (under /repo/src/coordinax): _src/operators/base.py:43-104, 240-285,
    _src/operators/{boost,pipe}.py, _src/operators/galilean/{spatial_translation,
    translation,rotation,boost,composite}.py (the fields' converters),
    _src/vectors/base/base.py:986-1060 and _src/vectors/d3/constructor.py (a vector from a
    vector), _src/frames/base.py:30-36, 65-90, _coordinax_space_frames/galactocentric.py:47-74,
    _coordinax_space_frames/_interop/interop_astropy/frames.py. *)
From Coq Require Import Reals Bool List ZArith.
From Verif Require Import Num Vectors Transform Arith Vel FourVec Operators Frames.
Import ListNotations.

(** ** [cls.from_(vector)] *)
Inductive anyvec := VecP (p : pos ext) | VecV (v : vel ext) | VecA (a : acc ext) | VecF (f : fourvec ext).
(** Classes: concrete ones, and the abstract ones: AbstractVector, AbstractPos, AbstractPos1D,
    ..., AbstractPos4D ([Some n]), and the same for velocities and accelerations. *)
Inductive veccls :=
| KPos (c : pcls) | KVel (c : vcls) | KAcc (c : xcls) | KFour
| KVector | KAbsPos (n : option nat) | KAbsVel (n : option nat) | KAbsAcc (n : option nat).
Definition xdim (c : xcls) : nat := vdim (acc_integral_cls c).
Definition within (n : option nat) (d : nat) : bool := match n with None => true | Some k => Nat.eqb k d end.
(** [isinstance(v, cls)] *)
Definition isinstance (v : anyvec) (c : veccls) : bool :=
  match c, v with
  | KVector, _ => true
  | KPos c, VecP p => pcls_eqb c (cls_of p)
  | KVel c, VecV v => vcls_eqb c (vc v)
  | KAcc c, VecA a => xcls_eqb c (xc a)
  | KFour, VecF _ => true
  | KAbsPos n, VecP p => within n (dim_of (cls_of p))
  | KAbsPos n, VecF _ => within n 4
  | KAbsVel n, VecV v => within n (vdim (vc v))
  | KAbsAcc n, VecA a => within n (xdim (xc a))
  | _, _ => false
  end.
(** [type(v) is cls] for an instance: the classes are final *)
Definition concrete (c : veccls) : bool :=
  match c with KPos _ | KVel _ | KAcc _ | KFour => true | _ => false end.
(** The overloads d3/constructor.py:35-56, 83-106, 133-157, for any subclass of AbstractPos3D
    (AbstractVel3D, AbstractAcc3D) and any instance of it.  They are more specific than the
    overload for AbstractVector, so plum prefers them. *)
Definition overload3 (c : veccls) (v : anyvec) : bool :=
  match c, v with
  | KPos c, VecP p => Nat.eqb (dim_of c) 3 && Nat.eqb (dim_of (cls_of p)) 3
  | KAbsPos (Some 3), VecP p => Nat.eqb (dim_of (cls_of p)) 3
  | KVel c, VecV v => Nat.eqb (vdim c) 3 && Nat.eqb (vdim (vc v)) 3
  | KAbsVel (Some 3), VecV v => Nat.eqb (vdim (vc v)) 3
  | KAcc c, VecA a => Nat.eqb (xdim c) 3 && Nat.eqb (xdim (xc a)) 3
  | KAbsAcc (Some 3), VecA a => Nat.eqb (xdim (xc a)) 3
  | _, _ => false
  end.
(** base/base.py:986-1060; the last line, [cls] called on the fields, is reached for abstract
    classes only, which cannot be instantiated (TypeError). *)
Definition vec_from (c : veccls) (v : anyvec) : res anyvec :=
  if overload3 c v then ret v
  else if negb (isinstance v c) then Raise EType
  else if concrete c then ret v
  else Raise EType.

(** ** Arguments of the operator classes *)
Inductive qdim := Dimless | Length | Speed | OtherDim.
Inductive arg :=
| XOp (o : op ext)                           (* an operator *)
| XVec (v : anyvec)
| XQty (d : qdim) (x : list ext)             (* a quantity of shape (n,) *)
| XMat (d : option qdim) (M : mat ext)       (* an array ([None]) or quantity of shape (3, 3) *)
| XSeq (l : list (op ext))                   (* a tuple or list of operators *)
| XNone.                                     (* any other object *)

(** [CartesianVel3D.from_(x)] for one axis: d3/cartesian.py:246-269: indexing clamps
    (Arrays.v: [at_last]); the component fields accept speeds only *)
Definition clamped (x : list ext) (i : nat) : ext := nth (Nat.min i (length x - 1)) x None.
Definition vel3_from (d : qdim) (x : list ext) : res (vel ext) :=
  match x with
  | [] => Raise EIndex
  | _ => match d with
         | Speed => ret (mkVel WCart3 [clamped x 0; clamped x 1; clamped x 2])
         | _ => Raise EUnit
         end
  end.

(** ** The fields' converters *)
(** [_converter_spatialtranslation]: galilean/spatial_translation.py:31-55.
    (Left out: a FourVector is an AbstractPos and is accepted by the code.) *)
Definition conv_spatial (x : arg) : res (pos ext) :=
  match x with
  | XOp (OSpatial q) => ret q
  | XVec (VecP p) => ret p
  | XQty d [a] => match d with Length => ret (PCart1 a) | _ => Raise EUnit end
  | XQty d [a; b] => match d with Length => ret (PCart2 a b) | _ => Raise EUnit end
  | XQty d [a; b; c] => match d with Length => ret (PCart3 a b c) | _ => Raise EUnit end
  | _ => Raise EType
  end.
(** [FourVector.from_]: galilean/translation.py:94; d4/spacetime.py:106-153, 284-308. *)
Definition conv_four (x : arg) : res (fourvec ext) :=
  match x with
  | XVec (VecF v) => ret v
  | XVec _ => Raise EType
  | XQty d y =>
      match fv_from_array y, d with
      | Ok w v, Length => Ok w v
      | Ok _ _, _ => Raise EUnit
      | Raise e, _ => Raise e
      end
  | _ => Raise ENotFound
  end.
(** [converter]: galilean/rotation.py:33-41 *)
Definition conv_rotation (x : arg) : res (mat ext) :=
  match x with
  | XOp (ORotation M) => ret M
  | XMat (Some Dimless) M | XMat None M => ret M
  | XMat (Some _) _ => Raise EUnit
  | XQty Dimless y => ret [y]                 (* jnp.asarray of shape (n,): one row, nothing is checked *)
  | XQty _ _ => Raise EUnit
  | _ => Raise EType
  end.
(** [Unless(AbstractVel, CartesianVel3D.from_)]: galilean/boost.py:79-81, boost.py:61-63.
    For an object that is neither a vector nor a quantity, d3/constructor.py:62-80 calls
    itself until the recursion limit.  (Left out: quantities of shape (3, 3) are
    batches of velocities.) *)
Definition conv_boost (x : arg) : res (vel ext) :=
  match x with
  | XVec (VecV v) => ret v
  | XVec _ => Raise EType
  | XQty d y => vel3_from d y
  | XMat (Some _) _ => Raise EUnit
  | _ => Raise ERecursion
  end.
(** [_converter_seq]: pipe.py:16-26 *)
Definition conv_seq (x : arg) : res (list (op ext)) :=
  match x with
  | XSeq l => ret l
  | XOp (OPipe l) => ret l
  | XOp o => ret [o]
  | _ => Raise EType
  end.

(** ** Operator classes and [cls(x)] *)
Inductive opcls := OCIdentity | OCSpatial | OCTranslation | OCRotation | OCBoost | OCVelBoost | OCPipe | OCGalilean
                 | OCAbstract           (* AbstractOperator *)
                 | OCAbsGalilean        (* AbstractGalileanOperator *)
                 | OCAbsComposite.      (* AbstractCompositeOperator *)
Definition opcls_of (o : op ext) : opcls :=
  match o with
  | OIdentity => OCIdentity | OSpatial _ => OCSpatial | OTranslation _ => OCTranslation | ORotation _ => OCRotation
  | OBoost _ => OCBoost | OVelBoost _ => OCVelBoost | OPipe _ => OCPipe | OGalilean _ _ _ => OCGalilean
  end.
(** The class hierarchy: identity.py:10-11; boost.py:25; pipe.py:30; galilean/*.py. *)
Definition op_isinstance (o : op ext) (c : opcls) : bool :=
  match c, opcls_of o with
  | OCAbstract, _ => true
  | OCAbsGalilean, (OCSpatial | OCTranslation | OCRotation | OCBoost | OCGalilean) => true
  | OCAbsComposite, (OCPipe | OCGalilean) => true
  | OCIdentity, OCIdentity | OCSpatial, OCSpatial | OCTranslation, OCTranslation | OCRotation, OCRotation
  | OCBoost, OCBoost | OCVelBoost, OCVelBoost | OCPipe, OCPipe | OCGalilean, OCGalilean => true
  | _, _ => false
  end.
Definition opcls_concrete (c : opcls) : bool :=
  match c with OCAbstract | OCAbsGalilean | OCAbsComposite => false | _ => true end.

(** Defaults of GalileanOperator: galilean/composite.py:129-151.  0 kpc and 0 km/s. *)
Definition eye3 : mat ext := [[Some 1; Some 0; Some 0]; [Some 0; Some 1; Some 0]; [Some 0; Some 0; Some 1]]%R.
Definition zeros (n : nat) : list ext := repeat (Some 0%R) n.

(** [cls.from_(operator)]: operators/base.py:240-285 (as for vectors, the last line always
    raises for abstract classes) *)
Definition op_from_op (c : opcls) (o : op ext) : res (op ext) :=
  if negb (op_isinstance o c) then Raise EType
  else if opcls_concrete c then ret o
  else Raise EType.

(** [cls(x)] with one positional argument.  For GalileanOperator it is the rotation. *)
Definition rotation_from (x : arg) : res (mat ext) :=   (* GalileanRotation.from_(x) *)
  match x with
  | XOp o => do r <- op_from_op OCRotation o; match r with ORotation M => ret M | _ => Raise EType end
  | _ => conv_rotation x
  end.
Definition boost_from (x : arg) : res (vel ext) :=      (* Unless(GalileanBoost, GalileanBoost.from_) *)
  match x with
  | XOp o => do r <- op_from_op OCBoost o; match r with OBoost v => ret v | _ => Raise EType end
  | _ => conv_boost x
  end.
Definition translation_from (x : arg) : res (fourvec ext) := (* Unless(GalileanTranslation, GalileanTranslation.from_) *)
  match x with
  | XOp o => do r <- op_from_op OCTranslation o; match r with OTranslation v => ret v | _ => Raise EType end
  | _ => conv_four x
  end.
(** [GalileanOperator(rotation, translation, velocity)], each one optional *)
Definition dflt_arg (x : option arg) (d : arg) : arg := match x with Some a => a | None => d end.
Definition galilean_new (R T V : option arg) : res (op ext) :=
  do r <- rotation_from (dflt_arg R (XMat None eye3));
  do t <- translation_from (dflt_arg T (XQty Length (zeros 4)));
  do v <- boost_from (dflt_arg V (XQty Speed (zeros 3)));
  ret (OGalilean r t v).
Definition construct (c : opcls) (x : arg) : res (op ext) :=
  match c with
  | OCSpatial => do q <- conv_spatial x; ret (OSpatial q)
  | OCTranslation => do v <- conv_four x; ret (OTranslation v)
  | OCRotation => do M <- conv_rotation x; ret (ORotation M)
  | OCBoost => do v <- conv_boost x; ret (OBoost v)
  | OCVelBoost => do v <- conv_boost x; ret (OVelBoost v)
  | OCPipe => do l <- conv_seq x; ret (OPipe l)
  | OCGalilean => galilean_new (Some x) None None
  | OCIdentity => Raise EType                              (* takes no argument *)
  | OCAbstract | OCAbsGalilean | OCAbsComposite => Raise EType
  end.
(** [cls.from_(x)]: operators/base.py:43-55 (anything), 240-285 (an operator).  The overloads
    for a mapping, 57-72, and for a number array with a unit, 74-104, build the
    arguments of [cls(...)] and call it. *)
Definition op_from (c : opcls) (x : arg) : res (op ext) :=
  match x with XOp o => op_from_op c o | _ => construct c x end.
(** [GalileanRotation.from_(rotation)] for a [jax.scipy] Rotation, which is its matrix:
    rotation.py:166-184 *)
Definition rotation_from_scipy (M : mat ext) : res (op ext) := construct OCRotation (XMat None M).

(** ** Frames *)
(** [cls.from_(frame)]: frames/base.py:65-90 ([None]: AbstractReferenceFrame) *)
Inductive fcls := FCNone | FCICRS | FCGalactocentric.
Definition fcls_of (f : frame ext) : fcls := match f with NoFrame => FCNone | ICRS => FCICRS | GCF _ => FCGalactocentric end.
Definition fcls_eqb (a b : fcls) : bool :=
  match a, b with FCNone, FCNone | FCICRS, FCICRS | FCGalactocentric, FCGalactocentric => true | _, _ => false end.
Definition frame_from (c : option fcls) (f : frame ext) : res (frame ext) :=
  match c with
  | None => ret f
  | Some c => if fcls_eqb (fcls_of f) c then ret f else Raise EType
  end.

(** [Galactocentric(galcen, roll=..., z_sun=..., galcen_v_sun=...)]: galactocentric.py:47-74.  The
    converter of [galcen] is [LonLatSphericalPos.from_], the one of the velocity
    [CartesianVel3D.from_]: any 3-D vector is kept as it is.  The transformations read
    [galcen.lon], [.lat] and [.distance] (frame_transforms.py:84-108) and fail for another
    class; here the failure is reported at once. *)
Definition galactocentric_new (galcen : pos ext) (roll z_sun : ext) (v_sun : vel ext) : res (frame ext) :=
  do p <- vec_from (KPos CLonLat) (VecP galcen);
  do v <- vec_from (KVel WCart3) (VecV v_sun);
  match p, v with
  | VecP (PLonLat lon lat d), VecV w =>
      match vc w with
      | WCart3 => ret (GCF (mkGCF lon lat d roll z_sun (vcomps w)))
      | _ => Raise EAttribute
      end
  | _, _ => Raise EAttribute
  end.
(** The parameters of an astropy Galactocentric frame *)
Record apy_gcf := mkApy {
  ay_has_data : bool; ay_ra : ext; ay_dec : ext; ay_dist : ext; ay_roll : ext; ay_zsun : ext; ay_vsun : list ext }.
(** [Galactocentric.from_(astropy frame)]: interop_astropy/frames.py:30-68; [ICRS.from_]: 12-27 *)
Definition gcf_from_astropy (m : mode) (a : apy_gcf) : res (frame ext) :=
  if ay_has_data a then Raise ERuntime
  else
    do p <- mk_LonLat m (AsQty (ay_ra a)) (ay_dec a) (RQty KDistance (ay_dist a));
    galactocentric_new p (ay_roll a) (ay_zsun a) (mkVel WCart3 (ay_vsun a)).
Definition icrs_from_astropy (has_data : bool) : res (frame ext) :=
  if has_data then Raise ERuntime else ret ICRS.
