(** * Quantities with units; unit conversion and arithmetic of unit-carrying vectors.

    Files modelled (under /repo/src/coordinax/_src/vectors): base/compat.py
    (uconvert), base/base.py (uconvert, equality), the field declarations of all
    classes in d1/, d2/, d3/, and the arithmetic of the Cartesian classes
    (d1/cartesian.py, d2/cartesian.py, d3/cartesian.py), whose [jax.tree.map] over
    two vectors needs equal units, because units are static tree data.

    Simplification: one array element; every unit is a positive multiple of the SI
    unit of its dimension (true of all length, time, mass, angle units and of mag);
    two units are equal iff dimension and scale agree. *)
From Coq Require Import Reals Bool List ZArith.
From Verif Require Import Num Vectors Transform Vel.
Import ListNotations.

(** ** Dimensions: exponents of length, mass, time, angle, magnitude
    (astropy PhysicalType) *)
Record dim := mkDim { d_len : Z; d_mass : Z; d_time : Z; d_ang : Z; d_mag : Z }.
Definition dim_eqb (a b : dim) : bool :=
  Z.eqb (d_len a) (d_len b) && Z.eqb (d_mass a) (d_mass b) && Z.eqb (d_time a) (d_time b)
  && Z.eqb (d_ang a) (d_ang b) && Z.eqb (d_mag a) (d_mag b).
Definition length_d := mkDim 1 0 0 0 0.
Definition area_d := mkDim 2 0 0 0 0.
Definition angle_d := mkDim 0 0 0 1 0.
Definition mag_d := mkDim 0 0 0 0 1.
Definition speed_d := mkDim 1 0 (-1) 0 0.
Definition angspeed_d := mkDim 0 0 (-1) 1 0.
Definition diffusivity_d := mkDim 2 0 (-1) 0 0.
Definition acc_d := mkDim 1 0 (-2) 0 0.
Definition angacc_d := mkDim 0 0 (-2) 1 0.
Definition specenergy_d := mkDim 2 0 (-2) 0 0.

(** ** Units and quantities *)
Record unit_ := mkUnit { udim : dim; uscale : R }.      (* uscale: SI value of one unit *)
Definition unit_eqb (a b : unit_) : bool := dim_eqb (udim a) (udim b) && Reqb (uscale a) (uscale b).
Inductive qcls := QQuantity | QDistance | QParallax | QDistMod | QAngle.
Definition qcls_eqb (a b : qcls) : bool :=
  match a, b with
  | QQuantity, QQuantity | QDistance, QDistance | QParallax, QParallax
  | QDistMod, QDistMod | QAngle, QAngle => true
  | _, _ => false
  end.
Record qty := mkQty { qc : qcls; qval : ext; qunit : unit_ }.
Definition qdim (q : qty) : dim := udim (qunit q).
(** the SI magnitude the rest of the model works with *)
Definition phys (q : qty) : ext := lift1 (fun x => (x * uscale (qunit q))%R) (qval q).

(** the unit "mag" *)
Definition mag_unit : unit_ := mkUnit mag_d 1%R.
(** [unxt.uconvert(unit, q)] (library): keeps the class of [q] and runs its
    constructor.  A DistanceModulus refuses every unit but "mag":
    /repo/src/coordinax/_src/distances/core.py:223-227. *)
Definition uconvert_q (u : unit_) (q : qty) : res qty :=
  if dim_eqb (udim u) (qdim q)
  then if qcls_eqb (qc q) QDistMod && negb (unit_eqb u mag_unit) then Raise EValue
       else ret (mkQty (qc q) (lift1 (fun x => (x * (uscale (qunit q) / uscale u))%R) (qval q)) u)
  else Raise EUnit.

(** ** Vectors *)
Inductive tag := TPos (c : pcls) | TVel (c : vcls) | TAcc (c : xcls).
(** class, components in field order, attributes ([Delta] of ProlateSpheroidalPos,
    d3/spheroidal.py:109; no other class has one) *)
Record uvec := mkUvec { utag : tag; ucomps : list qty; uattrs : list qty }.

(** Field kinds, from the converters in the class bodies:
    [FQ d] = [Quantity[d].from_]; [FRadial] = [Unless(AbstractDistance, Distance.from_)];
    [FAngle] = [Angle.from_] or [Unless(Angle, wrap)].
    d1/cartesian.py:52,171,270; d1/radial.py:26,45,68; d2/cartesian.py:36-41,168-175,271-278;
    d2/polar.py:40-49,102-109,127-134; d2/spherical.py:67-74,138-145,205-212;
    d3/cartesian.py:42-54,201-213,316-328; d3/cylindrical.py:36-50,86-98,116-128;
    d3/spherical.py:54-66,171-183,204-216; d3/mathspherical.py:58-70,229-241,264-276;
    d3/lonlatspherical.py:103-115,252-264,282-294,315-327; d3/spheroidal.py:90-105,132-144,162-174. *)
Inductive fkind := FQ (d : dim) | FRadial | FAngle.
Definition fields_of (t : tag) : list fkind :=
  match t with
  | TPos CCart1 => [FQ length_d]
  | TPos CRadial => [FRadial]
  | TPos CCart2 => [FQ length_d; FQ length_d]
  | TPos CPolar => [FRadial; FAngle]
  | TPos CTwoSphere => [FAngle; FAngle]
  | TPos CCart3 => [FQ length_d; FQ length_d; FQ length_d]
  | TPos CCyl => [FQ length_d; FAngle; FQ length_d]
  | TPos CSph | TPos CMSph => [FRadial; FAngle; FAngle]
  | TPos CLonLat => [FAngle; FAngle; FRadial]
  | TPos CProlate => [FQ area_d; FQ area_d; FAngle]
  | TVel WCart1 | TVel WRadial => [FQ speed_d]
  | TVel WCart2 => [FQ speed_d; FQ speed_d]
  | TVel WPolar => [FQ speed_d; FQ angspeed_d]
  | TVel WTwoSphere => [FQ angspeed_d; FQ angspeed_d]
  | TVel WCart3 => [FQ speed_d; FQ speed_d; FQ speed_d]
  | TVel WCyl => [FQ speed_d; FQ angspeed_d; FQ speed_d]
  | TVel WSph | TVel WMSph => [FQ speed_d; FQ angspeed_d; FQ angspeed_d]
  | TVel WLonLat | TVel WLonCosLat => [FQ angspeed_d; FQ angspeed_d; FQ speed_d]
  | TVel WProlate => [FQ diffusivity_d; FQ diffusivity_d; FQ angspeed_d]
  | TAcc XCart1 | TAcc XRadial => [FQ acc_d]
  | TAcc XCart2 => [FQ acc_d; FQ acc_d]
  | TAcc XPolar => [FQ acc_d; FQ angacc_d]
  | TAcc XTwoSphere => [FQ angacc_d; FQ angacc_d]
  | TAcc XCart3 => [FQ acc_d; FQ acc_d; FQ acc_d]
  | TAcc XCyl => [FQ acc_d; FQ angacc_d; FQ acc_d]
  | TAcc XSph | TAcc XMSph => [FQ acc_d; FQ angacc_d; FQ angacc_d]
  | TAcc XLonLat => [FQ angacc_d; FQ angacc_d; FQ acc_d]
  | TAcc XProlate => [FQ specenergy_d; FQ specenergy_d; FQ angacc_d]
  end.
Definition attrs_of (t : tag) : list fkind :=
  match t with TPos CProlate => [FQ length_d] | _ => [] end.

(** Does field kind [f] take [q] as it is?  Arguments which the converters would
    first turn into the field's class (say a Quantity angle given for an Angle field)
    do not occur: [replace] passes the stored components on. *)
Definition accepts (f : fkind) (q : qty) : bool :=
  match f, qc q with
  | FQ d, QQuantity => dim_eqb d (qdim q)
  | FRadial, QDistance => dim_eqb length_d (qdim q)
  | FRadial, QParallax | FAngle, QAngle => dim_eqb angle_d (qdim q)
  | FRadial, QDistMod => unit_eqb (qunit q) mag_unit
  | _, _ => false
  end.
Fixpoint accepts_all (fs : list fkind) (qs : list qty) : bool :=
  match fs, qs with
  | [], [] => true
  | f :: fs, q :: qs => accepts f q && accepts_all fs qs
  | _, _ => false
  end.

(** The SI position (Vectors.v) held by a unit-carrying one *)
Definition dkind_of (c : qcls) : dkind :=
  match c with QParallax => KParallax | QDistMod => KDistMod | _ => KDistance end.
Definition qdist (q : qty) : dist ext := mkDist (dkind_of (qc q)) (phys q).
Definition to_pos (v : uvec) : option (pos ext) :=
  match utag v, ucomps v, uattrs v with
  | TPos CCart1, [x], _ => Some (PCart1 (phys x))
  | TPos CRadial, [r], _ => Some (PRadial (qdist r))
  | TPos CCart2, [x; y], _ => Some (PCart2 (phys x) (phys y))
  | TPos CPolar, [r; a], _ => Some (PPolar (qdist r) (phys a))
  | TPos CTwoSphere, [a; b], _ => Some (PTwoSphere (phys a) (phys b))
  | TPos CCart3, [x; y; z], _ => Some (PCart3 (phys x) (phys y) (phys z))
  | TPos CCyl, [r; a; z], _ => Some (PCyl (phys r) (phys a) (phys z))
  | TPos CSph, [r; a; b], _ => Some (PSph (qdist r) (phys a) (phys b))
  | TPos CMSph, [r; a; b], _ => Some (PMSph (qdist r) (phys a) (phys b))
  | TPos CLonLat, [a; b; r], _ => Some (PLonLat (phys a) (phys b) (qdist r))
  | TPos CProlate, [a; b; c], [D] => Some (PProlate (phys a) (phys b) (phys c) (phys D))
  | _, _, _ => None
  end.
(** ... and the SI velocity or acceleration (Vel.v) *)
Definition to_vel (v : uvec) : option (vel ext) :=
  match utag v with TVel c => Some (mkVel c (map phys (ucomps v))) | _ => None end.
Definition to_acc (v : uvec) : option (acc ext) :=
  match utag v with TAcc c => Some (mkAcc c (map phys (ucomps v))) | _ => None end.

Section Units.
Variable m : mode.

(** The class constructor on such components: converters, then [__check_init__]. *)
Definition construct (t : tag) (cs ats : list qty) : res uvec :=
  if accepts_all (fields_of t) cs && accepts_all (attrs_of t) ats then
    let v := mkUvec t cs ats in
    match to_pos v with
    | Some p => do _ <- build m false p; ret v
    | None => ret v
    end
  else Raise EUnit.

(** [replace(vector, **{k: u.uconvert(unit_k, v)})]: attributes are not touched
    ([field_items(AttrFilter, vector)]) *)
Definition replace_comps (v : uvec) (us : list (res unit_)) : res uvec :=
  do cs <- mapM (fun '(ru, q) => do u <- ru; uconvert_q u q) (combine us (ucomps v));
  construct (utag v) cs (uattrs v).

(** ** [uconvert] with a mapping dimension -> unit: base/compat.py:233-273.
    [units_ = {dimension(k): v ...}]: later entries win; a missing key is a KeyError. *)
Fixpoint lookup (l : list (dim * unit_)) (d : dim) : option unit_ :=
  match l with
  | [] => None
  | (d', u) :: l => if dim_eqb d' d then Some u else lookup l d
  end.
Definition get_key (o : option unit_) : res unit_ :=
  match o with Some u => ret u | None => Raise EKey end.
Definition uconvert_map (units : list (dim * unit_)) (v : uvec) : res uvec :=
  replace_comps v (map (fun q => get_key (lookup (rev units) (qdim q))) (ucomps v)).

(** ** with a unit system: base/compat.py:203-230.  [usys[dim]] is the product of the
    powers of the base units (unxt library). *)
Record usys := mkUsys { us_len : option R; us_mass : option R; us_time : option R;
                        us_ang : option R; us_mag : option R }.
Definition upow (b : option R) (e : Z) : option R :=
  if Z.eqb e 0 then Some 1%R else match b with Some s => Some (powerRZ s e) | None => None end.
Definition omul (a b : option R) : option R :=
  match a, b with Some x, Some y => Some (x * y)%R | _, _ => None end.
Definition usys_get (s : usys) (d : dim) : option unit_ :=
  match omul (upow (us_len s) (d_len d))
        (omul (upow (us_mass s) (d_mass d))
        (omul (upow (us_time s) (d_time d))
        (omul (upow (us_ang s) (d_ang d)) (upow (us_mag s) (d_mag d))))) with
  | Some x => Some (mkUnit d x)
  | None => None
  end.
Definition uconvert_usys (s : usys) (v : uvec) : res uvec :=
  replace_comps v (map (fun q => get_key (usys_get s (qdim q))) (ucomps v)).

(** ** to self-consistent units: base/compat.py:276-329 *)
Fixpoint first_units (dim2unit : list (dim * unit_)) (qs : list qty) : list unit_ :=
  match qs with
  | [] => []
  | q :: qs =>
      match lookup dim2unit (qdim q) with
      | Some u => u :: first_units dim2unit qs
      | None => qunit q :: first_units ((qdim q, qunit q) :: dim2unit) qs
      end
  end.
Definition uconvert_consistent (v : uvec) : res uvec :=
  replace_comps v (map ret (first_units [] (ucomps v))).

(** ** [jax.tree.map(f, v, w)] on two vectors: equal tree structure (class and, as
    static data, the class and unit of every quantity) or ValueError; the result is
    rebuilt without running the constructor. *)
Definition same_qty_structure (a b : qty) : bool := qcls_eqb (qc a) (qc b) && unit_eqb (qunit a) (qunit b).
Fixpoint same_structure (a b : list qty) : bool :=
  match a, b with
  | [], [] => true
  | x :: a, y :: b => same_qty_structure x y && same_structure a b
  | _, _ => false
  end.
Definition tag_eqb (a b : tag) : bool :=
  match a, b with
  | TPos c, TPos d => vcls_eqb (differential_cls c) (differential_cls d)
  | TVel c, TVel d => vcls_eqb c d
  | TAcc c, TAcc d => xcls_eqb c d
  | _, _ => false
  end.
Definition tree_eqb (v w : uvec) : bool :=
  tag_eqb (utag v) (utag w) && same_structure (ucomps v) (ucomps w) && same_structure (uattrs v) (uattrs w).
Definition map2q (f : ext -> ext -> ext) (a b : list qty) : list qty :=
  map (fun '(x, y) => mkQty (qc x) (f (qval x) (qval y)) (qunit x)) (combine a b).
Definition tree_map2 (f : ext -> ext -> ext) (v w : uvec) : res uvec :=
  if tree_eqb v w then ret (mkUvec (utag v) (map2q f (ucomps v) (ucomps w)) (map2q f (uattrs v) (uattrs w)))
  else Raise EValue.

(** [qlax.add(q, q')] on quantities (unxt library): the second is converted to the
    unit of the first *)
Definition qadd (a b : qty) : res qty :=
  do b' <- uconvert_q (qunit a) b; ret (mkQty (qc a) (nadd (qval a) (qval b')) (qunit a)).

(** ** [v + w] and [v - w] for Cartesian vectors of the same class ([represent_as] to
    the own class is the identity): d1/cartesian.py:67-92,206-228,297-319 (add),
    136-161,352-374 (sub; CartesianVel1D has none); d2/cartesian.py:81-101,218-235,331-348 (add),
    142-158 (sub; positions only); d3/cartesian.py:99-117 (positions: component-wise on
    quantities), 276-289, 386-389 (add), 135-151, 292-305, 415-418 (sub).
    The other combinations: positions of different classes are converted first
    (Arith.v, in SI) and are not modelled here; velocities and accelerations without
    a rule refuse to materialise (base/base.py:281-295). *)
Definition cart_add (v w : uvec) : res uvec :=
  match utag v, utag w with
  | TPos CCart3, TPos CCart3 =>
      do cs <- mapM (fun '(a, b) => qadd a b) (combine (ucomps v) (ucomps w));
      construct (TPos CCart3) cs (uattrs v)
  | TPos CCart1, TPos CCart1 | TPos CCart2, TPos CCart2
  | TVel WCart1, TVel WCart1 | TVel WCart2, TVel WCart2 | TVel WCart3, TVel WCart3
  | TAcc XCart1, TAcc XCart1 | TAcc XCart2, TAcc XCart2 | TAcc XCart3, TAcc XCart3 =>
      tree_map2 nadd v w
  | _, _ => Raise EType
  end.
Definition cart_sub (v w : uvec) : res uvec :=
  match utag v, utag w with
  | TPos CCart1, TPos CCart1 | TPos CCart2, TPos CCart2 | TPos CCart3, TPos CCart3
  | TVel WCart3, TVel WCart3
  | TAcc XCart1, TAcc XCart1 | TAcc XCart3, TAcc XCart3 =>
      tree_map2 nsub v w
  | _, _ => Raise EType
  end.
(** [v == w], [w] already of the class of [v]: base/base.py:545-618 *)
Definition vec_eq (v w : uvec) : res bool :=
  if tree_eqb v w then
    ret (forallb (fun '(a, b) => neqb (qval a) (qval b))
           (combine (ucomps v ++ uattrs v) (ucomps w ++ uattrs w)))
  else Raise EValue.
End Units.
