(** * Elementary functions of Angle and Distance objects; conversion and promotion.

    Files modelled (under /repo/src/coordinax/_src): angles/base.py,
    angles/compat.py, angles/register_primitives.py, distances/compat.py,
    distances/register_primitives.py.  The objects are the quantities of Units.v
    (class, value, unit).  The results carry units with rational exponents
    (m^(1/2)), hence [funit]/[fqty] below.

    Simplification: one array element, except in [dot], which takes the list of
    the values of a 1-d array. *)
From Coq Require Import Reals Bool List ZArith QArith Qreals.
From Verif Require Import Num Vectors Units.
Import ListNotations.

(** ** Units with rational exponents (astropy's [unit ** p]) *)
Record fdim := mkFDim { f_len : Q; f_mass : Q; f_time : Q; f_ang : Q; f_mag : Q }.
Definition fdim_eqb (a b : fdim) : bool :=
  Qeq_bool (f_len a) (f_len b) && Qeq_bool (f_mass a) (f_mass b) && Qeq_bool (f_time a) (f_time b)
  && Qeq_bool (f_ang a) (f_ang b) && Qeq_bool (f_mag a) (f_mag b).
Record funit := mkFUnit { fu_dim : fdim; fu_scale : R }.
(** a Quantity (class and all) with such a unit *)
Record fqty := mkFQty { fq_cls : qcls; fq_val : ext; fq_unit : funit }.
Definition fone : funit := mkFUnit (mkFDim 0 0 0 0 0) 1%R.
(** SI magnitude *)
Definition fphys (q : fqty) : ext := lift1 (fun x => (x * fu_scale (fq_unit q))%R) (fq_val q).

(** [unit ** p]: exponents times [p], scale to the power [p] (scales are positive) *)
Definition scale_dim (d : dim) (p : Q) : fdim :=
  mkFDim (inject_Z (d_len d) * p) (inject_Z (d_mass d) * p) (inject_Z (d_time d) * p)
         (inject_Z (d_ang d) * p) (inject_Z (d_mag d) * p).
Definition unit_pow (u : unit_) (p : Q) : funit := mkFUnit (scale_dim (udim u) p) (Rpower (uscale u) (Q2R p)).
(** [unit * unit'] *)
Definition unit_mul (u v : unit_) : funit :=
  mkFUnit (mkFDim (inject_Z (d_len (udim u) + d_len (udim v))) (inject_Z (d_mass (udim u) + d_mass (udim v)))
                  (inject_Z (d_time (udim u) + d_time (udim v))) (inject_Z (d_ang (udim u) + d_ang (udim v)))
                  (inject_Z (d_mag (udim u) + d_mag (udim v))))
          (uscale u * uscale v)%R.

(** ** Numeric primitives of JAX (library) *)
(** [lax.cbrt]: real cube root *)
Definition Rcbrt (x : R) : R :=
  if Rltb 0 x then Rpower x (1 / 3) else if Rltb x 0 then (- Rpower (- x) (1 / 3))%R else 0%R.
(** [lax.integer_pow] *)
Definition eipow (x : ext) (y : Z) : ext :=
  match x with
  | Some a => if Reqb a 0 && Z.ltb y 0 then None else Some (powerRZ a y)
  | None => if Z.eqb y 0 then Some 1%R else None
  end.
(** [lax.pow] with a (rational) floating-point exponent: NaN for a negative base and
    a non-integer exponent *)
Definition epow (x : ext) (y : Q) : ext :=
  match x with
  | Some a =>
      if Rltb 0 a then Some (Rpower a (Q2R y))
      else match Qden (Qred y) with
           | 1%positive => eipow (Some a) (Qnum (Qred y))
           | _ => if Reqb a 0 then (if Qle_bool y 0 then None else Some 0%R) else None
           end
  | None => if Qeq_bool y 0 then Some 1%R else None
  end.

(** ** Class checks in the constructors: angles/base.py:38-42;
    distances/core.py:45-49, 142-153 (the sign check is in Distances.v), 223-227;
    the plain Quantity takes anything. *)
Definition cls_check (c : qcls) (u : unit_) : bool :=
  match c with
  | QQuantity => true
  | QAngle | QParallax => dim_eqb (udim u) angle_d
  | QDistance => dim_eqb (udim u) length_d
  | QDistMod => unit_eqb u mag_unit
  end.
Definition mk_Qty (c : qcls) (v : ext) (u : unit_) : res qty :=
  if cls_check c u then ret (mkQty c v u) else Raise EValue.

(** ** Registered primitives *)
(** angles/register_primitives.py:35-48, distances/register_primitives.py:35-49 *)
Definition q_cbrt (x : qty) : res fqty := ret (mkFQty QQuantity (lift1 Rcbrt (qval x)) (unit_pow (qunit x) (1 # 3))).
(** angles/register_primitives.py:164-179, distances/register_primitives.py:136-156 *)
Definition q_sqrt (x : qty) : res fqty := ret (mkFQty QQuantity (nsqrt (qval x)) (unit_pow (qunit x) (1 # 2))).
(** angles/register_primitives.py:104-117, distances/register_primitives.py:97-109 *)
Definition q_integer_pow (x : qty) (y : Z) : res fqty :=
  ret (mkFQty QQuantity (eipow (qval x) y) (unit_pow (qunit x) (inject_Z y))).
(** angles/register_primitives.py:123-138, distances/register_primitives.py:115-130
    (through unxt's power of a Quantity, library) *)
Definition q_pow (x : qty) (y : Q) : res fqty :=
  ret (mkFQty QQuantity (epow (qval x) y) (unit_pow (qunit x) y)).
(** [u.ustrip(radian, x)] *)
Definition strip_rad (x : qty) : res ext := if dim_eqb (qdim x) angle_d then ret (phys x) else Raise EUnit.
(** angles/register_primitives.py:55-68, 144-157: on Angles *)
Definition q_cos (x : qty) : res fqty := do v <- strip_rad x; ret (mkFQty QQuantity (ncos v) fone).
Definition q_sin (x : qty) : res fqty := do v <- strip_rad x; ret (mkFQty QQuantity (nsin v) fone).
(** distances/register_primitives.py:162-169: radians if the unit is an angle,
    otherwise a dimensionless number is asked for, which lengths and magnitudes are not *)
Definition q_tan (x : qty) : res fqty := do v <- strip_rad x; ret (mkFQty QQuantity (ntan v) fone).
(** angles/register_primitives.py:75-97, distances/register_primitives.py:54-91:
    [x @ y], [jnp.vecdot(x, y)] of two 1-d arrays; unequal lengths raise (library) *)
Record qarr := mkQArr { qa_cls : qcls; qa_vals : list ext; qa_unit : unit_ }.
Definition edot (x y : list ext) : ext := fold_right nadd (Some 0%R) (map (fun '(a, b) => nmul a b) (combine x y)).
Definition q_dot (x y : qarr) : res fqty :=
  if Nat.eqb (length (qa_vals x)) (length (qa_vals y))
  then ret (mkFQty QQuantity (edot (qa_vals x) (qa_vals y)) (unit_mul (qa_unit x) (qa_unit y)))
  else Raise EType.

(** ** [plum.convert] : angles/compat.py:22-78, distances/compat.py:24-109.
    A value already of the class is returned itself; otherwise value and unit are
    passed to the constructor of the class. *)
Definition q_convert (x : qty) (c : qcls) : res qty :=
  if qcls_eqb (qc x) c then ret x else mk_Qty c (qval x) (qunit x).
(** [plum.promote] of two quantities: angles/compat.py:19, distances/compat.py:17: an
    Angle or distance next to a Quantity becomes a Quantity.  No rule relates two
    different specialised classes. *)
Definition q_promote (x y : qty) : res (qty * qty) :=
  if qcls_eqb (qc x) (qc y) then ret (x, y)
  else match qc x, qc y with
  | QQuantity, _ => do y' <- q_convert y QQuantity; ret (x, y')
  | _, QQuantity => do x' <- q_convert x QQuantity; ret (x', y)
  | _, _ => Raise EType
  end.
