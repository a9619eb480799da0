(** * Velocities and accelerations whose components carry units.

    The same functions as in Vel.v (transform/velocities.py:27-167,
    transform/accelerations.py:25-199, d3/transform.py:831-931), written once for
    every number type and then run on unit-carrying numbers.  The Jacobian is that of
    the *stored* numbers; the code then builds each entry as
    [Quantity(value, row.unit / column.unit)] (velocities.py:137-146).

    Simplification: as UQ.v. *)
From Coq Require Import Reals Bool List ZArith.
From Verif Require Import Num Vectors Transform Vel Units UQ.
Import ListNotations.

Section Poly.
Context {A : Type} {NA : Num A}.
(** [replace(pos, r=pos.r.distance)]: transform/velocities.py:118-125 *)
Definition pcast (d : dist A) : rarg A := RKeep (mkDist KDistance (distance d)).
Definition pcast_distance (m : mode) (p : pos A) : res (pos A) :=
  match p with
  | PRadial r => mk_Radial m (pcast r)
  | PPolar r phi => mk_Polar m (pcast r) (AsAngle phi)
  | PSph r a b => mk_Sph m (pcast r) a (AsAngle b)
  | PMSph r a b => mk_MSph m (pcast r) (AsAngle a) b
  | PLonLat a b d => mk_LonLat m (AsAngle a) b (pcast d)
  | PProlate mu nu phi D => mk_Prolate m mu nu (AsAngle phi) D
  | _ => ret p
  end.
Variables (m : mode) (deg : bool) (fuel : nat).
(** [d3/transform.py:878-904] and the end of [832-875] *)
Definition platitude (position : pos A) : res A :=
  do p <- represent_as m deg fuel nokw position CLonLat;
  match p with PLonLat _ lat _ => ret lat | _ => Raise EAttribute end.
Definition plcl_to_lonlat (v : vel A) (position : pos A) : res (vel A) :=
  match vcomps v with
  | [a; b; c] => do lat <- platitude position; ret (mkVel WLonLat [ndiv a (ncos lat); b; c])
  | _ => Raise EType
  end.
Definition plonlat_to_lcl (v : vel A) (position : pos A) : res (vel A) :=
  match vcomps v with
  | [a; b; c] => do lat <- platitude position; ret (mkVel WLonCosLat [nmul a (ncos lat); b; c])
  | _ => Raise EType
  end.
(** the Jacobian by columns, and its product with a vector of components *)
Variable jac : kwargs A -> pos A -> pcls -> res (list (list A)).
Variable mv : nat -> list (list A) -> list A -> list A.
(** transform/velocities.py:27-167 *)
Definition pvel_generic (kw : kwargs A) (v : vel A) (t : vcls) (position : pos A) : res (vel A) :=
  do cp <- represent_as m deg fuel kw position (integral_cls (vc v));
  do cp <- pcast_distance m cp;
  do _ <- can_map (integral_cls (vc v));
  do j <- jac kw cp (integral_cls t);
  ret (mkVel t (mv (vdim t) j (vcomps v))).
Definition pvel_represent_as (kw : kwargs A) (v : vel A) (t : vcls) (position : pos A) : res (vel A) :=
  if vcls_eqb (vc v) t && negb (vcls_eqb t WTwoSphere) then ret v
  else if negb (Nat.eqb (vdim (vc v)) (vdim t)) then Raise ENotFound
  else match vc v, t with
  | WLonCosLat, WLonLat => plcl_to_lonlat v position
  | WLonCosLat, _ => do v' <- plcl_to_lonlat v position; pvel_generic nokw v' t position
  | WLonLat, WLonCosLat => plonlat_to_lcl v position
  | _, WLonCosLat => do v' <- pvel_generic nokw v WLonLat position; plonlat_to_lcl v' position
  | _, _ => pvel_generic kw v t position
  end.
(** transform/accelerations.py:25-199 *)
Definition pacc_represent_as (kw : kwargs A) (a : acc A) (t : xcls) (velocity : vel A) (position : pos A) : res (acc A) :=
  let vsrc := acc_integral_cls (xc a) in
  let vtgt := acc_integral_cls t in
  if negb (Nat.eqb (vdim vsrc) (vdim vtgt)) then Raise ENotFound
  else if xcls_eqb (xc a) t && Nat.eqb (vdim vsrc) 1%nat
  then ret a
  else
    do cp <- represent_as m deg fuel kw position (integral_cls vsrc);
    do cp <- pcast_distance m cp;
    do _ <- pvel_represent_as kw velocity vsrc cp;
    do _ <- can_map (integral_cls vsrc);
    do j <- jac nokw cp (integral_cls vtgt);
    match vtgt with
    | WProlate => Raise EType
    | _ => ret (mkAcc t (mv (vdim vtgt) j (xcomps a)))
    end.
End Poly.

(** On plain numbers these are the functions of Vel.v. *)
Lemma vel_represent_as_is_poly m deg fuel kw v t p :
  vel_represent_as m deg fuel kw v t p = pvel_represent_as m deg fuel (jacobian deg fuel) matvec kw v t p.
Proof. reflexivity. Qed.
Lemma acc_represent_as_is_poly m deg fuel kw a t v p :
  acc_represent_as m deg fuel kw a t v p = pacc_represent_as m deg fuel (jacobian deg fuel) matvec kw a t v p.
Proof. reflexivity. Qed.

(** ** On unit-carrying numbers *)
(** a stored number with a tangent *)
Definition utan (q : uq ext) (t : ext) : uq dual := mkUq (mkDual (uqv q) t) (uqd q) (uqs q).
Definition uconst (q : uq ext) : uq dual := utan q (Some 0%R).
Definition useed (p : pos (uq ext)) (ts : list ext) : pos (uq dual) :=
  let u i := nth i ts (Some 0%R) in
  let tan q i := utan q (u i) in
  let rad r i := mkDist (dk r) (tan (dval r) i) in
  match p with
  | PCart1 x => PCart1 (tan x 0%nat)
  | PRadial r => PRadial (rad r 0%nat)
  | PCart2 x y => PCart2 (tan x 0%nat) (tan y 1%nat)
  | PPolar r a => PPolar (rad r 0%nat) (tan a 1%nat)
  | PTwoSphere a b => PTwoSphere (tan a 0%nat) (tan b 1%nat)
  | PCart3 x y z => PCart3 (tan x 0%nat) (tan y 1%nat) (tan z 2%nat)
  | PCyl x y z => PCyl (tan x 0%nat) (tan y 1%nat) (tan z 2%nat)
  | PSph r a b => PSph (rad r 0%nat) (tan a 1%nat) (tan b 2%nat)
  | PMSph r a b => PMSph (rad r 0%nat) (tan a 1%nat) (tan b 2%nat)
  | PLonLat a b d => PLonLat (tan a 0%nat) (tan b 1%nat) (rad d 2%nat)
  | PProlate a b c D => PProlate (tan a 0%nat) (tan b 1%nat) (tan c 2%nat) (uconst D)
  end.
(** [Quantity(value, unit=row.unit / column.unit)]: velocities.py:137-146 *)
Definition jac_entry (row : uq dual) (col : uq ext) : uq ext :=
  mkUq (dd (uqv row)) (dim2 dim_div (uqd row) (uqd col)) (uqs row / uqs col).
Definition ujac_column deg fuel kw (p : pos (uq ext)) (t : pcls) (ix : nat * uq ext) : res (list (uq ext)) :=
  do q <- represent_as Traced deg fuel (kw_map uconst kw) (useed p (basis (length (components p)) (fst ix))) t;
  ret (map (fun row => jac_entry row (snd ix)) (components q)).
Definition ujacobian deg fuel kw p t : res (list (list (uq ext))) :=
  mapM (ujac_column deg fuel kw p t) (combine (seq 0%nat (length (components p))) (components p)).
(** [jnp.sum(jnp.stack(...), axis=0)] of the products: velocities.py:150-163;
    the sum is in the unit of the first product. *)
Fixpoint umatvec (n : nat) (cols : list (list (uq ext))) (v : list (uq ext)) : list (uq ext) :=
  match cols, v with
  | [c], [x] => map (fun j => nmul j x) c
  | c :: cols, x :: v => map (fun '(a, b) => nadd a b) (combine (map (fun j => nmul j x) c) (umatvec n cols v))
  | _, _ => []
  end.
Definition uvel_represent_as m deg fuel := pvel_represent_as (A := uq ext) m deg fuel (ujacobian deg fuel) umatvec.
Definition uacc_represent_as m deg fuel := pacc_represent_as (A := uq ext) m deg fuel (ujacobian deg fuel) umatvec.
