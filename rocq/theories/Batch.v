(** * Batched conversions: [represent_as] on arrays of positions, velocities and
    accelerations.

    Files modelled (under /repo/src/coordinax/_src/vectors): transform/velocities.py:98-163
    and transform/accelerations.py:117-199 (the "shape munging"), d3/transform.py:828-931
    (the LonCosLat overloads, which broadcast), the self overloads d1/transform.py:48-93,
    d2/transform.py:39-52, d3/transform.py:100-180.

    A batch is an array (Shapes.v) of elements; a batch vector whose components have
    different shapes is identified with its [full_shaped] version.  The position code
    consists of element-wise array operations: it raises as soon as a check fails on
    one element.  Simplification: for a batch without elements the model of a position
    conversion never raises. *)
From Coq Require Import Reals List Bool ZArith.
From Verif Require Import Num Vectors Transform Vel Shapes.
Import ListNotations.

(** element-wise code: run on the elements in C order (which failure is reported
    first when several elements fail is not specified by the code) *)
Definition b_map {T U} (d : U) (f : T -> res U) (a : arr T) : res (arr U) :=
  do l <- mapR f (elements a);
  ret (mkArr (ash a) (fun idx => nth (ravel_index (ash a) idx) l d)).
Definition b_pair {T U} (a : arr T) (b : arr U) : arr (T * U) :=
  mkArr (ash a) (fun idx => (adat a idx, adat b idx)).
(** element-wise code with broadcasting *)
Definition b_broadcast {T U} (a : arr T) (b : arr U) : res (arr (T * U)) :=
  do s <- broadcast_shapes [ash a; ash b];
  ret (b_pair (broadcast_to a s) (broadcast_to b s)).

Definition bpos := arr (pos ext).
Record bvel := mkBVel { bvc : vcls; bvdat : arr (list ext) }.
Record bacc := mkBAcc { bxc : xcls; bxdat : arr (list ext) }.
Definition p0 : pos ext := PCart1 None.

Section Batch.
Variables (m : mode) (deg : bool) (fuel : nat).

(** [represent_as(positions, target)] *)
Definition b_represent_as (kw : kwargs ext) (P : bpos) (t : pcls) : res bpos :=
  b_map p0 (fun p => represent_as m deg fuel kw p t) P.
(** transform/velocities.py:118-125 *)
Definition b_cast_distance (P : bpos) : res bpos := b_map p0 (cast_distance m) P.
(** transform/velocities.py:134-163: Jacobian of every element times the components *)
Definition b_push (kw : kwargs ext) (n : nat) (t : pcls) (P : bpos) (x : arr (list ext)) : res (arr (list ext)) :=
  b_map [] (fun '(p, x) => do j <- jacobian deg fuel kw p t; ret (matvec n j x)) (b_pair P x).

(** the generic overload: transform/velocities.py:98-163 *)
Definition b_vel_generic (kw : kwargs ext) (v : bvel) (t : vcls) (P : bpos) : res bvel :=
  let shape := ash (bvdat v) in
  let flat_shape := [Z.of_nat (prod shape)] in
  do P <- arr_reshape P flat_shape;
  do cp <- b_represent_as kw P (integral_cls (bvc v));
  do cp <- b_cast_distance cp;
  do _ <- can_map (integral_cls (bvc v));
  do x <- arr_reshape (bvdat v) flat_shape;
  do y <- b_push kw (vdim t) (integral_cls t) cp x;
  do y <- arr_reshape y (map Z.of_nat shape);
  ret (mkBVel t y).

(** d3/transform.py:884-909 *)
Definition b_lcl_to_lonlat (v : bvel) (P : bpos) : res bvel :=
  do q <- b_represent_as nokw P CLonLat;
  do pr <- b_broadcast (bvdat v) q;
  do y <- b_map [] (fun '(x, p) => match x, p with
                    | [a; b; c], PLonLat _ lat _ => ret [ndiv a (ncos lat); b; c]
                    | [_; _; _], _ => Raise EAttribute
                    | _, _ => Raise EType end) pr;
  ret (mkBVel WLonLat y).
(** d3/transform.py:873-881 *)
Definition b_lonlat_to_lcl (v : bvel) (P : bpos) : res bvel :=
  do q <- b_represent_as nokw P CLonLat;
  do pr <- b_broadcast (bvdat v) q;
  do y <- b_map [] (fun '(x, p) => match x, p with
                    | [a; b; c], PLonLat _ lat _ => ret [nmul a (ncos lat); b; c]
                    | [_; _; _], _ => Raise EAttribute
                    | _, _ => Raise EType end) pr;
  ret (mkBVel WLonCosLat y).

(** overload resolution: as [vel_represent_as] in Vel.v *)
Definition b_vel_represent_as (kw : kwargs ext) (v : bvel) (t : vcls) (P : bpos) : res bvel :=
  if vcls_eqb (bvc v) t && negb (vcls_eqb t WTwoSphere) then ret v
  else if negb (Nat.eqb (vdim (bvc v)) (vdim t)) then Raise ENotFound
  else match bvc v, t with
  | WLonCosLat, WLonLat => b_lcl_to_lonlat v P
  | WLonCosLat, _ => do v' <- b_lcl_to_lonlat v P; b_vel_generic nokw v' t P
  | WLonLat, WLonCosLat => b_lonlat_to_lcl v P
  | _, WLonCosLat => do v' <- b_vel_generic nokw v WLonLat P; b_lonlat_to_lcl v' P
  | _, _ => b_vel_generic kw v t P
  end.

(** transform/accelerations.py:117-199 *)
Definition b_acc_represent_as (kw : kwargs ext) (a : bacc) (t : xcls) (v : bvel) (P : bpos) : res bacc :=
  let vsrc := acc_integral_cls (bxc a) in
  let vtgt := acc_integral_cls t in
  if negb (Nat.eqb (vdim vsrc) (vdim vtgt)) then Raise ENotFound
  else if xcls_eqb (bxc a) t && Nat.eqb (vdim vsrc) 1%nat then ret a
  else
    let shape := ash (bxdat a) in
    let flat_shape := [Z.of_nat (prod shape)] in
    do P <- arr_reshape P flat_shape;
    do w <- arr_reshape (bvdat v) flat_shape;
    do cp <- b_represent_as kw P (integral_cls vsrc);
    do cp <- b_cast_distance cp;
    do _ <- b_vel_represent_as kw (mkBVel (bvc v) w) vsrc cp;
    do _ <- can_map (integral_cls vsrc);
    do x <- arr_reshape (bxdat a) flat_shape;
    do y <- b_push nokw (vdim vtgt) (integral_cls vtgt) cp x;
    match vtgt with
    | WProlate => Raise EType
    | _ => do y <- arr_reshape y (map Z.of_nat shape); ret (mkBAcc t y)
    end.
End Batch.
