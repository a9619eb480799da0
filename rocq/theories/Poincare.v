(** * Poincare polar vectors.

    Files modelled (under /repo/src/coordinax/_src/vectors): dn/poincare.py:19-59,
    transform/dn.py:15-59, transform/space.py:15-70. *)
From Coq Require Import List Bool String Reals.
From Verif Require Import Num Vectors Transform Vel Shapes Space.
Import ListNotations.
Local Open Scope num_scope.

(** dn/poincare.py:19-46.  No range checks. *)
Record poincare := mkPP { pp_rho : ext; pp_phi : ext; pp_z : ext; pp_drho : ext; pp_dphi : ext; pp_dz : ext }.

Section Poincare.
Context (L : dimlib) (m : mode) (deg : bool) (fuel : nat).

(** [represent_as(space, Space)]: transform/space.py:15-33 *)
Definition space_to_space (s : space sval) : res (space sval) := ret s.

(** [represent_as(space, PoincarePolarVector)]: transform/space.py:36-70.
    [.represent_as(CylindricalPos)] of something that is not a position, and
    [.represent_as(CylindricalVel, q)] of something that is not a velocity, find no
    method. *)
Definition to_poincare (s : space sval) : res poincare :=
  do l <- space_get L s (KStr "length");
  do q <- match l with SP p => represent_as m deg fuel nokw p CCyl | _ => Raise ENotFound end;
  do w <- space_get L s (KStr "speed");
  do p <- match w with SV v => vel_represent_as m deg fuel nokw v WCyl q | _ => Raise ENotFound end;
  match q, vcomps p with
  | PCyl rho phi z, [d_rho; d_phi; d_z] =>
      let sqrt2theta := nsqrt (nabs (ncst 2%R * nsq rho * d_phi)) in
      ret (mkPP rho (sqrt2theta * ncos phi) z d_rho (sqrt2theta * nsin phi) d_z)
  | _, _ => Raise EAttribute
  end.

(** [represent_as(w, Space)]: transform/dn.py:15-59.  [phi] is a plain Quantity, so
    the constructor of CylindricalPos wraps it. *)
Definition from_poincare (w : poincare) : res (space sval) :=
  let phi := natan2 (pp_dphi w) (pp_phi w) in
  let d_phi := (nsq (pp_phi w) + nsq (pp_dphi w)) / ncst 2%R / nsq (pp_rho w) in
  do q <- mk_Cyl m (pp_rho w) (AsQty phi) (pp_z w);
  mk_space L sval_shape
    [(KStr "length"%string, SP q); (KStr "speed"%string, SV (mkVel WCyl [pp_drho w; d_phi; pp_dz w]))].
End Poincare.
