(** * Rotations: [@], unary minus of operators, [from_euler].

    Files modelled (under /repo/src/coordinax/_src/operators): galilean/rotation.py
    (from_euler 141-164, __neg__ 321-337, __matmul__ 339-340 and 372-404),
    galilean/spatial_translation.py:236-250, galilean/boost.py:181-195, boost.py:132-146
    (__neg__). *)
From Coq Require Import Reals List Bool.
From Verif Require Import Num Vectors Transform Arith Vel FourVec Operators Frames.
Import ListNotations.

(** [a @ b]: only GalileanRotation defines it, and only for another rotation:
    rotation.py:339-340, 372-404 (plum: NotFoundLookupError otherwise); the other
    classes have no [__matmul__] (TypeError). *)
Definition op_matmul (a b : op ext) : res (op ext) :=
  match a, b with
  | ORotation P, ORotation Q => ret (ORotation (matmul P Q))
  | ORotation _, _ => Raise ENotFound
  | _, _ => Raise EType
  end.

(** [-op]: rotation.py:321-337, spatial_translation.py:236-250, galilean/boost.py:181-195,
    boost.py:132-146; Identity, GalileanTranslation, Pipe and GalileanOperator have no
    [__neg__] (TypeError). *)
Definition op_neg (m : mode) (deg : bool) (fuel : nat) (o : op ext) : res (op ext) :=
  match o with
  | ORotation P => ret (ORotation (map (map nneg) P))
  | OSpatial q => do n <- pos_neg m deg fuel q; ret (OSpatial n)
  | OBoost v => ret (OBoost (vel_neg v))
  | OVelBoost v => ret (OVelBoost (vel_neg v))
  | _ => Raise EType
  end.

(** [GalileanRotation.from_euler(seq, angles)]: rotation.py:141-164.  [seq] is a string of
    one to three letters, all lower case (rotations about the fixed axes, one after
    the other) or all upper case (about the axes moved along).  The composition of
    the elementary rotations is the library's ([jax.scipy.spatial.transform.Rotation]):
    simplification: matrices in place of its quaternions, one angle per letter. *)
Inductive axis := AX | AY | AZ.
Definition axis_eqb (a b : axis) : bool :=
  match a, b with AX, AX | AY, AY | AZ, AZ => true | _, _ => false end.
Definition elementary (a : axis) (t : ext) : mat ext :=
  match a with AX => euler_x t | AY => euler_y t | AZ => euler_z t end.
Fixpoint repeats (s : list axis) : bool :=
  match s with a :: ((b :: _) as s') => axis_eqb a b || repeats s' | _ => false end.
Fixpoint compose_euler (lower : bool) (acc : mat ext) (s : list (axis * ext)) : mat ext :=
  match s with
  | [] => acc
  | (a, t) :: s => compose_euler lower (if lower then matmul (elementary a t) acc else matmul acc (elementary a t)) s
  end.
Definition from_euler (lower : bool) (seq : list axis) (angles : list ext) : res (op ext) :=
  if Nat.leb 1 (length seq) && Nat.leb (length seq) 3 && negb (repeats seq) && Nat.eqb (length angles) (length seq)
  then match combine seq angles with
       | (a, t) :: s => ret (ORotation (compose_euler lower (elementary a t) s))
       | [] => Raise EValue
       end
  else Raise EValue.
