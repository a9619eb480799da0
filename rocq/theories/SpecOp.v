(** * Specification: what four-vectors and operators mean.

    An event is a place (Cartesian coordinates) and a time.  Each operator means
    a map of events, written down here from the textbook definition of the
    Galilean group; only the field names of the operator classes are used. *)
From Coq Require Import Reals List.
From Verif Require Import Num Vectors Spec Vel SpecVel FourVec Operators.
Import ListNotations.
Open Scope R_scope.

(** ** Lifting finite data into the model *)
Definition fv_map {A B} (f : A -> B) (v : fourvec A) : fourvec B := mkFV (f (ft v)) (pos_map f (fq v)) (f (fc v)).
Definition vel_map {A B} (f : A -> B) (v : vel A) : vel B := mkVel (vc v) (map f (vcomps v)).
Fixpoint op_map {A B} (f : A -> B) (o : op A) : op B :=
  match o with
  | OIdentity => OIdentity
  | OSpatial q => OSpatial (pos_map f q)
  | OTranslation v => OTranslation (fv_map f v)
  | ORotation M => ORotation (map (map f) M)
  | OBoost v => OBoost (vel_map f v)
  | OVelBoost v => OVelBoost (vel_map f v)
  | OPipe ops => OPipe (map (op_map f) ops)
  | OGalilean M T v => OGalilean (map (map f) M) (fv_map f T) (vel_map f v)
  end.
Definition value_map {A B} (f : A -> B) (x : value A) : value B :=
  match x with
  | VPos q => VPos (pos_map f q) | VPosT q t => VPosT (pos_map f q) (f t) | VFour v => VFour (fv_map f v)
  | VPosVel q v => VPosVel (pos_map f q) (vel_map f v) | VVel v => VVel (vel_map f v)
  | VArr x => VArr (map f x) | VArrT x t => VArrT (map f x) (f t)
  end.
Definition ofinite : op R -> op ext := @op_map R ext (@Some R).
Definition fvfinite : fourvec R -> fourvec ext := @fv_map R ext (@Some R).
Definition valfinite : value R -> value ext := @value_map R ext (@Some R).

(** ** Matrices *)
Definition rot (M : mat R) (x : list R) : list R := map (fun r => vsum (vmul r x)) M.
Definition square3 (M : mat R) : Prop := length M = 3%nat /\ Forall (fun r => length r = 3%nat) M.
(** Orthogonal: the rows are orthonormal. *)
Definition orthogonal (M : mat R) : Prop :=
  square3 M /\
  forall i j, (i < 3)%nat -> (j < 3)%nat ->
    vsum (vmul (nth i M []) (nth j M [])) = if Nat.eqb i j then 1 else 0.

(** ** Events and the maps of events *)
Definition event := (list R * R)%type.
(** Non-composite operators.  A velocity boost acts on velocities only. *)
Definition acts1 (o : op R) (e e' : event) : Prop :=
  let (x, t) := e in
  match o with
  | OIdentity | OVelBoost _ => e' = (x, t)
  | OSpatial q => exists b, denotes q b /\ e' = (vadd x b, t)
  | OTranslation v => exists b, denotes (fq v) b /\ e' = (vadd x b, t + ft v)
  | ORotation M => e' = (rot M x, t)
  | OBoost v => e' = (vadd x (vscale t (vcomps v)), t)
  | _ => False
  end.
(** Composites: the parts one after the other, the first one first. *)
Fixpoint acts (o : op R) (e e' : event) : Prop :=
  match o with
  | OPipe ops =>
      (fix chain (ops : list (op R)) (e : event) : Prop :=
         match ops with [] => e' = e | o :: ops => exists e1, acts o e e1 /\ chain ops e1 end) ops e
  | OGalilean M T v =>
      exists e1 e2, acts1 (ORotation M) e e1 /\ acts1 (OTranslation T) e1 e2 /\ acts1 (OBoost v) e2 e'
  | _ => acts1 o e e'
  end.
(** The events met on the way (the last one included, the first one not). *)
Fixpoint visits (o : op R) (e e' : event) : Prop :=
  match o with
  | OPipe ops =>
      (fix chain (ops : list (op R)) (e : event) : Prop :=
         match ops with
         | [] => False
         | o :: ops => visits o e e' \/ exists e1, acts o e e1 /\ chain ops e1
         end) ops e
  | OGalilean M T v =>
      acts1 (ORotation M) e e' \/
      exists e1, acts1 (ORotation M) e e1 /\
        (acts1 (OTranslation T) e1 e' \/ exists e2, acts1 (OTranslation T) e1 e2 /\ acts1 (OBoost v) e2 e')
  | _ => acts1 o e e'
  end.

(** ** Well-formed operators of dimension [n]: parameters are valid vectors of
    that dimension, boost velocities are Cartesian. *)
Definition good_pos (n : nat) (q : pos R) : Prop :=
  valid q /\ ~ negative_field q /\ cls_of q <> CTwoSphere /\ dim_of (cls_of q) = n.
Definition cart_vel (n : nat) (v : vel R) : Prop :=
  length (vcomps v) = n /\
  match n with 1%nat => vc v = WCart1 | 2%nat => vc v = WCart2 | 3%nat => vc v = WCart3 | _ => False end.
Definition good1 (n : nat) (o : op R) : Prop :=
  match o with
  | OIdentity => True
  | OSpatial q => good_pos n q
  | OTranslation v => n = 3%nat /\ good_pos 3 (fq v)
  | ORotation M => n = 3%nat /\ square3 M
  | OBoost v | OVelBoost v => cart_vel n v
  | OPipe _ => False
  | OGalilean M T v => n = 3%nat /\ square3 M /\ good_pos 3 (fq T) /\ cart_vel 3 v
  end.
Fixpoint good (n : nat) (o : op R) : Prop :=
  match o with
  | OPipe ops => (fix all ops := match ops with [] => True | o :: ops => good n o /\ all ops end) ops
  | _ => good1 n o
  end.

(** Invertible: rotation matrices are orthogonal and minus a translation can be
    held by the translation's own class. *)
Definition negatable (q : pos R) : Prop := forall b, denotes q b -> can_hold (cls_of q) (vscale (-1) b).
Definition invertible1 (o : op R) : Prop :=
  match o with
  | OSpatial q => negatable q
  | OTranslation v => negatable (fq v)
  | ORotation M => orthogonal M
  | OGalilean M T v => orthogonal M /\ negatable (fq T)
  | _ => True
  end.
Fixpoint invertible (o : op R) : Prop :=
  match o with
  | OPipe ops => (fix all ops := match ops with [] => True | o :: ops => invertible o /\ all ops end) ops
  | _ => invertible1 o
  end.

(** Rotation matrices are orthogonal. *)
Fixpoint rigid (o : op R) : Prop :=
  match o with
  | ORotation M | OGalilean M _ _ => orthogonal M
  | OPipe ops => (fix all ops := match ops with [] => True | o :: ops => rigid o /\ all ops end) ops
  | _ => True
  end.

(** Operators that can be applied to a place without a time. *)
Fixpoint timeless (o : op R) : Prop :=
  match o with
  | OTranslation _ | OBoost _ | OGalilean _ _ _ => False
  | OPipe ops => (fix all ops := match ops with [] => True | o :: ops => timeless o /\ all ops end) ops
  | _ => True
  end.
(** Operators that can be applied to a position and a velocity, and what they do
    to a Cartesian velocity. *)
Fixpoint steady (o : op R) : Prop :=
  match o with
  | OIdentity | OSpatial _ | OVelBoost _ => True
  | OPipe ops => (fix all ops := match ops with [] => True | o :: ops => steady o /\ all ops end) ops
  | _ => False
  end.
Fixpoint vel_acts (o : op R) (w : list R) : list R :=
  match o with
  | OVelBoost u => vadd w (vcomps u)
  | OPipe ops => fold_left (fun w o => vel_acts o w) ops w
  | _ => w
  end.
(** Operators containing a rotation. *)
Fixpoint rotates (o : op R) : bool :=
  match o with
  | ORotation _ | OGalilean _ _ _ => true
  | OPipe ops => existsb rotates ops
  | _ => false
  end.
(** Minkowski square of a four-vector at place [x], time [t]. *)
Definition interval2 (c t : R) (x : list R) : R := (c * t) * (c * t) - norm_of x * norm_of x.

(** The first two operators of a pipe that are not the identity are rotations. *)
Definition is_id {A} (o : op A) : bool := match o with OIdentity => true | _ => false end.
Definition clash (ops : list (op R)) : Prop :=
  match filter (fun o => negb (is_id o)) ops with
  | ORotation _ :: ORotation _ :: _ => True
  | _ => False
  end.
(** Two operators that do the same to every event and to every Cartesian velocity. *)
Definition same_effect (n : nat) (o o' : op R) : Prop :=
  (forall e e', length (fst e) = n -> (acts o' e e' <-> acts o e e')) /\
  (forall w, length w = n -> vel_acts o' w = vel_acts o w) /\
  (steady o -> steady o') /\ (timeless o -> timeless o').

(** Two position objects denote the same point. *)
Definition same_point (p q : pos R) : Prop := forall pt, denotes p pt <-> denotes q pt.
(** Arguments that are vectors (not arrays, not a lone velocity). *)
Definition vector_kind {A} (x : value A) : bool :=
  match x with VPos _ | VPosT _ _ | VFour _ | VPosVel _ _ => true | _ => false end.
