(** * The operators on positions and FourVectors, for every number type.

    Operators.v models the operators on SI values.  The same functions for
    positions, positions with a time and FourVectors are written here once for every
    number type, so that they can run on numbers that carry units (C66) and on
    floating-point numbers (C67).  GOpThm.v proves that on SI values they *are* the
    functions of Operators.v.  Sums and differences are those of TreeArith.v, which check
    units where the code does.

    Files modelled: as Operators.v and FourVec.v; the lines are cited there and below.
    Simplification: the sum in a matrix product is taken from left to right. *)
From Coq Require Import Reals Bool List ZArith.
From Verif Require Import Num Vectors Transform Arith TreeArith Vel FourVec Operators.
Import ListNotations.

Section GOp.
Context {A : Type} {NA : Num A} {SA : Static A}.
Variables (m : mode) (deg : bool) (fuel : nat).
(** the default speed of light: vectors/d4/spacetime.py:90-92 *)
Variable c0 : A.
Local Open Scope num_scope.
Notation rep := (represent_as m deg fuel nokw).

(** [vec_matmul] and [R.T]: galilean/rotation.py:28, 205-223; 3x3 matrices *)
Definition gdot (r x : list A) : A := sum_list (map (fun '(a, b) => a * b) (combine r x)).
Definition gmatmul_vec (R : mat A) (x : list A) : list A := map (fun r => gdot r x) R.
Definition gcolumn (j : nat) (R : mat A) : list A := map (fun r => nth j r (ncst 0)) R.
Definition gtranspose (R : mat A) : mat A := map (fun j => gcolumn j R) (seq 0 3).

(** galilean/rotation.py:263-289 *)
Definition grotate (R : mat A) (q : pos A) : res (pos A) :=
  match dim_of (cls_of q) with
  | 3%nat =>
      do x <- rep q CCart3;
      match x with
      | PCart3 a b c =>
          match gmatmul_vec R [a; b; c] with
          | [a'; b'; c'] => rep (PCart3 a' b' c') (cls_of q)
          | _ => Raise EValue
          end
      | _ => Raise EType
      end
  | _ => Raise ENotFound
  end.

(** base/base_vel.py:141-162 *)
Definition gpos_from_components (c : pcls) (x : list A) : res (pos A) :=
  match c, x with
  | CCart1, [a] => mk_Cart1 a
  | CRadial, [a] => mk_Radial m (RQty KDistance a)
  | CCart2, [a; b] => mk_Cart2 a b
  | CPolar, [a; b] => mk_Polar m (RQty KDistance a) (AsQty b)
  | CTwoSphere, [a; b] => mk_TwoSphere m a (AsQty b)
  | CCart3, [a; b; c] => mk_Cart3 a b c
  | CCyl, [a; b; c] => mk_Cyl m a (AsQty b) c
  | CSph, [a; b; c] => mk_Sph m (RQty KDistance a) b (AsQty c)
  | CMSph, [a; b; c] => mk_MSph m (RQty KDistance a) (AsQty b) c
  | CLonLat, [a; b; c] => mk_LonLat m (AsQty a) b (RQty KDistance c)
  | _, _ => Raise EType
  end.
Definition gvel_mul_time (v : vel A) (t : A) : res (pos A) :=
  match vc v with
  | WLonCosLat => Raise EType
  | c => gpos_from_components (integral_cls c) (map (fun x => x * t) (vcomps v))
  end.
(** base/base_vel.py:107-127 *)
Definition gvel_neg (v : vel A) : vel A := mkVel (vc v) (map nneg (vcomps v)).

(** d4/spacetime.py:192-208, 311-336, 339-364 *)
Definition gfv_neg (v : fourvec A) : res (fourvec A) :=
  do q <- pos_neg m deg fuel (fq v); ret (mkFV (- ft v) q (fc v)).
Definition gfv_add (v w : fourvec A) : res (fourvec A) :=
  do q <- tpos_add m deg fuel (fq v) (fq w); ret (mkFV (ft v + ft w) q (fc v)).
Definition gfv_sub (v w : fourvec A) : res (fourvec A) :=
  do q <- tpos_sub m deg fuel (fq v) (fq w); ret (mkFV (ft v - ft w) q (fc v)).

(** galilean/boost.py:127-176 *)
Definition gboost_pos (v : vel A) (q : pos A) (t : A) : res (pos A) :=
  do d <- gvel_mul_time v t; tpos_add m deg fuel q d.

(** Application to a position, a position and a time, or a FourVector: the lines
    cited at [call_vec] in Operators.v. *)
Definition gcall_vec (o : op A) (x : value A) : res (value A) :=
  match o, x with
  | OIdentity, _ => ret x
  | OSpatial tr, VPos q => do q' <- tpos_add m deg fuel q tr; ret (VPos q')
  | OSpatial tr, VPosT q t => do q' <- tpos_add m deg fuel q tr; ret (VPosT q' t)
  | OSpatial tr, VFour v => do q' <- tpos_add m deg fuel (fq v) tr; ret (VFour (mkFV (ft v) q' (fc v)))
  | OTranslation w, VFour v => do v' <- gfv_add v w; ret (VFour v')
  | OTranslation w, VPosT q t =>
      match dim_of (cls_of q) with
      | 3%nat => do q' <- tpos_add m deg fuel q (fq w); ret (VPosT q' (t + ft w))
      | _ => Raise ENotFound
      end
  | ORotation R, VPos q => do q' <- grotate R q; ret (VPos q')
  | ORotation R, VPosT q t => do q' <- grotate R q; ret (VPosT q' t)
  | ORotation R, VFour v => do q' <- grotate R (fq v); ret (VFour (mkFV (ft v) q' c0))
  | OBoost v, VPosT q t => do q' <- gboost_pos v q t; ret (VPosT q' t)
  | OBoost v, VFour w => do q' <- gboost_pos v (fq w) (ft w); ret (VFour (mkFV (ft w) q' (fc w)))
  | OVelBoost w, (VPos _ | VPosT _ _ | VFour _) => ret x
  | _, _ => Raise ENotFound
  end.
(** composites: pipe.py:89-133, galilean/composite.py:159-164 *)
Fixpoint gcall (o : op A) (x : value A) {struct o} : res (value A) :=
  let fix go (ops : list (op A)) (x : value A) : res (value A) :=
    match ops with
    | [] => ret x
    | o :: ops => do y <- gcall o x; go ops y
    end in
  match o with
  | OPipe ops => go ops x
  | OGalilean R T V => do y <- gcall_vec (ORotation R) x; do z <- gcall_vec (OTranslation T) y; gcall_vec (OBoost V) z
  | _ => gcall_vec o x
  end.

(** Inverses: the lines cited at [inverse] in Operators.v. *)
Fixpoint ginverse (o : op A) : res (op A) :=
  let fix go (ops : list (op A)) : res (list (op A)) :=
    match ops with
    | [] => ret []
    | o :: ops => do l <- go ops; do i <- ginverse o; ret (l ++ [i])
    end in
  match o with
  | OIdentity => ret OIdentity
  | OSpatial q => do n <- pos_neg m deg fuel q; ret (OSpatial n)
  | OTranslation v => do n <- gfv_neg v; ret (OTranslation n)
  | ORotation R => ret (ORotation (gtranspose R))
  | OBoost v => ret (OBoost (gvel_neg v))
  | OVelBoost v => ret (OVelBoost (gvel_neg v))
  | OPipe ops => do l <- go ops; ret (OPipe l)
  | OGalilean R T V =>
      do n <- gfv_neg T;
      ret (OPipe [OBoost (gvel_neg V); OTranslation n; ORotation (gtranspose R)])
  end.

(** The values this file is about. *)
Definition vector_value (x : value A) : Prop :=
  match x with VPos _ | VPosT _ _ | VFour _ => True | _ => False end.
End GOp.
