(** * Reference frames and the ICRS <-> Galactocentric operators.

    Files modelled (under /repo/src/coordinax): _src/frames/xfm.py,
    _src/frames/null.py, _coordinax_space_frames/{icrs,galactocentric,
    frame_transforms}.py and [GalileanRotation.from_euler],
    _src/operators/galilean/rotation.py:141-164.

    Simplification: one array element, consistent units. *)
From Coq Require Import Reals Bool List.
From Verif Require Import Num Vectors Transform Arith Vel FourVec Operators.
Import ListNotations.

(** ** Galactocentric: galactocentric.py:24-79.  [galcen] is a
    LonLatSphericalPos, [galcen_v_sun] a CartesianVel3D. *)
Record gcf (A : Type) := mkGCF {
  g_lon : A; g_lat : A; g_dist : dist A; g_roll : A; g_zsun : A; g_vsun : list A }.
Arguments mkGCF {A}. Arguments g_lon {A}. Arguments g_lat {A}. Arguments g_dist {A}.
Arguments g_roll {A}. Arguments g_zsun {A}. Arguments g_vsun {A}.
(** [roll0], 58.5986320306 degrees: galactocentric.py:79 *)
Definition roll0 : R := (585986320306 / 10000000000 * (PI / 180))%R.

(** Frames: NoFrame (frames/null.py:11-12), ICRS (icrs.py:19-20), Galactocentric. *)
Inductive frame (A : Type) := NoFrame | ICRS | GCF (g : gcf A).
Arguments NoFrame {A}. Arguments ICRS {A}. Arguments GCF {A}.

(** The operators returned by [frame_transform_op]. *)
Inductive fop (A : Type) :=
| FIdentity
| FToGCF (g : gcf A)        (* _ICRS2GCFOperator(gcf) *)
| FToICRS (g : gcf A)       (* _GCF2ICRSOperator(gcf) *)
| FPipe (ops : list (fop A)).
Arguments FIdentity {A}. Arguments FToGCF {A}. Arguments FToICRS {A}. Arguments FPipe {A}.

(** The arguments: one position vector; position and velocity vectors; a length
    array of shape (3,); a length and a speed array of shape (3,). *)
Inductive fvalue (A : Type) :=
| FPos (q : pos A) | FPosVel (q : pos A) (v : vel A) | FArr (x : list A) | FArrs (x p : list A).
Arguments FPos {A}. Arguments FPosVel {A}. Arguments FArr {A}. Arguments FArrs {A}.

(** [jnp.asin] *)
Definition easin (x : ext) : ext :=
  match x with
  | Some a => if Rleb (-1) a && Rleb a 1 then Some (asin a) else None
  | None => None
  end.

Section Frames.
Variables (m : mode) (deg : bool) (fuel : nat).
Local Open Scope num_scope.
Notation zero := (Some 0%R : ext).
Notation one := (Some 1%R : ext).

(** [GalileanRotation.from_euler(axis, angle)], rotation.py:141-164: the
    (active, right-handed) rotation about one axis. *)
Definition euler_x (a : ext) : mat ext := [[one; zero; zero]; [zero; ncos a; - nsin a]; [zero; nsin a; ncos a]].
Definition euler_y (a : ext) : mat ext := [[ncos a; zero; nsin a]; [zero; one; zero]; [- nsin a; zero; ncos a]].
Definition euler_z (a : ext) : mat ext := [[ncos a; - nsin a; zero]; [nsin a; ncos a; zero]; [zero; zero; one]].

(** [_icrs_cartesian_to_gcf_cartesian_matrix_vectors]: frame_transforms.py:84-108.
    [z_sun / distance] is a length ratio only if the distance is a length. *)
Definition to_gcf_parts (g : gcf ext) : res (mat ext * pos ext * list ext) :=
  match dk (g_dist g) with
  | KDistance =>
      let mat1 := euler_y (g_lat g) in
      let mat2 := euler_z (- g_lon g) in
      let mat0 := euler_x (g_roll g - ncst roll0) in
      let R := matmul (matmul mat0 mat1) mat2 in
      let z_d := g_zsun g / dval (g_dist g) in
      let H := euler_y (easin z_d) in
      let A := matmul H R in
      do offset <- cart_from (matmul_vec (map (map nneg) H) [dval (g_dist g) * one; dval (g_dist g) * zero; dval (g_dist g) * zero]);
      ret (A, offset, g_vsun g)
  | _ => Raise EUnit
  end.
(** [_gcf_cartesian_to_icrs_cartesian_matrix_vectors]: frame_transforms.py:322-334 *)
Definition to_icrs_parts (g : gcf ext) : res (mat ext * pos ext * list ext) :=
  do x <- to_gcf_parts g;
  let '(A, offset, offset_v) := x in
  let B := transpose A in
  do n <- pos_neg m deg fuel offset;
  do offset' <- rotate m deg fuel B n;
  ret (B, offset', matmul_vec B (map nneg offset_v)).

(** [_call_q] on a length array: frame_transforms.py:204-207, 435-438: rotate the
    array (rotation.py:227-261), then apply the translation to it (compat.py:122-152). *)
Definition apply_q (parts : mat ext * pos ext * list ext) (x : list ext) : res (list ext) :=
  let '(A, offset, _) := parts in
  do r <- call m deg fuel (ORotation A) (VArr x);
  do s <- call m deg fuel (OSpatial offset) r;
  match s with VArr y => ret y | _ => Raise EType end.
(** Column [i] of the Jacobian of [_call_q] by forward differentiation:
    frame_transforms.py:255, 487; the frame is a constant. *)
Definition gdot {T} `{Num T} (r x : list T) : T := fold_right nadd (ncst 0%R) (map (fun '(a, b) => a * b) (combine r x)).
Definition frame_column (parts : mat ext * pos ext * list ext) (x : list ext) (i : nat) : res (list ext) :=
  let '(A, offset, _) := parts in
  let s := map (fun j => mkDual (nth j x zero) (Some (if Nat.eqb i j then 1%R else 0%R))) (seq 0 3) in
  match map (fun r => gdot (map dconst r) s) A with
  | [a; b; c] =>
      do o <- represent_as m deg fuel nokw offset CCart3;
      do y <- pos_add Traced deg fuel (PCart3 a b c) (pos_map dconst o);
      ret (map dd (components y))
  | _ => Raise EValue
  end.
(** [__call__(q, p)] on arrays: frame_transforms.py:227-258, 458-490 *)
Definition apply_qp (parts : mat ext * pos ext * list ext) (x p : list ext) : res (list ext * list ext) :=
  do q' <- apply_q parts x;
  do jac <- mapM (frame_column parts x) (seq 0 3);
  ret (q', vplus (matvec 3 jac p) (snd parts)).

(** [op(...)] of the two operators; the shape annotations ask for shape (3,).
    - vectors (q, p): frame_transforms.py:260-290, 492-523; results Cartesian.
    - a single vector: no overload here nor in AbstractOperator. *)
Definition frame_call (parts : res (mat ext * pos ext * list ext)) (x : fvalue ext) : res (fvalue ext) :=
  match x with
  | FArr x => match x with
              | [_; _; _] => do ps <- parts; do y <- apply_q ps x; ret (FArr y)
              | _ => Raise ENotFound
              end
  | FArrs x p => match x, p with
                 | [_; _; _], [_; _; _] => do ps <- parts; do y <- apply_qp ps x p; ret (FArrs (fst y) (snd y))
                 | _, _ => Raise ENotFound
                 end
  | FPosVel q v =>
      match dim_of (cls_of q) with
      | 3%nat =>
          do c <- vel_represent_as m deg fuel nokw v WCart3 q;
          do x <- cart_components m deg fuel q;
          do ps <- parts;
          do y <- apply_qp ps x (vcomps c);
          do q' <- cart_from (fst y);
          ret (FPosVel q' (mkVel WCart3 (snd y)))
      | _ => Raise ENotFound
      end
  | FPos _ => Raise ENotFound
  end.

(** [op(...)]; Pipe: operators/pipe.py:89-133, and operators/compat.py:122-152 for
    an array (the whole pipe is applied to a CartesianPos3D). *)
Fixpoint fcall (o : fop ext) (x : fvalue ext) {struct o} : res (fvalue ext) :=
  let fix go (ops : list (fop ext)) (x : fvalue ext) : res (fvalue ext) :=
    match ops with
    | [] => ret x
    | o :: ops => do y <- fcall o x; go ops y
    end in
  match o with
  | FIdentity => ret x
  | FToGCF g => frame_call (to_gcf_parts g) x
  | FToICRS g => frame_call (to_icrs_parts g) x
  | FPipe ops =>
      match x with
      | FArr a =>
          do q <- cart_from a; do r <- go ops (FPos q);
          match r with FPos q' => do y <- cart_components m deg fuel q'; ret (FArr y) | _ => Raise EType end
      | _ => go ops x
      end
  end.

(** [op.inverse]: identity.py:104-119, frame_transforms.py:187-202, 418-433;
    Pipe: operators/composite.py:44-63 *)
Fixpoint finverse (o : fop ext) : fop ext :=
  let fix go (ops : list (fop ext)) : list (fop ext) :=
    match ops with [] => [] | o :: ops => go ops ++ [finverse o] end in
  match o with
  | FIdentity => FIdentity
  | FToGCF g => FToICRS g
  | FToICRS g => FToGCF g
  | FPipe ops => FPipe (go ops)
  end.
(** [op.is_inertial]: frame_transforms.py:173-185, 404-416; composite.py:39-42 *)
Fixpoint finertial (o : fop ext) : bool :=
  match o with FPipe ops => forallb finertial ops | _ => true end.

(** [a | b]: operators/base.py:219-236, pipe.py:137-157 *)
Definition f_or (a b : fop ext) : res (fop ext) :=
  match a with
  | FPipe ops => match b with FPipe ops' => ret (FPipe (ops ++ ops')) | _ => ret (FPipe (ops ++ [b])) end
  | _ => match b with FPipe _ => Raise EAttribute | _ => ret (FPipe [a; b]) end
  end.

(** ** [frame_transform_op(from, to)]: xfm.py:14-59 (from NoFrame: precedence 1),
    frame_transforms.py:35-78, 293-316, 526-549.  [eqf] is [==] on Galactocentric
    frames (equinox: same structure and units, all leaves equal). *)
Variable eqf : gcf ext -> gcf ext -> bool.
Definition frame_transform_op (a b : frame ext) : res (fop ext) :=
  match a, b with
  | NoFrame, _ => Raise EFrame
  | _, NoFrame => Raise EFrame
  | ICRS, ICRS => ret FIdentity
  | ICRS, GCF g => ret (FToGCF g)
  | GCF g, ICRS => ret (FToICRS g)
  | GCF g, GCF h => if eqf g h then ret (FPipe [FIdentity]) else f_or (FToICRS g) (FToGCF h)
  end.
End Frames.
