(** * The ICRS <-> Galactocentric operators in floating point.

    The operators of GFrame.v (files cited there: _coordinax_space_frames/
    galactocentric.py, frame_transforms.py, galilean/rotation.py) run on the
    floating-point numbers of Float.v (simplifications listed there).  The
    derivative that moves velocities (frame_transforms.py:227-258, 458-490) is
    obtained by running the same code on the rounded (value, tangent) pairs of
    FVel.v. *)
From Coq Require Import Reals Bool List ZArith.
From Verif Require Import Num Vectors Transform Arith Vel UVel FourVec Operators GOp Frames GFrame Float FVel.
Import ListNotations.

Section F.
Variables (f : fmt) (L : libm).
(** [jnp.asin] of the library: frame_transforms.py:99-100 *)
Variable s : R -> R.
Definition fasin (x : ext) : ext :=
  match x with
  | Some a => if Rleb (-1) a && Rleb a 1 then Some (s a) else None
  | None => None
  end.
(** [Galactocentric.roll0], galactocentric.py:79, rounded *)
Definition froll0 : ext := Float.fop f roll0.
(** frame_transforms.py:255, 487: the columns of the Jacobian of [_call_q]; the frame
    is a constant. *)
Definition fframe_column (m : mode) (deg : bool) (n : nat) (ps : gparts (A := ext)) (x : list ext) (i : nat) : res (list ext) :=
  let '(M, offset, _) := ps in
  let seeded := map (fun j => mkDual (nth j x (Some 0%R : ext)) (Some (if Nat.eqb i j then 1%R else 0%R))) (seq 0 3) in
  do o <- @represent_as ext (Num_fl f L) m deg n nokw offset CCart3;
  do y <- @gapply_q dual (Num_fdual f L) Traced deg n (map (map dconst) M, pos_map dconst o, []) seeded;
  ret (map dd y).
Definition fframe_jac (m : mode) (deg : bool) (n : nat) (ps : gparts (A := ext)) (x : list ext) : res (list (list ext)) :=
  mapM (fframe_column m deg n ps x) (seq 0 3).
Definition fframe (m : mode) (deg : bool) (n : nat) (o : Frames.fop ext) (x : fvalue ext) : res (fvalue ext) :=
  @gfcall ext (Num_fl f L) m deg n fasin froll0 (fframe_jac m deg n) (fmatvec f L) (fvel_represent_as f L m deg n nokw) o x.
End F.
