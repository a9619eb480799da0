(** * Operators: inverse, application, composition, simplification.

    Files modelled (under /repo/src/coordinax/_src/operators): base.py,
    composite.py, pipe.py, identity.py, boost.py, compat.py,
    register_simplify.py, galilean/{boost,composite,rotation,
    spatial_translation,translation}.py. *)
From Coq Require Import Reals Bool List ZArith.
From Verif Require Import Num Vectors Transform Arith Vel FourVec.
Import ListNotations.

(** A 3x3 matrix by rows. *)
Definition mat (A : Type) := list (list A).

(** The operator classes with their fields:
    identity.py:10-11; galilean/spatial_translation.py:58-160;
    galilean/translation.py:22-94; galilean/rotation.py:44-126 (no check that
    the matrix is orthogonal: 128-137 is commented out); galilean/boost.py:26-81;
    boost.py:24-63; pipe.py:29-85; galilean/composite.py:29-151.  Constructors
    convert, but check nothing else. *)
Inductive op (A : Type) :=
| OIdentity
| OSpatial (translation : pos A)
| OTranslation (translation : fourvec A)
| ORotation (rotation : mat A)
| OBoost (velocity : vel A)
| OVelBoost (velocity : vel A)
| OPipe (operators : list (op A))
| OGalilean (rotation : mat A) (translation : fourvec A) (velocity : vel A).
Arguments OIdentity {A}. Arguments OSpatial {A}. Arguments OTranslation {A}. Arguments ORotation {A}.
Arguments OBoost {A}. Arguments OVelBoost {A}. Arguments OPipe {A}. Arguments OGalilean {A}.

(** [op.operators] of a composite: pipe.py:85, galilean/composite.py:159-164. *)
Definition parts {A} (o : op A) : option (list (op A)) :=
  match o with
  | OPipe ops => Some ops
  | OGalilean R T V => Some [ORotation R; OTranslation T; OBoost V]
  | _ => None
  end.

(** ** The arguments and results of a call *)
Inductive value (A : Type) :=
| VPos (q : pos A)                     (* op(q) *)
| VPosT (q : pos A) (t : A)            (* op(q, t) *)
| VFour (v : fourvec A)                (* op(v4) *)
| VPosVel (q : pos A) (v : vel A)      (* op(q, p) *)
| VVel (v : vel A)                     (* op(p) *)
| VArr (x : list A)                    (* op(length array with last axis 1, 2, 3 or 4) *)
| VArrT (x : list A) (t : A).          (* op(length array, t) *)
Arguments VPos {A}. Arguments VPosT {A}. Arguments VFour {A}. Arguments VPosVel {A}.
Arguments VVel {A}. Arguments VArr {A}. Arguments VArrT {A}.

Section Op.
Variables (m : mode) (deg : bool) (fuel : nat).
Local Open Scope num_scope.
Notation rep := (represent_as m deg fuel nokw).

(** [vec_matmul]: galilean/rotation.py:28 *)
Definition dot (r x : list ext) : ext := fold_right nadd (Some 0%R) (map (fun '(a, b) => a * b) (combine r x)).
Definition matmul_vec (R : mat ext) (x : list ext) : list ext := map (fun r => dot r x) R.
(** [R.T] and [R1 @ R2] for 3x3 matrices *)
Definition column (j : nat) (R : mat ext) : list ext := map (fun r => nth j r (Some 0%R)) R.
Definition transpose (R : mat ext) : mat ext := map (fun j => column j R) (seq 0 3).
Definition matmul (P Q : mat ext) : mat ext := map (fun r => map (dot r) (transpose Q)) P.

(** [CartesianPosND.from_(x)] *)
Definition cart_from (x : list ext) : res (pos ext) :=
  match x with
  | [a] => ret (PCart1 a) | [a; b] => ret (PCart2 a b) | [a; b; c] => ret (PCart3 a b c)
  | _ => Raise EValue
  end.

(** ** Inverse: identity.py:104-119, spatial_translation.py:188-206,
    translation.py:121-141, rotation.py:205-223, galilean/boost.py:106-123,
    boost.py:88-105, composite.py:44-63 (the parts in reverse order). *)
Fixpoint inverse (o : op ext) : res (op ext) :=
  let fix go (ops : list (op ext)) : res (list (op ext)) :=
    match ops with
    | [] => ret []
    | o :: ops => do l <- go ops; do i <- inverse o; ret (l ++ [i])
    end in
  match o with
  | OIdentity => ret OIdentity
  | OSpatial q => do n <- pos_neg m deg fuel q; ret (OSpatial n)
  | OTranslation v => do n <- fv_neg m deg fuel v; ret (OTranslation n)
  | ORotation R => ret (ORotation (transpose R))
  | OBoost v => ret (OBoost (vel_neg v))
  | OVelBoost v => ret (OVelBoost (vel_neg v))
  | OPipe ops => do l <- go ops; ret (OPipe l)
  | OGalilean R T V =>
      do n <- fv_neg m deg fuel T;
      ret (OPipe [OBoost (vel_neg V); OTranslation n; ORotation (transpose R)])
  end.

(** ** [op.is_inertial]: composite.py:39-42; [True] for the others. *)
Fixpoint is_inertial (o : op ext) : bool :=
  match o with OPipe ops => forallb is_inertial ops | _ => true end.

(** ** Addition of velocities: Cartesian classes only: d1/cartesian.py:206-228,
    d2/cartesian.py:218-238, d3/cartesian.py:276-289. *)
Definition vel_add (v w : vel ext) : res (vel ext) :=
  match vc v, vc w with
  | WCart1, WCart1 | WCart2, WCart2 | WCart3, WCart3 => ret (mkVel (vc v) (vplus (vcomps v) (vcomps w)))
  | _, _ => Raise ERuntime
  end.

(** ** Rotation of a 3-D position: galilean/rotation.py:263-289 *)
Definition rotate (R : mat ext) (q : pos ext) : res (pos ext) :=
  match dim_of (cls_of q) with
  | 3%nat =>
      do x <- rep q CCart3;
      match x with
      | PCart3 a b c =>
          match matmul_vec R [a; b; c] with
          | [a'; b'; c'] => rep (PCart3 a' b' c') (cls_of q)
          | _ => Raise EValue
          end
      | _ => Raise EType
      end
  | _ => Raise ENotFound
  end.

(** ** Spatial translation of a position and velocity:
    galilean/spatial_translation.py:316-360 ([jax.jit] decorates the name, not
    the registered method).  Step 2, the Jacobian of the call on the Cartesian
    array (compat.py:27-152: wrap, add the translation, unwrap), is computed
    with dual numbers; the translation is a constant. *)
Definition seed_cart (x : list ext) (i : nat) : pos dual :=
  let d j := mkDual (nth j x (Some 0%R)) (Some (if Nat.eqb i j then 1%R else 0%R)) in
  match length x with
  | 1%nat => PCart1 (d 0%nat) | 2%nat => PCart2 (d 0%nat) (d 1%nat)
  | _ => PCart3 (d 0%nat) (d 1%nat) (d 2%nat)
  end.
Definition translation_column (tr : pos ext) (x : list ext) (i : nat) : res (list ext) :=
  do b <- rep tr (cart_cls (cls_of tr));
  do y <- pos_add Traced deg fuel (seed_cart x i) (pos_map dconst b);
  ret (map dd (components y)).
Definition translation_jacobian (tr : pos ext) (x : list ext) : res (list (list ext)) :=
  mapM (translation_column tr x) (seq 0%nat (length x)).
Definition translate_vel (tr : pos ext) (q : pos ext) (v : vel ext) : res (value ext) :=
  do q' <- pos_add m deg fuel q tr;
  do x <- cart_components m deg fuel q;
  do p <- vel_represent_as_q m deg fuel nokw v (vcart_cls (vc v)) x;
  do j <- translation_jacobian tr x;
  let np := matvec (length x) j (vcomps p) in
  do v' <- vel_represent_as m deg fuel nokw (mkVel (vcart_cls (vc v)) np) (vc v) q';
  ret (VPosVel q' v').

(** ** Application of the non-composite operators.

    plum picks the most specific overload; precedence only breaks ties.
    An abstract overload (base.py:109-130) registers no method.
    - Identity: identity.py:125-173.
    - GalileanSpatialTranslation: spatial_translation.py:210-231 (q), 263-293
      (q, t), 296-313 (v4), 316-360 (q, p).
    - GalileanTranslation: translation.py:145-180 (v4), 182-218 (3-D q, t).
    - GalileanRotation: rotation.py:227-261 (3-array), 263-289 (3-D q), 291-316
      (3-D q, t); v4: compat.py:190-218, which rebuilds the FourVector with the
      default [c].
    - GalileanBoost: galilean/boost.py:127-156 (q, t), 158-176 (v4).
    - VelocityBoost: boost.py:109-127 (p), 159-183 (q, p), 186-203 (q),
      206-229 (q, t), 232-259 (v4).
    - length arrays: compat.py:23-183, 221-252. *)
Definition boost_pos (v : vel ext) (q : pos ext) (t : ext) : res (pos ext) :=
  do d <- vel_mul_time m v t; pos_add m deg fuel q d.

Definition call_vec (o : op ext) (x : value ext) : res (value ext) :=
  match o, x with
  | OIdentity, _ => ret x
  | OSpatial tr, VPos q => do q' <- pos_add m deg fuel q tr; ret (VPos q')
  | OSpatial tr, VPosT q t => do q' <- pos_add m deg fuel q tr; ret (VPosT q' t)
  | OSpatial tr, VFour v => do q' <- pos_add m deg fuel (fq v) tr; ret (VFour (mkFV (ft v) q' (fc v)))
  | OSpatial tr, VPosVel q v => translate_vel tr q v
  | OTranslation w, VFour v => do v' <- fv_add m deg fuel v w; ret (VFour v')
  | OTranslation w, VPosT q t =>
      match dim_of (cls_of q) with
      | 3%nat => do q' <- pos_add m deg fuel q (fq w); ret (VPosT q' (t + ft w))
      | _ => Raise ENotFound
      end
  | ORotation R, VPos q => do q' <- rotate R q; ret (VPos q')
  | ORotation R, VPosT q t => do q' <- rotate R q; ret (VPosT q' t)
  | ORotation R, VFour v => do q' <- rotate R (fq v); ret (VFour (mkFV (ft v) q' (ncst c_light)))
  | OBoost v, VPosT q t => do q' <- boost_pos v q t; ret (VPosT q' t)
  | OBoost v, VFour w => do q' <- boost_pos v (fq w) (ft w); ret (VFour (mkFV (ft w) q' (fc w)))
  | OVelBoost w, VVel v => do v' <- vel_add v w; ret (VVel v')
  | OVelBoost w, VPosVel q v => do v' <- vel_add v w; ret (VPosVel q v')
  | OVelBoost w, (VPos _ | VPosT _ _ | VFour _) => ret x
  | _, _ => Raise ENotFound
  end.

(** The wrapping of length arrays around the application [f] to vectors. *)
Definition on_array (f : value ext -> res (value ext)) (x : list ext) : res (value ext) :=
  match length x with
  | 4%nat =>
      do v <- fv_from_array x; do r <- f (VFour v);
      match r with VFour v' => do y <- fv_to_array m deg fuel v'; ret (VArr y) | _ => Raise EType end
  | _ =>
      do q <- cart_from x; do r <- f (VPos q);
      match r with VPos q' => do y <- cart_components m deg fuel q'; ret (VArr y) | _ => Raise EType end
  end.
Definition on_array_t (f : value ext -> res (value ext)) (x : list ext) (t : ext) : res (value ext) :=
  do q <- cart_from x; do r <- f (VPosT q t);
  match r with VPosT q' t' => do y <- cart_components m deg fuel q'; ret (VArrT y t') | _ => Raise EType end.

Definition call_single (o : op ext) (x : value ext) : res (value ext) :=
  match o, x with
  | OIdentity, _ => ret x
  | ORotation R, VArr [a; b; c] => ret (VArr (matmul_vec R [a; b; c]))
  | _, VArr a => on_array (call_vec o) a
  | _, VArrT a t => on_array_t (call_vec o) a t
  | _, _ => call_vec o x
  end.

(** The loop of a composite: pipe.py:89-109 and 111-133 (registered on
    AbstractCompositeOperator, hence also for GalileanOperator). *)
Fixpoint loop (f : op ext -> value ext -> res (value ext)) (ops : list (op ext)) (x : value ext) : res (value ext) :=
  match ops with
  | [] => ret x
  | o :: ops => do y <- f o x; loop f ops y
  end.

(** ** [op(x)].  Composites: vectors by the loop; 3-arrays of a Pipe by
    compat.py:122-152 (wrap once), of a GalileanOperator by an ambiguous pair
    (compat.py:122 against pipe.py:89); arrays of last axis 1 and 2, and all
    arrays with a time: ambiguous in the same way.  4-arrays: ambiguous as well.
    A single velocity: pipe.py:107-109 unpacks what the first part returns
    ([args = op(...); op( *args)]); a scalar velocity unpacks to nothing (indexing
    it raises IndexError, which ends the iteration), so the second part is called
    without arguments.  Simplification: the empty pipe, and an Identity or a
    composite as second part (which accept no arguments and return the empty
    tuple), are not values of this model; they raise here. *)
Fixpoint call (o : op ext) (x : value ext) {struct o} : res (value ext) :=
  let fix go (ops : list (op ext)) (x : value ext) : res (value ext) :=
    match ops with
    | [] => ret x
    | o :: ops => do y <- call o x; go ops y
    end in
  match o with
  | OPipe ops =>
      match x with
      | VArr [a; b; c] => on_array (go ops) [a; b; c]
      | VArr _ | VArrT _ _ => Raise EAmbiguous
      | VVel _ =>
          match ops with
          | [] => Raise ENotFound
          | [o] => call o x
          | o :: _ => do _ <- call o x; Raise ENotFound
          end
      | _ => go ops x
      end
  | OGalilean R T V =>
      match x with
      | VArr _ | VArrT _ _ => Raise EAmbiguous
      | VVel _ => Raise ENotFound
      | _ => do y <- call_single (ORotation R) x; do z <- call_single (OTranslation T) y; call_single (OBoost V) z
      end
  | _ => call_single o x
  end.
End Op.

(** ** [a | b]: base.py:219-236, pipe.py:137-157.  [op | pipe] asks for a
    method [__ror__] that does not exist. *)
Definition op_or {A} (a b : op A) : res (op A) :=
  match a with
  | OPipe ops => match b with OPipe ops' => ret (OPipe (ops ++ ops')) | _ => ret (OPipe (ops ++ [b])) end
  | _ => match b with OPipe _ => Raise EAttribute | _ => ret (OPipe [a; b]) end
  end.

(** ** [pipe[i]], [pipe[a:b:s]], [iter(pipe)]: composite.py:68-81,
    galilean/composite.py:166-194.  Python indexing of the tuple. *)
Local Open Scope Z_scope.
Definition py_index {T} (l : list T) (i : Z) : option T :=
  let n := Z.of_nat (length l) in
  let k := if i <? 0 then i + n else i in
  if (k <? 0) || (n <=? k) then None else nth_error l (Z.to_nat k).
(** CPython PySlice_AdjustIndices *)
Definition slice_bound (n step : Z) (x : Z) : Z :=
  let lo := if step <? 0 then -1 else 0 in
  let hi := if step <? 0 then n - 1 else n in
  if x <? 0 then (let y := x + n in if y <? lo then lo else y) else if hi <? x then hi else x.
Definition slice_start (n step : Z) (s : option Z) : Z :=
  match s with Some x => slice_bound n step x | None => if step <? 0 then n - 1 else 0 end.
Definition slice_stop (n step : Z) (s : option Z) : Z :=
  match s with Some x => slice_bound n step x | None => if step <? 0 then -1 else n end.
Definition slice_length (start stop step : Z) : Z :=
  if step <? 0 then (if stop <? start then (start - stop - 1) / (- step) + 1 else 0)
  else (if start <? stop then (stop - start - 1) / step + 1 else 0).
Definition py_slice {T} (l : list T) (a b : option Z) (s : Z) : list T :=
  let n := Z.of_nat (length l) in
  let start := slice_start n s a in let stop := slice_stop n s b in
  flat_map (fun k => match nth_error l (Z.to_nat (start + Z.of_nat k * s)) with Some x => [x] | None => [] end)
           (seq 0%nat (Z.to_nat (slice_length start stop s))).
Definition op_getitem {A} (o : op A) (i : Z) : res (op A) :=
  match parts o with
  | Some l => match py_index l i with Some x => ret x | None => Raise EValue end
  | None => Raise EType
  end.
Definition op_getslice {A} (o : op A) (a b : option Z) (s : Z) : res (op A) :=
  match parts o with
  | Some l => if s =? 0 then Raise EValue else ret (OPipe (py_slice l a b s))
  | None => Raise EType
  end.
Local Close Scope Z_scope.

(** ** Simplification *)
Section Simplify.
Variables (m : mode) (deg : bool) (fuel : nat).
(** Size of the unit in which the array compared with zero is expressed, by
    operator (the comparison uses the bare value); 1 for rotations. *)
Variable unit : op ext -> R.
Local Open Scope num_scope.

(** [jnp.allclose(x, zeros)] with the default tolerances rtol=1e-5, atol=1e-8 *)
Definition close (x y : ext) : bool :=
  nabs (x - y) <=? ncst (1/100000000)%R + ncst (1/100000)%R * nabs y.
Definition near_zero (o : op ext) (x : list ext) : bool :=
  forallb (fun a => close (a / ncst (unit o)) (ncst 0)) x.
Definition identity_mat : mat ext :=
  map (fun i => map (fun j => Some (if Nat.eqb i j then 1%R else 0%R)) (seq 0 3)) (seq 0 3).
Definition near_identity (R : mat ext) : bool :=
  forallb (fun '(r, e) => forallb (fun '(a, b) => close a b) (combine r e)) (combine R identity_mat).

(** [convert(velocity, Quantity)]: vectors/compat.py:29-250: defined for
    Cartesian velocities and RadialVel. *)
Definition vel_array (v : vel ext) : res (list ext) :=
  match vc v with WCart1 | WCart2 | WCart3 | WRadial => ret (vcomps v) | _ => Raise EType end.
(** Comparison of a length-[n] array with [zeros((3,))]: broadcasting fails for
    [n = 2]. *)
Definition zero_test (o : op ext) (x : list ext) : res (op ext) :=
  match length x with
  | 2%nat => Raise EValue
  | _ => ret (if near_zero o x then OIdentity else o)
  end.

(** ** [simplify_op(op1, op2)]: register_simplify.py:76-163,
    spatial_translation.py:398-420, translation.py:261-285, rotation.py:407-439,
    galilean/boost.py:235-255, boost.py:294-314. *)
Definition simplify2 (a b : op ext) : res (op ext) :=
  match a, b with
  | _, OIdentity => ret a                 (* precedence 1 *)
  | OIdentity, _ => ret b
  | OPipe ops, OPipe ops' => ret (OPipe (ops ++ ops'))
  | OPipe _, _ => op_or a b
  | OSpatial p, OSpatial q => do s <- pos_add m deg fuel p q; ret (OSpatial s)
  | OTranslation p, OTranslation q => do s <- fv_add m deg fuel p q; ret (OTranslation s)
  | ORotation P, ORotation Q => ret (ORotation (matmul P Q))
  | OBoost v, OBoost w => do s <- vel_add v w; ret (OBoost s)
  | OVelBoost v, OVelBoost w => do s <- vel_add v w; ret (OVelBoost s)
  | _, _ => ret (OPipe [a; b])
  end.
(** [functools.reduce]: register_simplify.py:46-73 *)
Fixpoint reduce (acc : op ext) (ops : list (op ext)) : res (op ext) :=
  match ops with
  | [] => ret acc
  | o :: ops => do a <- simplify2 acc o; reduce a ops
  end.

(** ** [simplify_op(op)]: register_simplify.py:14-43, spatial_translation.py:367-395,
    translation.py:227-257, rotation.py:343-369, galilean/boost.py:207-232,
    boost.py:266-291. *)
Definition simplify_part (o : op ext) : res (op ext) :=
  match o with
  | OSpatial q => do x <- cart_components m deg fuel q; zero_test o x
  | OTranslation v => do x <- fv_to_array m deg fuel v; ret (if near_zero o x then OIdentity else o)
  | ORotation R => ret (if near_identity R then OIdentity else o)
  | OBoost v | OVelBoost v => do x <- vel_array v; zero_test o x
  | _ => ret o
  end.
Definition is_identity (o : op ext) : bool := match o with OIdentity => true | _ => false end.
(** [simplify] of any operator: base.py:146-170; Pipe: the reduction;
    GalileanOperator: galilean/composite.py:197-253 (a part changes its type only
    by becoming the Identity). *)
Definition simplify (o : op ext) : res (op ext) :=
  match o with
  | OPipe ops => reduce OIdentity ops
  | OGalilean R T V =>
      do a <- simplify_part (ORotation R); do b <- simplify_part (OTranslation T);
      do c <- simplify_part (OBoost V);
      if is_identity a || is_identity b || is_identity c then reduce OIdentity [a; b; c] else ret o
  | _ => simplify_part o
  end.
End Simplify.
