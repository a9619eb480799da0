(** * Operators applied to batches: arrays of positions and of times.

    Files modelled (under /repo/src/coordinax/_src): operators/identity.py:125-173,
    operators/galilean/spatial_translation.py:210-313, galilean/translation.py:145-218,
    galilean/rotation.py:263-316, galilean/boost.py:127-176, operators/boost.py:186-259,
    operators/compat.py:190-218, operators/pipe.py:89-133, vectors/d4/spacetime.py:95-101.

    The parameters of the operators are scalars (shape []); batches as in Batch.v: the
    code is element-wise, and raises as soon as one element fails. *)
From Coq Require Import Reals List Bool ZArith.
From Verif Require Import Num Vectors Transform Arith Vel FourVec Operators Shapes Batch Arrays.
Import ListNotations.

(** op(q), op(q, t), op(v4); the attribute [c] of a FourVector is a scalar
    (d4/spacetime.py:90-92) *)
Inductive bvalue :=
| BPos (Q : bpos)
| BPosT (Q : bpos) (T : arr ext)
| BFour (T : arr ext) (Q : bpos) (c : ext).

(** [FourVector(t, q, c)]: d4/spacetime.py:95-101: the times must broadcast to the
    shape of the positions *)
Definition b_four (T : arr ext) (Q : bpos) (c : ext) : res bvalue :=
  do s <- broadcast_shapes [ash T; ash Q];
  if shape_eqb s (ash Q) then ret (BFour T Q c) else Raise EValue.

(** [jax.lax.add] of arrays broadcasts less than numpy: a scalar with anything, otherwise
    the ranks must be equal (jax, lax.py, [broadcasting_shape_rule]); TypeError *)
Definition lax_shapes (a b : list nat) : res (list nat) :=
  if match a, b with [], _ | _, [] => true | _, _ => Nat.eqb (length a) (length b) end
  then match broadcast_shapes [a; b] with Ok w s => Ok w s | Raise _ => Raise EType end
  else Raise EType.
Definition b_lax {T U} (a : arr T) (b : arr U) : res (arr (T * U)) :=
  do s <- lax_shapes (ash a) (ash b);
  ret (b_pair (broadcast_to a s) (broadcast_to b s)).

Section BatchOps.
Variables (m : mode) (deg : bool) (fuel : nat).

(** [q + scalar vector]: base_pos.py:196-224 and the Cartesian overloads, per element *)
Definition b_shift (tr : pos ext) (Q : bpos) : res bpos := b_map p0 (fun q => pos_add m deg fuel q tr) Q.
(** galilean/rotation.py:263-289 *)
Definition b_rotate (M : mat ext) (Q : bpos) : res bpos := b_map p0 (rotate m deg fuel M) Q.
(** [t + scalar]: keeps the shape of [t] *)
Definition b_later (dt : ext) (T : arr ext) : arr ext := mkArr (ash T) (fun i => nadd (adat T i) dt).
(** [q + velocity * t]: galilean/boost.py:156 and 176: the product has the shape of
    [t]; the sum is [qlax.add] (vectors/base/base.py:465), applied to the components of
    the Cartesian vectors (d1/cartesian.py:92, d2/cartesian.py:101, d3/cartesian.py:115) *)
Definition b_boost (v : vel ext) (Q : bpos) (T : arr ext) : res bpos :=
  do D <- b_map p0 (vel_mul_time m v) T;
  do pr <- b_lax Q D;
  b_map p0 (fun '(q, d) => pos_add m deg fuel q d) pr.
(** the class of the elements is one attribute of the batch: [AbstractPos3D] in the
    signature (galilean/translation.py:182) *)
Definition b_need3 (Q : bpos) : res bpos :=
  b_map p0 (fun q => match dim_of (cls_of q) with 3%nat => ret q | _ => Raise ENotFound end) Q.

Definition b_call_single (o : op ext) (x : bvalue) : res bvalue :=
  match o, x with
  | OIdentity, _ => ret x
  | OSpatial tr, BPos Q => do Q' <- b_shift tr Q; ret (BPos Q')
  | OSpatial tr, BPosT Q T => do Q' <- b_shift tr Q; ret (BPosT Q' T)
  | OSpatial tr, BFour T Q c => do Q' <- b_shift tr Q; b_four T Q' c
  | OTranslation w, BFour T Q c => do Q' <- b_shift (fq w) Q; b_four (b_later (ft w) T) Q' c
  | OTranslation w, BPosT Q T =>
      do Q <- b_need3 Q; do Q' <- b_shift (fq w) Q; ret (BPosT Q' (b_later (ft w) T))
  | ORotation M, BPos Q => do Q' <- b_rotate M Q; ret (BPos Q')
  | ORotation M, BPosT Q T => do Q' <- b_rotate M Q; ret (BPosT Q' T)
  | ORotation M, BFour T Q c => do Q' <- b_rotate M Q; b_four T Q' (ncst c_light)
  | OBoost v, BPosT Q T => do Q' <- b_boost v Q T; ret (BPosT Q' T)
  | OBoost v, BFour T Q c => do Q' <- b_boost v Q T; b_four T Q' c
  | OVelBoost _, _ => ret x
  | _, _ => Raise ENotFound
  end.

(** composites: the loop pipe.py:89-133 *)
Fixpoint b_call (o : op ext) (x : bvalue) {struct o} : res bvalue :=
  let fix go (ops : list (op ext)) (x : bvalue) : res bvalue :=
    match ops with
    | [] => ret x
    | o :: ops => do y <- b_call o x; go ops y
    end in
  match o with
  | OPipe ops => go ops x
  | OGalilean M T V => do y <- b_call_single (ORotation M) x; do z <- b_call_single (OTranslation T) y; b_call_single (OBoost V) z
  | _ => b_call_single o x
  end.
End BatchOps.

(** ** A phase-space batch through a spatial translation:
    galilean/spatial_translation.py:343-360.  The Jacobian of the call on an array of
    shape [s ++ [n]] has shape [s ++ [n] ++ s ++ [n]] (jacfwd), entry
    [dy(i, a) / dx(j, b)]; the code then computes [jac @ p] with numpy's matrix product.
    Cartesian positions and velocities, for which the conversions in steps 1 and 5 do
    nothing; the derivative of adding a constant is written out (one per element in
    Operators.v, [translation_jacobian]). *)
Definition delta (i j : list nat) : R := if list_eq_dec Nat.eq_dec i j then 1%R else 0%R.
Definition b_translation_jacobian (s : list nat) (n : nat) : arr ext :=
  let k := length s in
  mkArr (s ++ [n] ++ s ++ [n])
        (fun idx => Some (delta (firstn (S k) idx) (skipn (S k) idx))).
Definition sum_ext (n : nat) (f : nat -> ext) : ext := fold_right (fun b acc => nadd (f b) acc) (Some 0%R) (seq 0 n).
(** numpy.matmul of an array with at least two axes and an array with one or two axes
    (leading axes of the second operand absent: no broadcasting needed) *)
Definition np_matmul12 (A B : arr ext) : res (arr ext) :=
  let k := length (ash A) in
  let lead := firstn (k - 2) (ash A) in
  match skipn (k - 2) (ash A), ash B with
  | [r; c], [c'] =>
      if Nat.eqb c c' then
        ret (mkArr (lead ++ [r]) (fun idx => sum_ext c (fun b => nmul (adat A (idx ++ [b])) (adat B [b]))))
      else Raise EType
  | [r; c], [c'; d] =>
      if Nat.eqb c c' then
        ret (mkArr (lead ++ [r; d])
               (fun idx => sum_ext c (fun b => nmul (adat A (removelast idx ++ [b])) (adat B [b; last idx 0%nat]))))
      else Raise EType
  | _, _ => Raise EType
  end.
(** the velocities returned: an array whose last axis is the component axis *)
Definition b_translate_vel (s : list nat) (n : nat) (p : arr ext) : res (arr ext) :=
  np_matmul12 (b_translation_jacobian s n) p.
