(** * Vectors and arrays: construction from an array, conversion to an array, and the
    N-dimensional Cartesian vectors, whose only component is an array.

    Files modelled (under /repo/src/coordinax/_src/vectors): base/base.py (from_),
    base/compat.py and compat.py (convert), d1/base.py, d2/cartesian.py,
    d3/cartesian.py, d3/generic.py, d3/constructor.py (from_), dn/base.py,
    dn/cartesian.py, dn/transform.py.

    An array is a shape and a function from multi-indices to elements (Shapes.v).
    Simplification: an array carries one unit, of the dimension the class wants, and
    the values here are the numbers in that unit; the conversion from integers to
    floating point numbers is not modelled. *)
From Coq Require Import List Bool ZArith Arith Reals.
From Verif Require Import Num Vectors Shapes.
Import ListNotations.
Open Scope nat_scope.

(** ** Library ([jax.numpy]) *)
(** [jnp.atleast_1d] *)
Definition atleast_1d {A} (a : arr A) : arr A :=
  match ash a with [] => mkArr [1] (fun _ => adat a []) | _ => a end.
(** [a[..., i]], [0 <= i]: JAX clamps an out-of-range index; an axis of length 0 and a
    0-dimensional array raise *)
Definition at_last {A} (a : arr A) (i : nat) : res (arr A) :=
  match rev (ash a) with
  | [] | 0 :: _ => Raise EIndex
  | n :: s => ret (mkArr (rev s) (fun idx => adat a (idx ++ [Nat.min i (n - 1)])))
  end.
(** [jnp.stack(arrays, axis=-1)]: the shapes must be equal *)
Definition shape_eqb (s t : list nat) : bool := if list_eq_dec Nat.eq_dec s t then true else false.
Definition stack_last {A} (l : list (arr A)) : res (arr A) :=
  match l with
  | [] => Raise EValue
  | a :: _ =>
      if forallb (fun b => shape_eqb (ash b) (ash a)) l
      then ret (mkArr (ash a ++ [length l])
                      (fun idx => adat (nth (last idx 0) l a) (removelast idx)))
      else Raise EValue
  end.
(** [jax.lax.transpose(a, axes)]: [axes] must be a permutation of the axes *)
Definition perm_of_range (axes : list nat) (n : nat) : bool :=
  (length axes =? n) && forallb (fun k => existsb (Nat.eqb k) axes) (seq 0 n).
(** axis [k] of the result is axis [nth k axes] of the argument *)
Fixpoint index_of (k : nat) (l : list nat) : nat :=
  match l with [] => 0 | x :: l => if k =? x then 0 else S (index_of k l) end.
Definition transpose {A} (a : arr A) (axes : list nat) : res (arr A) :=
  if perm_of_range axes (length (ash a))
  then ret (mkArr (map (fun k => nth k (ash a) 0) axes)
                  (fun idx => adat a (map (fun k => nth (index_of k axes) idx 0) (seq 0 (length (ash a))))))
  else Raise EType.

(** ** Fixed-dimension Cartesian classes *)
Inductive akind := APos | AVel | AAcc.
(** CartesianPos1D ... CartesianAcc3D, and CartesianGeneric3D *)
Inductive acls := C1 (k : akind) | C2 (k : akind) | C3 (k : akind) | G3.
Definition adim (c : acls) : nat := match c with C1 _ => 1 | C2 _ => 2 | C3 _ => 3 | G3 => 3 end.

Section Arrays.
Context {A : Type}.

(** [{f.name: obj[..., i] for i, f in enumerate(fields(cls))}] *)
Definition comps (n : nat) (a : arr A) : res (bvec A) := mapR (at_last a) (seq 0 n).
(** the annotation ["*batch n"] *)
Definition last_is (n : nat) (a : arr A) : bool :=
  match rev (ash a) with k :: _ => k =? n | [] => false end.

(** [cls.from_(array)] for a Cartesian class:
    - d1/base.py:45-76, 105-136, 159-187 (annotated ["*batch"] or ["*batch 1"], that is
      any shape);
    - d2/cartesian.py:55-75, 192-212 (["*batch 2"]), 307-325 (not annotated);
    - d3/cartesian.py:69-92, 246-269 (not annotated), 358-379 (["*batch 3"]);
    - d3/generic.py:76-99 (not annotated).
    An array of another shape than the annotated one is not dispatched to the function:
    for CartesianAcc3D it is then dispatched to d3/constructor.py:112-130, which calls
    [CartesianAcc3D.from_] again, until the recursion limit is reached. *)
Definition from_array (c : acls) (a : arr A) : res (bvec A) :=
  match c with
  | C1 _ => comps 1 (atleast_1d a)
  | C2 APos | C2 AVel => if last_is 2 a then comps 2 a else Raise ENotFound
  | C2 AAcc => comps 2 a
  | C3 APos | C3 AVel | G3 => comps 3 a
  | C3 AAcc => if last_is 3 a then comps 3 a else Raise ERecursion
  end.

(** [cls.from_(array)] for an arbitrary 3-D class (AbstractPos3D, SphericalPos, ...):
    d3/constructor.py:14-32, 62-80, 112-130: the result is a Cartesian vector *)
Definition from_array3 (k : akind) (a : arr A) : res (acls * bvec A) :=
  do v <- from_array (C3 k) a; ret (C3 k, v).

(** [convert(v, Quantity)] for a Cartesian vector: base/compat.py:31-70, 73-111,
    114-154 (positions; [represent_as] to the own class is the identity), compat.py:30-32,
    41-210 (velocities and accelerations).  There is none for CartesianGeneric3D. *)
Definition to_array (c : acls) (v : bvec A) : res (arr A) :=
  match c with
  | G3 => Raise ENotFound
  | _ => do f <- full_shaped [] v; stack_last f
  end.

(** ** N-dimensional vectors: CartesianPosND, CartesianVelND, CartesianAccND.
    dn/cartesian.py:32-85, 284-340, 432-488.  The three classes have the same code. *)
Definition ndvec := arr A.           (* the field q (d_q, d2_q) *)
(** [cls.from_(array)]: dn/cartesian.py:127-174, 377-424, 551-599 *)
Definition nd_from (a : arr A) : res ndvec := ret (atleast_1d a).
(** [convert(v, Quantity)] (positions only): dn/cartesian.py:177-192 *)
Definition nd_to_array (v : ndvec) : res (arr A) := ret v.
(** [convert(v, UncheckedQuantity)], [convert(v, AbstractQuantity)]: base/compat.py:31-70,
    114-154; there is no special case for CartesianPosND *)
Definition nd_to_array_unchecked (v : ndvec) : res (arr A) := do f <- full_shaped [] [v]; stack_last f.
(** [v.shape], [v.ndim], [v.size]: dn/base.py:76-92, base/base.py:352-416 *)
Definition nd_shape (v : ndvec) : list nat := removelast (ash v).
Definition nd_ndim (v : ndvec) : nat := length (nd_shape v).
Definition nd_size (v : ndvec) : nat := prod (nd_shape v).
(** [v.T]: dn/base.py:94-112 *)
Definition nd_T (v : ndvec) : res ndvec :=
  transpose v (rev (seq 0 (nd_ndim v)) ++ [nd_ndim v]).
(** [v.mT]: dn/base.py:47-74.  [range(n)] is empty for negative [n]. *)
Definition nd_mT (v : ndvec) : res ndvec :=
  let n := nd_ndim v in
  if n <? 2 then Raise ERuntime
  else transpose v (seq 0 (n - 3) ++ [n - 1; n - 2; n]).
(** [v.flatten()]: dn/base.py:117-132 *)
Definition nd_flatten (v : ndvec) : res ndvec :=
  arr_reshape v [Z.of_nat (nd_size v); Z.of_nat (last (ash v) 0)].
(** [v.reshape(shape)]: dn/base.py:134-149 *)
Definition nd_reshape (v : ndvec) (dims : list Z) : res ndvec :=
  arr_reshape v (dims ++ [Z.of_nat (last (ash v) 0)]).
(** [v.ravel()]: base/base.py:749-766, not overridden *)
Definition nd_ravel (v : ndvec) : res ndvec := arr_flatten v.
(** [v[i]]: base/base.py:642-671, not overridden; the single component is indexed *)
Definition nd_get (v : ndvec) (i : Z) : res ndvec := do f <- full_shaped [] [v]; do l <- mapR (fun a => arr_get a i) f;
  match l with [w] => ret w | _ => Raise EValue end.
End Arrays.
Arguments ndvec A : clear implicits.

(** Element-wise arithmetic of N-dimensional vectors *)
Section ND_arith.
Local Open Scope num_scope.
Context {A : Type} {N : Num A}.
Definition zip_broadcast (f : A -> A -> A) (a b : arr A) : res (arr A) :=
  do s <- broadcast_shapes [ash a; ash b];
  ret (mkArr s (fun idx => f (adat (broadcast_to a s) idx) (adat (broadcast_to b s) idx))).
(** [v + w], [v - w]: dn/cartesian.py:195-212, 258-276 ([represent_as] from
    CartesianPosND to itself is the identity, dn/transform.py:16-33) *)
Definition nd_add (v w : ndvec A) : res (ndvec A) := zip_broadcast nadd v w.
Definition nd_sub (v w : ndvec A) : res (ndvec A) := zip_broadcast nsub v w.
(** [-v]: dn/cartesian.py:100, 239-255 *)
Definition nd_neg (v : ndvec A) : ndvec A := mkArr (ash v) (fun idx => - adat v idx).
(** [s * v] for an array [s]: dn/cartesian.py:215-236: all entries of [s]'s shape must be 0 *)
Definition nd_mul (s : arr A) (v : ndvec A) : res (ndvec A) :=
  if forallb (Nat.eqb 0) (ash s) then zip_broadcast nmul s v else Raise ERuntime.
(** [v.norm()]: dn/cartesian.py:104-120, 354-370, 522-544: the square root of the sum of
    the squared entries along the last axis *)
Definition nd_norm (v : ndvec A) : res (arr A) :=
  match rev (ash v) with
  | [] => Raise EValue
  | n :: s => ret (mkArr (rev s) (fun idx =>
      nsqrt (fold_right nadd (ncst 0) (map (fun i => nsq (adat v (idx ++ [i]))) (seq 0 n)))))
  end.
End ND_arith.
