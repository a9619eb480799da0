(** * Batched vectors: shapes, broadcasting, indexing, reshaping, transposition.

    Files modelled (under /repo/src/coordinax/_src/vectors): base/base.py (shape, mT,
    ndim, size, T, __getitem__, __setitem__, __len__, flatten, ravel, reshape, shapes,
    sizes), utils.py (full_shaped).

    An array is a shape and a function from multi-indices to elements (only the
    values at valid indices matter).  The operations on arrays are those of
    [jax.numpy] (library).  A class is given by one range check per component (the
    element-wise [__check_init__] checks); Simplification: the checks relating two
    components and the converters are not repeated here, see Vectors.v. *)
From Coq Require Import List Bool ZArith Arith.
From Verif Require Import Vectors.
Import ListNotations.
Open Scope nat_scope.

Definition prod (s : list nat) : nat := fold_right Nat.mul 1 s.

Record arr (A : Type) := mkArr { ash : list nat; adat : list nat -> A }.
Arguments mkArr {A}. Arguments ash {A}. Arguments adat {A}.

(** ** Library: [jnp.broadcast_shapes], [jnp.broadcast_arrays].  Shapes are compared
    from the last axis on, so the work is done on reversed shapes. *)
Definition bc1 (a b : nat) : option nat :=
  if a =? b then Some a else if a =? 1 then Some b else if b =? 1 then Some a else None.
Fixpoint bcrev (a b : list nat) : option (list nat) :=
  match a, b with
  | [], l => Some l
  | l, [] => Some l
  | x :: a, y :: b => match bc1 x y, bcrev a b with Some z, Some l => Some (z :: l) | _, _ => None end
  end.
Fixpoint bcall (l : list (list nat)) : option (list nat) :=   (* reversed shapes *)
  match l with
  | [] => Some []
  | a :: l => match bcall l with Some b => bcrev a b | None => None end
  end.
Definition broadcast_shapes (l : list (list nat)) : res (list nat) :=
  match bcall (map (@rev nat) l) with Some s => ret (rev s) | None => Raise EValue end.
(** the index at which an array of (reversed) shape [s] is read when a broadcast copy
    is read at the (reversed) index [idx] *)
Fixpoint bidx (s idx : list nat) : list nat :=
  match s, idx with
  | n :: s, i :: idx => (if n =? 1 then 0 else i) :: bidx s idx
  | _, _ => []
  end.
Definition broadcast_to {A} (a : arr A) (s : list nat) : arr A :=
  mkArr s (fun idx => adat a (rev (bidx (rev (ash a)) (rev idx)))).

(** ** Library: [Array.reshape] (C order), [ravel], [flatten], [T], [mT], indexing *)
Fixpoint ravel_index (s idx : list nat) : nat :=
  match s, idx with
  | n :: s, i :: idx => i * prod s + ravel_index s idx
  | _, _ => 0
  end.
Fixpoint unravel_index (s : list nat) (k : nat) : list nat :=
  match s with
  | [] => []
  | n :: s => k / prod s :: unravel_index s (k mod prod s)
  end.
(** the shape argument: one entry may be -1 *)
Definition known (dims : list Z) : list nat := map Z.to_nat (filter (Z.leb 0) dims).
Definition resolve (dims : list Z) (size : nat) : option (list nat) :=
  match filter (fun d => Z.ltb d 0) dims with
  | [] => Some (map Z.to_nat dims)
  | [d] =>
      if (Z.eqb d (-1) && negb (prod (known dims) =? 0) && (size mod prod (known dims) =? 0))%bool
      then Some (map (fun d => if Z.ltb d 0 then size / prod (known dims) else Z.to_nat d) dims)
      else None
  | _ => None
  end.
Definition arr_reshape {A} (a : arr A) (dims : list Z) : res (arr A) :=
  match resolve dims (prod (ash a)) with
  | Some s =>
      if prod s =? prod (ash a)
      then ret (mkArr s (fun idx => adat a (unravel_index (ash a) (ravel_index s idx))))
      else Raise EType
  | None => Raise EType
  end.
Definition arr_flatten {A} (a : arr A) : res (arr A) :=
  ret (mkArr [prod (ash a)] (fun idx => adat a (unravel_index (ash a) (nth 0 idx 0)))).
Definition arr_T {A} (a : arr A) : res (arr A) := ret (mkArr (rev (ash a)) (fun idx => adat a (rev idx))).
(** swap the last two entries *)
Definition swap2 {T} (l : list T) : option (list T) :=
  match rev l with a :: b :: l => Some (rev (b :: a :: l)) | _ => None end.
Definition arr_mT {A} (a : arr A) : res (arr A) :=
  match swap2 (ash a) with
  | Some s => ret (mkArr s (fun idx => match swap2 idx with Some i => adat a i | None => adat a idx end))
  | None => Raise EValue
  end.
(** [a[i]] for an integer: JAX clamps an out-of-range index; 0-dimensional arrays and
    an axis of length 0 raise *)
Definition norm_index (n : nat) (i : Z) : nat :=
  let j := if Z.ltb i 0 then (i + Z.of_nat n)%Z else i in
  if Z.ltb j 0 then 0 else if Z.leb (Z.of_nat n) j then n - 1 else Z.to_nat j.
Definition arr_get {A} (a : arr A) (i : Z) : res (arr A) :=
  match ash a with
  | [] | 0 :: _ => Raise EIndex
  | n :: s => ret (mkArr s (fun idx => adat a (norm_index n i :: idx)))
  end.
(** [a[start:stop]] with [0 <= start], [0 <= stop]: the bounds are clipped *)
Definition arr_slice {A} (a : arr A) (start stop : nat) : res (arr A) :=
  match ash a with
  | [] => Raise EIndex
  | n :: s => ret (mkArr ((Nat.min stop n - Nat.min start n) :: s)
                         (fun idx => match idx with i :: idx => adat a (start + i :: idx) | [] => adat a [] end))
  end.

(** ** Vectors *)
Fixpoint mapR {T U} (f : T -> res U) (l : list T) : res (list U) :=
  match l with
  | [] => ret []
  | x :: l => do y <- f x; do ys <- mapR f l; ret (y :: ys)
  end.

Section Vec.
Context {A : Type}.
(** the class: a range check for every component (base: [lambda _: True]) *)
Variable checks : list (A -> bool).

Definition bvec := list (arr A).      (* the components, in field order *)

(** all elements of an array, in C order *)
Definition elements (a : arr A) : list A :=
  map (fun k => adat a (unravel_index (ash a) k)) (seq 0 (prod (ash a))).
(** the class constructor *)
Definition construct_b (l : bvec) : res bvec :=
  if forallb (fun '(c, a) => forallb c (elements a)) (combine checks l) then ret l else Raise EValue.

(** [v.shapes], [v.sizes]: base/base.py:918-947 *)
Definition v_shapes (v : bvec) : list (list nat) := map ash v.
Definition v_sizes (v : bvec) : list nat := map (fun a => prod (ash a)) v.
(** [v.shape]: base/base.py:245-279 *)
Definition v_shape (v : bvec) : res (list nat) := broadcast_shapes (v_shapes v).
(** [v.ndim]: 352-383; [v.size]: 385-416; [len(v)]: 701-726 *)
Definition v_ndim (v : bvec) : res nat := do s <- v_shape v; ret (length s).
Definition v_size (v : bvec) : res nat := do s <- v_shape v; ret (prod s).
Definition v_len (v : bvec) : res nat :=
  do s <- v_shape v; ret (match s with n :: _ => n | [] => 0 end).
(** [full_shaped(v)]: utils.py:17-36 *)
Definition full_shaped (v : bvec) : res bvec :=
  do s <- v_shape v; construct_b (map (fun a => broadcast_to a s) v).
(** [v[index]]: base/base.py:642-671 *)
Definition v_get (v : bvec) (i : Z) : res bvec :=
  do f <- full_shaped v; do l <- mapR (fun a => arr_get a i) f; construct_b l.
Definition v_slice (v : bvec) (start stop : nat) : res bvec :=
  do f <- full_shaped v; do l <- mapR (fun a => arr_slice a start stop) f; construct_b l.
(** [v[index] = value]: base/base.py:676-678 *)
Definition v_set {I V} (v : bvec) (index : I) (value : V) : res bvec * bvec := (Raise EType, v).
(** [v.reshape(shape)]: base/base.py:768-810 *)
Definition v_reshape (v : bvec) (dims : list Z) : res bvec :=
  do f <- full_shaped v; do l <- mapR (fun a => arr_reshape a dims) f; construct_b l.
(** [v.flatten()], [v.ravel()], [v.T], [v.mT]: base/base.py:728-747, 749-766, 418-439,
    329-350: applied to the components as they are, without broadcasting first *)
Definition v_flatten (v : bvec) : res bvec := do l <- mapR arr_flatten v; construct_b l.
Definition v_ravel (v : bvec) : res bvec := do l <- mapR arr_flatten v; construct_b l.
Definition v_T (v : bvec) : res bvec := do l <- mapR arr_T v; construct_b l.
Definition v_mT (v : bvec) : res bvec := do l <- mapR arr_mT v; construct_b l.
End Vec.
Arguments bvec A : clear implicits.
