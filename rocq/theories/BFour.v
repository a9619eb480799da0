(** * Arrays of FourVectors: times of one shape, positions of another.

    Files modelled (under /repo/src/coordinax/_src/vectors): d4/spacetime.py (all of it but
    [__getattr__], [__str__] and the complex square root), d4/compat.py, utils.py:17-36,
    base/base.py (shape, __eq__, __getitem__, flatten, ravel, reshape, T, mT) and
    base/register_primitives.py:27-138, base/mixins.py:17-122 as far as they concern
    FourVectors.

    Simplifications: the positions are CartesianPos3D (no checks); operands in the same
    units (one length unit, [c] in that unit per time unit). *)
From Coq Require Import Reals List Bool Arith ZArith.
From Verif Require Import Num Vectors Shapes Arrays FourVec BatchOps BatchArith.
Import ListNotations.
Open Scope nat_scope.

(** times, components of the positions, and the scalar attribute c *)
Record bfour := mkB { bt : arr ext; bq : bvec ext; bc : ext }.

(** the class constructor, [__check_init__]: d4/spacetime.py:95-101 *)
Definition bf_make (t : arr ext) (q : bvec ext) (c : ext) : res bfour :=
  do sq <- v_shape q;
  do s <- broadcast_shapes [ash t; sq];
  if shape_eqb s sq then ret (mkB t q c) else Raise EValue.
(** [v.shape]: base/base.py:245-279 *)
Definition bf_shape (v : bfour) : res (list nat) :=
  do sq <- v_shape (bq v); broadcast_shapes [ash (bt v); sq].

(** an element-wise function of one array *)
Definition amap {T U} (f : T -> U) (a : arr T) : arr U := mkArr (ash a) (fun idx => f (adat a idx)).

Local Open Scope num_scope.
(** [v + w]: d4/spacetime.py:311-336 (the times are Quantities: numpy broadcasting) *)
Definition bf_add (v w : bfour) : res bfour :=
  do t <- np_zip nadd (bt v) (bt w); do q <- cart_sum KPos 3 (bq v) (bq w); bf_make t q (bc v).
(** [v - w]: d4/spacetime.py:339-364 *)
Definition bf_sub (v w : bfour) : res bfour :=
  do t <- np_zip nsub (bt v) (bt w); do q <- cart_diff KPos 3 (bq v) (bq w); bf_make t q (bc v).
(** [-v]: d4/spacetime.py:191-208 *)
Definition bf_neg (v : bfour) : res bfour := bf_make (amap nneg (bt v)) (cart_neg (bq v)) (bc v).

(** [q.norm()]: base/base_pos.py:142-184: the norm of the last axis of the array
    of the components *)
Definition b_norm (q : bvec ext) : res (arr ext) :=
  do a <- to_array (C3 APos) q;
  ret (mkArr (removelast (ash a)) (fun idx =>
         nsqrt (nsq (adat a (idx ++ [0%nat])) + nsq (adat a (idx ++ [1%nat])) + nsq (adat a (idx ++ [2%nat]))))).
(** [v._norm2()]: d4/spacetime.py:212-226 *)
Definition bf_norm2 (v : bfour) : res (arr ext) :=
  do n <- b_norm (bq v);
  np_zip nadd (amap (fun x => - nsq x) n) (amap (fun x => nsq (bc v * x)) (bt v)).

(** [v == w]: base/base.py:613-618: the leaves of the tree are t, x, y, z and c *)
Definition scalar (c : ext) : arr ext := mkArr [] (fun _ => c).
Definition bf_equal (v w : bfour) : res (arr bool) :=
  vec_equal (bt v :: bq v ++ [scalar (bc v)]) (bt w :: bq w ++ [scalar (bc w)]).

(** [convert(v, Quantity)]: d4/compat.py:15-19.  [jnp.concat] along the last axis wants
    arrays that agree in all other axes. *)
Definition bf_to_array (v : bfour) : res (arr ext) :=
  do a <- to_array (C3 APos) (bq v);
  if shape_eqb (ash (bt v)) (removelast (ash a))
  then ret (mkArr (ash (bt v) ++ [4%nat]) (fun idx =>
         match last idx 0%nat with
         | O => bc v * adat (bt v) (removelast idx)
         | S i => adat a (removelast idx ++ [i])
         end))
  else Raise EType.
(** [FourVector.from_(array)], last axis 4: d4/spacetime.py:106-153; [q] is converted by
    CartesianPos3D.from_ (86) *)
Definition bf_from_array (a : arr ext) : res bfour :=
  if last_is 4 a then
    do t <- at_last a 0;
    do q <- from_array (C3 APos) (mkArr (removelast (ash a) ++ [3%nat])
              (fun idx => adat a (removelast idx ++ [S (last idx 0%nat)])));
    bf_make (amap (fun x => x / ncst c_light) t) q (ncst c_light)
  else Raise ENotFound.

(** [v.flatten()], [v.ravel()]: base/base.py:728-766: [field_items(AttrFilter, v)] are t
    and q; [replace] runs the constructor *)
Definition bf_flatten (v : bfour) : res bfour :=
  do t <- arr_flatten (bt v); do q <- v_flatten [] (bq v); bf_make t q (bc v).
(** [v.T], [v.mT]: base/base.py:418-439, 329-350 *)
Definition bf_T (v : bfour) : res bfour :=
  do t <- arr_T (bt v); do q <- v_T [] (bq v); bf_make t q (bc v).
Definition bf_mT (v : bfour) : res bfour :=
  do t <- arr_mT (bt v); do q <- v_mT [] (bq v); bf_make t q (bc v).

(** [full_shaped(v)]: utils.py:17-36.  [jnp.broadcast_arrays] compares the shape of t and
    the shape of the array the vector q stands for, which has one axis more
    (base/mixins.py:17-122); the rule for [broadcast_in_dim]
    (base/register_primitives.py:27-138) gives the components of q that shape without its
    last axis.  (If all shapes are equal nothing is done.) *)
Definition bf_full (v : bfour) : res bfour :=
  do sq <- v_shape (bq v);
  let aval := sq ++ [3%nat] in
  if shape_eqb (ash (bt v)) aval then bf_make (bt v) (bq v) (bc v)
  else
    do s <- broadcast_shapes [ash (bt v); aval];
    let q := if shape_eqb s aval then bq v else map (fun a => broadcast_to a (removelast s)) (bq v) in
    bf_make (broadcast_to (bt v) s) q (bc v).
(** [v[i]], [v.reshape(dims)]: base/base.py:642-671, 768-810 *)
Definition bf_get (v : bfour) (i : Z) : res bfour :=
  do f <- bf_full v; do t <- arr_get (bt f) i; do q <- v_get [] (bq f) i; bf_make t q (bc f).
Definition bf_reshape (v : bfour) (dims : list Z) : res bfour :=
  do f <- bf_full v; do t <- arr_reshape (bt f) dims; do q <- v_reshape [] (bq f) dims; bf_make t q (bc v).
