(** * [Space]: a collection of vectors keyed by dimension name.

    Files modelled (under /repo/src/coordinax/_src/vectors): space/core.py,
    space/compat.py ([replace]); utility parts of base/base.py ([shape], [__len__]).

    The constructor, look-up, indexing, negation and [replace] are modelled for any
    type of vectors [V] with a shape; [represent_as] for vectors of one element.
    Not modelled: repr, dtypes, devices, [T]/[mT]/[reshape], arithmetic. *)
From Coq Require Import List Bool ZArith Arith String.
From Verif Require Import Num Vectors Transform Vel Arith Shapes.
Import ListNotations.
Open Scope nat_scope.

(** ** Library: unxt / astropy dimensions.  [u.dimension(name)] is the dimension of a
    name (several names may denote the same one: "speed" and "velocity"), or raises;
    [dim_name d] is [d._physical_type_list[0]]. *)
Record dimlib := mkDimlib {
  D : Type;
  D_eqb : D -> D -> bool;
  parse : string -> option D;
  dim_name : D -> string }.
(** the facts used: equality is equality, and the names of a dimension denote it *)
Definition dimlib_ok (L : dimlib) : Prop :=
  (forall a b, D_eqb L a b = true <-> a = b) /\ (forall d, parse L (dim_name L d) = Some d).

(** ** Library: Python [dict]: insertion ordered, a repeated key keeps its place and
    takes the new value *)
Section Dict.
Context {K V : Type} (eqb : K -> K -> bool).
Fixpoint dset (d : list (K * V)) (k : K) (v : V) : list (K * V) :=
  match d with
  | [] => [(k, v)]
  | (k', v') :: d => if eqb k' k then (k', v) :: d else (k', v') :: dset d k v
  end.
Definition dict_of (items : list (K * V)) : list (K * V) :=
  fold_left (fun d '(k, v) => dset d k v) items [].
Fixpoint dget (d : list (K * V)) (k : K) : option V :=
  match d with
  | [] => None
  | (k', v) :: d => if eqb k' k then Some v else dget d k
  end.
End Dict.

Section Space.
Context (L : dimlib) {V : Type} (shape : V -> res (list nat)).

(** The keys of the input: a name or a Dimension object (their hashes differ, so a
    [dict] keeps both). *)
Inductive ikey := KStr (s : string) | KDim (d : D L).
Definition ikey_eqb (a b : ikey) : bool :=
  match a, b with
  | KStr s, KStr s' => String.eqb s s'
  | KDim d, KDim d' => D_eqb L d d'
  | _, _ => false
  end.
(** [_get_dimension_name]: space/core.py:34-35 *)
Definition dimension_name (k : ikey) : res string :=
  match k with
  | KStr s => match parse L s with Some d => ret (dim_name L d) | None => Raise EValue end
  | KDim d => ret (dim_name L d)
  end.
(** [_can_broadcast_shapes]: space/core.py:38-44 *)
Definition can_broadcast (l : list (list nat)) : bool :=
  match broadcast_shapes l with Ok _ _ => true | Raise _ => false end.

Definition space := list (string * V).       (* [_data] *)

(** [Space(...)]: space/core.py:103-128.  [items] are the entries of the positional
    mapping or iterable followed by the keyword arguments.  [len(keys) < len(raw)] is
    false by construction, so the duplicate check of lines 114-118 does nothing. *)
Definition mk_space (items : list (ikey * V)) : res space :=
  let raw := dict_of ikey_eqb items in
  do keys <- mapM dimension_name (map fst raw);
  if (Nat.ltb (List.length keys) (List.length raw))%bool then Raise ERuntime else
  do shapes <- mapM shape (map snd raw);
  if negb (can_broadcast shapes) then Raise ERuntime else
  ret (dict_of String.eqb (combine keys (map snd raw))).

(** [Space.from_(pos)]: space/core.py:130-145; [Space.from_(space)]: 559-572 *)
Definition space_from_pos (v : V) : res space := mk_space [(KStr "length", v)].
Definition space_from_space (s : space) : space := s.

(** [space[key]] for a name or a Dimension: space/core.py:222-255 *)
Definition space_get (s : space) (k : ikey) : res V :=
  let name := match k with KStr n => n | KDim d => dim_name L d end in
  match dget String.eqb s name with Some v => ret v | None => Raise EKey end.
(** [key in space]: Mapping.__contains__ *)
Definition space_contains (s : space) (k : ikey) : bool :=
  match space_get s k with Ok _ _ => true | Raise _ => false end.
(** [Space]-valued dictionary comprehensions over the items *)
Definition map_items (f : V -> res V) (s : space) : res (list (ikey * V)) :=
  mapM (fun '(k, v) => do v' <- f v; ret (KStr k, v')) s.
(** [space[index]]: space/core.py:150-220 ([item v] is [v[index]]);
    [-space]: 384-400 ([item v] is [-v]) *)
Definition space_map (item : V -> res V) (s : space) : res space :=
  do l <- map_items item s; mk_space l.
(** [replace(space, ...)]: space/compat.py:119-138; the names are used as dictionary
    keys next to the existing ones *)
Definition space_replace (s : space) (kw : list (string * V)) : res space :=
  mk_space (map (fun '(k, v) => (KStr k, v)) (dict_of String.eqb (s ++ kw))).
(** [space.shape]: space/core.py:315-332 and base/base.py:279; [shapes]: 516-534 *)
Definition space_shape (s : space) : res (list nat) :=
  do l <- mapM (fun '(_, v) => shape v) s; broadcast_shapes l.
(** [len(space)]: [AbstractVector.__len__] comes first in the MRO: base/base.py:701-726 *)
Definition space_len (s : space) : res nat :=
  do sh <- space_shape s; ret (match sh with n :: _ => n | [] => 0 end).
End Space.
Arguments KStr {L} s. Arguments KDim {L} d.
Arguments space V : clear implicits.

(** ** [represent_as(space, target)]: space/core.py:579-622.  Simplification: vectors
    of one element, so all shapes are (). *)
Inductive sval := SP (p : pos ext) | SV (v : vel ext) | SA (a : acc ext).
Definition sval_shape (v : sval) : res (list nat) := ret [].

Section Rep.
Context (L : dimlib) (m : mode) (deg : bool) (fuel : nat).
(** [temp_represent_as]: 594-622 *)
Definition temp_represent_as (current : sval) (t : pcls) (s : space sval) : res sval :=
  match current with
  | SP p => do q <- represent_as m deg fuel nokw p t; ret (SP q)
  | SV v =>
      do l <- space_get L s (KStr "length");
      match l with
      | SP p => do w <- vel_represent_as m deg fuel nokw v (differential_cls t) p; ret (SV w)
      | _ => Raise ENotFound
      end
  | SA a =>
      do w <- space_get L s (KStr "speed");
      do l <- space_get L s (KStr "length");
      match w, l with
      | SV v, SP p =>
          do b <- acc_represent_as m deg fuel nokw a (vel_differential_cls (differential_cls t)) v p; ret (SA b)
      | _, _ => Raise ENotFound
      end
  end.
(** [represent_as]: 579-584 *)
Definition space_represent_as (s : space sval) (t : pcls) : res (space sval) :=
  do l <- map_items L (fun v => temp_represent_as v t s) s; mk_space L sval_shape l.
End Rep.

(** ** Batched vectors as values: a class (its range checks) and its components *)
Record bval (A : Type) := mkB { bchk : list (A -> bool); bcomps : bvec A }.
Arguments mkB {A}. Arguments bchk {A}. Arguments bcomps {A}.
Definition bval_shape {A} (b : bval A) : res (list nat) := v_shape (bcomps b).
(** [v[i]] *)
Definition bval_get {A} (i : Z) (b : bval A) : res (bval A) :=
  do w <- v_get (bchk b) (bcomps b) i; ret (mkB (bchk b) w).

(** [-v] for the vectors in a space: base/base_pos.py (see Arith.v [pos_neg]),
    base/base_vel.py:107-127, base/base_acc.py:90-110; [-space]: space/core.py:384-400 *)
Definition sval_neg (m : mode) (deg : bool) (fuel : nat) (v : sval) : res sval :=
  match v with
  | SP p => do q <- Arith.pos_neg m deg fuel p; ret (SP q)
  | SV v => ret (SV (vel_neg v))
  | SA a => ret (SA (acc_neg a))
  end.
Definition space_neg (L : dimlib) (m : mode) (deg : bool) (fuel : nat) (s : space sval) : res (space sval) :=
  space_map L sval_shape (sval_neg m deg fuel) s.

(** An excerpt of astropy's table of physical types (library) *)
Inductive adim := ALength | ASpeed | AAcc | ATime | AAngle.
Definition adim_eqb (a b : adim) : bool :=
  match a, b with
  | ALength, ALength | ASpeed, ASpeed | AAcc, AAcc | ATime, ATime | AAngle, AAngle => true
  | _, _ => false
  end.
Definition astropy : dimlib := mkDimlib adim adim_eqb
  (fun s => if String.eqb s "length" then Some ALength
            else if String.eqb s "speed" then Some ASpeed
            else if String.eqb s "velocity" then Some ASpeed
            else if String.eqb s "acceleration" then Some AAcc
            else if String.eqb s "time" then Some ATime
            else if String.eqb s "angle" then Some AAngle else None)
  (fun d => match d with
            | ALength => "length" | ASpeed => "speed" | AAcc => "acceleration"
            | ATime => "time" | AAngle => "angle"
            end)%string.
