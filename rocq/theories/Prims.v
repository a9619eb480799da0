(** * JAX primitives on vectors: [broadcast_in_dim], [reshape], [convert_element_type];
    [T], [mT], [flatten], [ravel] of a Space; attributes.

    Files modelled (under /repo/src/coordinax/_src): vectors/base/register_primitives.py,
    vectors/base/base_pos.py:411-444, vectors/space/core.py:270-295, 352-379, 437-460, 516-553,
    vectors/base/attribute.py, vectors/d4/spacetime.py:81-92, 157-170,
    vectors/base/mixins.py:127-181.

    Simplification: the functions registered for the primitives are modelled; how
    [jnp.broadcast_to] and [jnp.reshape] call the primitives is library code.  The
    primitives are applied to all the fields; the attributes ([Delta]) are not modelled. *)
From Coq Require Import List Bool ZArith Arith String.
From Verif Require Import Vectors Vel Shapes Arrays Space.
Import ListNotations.
Open Scope nat_scope.

(** ** Library: [jnp.broadcast_to] for an array: every axis must be the one asked for or 1 *)
Definition arr_broadcast_to {A} (a : arr A) (s : list nat) : res (arr A) :=
  match bcrev (rev (ash a)) (rev s) with
  | Some t => if shape_eqb t (rev s) then ret (broadcast_to a s) else Raise EValue
  | None => Raise EValue
  end.
(** [a.astype(dtype)]: [f] is the conversion of one number *)
Definition arr_astype {A} (f : A -> A) (a : arr A) : arr A := mkArr (ash a) (fun idx => f (adat a idx)).

Section Prims.
Context {A : Type} (checks : list (A -> bool)).
(** [_broadcast_in_dim_p]: base/register_primitives.py:27-139; [shape[:-1]] *)
Definition prim_broadcast (v : bvec A) (shape : list nat) : res (bvec A) :=
  do l <- mapR (fun a => arr_broadcast_to a (removelast shape)) v; construct_b checks l.
(** [_reshape_pos]: base/base_pos.py:411-444; [new_sizes] has no -1; an empty [new_sizes]
    raises (IndexError) *)
Definition prim_reshape (v : bvec A) (new_sizes : list nat) : res (bvec A) :=
  match new_sizes with
  | [] => Raise EIndex
  | k :: t =>
      do l <- mapR (fun a => arr_reshape a (map Z.of_nat (k / List.length v :: t))) v; construct_b checks l
  end.
(** [_convert_element_type_p]: base/register_primitives.py:16-24 *)
Definition prim_astype (f : A -> A) (v : bvec A) : res (bvec A) := construct_b checks (map (arr_astype f) v).
End Prims.

(** ** Space *)
Section SpaceOps.
Context (L : dimlib) {V : Type} (shape : V -> res (list nat)) (size : V -> res nat).
(** [space.T], [space.mT]: space/core.py:352-379, 270-295, and [flatten], [ravel], inherited:
    base/base.py:350, 439, 745-747, 766: [replace(self, **{k: op(v) ...})]; [replace] and
    [field_items] of a Space: space/compat.py:90-138 *)
Definition space_each (op : V -> res V) (s : space V) : res (space V) :=
  do kw <- mapM (fun '(k, v) => do v' <- op v; ret (k, v')) s; space_replace L shape s kw.
(** [space.asdict()]: 437-460 *)
Definition space_asdict (s : space V) : list (string * V) := s.
(** [space.shapes], [space.sizes]: 516-553 *)
Definition space_shapes (s : space V) : res (list (string * list nat)) :=
  mapM (fun '(k, v) => do x <- shape v; ret (k, x)) s.
Definition space_sizes (s : space V) : res (list (string * nat)) :=
  mapM (fun '(k, v) => do x <- size v; ret (k, x)) s.
End SpaceOps.

(** ** Attributes *)
Section Attr.
Context {V : Type}.
(** [VectorAttribute]: base/attribute.py:26-72: the default (None: MISSING) is converted
    when the attribute is created *)
Record vattr := mkVattr { va_default : option V; va_conv : V -> res V }.
Definition vattr_init (default : option V) (conv : V -> res V) : res vattr :=
  match default with
  | None => ret (mkVattr None conv)
  | Some d => do d' <- conv d; ret (mkVattr (Some d') conv)
  end.
(** [cls.attr]: 86-102: the attribute itself, or AttributeError; [field]: the class is a
    dataclass and already has a field of this name *)
Definition vattr_class_get (a : vattr) (field : bool) : res vattr :=
  match va_default a with
  | None => if field then ret a else Raise EAttribute
  | Some _ => ret a
  end.
(** What the dataclass machinery (library) does with it: while the class is made, the
    field's default is [cls.attr] if that does not raise.  The constructor stores the
    argument given, or else the default, which is the attribute itself, with
    [__set__]: 107-115 *)
Definition vattr_construct (a : vattr) (arg : option V) : res V :=
  match arg with
  | Some x => va_conv a x
  | None =>
      match vattr_class_get a false with
      | Raise _ => Raise EType                      (* a required argument is missing *)
      | Ok _ _ => match va_default a with Some d => va_conv a d | None => Raise EType end
      end
  end.
End Attr.
Arguments vattr V : clear implicits.

(** [FourVector.__getattr__]: d4/spacetime.py:157-170.  Python calls it only for names
    not found in the object ([own]) *)
Definition fourvector_getattr {V} (own q : string -> res V) (name : string) : res V :=
  match own name with Raise EAttribute => q name | r => r end.

(** [_repr_mimebundle_]: base/mixins.py:136-181: the keys of the bundle *)
Definition repr_formats : list string := ["text/plain"; "text/latex"]%string.
Definition mem_str (k : string) (l : list string) : bool := existsb (String.eqb k) l.
Definition mime_keys (incl excl : option (list string)) : list string :=
  match incl, excl with
  | None, None => repr_formats
  | Some i, _ => filter (fun k => mem_str k repr_formats) i
  | None, Some e => filter (fun k => negb (mem_str k e)) repr_formats
  end.
