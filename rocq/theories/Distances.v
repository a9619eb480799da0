(** * Distance, Parallax and DistanceModulus.

    Files modelled (under /repo/src/coordinax/_src/distances): core.py, compat.py.
    A distance object is a [dist] (Vectors.v): its class and its value (metres,
    radians, magnitudes).  Simplification: one array element; consistent units;
    infinities are "not finite". *)
From Coq Require Import Reals Bool List.
From Verif Require Import Num Vectors.

Section Distances.
Variable m : mode.
Local Open Scope num_scope.

(** [jnp.log10] *)
Definition elog10 (x : ext) : ext :=
  match x with Some a => if Rltb 0 a then Some (ln a / ln 10)%R else None | None => None end.

(** ** Constructors: core.py:45-49, 142-153 ([eqx.error_if] whose result is
    dropped: raises only on concrete values), 223-227.  [k]: the dimension of
    the argument. *)
Definition mk_Distance (k : dkind) (v : ext) : res (dist ext) :=
  match k with KDistance => ret (mkDist KDistance v) | _ => Raise EValue end.
Definition mk_Parallax (check_negative : bool) (k : dkind) (v : ext) : res (dist ext) :=
  match k with
  | KParallax =>
      match m, check_negative with
      | Eager, true => if v <? ncst 0 then Raise ENegative else ret (mkDist KParallax v)
      | _, _ => ret (mkDist KParallax v)
      end
  | _ => Raise EValue
  end.
Definition mk_DistMod (k : dkind) (v : ext) : res (dist ext) :=
  match k with KDistMod => ret (mkDist KDistMod v) | _ => Raise EValue end.

(** ** [.distance]: core.py:51-63, 155-172, 229-242 *)
Definition to_distance (d : dist ext) : res (dist ext) :=
  match dk d with
  | KDistance => ret d
  | KParallax => mk_Distance KDistance (ncst AU / ntan (dval d))
  | KDistMod => mk_Distance KDistance (nexp10 (dval d / ncst 5 + ncst 1) * ncst PC)
  end.
(** ** [.parallax]: core.py:65-83, 174-186, 244-255 *)
Definition to_parallax (d : dist ext) : res (dist ext) :=
  match dk d with
  | KParallax => ret d
  | KDistance => mk_Parallax true KParallax (natan2 (ncst AU) (dval d))
  | KDistMod => do l <- to_distance d; mk_Parallax true KParallax (natan2 (ncst AU) (dval l))
  end.
(** ** [.distance_modulus]: core.py:85-99, 188-199, 257-268 *)
Definition to_distmod (d : dist ext) : res (dist ext) :=
  match dk d with
  | KDistMod => ret d
  | KDistance => mk_DistMod KDistMod (ncst 5 * elog10 (dval d / (ncst 10 * ncst PC)))
  | KParallax => do l <- to_distance d; mk_DistMod KDistMod (ncst 5 * elog10 (dval l / (ncst 10 * ncst PC)))
  end.

(** ** [Distance.from_(x)], [Parallax.from_(x)], [DistanceModulus.from_(x)] for a
    quantity or distance object [x] of dimension [k]: core.py:275-343; the
    remaining combinations reach unxt's constructor, which keeps the value and
    unit and is then refused by the dimension check. *)
Definition Distance_from (k : dkind) (v : ext) : res (dist ext) :=
  match k with
  | KDistance => mk_Distance KDistance v
  | KParallax => mk_Distance KDistance (ncst AU / ntan v)
  | KDistMod => mk_Distance KDistance (nexp10 (v / ncst 5 + ncst 1) * ncst PC)
  end.
Definition Parallax_from (k : dkind) (v : ext) : res (dist ext) :=
  match k with
  | KDistance => mk_Parallax true KParallax (natan2 (ncst AU) v)
  | _ => mk_Parallax true k v
  end.
Definition DistMod_from (k : dkind) (v : ext) : res (dist ext) := mk_DistMod k v.

(** ** [plum.convert(x, cls)]: compat.py:28-109: instances of the class are
    returned, other quantities keep value and unit. *)
Definition convert_Distance (d : dist ext) : res (dist ext) :=
  match dk d with KDistance => ret d | k => mk_Distance k (dval d) end.
Definition convert_Parallax (d : dist ext) : res (dist ext) :=
  match dk d with KParallax => ret d | k => mk_Parallax true k (dval d) end.
Definition convert_DistMod (d : dist ext) : res (dist ext) :=
  match dk d with KDistMod => ret d | k => mk_DistMod k (dval d) end.
(** [convert(x, Quantity)]: compat.py:22-25: dimension and value *)
Definition convert_Quantity (d : dist ext) : dkind * ext := (dk d, dval d).
End Distances.
