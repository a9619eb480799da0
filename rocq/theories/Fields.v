(** * Fields by name: dictionaries, [components], [replace], keyword construction, and
    the name-based rules of the velocity and acceleration code.

    Files modelled (under /repo/src/coordinax/_src/vectors): base/base.py:64-103
    ([from_(Mapping)]), 815-947 ([asdict], [components], [units]), base/compat.py:336-507
    ([fields], [asdict], [field_keys], [field_values], [field_items] with [AttrFilter]),
    base/attribute.py:25-115, transform/velocities.py:140-163,
    transform/accelerations.py:171-194, base/base_vel.py:141-162, base/base_acc.py:126-219,
    and the field names in the class bodies. *)
From Coq Require Import Reals List Bool ZArith String Ascii.
From Verif Require Import Num Vectors Transform Vel Units.
Import ListNotations.
Open Scope string_scope.

(** ** Field names, in declaration order (line numbers: see [fields_of] in Units.v) *)
Definition pos_names (c : pcls) : list string :=
  match c with
  | CCart1 => ["x"] | CRadial => ["r"] | CCart2 => ["x"; "y"] | CPolar => ["r"; "phi"]
  | CTwoSphere => ["theta"; "phi"] | CCart3 => ["x"; "y"; "z"] | CCyl => ["rho"; "phi"; "z"]
  | CSph | CMSph => ["r"; "theta"; "phi"] | CLonLat => ["lon"; "lat"; "distance"]
  | CProlate => ["mu"; "nu"; "phi"]
  end.
Definition vel_names (c : vcls) : list string :=
  match c with
  | WCart1 => ["d_x"] | WRadial => ["d_r"] | WCart2 => ["d_x"; "d_y"] | WPolar => ["d_r"; "d_phi"]
  | WTwoSphere => ["d_theta"; "d_phi"] | WCart3 => ["d_x"; "d_y"; "d_z"] | WCyl => ["d_rho"; "d_phi"; "d_z"]
  | WSph | WMSph => ["d_r"; "d_theta"; "d_phi"] | WLonLat => ["d_lon"; "d_lat"; "d_distance"]
  | WLonCosLat => ["d_lon_coslat"; "d_lat"; "d_distance"] | WProlate => ["d_mu"; "d_nu"; "d_phi"]
  end.
Definition acc_names (c : xcls) : list string :=
  match c with
  | XCart1 => ["d2_x"] | XRadial => ["d2_r"] | XCart2 => ["d2_x"; "d2_y"] | XPolar => ["d2_r"; "d2_phi"]
  | XTwoSphere => ["d2_theta"; "d2_phi"] | XCart3 => ["d2_x"; "d2_y"; "d2_z"] | XCyl => ["d2_rho"; "d2_phi"; "d2_z"]
  | XSph | XMSph => ["d2_r"; "d2_theta"; "d2_phi"] | XLonLat => ["d2_lon"; "d2_lat"; "d2_distance"]
  | XProlate => ["d2_mu"; "d2_nu"; "d2_phi"]
  end.
(** [VectorAttribute]s: d3/spheroidal.py:109 *)
Definition attr_names (t : tag) : list string := match t with TPos CProlate => ["Delta"] | _ => [] end.
(** [fields(cls)]: all dataclass fields *)
Definition field_names (t : tag) : list string :=
  match t with TPos c => pos_names c | TVel c => vel_names c | TAcc c => acc_names c end ++ attr_names t.
(** [_is_attr]: base/compat.py:336-338 *)
Definition is_attr (t : tag) (n : string) : bool := existsb (String.eqb n) (attr_names t).
(** [cls.components] = names of [fields(AttrFilter, cls)]: base/base.py:853-870,
    base/compat.py:344-382, 420-457 *)
Definition component_names (t : tag) : list string := filter (fun n => negb (is_attr t n)) (field_names t).

(** ** Dictionaries: association lists with distinct keys *)
Section Dict.
Context {V : Type}.
Fixpoint get (d : list (string * V)) (k : string) : option V :=
  match d with
  | [] => None
  | (k', v) :: d => if String.eqb k' k then Some v else get d k
  end.
(** Python's [cls( **d )] for a class with fields [names], none with a default: an
    unexpected or a missing name is a TypeError; the values by field *)
Definition bind_kw (names : list string) (d : list (string * V)) : res (list V) :=
  if forallb (fun '(k, _) => existsb (String.eqb k) names) d
  then mapM (fun n => match get d n with Some v => ret v | None => Raise EType end) names
  else Raise EType.
End Dict.

Section Record.
Variable m : mode.
(** [field_items(v)] (dataclassish: names and values in field order); [asdict(v)] is
    the dictionary with these entries: base/base.py:815-851 *)
Definition field_items (v : uvec) : list (string * qty) := combine (field_names (utag v)) (ucomps v ++ uattrs v)%list.
(** with [AttrFilter]: base/compat.py:388-414, 463-507 *)
Definition field_items_filtered (v : uvec) : list (string * qty) :=
  filter (fun '(k, _) => negb (is_attr (utag v) k)) (field_items v).
(** [getattr(v, name)] for a field *)
Definition field (v : uvec) (n : string) : res qty :=
  match get (field_items v) n with Some q => ret q | None => Raise EAttribute end.
(** [cls( **d )], [cls.from_(d)]: base/base.py:64-103.  Simplification (as in Units.v):
    the values are of the classes the fields store. *)
Definition from_dict (t : tag) (d : list (string * qty)) : res uvec :=
  do vs <- bind_kw (field_names t) d;
  let n := List.length (fields_of t) in
  construct m t (firstn n vs) (skipn n vs).
(** [replace(v, **kw)] (dataclasses.replace): fields not mentioned keep their value *)
Definition replace (v : uvec) (kw : list (string * qty)) : res uvec :=
  from_dict (utag v) (kw ++ filter (fun '(k, _) => negb (existsb (String.eqb k) (map fst kw))) (field_items v))%list.
(** [v.units]: base/base.py:872-886 *)
Definition units (v : uvec) : list (string * unit_) := map (fun '(k, q) => (k, qunit q)) (field_items_filtered v).
End Record.

(** ** Python strings: [s.replace(old, new)] for a non-empty [old], [s[2:]] *)
Fixpoint replace_from (old new s : string) (skip : nat) : string :=
  match s with
  | EmptyString => EmptyString
  | String c s' =>
      match skip with
      | S k => replace_from old new s' k
      | O => if prefix old s then new ++ replace_from old new s' (String.length old - 1) else String c (replace_from old new s' 0)
      end
  end.
Definition py_replace (s old new : string) : string := replace_from old new s 0.
Definition drop2 (s : string) : string := substring 2 (String.length s - 2) s.

(** ** The Jacobian product by names *)
Local Open Scope num_scope.
(** [jac_rows]: transform/velocities.py:140-146; entry (row i, column j) of the matrix
    given by columns *)
Definition jac_rows (pre : string) (rows cols : list string) (J : list (list ext)) : list (string * list (string * ext)) :=
  map (fun '(i, k) => (pre ++ k, map (fun '(j, kk) => (kk, nth i (nth j J []) None))
                                     (combine (seq 0 (List.length cols)) cols)))
      (combine (seq 0 (List.length rows)) rows).
(** the dictionary passed to [target( **... )]: transform/velocities.py:151-162 *)
Definition row_products (pre : string) (rows : list (string * list (string * ext))) (current : list (string * ext))
  : res (list (string * ext)) :=
  mapM (fun '(k, jr) =>
          do terms <- mapM (fun '(kk, jc) => match get current (pre ++ kk) with
                                             | Some x => ret (jc * x) | None => Raise EAttribute end) jr;
          ret (k, fold_right nadd (Some 0%R) terms)) rows.
(** transform/velocities.py:140-163 *)
Definition vel_by_name (v : vel ext) (t : vcls) (J : list (list ext)) : res (vel ext) :=
  do d <- row_products "d_" (jac_rows "d_" (pos_names (integral_cls t)) (pos_names (integral_cls (vc v))) J)
                       (combine (vel_names (vc v)) (vcomps v));
  do l <- bind_kw (vel_names t) d;
  ret (mkVel t l).
(** transform/accelerations.py:171-194: attributes are not filtered out *)
Definition acc_by_name (a : acc ext) (t : xcls) (J : list (list ext)) : res (acc ext) :=
  let tc := integral_cls (acc_integral_cls t) in
  do d <- row_products "d2_" (jac_rows "d2_" (field_names (TPos tc)) (field_names (TPos (integral_cls (acc_integral_cls (xc a))))) J)
                       (combine (acc_names (xc a)) (xcomps a));
  do l <- bind_kw (acc_names t) d;
  ret (mkAcc t l).
(** [vel * t]: base/base_vel.py:141-162 *)
Definition vel_mul_time_by_name (m : mode) (v : vel ext) (t : ext) : res (pos ext) :=
  do l <- bind_kw (field_names (TPos (integral_cls (vc v))))
            (map (fun '(k, x) => (drop2 k, x * t)) (combine (vel_names (vc v)) (vcomps v)));
  pos_from_components m (integral_cls (vc v)) l.
(** [acc * t]: base/base_acc.py:126-150 *)
Definition acc_mul_time_by_name (a : acc ext) (t : ext) : res (vel ext) :=
  do l <- bind_kw (field_names (TVel (acc_integral_cls (xc a))))
            (map (fun '(k, x) => (py_replace k "2" "", x * t)) (combine (acc_names (xc a)) (xcomps a)));
  ret (mkVel (acc_integral_cls (xc a)) l).
(** [acc * t2]: base/base_acc.py:174-198 *)
Definition acc_mul_time2_by_name (m : mode) (a : acc ext) (t2 : ext) : res (pos ext) :=
  do l <- bind_kw (field_names (TPos (integral_cls (acc_integral_cls (xc a)))))
            (map (fun '(k, x) => (py_replace k "d2_" "", x * t2)) (combine (acc_names (xc a)) (xcomps a)));
  pos_from_components m (integral_cls (acc_integral_cls (xc a))) l.
