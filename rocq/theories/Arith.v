(** * Arithmetic, norm and equality of positions.

    Files modelled (under /repo/src/coordinax/_src/vectors): base/base_pos.py,
    base/base.py (equality), base/compat.py (conversion to a quantity),
    d1/cartesian.py, d2/cartesian.py, d2/polar.py, d3/cartesian.py,
    d3/cylindrical.py, d3/mathspherical.py, d3/lonlatspherical.py.

    Modelled are the rules registered for the JAX primitives; [jnp.add] etc.
    reduce to them.  Units: the functions are polymorphic in the number type; C64
    runs them on numbers that carry units (with the unit check of [jax.tree.map] added
    in TreeArith.v), the other properties on SI values.  One array element (arrays:
    Batch.v). *)
From Coq Require Import Reals Bool List.
From Verif Require Import Num Vectors Transform.
Import ListNotations.

(** [_cartesian_cls]: d1/base.py:33, d2/base.py:25, d3/base.py:27. *)
Definition cart_cls (c : pcls) : pcls :=
  match dim_of c with 1 => CCart1 | 2 => CCart2 | _ => CCart3 end.

Section Arith.
Context {A : Type} `{NA : Num A}.
Variables (m : mode) (deg : bool) (fuel : nat).
Local Open Scope num_scope.

(** [v.represent_as(T)]: base/base.py:152 *)
Definition rep (p : pos A) (t : pcls) : res (pos A) := represent_as m deg fuel nokw p t.

(** Addition with a Cartesian left operand: d1/cartesian.py:67-92,
    d2/cartesian.py:81-101, d3/cartesian.py:99-117. *)
Definition cart_add (p q : pos A) : res (pos A) :=
  match p with
  | PCart1 x => do c <- rep q CCart1;
      match c with PCart1 x' => ret (PCart1 (x + x')) | _ => Raise EType end
  | PCart2 x y => do c <- rep q CCart2;
      match c with PCart2 x' y' => ret (PCart2 (x + x') (y + y')) | _ => Raise EType end
  | PCart3 x y z => do c <- rep q CCart3;
      match c with PCart3 x' y' z' => ret (PCart3 (x + x') (y + y') (z + z')) | _ => Raise EType end
  | _ => Raise EType
  end.
(** [v + w]: base/base_pos.py:180-194; the Cartesian rules are more specific. *)
Definition pos_add (p q : pos A) : res (pos A) :=
  match p with
  | PCart1 _ | PCart2 _ _ | PCart3 _ _ _ => cart_add p q
  | _ =>
      let c := cart_cls (cls_of p) in
      do a <- rep p c; do b <- rep q c; do s <- cart_add a b; rep s (cls_of p)
  end.

(** Subtraction with a Cartesian left operand: d1/cartesian.py:136-161,
    d2/cartesian.py:142-158, d3/cartesian.py:135-151. *)
Definition cart_sub (p q : pos A) : res (pos A) :=
  match p with
  | PCart1 x => do c <- rep q CCart1;
      match c with PCart1 x' => ret (PCart1 (x - x')) | _ => Raise EType end
  | PCart2 x y => do c <- rep q CCart2;
      match c with PCart2 x' y' => ret (PCart2 (x - x') (y - y')) | _ => Raise EType end
  | PCart3 x y z => do c <- rep q CCart3;
      match c with PCart3 x' y' z' => ret (PCart3 (x - x') (y - y') (z - z')) | _ => Raise EType end
  | _ => Raise EType
  end.
(** [v - w]: base/base_pos.py:450-460. *)
Definition pos_sub (p q : pos A) : res (pos A) :=
  match p with
  | PCart1 _ | PCart2 _ _ | PCart3 _ _ _ => cart_sub p q
  | _ =>
      let c := cart_cls (cls_of p) in
      do a <- rep p c; do b <- rep q c; do s <- cart_sub a b; rep s (cls_of p)
  end.

(** [-v]: d1/cartesian.py:121-133, d2/cartesian.py:127-139,
    d3/cartesian.py:120-132, base/base_pos.py:383-405. *)
Definition cart_neg (p : pos A) : res (pos A) :=
  match p with
  | PCart1 x => ret (PCart1 (- x))
  | PCart2 x y => ret (PCart2 (- x) (- y))
  | PCart3 x y z => ret (PCart3 (- x) (- y) (- z))
  | _ => Raise EType
  end.
Definition pos_neg (p : pos A) : res (pos A) :=
  match p with
  | PCart1 _ | PCart2 _ _ | PCart3 _ _ _ => cart_neg p
  | _ => do c <- rep p (cart_cls (cls_of p)); do n <- cart_neg c; rep n (cls_of p)
  end.

(** [k * v]: d1/cartesian.py:95-118, d2/cartesian.py:104-124,
    d3/cartesian.py:392-412 (components scaled), d2/polar.py:62-92 and
    d3/mathspherical.py:186-219 ([replace(rhs, r=lhs * rhs.r)]: the constructor
    runs; a number times a distance object keeps its class),
    base/base_pos.py:234-324 (through Cartesian).  The scalar-shape validation is
    not modelled: [k] is a scalar. *)
Definition cart_mul (k : A) (p : pos A) : res (pos A) :=
  match p with
  | PCart1 x => mk_Cart1 (k * x)
  | PCart2 x y => mk_Cart2 (k * x) (k * y)
  | PCart3 x y z => mk_Cart3 (k * x) (k * y) (k * z)
  | _ => Raise EType
  end.
Definition scale_dist (k : A) (d : dist A) : rarg A := RKeep (mkDist (dk d) (k * dval d)).
Definition pos_mul (k : A) (p : pos A) : res (pos A) :=
  match p with
  | PCart1 _ | PCart2 _ _ | PCart3 _ _ _ => cart_mul k p
  | PPolar r phi => mk_Polar m (scale_dist k r) (AsAngle phi)
  | PMSph r theta phi => mk_MSph m (scale_dist k r) (AsAngle theta) phi
  | _ => do c <- rep p (cart_cls (cls_of p)); do n <- cart_mul k c; rep n (cls_of p)
  end.
(** [v * k]: base/base_pos.py:327-346. *)
Definition pos_mul_r (p : pos A) (k : A) : res (pos A) := pos_mul k p.

(** [v / k]: base/base_pos.py:200-219: every component but Delta
    ([AttrFilter]) divided, then the constructor.  [b]: whether unxt returns the
    quotient of an Angle as a plain Quantity (then the azimuth is wrapped again). *)
Definition div_components (p : pos A) (k : A) : pos A :=
  match p with
  | PProlate mu nu phi Delta => PProlate (mu / k) (nu / k) (phi / k) Delta
  | _ => pos_map (fun x => x / k) p
  end.
Definition pos_div (b : bool) (p : pos A) (k : A) : res (pos A) := build m b (div_components p k).

(** The Cartesian components of a position as a list:
    [convert(v, Quantity)], base/compat.py:31-70. *)
Definition cart_components (p : pos A) : res (list A) :=
  do c <- rep p (cart_cls (cls_of p));
  match c with
  | PCart1 x => ret [x] | PCart2 x y => ret [x; y] | PCart3 x y z => ret [x; y; z]
  | _ => Raise EType
  end.
(** [v * w] for two positions: base/base_pos.py:349-377. *)
Definition pos_mul_pos (p q : pos A) : res (list A) :=
  do a <- cart_components p; do b <- cart_components q;
  ret (map (fun '(x, y) => x * y) (combine a b)).

(** [v == w]: base/base_pos.py:96-137 then base/base.py:545-618: convert [w] to
    the class of [v], compare all leaves.  Radial parts of different classes
    (Distance, Parallax, ...) have different tree structure: [tree.map] raises. *)
Definition eq_dist (a b : dist A) : res bool :=
  match dk a, dk b with
  | KDistance, KDistance | KParallax, KParallax | KDistMod, KDistMod => ret (dval a =? dval b)
  | _, _ => Raise EValue
  end.
Definition eq_components (p q : pos A) : res bool :=
  match p, q with
  | PCart1 x, PCart1 x' => ret (x =? x')
  | PRadial r, PRadial r' => eq_dist r r'
  | PCart2 x y, PCart2 x' y' => ret ((x =? x') && (y =? y'))
  | PPolar r a, PPolar r' a' => do e <- eq_dist r r'; ret (e && (a =? a'))
  | PTwoSphere a b, PTwoSphere a' b' => ret ((a =? a') && (b =? b'))
  | PCart3 x y z, PCart3 x' y' z' => ret ((x =? x') && (y =? y') && (z =? z'))
  | PCyl x y z, PCyl x' y' z' => ret ((x =? x') && (y =? y') && (z =? z'))
  | PSph r a b, PSph r' a' b' => do e <- eq_dist r r'; ret (e && (a =? a') && (b =? b'))
  | PMSph r a b, PMSph r' a' b' => do e <- eq_dist r r'; ret (e && (a =? a') && (b =? b'))
  | PLonLat a b r, PLonLat a' b' r' => do e <- eq_dist r r'; ret ((a =? a') && (b =? b') && e)
  | PProlate a b c d, PProlate a' b' c' d' => ret ((a =? a') && (b =? b') && (c =? c') && (d =? d'))
  | _, _ => Raise EType   (* NotImplemented *)
  end.
Definition pos_eq (p q : pos A) : res bool := do q' <- rep q (cls_of p); eq_components p q'.

End Arith.

Section Norm.
Context {A : Type} `{NA : Num A}.
Variables (deg : bool) (fuel : nat).
Local Open Scope num_scope.
(** [sum(...)] of a non-empty array. *)
Definition sum_list (l : list A) : A := match l with [] => ncst 0 | x :: l => fold_left nadd l x end.
(** [v.norm()] runs under [eqx.filter_jit]: base/base_pos.py:142-173
    ([vector_norm], i.e. sqrt of the sum of [v * v]), d3/cylindrical.py:65-79,
    d3/mathspherical.py:84-99 (returns [r]), d3/lonlatspherical.py:129-145
    (returns [distance]).  The result is a quantity of some kind. *)
Definition pos_norm (p : pos A) : res (dist A) :=
  match p with
  | PCyl rho _ z => ret (mkDist KDistance (nsqrt (nsq rho + nsq z)))
  | PMSph r _ _ => ret r
  | PLonLat _ _ d => ret d
  | _ => do sq <- pos_mul_pos Traced deg fuel p p;
         ret (mkDist KDistance (nsqrt (sum_list sq)))
  end.
End Norm.
