(** * Unit vectors, generic 3-vectors and the range checks on arrays.

    Files modelled (under /repo/src/coordinax/_src/vectors): funcs.py,
    d3/cartesian.py:159-190, d3/generic.py, checks.py.
    Simplification: an array of shape (batch, N) is the list of its rows; units
    are one exponent of an arbitrary base unit (the check that a unit is an angle
    is in Units.v). *)
From Coq Require Import Reals Bool List ZArith.
From Verif Require Import Num Vectors Transform Arith.
Import ListNotations.
Local Open Scope num_scope.

(** [jnp.linalg.vector_norm(x, axis=-1)] of one row. *)
Definition vector_norm (x : list ext) : ext :=
  nsqrt (fold_right (fun a s => a * a + s) (Some 0%R : ext) x).

(** [normalize_vector] of an array: funcs.py:15-34: every row by its own norm. *)
Definition normalize_row (x : list ext) : list ext := map (fun a => a / vector_norm x) x.
Definition normalize_array (x : list (list ext)) : list (list ext) := map normalize_row x.

(** [normalize_vector] of a Quantity: funcs.py:37-58.  The unit is the power [u] of
    the base unit; the quotient is dimensionless. *)
Record qarr := mkQarr { qunit : Z; qrows : list (list ext) }.
Definition normalize_q (x : qarr) : qarr := mkQarr (qunit x - qunit x)%Z (normalize_array (qrows x)).

(** CartesianGeneric3D: d3/generic.py:25-54: three quantities of any units. *)
Record generic3 := mkGen { gx : Z * ext; gy : Z * ext; gz : Z * ext }.
(** [-v]: d3/generic.py:58-69 *)
Definition gneg (g : generic3) : generic3 :=
  let n (c : Z * ext) := (fst c, nneg (snd c)) in mkGen (n (gx g)) (n (gy g)) (n (gz g)).
(** [CartesianGeneric3D.from_(Quantity)]: d3/generic.py:76-98: the last axis, with
    the indices of JAX (an index beyond the end is clamped to the last entry). *)
Definition clampn (x : list ext) (i : nat) : ext := nth (Nat.min i (length x - 1)) x None.
Definition generic_from (u : Z) (row : list ext) : generic3 :=
  mkGen (u, clampn row 0) (u, clampn row 1) (u, clampn row 2).

(** [normalize_vector] of a position: d3/cartesian.py:159-190; only CartesianPos3D
    has one.  [norm]: base/base_pos.py:143-168. *)
Definition normalize_pos (m : mode) (deg : bool) (fuel : nat) (p : pos ext) : res generic3 :=
  match p with
  | PCart3 x y z =>
      let n := vector_norm [x; y; z] in
      ret (mkGen (0%Z, x / n) (0%Z, y / n) (0%Z, z / n))
  | _ => Raise ENotFound
  end.

(** ** Range checks on arrays: [eqx.error_if(x, xp.any(...), msg)].  The check fires
    if any element violates the condition; else [x] is returned.  Under [jit] the error is
    raised when the compiled program runs, likewise. *)
Definition error_if_any (bad : ext -> bool) (e : err) (x : list ext) : res (list ext) :=
  if existsb bad x then Raise e else ret x.
Definition check_non_negative (x : list ext) : res (list ext) :=         (* checks.py:85-106 *)
  error_if_any (fun a => a <? ncst 0) ENegative x.
Definition check_r_non_negative (x : list ext) : res (list ext) :=        (* checks.py:19-39 *)
  check_non_negative x.
Definition check_positive (x : list ext) : res (list ext) :=              (* checks.py:109-138 *)
  error_if_any (fun a => a <=? ncst 0) ENegative x.
Definition check_polar_range (x : list ext) : res (list ext) :=           (* checks.py:42-82, radians *)
  error_if_any (fun a => (a <? ncst 0) || (ncst PI <? a))%bool EPolarRange x.
(** [xp.any(x >= max_val)]: the bound is broadcast against [x]: one bound, or one per
    element. *)
Definition bounds (x : list ext) (b : list ext) : res (list ext) :=
  match b with
  | [c] => ret (repeat c (length x))
  | _ => if Nat.eqb (length b) (length x) then ret b else Raise EValue
  end.
Definition check_pairs (bad : ext -> ext -> bool) (x b : list ext) : res (list ext) :=
  do b <- bounds x b;
  if existsb (fun '(a, c) => bad a c) (combine x b) then Raise ERuntime else ret x.
Definition check_less_than := check_pairs (fun a c => c <=? a).           (* checks.py:141-169 *)
Definition check_less_than_equal := check_pairs (fun a c => c <? a).      (* checks.py:172-200 *)
Definition check_greater_than := check_pairs (fun a c => a <=? c).        (* checks.py:203-231 *)
Definition check_greater_than_equal := check_pairs (fun a c => a <? c).   (* checks.py:234-262 *)
