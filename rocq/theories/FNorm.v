(** * Unit vectors in floating point.

    Models /repo/src/coordinax/_src/vectors/funcs.py:15-58 ([normalize_vector] of an
    array or quantity: [x / jnp.linalg.vector_norm(x, axis=-1)]) on any number type.
    XLA may add the squares of a row in any order, so the order of summation is a
    binary tree given as an argument; theorems hold for every tree.
    Simplifications as in Float.v (one "not finite" value, no signed zeros); no fused
    multiply-add. *)
From Coq Require Import Reals Bool List.
From Verif Require Import Num Vectors.
Import ListNotations.

Section Norm.
Context {A : Type} {H : Num A}.
Inductive order : Type := One (a : A) | Two (l r : order).
(** the numbers summed, from left to right *)
Fixpoint entries (o : order) : list A :=
  match o with One a => [a] | Two l r => entries l ++ entries r end.
(** [jnp.sum(x * x)] in the order [o] *)
Fixpoint sum_sq (o : order) : A :=
  match o with One a => nmul a a | Two l r => nadd (sum_sq l) (sum_sq r) end.
(** [jnp.linalg.vector_norm] *)
Definition norm_in_order (o : order) : A := nsqrt (sum_sq o).
(** [normalize_vector] of one row: funcs.py:34, 58 *)
Definition normalize_in_order (o : order) (x : list A) : list A :=
  map (fun a => ndiv a (norm_in_order o)) x.
End Norm.
Arguments order A : clear implicits.

Fixpoint order_map {A B : Type} (g : A -> B) (o : order A) : order B :=
  match o with One a => One (g a) | Two l r => Two (order_map g l) (order_map g r) end.
