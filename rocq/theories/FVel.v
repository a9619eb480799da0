(** * Velocities and accelerations in floating point.

    The functions of UVel.v ([pvel_represent_as], [pacc_represent_as]:
    transform/velocities.py:27-167, transform/accelerations.py:25-199), run on the
    floating-point numbers of Float.v.  The Jacobian is obtained by running the
    conversion on pairs (value, tangent) in which every operation of the value
    and of JAX's JVP rule (Num.v) is rounded.

    Simplifications: as Float.v; the constant tangent of a literal and the
    unseeded tangents are the number 0 (JAX uses symbolic zeros for the former:
    adding 0 is exact); sums over columns are taken left to right (the order XLA
    reduces in is not specified). *)
From Coq Require Import Reals Bool List ZArith.
From Verif Require Import Num Vectors Transform Vel UVel Float.
Import ListNotations.

(** Pairs (value, tangent): JVP rules of the primitives, jax 0.4.35,
    jax/_src/lax/lax.py; the same rules as [Num_dual] of Num.v, rounded. *)
Definition Num_fdual (f : fmt) (L : libm) : Num dual :=
  let N := Num_fl f L in
  let half := Some (1/2)%R : ext in let one := Some 1%R : ext in let zero := Some 0%R : ext in
  {|
  ncst := fun r => mkDual (@ncst _ N r) zero;
  nlen := fun r => mkDual (@nlen _ N r) zero;
  nang := fun r => mkDual (@nang _ N r) zero;
  nadd := fun a b => mkDual (@nadd _ N (dv a) (dv b)) (@nadd _ N (dd a) (dd b));
  nsub := fun a b => mkDual (@nsub _ N (dv a) (dv b)) (@nsub _ N (dd a) (dd b));
  nmul := fun a b => mkDual (@nmul _ N (dv a) (dv b))
                            (@nadd _ N (@nmul _ N (dd a) (dv b)) (@nmul _ N (dv a) (dd b)));
  ndiv := fun a b => mkDual (@ndiv _ N (dv a) (dv b))
                            (@nsub _ N (@ndiv _ N (dd a) (dv b))
                                  (@ndiv _ N (@nmul _ N (dd b) (dv a)) (@nmul _ N (dv b) (dv b))));
  nneg := fun a => mkDual (@nneg _ N (dv a)) (@nneg _ N (dd a));
  nsqrt := fun a => mkDual (@nsqrt _ N (dv a)) (@nmul _ N (dd a) (@ndiv _ N half (@nsqrt _ N (dv a))));
  nsin := fun a => mkDual (@nsin _ N (dv a)) (@nmul _ N (dd a) (@ncos _ N (dv a)));
  ncos := fun a => mkDual (@ncos _ N (dv a)) (@nneg _ N (@nmul _ N (dd a) (@nsin _ N (dv a))));
  ntan := fun a => mkDual (@ntan _ N (dv a))
                          (@nmul _ N (dd a) (@nadd _ N one (@nmul _ N (@ntan _ N (dv a)) (@ntan _ N (dv a)))));
  nacos := fun a => mkDual (@nacos _ N (dv a))
                           (@nneg _ N (@ndiv _ N (dd a) (@nsqrt _ N (@nsub _ N one (@nmul _ N (dv a) (dv a))))));
  natan2 := fun a b => mkDual (@natan2 _ N (dv a) (dv b))
      (let s := @nadd _ N (@nmul _ N (dv a) (dv a)) (@nmul _ N (dv b) (dv b)) in
       @nsub _ N (@nmul _ N (dd a) (@ndiv _ N (dv b) s)) (@nmul _ N (dd b) (@ndiv _ N (dv a) s)));
  nabs := fun a => mkDual (@nabs _ N (dv a)) (@nmul _ N (dd a) (@nsign _ N (dv a)));
  nsign := fun a => mkDual (@nsign _ N (dv a)) zero;
  nwrap := fun a => mkDual (@nwrap _ N (dv a)) (dd a);
  nexp10 := fun a => mkDual (@nexp10 _ N (dv a)) (@nmul _ N (@nmul _ N (dd a) (@ncst _ N (ln 10))) (@nexp10 _ N (dv a)));
  nltb := fun a b => @nltb _ N (dv a) (dv b);
  nleb := fun a b => @nleb _ N (dv a) (dv b);
  neqb := fun a b => @neqb _ N (dv a) (dv b)
|}.

Section F.
Variables (f : fmt) (L : libm).
(** transform/velocities.py:127-146 *)
Definition fjac_column (deg : bool) (fuel : nat) (kw : kwargs ext) (p : pos ext) (t : pcls) (i : nat) : res (list ext) :=
  do q <- @represent_as dual (Num_fdual f L) Traced deg fuel (kw_map dconst kw) (seed p (basis (length (components p)) i)) t;
  ret (map dd (components q)).
Definition fjacobian deg fuel kw p t : res (list (list ext)) :=
  mapM (fjac_column deg fuel kw p t) (seq 0%nat (length (components p))).
(** transform/velocities.py:150-163: [jnp.sum(jnp.stack(products), axis=0)] *)
Definition fscale (c : list ext) (x : ext) : list ext := map (fun j => @nmul _ (Num_fl f L) j x) c.
Definition fmatvec (n : nat) (cols : list (list ext)) (v : list ext) : list ext :=
  match combine cols v with
  | [] => repeat (Some 0%R : ext) n
  | (c, x) :: l =>
      fold_left (fun acc '(c, x) => map (fun '(a, b) => @nadd _ (Num_fl f L) a b) (combine acc (fscale c x))) l (fscale c x)
  end.
Definition fvel_represent_as m deg fuel :=
  @pvel_represent_as ext (Num_fl f L) m deg fuel (fjacobian deg fuel) fmatvec.
Definition facc_represent_as m deg fuel :=
  @pacc_represent_as ext (Num_fl f L) m deg fuel (fjacobian deg fuel) fmatvec.
End F.
