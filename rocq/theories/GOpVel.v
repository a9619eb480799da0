(** * The operators on velocities and on positions with velocities, for every number type.

    Operators.v models these calls on SI values.  Here they are written once for every
    number type so that they can run on numbers that carry units (C69).  [gcallv_eq]
    proves that on SI values they *are* the functions of Operators.v.  Sums are those of
    TreeArith.v, which check units where the code does.

    Files modelled: operators/galilean/spatial_translation.py:316-360,
    operators/boost.py:109-183, operators/identity.py:125-173, operators/pipe.py:89-133;
    the velocity arithmetic of d1/cartesian.py:206-228, d2/cartesian.py:218-238,
    d3/cartesian.py:276-289. Simplification: one array element. *)
From Coq Require Import Reals Bool List ZArith.
From Verif Require Import Num Vectors Transform Arith TreeArith Vel UVel FourVec Operators GOp GOpThm.
Import ListNotations.

Section GOpVel.
Context {A : Type} {NA : Num A} {SA : Static A}.
Variables (m : mode) (deg : bool) (fuel : nat).
(** The Jacobian of a conversion and the product with it: UVel.v *)
Variable jac : kwargs A -> pos A -> pcls -> res (list (list A)).
Variable mv : nat -> list (list A) -> list A -> list A.
(** The Jacobian of the translation on the Cartesian array:
    spatial_translation.py:352 *)
Variable tjac : pos A -> list A -> res (list (list A)).
(** [convert(vec, u.Quantity)]: the components stacked into one array, hence in one
    unit: base/compat.py:31-70, 84-112 *)
Variable stack : list A -> list A.
Local Open Scope num_scope.

(** a velocity converted at an array: transform/velocities.py:104-110 *)
Definition gcart_of_array (c : vcls) (x : list A) : res (pos A) :=
  match vdim c, x with
  | 1%nat, [a] => ret (PCart1 a) | 2%nat, [a; b] => ret (PCart2 a b) | 3%nat, [a; b; c] => ret (PCart3 a b c)
  | _, _ => Raise EValue
  end.
Definition gvel_represent_as_q (v : vel A) (t : vcls) (x : list A) : res (vel A) :=
  if negb (Nat.eqb (vdim (vc v)) (vdim t)) then Raise ENotFound
  else match vc v, t with
  | WLonCosLat, WLonCosLat => Raise EAmbiguous
  | WLonCosLat, WLonLat => do p <- gcart_of_array (vc v) x; plcl_to_lonlat m deg fuel v p
  | WLonCosLat, _ =>
      do p <- gcart_of_array (vc v) x; do v' <- plcl_to_lonlat m deg fuel v p; pvel_represent_as m deg fuel jac mv nokw v' t p
  | _, WLonCosLat =>
      do p <- gcart_of_array (vc v) x; do v' <- pvel_represent_as m deg fuel jac mv nokw v WLonLat p; plonlat_to_lcl m deg fuel v' p
  | _, _ => do p <- gcart_of_array (vc v) x; pvel_generic m deg fuel jac mv nokw v t p
  end.
(** spatial_translation.py:316-360 *)
Definition gtranslate_vel (tr : pos A) (q : pos A) (v : vel A) : res (value A) :=
  do q' <- tpos_add m deg fuel q tr;
  do x0 <- cart_components m deg fuel q;
  let x := stack x0 in
  do p <- gvel_represent_as_q v (vcart_cls (vc v)) x;
  do j <- tjac tr x;
  let np := mv (length x) j (stack (vcomps p)) in
  do v' <- pvel_represent_as m deg fuel jac mv nokw (mkVel (vcart_cls (vc v)) np) (vc v) q';
  ret (VPosVel q' v').
(** The overloads for a velocity, and for a position and a velocity: the lines cited at
    [call_vec] in Operators.v. *)
Definition gcallv_vec (o : op A) (x : value A) : res (value A) :=
  match o, x with
  | OIdentity, _ => ret x
  | OSpatial tr, VPosVel q v => gtranslate_vel tr q v
  | OVelBoost w, VVel v => do v' <- tvel_add v w; ret (VVel v')
  | OVelBoost w, VPosVel q v => do v' <- tvel_add v w; ret (VPosVel q v')
  | _, _ => Raise ENotFound
  end.
(** pipe.py:89-133; see [call] in Operators.v for a single velocity *)
Fixpoint gcallv (o : op A) (x : value A) {struct o} : res (value A) :=
  let fix go (ops : list (op A)) (x : value A) : res (value A) :=
    match ops with
    | [] => ret x
    | o :: ops => do y <- gcallv o x; go ops y
    end in
  match o with
  | OPipe ops =>
      match x with
      | VVel _ =>
          match ops with
          | [] => Raise ENotFound
          | [o] => gcallv o x
          | o :: _ => do _ <- gcallv o x; Raise ENotFound
          end
      | _ => go ops x
      end
  | OGalilean _ _ _ => Raise ENotFound
  | _ => gcallv_vec o x
  end.
(** The values this file is about. *)
Definition velocity_value (x : value A) : Prop := match x with VVel _ | VPosVel _ _ => True | _ => False end.
End GOpVel.

(** ** On SI values these are the functions of Operators.v *)
Section Eq.
Variables (m : mode) (deg : bool) (fuel : nat).
Notation gv_ := (gcallv m deg fuel (jacobian deg fuel) matvec (translation_jacobian m deg fuel) (fun x => x)).
Notation gvv_ := (gcallv_vec m deg fuel (jacobian deg fuel) matvec (translation_jacobian m deg fuel) (fun x => x)).
Lemma gtranslate_eq tr q v : gtranslate_vel m deg fuel (jacobian deg fuel) matvec (translation_jacobian m deg fuel) (fun x => x) tr q v = translate_vel m deg fuel tr q v.
Proof. unfold gtranslate_vel. rewrite tadd_eq. reflexivity. Qed.
Lemma tvel_eq (v w : vel ext) : tvel_add v w = vel_add v w.
Proof. rewrite tvel_add_eq by reflexivity. reflexivity. Qed.
Lemma gcallv_vec_eq o x : velocity_value x -> gvv_ o x = call_vec m deg fuel o x.
Proof. intros V. destruct o, x; cbn in V; try contradiction; cbn [gcallv_vec call_vec]; rewrite ?gtranslate_eq, ?tvel_eq; reflexivity. Qed.
Lemma bind_inv {T U} (r : res T) (k : T -> res U) w y : bind r k = Ok w y -> exists w1 x w2, r = Ok w1 x /\ k x = Ok w2 y.
Proof. destruct r as [w1 x|e]; cbn; [|discriminate]. destruct (k x) as [w2 y'|e] eqn:K; [|discriminate]. intros E. injection E as _ <-. do 3 eexists; split; [reflexivity|exact K]. Qed.
Lemma callv_vec_value o x w y : velocity_value x -> call_vec m deg fuel o x = Ok w y ->
  match x, y with VVel _, VVel _ | VPosVel _ _, VPosVel _ _ => True | _, _ => False end.
Proof.
  intros V. destruct o, x; cbn in V; try contradiction; cbn [call_vec]; unfold translate_vel; intros E; try discriminate; try (injection E as _ <-; exact I).
  all: repeat (apply bind_inv in E; destruct E as (? & ? & ? & ? & E)); unfold ret in E; injection E as _ <-; exact I.
Qed.
Lemma gcallv_eq o : forall x, velocity_value x ->
  gv_ o x = call m deg fuel o x /\
  (forall w y, call m deg fuel o x = Ok w y -> match x, y with VVel _, VVel _ | VPosVel _ _, VPosVel _ _ => True | _, _ => False end).
Proof.
  induction o as [o P|ops IH|R T V] using op_ind'; intros x Vx.
  - assert (E : call m deg fuel o x = call_vec m deg fuel o x).
    { destruct o; cbn in P; try discriminate; destruct x; cbn in Vx; try contradiction; reflexivity. }
    rewrite E. split; [|intros w y; now apply callv_vec_value]. rewrite <- gcallv_vec_eq by auto. destruct o; cbn in P; try discriminate; reflexivity.
  - destruct x as [q|q t|v|q v|v|a|a t]; cbn in Vx; try contradiction.
    + cbn [gcallv call].
      assert (G : forall q v, 
        (fix go ops x := match ops with [] => ret x | o :: ops => do y <- gv_ o x; go ops y end) ops (VPosVel q v)
        = (fix go ops x := match ops with [] => ret x | o :: ops => do y <- call m deg fuel o x; go ops y end) ops (VPosVel q v)
        /\ forall w y, (fix go ops x := match ops with [] => ret x | o :: ops => do y <- call m deg fuel o x; go ops y end) ops (VPosVel q v) = Ok w y -> match y with VPosVel _ _ => True | _ => False end).
      { clear q v Vx. induction IH as [|o ops Ho _ IH]; intros q v; [split; [reflexivity|intros w y E; injection E as _ <-; exact I]|].
        destruct (Ho (VPosVel q v) I) as [-> K]. destruct (call m deg fuel o (VPosVel q v)) as [w1 y1|e]; cbn [bind]; [|split; [reflexivity|discriminate]].
        specialize (K _ _ eq_refl). destruct y1 as [| | |q1 v1| | |]; try contradiction. destruct (IH q1 v1) as [-> K']. split; [reflexivity|].
        intros w y E. match type of E with bind ?r _ = _ => idtac | match ?r with _ => _ end = _ => destruct r eqn:E2; [|discriminate] end. injection E as _ <-. eapply K'; reflexivity. }
      apply G.
    + cbn [gcallv call]. destruct IH as [|o ops Ho IH]; [split; [reflexivity|discriminate]|]. destruct (Ho (VVel v) I) as [-> K].
      destruct ops; [split; [reflexivity|exact K]|]. split; [reflexivity|]. destruct (call m deg fuel o (VVel v)); discriminate.
  - destruct x; cbn in Vx; try contradiction; split; try reflexivity; discriminate.
Qed.
End Eq.
