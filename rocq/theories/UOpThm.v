(** * Operators on numbers that carry units simulate operators on SI numbers. *)
From Coq Require Import Reals Bool List ZArith Lra Lia.
From Verif Require Import Num Vectors Spec Transform Pos3D Pos3DThm RoundTrip Dispatch Vel Units UQ Scale Rel UQThm UVel UVelThm Arith TreeArith RelArith FourVec Operators SpecOp GOp GOpThm PropUQ PropUVel PropUnitArith.
Import ListNotations.
Open Scope R_scope.

Definition time_d : dim := mkDim 0 0 1 0 0.
(** The default speed of light: 299792.458 km/s: vectors/d4/spacetime.py:90-92 *)
Definition c_kms : uq ext := mkUq (Some 299792.458 : ext) (Some speed_d) 1000.

(** Every parameter is a quantity of the right dimension in some unit; rotation
    matrices are 3x3 and dimensionless. *)
Definition fv_units (v : fourvec (uq ext)) : Prop := is_a time_d (ft v) /\ pos_units (fq v) /\ is_a speed_d (fc v).
Definition mat_units (M : mat (uq ext)) : Prop :=
  length M = 3%nat /\ Forall (fun r => length r = 3%nat /\ Forall (is_a one_d_) r) M.
Fixpoint op_units (o : op (uq ext)) : Prop :=
  match o with
  | OIdentity => True
  | OSpatial q => pos_units q
  | OTranslation v => fv_units v
  | ORotation M => mat_units M
  | OBoost v | OVelBoost v => vel_units v
  | OPipe ops => (fix all ops := match ops with [] => True | o :: ops => op_units o /\ all ops end) ops
  | OGalilean M T v => mat_units M /\ fv_units T /\ vel_units v
  end.
Definition value_units (x : value (uq ext)) : Prop :=
  match x with
  | VPos q => pos_units q
  | VPosT q t => pos_units q /\ is_a time_d t
  | VFour v => fv_units v
  | _ => False
  end.
(** SI values *)
Definition si_op (o : op (uq ext)) : op ext := op_map uphys o.
Definition si_value (x : value (uq ext)) : value ext := value_map uphys x.
Definition si_fv (v : fourvec (uq ext)) : fourvec ext := fv_map uphys v.

Definition same_value (y : value (uq ext)) (Y : value ext) : Prop := value_units y /\ si_value y = Y.
Definition same_op (y : op (uq ext)) (Y : op ext) : Prop := op_units y /\ si_op y = Y.
Definition same_fv (v : fourvec (uq ext)) (V : fourvec ext) : Prop := fv_units v /\ si_fv v = V.

Lemma ag_bind {T U T' U'} (R : T -> U -> Prop) (R' : T' -> U' -> Prop) r r' k k' : agree R r r' ->
  (forall x y, R x y -> agree R' (k x) (k' y)) -> agree R' (bind r k) (bind r' k').
Proof. exact (rr_bind R R' r r' k k'). Qed.
Lemma ag_ret {T U} (R : T -> U -> Prop) x y : R x y -> agree R (ret x) (ret y).
Proof. now split. Qed.
Lemma ag_raise {T U} (R : T -> U -> Prop) e : agree R (Raise e) (Raise e). Proof. reflexivity. Qed.

(** [b]: whether the ValueError of [jax.tree.map] on unequal units is possible.
    Otherwise the two sides agree. *)
Definition agreeB {T U} (b : Prop) (R : T -> U -> Prop) (r : res T) (r' : res U) : Prop :=
  agree R r r' \/ (b /\ r = Raise EValue).
Lemma agB_bind {T U T' U'} b (R : T -> U -> Prop) (R' : T' -> U' -> Prop) r r' k k' : agreeB b R r r' ->
  (forall x y, R x y -> agreeB b R' (k x) (k' y)) -> agreeB b R' (bind r k) (bind r' k').
Proof.
  intros [A|[B ->]] K; [|now right]. destruct r as [w x|e], r' as [w' y|e']; cbn in A; try contradiction; [|subst e'; now left].
  destruct A as [-> A]. destruct (K x y A) as [K'|[B E]]; [left|right; split; [exact B|]]; cbn [bind].
  - destruct (k x), (k' y); cbn in *; try contradiction; auto. now destruct K' as [-> ?].
  - now rewrite E.
Qed.
Lemma agB_of {T U} b (R : T -> U -> Prop) r r' : agree R r r' -> agreeB b R r r'. Proof. now left. Qed.
Lemma agB_ret {T U} b (R : T -> U -> Prop) x y : R x y -> agreeB b R (ret x) (ret y).
Proof. left. now apply ag_ret. Qed.
Lemma agB_raise {T U} b (R : T -> U -> Prop) e : agreeB b R (Raise e) (Raise e). Proof. left. reflexivity. Qed.
Lemma agB_False {T U} (R : T -> U -> Prop) r r' : agreeB False R r r' -> agree R r r'. Proof. intros [A|[[] _]]. exact A. Qed.
(** results of sums have the class of the left operand *)
Lemma tpos_add_cls {A} {NA : Num A} {SA : Static A} m deg f (p q : pos A) w s : tpos_add m deg f p q = Ok w s -> cls_of s = cls_of p.
Proof.
  assert (B : forall T U (r : res T) (k : T -> res U) w y, bind r k = Ok w y -> exists w1 x w2, r = Ok w1 x /\ k x = Ok w2 y).
  { intros T U r k w0 y. destruct r as [w1 x|e]; cbn; [|discriminate]. destruct (k x) as [w2 y'|e] eqn:K; [|discriminate]. intros E. injection E as _ <-. do 3 eexists; split; [reflexivity|exact K]. }
  destruct p; cbn [tpos_add tcart_add cart_add cls_of cart_cls dim_of]; intros E;
  repeat (match type of E with
    | match ?x with _ => _ end = Ok _ _ => destruct x; try discriminate E
    | bind _ _ = Ok _ _ => apply B in E; destruct E as (? & ? & ? & ? & E)
    end);
  first [unfold rep in E; apply rep_class in E; exact (proj1 E) | unfold ret in E; injection E as _ <-; reflexivity].
Qed.

Lemma same_rpos q Q : same_position q Q <-> rpos relu False q Q.
Proof. split; [intros [U <-]; now apply relu_si|]. intros R. destruct (si_relu _ _ R) as [? ->]. now split. Qed.
Lemma agree_rres r r' : agree same_position r r' <-> rres (rpos relu False) r r'.
Proof. unfold agree, rres. destruct r, r'; try tauto. rewrite same_rpos. tauto. Qed.
Notation RP := (relu_preserved scal_ext).

Section S.
Variables (m : mode) (deg : bool) (f : nat).
Lemma u_rep p P t : same_position p P -> agree same_position (represent_as m deg f nokw p t) (represent_as m deg f nokw P t).
Proof. intros S. apply agree_rres, (represent_as_rel _ _ RP); [apply r_nokw|now apply same_rpos]. Qed.
(** Sums: in space always, in lower dimension unless the units differ. *)
Variable bx : Prop.
Definition in_space (q : pos (uq ext)) : Prop := bx \/ dim_of (cls_of q) = 3%nat.
Definition same_pos3 (q : pos (uq ext)) (Q : pos ext) : Prop := same_position q Q /\ in_space q.
Lemma u_add p P q Q : same_position p P -> same_position q Q -> in_space p -> agreeB bx same_pos3 (tpos_add m deg f p q) (tpos_add m deg f P Q).
Proof.
  intros S S' D. rewrite tadd_eq.
  assert (A : agree same_position (pos_add m deg f p q) (pos_add m deg f P Q)) by (apply agree_rres, (r_pos_add _ _ RP); now apply same_rpos).
  assert (C : forall w s, tpos_add m deg f p q = Ok w s -> in_space s).
  { intros w s E. apply tpos_add_cls in E. destruct D as [D|D]; [now left|right]. now rewrite E. }
  assert (W : tpos_add m deg f p q = pos_add m deg f p q \/ (bx /\ tpos_add m deg f p q = Raise EValue)).
  { destruct D as [D|D]; [|left; now apply tpos_add_3d]. destruct (tpos_add_weak m deg f p q) as [E|E]; auto. }
  destruct W as [E|[B E]]; [left|now right]. rewrite E in C |- *. unfold agree in *.
  destruct (pos_add m deg f p q) as [w s|e], (pos_add m deg f P Q); auto. destruct A as [-> A]. split; [reflexivity|]. split; [exact A|]. now apply (C w0).
Qed.
Lemma u_neg p P : same_position p P -> agree same_position (pos_neg m deg f p) (pos_neg m deg f P).
Proof. intros S. apply agree_rres, (r_pos_neg _ _ RP); now apply same_rpos. Qed.
Lemma cls_si (q : pos (uq ext)) : cls_of (si q) = cls_of q. Proof. destruct q; reflexivity. Qed.

(** *** Rotations *)
Lemma relu_one q : is_a one_d_ q -> relu (Len 0) q (uphys q).
Proof. intros [D P]. split; [exact D|]. now split. Qed.
Lemma u_dot r x : length r = 3%nat -> Forall (is_a one_d_) r -> length x = 3%nat -> Forall (is_a length_d) x ->
  relu (Len 1) (gdot r x) (gdot (map uphys r) (map uphys x)).
Proof.
  intros L F L' F'. destruct r as [|a [|b [|c [|]]]]; try discriminate. destruct x as [|x [|y [|z [|]]]]; try discriminate.
  repeat match goal with X : Forall _ (_ :: _) |- _ => apply Forall_cons_iff in X; destruct X as [? X] end.
  unfold gdot. cbn [combine map sum_list fold_left].
  repeat apply (r_add _ RP); (apply (r_mul _ RP) with (a := 0%Z) (b := 1%Z); [now apply relu_one|now apply l1|reflexivity]).
Qed.
Definition si_mat (M : mat (uq ext)) : mat ext := map (map uphys) M.
Lemma u_rotate M q Q : mat_units M -> same_position q Q -> agree same_position (grotate m deg f M q) (grotate m deg f (si_mat M) Q).
Proof.
  intros [LM FM] S. pose proof S as [_ E]. unfold grotate. rewrite <- E, cls_si, E. destruct (dim_of (cls_of q)) as [|[|[|[|]]]]; try apply ag_raise.
  eapply ag_bind; [now apply u_rep|]. intros x X [U <-].
  destruct x; cbn [si pos_map]; try apply ag_raise. cbn in U. destruct U as (Ux & Uy & Uz).
  destruct M as [|r1 [|r2 [|r3 [|]]]]; try discriminate.
  repeat match goal with X : Forall _ (_ :: _) |- _ => apply Forall_cons_iff in X; destruct X as [[? ?] X] end.
  cbn [gmatmul_vec map si_mat]. apply u_rep. apply same_rpos. cbn [rpos].
  assert (FX : Forall (is_a length_d) [x; y; z]) by auto.
  repeat split; (eapply relu_fun; eapply (u_dot _ [x; y; z]); auto).
Qed.
Lemma grotate_cls M (q : pos (uq ext)) w y : grotate m deg f M q = Ok w y -> cls_of y = cls_of q.
Proof.
  unfold grotate. destruct (dim_of (cls_of q)) as [|[|[|[|]]]]; try discriminate. destruct (represent_as m deg f nokw q CCart3) as [w1 x|e]; [|discriminate]. cbn [bind].
  destruct x; try discriminate. destruct (gmatmul_vec M [x; y0; z]) as [|a [|a' [|a'' [|]]]]; try discriminate.
  destruct (represent_as m deg f nokw (PCart3 a a' a'') (cls_of q)) as [w2 y'|e] eqn:E; [|discriminate]. intros K. injection K as _ <-. apply rep_class in E. exact (proj1 E).
Qed.
Lemma u_rotateB M q Q : mat_units M -> same_position q Q -> in_space q -> agreeB bx same_pos3 (grotate m deg f M q) (grotate m deg f (si_mat M) Q).
Proof.
  intros U S D. left. pose proof (u_rotate M q Q U S) as A. pose proof (fun w y => grotate_cls M q w y) as C. unfold agree in *.
  destruct (grotate m deg f M q) as [w s|e], (grotate m deg f (si_mat M) Q); auto. destruct A as [-> A]. split; [reflexivity|]. split; [exact A|].
  destruct D as [D|D]; [now left|right]. now rewrite (C w0 s).
Qed.
Lemma u_transpose M : mat_units M -> mat_units (gtranspose M) /\ si_mat (gtranspose M) = gtranspose (si_mat M).
Proof.
  intros [LM FM]. destruct M as [|r1 [|r2 [|r3 [|]]]]; try discriminate.
  repeat match goal with X : Forall _ (_ :: _) |- _ => apply Forall_cons_iff in X; destruct X as [[? ?] X] end.
  destruct r1 as [|a1 [|a2 [|a3 [|]]]]; try discriminate. destruct r2 as [|b1 [|b2 [|b3 [|]]]]; try discriminate. destruct r3 as [|c1 [|c2 [|c3 [|]]]]; try discriminate.
  repeat match goal with X : Forall _ (_ :: _) |- _ => apply Forall_cons_iff in X; destruct X as [? X] end.
  split; [|reflexivity]. split; [reflexivity|]. cbn. repeat (constructor; auto).
Qed.

(** *** Times and velocities *)
Lemma u_time_add a b : is_a time_d a -> is_a time_d b -> is_a time_d (nadd a b) /\ uphys (nadd a b) = nadd (uphys a) (uphys b).
Proof.
  intros A B. destruct (du_add time_d a b (uphys a) (uphys b)) as (D & P & E); [now apply du_is_a|now apply du_is_a|]. repeat split; auto.
Qed.
Lemma u_neg1 d a : is_a d a -> is_a d (nneg a) /\ uphys (nneg a) = nneg (uphys a).
Proof. intros [D P]. repeat split; auto. symmetry. apply (s_neg scal_ext). Qed.
Lemma per1_time k : dim_mul (per 1 (dim_kind k)) time_d = dim_kind k.
Proof. destruct k; cbn; unfold dim_mul, per, dim_div, time_d; cbn; f_equal; first [lia|reflexivity]. Qed.
Lemma u_times k x X t : du (per 1 (dim_kind k)) x X -> is_a time_d t -> relu k (nmul x t) (nmul X (uphys t)).
Proof.
  intros D T. destruct (du_mul _ _ x t X (uphys t) D (proj2 (du_is_a _ _) T)) as (D' & P & E). rewrite per1_time in D'. now repeat split.
Qed.
Lemma u_vel_mul v V t : vrel v V -> is_a time_d t -> agree same_position (gvel_mul_time m v t) (gvel_mul_time m V (uphys t)).
Proof.
  intros [E C] T. unfold gvel_mul_time. apply agree_rres. destruct v as [c u], V as [c' x]. cbn [vc vcomps] in *. subst c'. unfold comps_rel in C.
  destruct c; cbn [integral_cls kinds all3 gpos_from_components] in *; try reflexivity;
  repeat match type of C with match ?l with _ => _ end => destruct l; try contradiction | _ /\ _ => destruct C as [? C] end;
  repeat match goal with X : du _ _ _ |- _ => apply (fun d => u_times _ _ _ _ d T) in X end;
  cbn [map]; unfold mk_Cart1, mk_Cart2, mk_Cart3;
  first [ apply (r_Radial _ _ RP) | apply (r_Polar _ _ RP) | apply (r_TwoSphere _ _ RP)
        | apply (r_Cyl _ _ RP) | apply (r_Sph _ _ RP) | apply (r_MSph _ _ RP) | apply (r_LonLat _ _ RP) | apply Rel.rr_ret; cbn [rpos] ];
  cbn [rrarg rang kind_of]; auto.
Qed.
Lemma u_boost v V q Q t : vrel v V -> same_position q Q -> is_a time_d t -> in_space q ->
  agreeB bx same_pos3 (gboost_pos m deg f v q t) (gboost_pos m deg f V Q (uphys t)).
Proof. intros RV S T D. unfold gboost_pos. eapply agB_bind; [now apply agB_of, u_vel_mul|]. intros. now apply u_add. Qed.
Lemma si_vel_map v : vel_map uphys v = si_vel v. Proof. reflexivity. Qed.
Lemma u_vel_neg v : vel_units v -> vel_units (gvel_neg v) /\ si_vel (gvel_neg v) = gvel_neg (si_vel v).
Proof.
  unfold vel_units, gvel_neg, si_vel. cbn [vc vcomps]. generalize (fields_of (TVel (vc v))). intros fs F.
  assert (G : Forall2 declared fs (map nneg (vcomps v)) /\ map uphys (map nneg (vcomps v)) = map nneg (map uphys (vcomps v))).
  { induction F as [|k x fs l D F IH]; [split; constructor|]. destruct IH as [IH1 IH2]. cbn [map]. rewrite IH2. destruct k; cbn in D; try contradiction.
    destruct (u_neg1 _ _ D) as [D' ->]. split; [|reflexivity]. constructor; auto. }
  destruct G as [G ->]. auto.
Qed.

(** *** Calls *)
Lemma c_kms_ok : is_a speed_d c_kms /\ uphys c_kms = ncst c_light.
Proof. repeat split. cbn. lra. unfold uphys, c_kms, c_light. cbn. f_equal. lra. Qed.
Lemma same_refl q : pos_units q -> same_position q (si q). Proof. now split. Qed.
Definition pos_of (x : value (uq ext)) : option (pos (uq ext)) :=
  match x with VPos q | VPosT q _ => Some q | VFour v => Some (fq v) | _ => None end.
Definition value3 (x : value (uq ext)) : Prop := match pos_of x with Some q => in_space q | None => True end.
Definition same_value3 (y : value (uq ext)) (Y : value ext) : Prop := same_value y Y /\ value3 y.
Lemma u_call_vec o x : op_units o -> value_units x -> value3 x ->
  agreeB bx same_value3 (gcall_vec m deg f c_kms o x) (gcall_vec m deg f cl (si_op o) (si_value x)).
Proof.
  intros Uo Ux D. pose proof c_kms_ok as [Uc Ec]. unfold value3 in D.
  destruct o, x; cbn in Ux; try contradiction; cbn [gcall_vec si_op op_map si_value value_map]; try apply agB_raise;
  try (apply agB_ret; split; [split; auto|exact D]; fail).
  all: unfold si_value, si_fv in *; cbn [fv_map ft fq fc pos_of] in *.
  - eapply agB_bind; [apply u_add; auto; apply same_refl; auto|]. intros y Y [[U <-] D']. apply agB_ret. split; [now split|exact D'].
  - eapply agB_bind; [apply u_add; auto; apply same_refl; [apply Ux|auto]|]. intros y Y [[U <-] D']. apply agB_ret. split; [split; [split; [auto|apply Ux]|reflexivity]|exact D'].
  - eapply agB_bind; [apply u_add; auto; apply same_refl; [apply Ux|auto]|]. intros y Y [[U <-] D']. apply agB_ret. split; [split; [split; [apply Ux|split; [auto|apply Ux]]|reflexivity]|exact D'].
  - destruct Uo as (U1 & U2 & U3), Ux as (X1 & X2). rewrite cls_si. destruct (dim_of (cls_of q)) as [|[|[|[|]]]]; try apply agB_raise.
    eapply agB_bind; [apply u_add; auto; apply same_refl; auto|]. intros y Y [[U <-] D']. apply agB_ret.
    destruct (u_time_add _ _ X2 U1) as [T1 T2]. split; [split; [split; auto|]|exact D']. unfold si_value; cbn [value_map]. now rewrite T2.
  - destruct Uo as (U1 & U2 & U3), Ux as (X1 & X2 & X3). unfold gfv_add.
    eapply agB_bind with (R := fun y Y => same_fv y Y /\ in_space (fq y)); [|intros y Y [[U <-] D']; apply agB_ret; split; [now split|exact D'] ].
    eapply agB_bind; [apply u_add; auto; apply same_refl; auto|]. intros y Y [[U <-] D']. apply agB_ret.
    destruct (u_time_add _ _ X1 U1) as [T1 T2]. split; [split; [split; auto|]|exact D']. unfold si_fv, fv_map. cbn [ft fq fc]. now rewrite T2.
  - eapply agB_bind; [apply u_rotateB; [auto|apply same_refl; auto|exact D]|]. intros y Y [[U <-] D']. apply agB_ret. split; [now split|exact D'].
  - eapply agB_bind; [apply u_rotateB; [auto|apply same_refl; apply Ux|exact D]|]. intros y Y [[U <-] D']. apply agB_ret. split; [split; [split; [auto|apply Ux]|reflexivity]|exact D'].
  - eapply agB_bind; [apply u_rotateB; [auto|apply same_refl; apply Ux|exact D]|]. intros y Y [[U <-] D']. apply agB_ret.
    split; [split; [split; [apply Ux|split; auto]|]|exact D']. unfold si_value, value_map, fv_map. cbn [ft fq fc]. now rewrite Ec.
  - eapply agB_bind; [apply u_boost; [apply vrel_fwd; auto|apply same_refl; apply Ux|apply Ux|exact D]|]. intros y Y [[U <-] D']. apply agB_ret. split; [split; [split; [auto|apply Ux]|reflexivity]|exact D'].
  - eapply agB_bind; [apply u_boost; [apply vrel_fwd; auto|apply same_refl; apply Ux|apply Ux|exact D]|]. intros y Y [[U <-] D']. apply agB_ret.
    split; [split; [split; [apply Ux|split; [auto|apply Ux]]|reflexivity]|exact D'].
Qed.
Lemma u_call o : forall x, op_units o -> value_units x -> value3 x ->
  agreeB bx same_value3 (gcall m deg f c_kms o x) (gcall m deg f cl (si_op o) (si_value x)).
Proof.
  induction o as [o P|ops IH|R T V] using op_ind'; intros x Uo Ux D.
  - pose proof (u_call_vec o x Uo Ux D) as K. destruct o; cbn in P; try discriminate; exact K.
  - cbn [gcall si_op op_map]. assert (Sx : same_value3 x (si_value x)) by (split; [now split|exact D]). revert Sx. generalize (si_value x) as X. clear Ux D. revert x.
    induction IH as [|o ops Ho _ IH]; intros x X Sx; cbn [map].
    + now apply agB_ret.
    + destruct Uo as [Uo Us]. destruct Sx as [[Ux <-] D]. eapply agB_bind; [apply Ho; auto|]. intros y Y Sy. apply (IH Us y Y Sy).
  - destruct Uo as (U1 & U2 & U3). cbn [gcall si_op op_map].
    eapply agB_bind; [apply (u_call_vec (ORotation R) x); auto|]. intros y Y [[Uy <-] Dy].
    eapply agB_bind; [apply (u_call_vec (OTranslation T) y); auto|]. intros z Z [[Uz <-] Dz].
    apply (u_call_vec (OBoost V) z); auto.
Qed.

(** *** Inverses *)
Lemma u_fv_neg v : fv_units v -> agree same_fv (gfv_neg m deg f v) (gfv_neg m deg f (si_fv v)).
Proof.
  intros (U1 & U2 & U3). unfold gfv_neg, si_fv at 1, fv_map. cbn [ft fq fc].
  eapply ag_bind; [apply u_neg, same_refl; auto|]. intros y Y [U <-]. apply ag_ret.
  destruct (u_neg1 _ _ U1) as [T1 T2]. split; [split; auto|]. unfold si_fv, fv_map. cbn [ft fq fc]. now rewrite T2.
Qed.
Lemma units_app a b : op_units (OPipe a) -> op_units (OPipe b) -> op_units (OPipe (a ++ b)).
Proof.
  induction a as [|o a IH]; [auto|]. intros [A1 A2] B. split; [exact A1|]. exact (IH A2 B).
Qed.
Lemma u_inverse o : op_units o -> agree same_op (ginverse m deg f o) (ginverse m deg f (si_op o)).
Proof.
  induction o as [o P|ops IH|R T V] using op_ind'; intros Uo.
  - destruct o; cbn in P; try discriminate; cbn [ginverse si_op op_map].
    + now apply ag_ret.
    + eapply ag_bind; [apply u_neg, same_refl; auto|]. intros y Y [U <-]. apply ag_ret. now split.
    + eapply ag_bind; [apply (u_fv_neg translation Uo)|]. intros y Y [U <-]. apply ag_ret. now split.
    + apply ag_ret. destruct (u_transpose _ Uo) as [U E]. split; auto. cbn [si_op op_map]. f_equal. exact E.
    + apply ag_ret. destruct (u_vel_neg _ Uo) as [U E]. split; auto. cbn [si_op op_map]. f_equal. exact E.
    + apply ag_ret. destruct (u_vel_neg _ Uo) as [U E]. split; auto. cbn [si_op op_map]. f_equal. exact E.
  - cbn [ginverse si_op op_map].
    eapply ag_bind with (R := fun l L => op_units (OPipe l) /\ map si_op l = L); [|intros l L0 [U <-]; apply ag_ret; split; auto].
    induction IH as [|o ops Ho _ IH]; cbn [map].
    + apply ag_ret. now split.
    + destruct Uo as [Uo Us]. eapply ag_bind; [apply (IH Us)|]. intros l L0 [U <-]. eapply ag_bind; [apply (Ho Uo)|]. intros i I0 [Ui <-].
      apply ag_ret. split; [apply units_app; auto; now split|]. now rewrite map_app.
  - destruct Uo as (U1 & U2 & U3). cbn [ginverse si_op op_map].
    eapply ag_bind; [apply (u_fv_neg T U2)|]. intros n N [Un <-]. apply ag_ret.
    destruct (u_transpose _ U1) as [Ut Et], (u_vel_neg _ U3) as [Uv Ev]. split.
    + cbn [op_units]. auto.
    + cbn [si_op op_map map]. f_equal. f_equal; [f_equal; exact Ev|]. f_equal. f_equal. f_equal. exact Et.
Qed.
End S.
