(** * Property C69: operators on velocities do the same thing in every choice of units.

    C66 is about positions, positions with a time and FourVectors.  This file is about
    the two remaining kinds of argument: a velocity, [op(p)], and a position with a
    velocity, [op(q, p)] (GOpVel.v, proved equal on SI values to Operators.v), on numbers
    that carry units and obey unxt's rules.  A spatial translation differentiates
    itself on the *stored* numbers, so units could go wrong here.

    Velocities are added through [jax.tree.map], which raises ValueError for unequal units
    (TreeArith.v): with velocity boosts the theorems hold if the boosts and the velocity
    share one unit ([fits]), and otherwise "the right result, or ValueError".

    [op_units o]: UOpThm.v.  [qp_units x]: every component of the argument is a quantity
    of the right dimension in some unit.  [si_op], [si_value]: the SI values.
    [ucallv]: application. *)
From Coq Require Import Reals Bool List ZArith Lra Lia.
From Verif Require Import Num Vectors Spec Transform Pos3D Pos3DThm RoundTrip Vel SpecVel Units UQ Scale Rel UQThm UVel UVelThm Arith TreeArith RelArith FourVec Operators SpecOp.
From Verif Require Import GOp GOpThm PropUQ PropUVel PropUnitArith UOpThm PropOp PropOp3 PropUnitOp GOpVel UOpVel.
Import ListNotations.
Open Scope R_scope.

Definition qp_units (x : value (uq ext)) : Prop :=
  match x with VVel v => vel_units v | VPosVel q v => pos_units q /\ vel_units v | _ => False end.

(** The velocities of the velocity boosts in an operator *)
Fixpoint vel_boosts {A} (o : op A) : list (vel A) :=
  match o with
  | OVelBoost v => [v]
  | OPipe ops => (fix go ops := match ops with [] => [] | o :: ops => vel_boosts o ++ go ops end) ops
  | _ => []
  end.
(** every component in the unit with the factor [s] *)
Definition vel_in (s : R) (v : vel (uq ext)) : Prop := Forall (fun x => uqs x = s) (vcomps v).
Definition fits (o : op (uq ext)) (v : vel (uq ext)) : Prop :=
  vel_boosts o = [] \/ exists s, (forall w, In w (vel_boosts o) -> vel_in s w) /\ vel_in s v.
Definition vel_of (x : value (uq ext)) : option (vel (uq ext)) := match x with VVel v | VPosVel _ v => Some v | _ => None end.
Definition value_fits (o : op (uq ext)) (x : value (uq ext)) : Prop := match vel_of x with Some v => fits o v | None => True end.
Definition space_qp (x : value (uq ext)) : Prop := match x with VPosVel q _ => dim_of (cls_of q) = 3%nat | _ => True end.

Lemma vop_fwd bx nb us o : op_units o -> (forall w, In w (vel_boosts o) -> bx \/ (~ nb /\ vel_in us w)) -> voprel bx nb us o (si_op o).
Proof.
  induction o as [o P|ops IH|R T V] using op_ind'; intros U B.
  - destruct o; cbn in P; try discriminate; cbn [si_op op_map]; constructor; [now apply relu_si|]. split; [now apply vrel_fwd|]. apply B. now left.
  - cbn [si_op op_map]. constructor. induction IH as [|o ops Ho _ IH]; cbn [map]; constructor; destruct U.
    + apply Ho; auto. intros w W. apply B. cbn. apply in_or_app. now left.
    + apply IH; auto. intros w W. apply B. cbn. apply in_or_app. now right.
  - cbn [si_op op_map]. constructor.
Qed.
Lemma vv_fwd bx nb us x : qp_units x -> bx \/ space_qp x -> (forall v, vel_of x = Some v -> bx \/ nb \/ vel_in us v) -> vvrel bx nb us x (si_value x).
Proof.
  destruct x; cbn [qp_units]; try contradiction; intros U D F; unfold si_value; cbn [value_map vvrel vel_of space_qp] in *; specialize (F _ eq_refl).
  - split; [split; [now apply relu_si|exact D]|]. split; [now apply vrel_fwd|]. unfold calm, speeds_in, vel_in in *. tauto.
  - split; [now apply vrel_fwd|]. unfold calm, speeds_in, vel_in in *. tauto.
Qed.
Lemma vv_bwd bx nb us x X : vvrel bx nb us x X -> qp_units x /\ si_value x = X.
Proof.
  destruct x, X; cbn [vvrel qp_units]; try contradiction; unfold si_value; cbn [value_map].
  - intros [[R _] [V _]]. destruct (si_relu _ _ R) as [? ->]. destruct (vrel_bwd _ _ V) as [? ->]. auto.
  - intros [V _]. destruct (vrel_bwd _ _ V) as [? ->]. auto.
Qed.
Lemma vv_velocity x : qp_units x -> velocity_value (si_value x).
Proof. destruct x; cbn; auto. Qed.
Lemma call_full bx nb us m deg f o x : op_units o -> qp_units x -> (forall w, In w (vel_boosts o) -> bx \/ (~ nb /\ vel_in us w)) ->
  bx \/ space_qp x -> (forall v, vel_of x = Some v -> bx \/ nb \/ vel_in us v) ->
  agreeB bx (vvrel bx nb us) (ucallv m deg f o x) (call m deg f (si_op o) (si_value x)).
Proof.
  intros U V B D F. rewrite <- (proj1 (gcallv_eq m deg f (si_op o) (si_value x) (vv_velocity x V))).
  apply callv_rel; [now apply vop_fwd|now apply vv_fwd].
Qed.
(** the right dimensions and the same physical values *)
Definition same_qp (y : value (uq ext)) (Y : value ext) : Prop := qp_units y /\ si_value y = Y.

(** ** C69 *)
(** The same exception as on SI values; or the same warning and a result of the right
    dimensions with the same physical values. *)
Theorem C69_call_in_any_units : forall m deg f o x, op_units o -> qp_units x -> space_qp x -> value_fits o x ->
  agree same_qp (ucallv m deg f o x) (call m deg f (si_op o) (si_value x)).
Proof.
  intros m deg f o x U V D F.
  assert (X : exists nb us, (forall w, In w (vel_boosts o) -> False \/ (~ nb /\ vel_in us w)) /\ (forall v, vel_of x = Some v -> False \/ nb \/ vel_in us v)).
  { unfold value_fits in F. destruct (vel_of x) as [v|] eqn:EV.
    - destruct F as [N|(s & B & F)]; [exists True, 1|exists False, s].
      + rewrite N. split; [intros w []|]. auto.
      + split; [auto|]. intros v' E. injection E as <-. auto.
    - destruct x; cbn in V; try contradiction; discriminate EV. }
  destruct X as (nb & us & B & C). apply (agree_weaken (vvrel False nb us)); [intros y Y R; eapply vv_bwd; eauto|]. apply agB_False. apply call_full; auto.
Qed.
Print Assumptions C69_call_in_any_units.
(** In all cases: that, or ValueError because of unequal units. *)
Theorem C69_call_right_or_ValueError : forall m deg f o x, op_units o -> qp_units x ->
  agree same_qp (ucallv m deg f o x) (call m deg f (si_op o) (si_value x)) \/ ucallv m deg f o x = Raise EValue.
Proof.
  intros m deg f o x U V. destruct (call_full True True 1 m deg f o x U V) as [A|[_ E]]; auto. left.
  apply (agree_weaken (vvrel True True 1)); [intros y Y R; eapply vv_bwd; eauto|]. exact A.
Qed.
Print Assumptions C69_call_right_or_ValueError.
(** Changing the units of the operator and of its argument changes nothing but whether
    units are refused. *)
Theorem C69_units_do_not_matter : forall m deg f o o' x x' w y,
  op_units o -> op_units o' -> qp_units x -> qp_units x' -> si_op o = si_op o' -> si_value x = si_value x' ->
  ucallv m deg f o x = Ok w y ->
  (exists y', ucallv m deg f o' x' = Ok w y' /\ si_value y' = si_value y) \/ ucallv m deg f o' x' = Raise EValue.
Proof.
  intros m deg f o o' x x' w y U U' V V' E E' C.
  destruct (C69_call_right_or_ValueError m deg f o' x' U' V') as [B|B]; [left|now right].
  destruct (C69_call_right_or_ValueError m deg f o x U V) as [A|A]; rewrite C in A; [|discriminate A].
  rewrite <- E, <- E' in B. destruct (call m deg f (si_op o) (si_value x)); [|contradiction]. destruct A as (-> & _ & A).
  destruct (ucallv m deg f o' x') as [w' y'|]; [|contradiction]. destruct B as (-> & _ & B). exists y'. split; auto. congruence.
Qed.
Print Assumptions C69_units_do_not_matter.

Lemma agree_qv_gen (R : value (uq ext) -> value ext -> Prop) m deg f o q v O Q V w Q' V' : (forall y Y, R y Y -> same_qp y Y) ->
  agree R (ucallv m deg f o (VPosVel q v)) (call m deg f (si_op o) (si_value (VPosVel q v))) -> si_op o = O -> si q = Q -> si_vel v = V ->
  call m deg f O (VPosVel Q V) = Ok w (VPosVel Q' V') ->
  exists q' v', ucallv m deg f o (VPosVel q v) = Ok w (VPosVel q' v') /\ pos_units q' /\ vel_units v' /\ si q' = Q' /\ si_vel v' = V' /\ R (VPosVel q' v') (VPosVel Q' V').
Proof.
  intros I A <- <- <- E. change (si_value (VPosVel q v)) with (VPosVel (si q) (si_vel v)) in A. rewrite E in A.
  destruct (ucallv m deg f o (VPosVel q v)) as [w1 y|e]; [|contradiction]. destruct A as (-> & Ry). destruct (I _ _ Ry) as (Uy & Ey).
  destruct y as [| | |q' v'| | |]; cbn [qp_units] in Uy; try contradiction; try discriminate Ey.
  change (si_value (VPosVel q' v')) with (VPosVel (si q') (si_vel v')) in Ey. injection Ey as E1 E2. exists q', v'. split; [reflexivity|]. split; [apply Uy|]. split; [apply Uy|]. split; [exact E1|]. split; [exact E2|exact Ry].
Qed.
Lemma agree_qv m deg f o q v O Q V w Q' V' : op_units o -> pos_units q -> vel_units v -> dim_of (cls_of q) = 3%nat -> fits o v -> si_op o = O -> si q = Q -> si_vel v = V ->
  call m deg f O (VPosVel Q V) = Ok w (VPosVel Q' V') ->
  exists q' v', ucallv m deg f o (VPosVel q v) = Ok w (VPosVel q' v') /\ pos_units q' /\ vel_units v' /\ si q' = Q' /\ si_vel v' = V'.
Proof.
  intros U Uq Uv D F E1 E2 E3 E.
  destruct (agree_qv_gen same_qp m deg f o q v O Q V w Q' V' (fun _ _ H => H) (C69_call_in_any_units m deg f o (VPosVel q v) U (conj Uq Uv) D F) E1 E2 E3 E) as (q' & v' & ? & ? & ? & ? & ? & _).
  exists q', v'. auto 6.
Qed.
(** What an operator does to a position and a Cartesian velocity, whatever the units: the
    position moves as the Galilean group says, the velocity is left alone by translations
    and added to by velocity boosts ([acts], [vel_acts]: SpecOp.v, on SI values). *)
Theorem C69_position_and_velocity : forall m deg f o O q Q v V x t x' t',
  op_units o -> si_op o = ofinite O -> pos_units q -> si q = finite Q -> vel_units v -> si_vel v = vfinite V -> fits o v ->
  good 3 O -> steady O -> good_pos 3 Q -> cart_vel 3 V -> denotes Q x -> acts O (x, t) (x', t') ->
  (forall e1, visits O (x, t) e1 -> can_hold (cls_of Q) (fst e1)) ->
  exists q' v' Q', ucallv m deg (4 + f) o (VPosVel q v) = Ok false (VPosVel q' v') /\
    pos_units q' /\ si q' = finite Q' /\ cls_of Q' = cls_of Q /\ valid Q' /\ denotes Q' x' /\
    vel_units v' /\ si_vel v' = vfinite (mkVel (vc V) (vel_acts O (vcomps V))).
Proof.
  intros m deg f o O q Q v V x t x' t' Uo Eo Uq Eq Uv Ev F G St Gq Cv D A S.
  destruct (C29_position_and_velocity m deg f 3 O x t x' t' Q V G St Gq Cv D A S) as (Q' & E & C & Vq & D').
  assert (Dq : dim_of (cls_of q) = 3%nat) by (rewrite (si_cls _ _ Eq); apply Gq).
  destruct (agree_qv m deg (4 + f) o q v _ _ _ _ _ _ Uo Uq Uv Dq F Eo Eq Ev E) as (q' & v' & E' & Uq' & Uv' & Eq' & Ev').
  exists q', v', Q'. auto 10.
Qed.
Print Assumptions C69_position_and_velocity.
(** In every dimension and with any units: that, or ValueError. *)
Theorem C69_position_and_velocity_or_ValueError : forall m deg f n o O q Q v V x t x' t',
  op_units o -> si_op o = ofinite O -> pos_units q -> si q = finite Q -> vel_units v -> si_vel v = vfinite V ->
  good n O -> steady O -> good_pos n Q -> cart_vel n V -> denotes Q x -> acts O (x, t) (x', t') ->
  (forall e1, visits O (x, t) e1 -> can_hold (cls_of Q) (fst e1)) ->
  (exists q' v' Q', ucallv m deg (4 + f) o (VPosVel q v) = Ok false (VPosVel q' v') /\
    pos_units q' /\ si q' = finite Q' /\ cls_of Q' = cls_of Q /\ valid Q' /\ denotes Q' x' /\
    vel_units v' /\ si_vel v' = vfinite (mkVel (vc V) (vel_acts O (vcomps V)))) \/
  ucallv m deg (4 + f) o (VPosVel q v) = Raise EValue.
Proof.
  intros m deg f n o O q Q v V x t x' t' Uo Eo Uq Eq Uv Ev G St Gq Cv D A S.
  destruct (C69_call_right_or_ValueError m deg (4 + f) o (VPosVel q v) Uo (conj Uq Uv)) as [K|K]; [left|now right].
  destruct (C29_position_and_velocity m deg f n O x t x' t' Q V G St Gq Cv D A S) as (Q' & E & C & Vq & D').
  destruct (agree_qv_gen same_qp m deg (4 + f) o q v _ _ _ _ _ _ (fun _ _ H => H) K Eo Eq Ev E) as (q' & v' & E' & Uq' & Uv' & Eq' & Ev' & _).
  exists q', v', Q'. auto 10.
Qed.
Print Assumptions C69_position_and_velocity_or_ValueError.
(** A translation of a curvilinear velocity, in any units: its components change, the
    velocity of the motion does not ([vel_means], SpecVel.v). *)
Theorem C69_translation_keeps_velocity : forall m deg f tr TR q Q v V a b,
  pos_units tr -> si tr = finite TR -> pos_units q -> si q = finite Q -> vel_units v -> si_vel v = vfinite V ->
  good_pos 3 TR -> good_pos 3 Q -> plain3 (cls_of Q) -> off_axis Q ->
  vplain3 (vc V) -> length (vcomps V) = 3%nat -> denotes TR b -> denotes Q a -> can_hold (cls_of Q) (vadd a b) ->
  (forall x y z, vadd a b = [x; y; z] -> x * x + y * y <> 0) ->
  exists q' v' Q' V', ucallv m deg (4 + f) (OSpatial tr) (VPosVel q v) = Ok false (VPosVel q' v') /\
    pos_units q' /\ vel_units v' /\ si q' = finite Q' /\ si_vel v' = vfinite V' /\
    cls_of Q' = cls_of Q /\ denotes Q' (vadd a b) /\ vc V' = vc V /\
    forall p p' w, valid p -> valid p' -> denotes p a -> denotes p' (vadd a b) ->
      cls_of p = integral_cls (vc V) -> cls_of p' = integral_cls (vc V) -> (vel_means p V w <-> vel_means p' V' w).
Proof.
  intros m deg f tr TR q Q v V a b Ut Et Uq Eq Uv Ev Gt Gq Pq Oq Pv Lv Db Da H Oab.
  destruct (C29_translation_keeps_velocity m deg f TR Q V a b Gt Gq Pq Oq Pv Lv Db Da H Oab) as (Q' & V' & E & C & D & Cv & K).
  assert (Eo : si_op (OSpatial tr) = ofinite (OSpatial TR)). { unfold si_op, ofinite. cbn [op_map]. f_equal. exact Et. }
  destruct (agree_qv m deg (4 + f) (OSpatial tr) q v _ _ _ _ _ _ Ut Uq Uv ltac:(rewrite (si_cls _ _ Eq); apply Gq) (or_introl eq_refl) Eo Eq Ev E) as (q' & v' & E' & Uq' & Uv' & Eq' & Ev').
  exists q', v', Q', V'. auto 12.
Qed.
Print Assumptions C69_translation_keeps_velocity.
(** The inverse, computed in units, undoes the operator on a Cartesian position and
    velocity in space, both ways round. *)
Lemma inv_boosts m deg f (o : op (uq ext)) : forall w o', ginverse m deg f o = Ok w o' -> vel_boosts o' = rev (map gvel_neg (vel_boosts o)).
Proof.
  induction o as [o P|ops IH|R T V] using op_ind'; intros w o' E.
  - destruct o; cbn in P; try discriminate; cbn [ginverse] in E; repeat (apply GOpVel.bind_inv in E; destruct E as (? & ? & ? & _ & E)); apply ok_inv in E; subst o'; reflexivity.
  - cbn [ginverse] in E. apply GOpVel.bind_inv in E. destruct E as (w1 & l & w2 & E1 & E). apply ok_inv in E. subst o'.
    assert (AP : forall a b : list (op (uq ext)), vel_boosts (OPipe (a ++ b)) = vel_boosts (OPipe a) ++ vel_boosts (OPipe b)).
    { induction a as [|o a IHa]; intros b; [reflexivity|]. change (vel_boosts (OPipe ((o :: a) ++ b))) with (vel_boosts o ++ vel_boosts (OPipe (a ++ b))). rewrite IHa, app_assoc. reflexivity. }
    revert w1 l E1. induction IH as [|o ops Ho _ IH]; intros w1 l E1.
    + apply ok_inv in E1. subst l. reflexivity.
    + apply GOpVel.bind_inv in E1. destruct E1 as (wa & l1 & wb & Ea & E1). apply GOpVel.bind_inv in E1. destruct E1 as (wc & i & wd & Eb & E1). apply ok_inv in E1. subst l.
      rewrite AP, (IH _ _ Ea). change (vel_boosts (OPipe (o :: ops))) with (vel_boosts o ++ vel_boosts (OPipe ops)). rewrite map_app, rev_app_distr. f_equal.
      change (vel_boosts (OPipe [i])) with (vel_boosts i ++ []). rewrite app_nil_r. eapply Ho; eauto.
  - cbn [ginverse] in E. apply GOpVel.bind_inv in E. destruct E as (? & ? & ? & _ & E). apply ok_inv in E. subst o'. reflexivity.
Qed.
Lemma neg_in s v : vel_in s v -> vel_in s (gvel_neg v).
Proof. unfold vel_in, gvel_neg. cbn [vcomps]. intros F. apply Forall_map. eapply Forall_impl; [|exact F]. intros x E. exact E. Qed.
Theorem C69_inverse_round_trip : forall m deg f m' deg' f' o O q Q v V,
  op_units o -> si_op o = ofinite O -> good 3 O -> invertible O -> steady O ->
  pos_units q -> si q = finite Q -> vel_units v -> si_vel v = vfinite V -> fits o v ->
  good_pos 3 Q -> is_cart (cls_of Q) = true -> cart_vel 3 V ->
  exists o', ginverse m deg (4 + f) o = Ok false o' /\ op_units o' /\
  (exists q1 v1 q2 v2, ucallv m' deg' (4 + f') o (VPosVel q v) = Ok false (VPosVel q1 v1) /\
     ucallv m' deg' (4 + f') o' (VPosVel q1 v1) = Ok false (VPosVel q2 v2) /\ si q2 = si q /\ si_vel v2 = si_vel v) /\
  (exists q1 v1 q2 v2, ucallv m' deg' (4 + f') o' (VPosVel q v) = Ok false (VPosVel q1 v1) /\
     ucallv m' deg' (4 + f') o (VPosVel q1 v1) = Ok false (VPosVel q2 v2) /\ si q2 = si q /\ si_vel v2 = si_vel v).
Proof.
  intros m deg f m' deg' f' o O q Q v V Uo Eo G I St Uq Eq Uv Ev F Gq C Cv.
  destruct (C25_inverse_on_position_and_velocity m deg f m' deg' f' 3 O G I St) as (O' & EI & L & R).
  pose proof (C66_inverse_in_any_units m deg (4 + f) o Uo) as A. rewrite Eo, EI in A.
  destruct (ginverse m deg (4 + f) o) as [w o'|e] eqn:GI; [|contradiction]. destruct A as [-> [Uo' Eo']].
  assert (Dq : dim_of (cls_of q) = 3%nat) by (rewrite (si_cls _ _ Eq); apply Gq).
  apply inv_boosts in GI.
  assert (X : exists nb us, (forall w, In w (vel_boosts o) -> False \/ (~ nb /\ vel_in us w)) /\ (forall w, In w (vel_boosts o') -> False \/ (~ nb /\ vel_in us w)) /\ (False \/ nb \/ vel_in us v)).
  { destruct F as [N|(s & B & F)]; [exists True, 1|exists False, s].
    - rewrite GI, N. split; [intros ? []|]. split; [intros ? []|]. auto.
    - split; [auto|]. split; [|auto]. intros w W. rewrite GI in W. apply in_rev, in_map_iff in W. destruct W as (w0 & <- & W). right. split; [tauto|]. apply neg_in. auto. }
  destruct X as (nb & us & B & B' & Fv).
  assert (RUN : forall o1 O1 q v Q V w Q' V', op_units o1 -> si_op o1 = O1 -> (forall w, In w (vel_boosts o1) -> False \/ (~ nb /\ vel_in us w)) ->
     vvrel False nb us (VPosVel q v) (VPosVel Q V) ->
     call m' deg' (4 + f') O1 (VPosVel Q V) = Ok w (VPosVel Q' V') ->
     exists q' v', ucallv m' deg' (4 + f') o1 (VPosVel q v) = Ok w (VPosVel q' v') /\ si q' = Q' /\ si_vel v' = V' /\ vvrel False nb us (VPosVel q' v') (VPosVel Q' V')).
  { clear. intros o1 O1 q v Q V w Q' V' U <- B R E. 
    pose proof (callv_rel m' deg' (4 + f') False nb us o1 (si_op o1) (vop_fwd False nb us o1 U B) _ _ R) as A.
    rewrite (proj1 (gcallv_eq m' deg' (4 + f') (si_op o1) (VPosVel Q V) I)) in A. apply agB_False in A. rewrite E in A.
    destruct (ucallv m' deg' (4 + f') o1 (VPosVel q v)) as [w1 y|e]; [|contradiction]. destruct A as (-> & Ry). destruct (vv_bwd _ _ _ _ _ Ry) as (Uy & Ey).
    destruct y as [| | |q' v'| | |]; cbn [qp_units] in Uy; try contradiction; try discriminate Ey.
    change (si_value (VPosVel q' v')) with (VPosVel (si q') (si_vel v')) in Ey. injection Ey as E1 E2. exists q', v'. auto. }
  assert (R0 : vvrel False nb us (VPosVel q v) (VPosVel (finite Q) (vfinite V))).
  { rewrite <- Eq, <- Ev. apply (vv_fwd False nb us (VPosVel q v)); [split; assumption|right; exact Dq|]. intros v' E'. injection E' as <-. exact Fv. }
  exists o'. split; [reflexivity|]. split; [exact Uo'|]. rewrite Eq, Ev. split.
  - destruct (L Q V Gq C Cv) as (Q1 & V1 & E1 & E2).
    destruct (RUN o _ q v _ _ _ _ _ Uo Eo B R0 E1) as (q1 & v1 & F1 & _ & _ & R1).
    destruct (RUN o' _ q1 v1 _ _ _ _ _ Uo' Eo' B' R1 E2) as (q2 & v2 & F2 & A2 & B2 & _).
    exists q1, v1, q2, v2. auto 10.
  - destruct (R Q V Gq C Cv) as (Q1 & V1 & E1 & E2).
    destruct (RUN o' _ q v _ _ _ _ _ Uo' Eo' B' R0 E1) as (q1 & v1 & F1 & _ & _ & R1).
    destruct (RUN o _ q1 v1 _ _ _ _ _ Uo Eo B R1 E2) as (q2 & v2 & F2 & A2 & B2 & _).
    exists q1, v1, q2, v2. auto 10.
Qed.
Print Assumptions C69_inverse_round_trip.

(** ** The units of the results *)
(** A velocity boost in the units of the velocity leaves every component in its own unit;
    a component in another unit is refused with ValueError, e.g. m/s against km/s. *)
Theorem C69_velocity_boost_needs_the_units_of_the_velocity : forall m deg f q a b c s1 s2 s3 a' b' c' t1 t2 t3,
  let v := mkVel WCart3 [q_ speed_d a s1; q_ speed_d b s2; q_ speed_d c s3] in
  let w := mkVel WCart3 [q_ speed_d a' t1; q_ speed_d b' t2; q_ speed_d c' t3] in
  let u := mkVel WCart3 [q_ speed_d (a + t1 / s1 * a') s1; q_ speed_d (b + t2 / s2 * b') s2; q_ speed_d (c + t3 / s3 * c') s3] in
  (s1 = t1 -> s2 = t2 -> s3 = t3 ->
    ucallv m deg f (OVelBoost w) (VPosVel q v) = Ok false (VPosVel q u) /\ ucallv m deg f (OVelBoost w) (VVel v) = Ok false (VVel u)) /\
  (s1 <> t1 \/ s2 <> t2 \/ s3 <> t3 ->
    ucallv m deg f (OVelBoost w) (VPosVel q v) = Raise EValue /\ ucallv m deg f (OVelBoost w) (VVel v) = Raise EValue).
Proof.
  intros m deg f q a b c s1 s2 s3 a' b' c' t1 t2 t3 v w u. subst v w u. unfold ucallv. cbn [gcallv gcallv_vec]. unfold tvel_add. cbn [vc vcomps combine forallb]. rewrite !unit_dec.
  destruct (Req_EM_T s1 t1), (Req_EM_T s2 t2), (Req_EM_T s3 t3); cbn [andb]; split; try tauto; intros; split; reflexivity.
Qed.
Print Assumptions C69_velocity_boost_needs_the_units_of_the_velocity.
(** A translated position stays in its own units, component by component; a translated
    Cartesian velocity comes out with all three components in the unit of its first. *)
Theorem C69_translated_velocity_in_the_unit_of_its_first_component : forall m deg f tr q v w q' v',
  pos_units q -> vel_units v -> dim_of (cls_of q) = 3%nat -> vc v = WCart3 ->
  ucallv m deg f (OSpatial tr) (VPosVel q v) = Ok w (VPosVel q' v') ->
  (cls_of q = CCart3 -> map uqs (components q') = map uqs (components q)) /\
  exists a b c, vcomps v = [a; b; c] /\ map uqs (vcomps v') = [uqs a; uqs a; uqs a].
Proof.
  intros m deg f tr q v w q' v' Uq Uv D Cv E. split.
  - intros Cq. destruct q as [| | | | |x y z| | | | |]; try discriminate Cq. unfold ucallv in E. cbn [gcallv gcallv_vec] in E. unfold gtranslate_vel in E.
    apply GOpVel.bind_inv in E. destruct E as (w1 & q1 & w2 & E1 & E). cbn [tpos_add tcart_add cart_add] in E1.
    apply GOpVel.bind_inv in E1. destruct E1 as (w3 & t & w4 & E3 & E1). destruct t as [| | | | |t1 t2 t3| | | | |]; try discriminate E1. apply ok_inv in E1. subst q1.
    repeat (apply GOpVel.bind_inv in E; destruct E as (? & ? & ? & _ & E)). apply ok_inv in E. injection E as <- _. reflexivity.
  - eapply (translated_units m deg f tr q (si q) v (si_vel v)); eauto; [now apply relu_si|now apply vrel_fwd].
Qed.
Print Assumptions C69_translated_velocity_in_the_unit_of_its_first_component.

(** ** A concrete case: a shift in parsec, then a boost in km/s, of a position in kpc
    (and one coordinate in metres) with a velocity in km/s. *)
Definition ex_op_v : op (uq ext) :=
  OPipe [OSpatial (PCart3 (q_ length_d 1 (kpc / 1000)) (q_ length_d 2 (kpc / 1000)) (q_ length_d 3 (kpc / 1000)));
         OVelBoost (mkVel WCart3 [q_ speed_d 10 1000; q_ speed_d 0 1000; q_ speed_d 5 1000])].
Definition ex_qp : value (uq ext) :=
  VPosVel (PCart3 (q_ length_d 8 kpc) (q_ length_d 0 1) (q_ length_d 1 kpc)) (mkVel WCart3 [q_ speed_d 220 1000; q_ speed_d 7 1000; q_ speed_d 0 1000]).
Example C69_nonvacuous : op_units ex_op_v /\ qp_units ex_qp /\ (space_qp ex_qp /\ value_fits ex_op_v ex_qp) /\
  exists O Q V, si_op ex_op_v = ofinite O /\ good 3 O /\ invertible O /\ steady O /\
    si_value ex_qp = VPosVel (finite Q) (vfinite V) /\ good_pos 3 Q /\ is_cart (cls_of Q) = true /\ cart_vel 3 V /\ denotes Q [8 * kpc; 0; kpc].
Proof.
  assert (K : 0 < kpc) by (unfold kpc; lra).
  split; [|split; [|split] ].
  - cbn. unfold is_a. repeat (split || constructor); cbn; try lra.
  - cbn. unfold is_a. repeat (split || constructor); cbn; lra.
  - split; [reflexivity|]. right. exists 1000. split; [|repeat constructor]. intros w [<-|[]]. repeat constructor.
  - exists (OPipe [OSpatial (PCart3 (kpc / 1000) (2 * (kpc / 1000)) (3 * (kpc / 1000))); OVelBoost (mkVel WCart3 [10000; 0; 5000])]),
      (PCart3 (8 * kpc) 0 kpc), (mkVel WCart3 [220000; 7000; 0]).
    refine (conj _ (conj _ (conj _ (conj _ (conj _ (conj _ (conj _ (conj _ _)))))))).
    + unfold si_op, ofinite, ex_op_v, vel_map. cbn -[kpc]. unfold vel_map, uphys, q_. cbn -[kpc]. repeat first [lra | progress f_equal].
    + cbn. repeat split; auto; discriminate.
    + cbn [invertible invertible1]. split; [intros b Hb; cbn in Hb; subst b; split; reflexivity || exact I|]. repeat split.
    + cbn. auto.
    + unfold si_value, ex_qp, uphys, q_. cbn -[kpc]. unfold vel_map, vfinite. cbn -[kpc]. repeat first [lra | progress f_equal].
    + cbn. repeat (split || constructor); auto; try discriminate.
    + reflexivity.
    + split; reflexivity.
    + cbn. reflexivity.
Qed.
