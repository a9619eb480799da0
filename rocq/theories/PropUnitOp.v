(** * Property C66: operators do the same thing in every choice of units.

    C25-C30 are about SI values.  Here the operators (GOp.v, proved equal on SI values
    to the ones of Operators.v) run on numbers that carry units and obey unxt's rules
    (UQ.v); the operator's parameters and its argument may each use units of their
    own, e.g. a boost in km/s, a time in Myr and a position in kpc.

    [op_units o], [value_units x]: every parameter and component is a quantity of the
    right dimension in some unit, rotation matrices are 3x3 and dimensionless;
    arguments are positions, positions with a time, and FourVectors.
    [si_op], [si_value]: the SI values.  [c_kms]: the default speed of light.
    Sums of positions on the line and in the plane go through [jax.tree.map], which
    raises ValueError for unequal units (TreeArith.v): the first theorem is for arguments
    in space ([space_value]), the second for all. *)
From Coq Require Import Reals Bool List ZArith Lra Lia.
From Verif Require Import Num Vectors Spec Transform Pos3D Pos3DThm RoundTrip Vel Units UQ Scale Rel UQThm UVel UVelThm Arith TreeArith RelArith FourVec Operators SpecOp GOp GOpThm PropUQ PropUVel PropUnitArith UOpThm PropOp PropOp3.
Import ListNotations.
Open Scope R_scope.

Lemma si_vector x : value_units x -> vector_value (si_value x).
Proof. destruct x; cbn; auto. Qed.

(** ** C66 *)
Definition space_value (x : value (uq ext)) : Prop :=
  match x with VPos q | VPosT q _ => dim_of (cls_of q) = 3%nat | VFour v => dim_of (cls_of (fq v)) = 3%nat | _ => True end.
Lemma agree_weaken {T U} (R R' : T -> U -> Prop) r r' : (forall x y, R x y -> R' x y) -> agree R r r' -> agree R' r r'.
Proof. intros I. unfold agree. destruct r, r'; auto. intros [-> H]. auto. Qed.
(** The same exception, or the same result up to the units it is written in. *)
Theorem C66_call_in_any_units : forall m deg f o x, op_units o -> value_units x -> space_value x ->
  agree same_value (gcall m deg f c_kms o x) (call m deg f (si_op o) (si_value x)).
Proof.
  intros m deg f o x U V D. rewrite <- (proj1 (gcall_eq m deg f (si_op o) (si_value x) (si_vector x V))).
  apply (agree_weaken (same_value3 False)); [now intros ? ? [? _]|]. apply agB_False. apply u_call; auto.
  destruct x; cbn in V; try contradiction; cbn in D |- *; now right.
Qed.
Print Assumptions C66_call_in_any_units.
(** In every dimension: that, or ValueError because of unequal units. *)
Theorem C66_call_right_or_ValueError : forall m deg f o x, op_units o -> value_units x ->
  agree same_value (gcall m deg f c_kms o x) (call m deg f (si_op o) (si_value x)) \/ gcall m deg f c_kms o x = Raise EValue.
Proof.
  intros m deg f o x U V. rewrite <- (proj1 (gcall_eq m deg f (si_op o) (si_value x) (si_vector x V))).
  assert (D : value3 True x) by (unfold value3; destruct (pos_of x); auto; now left).
  destruct (u_call m deg f True o x U V D) as [A|[_ E]]; [left|now right]. revert A. apply agree_weaken. now intros ? ? [? _].
Qed.
Print Assumptions C66_call_right_or_ValueError.
Theorem C66_inverse_in_any_units : forall m deg f o, op_units o ->
  agree same_op (ginverse m deg f o) (inverse m deg f (si_op o)).
Proof. intros m deg f o U. rewrite <- ginverse_eq. now apply u_inverse. Qed.
Print Assumptions C66_inverse_in_any_units.
(** Changing the units of the operator and of its argument changes nothing. *)
Theorem C66_units_do_not_matter : forall m deg f o o' x x' w y,
  op_units o -> op_units o' -> value_units x -> value_units x' -> space_value x -> si_op o = si_op o' -> si_value x = si_value x' ->
  gcall m deg f c_kms o x = Ok w y ->
  exists y', gcall m deg f c_kms o' x' = Ok w y' /\ si_value y' = si_value y.
Proof.
  intros m deg f o o' x x' w y U U' V V' D E F G.
  assert (D' : space_value x').
  { assert (K : forall q q' : pos (uq ext), pos_map uphys q = pos_map uphys q' -> dim_of (cls_of q) = 3%nat -> dim_of (cls_of q') = 3%nat).
    { intros q q' EQ <-. rewrite <- (cls_si q), <- (cls_si q'). unfold si. now rewrite EQ. }
    destruct x, x'; cbn in D, V, V' |- *; try contradiction; try discriminate F; unfold si_value in F; cbn [value_map] in F;
    [|injection F as F _|]; eapply K; try eassumption; [now injection F|]. injection F as _ F _. exact F. }
  pose proof (C66_call_in_any_units m deg f o x U V D) as A. pose proof (C66_call_in_any_units m deg f o' x' U' V' D') as A'.
  rewrite G in A. rewrite <- E, <- F in A'. destruct (call m deg f (si_op o) (si_value x)) as [w1 y1|e]; [|contradiction].
  destruct A as [-> [_ Ey]]. destruct (gcall m deg f c_kms o' x') as [w2 y2|e]; [|contradiction]. destruct A' as [-> [_ Ey']].
  exists y2. split; [reflexivity|]. congruence.
Qed.
Print Assumptions C66_units_do_not_matter.
(** On the line and in the plane: nothing but the ValueError. *)
Theorem C66_units_matter_only_to_ValueError : forall m deg f o o' x x' w y,
  op_units o -> op_units o' -> value_units x -> value_units x' -> si_op o = si_op o' -> si_value x = si_value x' ->
  gcall m deg f c_kms o x = Ok w y ->
  (exists y', gcall m deg f c_kms o' x' = Ok w y' /\ si_value y' = si_value y) \/ gcall m deg f c_kms o' x' = Raise EValue.
Proof.
  intros m deg f o o' x x' w y U U' V V' E F G.
  destruct (C66_call_right_or_ValueError m deg f o' x' U' V') as [A'|A']; [left|now right].
  destruct (C66_call_right_or_ValueError m deg f o x U V) as [A|A]; rewrite G in A; [|discriminate A]. rewrite <- E, <- F in A'.
  destruct (call m deg f (si_op o) (si_value x)) as [w1 y1|e]; [|contradiction].
  destruct A as [-> [_ Ey]]. destruct (gcall m deg f c_kms o' x') as [w2 y2|e]; [|contradiction]. destruct A' as [-> [_ Ey']].
  exists y2. split; [reflexivity|]. congruence.
Qed.
Print Assumptions C66_units_matter_only_to_ValueError.

Lemma si_cls q S : si q = finite S -> cls_of q = cls_of S.
Proof. intros E. transitivity (cls_of (si q)); [destruct q; reflexivity|]. rewrite E. destruct S; reflexivity. Qed.
Lemma agree_posT m deg f o x t O X T w Q' T' : op_units o -> pos_units x -> is_a time_d t -> si_op o = O -> si x = X -> uphys t = T ->
  call m deg f O (VPosT X T) = Ok w (VPosT Q' T') ->
  (exists q' t', gcall m deg f c_kms o (VPosT x t) = Ok w (VPosT q' t') /\ pos_units q' /\ is_a time_d t' /\ si q' = Q' /\ uphys t' = T') \/
  (dim_of (cls_of x) <> 3%nat /\ gcall m deg f c_kms o (VPosT x t) = Raise EValue).
Proof.
  intros U V W <- <- <- E.
  assert (A : agree same_value (gcall m deg f c_kms o (VPosT x t)) (call m deg f (si_op o) (si_value (VPosT x t))) \/
    (dim_of (cls_of x) <> 3%nat /\ gcall m deg f c_kms o (VPosT x t) = Raise EValue)).
  { destruct (Nat.eq_dec (dim_of (cls_of x)) 3) as [D|D]; [left; now apply C66_call_in_any_units|].
    destruct (C66_call_right_or_ValueError m deg f o (VPosT x t) U (conj V W)); auto. }
  destruct A as [A|A]; [left|now right].
  unfold si_value at 1 in A. cbn [value_map] in A. change (pos_map uphys x) with (si x) in A. rewrite E in A.
  destruct (gcall m deg f c_kms o (VPosT x t)) as [w1 y|e]; [|contradiction]. destruct A as [-> [Uy Ey]].
  destruct y; cbn in Uy; try contradiction; try discriminate. unfold si_value in Ey. cbn [value_map] in Ey. injection Ey as Eq Et. destruct Uy as [Uq Ut]. exists q, t0. repeat split; auto; try apply Ut.
Qed.
Lemma agree_posT3 m deg f o x t O X T w Q' T' : dim_of (cls_of x) = 3%nat -> op_units o -> pos_units x -> is_a time_d t -> si_op o = O -> si x = X -> uphys t = T ->
  call m deg f O (VPosT X T) = Ok w (VPosT Q' T') ->
  exists q' t', gcall m deg f c_kms o (VPosT x t) = Ok w (VPosT q' t') /\ pos_units q' /\ is_a time_d t' /\ si q' = Q' /\ uphys t' = T'.
Proof. intros D U V W E1 E2 E3 E. destruct (agree_posT m deg f o x t O X T w Q' T' U V W E1 E2 E3 E) as [K|[N _]]; [exact K|contradiction]. Qed.
(** The operator maps the event the position and time stand for as the Galilean
    group says (SpecOp.v), whatever the units; the ValueError can only happen on the line
    and in the plane. *)
Theorem C66_calls_act_on_events : forall m deg f n o O q Q t T x x' t',
  op_units o -> si_op o = ofinite O -> pos_units q -> si q = finite Q -> is_a time_d t -> uphys t = Some T ->
  good n O -> good_pos n Q -> denotes Q x -> acts O (x, T) (x', t') ->
  (forall e1, visits O (x, T) e1 -> can_hold (cls_of Q) (fst e1)) ->
  (exists q' Q' s, gcall m deg (4 + f) c_kms o (VPosT q t) = Ok false (VPosT q' s) /\
    pos_units q' /\ cls_of q' = cls_of q /\ si q' = finite Q' /\ valid Q' /\ denotes Q' x' /\
    is_a time_d s /\ uphys s = Some t') \/
  (n <> 3%nat /\ gcall m deg (4 + f) c_kms o (VPosT q t) = Raise EValue).
Proof.
  intros m deg f n o O q Q t T x x' t' Uo Eo Uq Eq Ut Et G Gq D A S.
  destruct (C29_calls_act_on_events m deg f n O x T x' t' Q G Gq D A S) as (Q' & E & C & V & D').
  destruct (agree_posT m deg (4 + f) o q t _ _ _ _ _ _ Uo Uq Ut Eo Eq Et E) as [(q' & s & E' & U' & Us & Eq' & Es)|[N E']];
    [|right; split; [|exact E']; destruct Gq as (_ & _ & _ & <-); now rewrite <- (si_cls _ _ Eq)].
  left. exists q', Q', s. repeat split; auto; try apply Us. rewrite (si_cls _ _ Eq'), (si_cls _ _ Eq). exact C.
Qed.
Print Assumptions C66_calls_act_on_events.
(** The inverse, computed in units, undoes the operator on Cartesian
    positions in space. *)
Theorem C66_inverse_round_trip : forall m deg f m' deg' f' o O q Q t T,
  op_units o -> si_op o = ofinite O -> good 3 O -> invertible O ->
  pos_units q -> si q = finite Q -> is_a time_d t -> uphys t = Some T -> good_pos 3 Q -> is_cart (cls_of Q) = true ->
  exists o', ginverse m deg (4 + f) o = Ok false o' /\ op_units o' /\
  (exists q1 t1 q2 t2, gcall m' deg' (4 + f') c_kms o (VPosT q t) = Ok false (VPosT q1 t1) /\
     gcall m' deg' (4 + f') c_kms o' (VPosT q1 t1) = Ok false (VPosT q2 t2) /\
     pos_units q2 /\ is_a time_d t2 /\ si q2 = si q /\ uphys t2 = uphys t) /\
  (exists q1 t1 q2 t2, gcall m' deg' (4 + f') c_kms o' (VPosT q t) = Ok false (VPosT q1 t1) /\
     gcall m' deg' (4 + f') c_kms o (VPosT q1 t1) = Ok false (VPosT q2 t2) /\
     pos_units q2 /\ is_a time_d t2 /\ si q2 = si q /\ uphys t2 = uphys t).
Proof.
  intros m deg f m' deg' f' o O q Q t T Uo Eo G I Uq Eq Ut Et Gq C.
  destruct (C25_inverse_on_cartesian m deg f m' deg' f' 3%nat O G I) as (O' & EI & L & R).
  pose proof (C66_inverse_in_any_units m deg (4 + f) o Uo) as A. rewrite Eo, EI in A.
  destruct (ginverse m deg (4 + f) o) as [w o'|e]; [|contradiction]. destruct A as [-> [Uo' Eo']].
  exists o'. split; [reflexivity|]. split; [exact Uo'|]. rewrite Eq, Et.
  assert (Dq : dim_of (cls_of q) = 3%nat) by (rewrite (si_cls _ _ Eq); apply Gq). split.
  - destruct (L Q T Gq C) as (Q1 & T1 & E1 & E2 & GC).
    destruct (agree_posT3 _ _ _ o q t _ _ _ _ _ _ Dq Uo Uq Ut Eo Eq Et E1) as (q1 & t1 & F1 & U1 & V1 & A1 & B1).
    assert (Dq1 : dim_of (cls_of q1) = 3%nat) by (rewrite (si_cls _ _ A1), GC, <- (si_cls _ _ Eq); exact Dq).
    destruct (agree_posT3 _ _ _ o' q1 t1 _ _ _ _ _ _ Dq1 Uo' U1 V1 Eo' A1 B1 E2) as (q2 & t2 & F2 & U2 & V2 & A2 & B2).
    exists q1, t1, q2, t2. auto 10.
  - destruct (R Q T Gq C) as (Q1 & T1 & E1 & E2 & GC).
    destruct (agree_posT3 _ _ _ o' q t _ _ _ _ _ _ Dq Uo' Uq Ut Eo' Eq Et E1) as (q1 & t1 & F1 & U1 & V1 & A1 & B1).
    assert (Dq1 : dim_of (cls_of q1) = 3%nat) by (rewrite (si_cls _ _ A1), GC, <- (si_cls _ _ Eq); exact Dq).
    destruct (agree_posT3 _ _ _ o q1 t1 _ _ _ _ _ _ Dq1 Uo U1 V1 Eo A1 B1 E2) as (q2 & t2 & F2 & U2 & V2 & A2 & B2).
    exists q1, t1, q2, t2. auto 10.
Qed.
Print Assumptions C66_inverse_round_trip.

(** ** The units of the results *)
(** A translated position stays in its own units, the time in its own unit. *)
Theorem C66_translated_position_keeps_its_units : forall m deg f c x y z s1 s2 s3 a b d t1 t2 t3 t st T sT cc,
  gcall m deg (S f) c (OTranslation (mkFV (q_ time_d T sT) (PCart3 (q_ length_d a t1) (q_ length_d b t2) (q_ length_d d t3)) cc))
    (VPosT (PCart3 (q_ length_d x s1) (q_ length_d y s2) (q_ length_d z s3)) (q_ time_d t st))
  = Ok false (VPosT (PCart3 (q_ length_d (x + t1 / s1 * a) s1) (q_ length_d (y + t2 / s2 * b) s2) (q_ length_d (z + t3 / s3 * d) s3))
      (q_ time_d (t + sT / st * T) st)).
Proof.
  intros. cbn [gcall gcall_vec cls_of dim_of fq ft].
  rewrite (C64_sum_has_left_units m deg f x y z a b d s1 s2 s3 t1 t2 t3). reflexivity.
Qed.
Print Assumptions C66_translated_position_keeps_its_units.
(** A boost by km/s over Myr applied in kpc gives kpc: the displacement is converted
    to the units of the position. *)
Theorem C66_boosted_position_keeps_its_units : forall m deg f c x y z s1 s2 s3 a b d v1 v2 v3 t st,
  gcall m deg (S f) c (OBoost (mkVel WCart3 [q_ speed_d a v1; q_ speed_d b v2; q_ speed_d d v3]))
    (VPosT (PCart3 (q_ length_d x s1) (q_ length_d y s2) (q_ length_d z s3)) (q_ time_d t st))
  = Ok false (VPosT (PCart3 (q_ length_d (x + v1 * st / s1 * (a * t)) s1) (q_ length_d (y + v2 * st / s2 * (b * t)) s2) (q_ length_d (z + v3 * st / s3 * (d * t)) s3))
      (q_ time_d t st)).
Proof.
  intros. cbn [gcall gcall_vec]. unfold gboost_pos, gvel_mul_time. cbn [vc vcomps integral_cls map gpos_from_components]. unfold mk_Cart3. unfold ret; rewrite bind_ok.
  pose proof (C64_sum_has_left_units m deg f x y z (a * t) (b * t) (d * t) s1 s2 s3 (v1 * st) (v2 * st) (v3 * st)) as E.
  unfold ret in *. match goal with |- context [tpos_add m deg (S f) ?p ?q] => match type of E with tpos_add _ _ _ ?p' ?q' = _ => replace (tpos_add m deg (S f) p q) with (tpos_add m deg (S f) p' q') by reflexivity end end.
  rewrite E. reflexivity.
Qed.
Print Assumptions C66_boosted_position_keeps_its_units.
(** Findings.  In the plane a translation needs the units of the position, component by
    component, otherwise it raises ValueError; ... *)
Lemma unit_dec d (x y : R) s t : same_unit (q_ d x s) (q_ d y t) = if Req_EM_T s t then true else false.
Proof.
  cbn [same_unit Static_uq q_ uqd uqs udim_eqb]. replace (dim_eqb d d) with true by (symmetry; now apply UnitsThm.dim_eqb_true). cbn [andb].
  unfold Reqb. destruct (Req_EM_T s t); auto.
Qed.
Theorem C66_finding_plane_translation_needs_the_units_of_the_position : forall m deg f c x y s1 s2 a b t1 t2,
  gcall m deg (S f) c (OSpatial (PCart2 (q_ length_d a t1) (q_ length_d b t2))) (VPos (PCart2 (q_ length_d x s1) (q_ length_d y s2)))
  = (if Req_EM_T s1 t1 then if Req_EM_T s2 t2
     then Ok false (VPos (PCart2 (q_ length_d (x + t1 / s1 * a) s1) (q_ length_d (y + t2 / s2 * b) s2)))
     else Raise EValue else Raise EValue).
Proof.
  intros. cbn [gcall gcall_vec tpos_add tcart_add].
  assert (K : forall x y : uq ext, rep m deg (S f) (PCart2 x y) CCart2 = Ok false (PCart2 x y)) by (intros; unfold rep; step; reflexivity).
  rewrite K, bind_ok. unfold leaf. rewrite !unit_dec. destruct (Req_EM_T s1 t1), (Req_EM_T s2 t2); reflexivity.
Qed.
Print Assumptions C66_finding_plane_translation_needs_the_units_of_the_position.
(** ... and a boost needs unit of velocity times unit of time to be the unit of the
    position: km/s over Myr is refused in kpc, km/s over s is accepted in km. *)
Theorem C66_finding_plane_boost_needs_the_units_of_the_position : forall m deg f c x y s1 s2 a b v1 v2 t st,
  gcall m deg (S f) c (OBoost (mkVel WCart2 [q_ speed_d a v1; q_ speed_d b v2])) (VPosT (PCart2 (q_ length_d x s1) (q_ length_d y s2)) (q_ time_d t st))
  = (if Req_EM_T s1 (v1 * st) then if Req_EM_T s2 (v2 * st)
     then Ok false (VPosT (PCart2 (q_ length_d (x + v1 * st / s1 * (a * t)) s1) (q_ length_d (y + v2 * st / s2 * (b * t)) s2)) (q_ time_d t st))
     else Raise EValue else Raise EValue).
Proof.
  intros. cbn [gcall gcall_vec]. unfold gboost_pos, gvel_mul_time. cbn [vc vcomps integral_cls map gpos_from_components]. unfold mk_Cart2. unfold ret; rewrite bind_ok.
  change (nmul (q_ speed_d a v1) (q_ time_d t st)) with (q_ length_d (a * t) (v1 * st)). change (nmul (q_ speed_d b v2) (q_ time_d t st)) with (q_ length_d (b * t) (v2 * st)).
  cbn [tpos_add tcart_add].
  assert (K : forall x y : uq ext, rep m deg (S f) (PCart2 x y) CCart2 = Ok false (PCart2 x y)) by (intros; unfold rep; step; reflexivity).
  rewrite K, bind_ok. unfold leaf. rewrite !unit_dec. destruct (Req_EM_T s1 (v1 * st)), (Req_EM_T s2 (v2 * st)); reflexivity.
Qed.
Print Assumptions C66_finding_plane_boost_needs_the_units_of_the_position.
(** Rotating mixes the components: all three come out in the unit of x. *)
Theorem C66_rotated_position_in_the_unit_of_x : forall m deg f c m11 m12 m13 m21 m22 m23 m31 m32 m33 x y z s1 s2 s3,
  0 < s1 ->
  let n k := q_ one_d_ k 1 in
  gcall m deg (S f) c (ORotation [[n m11; n m12; n m13]; [n m21; n m22; n m23]; [n m31; n m32; n m33]])
    (VPos (PCart3 (q_ length_d x s1) (q_ length_d y s2) (q_ length_d z s3)))
  = Ok false (VPos (PCart3
      (q_ length_d (m11 * x + s2 / s1 * (m12 * y) + s3 / s1 * (m13 * z)) s1)
      (q_ length_d (m21 * x + s2 / s1 * (m22 * y) + s3 / s1 * (m23 * z)) s1)
      (q_ length_d (m31 * x + s2 / s1 * (m32 * y) + s3 / s1 * (m33 * z)) s1))).
Proof.
  intros m deg f c m11 m12 m13 m21 m22 m23 m31 m32 m33 x y z s1 s2 s3 P n. cbn [gcall gcall_vec]. unfold grotate. cbn [cls_of dim_of].
  subst n.
  assert (E : forall p q r, gdot [q_ one_d_ p 1; q_ one_d_ q 1; q_ one_d_ r 1] [q_ length_d x s1; q_ length_d y s2; q_ length_d z s3]
                = q_ length_d (p * x + s2 / s1 * (q * y) + s3 / s1 * (r * z)) s1).
  { intros p q r. unfold gdot, q_. cbn. f_equal; [f_equal; rewrite !Rmult_1_l; reflexivity|now rewrite Rmult_1_l]. }
  assert (K : forall x y z : uq ext, represent_as m deg (S f) nokw (PCart3 x y z) CCart3 = Ok false (PCart3 x y z)) by (intros; step; reflexivity).
  rewrite K, bind_ok. cbn [gmatmul_vec map]. rewrite !E, K, bind_ok. reflexivity.
Qed.
Print Assumptions C66_rotated_position_in_the_unit_of_x.

(** ** A concrete case: a Galilean operator with a quarter turn, a shift in parsec and
    a boost in km/s, applied to a position in kpc and a time in Myr. *)
Definition kpc : R := 3.0856775814913673e19.
Definition myr : R := 3.15576e13.
Definition ex_op : op (uq ext) :=
  OGalilean [[q_ one_d_ 0 1; q_ one_d_ (-1) 1; q_ one_d_ 0 1]; [q_ one_d_ 1 1; q_ one_d_ 0 1; q_ one_d_ 0 1]; [q_ one_d_ 0 1; q_ one_d_ 0 1; q_ one_d_ 1 1]]
    (mkFV (q_ time_d 3 1) (PCart3 (q_ length_d 1 (kpc / 1000)) (q_ length_d 2 (kpc / 1000)) (q_ length_d 3 (kpc / 1000))) c_kms)
    (mkVel WCart3 [q_ speed_d 10 1000; q_ speed_d 0 1000; q_ speed_d 0 1000]).
Definition ex_x : value (uq ext) := VPosT (PCart3 (q_ length_d 8 kpc) (q_ length_d 0 kpc) (q_ length_d 1 kpc)) (q_ time_d 5 myr).
Example C66_units_nonvacuous : op_units ex_op /\ value_units ex_x /\ space_value ex_x /\
  exists O x, si_op ex_op = ofinite O /\ good 3 O /\ invertible O /\ si_value ex_x = valfinite x.
Proof.
  assert (K : 0 < kpc) by (unfold kpc; lra). assert (M : 0 < myr) by (unfold myr; lra).
  split; [|split; [|split; [reflexivity|] ] ].
  - cbn. unfold is_a. repeat (split || constructor); cbn; try lra.
  - cbn. unfold is_a. repeat split; cbn; lra.
  - exists (OGalilean [[0; -1; 0]; [1; 0; 0]; [0; 0; 1]] (mkFV 3 (PCart3 (kpc / 1000) (2 * (kpc / 1000)) (3 * (kpc / 1000))) c_light) (mkVel WCart3 [10000; 0; 0])),
           (VPosT (PCart3 (8 * kpc) 0 kpc) (5 * myr)).
    refine (conj _ (conj _ (conj _ _))).
    + unfold si_op, ofinite, ex_op, fv_map, vel_map. cbn -[kpc]. unfold fv_map, vel_map, uphys, c_kms, c_light, q_. cbn -[kpc].
      repeat first [lra | progress f_equal].
    + cbn. split; [reflexivity|]. split; [repeat constructor|]. split; [repeat split; auto; discriminate|split; reflexivity].
    + cbn [invertible invertible1 fq]. split; [apply quarter_orthogonal|]. intros b Hb. split; [|exact I]. cbn in Hb. subst b. reflexivity.
    + unfold si_value, valfinite, ex_x, uphys, q_. cbn -[kpc myr]. repeat first [lra | progress f_equal].
Qed.
