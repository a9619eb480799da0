(** * Properties C19-C24: velocities and accelerations.

    Vocabulary: Spec.v and SpecVel.v.  [vel_means p v w]: the velocity object [v]
    at the position [p] (a position of the class that goes with [v]) means the
    Cartesian velocity [w].  [4 + f], [5 + f], [1 + f]: any re-dispatching depth
    limit of at least that size. *)
From Coq Require Import Reals Bool List ZArith Lra Lia.
From Verif Require Import Num Vectors Spec Transform Pos3D Pos3DThm RoundTrip PosGlue Prolate Arith Vel SpecVel VelAt DualThm VelThm VelLow VelProlate VelProlate2 VelRound AccThm VelMisc.
Import ListNotations.
Open Scope R_scope.

(** ** C19 *)
(** Between the five attribute-free 3-D systems (LonCosLat included), with the
    position given in any of them. *)
Theorem C19_velocity_keeps_meaning_3d : forall m deg f kw P v t pt,
  valid P -> plain3 (cls_of P) -> ~ negative_field P -> off_axis P -> denotes P pt ->
  vplain3 (vc v) -> vplain3 t -> length (vcomps v) = 3%nat ->
  exists v', vel_represent_as m deg (4 + f) kw (vfinite v) t (finite P) = Ok false (vfinite v') /\ vc v' = t /\
    forall p q w, valid p -> valid q -> denotes p pt -> denotes q pt ->
      cls_of p = integral_cls (vc v) -> cls_of q = integral_cls t ->
      (vel_means p v w <-> vel_means q v' w).
Proof.
  intros m deg f kw P v t pt V PP NN O D Pv Pt L.
  destruct (vel_plain3 m deg f kw P v t pt (rep_ok_plain3 m deg f P V PP NN O) D Pv Pt L) as (v' & A1 & A2 & A3 & A4).
  exists v'. split; [exact A1|]. split; [exact A2|]. intros p q w Vp Vq Dp Dq Cp Cq.
  destruct (off_same P p pt V Vp D Dp) as [Op _]. destruct (off_same P q pt V Vq D Dq) as [Oq _].
  rewrite (means_iff p v w), (means_iff q v' w); auto; try (now rewrite A2). now rewrite (A4 p q).
Qed.
Print Assumptions C19_velocity_keeps_meaning_3d.
(** The same with the position given in prolate coordinates. *)
Theorem C19_velocity_at_prolate_position : forall m deg f kw P v t pt,
  valid P -> cls_of P = CProlate -> off_axis P -> denotes P pt ->
  vplain3 (vc v) -> vplain3 t -> length (vcomps v) = 3%nat ->
  exists v', vel_represent_as m deg (5 + f) kw (vfinite v) t (finite P) = Ok false (vfinite v') /\ vc v' = t /\
    forall p q w, valid p -> valid q -> denotes p pt -> denotes q pt ->
      cls_of p = integral_cls (vc v) -> cls_of q = integral_cls t ->
      (vel_means p v w <-> vel_means q v' w).
Proof.
  intros m deg f kw P v t pt V C O D Pv Pt L.
  assert (H : rep_ok m deg (4 + S f) P).
  { split; auto. intros kw0 t0 P0. destruct P; try discriminate C.
    destruct (ProlateThm.prolate_to_any m deg f kw0 mu nu phi Delta t0) as (q & A1 & A2 & A3 & A4 & A5); auto.
    now apply off_axis_origin. exists q. auto. }
  change (5 + f)%nat with (4 + S f)%nat.
  destruct (vel_plain3 m deg (S f) kw P v t pt H D Pv Pt L) as (v' & A1 & A2 & A3 & A4).
  exists v'. split; [exact A1|]. split; [exact A2|]. intros p q w Vp Vq Dp Dq Cp Cq.
  destruct (off_same P p pt V Vp D Dp) as [Op _]. destruct (off_same P q pt V Vq D Dq) as [Oq _].
  rewrite (means_iff p v w), (means_iff q v' w); auto; try (now rewrite A2). now rewrite (A4 p q).
Qed.
Print Assumptions C19_velocity_at_prolate_position.
(** To prolate velocities (focal length [D] as keyword). *)
Theorem C19_velocity_to_prolate : forall m deg f (kw : kwargs ext) P v D pt,
  valid P -> plain3 (cls_of P) -> ~ negative_field P -> off_axis P -> off_plane P -> denotes P pt ->
  vplain3 (vc v) -> vc v <> WLonCosLat -> length (vcomps v) = 3%nat ->
  0 < D -> kw_Delta kw = Some (Some D) ->
  exists v', vel_represent_as m deg (5 + f) kw (vfinite v) WProlate (finite P) = Ok false (vfinite v') /\ vc v' = WProlate /\
    forall p q w, valid p -> valid q -> denotes p pt -> denotes q pt ->
      cls_of p = integral_cls (vc v) -> cls_of q = CProlate -> focal_length q = Some D ->
      (vel_means p v w <-> vel_means q v' w).
Proof.
  intros m deg f kw P v D pt V PP NN O Z Dn Pv N L HD K.
  destruct (vel_to_prolate m deg f kw P v D pt) as (v' & A1 & A2 & A3 & A4); auto.
  - change (5 + f)%nat with (4 + S f)%nat. now apply rep_ok_plain3.
  - exists v'. auto.
Qed.
Print Assumptions C19_velocity_to_prolate.
Theorem C19_velocity_keeps_meaning_2d : forall m deg f kw P v t pt,
  valid P -> plain2 (cls_of P) -> denotes P pt -> pt <> [0; 0] ->
  plain2 (integral_cls (vc v)) -> plain2 (integral_cls t) -> length (vcomps v) = 2%nat ->
  exists v', vel_represent_as m deg (1 + f) kw (vfinite v) t (finite P) = Ok false (vfinite v') /\ vc v' = t /\
    forall p q w, valid p -> valid q -> denotes p pt -> denotes q pt ->
      cls_of p = integral_cls (vc v) -> cls_of q = integral_cls t ->
      (vel_means p v w <-> vel_means q v' w).
Proof.
  intros m deg f kw P v t pt V PP D O Pv Pt L.
  destruct (vel_plain2 m deg f kw P v t pt V PP D O Pv Pt L) as (v' & A1 & A2 & A3 & A4).
  exists v'. split; [exact A1|]. split; [exact A2|]. intros p q w Vp Vq Dp Dq Cp Cq.
  assert (N : forall c, plain2 (integral_cls c) -> c <> WLonCosLat /\ c <> WProlate /\ vdim c = 2%nat).
  { intros c. destruct c; cbn; try tauto; repeat split; try discriminate. }
  destruct (N _ Pv) as (N1 & N2 & N3). destruct (N _ Pt) as (M1 & M2 & M3). rewrite <- A2 in M1, M2, M3, Cq.
  rewrite (means_plain p v w), (means_plain q v' w); auto; try congruence. rewrite (A4 p q); auto. tauto. congruence.
Qed.
Print Assumptions C19_velocity_keeps_meaning_2d.
Theorem C19_velocity_keeps_meaning_1d : forall m deg f kw P v t x,
  valid P -> one_d (cls_of P) -> denotes P [x] -> 0 <= x ->
  one_d (integral_cls (vc v)) -> one_d (integral_cls t) -> length (vcomps v) = 1%nat ->
  exists v', vel_represent_as m deg (1 + f) kw (vfinite v) t (finite P) = Ok false (vfinite v') /\ vc v' = t /\
    forall p q w, valid p -> valid q -> denotes p [x] -> denotes q [x] ->
      cls_of p = integral_cls (vc v) -> cls_of q = integral_cls t ->
      (vel_means p v w <-> vel_means q v' w).
Proof.
  intros m deg f kw P v t x V PP D Hx Pv Pt L. exists (mkVel t (vcomps v)).
  split; [eapply vel_1d; eauto|]. split; auto. intros p q w Vp Vq Dp Dq Cp Cq.
  assert (N : forall c, one_d (integral_cls c) -> c <> WLonCosLat /\ c <> WProlate /\ vdim c = 1%nat).
  { intros c. destruct c; cbn; try tauto; repeat split; try discriminate. }
  destruct (N _ Pv) as (N1 & N2 & N3). destruct (N _ Pt) as (M1 & M2 & M3).
  rewrite (means_plain p v w), (means_plain q _ w); cbn [vc vcomps]; auto; try congruence.
  destruct (vcomps v) as [|a [|]]; try discriminate L.
  assert (S : forall p0, one_d (cls_of p0) -> vel_at p0 [a] = [a]) by (intros p0; destruct p0; cbn; tauto).
  rewrite !S by congruence. tauto.
Qed.
Print Assumptions C19_velocity_keeps_meaning_1d.
Example C19_case : exists P pt v, valid P /\ plain3 (cls_of P) /\ ~ negative_field P /\ off_axis P /\ off_plane P /\
  denotes P pt /\ vplain3 (vc v) /\ length (vcomps v) = 3%nat /\
  exists w, vel_means P v w.
Proof.
  exists (PCyl 2 0 1), [2; 0; 1], (mkVel WCyl [3; 4; 5]).
  cbn. rewrite cos_0, sin_0. repeat split; try lra; auto.
  - intros x y z D. cbn in D. rewrite cos_0, sin_0 in D. inversion D. lra.
  - intros x y z D. cbn in D. inversion D. lra.
  - apply list3_eq; ring.
  - eexists. apply means_plain; cbn; try discriminate; reflexivity.
Qed.
(** Findings.  A conversion between LonCosLatSphericalVel and
    ProlateSpheroidalVel loses the keyword Delta and raises. *)
Theorem C19_finding_loncoslat_to_prolate_raises : forall m deg f kw v P pt,
  valid P -> plain3 (cls_of P) -> ~ negative_field P -> off_axis P -> denotes P pt ->
  vc v = WLonCosLat -> length (vcomps v) = 3%nat ->
  vel_represent_as m deg (4 + f) kw (vfinite v) WProlate (finite P) = Raise EMissingDelta.
Proof.
  intros m deg f kw v P pt V PP NN O D E L. eapply lcl_to_prolate_raises; eauto. now apply rep_ok_plain3.
Qed.
Print Assumptions C19_finding_loncoslat_to_prolate_raises.
(** A prolate velocity cannot be converted to any other class, at any position, with
    or without Delta ([vmap] over the scalar Delta); with the position given as an
    array not even to its own. *)
Theorem C19_finding_prolate_velocity_raises : forall m deg f kw v t,
  vc v = WProlate ->
  (forall P, t <> WProlate -> exists e, vel_represent_as m deg f kw v t P = Raise e) /\
  (forall x, exists e, vel_represent_as_q m deg f kw v t x = Raise e).
Proof. intros m deg f kw v t E. split; intros; [now apply prolate_vel_raises|now apply prolate_vel_q_raises]. Qed.
Print Assumptions C19_finding_prolate_velocity_raises.
(** With a good position and Delta it is the ValueError of [vmap]. *)
Theorem C19_finding_prolate_velocity_vmap : forall m deg f mu nu phi D v t,
  valid (PProlate mu nu phi D) -> vc v = WProlate -> vplain3 t -> t <> WLonCosLat ->
  vel_represent_as m deg (1 + f) nokw (vfinite v) t (finite (PProlate mu nu phi D)) = Raise EValue.
Proof.
  intros m deg f mu nu phi D v t V E P N.
  assert (G : vel_generic m deg (1+f) nokw (vfinite v) t (finite (PProlate mu nu phi D)) = Raise EValue).
  { unfold vel_generic. cbn [vc vfinite]. rewrite E. cbn [integral_cls plus].
    rewrite ProlateThm.prolate_prolate_same, bind_ok by reflexivity. now rewrite cast_ok', bind_ok by auto. }
  unfold vel_represent_as. cbn [vc vfinite]. rewrite E, <- G. unfold vplain3 in P.
  destruct t; cbn in P; try contradiction; try congruence; reflexivity.
Qed.
Print Assumptions C19_finding_prolate_velocity_vmap.
(** A prolate velocity asked for another focal length is returned unchanged,
    although its components then mean another velocity. *)
Theorem C19_finding_prolate_self_ignores_Delta : forall m deg f kw v P, vc v = WProlate ->
  vel_represent_as m deg f kw v WProlate P = Ok false v.
Proof. intros m deg f kw v P E. unfold vel_represent_as. rewrite E. reflexivity. Qed.
Print Assumptions C19_finding_prolate_self_ignores_Delta.
Theorem C19_finding_loncoslat_self_ambiguous : forall m deg f kw v x, vc v = WLonCosLat ->
  vel_represent_as_q m deg f kw v WLonCosLat x = Raise EAmbiguous.
Proof. intros m deg f kw v x E. unfold vel_represent_as_q. rewrite E. reflexivity. Qed.
Print Assumptions C19_finding_loncoslat_self_ambiguous.

(** ** C20 *)
Theorem C20_round_trip_3d : forall m m' deg deg' f f' kw kw' P v t pt,
  valid P -> plain3 (cls_of P) -> ~ negative_field P -> off_axis P -> denotes P pt ->
  vplain3 (vc v) -> vplain3 t -> length (vcomps v) = 3%nat ->
  exists v', vel_represent_as m deg (4 + f) kw (vfinite v) t (finite P) = Ok false (vfinite v') /\
    vel_represent_as m' deg' (4 + f') kw' (vfinite v') (vc v) (finite P) = Ok false (vfinite v).
Proof. intros. eapply vel_round_trip; eauto using rep_ok_plain3. Qed.
Print Assumptions C20_round_trip_3d.
(** To prolate components there is no way back (see the findings of C19), but they
    determine the velocity. *)
Theorem C20_to_prolate_injective : forall m m' deg deg' f f' (kw kw' : kwargs ext) P v1 v2 v' D pt,
  valid P -> plain3 (cls_of P) -> ~ negative_field P -> off_axis P -> off_plane P -> denotes P pt ->
  vplain3 (vc v1) -> vc v1 <> WLonCosLat -> length (vcomps v1) = 3%nat ->
  vc v2 = vc v1 -> length (vcomps v2) = 3%nat ->
  0 < D -> kw_Delta kw = Some (Some D) -> kw_Delta kw' = Some (Some D) ->
  vel_represent_as m deg (5 + f) kw (vfinite v1) WProlate (finite P) = Ok false v' ->
  vel_represent_as m' deg' (5 + f') kw' (vfinite v2) WProlate (finite P) = Ok false v' ->
  v1 = v2.
Proof.
  intros m m' deg deg' f f' kw kw' P v1 v2 v' D pt V PP NN O Z Dn. intros.
  eapply (to_prolate_inj m m' deg deg' f f' kw kw' P v1 v2 v' D pt); eauto;
  [change (5 + f)%nat with (4 + S f)%nat|change (5 + f')%nat with (4 + S f')%nat]; now apply rep_ok_plain3.
Qed.
Print Assumptions C20_to_prolate_injective.
Theorem C20_round_trip_2d : forall m m' deg deg' f f' kw kw' P v t pt,
  valid P -> plain2 (cls_of P) -> denotes P pt -> pt <> [0; 0] ->
  plain2 (integral_cls (vc v)) -> plain2 (integral_cls t) -> length (vcomps v) = 2%nat ->
  exists v', vel_represent_as m deg (1 + f) kw (vfinite v) t (finite P) = Ok false (vfinite v') /\
    vel_represent_as m' deg' (1 + f') kw' (vfinite v') (vc v) (finite P) = Ok false (vfinite v).
Proof. exact vel_round_trip2. Qed.
Print Assumptions C20_round_trip_2d.
Theorem C20_speed_3d : forall deg f P v pt p w,
  valid P -> plain3 (cls_of P) -> ~ negative_field P -> off_axis P -> denotes P pt ->
  vplain3 (vc v) -> length (vcomps v) = 3%nat ->
  valid p -> denotes p pt -> cls_of p = integral_cls (vc v) -> vel_means p v w ->
  vel_norm deg (4 + f) (vfinite v) (finite P) = Ok false (Some (norm_of w)).
Proof. intros. eapply speed3; eauto using rep_ok_plain3. Qed.
Print Assumptions C20_speed_3d.
(** Finding: the speed of a planar velocity always raises; where the conversion to
    CartesianVel2D succeeds it is a TypeError. *)
Theorem C20_finding_planar_speed_raises : forall deg f v P, vdim (vc v) = 2%nat ->
  (exists e, vel_norm deg f v P = Raise e) /\
  (forall w c, vel_represent_as Traced deg f nokw v (vcart_cls (vc v)) P = Ok w c -> vel_norm deg f v P = Raise EType).
Proof.
  intros deg f v P D. split; [now apply speed2|]. intros w c E. eapply speed2_ok; eauto. unfold vcart_cls in E. rewrite D in E. exact E.
Qed.
Print Assumptions C20_finding_planar_speed_raises.
Theorem C20_finding_planar_speed_type_error : forall deg f P v pt,
  valid P -> plain2 (cls_of P) -> denotes P pt -> pt <> [0; 0] -> plain2 (integral_cls (vc v)) -> length (vcomps v) = 2%nat ->
  vel_norm deg (1 + f) (vfinite v) (finite P) = Raise EType.
Proof.
  intros deg f P v pt V PP D O Pv L.
  assert (E : vdim (vc v) = 2%nat) by (unfold vdim; destruct (integral_cls (vc v)); cbn in Pv; try contradiction; reflexivity).
  destruct (vel_plain2 Traced deg f nokw P v WCart2 pt) as (v' & A1 & _); auto; try exact I.
  exact (speed2_ok _ _ (vfinite v) _ _ _ E A1).
Qed.
Print Assumptions C20_finding_planar_speed_type_error.
Theorem C20_speed_1d : forall deg f P v x,
  valid P -> one_d (cls_of P) -> denotes P [x] -> 0 <= x ->
  one_d (integral_cls (vc v)) -> length (vcomps v) = 1%nat ->
  vel_norm deg (1 + f) (vfinite v) (finite P) = Ok false (Some (norm_of (vcomps v))).
Proof. exact speed1. Qed.
Print Assumptions C20_speed_1d.
Theorem C20_finding_prolate_speed_raises : forall deg f v P, vc v = WProlate -> exists e, vel_norm deg f v P = Raise e.
Proof. exact prolate_norm_raises. Qed.
Print Assumptions C20_finding_prolate_speed_raises.
(** Hence the speed does not depend on the representation. *)
Theorem C20_speed_invariant : forall m deg deg' f f' kw P v t pt,
  valid P -> plain3 (cls_of P) -> ~ negative_field P -> off_axis P -> denotes P pt ->
  vplain3 (vc v) -> vplain3 t -> length (vcomps v) = 3%nat ->
  exists v' s, vel_represent_as m deg (4 + f) kw (vfinite v) t (finite P) = Ok false (vfinite v') /\
    vel_norm deg' (4 + f') (vfinite v) (finite P) = Ok false (Some s) /\
    vel_norm deg' (4 + f') (vfinite v') (finite P) = Ok false (Some s).
Proof.
  intros m deg deg' f f' kw P v t pt V PP NN O D Pv Pt L.
  assert (H := rep_ok_plain3 m deg f P V PP NN O).
  destruct (vel_plain3 m deg f kw P v t pt H D Pv Pt L) as (v' & A1 & A2 & A3 & A4).
  destruct (proj2 H nokw (integral_cls (vc v)) Pv) as (p & _ & Cp & Vp & Ep).
  destruct (proj2 H nokw (integral_cls t) Pt) as (q & _ & Cq & Vq & Eq).
  assert (Dp : denotes p pt) by now apply Ep. assert (Dq : denotes q pt) by now apply Eq.
  assert (Op : off_axis p) by (eapply off_axis_pt; eauto).
  assert (Oq : off_axis q) by (eapply off_axis_pt; eauto).
  exists v', (norm_of (vel_at p (uncos p v))). split; [exact A1|]. split.
  - apply (C20_speed_3d deg' f' P v pt p); auto. now apply means_iff.
  - apply (C20_speed_3d deg' f' P v' pt q); auto; try now rewrite A2.
    apply means_iff; auto; try now rewrite A2. now rewrite (A4 p q).
Qed.
Print Assumptions C20_speed_invariant.

(** ** C21 *)
Theorem C21_lonlat_to_loncoslat : forall m deg f kw P lon lat d a b c pt,
  valid P -> plain3 (cls_of P) -> ~ negative_field P -> denotes P pt -> pt <> [0;0;0] ->
  valid (PLonLat lon lat d) -> denotes (PLonLat lon lat d) pt ->
  vel_represent_as m deg (4 + f) kw (vfinite (mkVel WLonLat [a;b;c])) WLonCosLat (finite P)
  = Ok false (vfinite (mkVel WLonCosLat [a * cos lat; b; c])).
Proof. exact lcl_forward. Qed.
Print Assumptions C21_lonlat_to_loncoslat.
Theorem C21_loncoslat_to_lonlat : forall m deg f kw P lon lat d a b c pt,
  valid P -> plain3 (cls_of P) -> ~ negative_field P -> denotes P pt -> pt <> [0;0;0] ->
  valid (PLonLat lon lat d) -> denotes (PLonLat lon lat d) pt ->
  (cos lat <> 0 ->
   vel_represent_as m deg (4 + f) kw (vfinite (mkVel WLonCosLat [a;b;c])) WLonLat (finite P)
   = Ok false (vfinite (mkVel WLonLat [a / cos lat; b; c]))) /\
  (cos lat = 0 ->
   vel_represent_as m deg (4 + f) kw (vfinite (mkVel WLonCosLat [a;b;c])) WLonLat (finite P)
   = Ok false (mkVel WLonLat [None; Some b; Some c])).
Proof.
  intros m deg f kw P lon lat d a b c pt V PP NN D O V' D'.
  split; intros N; rewrite (lcl_backward m deg f kw P lon lat d a b c pt V PP NN D O V' D').
  - change (ndiv (Some a : ext) (Some (cos lat))) with (ediv (Some a) (Some (cos lat))). rewrite Pos3D.ediv_some by auto. reflexivity.
  - rewrite N. change (ndiv (Some a : ext) (Some 0)) with (ediv (Some a) (Some 0)). rewrite Pos3D.ediv_none. reflexivity.
Qed.
Print Assumptions C21_loncoslat_to_lonlat.
Example C21_case : exists P pt, valid P /\ plain3 (cls_of P) /\ ~ negative_field P /\ denotes P pt /\ pt <> [0;0;0] /\
  valid (PLonLat 0 0 (mkDist KDistance 1)) /\ denotes (PLonLat 0 0 (mkDist KDistance 1)) pt.
Proof.
  exists (PCart3 1 0 0), [1;0;0]. cbn. unfold valid_dist, len; cbn. rewrite cos_0, sin_0. pose proof PI_RGT_0.
  repeat split; try lra; auto. intros E. inversion E. lra. apply list3_eq; ring.
Qed.

(** ** C22 *)
(** The transformation of accelerations ignores the velocity and transforms the
    components like those of a velocity. *)
Theorem C22_acceleration_is_jacobian_only : forall m deg f P a t pt,
  valid P -> plain3 (cls_of P) -> ~ negative_field P -> off_axis P -> denotes P pt ->
  plain3 (integral_cls (acc_integral_cls (xc a))) -> plain3 (integral_cls (acc_integral_cls t)) -> length (xcomps a) = 3%nat ->
  exists a', xc a' = t /\
    (forall kw velocity, vplain3 (vc velocity) -> length (vcomps velocity) = 3%nat ->
       acc_represent_as m deg (4 + f) kw (afinite a) t (vfinite velocity) (finite P) = Ok false (afinite a')) /\
    forall p q w, valid p -> valid q -> denotes p pt -> denotes q pt ->
      cls_of p = integral_cls (acc_integral_cls (xc a)) -> cls_of q = integral_cls (acc_integral_cls t) ->
      (moves p (xcomps a) w <-> moves q (xcomps a') w).
Proof.
  intros m deg f P a t pt V PP NN O D Pa Pt L.
  destruct (acc_jac m deg f P a t pt (rep_ok_plain3 m deg f P V PP NN O) D Pa Pt L) as (a' & A1 & A2 & A3 & A4).
  exists a'. split; [exact A1|]. split; [exact A3|]. intros p q w Vp Vq Dp Dq Cp Cq.
  assert (X : forall c, plain3 c -> c <> CProlate /\ dim_of c = 3%nat) by (intros c; destruct c; cbn; try tauto; split; congruence).
  destruct (X _ Pa) as [X1 X2]. destruct (X _ Pt) as [X3 X4]. rewrite <- Cp in X1, X2. rewrite <- Cq in X3, X4.
  rewrite !moves_iff by congruence. rewrite (A4 p q); auto. tauto.
Qed.
Print Assumptions C22_acceleration_is_jacobian_only.
(** The result is the true acceleration of the motion exactly when the terms
    quadratic in the velocity agree: [curvature q u'] = [curvature p u], where [u]
    and [u'] are the components of the same velocity in the two systems. *)
Theorem C22_correct_iff_no_curvature : forall m deg f P a t pt kw velocity u u' p q,
  valid P -> plain3 (cls_of P) -> ~ negative_field P -> off_axis P -> denotes P pt ->
  plain3 (integral_cls (acc_integral_cls (xc a))) -> plain3 (integral_cls (acc_integral_cls t)) -> length (xcomps a) = 3%nat ->
  vplain3 (vc velocity) -> length (vcomps velocity) = 3%nat ->
  valid p -> valid q -> denotes p pt -> denotes q pt ->
  cls_of p = integral_cls (acc_integral_cls (xc a)) -> cls_of q = integral_cls (acc_integral_cls t) ->
  length u = 3%nat -> length u' = 3%nat ->
  exists a', acc_represent_as m deg (4 + f) kw (afinite a) t (vfinite velocity) (finite P) = Ok false (afinite a') /\
    (forall w, acc_means p u (xcomps a) w -> (acc_means q u' (xcomps a') w <-> curvature q u' = curvature p u)).
Proof.
  intros m deg f P a t pt kw vel0 u u' p q V PP NN O D Pa Pt L Pv Lv Vp Vq Dp Dq Cp Cq Lu Lu'.
  destruct (acc_jac m deg f P a t pt (rep_ok_plain3 m deg f P V PP NN O) D Pa Pt L) as (a' & A1 & A2 & A3 & A4).
  exists a'. split; [now apply A3|]. intros w.
  assert (X : forall c, plain3 c -> smooth_cls c /\ dim_of c = 3%nat) by (intros c; destruct c; cbn; try tauto; unfold smooth_cls; repeat split; congruence).
  destruct (X _ Pa) as [X1 X2]. destruct (X _ Pt) as [X3 X4]. rewrite <- Cp in X1, X2. rewrite <- Cq in X3, X4.
  rewrite !acc_means_iff by congruence. intros ->. rewrite (A4 p q) by auto.
  assert (Lc : length (curvature p u) = 3%nat) by (rewrite curvature_length; congruence).
  assert (Lc' : length (curvature q u') = 3%nat) by (rewrite curvature_length; congruence).
  assert (LV : length (vel_at p (xcomps a)) = 3%nat).
  { rewrite vel_at_length; try congruence. rewrite pt_dim_smooth by auto. exact X2. apply X1. }
  destruct (vel_at p (xcomps a)) as [|x [|y [|z [|]]]]; try discriminate LV.
  destruct (curvature p u) as [|x1 [|y1 [|z1 [|]]]]; try discriminate Lc.
  destruct (curvature q u') as [|x2 [|y2 [|z2 [|]]]]; try discriminate Lc'.
  cbn. split; intros E.
  - apply list3_inj in E. destruct E as (E1 & E2 & E3). apply list3_eq; lra.
  - apply list3_inj in E. destruct E as (-> & -> & ->). reflexivity.
Qed.
Print Assumptions C22_correct_iff_no_curvature.
(** [curvature] is the velocity part of the true second derivative. *)
Theorem C22_true_acceleration : forall p u a w,
  cls_of p <> CProlate -> cls_of p <> CTwoSphere -> length u = dim_of (cls_of p) -> length a = dim_of (cls_of p) ->
  (acc_means p u a w <-> exists w1, moves p a w1 /\ w = vadd w1 (curvature p u)).
Proof.
  intros p u a w H1 H2 Lu La. rewrite acc_means_iff by (auto; split; auto). split.
  - intros ->. exists (vel_at p a). split; auto. now apply moves_iff.
  - intros (w1 & M & ->). apply moves_iff in M; auto. congruence.
Qed.
Print Assumptions C22_true_acceleration.
(** Uniform circular motion: the Cartesian acceleration is (-1,0,0), the code
    returns zero. *)
Theorem C22_circular_motion_is_wrong : forall m deg f kw,
  let P := PCyl 1 0 0 in let u := [0; 1; 0] in let a := mkAcc XCyl [0; 0; 0] in
  acc_means P u (xcomps a) [-1; 0; 0] /\
  acc_represent_as m deg (4 + f) kw (afinite a) XCart3 (vfinite (mkVel WCyl u)) (finite P)
  = Ok false (afinite (mkAcc XCart3 [0; 0; 0])).
Proof.
  intros m deg f kw P u a. split.
  - apply acc_means_iff; try (split; discriminate); auto. cbn. rewrite sin_0, cos_0. apply list3_eq; ring.
  - assert (O : off_axis P).
    { intros x y z D. cbn in D. rewrite cos_0, sin_0 in D. inversion D. lra. }
    destruct (acc_jac m deg f P a XCart3 [1*cos 0; 1*sin 0; 0]) as (a' & A1 & A2 & A3 & A4);
      try exact I; try reflexivity.
    { apply rep_ok_plain3; auto; cbn; try lra; auto. }
    rewrite A3; try exact I; try reflexivity. f_equal.
    destruct a' as [c x]; cbn in A1, A2, A4. subst c. do 2 f_equal.
    specialize (A4 P (PCart3 (1*cos 0) (1*sin 0) 0)). cbn in A4.
    destruct x as [|x [|y [|z [|]]]]; try discriminate A2.
    assert (E : [x;y;z] = [0 * cos 0 - 1 * sin 0 * 0; 0 * sin 0 + 1 * cos 0 * 0; 0]) by (apply A4; auto; lra).
    rewrite E. apply list3_eq; ring.
Qed.
Print Assumptions C22_circular_motion_is_wrong.
(** Prolate accelerations cannot be converted at all. *)
Theorem C22_prolate_raises : forall m deg f kw a t velocity position,
  xc a = XProlate \/ t = XProlate ->
  exists e, acc_represent_as m deg f kw a t velocity position = Raise e.
Proof. exact acc_prolate_raises. Qed.
Print Assumptions C22_prolate_raises.
Theorem C22_acceleration_is_jacobian_only_2d : forall m deg f P a t pt,
  valid P -> plain2 (cls_of P) -> denotes P pt -> pt <> [0; 0] ->
  plain2 (integral_cls (acc_integral_cls (xc a))) -> plain2 (integral_cls (acc_integral_cls t)) -> length (xcomps a) = 2%nat ->
  exists a', xc a' = t /\
    (forall kw velocity, plain2 (integral_cls (vc velocity)) -> length (vcomps velocity) = 2%nat ->
       acc_represent_as m deg (1 + f) kw (afinite a) t (vfinite velocity) (finite P) = Ok false (afinite a')) /\
    forall p q w, valid p -> valid q -> denotes p pt -> denotes q pt ->
      cls_of p = integral_cls (acc_integral_cls (xc a)) -> cls_of q = integral_cls (acc_integral_cls t) ->
      (moves p (xcomps a) w <-> moves q (xcomps a') w).
Proof.
  intros m deg f P a t pt V PP D O Pa Pt L.
  destruct (acc_jac2 m deg f P a t pt V PP D O Pa Pt L) as (a' & A1 & A2 & A3 & A4).
  exists a'. split; [exact A1|]. split; [exact A3|]. intros p q w Vp Vq Dp Dq Cp Cq.
  assert (X : forall c, plain2 c -> c <> CProlate /\ dim_of c = 2%nat) by (intros c; destruct c; cbn; try tauto; split; congruence).
  destruct (X _ Pa) as [X1 X2]. destruct (X _ Pt) as [X3 X4]. rewrite <- Cp in X1, X2. rewrite <- Cq in X3, X4.
  rewrite !moves_iff by congruence. rewrite (A4 p q); auto. tauto.
Qed.
Print Assumptions C22_acceleration_is_jacobian_only_2d.

(** ** C23 *)
(** [vel * t]: the position with coordinates [t * d_k] (azimuth reduced), if these
    are in range; an exception otherwise. *)
Theorem C23_velocity_times_time : forall v t p,
  vc v <> WLonCosLat -> with_coords (integral_cls (vc v)) (vscale t (vcomps v)) = Some p ->
  (valid p -> forall m, vel_mul_time m (vfinite v) (Some t) = Ok false (finite (wrap_azimuth p))) /\
  (~ valid p -> exists e, vel_mul_time Eager (vfinite v) (Some t) = Raise e).
Proof. exact vel_mul_time_ok. Qed.
Print Assumptions C23_velocity_times_time.
Theorem C23_finding_loncoslat_and_prolate_raise : forall m v t,
  vc v = WLonCosLat \/ vc v = WProlate -> vel_mul_time m v t = Raise EType.
Proof.
  intros m v t [E|E]; unfold vel_mul_time; rewrite E; [reflexivity|]. cbn [integral_cls].
  destruct (map _ _) as [|? [|? [|? [|]]]]; reflexivity.
Qed.
Print Assumptions C23_finding_loncoslat_and_prolate_raise.
Theorem C23_acceleration_times_time : forall (a : acc R) t,
  acc_mul_time (afinite a) (Some t) = vfinite (mkVel (acc_integral_cls (xc a)) (vscale t (xcomps a))) /\
  time_mul_acc (Some t) (afinite a) = acc_mul_time (afinite a) (Some t).
Proof. intros a t. split; [|reflexivity]. unfold acc_mul_time, vfinite. cbn [vc vcomps afinite xc xcomps]. now rewrite map_scale. Qed.
Print Assumptions C23_acceleration_times_time.
Theorem C23_acceleration_times_time_squared : forall a t2 p,
  with_coords (integral_cls (acc_integral_cls (xc a))) (vscale t2 (xcomps a)) = Some p ->
  (valid p -> forall m, acc_mul_time2 m (afinite a) (Some t2) = Ok false (finite (wrap_azimuth p)) /\
                        time2_mul_acc m (Some t2) (afinite a) = Ok false (finite (wrap_azimuth p))) /\
  (~ valid p -> exists e, acc_mul_time2 Eager (afinite a) (Some t2) = Raise e).
Proof.
  intros a t2 p H. destruct (acc_mul_time2_ok a t2 p H) as [A B]. split; auto.
  intros V m. split; [auto|]. unfold time2_mul_acc. auto.
Qed.
Print Assumptions C23_acceleration_times_time_squared.
(** (a * t) * t = a * t^2, exceptions included. *)
Theorem C23_times_twice : forall m (a : acc ext) t,
  vel_mul_time m (acc_mul_time a t) t = acc_mul_time2 m a (nmul t t).
Proof. exact acc_twice. Qed.
Print Assumptions C23_times_twice.
(** Free motion: [q + v * t] for Cartesian vectors is the point moved by [t v]. *)
Theorem C23_free_motion : forall m deg f pt (v : vel R) t,
  (length pt = 1 \/ length pt = 2 \/ length pt = 3)%nat -> length (vcomps v) = length pt ->
  vc v = differential_cls (cls_of (cart_pos pt)) ->
  (do d <- vel_mul_time m (vfinite v) (Some t); pos_add m deg (4 + f) (finite (cart_pos pt)) d)
  = Ok false (finite (cart_pos (vadd pt (vscale t (vcomps v))))).
Proof.
  intros m deg f pt v t Lp L E. destruct v as [c u]; cbn in E, L |- *. subst c.
  destruct pt as [|x [|y [|z [|]]]]; cbn in Lp; try lia; cbn in L;
  repeat (destruct u as [|? u]; cbn in L; try discriminate L); clear L Lp;
  unfold vel_mul_time, vfinite; cbn [vc vcomps differential_cls cls_of map integral_cls pos_from_components cart_pos];
  unfold mk_Cart1, mk_Cart2, mk_Cart3; unfold ret; rewrite bind_ok;
  unfold pos_add, finite; cbn [pos_map]; unfold cart_add, rep; change (4 + f)%nat with (S (3 + f)); step; cbn; unfold ret; rewrite ?(Rmult_comm t); reflexivity.
Qed.
Print Assumptions C23_free_motion.
Example C23_case : exists v t p, vc v <> WLonCosLat /\
  with_coords (integral_cls (vc v)) (vscale t (vcomps v)) = Some p /\ valid p /\
  exists t' p', with_coords (integral_cls (vc v)) (vscale t' (vcomps v)) = Some p' /\ ~ valid p'.
Proof.
  exists (mkVel WCyl [1;2;3]), 2. eexists. split; [discriminate|]. split; [reflexivity|]. split; [cbn; lra|].
  exists (-1). eexists. split; [reflexivity|]. cbn; lra.
Qed.

(** ** C24 *)
Theorem C24_position_classes : forall c, integral_cls (differential_cls c) = c.
Proof. destruct c; reflexivity. Qed.
Print Assumptions C24_position_classes.
Theorem C24_velocity_classes : forall c, c <> WLonCosLat ->
  differential_cls (integral_cls c) = c /\ acc_integral_cls (vel_differential_cls c) = c.
Proof. destruct c; intros H; try congruence; split; reflexivity. Qed.
Print Assumptions C24_velocity_classes.
Theorem C24_acceleration_classes : forall c, vel_differential_cls (acc_integral_cls c) = c.
Proof. destruct c; reflexivity. Qed.
Print Assumptions C24_acceleration_classes.
Theorem C24_loncoslat_exception :
  differential_cls (integral_cls WLonCosLat) = WLonLat /\ acc_integral_cls (vel_differential_cls WLonCosLat) = WLonLat.
Proof. split; reflexivity. Qed.
Print Assumptions C24_loncoslat_exception.
(** The chains keep the dimension. *)
Theorem C24_dimension : forall c v x, vdim (differential_cls c) = dim_of c /\
  vdim (acc_integral_cls (vel_differential_cls v)) = vdim v /\ dim_of (integral_cls (acc_integral_cls x)) = vdim (acc_integral_cls x).
Proof. intros c v x. destruct c, v, x; repeat split. Qed.
Print Assumptions C24_dimension.
