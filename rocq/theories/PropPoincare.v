(** * C40: Poincare polar vectors. *)
From Coq Require Import List Bool String Reals Lra.
From Verif Require Import Shapes ShapesThm Num Vectors Transform Space SpaceThm PropSpace Spec Pos3DThm PosGlue Vel SpecVel VelAt VelThm PropVel PropPos Poincare PropSpace2.
Import ListNotations.
Open Scope R_scope.

(** A Poincare vector with finite components *)
Definition ppfinite (rho a z drho b dz : R) : poincare := mkPP (Some rho) (Some a) (Some z) (Some drho) (Some b) (Some dz).

Lemma Rleb_t x y : x <= y -> Rleb x y = true. Proof. apply Rleb_true. Qed.
Lemma Rltb_f x y : y <= x -> Rltb x y = false. Proof. apply Rltb_false. Qed.
Lemma Reqb_f x y : x <> y -> Reqb x y = false. Proof. apply Reqb_false. Qed.

Section P.
Context (L : dimlib) (HL : dimlib_ok L) (dl ds : D L).
Context (Hl : dim_name L dl = "length"%string) (Hs : dim_name L ds = "speed"%string).
Notation to := (to_poincare L). Notation from := (from_poincare L).

Lemma to_cyl m deg f rho phi z a b c :
  to m deg (1 + f) (phase (PCyl rho phi z) (mkVel WCyl [a; b; c])) =
  ret (ppfinite rho (sqrt (Rabs (2 * (rho * rho) * b)) * cos phi) z a (sqrt (Rabs (2 * (rho * rho) * b)) * sin phi) c).
Proof.
  unfold to_poincare. unfold space_get, phase. cbn [dget String.eqb Ascii.eqb Bool.eqb]. rewrite bret.
  assert (E : represent_as (A:=ext) m deg (1 + f) nokw (finite (PCyl rho phi z)) CCyl = ret (finite (PCyl rho phi z))).
  { cbn. reflexivity. }
  rewrite E, !bret. cbn [vel_represent_as vc vfinite vcls_eqb negb andb]. rewrite bret. cbn.
  rewrite Rleb_t by apply Rabs_pos. reflexivity.
Qed.
Lemma from_ok m rho a z drho b dz : 0 < rho ->
  from m (ppfinite rho a z drho b dz) =
  ret (phase (PCyl rho (Rwrap (Ratan2 b a)) z) (mkVel WCyl [drho; (a * a + b * b) / 2 / (rho * rho); dz])).
Proof.
  intros H. unfold from_poincare. cbn [ppfinite pp_rho pp_phi pp_z pp_drho pp_dphi pp_dz].
  assert (E : mk_Cyl (A:=ext) m (Some rho) (AsQty (natan2 (Some b : ext) (Some a))) (Some z) = ret (finite (PCyl rho (Rwrap (Ratan2 b a)) z))).
  { unfold mk_Cyl, check_nonneg. cbn. destruct m; [|reflexivity]. rewrite Rltb_f by lra. reflexivity. }
  rewrite E, bret. cbn. rewrite (Reqb_f 2 0) by lra. cbn. rewrite Reqb_f by nra.
  apply (phase_mk L HL dl ds Hl Hs).
Qed.

Lemma theta_val rho b : 0 < rho ->
  let s := sqrt (Rabs (2 * (rho * rho) * b)) in s * s / 2 / (rho * rho) = Rabs b.
Proof.
  intros H s. unfold s. rewrite sqrt_sqrt by apply Rabs_pos. rewrite Rabs_mult.
  rewrite (Rabs_pos_eq (2 * (rho * rho))) by nra. field. lra.
Qed.

(** Cylindrical space -> Poincare -> space: rho, z and their rates are kept, d_phi
    comes back as its absolute value. *)
Theorem C40_round_trip : forall m m' deg f rho phi z a b c, 0 < rho -> 0 <= phi < 2 * PI -> b <> 0 ->
  exists w, to m deg (1 + f) (phase (PCyl rho phi z) (mkVel WCyl [a; b; c])) = ret w /\
    from m' w = ret (phase (PCyl rho phi z) (mkVel WCyl [a; Rabs b; c])).
Proof.
  intros m m' deg f rho phi z a b c Hr Hp Hb. eexists. split; [apply to_cyl|]. rewrite from_ok by auto.
  set (s := sqrt (Rabs (2 * (rho * rho) * b))).
  assert (Hs0 : 0 < s).
  { unfold s. apply sqrt_lt_R0. apply Rabs_pos_lt. intros E. apply Rmult_integral in E as [E|E]; [nra|auto]. }
  rewrite Ratan2_wrap_polar by auto.
  assert (E : (s * cos phi * (s * cos phi) + s * sin phi * (s * sin phi)) / 2 / (rho * rho) = Rabs b).
  { rewrite <- (theta_val rho b Hr). fold s. pose proof (sin2_cos2 phi) as T. unfold Rsqr in T.
    transitivity (s * s * (sin phi * sin phi + cos phi * cos phi) / 2 / (rho * rho)); [field; lra|rewrite T; field; lra]. }
  rewrite E. reflexivity.
Qed.
(** Refuted: without angular motion the azimuth is lost (set to 0). *)
Theorem C40_round_trip_no_rotation_refuted : forall m m' deg f rho phi z a c, 0 < rho ->
  exists w, to m deg (1 + f) (phase (PCyl rho phi z) (mkVel WCyl [a; 0; c])) = ret w /\
    from m' w = ret (phase (PCyl rho 0 z) (mkVel WCyl [a; 0; c])).
Proof.
  intros m m' deg f rho phi z a c Hr. eexists. split; [apply to_cyl|].
  rewrite Rmult_0_r, Rabs_R0, sqrt_0, !Rmult_0_l. rewrite from_ok by auto.
  assert (E : Ratan2 0 0 = 0).
  { unfold Ratan2. rewrite !(proj2 (Rltb_false 0 0)) by lra. reflexivity. }
  rewrite E. rewrite Rwrap_id by (pose proof PI_pos; lra). replace ((0 * 0 + 0 * 0) / 2 / (rho * rho)) with 0 by (field; lra). reflexivity.
Qed.
(** Refuted: opposite rotations have the same Poincare vector, so the direction of
    rotation is lost. *)
Theorem C40_sign_lost_refuted : forall m deg f rho phi z a b c,
  to m deg (1 + f) (phase (PCyl rho phi z) (mkVel WCyl [a; b; c])) =
  to m deg (1 + f) (phase (PCyl rho phi z) (mkVel WCyl [a; - b; c])).
Proof.
  intros. rewrite !to_cyl. replace (2 * (rho * rho) * - b) with (- (2 * (rho * rho) * b)) by ring. now rewrite Rabs_Ropp.
Qed.
(** The other way round nothing is lost: a Poincare vector off the axis is recovered
    exactly from its space. *)
Theorem C40_from_to : forall m m' deg f rho p z a p' c, 0 < rho ->
  exists s, from m (ppfinite rho p z a p' c) = ret s /\ to m' deg (1 + f) s = ret (ppfinite rho p z a p' c).
Proof.
  intros m m' deg f rho p z a p' c Hr. eexists. split; [now apply from_ok|]. rewrite to_cyl.
  rewrite cos_Rwrap, sin_Rwrap.
  assert (E : sqrt (Rabs (2 * (rho * rho) * ((p * p + p' * p') / 2 / (rho * rho)))) = sqrt (p * p + p' * p')).
  { f_equal. replace (2 * (rho * rho) * ((p * p + p' * p') / 2 / (rho * rho))) with (p * p + p' * p') by (field; lra).
    apply Rabs_pos_eq. nra. }
  rewrite E. destruct (Ratan2_polar p p') as [-> ->]. reflexivity.
Qed.
(** On the axis the angular rate is not a number. *)
Theorem C40_axis_nan : forall m p z a p' c,
  from m (ppfinite 0 p z a p' c) =
  ret [("length"%string, SP (finite (PCyl 0 (Rwrap (Ratan2 p' p)) z))); ("speed"%string, SV (mkVel WCyl [Some a; None; Some c]))].
Proof.
  intros m p z a p' c. unfold from_poincare. cbn [ppfinite pp_rho pp_phi pp_z pp_drho pp_dphi pp_dz].
  assert (E : mk_Cyl (A:=ext) m (Some 0) (AsQty (natan2 (Some p' : ext) (Some p))) (Some z) = ret (finite (PCyl 0 (Rwrap (Ratan2 p' p)) z))).
  { unfold mk_Cyl, check_nonneg. cbn. destruct m; [|reflexivity]. rewrite Rltb_f by lra. reflexivity. }
  rewrite E, bret. cbn. rewrite (Reqb_f 2 0) by lra. cbn. rewrite Rmult_0_l, (proj2 (Reqb_true 0 0)) by lra.
  apply (phase_mk L HL dl ds Hl Hs).
Qed.
(** A negative rho is refused (eagerly) on the way to a space. *)
Theorem C40_negative_rho_raises : forall rho p z a p' c, rho < 0 -> from Eager (ppfinite rho p z a p' c) = Raise ENegative.
Proof.
  intros rho p z a p' c H. unfold from_poincare. cbn [ppfinite pp_rho pp_phi pp_z pp_drho pp_dphi pp_dz].
  unfold mk_Cyl, check_nonneg. cbn. rewrite (proj2 (Rltb_true rho 0)) by lra. reflexivity.
Qed.

(** Any 3-D position and velocity: converting to Poincare goes through the cylindrical
    representation, and for a particle with positive angular rate the round trip is the
    conversion to cylindrical coordinates: it keeps the point and the velocity. *)
Lemma to_any m deg f P v pt : valid P -> plain3 (cls_of P) -> ~ negative_field P -> off_axis P -> denotes P pt ->
  vplain3 (vc v) -> List.length (vcomps v) = 3%nat ->
  exists Q u, space_represent_as L m deg (4 + f) (phase P v) CCyl = ret (phase Q u) /\
    to m deg (4 + f) (phase P v) = to m deg (4 + f) (phase Q u) /\
    cls_of Q = CCyl /\ valid Q /\ vc u = WCyl /\ List.length (vcomps u) = 3%nat /\ (forall x, denotes P x <-> denotes Q x) /\
    (integral_cls (vc v) = cls_of P -> forall w, vel_means P v w <-> vel_means Q u w) /\ (azimuth_in_range P -> azimuth_in_range Q).
Proof.
  intros VP PP NN O D Pv Lv.
  destruct (represent_as_plain3 m deg f nokw P CCyl VP PP I) as [(Q & E1 & CQ & VQ & DQ & AQ & _)|[(_ & _ & N)|(N & _)]]; [|contradiction|now destruct (off_axis_origin P O)].
  assert (RP := rep_ok_plain3 m deg f P VP PP NN O).
  assert (PC : vplain3 WCyl) by exact I.
  destruct (vel_plain3 m deg f nokw P v WCyl pt RP D Pv PC Lv) as (u & A1 & A2 & A3 & A4).
  assert (OQ : off_axis Q) by (eapply off_axis_pt; eauto).
  assert (DQ' : denotes Q pt) by now apply DQ.
  assert (PQ : plain3 (cls_of Q)) by now rewrite CQ.
  assert (NQ : ~ negative_field Q) by (destruct Q; try discriminate CQ; cbn; auto).
  assert (RQ := rep_ok_plain3 m deg f Q VQ PQ NQ OQ).
  (* the velocity converted at Q rather than P is the same *)
  assert (A1' : vel_represent_as m deg (4 + f) nokw (vfinite v) WCyl (finite Q) = Ok false (vfinite u)).
  { destruct (vel_plain3 m deg f nokw Q v WCyl pt RQ DQ' Pv PC Lv) as (u' & B1 & B2 & B3 & B4).
    assert (u' = u) as <-; auto.
    destruct (proj2 RP nokw (integral_cls (vc v)) Pv) as (p & _ & Cp & Vp & Ep).
    assert (Dp : denotes p pt) by now apply Ep.
    assert (CQ' : cls_of Q = integral_cls WCyl) by exact CQ.
    specialize (A4 p Q Vp VQ Dp DQ' Cp CQ'). specialize (B4 p Q Vp VQ Dp DQ' Cp CQ').
    assert (CQu : cls_of Q = integral_cls (vc u')) by (rewrite B2; exact CQ).
    apply (VelRound.uncos_inj Q u' u).
    - congruence.
    - exact CQu.
    - rewrite B2; exact PC.
    - exact OQ.
    - exact B3.
    - exact A3.
    - apply (VelRound.vel_at_inj Q); auto using VelRound.uncos_length. congruence. }
  exists Q, u. split; [now apply (phase_rep L HL dl ds Hl Hs)|]. split; [|split; auto; split; auto; split; auto; split; auto; split; auto; split; auto].
  - destruct Q as [| | | | | |rho phi z| | | |]; try discriminate CQ. destruct u as [cu lu]; cbn in A2; subst cu.
    destruct lu as [|x [|y [|t [|]]]]; try discriminate A3. change (4 + f)%nat with (1 + (3 + f))%nat at 2.
    rewrite to_cyl. change (1 + (3 + f))%nat with (4 + f)%nat.
    unfold to_poincare, space_get, phase. cbn [dget String.eqb Ascii.eqb Bool.eqb]. rewrite bret. rewrite E1.
    change (Ok false (finite (PCyl rho phi z))) with (ret (finite (PCyl rho phi z))). rewrite !bret. rewrite A1'.
    change (Ok false (vfinite (mkVel WCyl [x; y; t]))) with (ret (vfinite (mkVel WCyl [x; y; t]))). rewrite bret. cbn.
    rewrite Rleb_t by apply Rabs_pos. reflexivity.
  - intros IC w. destruct (C19_velocity_keeps_meaning_3d m deg f nokw P v WCyl pt VP PP NN O D Pv PC Lv) as (u' & B1 & B2 & B3).
    pose proof B1 as B0. assert (u' = u) as ->.
    { destruct u' as [c1 l1], u as [c2 l2]. cbn in A2, B2. subst c1 c2. f_equal.
      assert (BB : @map R ext (@Some R) l2 = @map R ext (@Some R) l1) by (rewrite A1 in B0; injection B0; auto).
      clear -BB. revert l2 BB. induction l1 as [|x l1 IH]; intros [|y l2] B; cbn in B; try discriminate; auto. injection B as -> B. f_equal; auto. }
    apply B3; auto.
Qed.
Theorem C40_round_trip_any : forall m m' deg f P v pt, valid P -> plain3 (cls_of P) -> ~ negative_field P -> off_axis P ->
  azimuth_in_range P -> denotes P pt -> integral_cls (vc v) = cls_of P -> List.length (vcomps v) = 3%nat ->
  exists w rho phi z a b c,
    to m deg (4 + f) (phase P v) = ret w /\
    denotes (PCyl rho phi z) pt /\
    (forall x, vel_means P v x <-> vel_means (PCyl rho phi z) (mkVel WCyl [a; b; c]) x) /\
    (0 < b -> from m' w = ret (phase (PCyl rho phi z) (mkVel WCyl [a; b; c]))) /\
    (b < 0 -> from m' w = ret (phase (PCyl rho phi z) (mkVel WCyl [a; - b; c]))).
Proof.
  intros m m' deg f P v pt VP PP NN O AZ D IC Lv.
  assert (Pv : vplain3 (vc v)) by (unfold vplain3; now rewrite IC).
  destruct (to_any m deg f P v pt VP PP NN O D Pv Lv) as (Q & u & E1 & E2 & CQ & VQ & Cu & Lu & DQ & MQ & AQ).
  destruct Q as [| | | | | |rho phi z| | | |]; try discriminate CQ. destruct u as [cu lu]; cbn in Cu; subst cu.
  destruct lu as [|a [|b [|c [|]]]]; try discriminate Lu.
  assert (Hr : 0 < rho).
  { cbn in VQ. destruct (Req_dec rho 0) as [->|]; [|lra]. exfalso.
    apply (O 0 0 z); [|ring]. apply DQ. cbn. f_equal; [ring|f_equal; ring]. }
  specialize (AQ AZ). unfold azimuth_in_range in AQ. cbn in AQ. change (4 + f)%nat with (1 + (3 + f))%nat in E2.
  change (4 + f)%nat with (1 + (3 + f))%nat.
  eexists. exists rho, phi, z, a, b, c. split; [rewrite E2; apply to_cyl|]. split; [now apply DQ|]. split; [now apply MQ|].
  assert (R : b <> 0 -> exists w, to m deg (1 + (3 + f)) (phase (PCyl rho phi z) (mkVel WCyl [a; b; c])) = ret w /\
    from m' w = ret (phase (PCyl rho phi z) (mkVel WCyl [a; Rabs b; c]))) by (intros; apply C40_round_trip; auto).
  split; intros Hb; destruct R as (w & W1 & W2); try lra; rewrite to_cyl in W1; injection W1 as <-; rewrite W2.
  - now rewrite Rabs_pos_eq by lra.
  - now rewrite Rabs_left by lra.
Qed.
End P.
(** Non-vacuity: the hypotheses on the table hold for astropy's, and a rotating
    spherical particle is covered. *)
Example C40_case : exists w, to_poincare astropy Eager true 4 (phase (PCyl 2 1 3) (mkVel WCyl [1; -5; 2])) = ret w /\
    from_poincare astropy Eager w = ret (phase (PCyl 2 1 3) (mkVel WCyl [1; 5; 2])).
Proof.
  destruct (C40_round_trip astropy astropy_ok ALength ASpeed eq_refl eq_refl Eager Eager true 3 2 1 3 1 (-5) 2) as (w & A & B); try lra.
  { pose proof PI2_3_2. lra. }
  exists w. split; auto. rewrite B. rewrite Rabs_left by lra. replace (- -5) with 5 by ring. reflexivity.
Qed.
Print Assumptions C40_round_trip.
Print Assumptions C40_round_trip_any.
Print Assumptions C40_from_to.
