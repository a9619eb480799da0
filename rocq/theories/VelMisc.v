(** * Velocities: LonCosLat, products with times, failing conversions. *)
From Coq Require Import Reals Bool List ZArith Lra Lia.
From Verif Require Import Num Vectors Spec Transform Pos3D Pos3DThm PosLow RoundTrip PosGlue Prolate ProlateThm Arith Vel SpecVel VelAt DualPos DualThm VelHom VelPush VelThm VelLow VelProlate VelProlate2 VelRound.
Import ListNotations.
Open Scope R_scope.

(** ** LonCosLat *)
Lemma lat_of_position m deg f P : valid P -> plain3 (cls_of P) -> ~ negative_field P -> ~ at_origin P ->
  exists lon lat d, latitude m deg (4 + f) (finite P) = Ok false (Some lat) /\ valid (PLonLat lon lat d) /\
    (forall pt, denotes P pt <-> denotes (PLonLat lon lat d) pt).
Proof.
  intros V PP NN O. unfold latitude.
  destruct (represent_as_plain3 m deg f nokw P CLonLat V PP I)
    as [(cp&H1&H2&H3&H4&_)|[(_&_&N)|(N&_)]]; [|contradiction|contradiction].
  destruct cp; try discriminate H2. exists lon, lat, d. split; [|auto]. rewrite H1, bind_ok. reflexivity.
Qed.
(** The latitude only depends on the point (off the origin). *)
Lemma lat_unique lon lat d lon' lat' d' pt : valid (PLonLat lon lat d) -> valid (PLonLat lon' lat' d') ->
  denotes (PLonLat lon lat d) pt -> denotes (PLonLat lon' lat' d') pt -> pt <> [0;0;0] -> lat = lat'.
Proof.
  intros [V1 V2] [V1' V2'] D D' O. cbn in D, D'. subst pt. apply list3_inj in D'. destruct D' as (E1 & E2 & E3).
  pose proof (len_nonneg _ V1) as L. pose proof (len_nonneg _ V1') as L'.
  pose proof (cs1 lon) as T. pose proof (cs1 lon') as T'. pose proof (cs1 lat) as U. pose proof (cs1 lat') as U'.
  assert (Q : (len d * cos lat)*(len d * cos lat) = (len d' * cos lat')*(len d' * cos lat')).
  { transitivity ((len d * cos lat)*(len d * cos lat)*(cos lon * cos lon + sin lon * sin lon)). rewrite T; ring.
    transitivity ((len d * cos lat * cos lon)*(len d * cos lat * cos lon) + (len d * cos lat * sin lon)*(len d * cos lat * sin lon)). ring.
    rewrite E1, E2. transitivity ((len d' * cos lat')*(len d' * cos lat')*(cos lon' * cos lon' + sin lon' * sin lon')). ring. rewrite T'; ring. }
  assert (QL : len d * len d = len d' * len d').
  { transitivity ((len d*cos lat)*(len d*cos lat) + (len d*sin lat)*(len d*sin lat)).
    transitivity (len d*len d*(cos lat*cos lat+sin lat*sin lat)). rewrite U; ring. ring.
    rewrite Q, E3. transitivity (len d'*len d'*(cos lat'*cos lat'+sin lat'*sin lat')). ring. rewrite U'; ring. }
  assert (EL : len d = len d') by nra.
  assert (N : len d <> 0). { intros Z. apply O. rewrite Z, !Rmult_0_l. reflexivity. }
  rewrite <- EL in E3. apply mul_inj in E3; auto.
  destruct (Rtotal_order lat lat') as [H|[H|H]]; auto; exfalso.
  - pose proof (sin_increasing_1 lat lat'). lra.
  - pose proof (sin_increasing_1 lat' lat). lra.
Qed.
Lemma lcl_forward m deg f kw P lon lat d a b c pt : valid P -> plain3 (cls_of P) -> ~ negative_field P ->
  denotes P pt -> pt <> [0;0;0] -> valid (PLonLat lon lat d) -> denotes (PLonLat lon lat d) pt ->
  vel_represent_as m deg (4 + f) kw (vfinite (mkVel WLonLat [a;b;c])) WLonCosLat (finite P)
  = Ok false (vfinite (mkVel WLonCosLat [a * cos lat; b; c])).
Proof.
  intros V PP NN D O V' D'.
  destruct (lat_of_position m deg f P V PP NN) as (lon1 & lat1 & d1 & H1 & H2 & H3).
  { intros H. apply O. unfold at_origin in H. apply denotes_cart_at in H, D; try (now apply plain3_not_prolate). congruence. }
  assert (lat1 = lat) as <- by (eapply lat_unique; eauto; now apply H3).
  cbn [vel_represent_as vfinite vc vcomps vcls_eqb andb negb vdim integral_cls dim_of Nat.eqb lonlat_to_lcl map].
  unfold lonlat_to_lcl. cbn [vcomps map]. rewrite H1, bind_ok. reflexivity.
Qed.
Lemma lcl_backward m deg f kw P lon lat d a b c pt : valid P -> plain3 (cls_of P) -> ~ negative_field P ->
  denotes P pt -> pt <> [0;0;0] -> valid (PLonLat lon lat d) -> denotes (PLonLat lon lat d) pt -> 
  vel_represent_as m deg (4 + f) kw (vfinite (mkVel WLonCosLat [a;b;c])) WLonLat (finite P)
  = Ok false (mkVel WLonLat [ndiv (Some a : ext) (Some (cos lat)); Some b; Some c]).
Proof.
  intros V PP NN D O V' D'.
  destruct (lat_of_position m deg f P V PP NN) as (lon1 & lat1 & d1 & H1 & H2 & H3).
  { intros H. apply O. unfold at_origin in H. apply denotes_cart_at in H, D; try (now apply plain3_not_prolate). congruence. }
  assert (lat1 = lat) as <- by (eapply lat_unique; eauto; now apply H3).
  cbn [vel_represent_as vfinite vc vcomps vcls_eqb andb negb vdim integral_cls dim_of Nat.eqb lcl_to_lonlat map].
  unfold lcl_to_lonlat. cbn [vcomps map]. rewrite H1, bind_ok. reflexivity.
Qed.

(** ** Products with times *)
Lemma Rltb_dec x y : {Rltb x y = true /\ x < y} + {Rltb x y = false /\ y <= x}.
Proof. destruct (Rltb x y) eqn:E; [left|right]; split; auto. now apply Rltb_true. apply Rltb_false in E. lra. Qed.
Lemma nonneg_eager x : check_nonneg (A:=ext) Eager (Some x) = if Rltb x 0 then Raise ENegative else ret tt.
Proof. reflexivity. Qed.
Lemma polar_eager l u x : check_polar (A:=ext) Eager (Some l) (Some u) (Some x) = if Rltb x l || Rltb u x then Raise EPolarRange else ret tt.
Proof. reflexivity. Qed.
Lemma from_components c x p : with_coords c x = Some p ->
  (valid p -> forall m, pos_from_components m c (map (@Some R) x) = Ok false (finite (wrap_azimuth p))) /\
  (~ valid p -> exists e, pos_from_components Eager c (map (@Some R) x) = Raise e).
Proof.
  intros H. destruct c; cbn in H; repeat (destruct x as [|? x]; cbn in H; try discriminate H);
  inversion H; subst; clear H; cbn [valid]; unfold valid_dist; cbn [dk dval map pos_from_components].
  all: split; intros V.
  all: try (exfalso; tauto). all: try (intros m; reflexivity).
  all: try (intros m; unfold mk_Radial, mk_Polar, mk_TwoSphere, mk_Cyl, mk_Sph, mk_MSph, mk_LonLat; cbv zeta; cbn [conv_r dval conv_az length_of_kind];
    change (nang 0 : ext) with (Some 0); change (nang PI : ext) with (Some PI);
    change (nneg (nang (PI/2)) : ext) with (Some (- (PI/2))); change (nang (PI/2) : ext) with (Some (PI/2));
    rewrite ?polar_ok by tauto; cbn [bind ret orb]; rewrite nonneg_ok by tauto; cbn [bind ret orb]; rewrite ?polar_ok by tauto; reflexivity).
  - (* Radial *) unfold mk_Radial. cbv zeta; cbn [conv_r dval length_of_kind]. rewrite nonneg_eager. destruct (Rltb_dec r 0) as [[-> ?]|[-> ?]]; [cbn; eauto|lra].
  - unfold mk_Polar. cbv zeta; cbn [conv_r dval length_of_kind]. rewrite nonneg_eager. destruct (Rltb_dec r 0) as [[-> ?]|[-> ?]]; [cbn; eauto|lra].
  - intros m. unfold mk_TwoSphere. change (nang 0 : ext) with (Some 0); change (nang PI : ext) with (Some PI). rewrite polar_ok by tauto. reflexivity.
  - unfold mk_TwoSphere. change (nang 0 : ext) with (Some 0); change (nang PI : ext) with (Some PI). rewrite polar_eager.
    destruct (Rltb_dec r 0) as [[-> ?]|[-> ?]]; [cbn; eauto|]. destruct (Rltb_dec PI r) as [[-> ?]|[-> ?]]; [cbn; eauto|tauto].
  - unfold mk_Cyl. rewrite nonneg_eager. destruct (Rltb_dec r 0) as [[-> ?]|[-> ?]]; [cbn; eauto|lra].
  - unfold mk_Sph. cbv zeta; cbn [conv_r dval length_of_kind]. change (nang 0 : ext) with (Some 0); change (nang PI : ext) with (Some PI).
    rewrite nonneg_eager, polar_eager. destruct (Rltb_dec r 0) as [[-> ?]|[-> ?]]; [cbn; eauto|].
    destruct (Rltb_dec r0 0) as [[-> ?]|[-> ?]]; [cbn; eauto|]. destruct (Rltb_dec PI r0) as [[-> ?]|[-> ?]]; [cbn; eauto|tauto].
  - unfold mk_MSph. cbv zeta; cbn [conv_r dval length_of_kind]. change (nang 0 : ext) with (Some 0); change (nang PI : ext) with (Some PI).
    rewrite nonneg_eager, polar_eager. destruct (Rltb_dec r 0) as [[-> ?]|[-> ?]]; [cbn; eauto|].
    destruct (Rltb_dec r1 0) as [[-> ?]|[-> ?]]; [cbn; eauto|]. destruct (Rltb_dec PI r1) as [[-> ?]|[-> ?]]; [cbn; eauto|tauto].
  - unfold mk_LonLat. cbv zeta; cbn [conv_r dval length_of_kind]. change (nneg (nang (PI/2)) : ext) with (Some (- (PI/2))); change (nang (PI/2) : ext) with (Some (PI/2)).
    rewrite nonneg_eager, polar_eager.
    destruct (Rltb_dec r0 (-(PI/2))) as [[-> ?]|[-> ?]]; [cbn; eauto|]. destruct (Rltb_dec (PI/2) r0) as [[-> ?]|[-> ?]]; [cbn; eauto|].
    destruct (Rltb_dec r1 0) as [[-> ?]|[-> ?]]; [cbn; eauto|tauto].
Qed.
Lemma map_scale (x : list R) (t : R) : map (fun y : ext => nmul y (Some t)) (map (@Some R) x) = map (@Some R) (vscale t x).
Proof. unfold vscale. rewrite !map_map. apply map_ext. intros y. cbn. f_equal. ring. Qed.
Lemma vel_mul_time_ok v t p : vc v <> WLonCosLat -> with_coords (integral_cls (vc v)) (vscale t (vcomps v)) = Some p ->
  (valid p -> forall m, vel_mul_time m (vfinite v) (Some t) = Ok false (finite (wrap_azimuth p))) /\
  (~ valid p -> exists e, vel_mul_time Eager (vfinite v) (Some t) = Raise e).
Proof.
  intros N H. destruct (from_components _ _ _ H) as [A B].
  assert (E : forall m, vel_mul_time m (vfinite v) (Some t) = pos_from_components m (integral_cls (vc v)) (map (@Some R) (vscale t (vcomps v)))).
  { intros m. unfold vel_mul_time. cbn [vc vfinite vcomps]. rewrite map_scale. destruct (vc v); try congruence; reflexivity. }
  split; intros V; [intros m|]; rewrite E; auto.
Qed.
Lemma acc_mul_time2_ok a t p : with_coords (integral_cls (acc_integral_cls (xc a))) (vscale t (xcomps a)) = Some p ->
  (valid p -> forall m, acc_mul_time2 m (afinite a) (Some t) = Ok false (finite (wrap_azimuth p))) /\
  (~ valid p -> exists e, acc_mul_time2 Eager (afinite a) (Some t) = Raise e).
Proof.
  intros H. destruct (from_components _ _ _ H) as [A B].
  assert (E : forall m, acc_mul_time2 m (afinite a) (Some t) = pos_from_components m (integral_cls (acc_integral_cls (xc a))) (map (@Some R) (vscale t (xcomps a)))).
  { intros m. unfold acc_mul_time2. cbn [xc afinite xcomps]. now rewrite map_scale. }
  split; intros V; [intros m|]; rewrite E; auto.
Qed.
Lemma acc_twice m (a : acc ext) t : vel_mul_time m (acc_mul_time a t) t = acc_mul_time2 m a (nmul t t).
Proof.
  unfold vel_mul_time, acc_mul_time, acc_mul_time2. cbn [vc vcomps]. rewrite map_map.
  assert (E : map (fun x => nmul (nmul x t) t) (xcomps a) = map (fun x => nmul x (nmul t t)) (xcomps a)).
  { apply map_ext. intros x. destruct x, t; try reflexivity. cbn. f_equal. ring. }
  destruct (xc a); cbn [acc_integral_cls]; rewrite E; reflexivity.
Qed.

(** ** Conversions that fail *)
Lemma lcl_to_prolate_raises m deg f kw v P pt : rep_ok m deg (4 + f) P -> denotes P pt ->
  vc v = WLonCosLat -> length (vcomps v) = 3%nat ->
  vel_represent_as m deg (4 + f) kw (vfinite v) WProlate (finite P) = Raise EMissingDelta.
Proof.
  intros H D E L. destruct (vel_plain3 m deg f kw P v WLonLat pt) as (v' & A1 & A2 & A3 & A4); auto; try (rewrite E; exact I); try exact I.
  unfold vel_represent_as in *. cbn [vc vfinite] in *. rewrite E in *.
  cbn [vcls_eqb andb negb vdim integral_cls dim_of Nat.eqb] in *. 
  rewrite A1, bind_ok. unfold vel_generic. cbn [vc vfinite]. rewrite A2. cbn [integral_cls].
  destruct (proj2 H nokw CLonLat I) as (cp & H1 & H2 & H3 & H4). rewrite H1, bind_ok.
  rewrite (cast_ok m cp H3) by (rewrite H2; discriminate). rewrite bind_ok.
  unfold jacobian. rewrite components_finite, uncast_cls, H2. cbn [dim_of seq mapM].
  unfold jac_column at 1. rewrite components_finite, uncast_cls, H2. cbn [dim_of].
  assert (Cu : cls_of (uncast cp) = CLonLat) by now rewrite uncast_cls.
  assert (Hc : represent_as Traced deg (4+f) (kw_map dconst nokw) (seed (finite (uncast cp)) (basis 3 0)) CProlate = Raise EMissingDelta).
  { destruct (uncast cp); try discriminate Cu. cbn [plus]. dstep. reflexivity. }
  rewrite Hc. reflexivity.
Qed.
Lemma prolate_to_lcl_raises m deg f kw v (P : pos ext) : vc v = WProlate ->
  dim_of (cls_of P) = 3%nat -> cls_of P <> CProlate ->
  vel_represent_as m deg (S f) kw v WLonCosLat P = Raise EMissingDelta.
Proof.
  intros E D N. unfold vel_represent_as. rewrite E. cbn [vcls_eqb andb negb vdim integral_cls dim_of Nat.eqb].
  unfold vel_generic. rewrite E. cbn [integral_cls].
  rewrite (prolate_needs_Delta m deg f nokw P) by auto. reflexivity.
Qed.

(** A prolate velocity cannot be converted. *)
Lemma prolate_generic_raises m deg f kw v t P : vc v = WProlate -> exists e, vel_generic m deg f kw v t P = Raise e.
Proof.
  intros E. unfold vel_generic. rewrite E. cbn [integral_cls can_map].
  destruct (represent_as _ _ _ _ _ _) as [w x|e]; [|cbn; eauto]. cbn [bind].
  destruct (cast_distance m x) as [w2 x2|e]; cbn; eauto.
Qed.
Lemma prolate_vel_raises m deg f kw v t P : vc v = WProlate -> t <> WProlate ->
  exists e, vel_represent_as m deg f kw v t P = Raise e.
Proof.
  intros E N. unfold vel_represent_as. rewrite E.
  destruct t; try congruence; cbn [vcls_eqb andb negb vdim integral_cls dim_of Nat.eqb]; eauto using prolate_generic_raises.
  destruct (prolate_generic_raises m deg f nokw v WLonLat P E) as (e & ->). cbn. eauto.
Qed.
Lemma prolate_vel_q_raises m deg f kw v t x : vc v = WProlate ->
  exists e, vel_represent_as_q m deg f kw v t x = Raise e.
Proof.
  intros E. unfold vel_represent_as_q. rewrite E.
  destruct t; cbn [negb vdim integral_cls dim_of Nat.eqb]; eauto;
  (destruct (cart_of_array _ x) as [w p|e]; cbn [bind]; [|eauto]).
  all: try (match goal with |- context[vel_generic _ _ _ _ _ ?t ?p] => destruct (prolate_generic_raises m deg f kw v t p E) as (e & ->) end; cbn; eauto).
  destruct (prolate_vel_raises m deg f nokw v WLonLat p E) as (e & ->); [discriminate|]. cbn. eauto.
Qed.
Lemma prolate_norm_raises deg f v P : vc v = WProlate -> exists e, vel_norm deg f v P = Raise e.
Proof.
  intros E. unfold vel_norm. destruct (prolate_vel_raises Traced deg f nokw v (vcart_cls (vc v)) P E) as (e & ->).
  rewrite E; discriminate. cbn; eauto.
Qed.
