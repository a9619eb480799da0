(** * Change of representation of velocities: 3-D classes without attribute. *)
From Coq Require Import Reals Bool List ZArith Lra Lia.
From Verif Require Import Num Vectors Spec Transform Pos3D Pos3DThm RoundTrip PosGlue Vel SpecVel VelAt DualPos DualThm VelHom VelPush.
Import ListNotations.
Open Scope R_scope.

(** ** Canonical coordinates *)
Definition canon (p : pos R) : pos R :=
  match p with
  | PCyl a b c => PCyl a (Rwrap b) c
  | PSph r a b => PSph (mkDist KDistance (len r)) a (Rwrap b)
  | PMSph r a b => PMSph (mkDist KDistance (len r)) (Rwrap a) b
  | PLonLat a b d => PLonLat (Rwrap a) b (mkDist KDistance (len d))
  | p => p
  end.
Lemma canon_cls p : cls_of (canon p) = cls_of p. Proof. destruct p; reflexivity. Qed.
Lemma canon_vel p u : vel_at (canon p) u = vel_at p u.
Proof.
  destruct p; auto; destruct u as [|a [|b [|c [|]]]]; auto; cbn; unfold len; cbn [dk dval];
  rewrite ?cos_Rwrap, ?sin_Rwrap; reflexivity.
Qed.
Lemma canon_pt p pt : plain3 (cls_of p) -> (denotes (canon p) pt <-> denotes p pt).
Proof.
  destruct p; cbn; try tauto; intros _; rewrite ?cos_Rwrap, ?sin_Rwrap; unfold len; cbn [dk dval]; tauto.
Qed.
Lemma canon_valid p : plain3 (cls_of p) -> valid p -> valid (canon p).
Proof.
  destruct p; cbn; try tauto; intros _ [H1 H2]; (split; [apply (len_nonneg _ H1)|auto]).
Qed.
Lemma canon_az p : plain3 (cls_of p) -> azimuth_in_range (canon p).
Proof. destruct p; cbn; try tauto; intros _; unfold azimuth_in_range; cbn; try exact I; apply Rwrap_range. Qed.
Lemma canon_len p : plain3 (cls_of p) -> length_radial (canon p).
Proof. destruct p; cbn; tauto. Qed.

Lemma vel_at_same p p' pt u : plain3 (cls_of p) -> cls_of p' = cls_of p -> valid p -> valid p' ->
  off_axis p -> denotes p pt -> denotes p' pt -> vel_at p u = vel_at p' u.
Proof.
  intros P C V V' O D D'. rewrite <- (canon_vel p), <- (canon_vel p'). f_equal.
  assert (P' : plain3 (cls_of p')) by now rewrite C.
  eapply coords_unique with (pt := pt); rewrite ?canon_cls; auto using canon_valid, canon_az, canon_len.
  - intros x y z. rewrite canon_pt by auto. apply O.
  - now apply canon_pt.
  - now apply canon_pt.
Qed.
Lemma lat_same lon lat d lon' lat' d' pt : valid (PLonLat lon lat d) -> valid (PLonLat lon' lat' d') ->
  off_axis (PLonLat lon lat d) -> denotes (PLonLat lon lat d) pt -> denotes (PLonLat lon' lat' d') pt -> lat = lat'.
Proof.
  intros V V' O D D'.
  assert (E : canon (PLonLat lon lat d) = canon (PLonLat lon' lat' d')).
  { eapply coords_unique with (pt := pt); rewrite ?canon_cls; auto using canon_valid, canon_az, canon_len; try reflexivity; try exact I.
    - apply canon_valid; auto. exact I. - apply canon_valid; auto. exact I.
    - apply canon_az; exact I. - apply canon_az; exact I.
    - intros x y z. rewrite canon_pt by exact I. apply O.
    - now apply canon_pt. - now apply canon_pt. }
  now inversion E.
Qed.

(** ** [replace(pos, r=pos.r.distance)] *)
Definition uncast (p : pos R) : pos R :=
  match p with
  | PRadial r => PRadial (mkDist KDistance (len r))
  | PPolar r b => PPolar (mkDist KDistance (len r)) b
  | PSph r a b => PSph (mkDist KDistance (len r)) a b
  | PMSph r a b => PMSph (mkDist KDistance (len r)) a b
  | PLonLat a b d => PLonLat a b (mkDist KDistance (len d))
  | p => p
  end.
Lemma cast_ok m p : valid p -> cls_of p <> CProlate -> cast_distance m (finite p) = Ok false (finite (uncast p)).
Proof.
  intros V NP. destruct p; cbn in V; cbn in NP; try congruence; try reflexivity; cbn [cast_distance finite pos_map uncast];
  unfold dist_cast, mk_Radial, mk_Polar, mk_Sph, mk_MSph, mk_LonLat; cbv zeta; cbn [conv_r dval conv_az].
  - destruct (mlen_valid r V) as [E P]. unfold mlen in E. rewrite E, nonneg_ok by auto. reflexivity.
  - destruct (mlen_valid r V) as [E P]. unfold mlen in E. rewrite E, nonneg_ok by auto. reflexivity.
  - destruct V as [V V']. destruct (mlen_valid r V) as [E P]. unfold mlen in E. rewrite E, nonneg_ok by auto.
    cbn [bind ret]. change (nang 0 : ext) with (Some 0). change (nang PI : ext) with (Some PI).
    rewrite polar_ok by auto. reflexivity.
  - destruct V as [V V']. destruct (mlen_valid r V) as [E P]. unfold mlen in E. rewrite E, nonneg_ok by auto.
    cbn [bind ret]. change (nang 0 : ext) with (Some 0). change (nang PI : ext) with (Some PI).
    rewrite polar_ok by auto. reflexivity.
  - destruct V as [V V']. destruct (mlen_valid d V) as [E P]. unfold mlen in E. rewrite E.
    rewrite mpi2. change (nang (PI/2) : ext) with (Some (PI/2)). rewrite polar_ok by auto.
    cbn [bind ret]. rewrite nonneg_ok by auto. reflexivity.
Qed.
Lemma uncast_cls p : cls_of (uncast p) = cls_of p. Proof. destruct p; reflexivity. Qed.
Lemma uncast_valid p : valid p -> valid (uncast p).
Proof.
  destruct p; cbn; auto; intros H;
  first [exact (len_nonneg _ H) | destruct H as [H1 H2]; split; [exact (len_nonneg _ H1)|auto] | exact H].
Qed.
Lemma uncast_pt p pt : denotes (uncast p) pt <-> denotes p pt.
Proof. destruct p; cbn; try tauto; unfold len; cbn [dk dval]; tauto. Qed.
Lemma uncast_len p : length_radial (uncast p). Proof. destruct p; cbn; auto. Qed.
Lemma uncast_vel p u : vel_at (uncast p) u = vel_at p u.
Proof. destruct p; auto; destruct u as [|a [|b [|c [|]]]]; auto. Qed.
Lemma off_axis_pt p q : (forall pt, denotes p pt <-> denotes q pt) -> off_axis p -> off_axis q.
Proof. intros H O x y z D. apply (O x y z). now apply H. Qed.
Lemma off_axis_origin p : off_axis p -> ~ at_origin p.
Proof. intros O H. apply (O _ _ _ H). ring. Qed.

(** The position converts to every class without attribute. *)
Definition rep_ok (m : mode) (deg : bool) (fuel : nat) (P : pos R) : Prop :=
  off_axis P /\
  forall (kw : kwargs ext) t, plain3 t -> exists q, represent_as m deg fuel kw (finite P) t = Ok false (finite q) /\
    cls_of q = t /\ valid q /\ (forall pt, denotes P pt <-> denotes q pt).
Lemma rep_ok_plain3 m deg f P : valid P -> plain3 (cls_of P) -> ~ negative_field P -> off_axis P ->
  rep_ok m deg (4 + f) P.
Proof.
  intros V PP NN O. split; auto. intros kw t Pt.
  destruct (represent_as_plain3 m deg f kw P t V PP Pt)
    as [(cp&H1&H2&H3&H4&_)|[(_&_&N)|(N&_)]]; [|contradiction|now destruct (off_axis_origin P O)].
  eauto 10.
Qed.

(** ** The generic overload *)
Lemma generic_plain3 m deg f kw P v t :
  rep_ok m deg (4 + f) P ->
  vplain3 (vc v) -> vplain3 t -> length (vcomps v) = 3%nat ->
  exists p q v', vel_generic m deg (4 + f) kw (vfinite v) t (finite P) = Ok false (vfinite (mkVel t v')) /\
    length v' = 3%nat /\ cls_of p = integral_cls (vc v) /\ cls_of q = integral_cls t /\
    valid p /\ valid q /\ (forall pt, denotes P pt <-> denotes p pt) /\ (forall pt, denotes P pt <-> denotes q pt) /\
    vel_at q v' = vel_at p (vcomps v).
Proof.
  intros [O HP] Pv Pt Lv.
  destruct (HP kw (integral_cls (vc v)) Pv) as (cp&H1&H2&H3&H4).
  set (p := uncast cp).
  assert (Vp : valid p) by now apply uncast_valid.
  assert (Cp : cls_of p = integral_cls (vc v)) by (unfold p; now rewrite uncast_cls).
  assert (Ep : forall pt, denotes P pt <-> denotes p pt) by (intros pt; unfold p; now rewrite uncast_pt, H4).
  assert (Op : off_axis p) by (eapply off_axis_pt; eauto).
  assert (P3 : plain3 (cls_of p)) by now rewrite Cp.
  destruct (rep3_total Traced deg f kw p (integral_cls t)) as (q & K1 & K2 & K3 & K4 & _);
    auto; [apply uncast_len|now apply off_axis_origin|].
  destruct (jac_push deg (4+f) kw p q (integral_cls t) 3 (vel_at p) vel_at) with (v := vcomps v)
    as (cols & v' & J1 & J2 & J3 & J4); auto.
  - rewrite Cp. unfold vplain3 in Pv, Pt. destruct (integral_cls (vc v)); cbn in Pv; try contradiction;
    destruct (integral_cls t); cbn in Pt; try contradiction; reflexivity.
  - intros u Lu. assert (Lu3 : length u = 3%nat).
    { rewrite Lu, Cp. unfold vplain3 in Pv. destruct (integral_cls (vc v)); cbn in Pv; try contradiction; reflexivity. }
    destruct (represent_as_dual deg f (kw_map dconst kw) p u (integral_cls t)) as (q' & u' & R1 & R2 & R3 & R4 & R5 & R6 & R7);
      auto using uncast_len. { apply uncast_len. }
    exists q', u'. rewrite R5, Lu3 in *. auto.
  - assert (E : pt_dim p = 3%nat) by (destruct p; cbn in P3; try contradiction; reflexivity).
    rewrite <- E. apply vel_at_linear. now apply plain3_not_prolate.
  - assert (P3q : plain3 (cls_of q)) by now rewrite K2.
    assert (E : pt_dim q = 3%nat) by (destruct q; cbn in P3q; try contradiction; reflexivity).
    assert (E' : dim_of (cls_of p) = dim_of (cls_of q)).
    { destruct p; cbn in P3; try contradiction; destruct q; cbn in P3q; try contradiction; reflexivity. }
    rewrite <- E, E'. apply vel_at_linear. now apply plain3_not_prolate.
  - rewrite Lv. destruct p; cbn in P3; try contradiction; reflexivity.
  - exists p, q, v'. 
    assert (N3 : dim_of (cls_of p) = 3%nat) by (destruct p; cbn in P3; try contradiction; reflexivity).
    rewrite N3 in *.
    split; [|split; [auto|split; [auto|split; [auto|split; [auto|split; [auto|split; [auto|split; [|auto]]]]]]]].
    + unfold vel_generic. cbn [vc vfinite]. rewrite H1, bind_ok.
      assert (N : cls_of cp <> CProlate) by (rewrite H2; apply plain3_not_prolate; auto).
      rewrite (cast_ok m cp H3 N), bind_ok. rewrite H2 in N. rewrite (can_map_ok _ N), bind_ok. fold p. rewrite J1, bind_ok. unfold ret, vfinite. cbn [vc vcomps].
      f_equal. f_equal. replace (vdim t) with 3%nat. exact J2.
      unfold vdim, vplain3 in *. destruct (integral_cls t); cbn in Pt; try contradiction; reflexivity.
    + intros pt. now rewrite Ep, K4.
Qed.

(** ** Meaning *)
Lemma means_plain p v w : vc v <> WLonCosLat -> vc v <> WProlate -> cls_of p = integral_cls (vc v) ->
  length (vcomps v) = vdim (vc v) -> (vel_means p v w <-> w = vel_at p (vcomps v)).
Proof.
  intros N1 N2 C L. assert (cls_of p <> CProlate) by (rewrite C; destruct (vc v); cbn; congruence).
  rewrite <- moves_iff by (auto; unfold vdim in L; congruence).
  unfold vel_means. destruct (vc v); try congruence; tauto.
Qed.
Lemma means_lcl lon lat d a b c w : cos lat <> 0 ->
  (vel_means (PLonLat lon lat d) (mkVel WLonCosLat [a;b;c]) w
   <-> w = vel_at (PLonLat lon lat d) [a / cos lat; b; c]).
Proof.
  intros N. unfold vel_means; cbn [vc vcomps integral_cls cls_of]. 
  rewrite <- moves_iff by (cbn; congruence). split.
  - intros (_ & _ & dl & E & M). replace (a / cos lat) with dl. auto. rewrite E. field. auto.
  - intros M. split; auto. split; auto. exists (a / cos lat). split; auto. field. auto.
Qed.

(** Cartesian velocity of [v] at [p], in closed form (LonCosLat included) *)
Definition uncos (p : pos R) (v : vel R) : list R :=
  match vc v, p, vcomps v with
  | WLonCosLat, PLonLat _ lat _, [a;b;c] => [a / cos lat; b; c]
  | _, _, u => u
  end.
Lemma lat_cos_ne0 lon lat d : off_axis (PLonLat lon lat d) -> cos lat <> 0.
Proof. intros O E. apply (O _ _ _ eq_refl). rewrite E. ring. Qed.
Lemma means_iff p v w : vplain3 (vc v) -> cls_of p = integral_cls (vc v) -> off_axis p ->
  length (vcomps v) = 3%nat -> (vel_means p v w <-> w = vel_at p (uncos p v)).
Proof.
  intros P C O L. destruct (vcls_eqb (vc v) WLonCosLat) eqn:E.
  - destruct v as [c x]; cbn in *. destruct c; try discriminate E. 
    destruct p; cbn in C; try discriminate C. destruct x as [|a0 [|b0 [|c0 [|]]]]; try discriminate L.
    apply means_lcl. eapply lat_cos_ne0; eauto.
  - unfold uncos. destruct v as [c x]; cbn in *.
    rewrite means_plain; cbn; auto; destruct c; cbn in *; try discriminate; try tauto; try congruence.
Qed.

Lemma latitude_ok m deg f P : rep_ok m deg (4 + f) P ->
  exists lon lat d, latitude m deg (4 + f) (finite P) = Ok false (Some lat) /\ valid (PLonLat lon lat d) /\
    (forall pt, denotes P pt <-> denotes (PLonLat lon lat d) pt).
Proof.
  intros [O HP]. unfold latitude.
  destruct (HP nokw CLonLat I) as (cp&H1&H2&H3&H4).
  destruct cp; try discriminate H2. exists lon, lat, d. split; [|auto].
  rewrite H1, bind_ok. reflexivity.
Qed.

Lemma generic_means m deg f kw P v t pt :
  rep_ok m deg (4 + f) P -> denotes P pt ->
  vplain3 (vc v) -> vplain3 t -> vc v <> WLonCosLat -> t <> WLonCosLat -> length (vcomps v) = 3%nat ->
  exists v', vel_generic m deg (4 + f) kw (vfinite v) t (finite P) = Ok false (vfinite v') /\
    vc v' = t /\ length (vcomps v') = 3%nat /\
    forall p q, valid p -> valid q -> denotes p pt -> denotes q pt ->
      cls_of p = integral_cls (vc v) -> cls_of q = integral_cls t ->
      vel_at q (vcomps v') = vel_at p (vcomps v).
Proof.
  intros HP D Pv Pt N1 N2 L. assert (O := proj1 HP).
  destruct (generic_plain3 m deg f kw P v t) as (p0 & q0 & v' & H1 & H2 & H3 & H4 & H5 & H6 & H7 & H8 & H9); auto.
  exists (mkVel t v'). split; [auto|]. split; [auto|]. split; [auto|]. cbn [vcomps].
  intros p q Vp Vq Dp Dq Cp Cq.
  assert (Op0 : off_axis p0) by (eapply off_axis_pt; eauto).
  assert (Oq0 : off_axis q0) by (eapply off_axis_pt; eauto).
  rewrite <- (vel_at_same q0 q pt), <- (vel_at_same p0 p pt); auto; try congruence; try (now apply H7); try (now apply H8);
  unfold vplain3 in *; congruence.
Qed.

Theorem vel_plain3 m deg f kw P v t pt :
  rep_ok m deg (4 + f) P -> denotes P pt ->
  vplain3 (vc v) -> vplain3 t -> length (vcomps v) = 3%nat ->
  exists v', vel_represent_as m deg (4 + f) kw (vfinite v) t (finite P) = Ok false (vfinite v') /\
    vc v' = t /\ length (vcomps v') = 3%nat /\
    forall p q, valid p -> valid q -> denotes p pt -> denotes q pt ->
      cls_of p = integral_cls (vc v) -> cls_of q = integral_cls t ->
      vel_at q (uncos q v') = vel_at p (uncos p v).
Proof.
  intros HP D Pv Pt L. assert (O := proj1 HP).
  assert (OA : forall p, valid p -> denotes p pt -> cls_of p <> CProlate -> off_axis p).
  { intros p Vp Dp Np x y z Dx. apply denotes_cart_at in Dp, Dx; auto. apply (O x y z). rewrite Dx, <- Dp. exact D. }
  destruct (latitude_ok m deg f P HP) as (lon & lat & d & La & Vla & Ela).
  assert (Dla : denotes (PLonLat lon lat d) pt) by now apply Ela.
  assert (Ola : off_axis (PLonLat lon lat d)) by (eapply off_axis_pt; eauto).
  assert (Cla := lat_cos_ne0 _ _ _ Ola).
  assert (LatE : forall lon' lat' d', valid (PLonLat lon' lat' d') -> denotes (PLonLat lon' lat' d') pt -> lat' = lat).
  { intros lon' lat' d' V' D'. symmetry. eapply lat_same; eauto. }
  unfold vel_represent_as. cbn [vc vfinite].
  destruct (vcls_eqb (vc v) t) eqn:Eself.
  { assert (vc v = t) as Et by (destruct (vc v), t; try discriminate Eself; reflexivity). subst t.
    exists v. split; [|split; [auto|split; [auto|]]].
    - unfold vplain3 in Pt. destruct (vc v); cbn in Pt; try contradiction; reflexivity.
    - intros p q Vp Vq Dp Dq Cp Cq.
      assert (N : plain3 (cls_of p)) by (rewrite Cp; exact Pv).
      assert (Op : off_axis p) by (apply OA; auto using plain3_not_prolate).
      rewrite (vel_at_same p q pt (uncos p v)); auto; try congruence. f_equal.
      unfold uncos. destruct (vc v) eqn:Ev; auto.
      destruct p; cbn in Cp; try discriminate Cp. destruct q; cbn in Cq; try discriminate Cq.
      assert (lat0 = lat1) as -> by (transitivity lat; [|symmetry]; eapply LatE; eauto). reflexivity. }
  assert (Hdim : Nat.eqb (vdim (vc v)) (vdim t) = true).
  { unfold vdim, vplain3 in *. destruct (integral_cls (vc v)); cbn in Pv; try contradiction;
    destruct (integral_cls t); cbn in Pt; try contradiction; reflexivity. }
  rewrite Hdim. cbn [andb negb]. clear Hdim.
  destruct (vcls_eqb (vc v) WLonCosLat) eqn:Esrc.
  - (* LonCosLat source *)
    destruct v as [cv xs]; cbn [vc vcomps] in *. destruct cv; try discriminate Esrc.
    destruct xs as [|a [|b [|c [|]]]]; try discriminate L.
    assert (Hll : lcl_to_lonlat m deg (4 + f) (vfinite (mkVel WLonCosLat [a;b;c])) (finite P)
      = Ok false (vfinite (mkVel WLonLat [a / cos lat; b; c]))).
    { unfold lcl_to_lonlat. cbn [vfinite vcomps map]. rewrite La, bind_ok.
      unfold vfinite. cbn [vc vcomps map]. cbn [ncos Num_ext lift1]. rewrite ediv_some by auto. reflexivity. }
    assert (Hun : forall p, valid p -> denotes p pt -> cls_of p = CLonLat ->
      uncos p (mkVel WLonCosLat [a;b;c]) = [a / cos lat; b; c]).
    { intros p Vp Dp Cp. destruct p; try discriminate Cp. unfold uncos; cbn [vc vcomps].
      rewrite (LatE _ _ _ Vp Dp). reflexivity. }
    destruct (vcls_eqb t WLonLat) eqn:Et.
    + destruct t; try discriminate Et. rewrite Hll.
      exists (mkVel WLonLat [a / cos lat; b; c]). split; [auto|]. split; [auto|]. split; [auto|].
      intros p q Vp Vq Dp Dq Cp Cq. rewrite (Hun p) by auto. unfold uncos at 1; cbn [vc vcomps].
      assert (N : plain3 (cls_of q)) by (rewrite Cq; exact I).
      apply (vel_at_same q p pt); auto; try (cbn in *; congruence).
      apply OA; auto. now apply plain3_not_prolate.
    + destruct (generic_means m deg f nokw P (mkVel WLonLat [a / cos lat; b; c]) t pt) as (v' & G1 & G2 & G3 & G4); auto.
      { cbn; congruence. } { destruct t; try discriminate Eself; congruence. }
      exists v'. split; [|split; [auto|split; [auto|]]].
      * rewrite Hll, bind_ok, G1. destruct t; try discriminate Eself; try discriminate Et; reflexivity.
      * intros p q Vp Vq Dp Dq Cp Cq. rewrite (Hun p) by auto.
        change [a / cos lat; b; c] with (vcomps (mkVel WLonLat [a / cos lat; b; c])).
        rewrite <- (G4 p q); auto. f_equal. unfold uncos. rewrite G2. destruct t; try discriminate Eself; reflexivity.
  - assert (Nv : vc v <> WLonCosLat) by (intros E; rewrite E in Esrc; discriminate).
    assert (Uv : forall p, uncos p v = vcomps v) by (intros p; unfold uncos; destruct (vc v); congruence).
    destruct (vcls_eqb t WLonCosLat) eqn:Et.
    + destruct t; try discriminate Et.
      (* target LonCosLat *)
      assert (Hlcl : forall a b c, lonlat_to_lcl m deg (4 + f) (vfinite (mkVel WLonLat [a;b;c])) (finite P)
         = Ok false (vfinite (mkVel WLonCosLat [a * cos lat; b; c]))).
      { intros a b c. unfold lonlat_to_lcl. cbn [vfinite vcomps map]. rewrite La, bind_ok. reflexivity. }
      assert (Hun : forall a b c q, valid q -> denotes q pt -> cls_of q = CLonLat ->
         uncos q (mkVel WLonCosLat [a * cos lat; b; c]) = [a; b; c]).
      { intros a b c q Vq Dq Cq. destruct q; try discriminate Cq. unfold uncos; cbn [vc vcomps].
        rewrite (LatE _ _ _ Vq Dq). f_equal. field. auto. }
      destruct (vcls_eqb (vc v) WLonLat) eqn:E3.
      * destruct v as [cv xs]; cbn [vc vcomps] in *. destruct cv; try discriminate E3.
        destruct xs as [|a [|b [|c [|]]]]; try discriminate L.
        exists (mkVel WLonCosLat [a * cos lat; b; c]). rewrite Hlcl. split; [auto|]. split; [auto|]. split; [auto|].
        intros p q Vp Vq Dp Dq Cp Cq. rewrite Hun, Uv by auto.
        assert (N : plain3 (cls_of q)) by (rewrite Cq; exact I).
        apply (vel_at_same q p pt); auto; try (cbn in *; congruence). apply OA; auto. now apply plain3_not_prolate.
      * destruct (generic_means m deg f nokw P v WLonLat pt) as (v' & G1 & G2 & G3 & G4); auto; try congruence.
        destruct v' as [c' x']; cbn [vc vcomps] in *. subst c'.
        destruct x' as [|a [|b [|c [|]]]]; try discriminate G3.
        exists (mkVel WLonCosLat [a * cos lat; b; c]). split; [|split; [auto|split; [auto|]]].
        -- destruct (vc v); try discriminate Eself; try discriminate E3; rewrite G1, bind_ok; apply Hlcl.
        -- intros p q Vp Vq Dp Dq Cp Cq. rewrite Hun, Uv by auto. apply G4; auto.
    + destruct (generic_means m deg f kw P v t pt) as (v' & G1 & G2 & G3 & G4); auto.
      { destruct t; try discriminate Et; congruence. }
      exists v'. split; [|split; [auto|split; [auto|]]].
      * rewrite G1. destruct (vc v); try discriminate Esrc; try congruence; destruct t; try discriminate Et; reflexivity.
      * intros p q Vp Vq Dp Dq Cp Cq. rewrite Uv, <- (G4 p q); auto. f_equal. unfold uncos. rewrite G2.
        destruct t; try discriminate Et; reflexivity.
Qed.
