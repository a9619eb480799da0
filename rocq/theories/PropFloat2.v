(** * C60: angle wrapping and the tolerant constructors in floating point. *)
From Coq Require Import Reals Bool List ZArith Lra Lia.
From Flocq Require Import Core.
From Verif Require Import Num Vectors Transform Pos3D Float FloatThm FloatConv PropFloat.
Open Scope R_scope.

(** ** C60: [angle % M] for any modulus of the format (360 for degrees, the
    rounded 2 pi for radians): converters.py:12-28, d3/spherical.py:155 *)

(** The result always exists and lies in the closed interval [0, M]. *)
Theorem C60_wrap_in_range :
  forall f M x, fmt_ok f -> isf f M -> 0 < M -> isf f x ->
    exists v, fmod f M x = Some v /\ isf f v /\ 0 <= v <= M.
Proof. intros f M x ok IM HM [Fx _]. now apply fmod_range. Qed.
Example C60_wrap_in_range_ex : exists v, fmod binary32 15 (-7) = Some v /\ 0 <= v <= 15.
Proof.
  assert (ok := binary32_ok).
  destruct (C60_wrap_in_range binary32 15 (-7) ok) as (v & E & _ & B); eauto.
  apply (usable_int binary32 15 ok); lia. lra. apply (usable_int binary32 (-7) ok); lia.
Qed.

(** An angle already in [0, M) is returned unchanged. *)
Theorem C60_wrap_keeps_angles_in_range :
  forall f M x, 0 <= x < M -> fmod f M x = Some x.
Proof. intros f M x H. apply fmod_id; lra. Qed.

(** Otherwise it is moved by a whole number of turns, up to one rounding. *)
Theorem C60_wrap_moves_by_whole_turns :
  forall f M x v, fmt_ok f -> isf f M -> 0 < M -> isf f x -> fmod f M x = Some v ->
    exists k : Z, Rabs (v - (x - M * IZR k)) <= fu f * M.
Proof. intros f M x v ok [FM _] HM [Fx _] H. now apply fmod_err. Qed.

(** Finding: the half-open range [0, M) documented for azimuths is not kept:
    every negative angle closer to 0 than u/2 wraps to M itself. *)
Theorem C60_finding_wrap_returns_full_turn :
  forall f M x, fmt_ok f -> isf f M -> 1 <= M -> - fu f / 2 < x < 0 -> fmod f M x = Some M.
Proof. intros. now apply fmod_tiny_negative. Qed.

(** so a cylindrical position built with such an azimuth holds a full turn,
    and the same azimuth given as 0 is held as 0 *)
Theorem C60_finding_stored_azimuth_full_turn :
  forall f L m rho a z, fmt_ok f -> isf f a -> 0 <= rho -> - fu f / 2 < a < 0 ->
    fbuild f L m true (PCyl (Some rho) (Some a) z)
      = Ok false (PCyl (Some rho) (Some (2 * frnd f PI)) z).
Proof.
  intros f L m rho a z ok Ia Hr Ha. pose proof (rnPI_bounds f ok).
  assert (W : @nwrap ext (NF f L) (Some a) = Some (2 * frnd f PI)).
  { cbn. rewrite (rn_2PI f ok). apply fmod_tiny_negative; auto; [| lra].
    apply small_isf; auto. rewrite <- rn_2PI by auto. apply rn_F; auto. rewrite Rabs_pos_eq; lra. }
  unfold fbuild, build, mk_Cyl, conv_az. change (Num_fl f L) with (NF f L).
  rewrite W, fl_check_nonneg by auto. reflexivity.
Qed.
Example C60_finding_stored_azimuth_full_turn_ex :
  fbuild binary32 (cr_libm binary32) Eager true (PCyl (Some 1) (Some (- bpow radix2 (-30))) (Some 0))
    = Ok false (PCyl (Some 1) (Some (2 * frnd binary32 PI)) (Some 0)).
Proof.
  assert (ok := binary32_ok). apply C60_finding_stored_azimuth_full_turn; auto.
  - split. apply F_opp, F_bpow; auto. simpl; lia.
    rewrite Rabs_Ropp, Rabs_pos_eq by apply bpow_ge_0. apply bpow_lt. simpl; lia.
  - lra.
  - pose proof (bpow_gt_0 radix2 (-30)). split; [| lra].
    unfold fu. change (- fprec binary32)%Z with (-24)%Z.
    assert (bpow radix2 (-30) < bpow radix2 (-25)) by (apply bpow_lt; lia).
    assert (bpow radix2 (-24) = 2 * bpow radix2 (-25)).
    { change (-24)%Z with (1 + -25)%Z. now rewrite bpow_plus. }
    lra.
Qed.

(** *** The tolerant constructors never leave the range in floating point *)
Definition modest (f : fmt) (v : R) : Prop := isf f v /\ Rabs v <= bpow radix2 (femax f - 5).

(** an azimuth argument: a plain quantity ([q]) or an [Angle] *)
Definition azarg (q : bool) (a : R) : ang ext := if q then AsQty (Some a) else AsAngle (Some a).

Section From.
Variable f : fmt.
Variable L : libm.
Hypothesis ok : fmt_ok f.
Notation P := (frnd f PI).

Lemma fl_shift v c e : Rabs c <= 16 -> Rabs v <= bpow radix2 e -> (4 <= e < femax f - 1)%Z ->
  @nadd ext (NF f L) (Some v) (Some c) = Some (frnd f (v + c)) /\ isf f (frnd f (v + c)) /\
  Rabs (frnd f (v + c)) <= bpow radix2 (e + 1).
Proof.
  intros Hc Hv He. pose proof (emin_neg f ok).
  assert (B : Rabs (v + c) <= bpow radix2 (e + 1)).
  { eapply Rle_trans. apply Rabs_triang. rewrite bpow_plus. change (bpow radix2 1) with 2.
    assert (16 <= bpow radix2 e) by (change 16 with (bpow radix2 4); apply bpow_le; lia). lra. }
  assert (Q : fop f (v + c) = Some (frnd f (v + c))) by (apply (fop_some f ok _ (e + 1)); auto; lia).
  split. exact Q. split. now apply (fop_isf f ok) in Q.
  apply rn_abs_le; auto. apply F_bpow; auto. lia.
Qed.
Lemma fl_rsub v c e : Rabs c <= 16 -> Rabs v <= bpow radix2 e -> (4 <= e < femax f - 1)%Z ->
  @nsub ext (NF f L) (Some c) (Some v) = Some (frnd f (c - v)) /\ isf f (frnd f (c - v)) /\
  Rabs (frnd f (c - v)) <= bpow radix2 (e + 1).
Proof.
  intros Hc Hv He. destruct (fl_shift (- v) c e Hc) as (E1 & E2 & E3); auto.
  rewrite Rabs_Ropp; auto. replace (- v + c) with (c - v) in * by ring. split; [| auto].
  change (fop f (- v + c) = Some (frnd f (c - v))) in E1. replace (- v + c) with (c - v) in E1 by ring. exact E1.
Qed.
Lemma P_small : Rabs P <= 16 /\ Rabs (2 * P) <= 16 /\ Rabs (P / 2) <= 16 /\ 3 <= P <= 4.
Proof. pose proof (rnPI_bounds f ok). rewrite !Rabs_pos_eq by lra. lra. Qed.
Lemma fl_ang2PI : @nang ext (NF f L) (2 * PI) = Some (2 * P).
Proof.
  pose proof PI_bounds. rewrite fl_ang by (auto; rewrite Rabs_pos_eq; lra). now rewrite rn_2PI.
Qed.

(** the azimuth after the first conversion *)
Lemma fl_conv_az (q : bool) a : modest f a -> exists v,
  @conv_az ext (NF f L) (azarg q a) = Some v /\ isf f v /\
  Rabs v <= bpow radix2 (femax f - 5).
Proof.
  intros [Ia Ba]. destruct q; unfold azarg, conv_az.
  - destruct (fl_wrap f L ok a Ia) as (v & E & Iv & Bv). exists v. split; auto. split; auto.
    rewrite Rabs_pos_eq by lra. pose proof (rnPI_bounds f ok).
    apply Rle_trans with (bpow radix2 4). change (bpow radix2 4) with 16. lra.
    apply bpow_le. destruct ok as (H1 & H2 & H3). lia.
  - exists a. auto.
Qed.
Lemma fl_redecorate deg a : isf f a -> exists v,
  @conv_az ext (NF f L) (@redecorate ext deg (Some a)) = Some v /\ isf f v /\ (deg = true -> azimuth_ok f v).
Proof.
  intros Ia. destruct deg; unfold redecorate, conv_az.
  - destruct (fl_wrap f L ok a Ia) as (v & E & Iv & Bv). exists v. split; auto. split; auto. intros _. now split.
  - exists a. split; auto. split; auto. discriminate.
Qed.

(** the common part: fold the polar angle into [0, pi] *)
Lemma fl_fold th : isf f th -> exists t2 t' (b : bool),
  @nwrap ext (NF f L) (Some th) = Some t2 /\
  @nltb ext (NF f L) (Some t2) (Some P) = b /\
  sel b (Some t2 : ext) (@nsub ext (NF f L) (Some (2 * P)) (Some t2)) = Some t' /\ polar_ok f t'.
Proof.
  intros It. destruct (fl_wrap f L ok th It) as (t2 & E & I2 & B2).
  pose proof P_small as (S1 & S2 & S3 & S4).
  destruct (Rltb t2 P) eqn:Q.
  - exists t2, t2, true. apply Rltb_true in Q. repeat split; auto; try apply I2; try lra.
    cbn. now apply Rltb_true.
  - apply Rltb_false in Q. exists t2, (frnd f (2 * P - t2)), false.
    split; auto. split. cbn. now apply Rltb_false. split.
    + unfold sel. cbn. apply fop_small; auto. apply Rabs_le. lra.
    + assert (B : 0 <= frnd f (2 * P - t2) <= P).
      { split. apply rn_ge_F; auto. apply F0. lra. apply rn_le_F; auto. apply rn_F; auto. lra. }
      split; auto. apply small_isf; auto. apply rn_F; auto. rewrite Rabs_pos_eq; lra.
Qed.
End From.

(** [SphericalPos.from_] accepts every radius, polar angle and azimuth and
    gives a position in range, whatever the kind of the radial part. *)
Theorem C60_spherical_from_total :
  forall f L m deg (q : bool) k r th ph,
    fmt_ok f -> isf f r -> modest f th -> modest f ph ->
    exists th' ph',
      ffrom_Sph f L m deg (RKeep (mkDist k (Some r))) (Some th)
          (azarg q ph)
        = Ok false (PSph (mkDist k (Some (Rabs r))) (Some th') (Some ph')) /\
      polar_ok f th' /\ isf f ph' /\ (deg = true -> azimuth_ok f ph').
Proof.
  intros f L m deg q k r th ph ok Ir [It Bt] Mp.
  destruct (P_small f ok) as (S1 & S2 & S3 & S4).
  assert (Em : (8 <= femax f - 3)%Z) by (destruct ok as (H1 & H2 & H3); lia).
  destruct (fl_conv_az f L ok q ph Mp) as (p0 & Ep0 & Ip0 & Bp0).
  destruct (fl_shift f L ok p0 _ _ S1 Bp0 ltac:(lia)) as (Ep1 & Ip1 & Bp1).
  destruct (fl_rsub f L ok th _ _ S1 Bt ltac:(lia)) as (Et1 & It1 & Bt1).
  set (b := Rltb r 0).
  assert (X1 : exists p1, sel b (@nadd ext (NF f L) (Some p0) (Some (frnd f PI))) (Some p0 : ext) = Some p1 /\
     isf f p1 /\ Rabs p1 <= bpow radix2 (femax f - 4)).
  { destruct b; unfold sel.
    - eexists. rewrite Ep1. split; eauto. split; auto. eapply Rle_trans; eauto. apply bpow_le; lia.
    - exists p0. split; auto. split; auto. eapply Rle_trans; eauto. apply bpow_le; lia. }
  destruct X1 as (p1 & E1 & I1 & B1).
  assert (X2 : exists t1, sel b (@nsub ext (NF f L) (Some (frnd f PI)) (Some th)) (Some th : ext) = Some t1 /\ isf f t1).
  { destruct b; unfold sel; eexists; [rewrite Et1|]; eauto. }
  destruct X2 as (t1 & E2 & I2).
  destruct (fl_fold f L ok t1 I2) as (t2 & t' & b2 & E3 & E4 & E5 & Pt').
  destruct (fl_shift f L ok p1 _ _ S1 B1 ltac:(lia)) as (Ep2 & Ip2 & _).
  assert (X3 : exists p2, sel b2 (Some p1 : ext) (@nadd ext (NF f L) (Some p1) (Some (frnd f PI))) = Some p2 /\ isf f p2).
  { destruct b2; unfold sel; eexists; [|rewrite Ep2]; eauto. }
  destruct X3 as (p2 & E6 & I6).
  destruct (fl_redecorate f L ok deg p2 I6) as (v & E7 & I7 & A7).
  exists t', v. split; [| auto].
  unfold ffrom_Sph, from_Sph. change (Num_fl f L) with (NF f L). cbv zeta. cbn [conv_r dval dk].
  rewrite fl_cst0, Ep0, fl_angPI, fl_ang2PI by auto.
  change (@nltb ext (NF f L) (Some r) (Some 0)) with b. rewrite E1, E2, E3, E4, E5, E6.
  assert (X4 : sel b (@nneg ext (NF f L) (Some r)) (Some r : ext) = Some (Rabs r)).
  { unfold b. destruct (Rltb r 0) eqn:Q; unfold sel; cbn; f_equal.
    apply Rltb_true in Q. now rewrite Rabs_left. apply Rltb_false in Q. rewrite Rabs_pos_eq; auto. }
  rewrite X4. unfold mk_Sph. cbn [conv_r dval]. rewrite E7.
  rewrite fl_check_nonneg by (auto; apply Rabs_pos).
  rewrite fl_ang0, fl_angPI, fl_check_polar by (auto; apply Pt'). reflexivity.
Qed.
Example C60_spherical_from_total_ex : exists th' ph',
  ffrom_Sph binary32 (cr_libm binary32) Eager true (RKeep (mkDist KDistance (Some (-3)))) (Some 5) (azarg true (-7))
    = Ok false (PSph (mkDist KDistance (Some 3)) (Some th') (Some ph')) /\ polar_ok binary32 th' /\ azimuth_ok binary32 ph'.
Proof.
  assert (ok := binary32_ok).
  assert (Q : forall n, (Z.abs n <= 16)%Z -> modest binary32 (IZR n)).
  { intros n H. split. apply usable_int; auto. apply Rle_trans with 16.
    rewrite <- abs_IZR. now apply IZR_le. change 16 with (bpow radix2 4). apply bpow_le. simpl; lia. }
  destruct (C60_spherical_from_total binary32 (cr_libm binary32) Eager true true KDistance (-3) 5 (-7) ok)
    as (t & p & E & A & B & C); try (apply Q; lia).
  exists t, p. split; auto. rewrite E. rewrite Rabs_left by lra. now replace (- (-3)) with 3 by ring.
Qed.

Theorem C60_mathspherical_from_total :
  forall f L m deg (q : bool) k r az po,
    fmt_ok f -> isf f r -> modest f az -> modest f po ->
    exists az' po',
      ffrom_MSph f L m deg (RKeep (mkDist k (Some r)))
          (azarg q az) (Some po)
        = Ok false (PMSph (mkDist k (Some (Rabs r))) (Some az') (Some po')) /\
      polar_ok f po' /\ isf f az' /\ (deg = true -> azimuth_ok f az').
Proof.
  intros f L m deg q k r ph th ok Ir Mp [It Bt].
  destruct (P_small f ok) as (S1 & S2 & S3 & S4).
  assert (Em : (8 <= femax f - 3)%Z) by (destruct ok as (H1 & H2 & H3); lia).
  destruct (fl_conv_az f L ok q ph Mp) as (p0 & Ep0 & Ip0 & Bp0).
  destruct (fl_shift f L ok p0 _ _ S1 Bp0 ltac:(lia)) as (Ep1 & Ip1 & Bp1).
  destruct (fl_rsub f L ok th _ _ S1 Bt ltac:(lia)) as (Et1 & It1 & Bt1).
  set (b := Rltb r 0).
  assert (X1 : exists p1, sel b (@nadd ext (NF f L) (Some p0) (Some (frnd f PI))) (Some p0 : ext) = Some p1 /\
     isf f p1 /\ Rabs p1 <= bpow radix2 (femax f - 4)).
  { destruct b; unfold sel.
    - eexists. rewrite Ep1. split; eauto. split; auto. eapply Rle_trans; eauto. apply bpow_le; lia.
    - exists p0. split; auto. split; auto. eapply Rle_trans; eauto. apply bpow_le; lia. }
  destruct X1 as (p1 & E1 & I1 & B1).
  assert (X2 : exists t1, sel b (@nsub ext (NF f L) (Some (frnd f PI)) (Some th)) (Some th : ext) = Some t1 /\ isf f t1).
  { destruct b; unfold sel; eexists; [rewrite Et1|]; eauto. }
  destruct X2 as (t1 & E2 & I2).
  destruct (fl_fold f L ok t1 I2) as (t2 & t' & b2 & E3 & E4 & E5 & Pt').
  destruct (fl_shift f L ok p1 _ _ S1 B1 ltac:(lia)) as (Ep2 & Ip2 & _).
  assert (X3 : exists p2, sel b2 (Some p1 : ext) (@nadd ext (NF f L) (Some p1) (Some (frnd f PI))) = Some p2 /\ isf f p2).
  { destruct b2; unfold sel; eexists; [|rewrite Ep2]; eauto. }
  destruct X3 as (p2 & E6 & I6).
  destruct (fl_redecorate f L ok deg p2 I6) as (v & E7 & I7 & A7).
  exists v, t'. split; [| auto].
  unfold ffrom_MSph, from_MSph. change (Num_fl f L) with (NF f L). cbv zeta. cbn [conv_r dval dk].
  rewrite fl_cst0, Ep0, fl_angPI, fl_ang2PI by auto.
  change (@nltb ext (NF f L) (Some r) (Some 0)) with b. rewrite E1, E2, E3, E4, E5, E6.
  assert (X4 : sel b (@nneg ext (NF f L) (Some r)) (Some r : ext) = Some (Rabs r)).
  { unfold b. destruct (Rltb r 0) eqn:Q; unfold sel; cbn; f_equal.
    apply Rltb_true in Q. now rewrite Rabs_left. apply Rltb_false in Q. rewrite Rabs_pos_eq; auto. }
  rewrite X4. unfold mk_MSph. cbn [conv_r dval]. rewrite E7.
  rewrite fl_check_nonneg by (auto; apply Rabs_pos).
  rewrite fl_ang0, fl_angPI, fl_check_polar by (auto; apply Pt'). reflexivity.
Qed.

(** [LonLatSphericalPos.from_] folds latitudes up to 270 degrees from the
    equator back into range. *)
Theorem C60_lonlat_from_in_range :
  forall f L m deg (q : bool) k r lon lat,
    fmt_ok f -> isf f r -> isf f lat -> Rabs lat <= 3 * (frnd f PI / 2) -> modest f lon ->
    exists lon' lat',
      ffrom_LonLat f L m deg (azarg q lon) (Some lat)
          (RKeep (mkDist k (Some r)))
        = Ok false (PLonLat (Some lon') (Some lat') (mkDist k (Some (Rabs r)))) /\
      latitude_ok f lat' /\ isf f lon' /\ (deg = true -> azimuth_ok f lon').
Proof.
  intros f L m deg q k r lon lat ok Ir Il Bl Mp.
  destruct (P_small f ok) as (S1 & S2 & S3 & S4). set (P := frnd f PI) in *.
  assert (Em : (6 <= femax f - 5)%Z) by (destruct ok as (H1 & H2 & H3); lia).
  assert (Fh : generic_format radix2 (fexp_of f) (P / 2)) by (unfold P; rewrite <- (rn_PI2 f ok); apply rn_F; auto).
  destruct (fl_conv_az f L ok q lon Mp) as (p0 & Ep0 & Ip0 & Bp0).
  assert (Sh : forall (b : bool) v e, isf f v -> Rabs v <= bpow radix2 e -> (4 <= e < femax f - 1)%Z ->
     exists w, sel b (@nadd ext (NF f L) (Some v) (Some P)) (Some v : ext) = Some w /\ isf f w /\
       Rabs w <= bpow radix2 (e + 1)).
  { intros b v e Iv Bv He. destruct b; unfold sel.
    - destruct (fl_shift f L ok v _ _ S1 Bv He) as (E & I & B). eexists. rewrite E. eauto.
    - exists v. split; auto. split; auto. eapply Rle_trans; eauto. apply bpow_le; lia. }
  set (b0 := Rltb r 0).
  set (l0 := if b0 then - lat else lat).
  assert (El0 : sel b0 (@nneg ext (NF f L) (Some lat)) (Some lat : ext) = Some l0) by (unfold l0; now destruct b0).
  assert (Bl0 : Rabs l0 <= 3 * (P / 2)) by (unfold l0; destruct b0; rewrite ?Rabs_Ropp; auto).
  assert (Fl0 : generic_format radix2 (fexp_of f) l0).
  { unfold l0. destruct b0. apply F_opp, Il. apply Il. }
  destruct (Sh b0 p0 _ Ip0 Bp0 ltac:(lia)) as (p1 & E1 & I1 & B1).
  apply Rabs_le_inv in Bl0.
  (* below -90 degrees *)
  set (b1 := Rltb l0 (- (P / 2))).
  destruct (Sh b1 p1 _ I1 B1 ltac:(lia)) as (p2 & E2 & I2 & B2).
  set (l1 := if b1 then frnd f (- P - l0) else l0).
  assert (El1 : sel b1 (@nsub ext (NF f L) (@nneg ext (NF f L) (Some P)) (Some l0)) (Some l0 : ext) = Some l1).
  { unfold l1. destruct b1; auto. unfold sel. cbn. apply fop_small; auto. apply Rabs_le. lra. }
  assert (Bl1 : - (P / 2) <= l1 <= 3 * (P / 2) /\ generic_format radix2 (fexp_of f) l1).
  { unfold l1, b1. destruct (Rltb l0 (- (P / 2))) eqn:Q.
    - apply Rltb_true in Q. split; [| apply rn_F; auto]. split. apply rn_ge_F; auto. now apply F_opp. lra.
      apply Rle_trans with (P / 2); [| lra]. apply rn_le_F; auto. lra.
    - apply Rltb_false in Q. split; auto. lra. }
  destruct Bl1 as [Bl1 Fl1].
  (* above 90 degrees *)
  set (b2 := Rltb (P / 2) l1).
  destruct (Sh b2 p2 _ I2 B2 ltac:(lia)) as (p3 & E3 & I3 & B3).
  set (l2 := if b2 then frnd f (P - l1) else l1).
  assert (El2 : sel b2 (@nsub ext (NF f L) (Some P) (Some l1)) (Some l1 : ext) = Some l2).
  { unfold l2. destruct b2; auto. unfold sel. cbn. apply fop_small; auto. apply Rabs_le. lra. }
  assert (Bl2 : - (P / 2) <= l2 <= P / 2 /\ generic_format radix2 (fexp_of f) l2).
  { unfold l2, b2. destruct (Rltb (P / 2) l1) eqn:Q.
    - apply Rltb_true in Q. split; [| apply rn_F; auto]. split. apply rn_ge_F; auto. now apply F_opp. lra.
      apply rn_le_F; auto. lra.
    - apply Rltb_false in Q. split; auto. lra. }
  destruct Bl2 as [Bl2 Fl2].
  destruct (fl_redecorate f L ok deg p3 I3) as (v & E7 & I7 & A7).
  exists v, l2. split.
  2:{ split; [| auto]. split; [| fold P; lra]. apply small_isf; auto. apply Rabs_le; lra. }
  unfold ffrom_LonLat, from_LonLat. change (Num_fl f L) with (NF f L). cbv zeta. cbn [conv_r dval dk].
  rewrite fl_cst0, Ep0, fl_angPI, fl_angPI2 by auto. fold P.
  change (@nltb ext (NF f L) (Some r) (Some 0)) with b0. rewrite El0, E1.
  change (@nneg ext (NF f L) (Some (P / 2))) with (Some (- (P / 2)) : ext).
  change (@nltb ext (NF f L) (Some l0) (Some (- (P / 2)))) with b1. rewrite El1, E2.
  change (@nltb ext (NF f L) (Some (P / 2)) (Some l1)) with b2. rewrite El2, E3.
  assert (X4 : sel b0 (@nneg ext (NF f L) (Some r)) (Some r : ext) = Some (Rabs r)).
  { unfold b0. destruct (Rltb r 0) eqn:Q; unfold sel; cbn; f_equal.
    apply Rltb_true in Q. now rewrite Rabs_left. apply Rltb_false in Q. rewrite Rabs_pos_eq; auto. }
  rewrite X4. unfold mk_LonLat. cbn [conv_r dval]. rewrite E7.
  rewrite fl_angPI2 by auto. fold P. change (@nneg ext (NF f L) (Some (P / 2))) with (Some (- (P / 2)) : ext).
  rewrite fl_check_polar by auto. cbn [bind ret orb].
  rewrite fl_check_nonneg by (auto; apply Rabs_pos). reflexivity.
Qed.

Print Assumptions C60_wrap_in_range.
Print Assumptions C60_wrap_keeps_angles_in_range.
Print Assumptions C60_wrap_moves_by_whole_turns.
Print Assumptions C60_finding_wrap_returns_full_turn.
Print Assumptions C60_finding_stored_azimuth_full_turn.
Print Assumptions C60_spherical_from_total.
Print Assumptions C60_mathspherical_from_total.
Print Assumptions C60_lonlat_from_in_range.
