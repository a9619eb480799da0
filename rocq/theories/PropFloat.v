(** * C59: conversions out of Cartesian coordinates in floating point.

    The theorems are about [frepresent_as]: the very code of [represent_as],
    run on IEEE binary numbers of any format [f] with a usual shape
    ([fmt_ok]: binary32, binary64, bfloat16) and any mathematical library [L]
    whose results are in range ([libm_ok]; no accuracy assumed). *)
From Coq Require Import Reals Bool List ZArith Lra Lia.
From Flocq Require Import Core.
From Verif Require Import Num Vectors Transform Pos3D Float FloatThm FloatConv.
Open Scope R_scope.

(** ** Specification *)

(** The components are finite numbers of the format, and their squares stay
    below the overflow limit. *)
Definition usable (f : fmt) (v : R) : Prop := isf f v /\ room f v.
(** Not a vector whose squares all underflow. *)
Definition not_tiny (f : fmt) (v : R) : Prop := fmin_normal f <= v * v.

(** A spherical triple in range: the radius at least as long as each Cartesian
    component, the polar angle in [0, pi], the azimuth in [0, 2 pi], where pi is
    the rounded pi. *)
Definition polar_ok (f : fmt) (th : R) : Prop := isf f th /\ 0 <= th <= frnd f PI.
Definition azimuth_ok (f : fmt) (ph : R) : Prop := isf f ph /\ 0 <= ph <= 2 * frnd f PI.
Definition latitude_ok (f : fmt) (la : R) : Prop :=
  isf f la /\ - frnd f PI / 2 <= la <= frnd f PI / 2.

(** the model's conversion, on finite Cartesian components *)
Definition cart3 (x y z : R) : pos ext := PCart3 (Some x) (Some y) (Some z).
Definition cyl (rho phi z : R) : pos ext := PCyl (Some rho) (Some phi) (Some z).
Definition fdist (r : R) : dist ext := mkDist KDistance (Some r).

(** The formats of the hardware and the correctly rounded library satisfy the
    hypotheses. *)
Lemma cr_libm_ok f : fmt_ok f -> libm_ok f (cr_libm f).
Proof.
  intros ok. pose proof PI_bounds.
  assert (K : forall v, Rabs v <= 16 -> isf f (frnd f v)).
  { intros v Hv. apply small_isf; auto. apply rn_F; auto.
    apply rn_abs_le; auto. apply (F_small_int f ok 16). lia. }
  repeat apply conj; unfold cr_libm; cbn [m_sin m_cos m_acos m_atan2].
  - intros x _. pose proof (SIN_bound x). split. apply K. apply Rabs_le; lra.
    split. apply rn_ge_F; auto. apply (F_small_int f ok (-1)). lia. lra.
    apply rn_le_F; auto. apply (F_small_int f ok 1). lia. lra.
  - intros x _. pose proof (COS_bound x). split. apply K. apply Rabs_le; lra.
    split. apply rn_ge_F; auto. apply (F_small_int f ok (-1)). lia. lra.
    apply rn_le_F; auto. apply (F_small_int f ok 1). lia. lra.
  - intros x _ _. pose proof (acos_bound x). split. apply K. apply Rabs_le; lra.
    split. apply rn_ge_F; auto. apply F0. lra. apply rn_le; auto. lra.
  - rewrite acos_1. apply rn0.
  - intros y x _ _. pose proof (Ratan2_range y x). split. apply K. apply Rabs_le; lra.
    split. rewrite <- rn_opp. apply rn_le; auto. lra. apply rn_le; auto. lra.
Qed.

(** ** Cartesian to spherical *)

(** No range check fails and no NaN appears: the computed radius is never
    smaller than |z|, so the argument of acos is in [-1, 1]. *)
Theorem C59_cartesian_to_spherical :
  forall f L m deg n x y z,
    fmt_ok f -> libm_ok f L -> usable f x -> usable f y -> usable f z ->
    not_tiny f x \/ not_tiny f y \/ not_tiny f z ->
    exists r th ph,
      frepresent_as f L m deg (S n) nokw (cart3 x y z) CSph
        = Ok false (PSph (fdist r) (Some th) (Some ph)) /\
      isf f r /\ 0 < r /\ Rabs x <= r /\ Rabs y <= r /\ Rabs z <= r /\
      polar_ok f th /\ azimuth_ok f ph.
Proof.
  intros f L m deg n x y z ok Lok [[Fx Ox] Rx] [[Fy Oy] Ry] [[Fz Oz] Rz] N.
  destruct (fl_norm3 f L ok x y z Fx Fy Fz Rx Ry Rz) as (r & Er & _ & Ir & _ & Br).
  destruct (Br N) as (Pr & Bx & By & Bz).
  destruct (fl_ratio f L ok z r Fz Pr Bz) as (Ed & Bd & Id).
  destruct (fl_acos f L Lok _ Id Bd) as (Ea & Ia & Ba).
  assert (Lok' := Lok). destruct Lok' as (_ & _ & _ & _ & HA).
  destruct (HA y x (conj Fy Oy) (conj Fx Ox)) as [IA _].
  destruct (fl_mk_Sph f L ok m r _ _ (Rlt_le _ _ Pr) Ba IA) as (v & Bv & Iv & Ew & Em).
  exists r, (m_acos L (frnd f (z / r))), v. split; [| repeat split; auto; try apply Ir; try apply Ia; try apply Iv; lra].
  unfold frepresent_as, cart3. step. cbv zeta. unfold NF in *. rewrite Er, Ed, Ea. cbn [natan2 Num_fl lift2].
  exact Em.
Qed.

(** the hypotheses hold, e.g., in binary32 for (1, 2, 2) *)
Lemma usable_int f n : fmt_ok f -> (Z.abs n <= 16)%Z -> usable f (IZR n).
Proof.
  intros ok H. assert (Q : Rabs (IZR n) <= 16) by (rewrite <- abs_IZR; now apply IZR_le).
  split. apply small_isf; auto. now apply F_small_int.
  unfold room. apply Rle_trans with (bpow radix2 8).
  - change (bpow radix2 8) with 256. replace (IZR n * IZR n) with (Rabs (IZR n) * Rabs (IZR n)).
    pose proof (Rabs_pos (IZR n)). nra. rewrite <- Rabs_mult, Rabs_pos_eq; nra.
  - apply bpow_le. destruct ok as (H1 & H2 & H3). lia.
Qed.
Example C59_cartesian_to_spherical_ex : exists r th ph,
  frepresent_as binary32 (cr_libm binary32) Eager true 1 nokw (cart3 1 2 (-2)) CSph
    = Ok false (PSph (fdist r) (Some th) (Some ph)) /\ polar_ok binary32 th.
Proof.
  assert (ok := binary32_ok).
  destruct (C59_cartesian_to_spherical binary32 (cr_libm binary32) Eager true 0 1 2 (-2) ok (cr_libm_ok _ ok))
    as (r & th & ph & E & _ & _ & _ & _ & _ & P & _); try (apply usable_int; auto; lia).
  - left. unfold not_tiny. pose proof (min_normal_small _ ok). lra.
  - exists r, th, ph. split; auto.
Qed.

(** The same for the other classes with a polar angle or latitude. *)
Theorem C59_cartesian_to_mathspherical :
  forall f L m deg n x y z,
    fmt_ok f -> libm_ok f L -> usable f x -> usable f y -> usable f z ->
    not_tiny f x \/ not_tiny f y \/ not_tiny f z ->
    exists r az po,
      frepresent_as f L m deg (S (S n)) nokw (cart3 x y z) CMSph
        = Ok false (PMSph (fdist r) (Some az) (Some po)) /\
      isf f r /\ 0 < r /\ Rabs x <= r /\ Rabs y <= r /\ Rabs z <= r /\
      azimuth_ok f az /\ polar_ok f po.
Proof.
  intros f L m deg n x y z ok Lok Ux Uy Uz N.
  destruct (C59_cartesian_to_spherical f L m deg n x y z ok Lok Ux Uy Uz N)
    as (r & th & ph & E & Ir & Pr & Bx & By & Bz & Pt & Pp).
  exists r, ph, th. split; [| repeat (split; auto)].
  unfold frepresent_as, cart3 in *. step. rewrite E. unfold bind at 1.
  step. unfold mk_MSph. cbn [conv_r dval conv_az fdist].
  change (Num_fl f L) with (NF f L). rewrite fl_check_nonneg by (auto; lra). cbn [bind ret orb].
  rewrite fl_ang0, fl_angPI, fl_check_polar by (auto; apply Pt). reflexivity.
Qed.

Theorem C59_cartesian_to_lonlat :
  forall f L m deg n x y z,
    fmt_ok f -> libm_ok f L -> usable f x -> usable f y -> usable f z ->
    not_tiny f x \/ not_tiny f y \/ not_tiny f z ->
    exists lon lat r,
      frepresent_as f L m deg (S (S n)) nokw (cart3 x y z) CLonLat
        = Ok false (PLonLat (Some lon) (Some lat) (fdist r)) /\
      isf f r /\ 0 < r /\ Rabs x <= r /\ Rabs y <= r /\ Rabs z <= r /\
      azimuth_ok f lon /\ latitude_ok f lat.
Proof.
  intros f L m deg n x y z ok Lok Ux Uy Uz N.
  destruct (C59_cartesian_to_spherical f L m deg n x y z ok Lok Ux Uy Uz N)
    as (r & th & ph & E & Ir & Pr & Bx & By & Bz & Pt & Pp).
  pose proof (rnPI_bounds f ok) as BP. destruct Pt as [It Bt].
  assert (Fh : generic_format radix2 (fexp_of f) (frnd f PI / 2)) by (rewrite <- (rn_PI2 f ok); apply rn_F; auto).
  set (la := frnd f (frnd f PI / 2 - th)).
  assert (Bl : - (frnd f PI / 2) <= la <= frnd f PI / 2).
  { unfold la. split. apply rn_ge_F; auto. now apply F_opp. lra. apply rn_le_F; auto. lra. }
  assert (Il : isf f la).
  { apply small_isf; auto. apply rn_F; auto. apply Rabs_le; lra. }
  exists ph, la, r. split; [| repeat (split; auto); lra].
  unfold frepresent_as, cart3 in *. step. rewrite E. unfold bind at 1.
  step. unfold mk_LonLat. change (Num_fl f L) with (NF f L). rewrite fl_angPI2 by auto.
  cbn [conv_r dval conv_az fdist].
  assert (S : @nsub ext (NF f L) (Some (frnd f PI / 2)) (Some th) = Some la).
  { cbn. apply fop_small; auto. apply Rabs_le; lra. }
  rewrite S.
  cbn [nneg NF Num_fl lift1]. change (Num_fl f L) with (NF f L).
  rewrite fl_check_polar by auto. cbn [bind ret orb].
  rewrite fl_check_nonneg by (auto; lra). reflexivity.
Qed.

(** Cylindrical components; the radius is at least |x| and |y|. *)
Theorem C59_cartesian_to_cylindrical :
  forall f L m deg n x y z,
    fmt_ok f -> libm_ok f L -> usable f x -> usable f y -> isf f z ->
    exists rho ph,
      frepresent_as f L m deg (S n) nokw (cart3 x y z) CCyl = Ok false (cyl rho ph z) /\
      isf f rho /\ 0 <= rho /\ azimuth_ok f ph /\
      (not_tiny f x \/ not_tiny f y -> 0 < rho /\ Rabs x <= rho /\ Rabs y <= rho).
Proof.
  intros f L m deg n x y z ok Lok [[Fx Ox] Rx] [[Fy Oy] Ry] Iz.
  destruct (fl_norm2 f L ok x y Fx Fy Rx Ry) as (r & Er & _ & Ir & Pr & Br).
  destruct (fl_atan2_wrap f L ok Lok y x (conj Fy Oy) (conj Fx Ox)) as (v & Ev & Iv & Bv).
  exists r, v. split; [| split; [auto | split; [auto | split; [split; auto | exact Br]]]].
  unfold frepresent_as, cart3. step. change (Num_fl f L) with (NF f L). rewrite Er. unfold mk_Cyl, conv_az.
  rewrite Ev, fl_check_nonneg by auto. reflexivity.
Qed.

(** Cylindrical to spherical. *)
Theorem C59_cylindrical_to_spherical :
  forall f L m deg n rho phi z,
    fmt_ok f -> libm_ok f L -> usable f rho -> usable f z -> not_tiny f rho \/ not_tiny f z ->
    exists r th,
      frepresent_as f L m deg (S n) nokw (cyl rho phi z) CSph
        = Ok false (PSph (fdist r) (Some th) (Some phi)) /\
      isf f r /\ 0 < r /\ Rabs rho <= r /\ Rabs z <= r /\ polar_ok f th.
Proof.
  intros f L m deg n rho phi z ok Lok [[Fx Ox] Rx] [[Fz Oz] Rz] N.
  destruct (fl_norm2 f L ok rho z Fx Fz Rx Rz) as (r & Er & _ & Ir & _ & Br).
  destruct (Br N) as (Pr & Bx & Bz).
  destruct (fl_ratio f L ok z r Fz Pr Bz) as (Ed & Bd & Id).
  destruct (fl_acos f L Lok _ Id Bd) as (Ea & Ia & Ba).
  exists r, (m_acos L (frnd f (z / r))). split; [| repeat (split; auto); lra].
  unfold frepresent_as, cyl. step. change (Num_fl f L) with (NF f L). cbv zeta. rewrite Er, Ed, Ea.
  unfold mk_Sph. cbn [conv_r length_of_kind dval conv_az].
  rewrite fl_check_nonneg by (auto; lra). rewrite fl_ang0, fl_angPI, fl_check_polar by auto. reflexivity.
Qed.

(** Cartesian to polar in the plane. *)
Theorem C59_cartesian2_to_polar :
  forall f L m deg n x y,
    fmt_ok f -> libm_ok f L -> usable f x -> usable f y ->
    exists r ph,
      frepresent_as f L m deg (S n) nokw (PCart2 (Some x) (Some y)) CPolar
        = Ok false (PPolar (fdist r) (Some ph)) /\
      isf f r /\ 0 <= r /\ azimuth_ok f ph /\
      (not_tiny f x \/ not_tiny f y -> 0 < r /\ Rabs x <= r /\ Rabs y <= r).
Proof.
  intros f L m deg n x y ok Lok [[Fx Ox] Rx] [[Fy Oy] Ry].
  destruct (fl_norm2 f L ok x y Fx Fy Rx Ry) as (r & Er & _ & Ir & Pr & Br).
  destruct (fl_atan2_wrap f L ok Lok y x (conj Fy Oy) (conj Fx Ox)) as (v & Ev & Iv & Bv).
  exists r, v. split; [| split; [auto | split; [auto | split; [split; auto | exact Br]]]].
  unfold frepresent_as. step. change (Num_fl f L) with (NF f L). rewrite Er. unfold mk_Polar, conv_az.
  cbn [conv_r length_of_kind dval].
  rewrite Ev, fl_check_nonneg by auto. reflexivity.
Qed.

(** ** Accuracy of the radius: three roundings. *)
Definition no_underflow (f : fmt) (v : R) : Prop := v = 0 \/ not_tiny f v.

Lemma sq_rel f v : fmt_ok f -> no_underflow f v ->
  v * v * (1 - fu f) <= frnd f (v * v) <= v * v * (1 + fu f).
Proof.
  intros ok H. destruct (rn_rel f ok (v * v)) as (e & He & ->).
  - destruct H as [-> | H]; [left; ring | right]. rewrite Rabs_pos_eq by nra. exact H.
  - apply Rabs_le_inv in He. assert (0 <= v * v) by nra. nra.
Qed.
Lemma add_rel f a b : fmt_ok f -> generic_format radix2 (fexp_of f) a -> generic_format radix2 (fexp_of f) b ->
  0 <= a -> 0 <= b -> (a + b) * (1 - fu f) <= frnd f (a + b) <= (a + b) * (1 + fu f).
Proof.
  intros ok Fa Fb Ha Hb. destruct (rn_add_rel f ok a b Fa Fb) as (e & He & ->).
  apply Rabs_le_inv in He. nra.
Qed.
(** the square root of a sum known up to three roundings, rounded *)
Lemma sqrt_rel f S s : fmt_ok f -> 0 <= S -> S = 0 \/ fmin_normal f <= S ->
  S * (1 - fu f) ^ 3 <= s <= S * (1 + fu f) ^ 3 ->
  sqrt S * (1 - fu f) ^ 3 <= frnd f (sqrt s) <= sqrt S * (1 + fu f) ^ 3.
Proof.
  intros ok HS HN Hs. pose proof (fu_pos f) as Pu. pose proof (fu_small f ok) as Su.
  assert (P1 : 0 < (1 - fu f) ^ 3) by (apply pow_lt; lra).
  assert (P0 : 0 <= s) by nra.
  assert (Q1 : sqrt S * (1 - fu f) ^ 2 <= sqrt s).
  { rewrite <- (sqrt_square ((1 - fu f) ^ 2)) by nra. rewrite <- sqrt_mult by nra. apply sqrt_le_1_alt.
    eapply Rle_trans; [| apply Hs]. apply Rmult_le_compat_l; auto.
    replace ((1 - fu f) ^ 2 * (1 - fu f) ^ 2) with ((1 - fu f) ^ 3 * (1 - fu f)) by ring. nra. }
  assert (Q2 : sqrt s <= sqrt S * (1 + fu f) ^ 2).
  { rewrite <- (sqrt_square ((1 + fu f) ^ 2)) by nra. rewrite <- sqrt_mult by nra. apply sqrt_le_1_alt.
    eapply Rle_trans; [apply Hs|]. apply Rmult_le_compat_l; auto.
    replace ((1 + fu f) ^ 2 * (1 + fu f) ^ 2) with ((1 + fu f) ^ 3 * (1 + fu f)) by ring.
    assert (0 < (1 + fu f) ^ 3) by (apply pow_lt; lra). nra. }
  destruct (rn_rel f ok (sqrt s)) as (e & He & ->).
  { destruct HN as [-> | HN].
    - left. assert (s = 0) by lra. subst. apply sqrt_0.
    - right. rewrite Rabs_pos_eq by apply sqrt_pos.
      pose proof (min_normal_small f ok).
      assert (0 < fmin_normal f) by apply bpow_gt_0.
      apply Rle_trans with (sqrt S * (1 - fu f) ^ 2); [| exact Q1].
      assert (sqrt (fmin_normal f) <= sqrt S) by now apply sqrt_le_1_alt.
      assert (4 * fmin_normal f <= sqrt (fmin_normal f)).
      { apply Rsqr_incr_0_var; [| apply sqrt_pos]. unfold Rsqr. rewrite sqrt_sqrt by lra. nra. }
      assert (/ 4 <= (1 - fu f) ^ 2) by nra.
      pose proof (sqrt_pos S). nra. }
  apply Rabs_le_inv in He. pose proof (sqrt_pos s). pose proof (sqrt_pos S).
  assert (0 <= sqrt S * (1 - fu f) ^ 2) by (apply Rmult_le_pos; nra).
  replace ((1 - fu f) ^ 3) with ((1 - fu f) ^ 2 * (1 - fu f)) by ring.
  replace ((1 + fu f) ^ 3) with ((1 + fu f) ^ 2 * (1 + fu f)) by ring.
  rewrite <- !Rmult_assoc. split; nra.
Qed.

(** The radius computed by the conversion to spherical coordinates (and by the
    one to a radial position) is the length of the vector up to relative error
    (1 + u)^3, u = 2^-24 in binary32, 2^-53 in binary64. *)
Theorem C59_radius_accuracy :
  forall f L m deg n x y z r th ph,
    fmt_ok f -> usable f x -> usable f y -> usable f z ->
    no_underflow f x -> no_underflow f y -> no_underflow f z ->
    frepresent_as f L m deg (S n) nokw (cart3 x y z) CSph = Ok false (PSph (fdist r) th ph) ->
    sqrt (x * x + y * y + z * z) * (1 - fu f) ^ 3 <= r
      <= sqrt (x * x + y * y + z * z) * (1 + fu f) ^ 3.
Proof.
  intros f L m deg n x y z r th ph ok [[Fx Ox] Rx] [[Fy Oy] Ry] [[Fz Oz] Rz] Nx Ny Nz E.
  destruct (fl_norm3 f L ok x y z Fx Fy Fz Rx Ry Rz) as (r' & Er & Vr & Ir & Pr & _).
  assert (r = r').
  { unfold frepresent_as, cart3 in E. revert E. step. change (Num_fl f L) with (NF f L). cbv zeta. rewrite Er.
    unfold mk_Sph. cbn [conv_r length_of_kind dval]. rewrite fl_check_nonneg by auto.
    unfold ret at 1. unfold bind at 1. destruct (check_polar _ _ _ _) as [w []|]; [| discriminate].
    unfold bind, ret. unfold fdist. intros H. injection H. auto. }
  subst r'. subst r.
  pose proof (sq_rel f x ok Nx) as Hx. pose proof (sq_rel f y ok Ny) as Hy. pose proof (sq_rel f z ok Nz) as Hz.
  pose proof (rn_F f ok (x * x)) as Gx. pose proof (rn_F f ok (y * y)) as Gy. pose proof (rn_F f ok (z * z)) as Gz.
  pose proof (fu_pos f) as Pu. pose proof (fu_small f ok) as Su.
  assert (X0 : 0 <= x * x) by nra. assert (Y0 : 0 <= y * y) by nra. assert (Z0 : 0 <= z * z) by nra.
  assert (Px : 0 <= frnd f (x * x)) by nra. assert (Py : 0 <= frnd f (y * y)) by nra.
  assert (Pz : 0 <= frnd f (z * z)) by nra.
  pose proof (add_rel f _ _ ok Gx Gy Px Py) as H1.
  assert (Ps : 0 <= frnd f (frnd f (x * x) + frnd f (y * y))) by nra.
  pose proof (add_rel f _ _ ok (rn_F f ok _) Gz Ps Pz) as H2.
  set (u := fu f) in *.
  set (a := frnd f (x * x)) in *. set (b := frnd f (y * y)) in *. set (c := frnd f (z * z)) in *.
  set (s := frnd f (a + b)) in *. set (t := frnd f (s + c)) in *.
  set (X := x * x) in *. set (Y := y * y) in *. set (Z := z * z) in *.
  apply sqrt_rel; auto.
  - lra.
  - assert (D : forall v, no_underflow f v -> v * v = 0 \/ fmin_normal f <= v * v).
    { intros v [-> | K]. left; ring. right; exact K. }
    destruct (D x Nx); destruct (D y Ny); destruct (D z Nz); unfold X, Y, Z in *;
      first [left; lra | right; lra].
  - fold u. assert (U1 : 0 < (1 - u)) by lra.
    assert (S1 : (X + Y) * (1 - u) ^ 2 <= s <= (X + Y) * (1 + u) ^ 2) by (split; nra).
    split.
    + apply Rle_trans with ((s + c) * (1 - u)); [| apply H2].
      replace ((X + Y + Z) * (1 - u) ^ 3) with (((X + Y) * (1 - u) ^ 2 + Z * (1 - u) ^ 2) * (1 - u)) by ring.
      apply Rmult_le_compat_r; [lra|]. assert (Z * (1 - u) ^ 2 <= c) by nra. lra.
    + apply Rle_trans with ((s + c) * (1 + u)); [apply H2|].
      replace ((X + Y + Z) * (1 + u) ^ 3) with (((X + Y) * (1 + u) ^ 2 + Z * (1 + u) ^ 2) * (1 + u)) by ring.
      apply Rmult_le_compat_r; [lra|]. assert (c <= Z * (1 + u) ^ 2) by nra. lra.
Qed.

Example C59_radius_accuracy_ex : exists r th ph,
  frepresent_as binary64 (cr_libm binary64) Eager true 1 nokw (cart3 1 2 2) CSph
    = Ok false (PSph (fdist r) th ph) /\
  3 * (1 - fu binary64) ^ 3 <= r <= 3 * (1 + fu binary64) ^ 3.
Proof.
  assert (ok := binary64_ok). assert (Lok := cr_libm_ok _ ok).
  assert (NT : forall v, 1 <= v -> not_tiny binary64 v).
  { intros v Hv. unfold not_tiny. pose proof (min_normal_small _ ok). nra. }
  destruct (C59_cartesian_to_spherical binary64 (cr_libm binary64) Eager true 0 1 2 2 ok Lok)
    as (r & th & ph & E & _); try (apply usable_int; auto; lia).
  { left. apply NT. lra. }
  exists r, (Some th), (Some ph). split; [exact E|].
  replace 3 with (sqrt (1 * 1 + 2 * 2 + 2 * 2)).
  - eapply C59_radius_accuracy; try exact E; auto; try (apply usable_int; auto; lia); right; apply NT; lra.
  - replace (1 * 1 + 2 * 2 + 2 * 2) with (3 * 3) by ring. apply sqrt_square. lra.
Qed.

(** ** What floating point does break *)

(** A vector so short that the squares of its components underflow: the radius
    is 0 and the polar angle is not a number (no error is raised). *)
Theorem C59_finding_short_vector_has_no_direction :
  forall f L m deg n x y z,
    fmt_ok f -> libm_ok f L -> isf f x -> isf f y -> isf f z ->
    x * x < bpow radix2 (femin f - 1) -> y * y < bpow radix2 (femin f - 1) -> z * z < bpow radix2 (femin f - 1) ->
    exists ph,
      frepresent_as f L m deg (S n) nokw (cart3 x y z) CSph
        = Ok false (PSph (fdist 0) None (Some ph)).
Proof.
  intros f L m deg n x y z ok Lok Ix Iy Iz Hx Hy Hz.
  assert (K : forall v, v * v < bpow radix2 (femin f - 1) -> @nsq ext (NF f L) (Some v) = Some 0).
  { intros v Hv. unfold nsq. cbn.
    assert (E : frnd f (v * v) = 0).
    { apply Rle_antisym; [| apply rn_ge_F; auto; [apply F0 | nra]].
      apply round_N_le_midp. apply FLT_exp_valid. destruct ok; unfold Prec_gt_0; lia. apply F0.
      rewrite succ_0. unfold fexp_of. rewrite ulp_FLT_0 by (destruct ok; unfold Prec_gt_0; lia).
      replace (femin f) with (femin f - 1 + 1)%Z by lia. rewrite bpow_plus. change (bpow radix2 1) with 2. lra. }
    unfold fop. rewrite E. apply fin_some. rewrite Rabs_R0. apply bpow_gt_0. }
  destruct (fl_atan2_wrap f L ok Lok y x Iy Ix) as (v & Ev & Iv & Bv).
  exists v. unfold frepresent_as, cart3. step. change (Num_fl f L) with (NF f L). cbv zeta.
  rewrite !K by auto.
  assert (A : @nadd ext (NF f L) (Some 0) (Some 0) = Some 0).
  { cbn. unfold fop. rewrite Rplus_0_l, rn0. apply fin_some. rewrite Rabs_R0. apply bpow_gt_0. }
  rewrite !A.
  assert (S : @nsqrt ext (NF f L) (Some 0) = Some 0).
  { cbn. assert (Q : Rleb 0 0 = true) by (apply Rleb_true; lra). rewrite Q, sqrt_0. unfold fop. rewrite rn0.
    apply fin_some. rewrite Rabs_R0. apply bpow_gt_0. }
  rewrite S.
  assert (D : @ndiv ext (NF f L) (Some z) (Some 0) = None).
  { cbn. assert (Q : Reqb 0 0 = true) by (now apply Reqb_true). now rewrite Q. }
  rewrite D. unfold mk_Sph. cbn [conv_r length_of_kind dval conv_az].
  rewrite Ev, fl_check_nonneg by (auto; lra). rewrite fl_ang0, fl_angPI by auto.
  destruct m; reflexivity.
Qed.
Example C59_finding_short_vector_has_no_direction_ex : exists ph,
  frepresent_as binary32 (cr_libm binary32) Eager true 1 nokw (cart3 0 0 (bpow radix2 (-76))) CSph
    = Ok false (PSph (fdist 0) None (Some ph)).
Proof.
  assert (ok := binary32_ok).
  apply C59_finding_short_vector_has_no_direction; auto using cr_libm_ok.
  - apply (usable_int binary32 0); auto; lia.
  - apply (usable_int binary32 0); auto; lia.
  - split. apply F_bpow; auto. simpl; lia.
    rewrite Rabs_pos_eq by apply bpow_ge_0. apply bpow_lt. simpl; lia.
  - rewrite Rmult_0_l. apply bpow_gt_0.
  - rewrite Rmult_0_l. apply bpow_gt_0.
  - rewrite <- bpow_plus. apply bpow_lt. simpl; lia.
Qed.

(** A component whose square overflows (in binary32: 2^64 = 1.8e19, so 1 kpc
    written in metres): the radius is not finite, and no error is raised. *)
Theorem C59_finding_long_vector_has_no_radius :
  forall f L m deg n x y z,
    fmt_ok f -> libm_ok f L -> isf f x -> isf f y -> isf f z ->
    fmax f <= x * x \/ fmax f <= y * y \/ fmax f <= z * z ->
    exists th ph,
      frepresent_as f L m deg (S n) nokw (cart3 x y z) CSph
        = Ok false (PSph (mkDist KDistance None) th ph).
Proof.
  intros f L m deg n x y z ok Lok Ix Iy Iz H.
  assert (K : forall v, fmax f <= v * v -> @nsq ext (NF f L) (Some v) = None).
  { intros v Hv. unfold nsq. cbn. unfold fop, fin.
    assert (E : Rltb (Rabs (frnd f (v * v))) (fmax f) = false).
    { apply Rltb_false. eapply Rle_trans; [| apply Rle_abs].
      apply rn_ge_F; auto. apply F_bpow; auto. destruct ok as (H1 & H2 & H3). lia. }
    now rewrite E. }
  assert (N : forall a b c : ext, a = None \/ b = None \/ c = None ->
     @nsqrt ext (NF f L) (@nadd ext (NF f L) (@nadd ext (NF f L) a b) c) = None).
  { intros a b c [-> | [-> | ->] ]; auto. cbn. now destruct a. cbn. now destruct (flift2 _ a b). }
  destruct (fl_atan2_wrap f L ok Lok y x Iy Ix) as (v & Ev & Iv & Bv).
  exists None, (Some v). unfold frepresent_as, cart3. step. change (Num_fl f L) with (NF f L). cbv zeta.
  rewrite N. 2:{ destruct H as [H|[H|H]]; rewrite (K _ H); auto. }
  unfold mk_Sph. cbn [conv_r length_of_kind dval conv_az]. rewrite Ev, fl_ang0, fl_angPI by auto.
  unfold check_nonneg. rewrite fl_cst0 by auto. destruct m; reflexivity.
Qed.
Example C59_finding_long_vector_has_no_radius_ex : exists th ph,
  frepresent_as binary32 (cr_libm binary32) Eager true 1 nokw (cart3 (bpow radix2 65) 0 0) CSph
    = Ok false (PSph (mkDist KDistance None) th ph).
Proof.
  assert (ok := binary32_ok).
  apply C59_finding_long_vector_has_no_radius; auto using cr_libm_ok.
  - split. apply F_bpow; auto. simpl; lia.
    rewrite Rabs_pos_eq by apply bpow_ge_0. apply bpow_lt. simpl; lia.
  - apply (usable_int binary32 0); auto; lia.
  - apply (usable_int binary32 0); auto; lia.
  - left. rewrite <- bpow_plus. apply bpow_le. simpl; lia.
Qed.

(** Close to the axis the polar angle is lost: every point (x, 0, 1) with
    x^2 <= u/2 (|x| < 1.7e-4 in binary32, 7e-9 in binary64) is converted to
    polar angle exactly 0. *)
Theorem C59_finding_small_polar_angle_lost :
  forall f L m deg n x,
    fmt_ok f -> libm_ok f L -> isf f x -> x * x <= fu f / 2 ->
    exists ph,
      frepresent_as f L m deg (S n) nokw (cart3 x 0 1) CSph
        = Ok false (PSph (fdist 1) (Some 0) (Some ph)).
Proof.
  intros f L m deg n x ok Lok Ix Hx.
  pose proof (fu_pos f) as Pu. pose proof (fu_small f ok) as Su.
  assert (S1 : forall v, Rabs v <= 16 -> fop f v = Some (frnd f v)) by (intros; now apply fop_small).
  set (a := frnd f (x * x)).
  assert (Fu2 : generic_format radix2 (fexp_of f) (fu f / 2)).
  { replace (fu f / 2) with (bpow radix2 (- fprec f - 1)).
    apply F_bpow; auto. destruct ok as (H1 & H2 & H3). lia.
    unfold fu, Zminus. rewrite bpow_plus. change (bpow radix2 (Z.opp 1)) with (/ 2). reflexivity. }
  assert (Ba : 0 <= a <= fu f / 2).
  { unfold a. split. apply rn_ge_F; auto. apply F0. nra. apply rn_le_F; auto. }
  assert (Fa : generic_format radix2 (fexp_of f) a) by (apply rn_F; auto).
  assert (E1 : @nsq ext (NF f L) (Some x) = Some a).
  { unfold nsq. cbn. apply S1. rewrite Rabs_pos_eq by nra. lra. }
  assert (E2 : @nsq ext (NF f L) (Some 0) = Some 0).
  { unfold nsq. cbn. rewrite Rmult_0_l, S1 by (rewrite Rabs_R0; lra). now rewrite rn0. }
  assert (E3 : @nsq ext (NF f L) (Some 1) = Some 1).
  { unfold nsq. cbn. rewrite Rmult_1_l, S1 by (rewrite Rabs_R1; lra). rewrite rn_id; auto. now apply F1. }
  assert (E4 : @nadd ext (NF f L) (Some a) (Some 0) = Some a).
  { cbn. rewrite Rplus_0_r, S1 by (rewrite Rabs_pos_eq; lra). now rewrite rn_id. }
  assert (E5 : @nadd ext (NF f L) (Some a) (Some 1) = Some 1).
  { cbn. rewrite S1 by (rewrite Rabs_pos_eq; lra). f_equal.
    assert (V : Valid_exp (fexp_of f)) by (apply FLT_exp_valid; destruct ok; unfold Prec_gt_0; lia).
    apply Rle_antisym.
    - apply round_N_le_midp; auto. now apply F1.
      rewrite succ_eq_pos by lra. rewrite ulp_neq_0 by lra. unfold cexp.
      change 1 with (bpow radix2 0). rewrite mag_bpow.
      unfold fexp_of, FLT_exp. rewrite Z.max_l by (destruct ok as (H1 & H2 & _); lia).
      replace (0 + 1 - fprec f)%Z with (- fprec f + 1)%Z by lia. rewrite bpow_plus.
      change (bpow radix2 1) with 2. change (bpow radix2 0) with 1. fold (fu f). lra.
    - apply rn_ge_F; auto. now apply F1. lra. }
  assert (E6 : @nsqrt ext (NF f L) (Some 1) = Some 1).
  { cbn. assert (Q : Rleb 0 1 = true) by (apply Rleb_true; lra). rewrite Q, sqrt_1, S1 by (rewrite Rabs_R1; lra).
    rewrite rn_id; auto. now apply F1. }
  assert (E7 : @ndiv ext (NF f L) (Some 1) (Some 1) = Some 1).
  { cbn. assert (Q : Reqb 1 0 = false) by (apply Reqb_false; lra). rewrite Q.
    replace (1 / 1) with 1 by field. rewrite S1 by (rewrite Rabs_R1; lra). rewrite rn_id; auto. now apply F1. }
  assert (E8 : @nacos ext (NF f L) (Some 1) = Some 0).
  { cbn. assert (Q1 : Rleb (-1) 1 = true) by (apply Rleb_true; lra).
    assert (Q2 : Rleb 1 1 = true) by (apply Rleb_true; lra). rewrite Q1, Q2. cbn [andb].
    destruct Lok as (_ & _ & _ & H & _). now rewrite H. }
  assert (I0 : isf f 0) by (apply (usable_int f 0); auto; lia).
  destruct (fl_atan2_wrap f L ok Lok 0 x I0 Ix) as (v & Ev & Iv & Bv).
  exists v. unfold frepresent_as, cart3. step. change (Num_fl f L) with (NF f L). cbv zeta.
  rewrite E1, E2, E3, E4, E5, E6, E7, E8.
  unfold mk_Sph. cbn [conv_r length_of_kind dval conv_az].
  pose proof (rnPI_bounds f ok).
  rewrite Ev, fl_check_nonneg by (auto; lra). rewrite fl_ang0, fl_angPI, fl_check_polar by (auto; lra).
  reflexivity.
Qed.
(** e.g. (2^-13, 0, 1) in binary32 *)
Example C59_finding_small_polar_angle_lost_ex : exists ph,
  frepresent_as binary32 (cr_libm binary32) Eager true 1 nokw (cart3 (bpow radix2 (-13)) 0 1) CSph
    = Ok false (PSph (fdist 1) (Some 0) (Some ph)).
Proof.
  assert (ok := binary32_ok).
  apply C59_finding_small_polar_angle_lost; auto using cr_libm_ok.
  - split. apply F_bpow; auto. simpl; lia.
    rewrite Rabs_pos_eq by apply bpow_ge_0. apply bpow_lt. simpl; lia.
  - rewrite <- bpow_plus. unfold fu. change (- fprec binary32)%Z with (-24)%Z.
    replace (bpow radix2 (-24) / 2) with (bpow radix2 (-25)).
    apply bpow_le; lia.
    change (-25)%Z with (-24 + -1)%Z. rewrite bpow_plus. change (bpow radix2 (-1)) with (/2). reflexivity.
Qed.

Print Assumptions C59_cartesian_to_spherical.
Print Assumptions C59_cartesian_to_mathspherical.
Print Assumptions C59_cartesian_to_lonlat.
Print Assumptions C59_cartesian_to_cylindrical.
Print Assumptions C59_cylindrical_to_spherical.
Print Assumptions C59_cartesian2_to_polar.
Print Assumptions C59_radius_accuracy.
Print Assumptions C59_finding_short_vector_has_no_direction.
Print Assumptions C59_finding_long_vector_has_no_radius.
Print Assumptions C59_finding_small_polar_angle_lost.
