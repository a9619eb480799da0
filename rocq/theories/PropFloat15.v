(** * C82: the three spherical representations in floating point.

    Angles are in radians; [frnd f PI / 2] is the float nearest to 90 degrees.
    The colatitude/latitude exchange is one rounded subtraction. *)
From Coq Require Import Reals Bool List ZArith Lra Lia.
From Flocq Require Import Core.
From Flocq Require Import Sterbenz.
From Verif Require Import Num Vectors Transform Pos3D Float FloatThm FloatConv PropFloat PropFloat3.
Open Scope R_scope.

(** ** Spherical and MathSpherical: the same numbers, bit for bit *)

(** [p] is any object the constructor accepts, finite or not. *)
Theorem C82_spherical_mathspherical_exact :
  forall f L m deg n (d : dist ext) (th ph : ext) p,
    @mk_Sph ext (Num_fl f L) m (RKeep d) th (AsAngle ph) = Ok false p ->
    frepresent_as f L m deg (S n) nokw p CMSph = Ok false (PMSph d ph th) /\
    frepresent_as f L m deg (S n) nokw (PMSph d ph th) CSph = Ok false p.
Proof.
  intros f L m deg n d th ph p H.
  assert (E : p = PSph d th ph).
  { revert H. unfold mk_Sph. cbn [conv_r]. destruct (check_nonneg m (dval d)) as [w1 []|]; [|discriminate].
    destruct (check_polar m _ _ th) as [w2 []|]; [|discriminate]. cbn. intros H. injection H. auto. }
  subst p. revert H. unfold mk_Sph. cbn [conv_r]. intros H.
  split; unfold frepresent_as; step; [unfold mk_MSph | unfold mk_Sph]; cbn [conv_r conv_az] in *.
  - destruct (check_nonneg m (dval d)) as [w1 []|]; [|discriminate].
    destruct (check_polar m _ _ th) as [w2 []|]; [|discriminate].
    cbn in *. injection H as ->. reflexivity.
  - exact H.
Qed.
Theorem C82_mathspherical_spherical_exact :
  forall f L m deg n (d : dist ext) (az po : ext) p,
    @mk_MSph ext (Num_fl f L) m (RKeep d) (AsAngle az) po = Ok false p ->
    frepresent_as f L m deg (S n) nokw p CSph = Ok false (PSph d po az) /\
    frepresent_as f L m deg (S n) nokw (PSph d po az) CMSph = Ok false p.
Proof.
  intros f L m deg n d az po p H.
  assert (E : p = PMSph d az po).
  { revert H. unfold mk_MSph. cbn [conv_r]. destruct (check_nonneg m (dval d)) as [w1 []|]; [|discriminate].
    destruct (check_polar m _ _ po) as [w2 []|]; [|discriminate]. cbn. intros H. injection H. auto. }
  subst p. revert H. unfold mk_MSph. cbn [conv_r]. intros H.
  split; unfold frepresent_as; step; [unfold mk_Sph | unfold mk_MSph]; cbn [conv_r conv_az] in *.
  - destruct (check_nonneg m (dval d)) as [w1 []|]; [|discriminate].
    destruct (check_polar m _ _ po) as [w2 []|]; [|discriminate].
    cbn in *. injection H as ->. reflexivity.
  - exact H.
Qed.
Example C82_spherical_mathspherical_exact_ex :
  frepresent_as binary32 (cr_libm binary32) Eager true 1 nokw (PSph (fdist 5) (Some 1) (Some 2)) CMSph
    = Ok false (PMSph (fdist 5) (Some 2) (Some 1)).
Proof.
  assert (ok := binary32_ok). pose proof (rnPI_bounds _ ok).
  refine (proj1 (C82_spherical_mathspherical_exact binary32 (cr_libm binary32) Eager true 0 (fdist 5) (Some 1) (Some 2) _ _)).
  unfold mk_Sph. cbn [conv_r dval fdist]. change (Num_fl binary32 (cr_libm binary32)) with (NF binary32 (cr_libm binary32)).
  rewrite fl_check_nonneg, fl_ang0, fl_angPI, fl_check_polar by (auto; lra). reflexivity.
Qed.

(** ** 90 degrees minus an angle, in floating point *)
Definition colat (f : fmt) (a : R) : R := frnd f (frnd f PI / 2 - a).

Lemma F_half f : fmt_ok f -> generic_format radix2 (fexp_of f) (frnd f PI / 2).
Proof. intros ok. rewrite <- (rn_PI2 f ok). apply rn_F; auto. Qed.

Lemma rn_PI4 f : fmt_ok f -> frnd f (PI / 4) = frnd f PI / 4.
Proof.
  intros ok. pose proof PI_bounds. pose proof (min_normal_small f ok).
  pose proof (rn_scale f PI (-2)) as Q. simpl in Q. unfold Rdiv.
  apply Q. lra. rewrite Rabs_pos_eq; lra. rewrite Rabs_pos_eq; lra.
Qed.

Lemma sterbenz_F f a b : fmt_ok f -> generic_format radix2 (fexp_of f) a -> generic_format radix2 (fexp_of f) b ->
  b / 2 <= a <= 2 * b -> generic_format radix2 (fexp_of f) (a - b).
Proof.
  intros ok Fa Fb H.
  assert (V : Valid_exp (fexp_of f)) by (apply FLT_exp_valid; destruct ok; unfold Prec_gt_0; lia).
  assert (M : Monotone_exp (fexp_of f)) by (apply FLT_exp_monotone).
  now apply sterbenz.
Qed.

(** on the half of the circle on the other side: exact, and its own inverse *)
Lemma colat_exact f a : fmt_ok f -> generic_format radix2 (fexp_of f) a ->
  frnd f PI / 4 <= a <= frnd f PI -> colat f a = frnd f PI / 2 - a /\ colat f (colat f a) = a.
Proof.
  intros ok Fa H. pose proof (F_half f ok) as Fh. pose proof (rnPI_bounds f ok) as BP.
  assert (E : colat f a = frnd f PI / 2 - a).
  { unfold colat. apply rn_id; auto. apply sterbenz_F; auto. lra. }
  split; [exact E|]. rewrite E. unfold colat.
  replace (frnd f PI / 2 - (frnd f PI / 2 - a)) with a by ring. now apply rn_id.
Qed.
Lemma colat_range f a : fmt_ok f -> generic_format radix2 (fexp_of f) a ->
  - (frnd f PI / 2) <= a <= frnd f PI ->
  isf f (colat f a) /\ - (frnd f PI / 2) <= colat f a <= frnd f PI /\
  (0 <= a -> colat f a <= frnd f PI / 2) /\ (a <= frnd f PI / 2 -> 0 <= colat f a) /\
  Rabs (colat f a - (frnd f PI / 2 - a)) <= 4 * fu f /\
  (a <= frnd f PI / 4 -> frnd f PI / 4 <= colat f a).
Proof.
  intros ok Fa H. pose proof (F_half f ok) as Fh. pose proof (rnPI_bounds f ok) as BP.
  assert (FP : generic_format radix2 (fexp_of f) (frnd f PI)) by (apply rn_F; auto).
  assert (B : - (frnd f PI / 2) <= colat f a <= frnd f PI).
  { unfold colat. split. apply rn_ge_F; auto. now apply F_opp. lra. apply rn_le_F; auto. lra. }
  split; [| split; [exact B | split; [| split; [| split] ] ] ].
  - apply small_isf; auto. unfold colat. apply rn_F; auto. apply Rabs_le; lra.
  - intros P. unfold colat. apply rn_le_F; auto. lra.
  - intros P. unfold colat. apply rn_ge_F; auto. apply F0. lra.
  - unfold colat. destruct (rn_add_rel f ok (frnd f PI / 2) (- a) Fh ltac:(now apply F_opp)) as (e & He & E).
    unfold Rminus at 2. rewrite E. unfold Rminus.
    replace ((frnd f PI / 2 + - a) * (1 + e) + - (frnd f PI / 2 + - a)) with ((frnd f PI / 2 + - a) * e) by ring.
    rewrite Rabs_mult. pose proof (fu_pos f).
    assert (Q : Rabs (frnd f PI / 2 + - a) <= 6) by (apply Rabs_le; lra).
    assert (Q' : Rabs (frnd f PI / 2 + - a) <= 4) by (apply Rabs_le; lra).
    apply Rmult_le_compat; auto using Rabs_pos.
  - intros P. unfold colat. apply rn_ge_F; auto. 2: lra.
    rewrite <- (rn_PI4 f ok). apply rn_F; auto.
Qed.
(** exchanging twice: exact beyond 45 degrees, else one rounding; a third
    exchange gives the second number again *)
Lemma colat_twice f a : fmt_ok f -> generic_format radix2 (fexp_of f) a ->
  - (frnd f PI / 2) <= a <= frnd f PI ->
  Rabs (colat f (colat f a) - a) <= 4 * fu f /\ colat f (colat f (colat f a)) = colat f a.
Proof.
  intros ok Fa H. pose proof (fu_pos f) as Pu.
  destruct (colat_range f a ok Fa H) as (I1 & B1 & _ & _ & A1 & S1).
  destruct (Rle_or_lt (frnd f PI / 4) a) as [G|G].
  - destruct (colat_exact f a ok Fa ltac:(lra)) as [_ E]. rewrite E. split; [| reflexivity].
    unfold Rminus. rewrite Rplus_opp_r, Rabs_R0. lra.
  - destruct (colat_exact f (colat f a) ok (proj1 I1)) as [E E'].
    { split; [apply S1; lra | lra]. }
    split; [| exact E']. rewrite E.
    replace (frnd f PI / 2 - colat f a - a) with (- (colat f a - (frnd f PI / 2 - a))) by ring.
    now rewrite Rabs_Ropp.
Qed.

(** ** Spherical and LonLat *)
Lemma sub_colat f L a : fmt_ok f -> - (frnd f PI / 2) <= a <= frnd f PI ->
  @nsub ext (NF f L) (@nang ext (NF f L) (PI / 2)) (Some a) = Some (colat f a).
Proof.
  intros ok H. pose proof (rnPI_bounds f ok). rewrite fl_angPI2 by auto. cbn. apply fop_small; auto. apply Rabs_le; lra.
Qed.
Lemma sph_lonlat f L m deg n r th ph : fmt_ok f -> 0 <= r -> polar_ok f th ->
  frepresent_as f L m deg (S n) nokw (PSph (fdist r) (Some th) ph) CLonLat
    = Ok false (PLonLat ph (Some (colat f th)) (fdist r)) /\ latitude_ok f (colat f th).
Proof.
  intros ok Hr [It Bt]. pose proof (rnPI_bounds f ok) as BP.
  destruct (colat_range f th ok (proj1 It)) as (I1 & B1 & U1 & _ & _). lra.
  assert (U : colat f th <= frnd f PI / 2) by (apply U1; lra).
  split; [| split; [exact I1 | lra] ].
  unfold frepresent_as. step. unfold mk_LonLat. change (Num_fl f L) with (NF f L).
  rewrite sub_colat by (auto; lra). cbn [conv_r dval conv_az fdist].
  rewrite fl_angPI2 by auto. change (@nneg ext (NF f L) (Some (frnd f PI / 2))) with (Some (- (frnd f PI / 2)) : ext).
  rewrite fl_check_polar by (auto; lra). cbn [bind ret orb]. rewrite fl_check_nonneg by (auto; lra). reflexivity.
Qed.
Lemma lonlat_sph f L m deg n r la lon : fmt_ok f -> 0 <= r -> latitude_ok f la ->
  frepresent_as f L m deg (S n) nokw (PLonLat lon (Some la) (fdist r)) CSph
    = Ok false (PSph (fdist r) (Some (colat f la)) lon) /\ polar_ok f (colat f la).
Proof.
  intros ok Hr [It Bt]. pose proof (rnPI_bounds f ok) as BP.
  destruct (colat_range f la ok (proj1 It)) as (I1 & B1 & _ & U1 & _). lra.
  assert (U : 0 <= colat f la) by (apply U1; lra).
  split; [| split; [exact I1 | lra] ].
  unfold frepresent_as. step. unfold mk_Sph. change (Num_fl f L) with (NF f L).
  rewrite sub_colat by (auto; lra). cbn [conv_r dval conv_az fdist].
  rewrite fl_check_nonneg, fl_ang0, fl_angPI, fl_check_polar by (auto; lra). reflexivity.
Qed.

(** The radius and the azimuth are copied bit for bit; the polar angle comes
    back exactly from 45 degrees on, and elsewhere up to one rounding. *)
Theorem C82_spherical_lonlat_round_trip :
  forall f L m deg n r th ph,
    fmt_ok f -> 0 <= r -> polar_ok f th ->
    exists la th',
      frepresent_as f L m deg (S n) nokw (PSph (fdist r) (Some th) ph) CLonLat
        = Ok false (PLonLat ph (Some la) (fdist r)) /\ latitude_ok f la /\
      frepresent_as f L m deg (S n) nokw (PLonLat ph (Some la) (fdist r)) CSph
        = Ok false (PSph (fdist r) (Some th') ph) /\ polar_ok f th' /\
      Rabs (la - (frnd f PI / 2 - th)) <= 4 * fu f /\ Rabs (th' - th) <= 4 * fu f /\
      (frnd f PI / 4 <= th -> la = frnd f PI / 2 - th /\ th' = th).
Proof.
  intros f L m deg n r th ph ok Hr P. pose proof (rnPI_bounds f ok) as BP.
  destruct (sph_lonlat f L m deg n r th ph ok Hr P) as [E1 P1].
  destruct (lonlat_sph f L m deg n r (colat f th) ph ok Hr P1) as [E2 P2].
  destruct P as [It Bt].
  destruct (colat_range f th ok (proj1 It)) as (_ & _ & _ & _ & A1 & _). lra.
  destruct (colat_twice f th ok (proj1 It)) as (A2 & _). lra.
  exists (colat f th), (colat f (colat f th)). do 6 (split; [assumption|]).
  intros G. apply colat_exact; auto. apply It. lra.
Qed.
Theorem C82_lonlat_spherical_round_trip :
  forall f L m deg n r la lon,
    fmt_ok f -> 0 <= r -> latitude_ok f la ->
    exists th la',
      frepresent_as f L m deg (S n) nokw (PLonLat lon (Some la) (fdist r)) CSph
        = Ok false (PSph (fdist r) (Some th) lon) /\ polar_ok f th /\
      frepresent_as f L m deg (S n) nokw (PSph (fdist r) (Some th) lon) CLonLat
        = Ok false (PLonLat lon (Some la') (fdist r)) /\ latitude_ok f la' /\
      Rabs (th - (frnd f PI / 2 - la)) <= 4 * fu f /\ Rabs (la' - la) <= 4 * fu f /\
      (frnd f PI / 4 <= la -> th = frnd f PI / 2 - la /\ la' = la) /\
      frepresent_as f L m deg (S n) nokw (PLonLat lon (Some la') (fdist r)) CSph
        = Ok false (PSph (fdist r) (Some th) lon).
Proof.
  intros f L m deg n r la lon ok Hr P. pose proof (rnPI_bounds f ok) as BP.
  destruct (lonlat_sph f L m deg n r la lon ok Hr P) as [E1 P1].
  destruct (sph_lonlat f L m deg n r (colat f la) lon ok Hr P1) as [E2 P2].
  destruct (lonlat_sph f L m deg n r _ lon ok Hr P2) as [E3 P3].
  destruct P as [It Bt].
  destruct (colat_range f la ok (proj1 It)) as (_ & _ & _ & _ & A1 & _). lra.
  destruct (colat_twice f la ok (proj1 It)) as (A2 & S2). lra.
  rewrite S2 in E3.
  exists (colat f la), (colat f (colat f la)). do 6 (split; [assumption|]). split; [| exact E3].
  intros G. apply colat_exact; auto. apply It. lra.
Qed.
Lemma polar_1 f : fmt_ok f -> polar_ok f 1.
Proof.
  intros ok. pose proof (rnPI_bounds f ok). split; [| lra]. apply (usable_int f 1); auto; lia.
Qed.
Lemma latitude_1 f : fmt_ok f -> latitude_ok f 1.
Proof.
  intros ok. pose proof (rnPI_bounds f ok). split; [| lra]. apply (usable_int f 1); auto; lia.
Qed.
Example C82_spherical_lonlat_round_trip_ex : exists la,
  frepresent_as binary64 (cr_libm binary64) Eager true 1 nokw (PSph (fdist 5) (Some 1) (Some 2)) CLonLat
    = Ok false (PLonLat (Some 2) (Some la) (fdist 5)) /\
  frepresent_as binary64 (cr_libm binary64) Eager true 1 nokw (PLonLat (Some 2) (Some la) (fdist 5)) CSph
    = Ok false (PSph (fdist 5) (Some 1) (Some 2)).
Proof.
  assert (ok := binary64_ok). pose proof (rnPI_bounds _ ok).
  destruct (C82_spherical_lonlat_round_trip binary64 (cr_libm binary64) Eager true 0 5 1 (Some 2) ok ltac:(lra) (polar_1 _ ok))
    as (la & th' & E1 & _ & E2 & _ & _ & _ & X).
  destruct X as [_ ->]. lra. exists la. auto.
Qed.
Example C82_lonlat_spherical_round_trip_ex : exists th,
  frepresent_as binary64 (cr_libm binary64) Eager true 1 nokw (PLonLat (Some 2) (Some 1) (fdist 5)) CSph
    = Ok false (PSph (fdist 5) (Some th) (Some 2)) /\
  frepresent_as binary64 (cr_libm binary64) Eager true 1 nokw (PSph (fdist 5) (Some th) (Some 2)) CLonLat
    = Ok false (PLonLat (Some 2) (Some 1) (fdist 5)).
Proof.
  assert (ok := binary64_ok). pose proof (rnPI_bounds _ ok).
  destruct (C82_lonlat_spherical_round_trip binary64 (cr_libm binary64) Eager true 0 5 1 (Some 2) ok ltac:(lra) (latitude_1 _ ok))
    as (la & th' & E1 & _ & E2 & _ & _ & _ & X & _).
  destruct X as [_ ->]. lra. exists la. auto.
Qed.

(** ** Finding: directions within u of the north pole become the pole *)
Theorem C82_finding_near_pole :
  forall f L m deg n r th ph,
    fmt_ok f -> 0 <= r -> isf f th -> 0 <= th < fu f ->
    frepresent_as f L m deg (S n) nokw (PSph (fdist r) (Some th) ph) CLonLat
      = Ok false (PLonLat ph (Some (frnd f PI / 2)) (fdist r)) /\
    frepresent_as f L m deg (S n) nokw (PLonLat ph (Some (frnd f PI / 2)) (fdist r)) CSph
      = Ok false (PSph (fdist r) (Some 0) ph).
Proof.
  intros f L m deg n r th ph ok Hr It Bt. pose proof (rnPI_bounds f ok) as BP.
  pose proof (fu_small f ok) as Su. pose proof (F_half f ok) as Fh.
  assert (P : polar_ok f th) by (split; [auto | lra]).
  destruct (sph_lonlat f L m deg n r th ph ok Hr P) as [E1 P1].
  destruct (lonlat_sph f L m deg n r (colat f th) ph ok Hr P1) as [E2 _].
  assert (E : colat f th = frnd f PI / 2).
  { set (p := frnd f PI / 2) in *. set (x := colat f th).
    assert (Fx : generic_format radix2 (fexp_of f) x) by (unfold x, colat; apply rn_F; auto).
    assert (Ux : x <= p) by (unfold x, colat; fold p; apply rn_le_F; auto; lra).
    assert (Lx : 1 <= x) by (unfold x, colat; fold p; apply rn_ge_F; auto; [now apply F1 | unfold p; lra]).
    destruct Ux as [Ux|Ux]; auto. exfalso.
    assert (V : Valid_exp (fexp_of f)) by (apply FLT_exp_valid; destruct ok; unfold Prec_gt_0; lia).
    assert (G : x + ulp radix2 (fexp_of f) x <= p).
    { rewrite <- succ_eq_pos by lra. now apply succ_le_lt. }
    assert (M : Monotone_exp (fexp_of f)) by (apply FLT_exp_monotone).
    assert (U : 2 * fu f <= ulp radix2 (fexp_of f) x).
    { apply Rle_trans with (ulp radix2 (fexp_of f) 1).
      - rewrite ulp_neq_0 by lra. unfold cexp.
        change 1 with (bpow radix2 0) at 1. rewrite mag_bpow.
        unfold fexp_of, FLT_exp. rewrite Z.max_l by (destruct ok as (H1 & H2 & _); lia).
        replace (0 + 1 - fprec f)%Z with (1 + - fprec f)%Z by lia. rewrite bpow_plus.
        change (bpow radix2 1) with 2. fold (fu f). lra.
      - apply ulp_le; auto. rewrite !Rabs_pos_eq; lra. }
    assert (N : Rabs (x - (p - th)) <= Rabs (p - (p - th))).
    { unfold x, colat. fold p. unfold frnd.
      destruct (round_N_pt radix2 (fexp_of f) (fun t => negb (Z.even t)) (p - th)) as [_ K]. apply K; auto. }
    replace (p - (p - th)) with th in N by ring. rewrite (Rabs_pos_eq th) in N by lra.
    apply Rabs_le_inv in N. lra. }
  rewrite E in E1, E2. split; [exact E1|].
  replace 0 with (colat f (frnd f PI / 2)) at 1; [exact E2|].
  unfold colat. unfold Rminus. rewrite Rplus_opp_r. apply rn0.
Qed.
Example C82_finding_near_pole_ex :
  frepresent_as binary32 (cr_libm binary32) Eager true 1 nokw (PSph (fdist 5) (Some (bpow radix2 (-25))) (Some 2)) CLonLat
    = Ok false (PLonLat (Some 2) (Some (frnd binary32 PI / 2)) (fdist 5)).
Proof.
  assert (ok := binary32_ok).
  apply (C82_finding_near_pole binary32 (cr_libm binary32) Eager true 0); auto. lra.
  - split. apply F_bpow; auto. simpl; lia.
    rewrite Rabs_pos_eq by apply bpow_ge_0. apply bpow_lt. simpl; lia.
  - split. apply bpow_ge_0. apply bpow_lt. simpl; lia.
Qed.

(** ** Sky coordinates to Cartesian *)
Lemma rnPI2_err f : fmt_ok f -> Rabs (frnd f PI / 2 - PI / 2) <= 2 * fu f.
Proof.
  intros ok. pose proof PI_bounds. pose proof (min_normal_small f ok). pose proof (fu_pos f).
  destruct (rn_rel f ok PI) as (e & He & E). { right. rewrite Rabs_pos_eq; lra. }
  rewrite E. replace (PI * (1 + e) / 2 - PI / 2) with (PI / 2 * e) by field.
  rewrite Rabs_mult, (Rabs_pos_eq (PI / 2)) by lra. pose proof (Rabs_pos e). nra.
Qed.
Theorem C82_lonlat_to_cartesian_accuracy :
  forall f L e m deg n r la lon,
    fmt_ok f -> libm_ok f L -> libm_accurate f L e -> isf f r -> 0 <= r -> latitude_ok f la -> isf f lon ->
    exists x y z,
      frepresent_as f L m deg (S (S n)) nokw (PLonLat (Some lon) (Some la) (fdist r)) CCart3
        = Ok false (cart3 x y z) /\
      isf f x /\ isf f y /\ isf f z /\
      Rabs (x - r * cos la * cos lon) <= (8 * fu f + 2 * e) * r + 2 * eta f /\
      Rabs (y - r * cos la * sin lon) <= (8 * fu f + 2 * e) * r + 2 * eta f /\
      Rabs (z - r * sin la) <= (7 * fu f + e) * r + eta f.
Proof.
  intros f L e m deg n r la lon ok Lok Lacc Ir Hr P Il.
  destruct (lonlat_sph f L m deg n r la (Some lon) ok Hr P) as [E1 [I1 B1]].
  destruct (C61_spherical_to_cartesian_accuracy f L e m deg n r (colat f la) lon ok Lok Lacc Ir I1 Il)
    as (x & y & z & E2 & Ix & Iy & Iz & Ax & Ay & Az).
  pose proof (rnPI_bounds f ok) as BP.
  destruct P as [It Bt].
  destruct (colat_range f la ok (proj1 It)) as (_ & _ & _ & _ & A1 & _). lra.
  rewrite (Rabs_pos_eq r) in Ax, Ay, Az by auto.
  assert (T : Rabs (colat f la - (PI / 2 - la)) <= 6 * fu f).
  { replace (colat f la - (PI / 2 - la)) with ((colat f la - (frnd f PI / 2 - la)) + (frnd f PI / 2 - PI / 2)) by ring.
    eapply Rle_trans. apply Rabs_triang. pose proof (rnPI2_err f ok). lra. }
  assert (Ts : Rabs (sin (colat f la) - cos la) <= 6 * fu f).
  { rewrite <- sin_shift. eapply Rle_trans. apply sin_lip. exact T. }
  assert (Tc : Rabs (cos (colat f la) - sin la) <= 6 * fu f).
  { rewrite <- cos_shift. eapply Rle_trans. apply cos_lip. exact T. }
  exists x, y, z. split.
  { unfold frepresent_as in *. step. rewrite E1. unfold bind at 1. cbn beta iota.
    rewrite E2. reflexivity. }
  do 3 (split; [assumption|]).
  assert (K : forall t w, Rabs w <= 1 -> Rabs (t - r * sin (colat f la) * w) <= 2 * (fu f + e) * r + 2 * eta f ->
     Rabs (t - r * cos la * w) <= (8 * fu f + 2 * e) * r + 2 * eta f).
  { intros t w Hw Ht. replace (t - r * cos la * w) with
      ((t - r * sin (colat f la) * w) + r * ((sin (colat f la) - cos la) * w)) by ring.
    eapply Rle_trans. apply Rabs_triang. rewrite (Rabs_mult r), (Rabs_pos_eq r) by auto.
    assert (Rabs ((sin (colat f la) - cos la) * w) <= 6 * fu f * 1).
    { rewrite Rabs_mult. apply Rmult_le_compat; auto using Rabs_pos. }
    assert (r * Rabs ((sin (colat f la) - cos la) * w) <= r * (6 * fu f * 1)) by (apply Rmult_le_compat_l; auto).
    lra. }
  split; [| split].
  - apply K; auto. apply Rabs_le. apply COS_bound.
  - apply K; auto. apply Rabs_le. apply SIN_bound.
  - replace (z - r * sin la) with ((z - r * cos (colat f la)) + r * (cos (colat f la) - sin la)) by ring.
    eapply Rle_trans. apply Rabs_triang. rewrite (Rabs_mult r), (Rabs_pos_eq r) by auto.
    assert (r * Rabs (cos (colat f la) - sin la) <= r * (6 * fu f)) by (apply Rmult_le_compat_l; auto).
    lra.
Qed.
Example C82_lonlat_to_cartesian_accuracy_ex : exists x y z,
  frepresent_as binary64 (cr_libm binary64) Eager true 2 nokw (PLonLat (Some 2) (Some 1) (fdist 5)) CCart3
    = Ok false (cart3 x y z).
Proof.
  assert (ok := binary64_ok).
  destruct (C82_lonlat_to_cartesian_accuracy binary64 (cr_libm binary64) _ Eager true 0 5 1 2 ok
    (cr_libm_ok _ ok) (cr_libm_accurate _ ok)) as (x & y & z & E & _); auto using latitude_1.
  - apply (usable_int binary64 5); auto; lia.
  - lra.
  - apply (usable_int binary64 2); auto; lia.
  - exists x, y, z. exact E.
Qed.
Theorem C82_mathspherical_to_cartesian_accuracy :
  forall f L e m deg n r az po,
    fmt_ok f -> libm_ok f L -> libm_accurate f L e -> isf f r -> isf f az -> isf f po ->
    exists x y z,
      frepresent_as f L m deg (S n) nokw (PMSph (fdist r) (Some az) (Some po)) CCart3
        = Ok false (cart3 x y z) /\
      isf f x /\ isf f y /\ isf f z /\
      Rabs (x - r * sin po * cos az) <= 2 * (fu f + e) * Rabs r + 2 * eta f /\
      Rabs (y - r * sin po * sin az) <= 2 * (fu f + e) * Rabs r + 2 * eta f /\
      Rabs (z - r * cos po) <= (fu f + e) * Rabs r + eta f.
Proof.
  intros f L e m deg n r az po ok Lok Lacc Ir Ia Ip.
  destruct (C61_spherical_to_cartesian_accuracy f L e m deg n r po az ok Lok Lacc Ir Ip Ia)
    as (x & y & z & E & H).
  exists x, y, z. split; [| exact H]. revert E. unfold frepresent_as. step. step. auto.
Qed.
Example C82_mathspherical_to_cartesian_accuracy_ex : exists x y z,
  frepresent_as binary64 (cr_libm binary64) Eager true 1 nokw (PMSph (fdist 5) (Some 2) (Some 1)) CCart3
    = Ok false (cart3 x y z).
Proof.
  assert (ok := binary64_ok).
  destruct (C82_mathspherical_to_cartesian_accuracy binary64 (cr_libm binary64) _ Eager true 0 5 2 1 ok
    (cr_libm_ok _ ok) (cr_libm_accurate _ ok)) as (x & y & z & E & _);
    try (match goal with |- isf _ ?v => apply (usable_int binary64); auto; lia end).
  exists x, y, z. exact E.
Qed.

Print Assumptions C82_spherical_mathspherical_exact.
Print Assumptions C82_mathspherical_spherical_exact.
Print Assumptions C82_spherical_lonlat_round_trip.
Print Assumptions C82_lonlat_spherical_round_trip.
Print Assumptions C82_finding_near_pole.
Print Assumptions C82_lonlat_to_cartesian_accuracy.
Print Assumptions C82_mathspherical_to_cartesian_accuracy.
