(** * C81: the round trip Cartesian -> spherical -> Cartesian in floating point.

    [e], [ea] and [ec] bound the absolute errors of sine and cosine, of atan2
    and of acos of the mathematical library. *)
From Coq Require Import Reals Bool List ZArith Lra Lia.
From Flocq Require Import Core.
From Verif Require Import Num Vectors Transform Pos3D Float FloatThm FloatConv PropFloat PropFloat3.
Open Scope R_scope.

Definition acos_accurate (f : fmt) (L : libm) (ec : R) : Prop :=
  forall c, isf f c -> -1 <= c <= 1 -> Rabs (m_acos L c - acos c) <= ec.

Lemma cr_libm_acos f : fmt_ok f -> acos_accurate f (cr_libm f) (4 * fu f + eta f).
Proof.
  intros ok c _ _. cbn. eapply Rle_trans. apply rn_err; auto. pose proof (acos_bound c).
  pose proof (fu_pos f). pose proof PI_bounds.
  assert (Rabs (acos c) <= 4) by (apply Rabs_le; lra). unfold eta. nra.
Qed.

(** ** Real analysis: how an error of the cosine becomes one of the sine *)
Lemma sqrt_diff a b : 0 <= a -> 0 <= b -> Rabs (sqrt a - sqrt b) <= sqrt (Rabs (a - b)).
Proof.
  assert (K : forall a b, 0 <= b -> b <= a -> sqrt a - sqrt b <= sqrt (a - b)).
  { intros x y Hy Hx. apply Rsqr_incr_0_var; [| apply sqrt_pos].
    unfold Rsqr. rewrite sqrt_sqrt by lra.
    pose proof (sqrt_sqrt x ltac:(lra)) as E1. pose proof (sqrt_sqrt y Hy) as E2.
    pose proof (sqrt_pos y). assert (sqrt y <= sqrt x) by (now apply sqrt_le_1_alt).
    nra. }
  intros Ha Hb. destruct (Rle_or_lt b a) as [H|H].
  - assert (sqrt b <= sqrt a) by (now apply sqrt_le_1_alt).
    rewrite !Rabs_pos_eq by lra. now apply K.
  - assert (sqrt a <= sqrt b) by (apply sqrt_le_1_alt; lra).
    rewrite (Rabs_minus_sym a b), Rabs_minus_sym. rewrite !Rabs_pos_eq by lra. apply K; lra.
Qed.
Lemma sqrt_diff_div a b : 0 <= a -> 0 < b -> Rabs (sqrt a - sqrt b) <= Rabs (a - b) / sqrt b.
Proof.
  intros Ha Hb. pose proof (sqrt_lt_R0 b Hb) as P. pose proof (sqrt_pos a) as Q.
  apply Rmult_le_reg_r with (sqrt b); auto. unfold Rdiv. rewrite Rmult_assoc, Rinv_l, Rmult_1_r by lra.
  replace (a - b) with ((sqrt a - sqrt b) * (sqrt a + sqrt b)).
  2:{ pose proof (sqrt_sqrt a Ha). pose proof (sqrt_sqrt b ltac:(lra)). nra. }
  rewrite Rabs_mult. apply Rmult_le_compat_l. apply Rabs_pos. rewrite Rabs_pos_eq; lra.
Qed.

(** [th] is computed from a cosine [c] that is [q] up to [g] *)
Lemma polar_sine th c q ec g : -1 <= c <= 1 -> -1 <= q <= 1 ->
  Rabs (th - acos c) <= ec -> Rabs (c - q) <= g ->
  Rabs (cos th - q) <= ec + g /\
  Rabs (sin th - sqrt (1 - q * q)) <= ec + sqrt (2 * g) /\
  (0 < 1 - q * q -> Rabs (sin th - sqrt (1 - q * q)) <= ec + 2 * g / sqrt (1 - q * q)).
Proof.
  intros Hc Hq Ht Hg.
  assert (S : Rabs (sin th - sqrt (1 - c * c)) <= ec).
  { replace (sqrt (1 - c * c)) with (sin (acos c)) by (rewrite sin_acos by lra; unfold Rsqr; reflexivity).
    eapply Rle_trans. apply sin_lip. exact Ht. }
  assert (D : Rabs (1 - c * c - (1 - q * q)) <= 2 * g).
  { replace (1 - c * c - (1 - q * q)) with ((q - c) * (q + c)) by ring.
    rewrite Rabs_mult, (Rabs_minus_sym q c).
    assert (Rabs (q + c) <= 2) by (apply Rabs_le; lra).
    pose proof (Rabs_pos (c - q)). pose proof (Rabs_pos (q + c)). nra. }
  split; [| split].
  - replace (cos th - q) with ((cos th - cos (acos c)) + (c - q)) by (rewrite cos_acos by lra; ring).
    eapply Rle_trans. apply Rabs_triang. apply Rplus_le_compat; auto.
    eapply Rle_trans. apply cos_lip. exact Ht.
  - replace (sin th - sqrt (1 - q * q)) with ((sin th - sqrt (1 - c * c)) + (sqrt (1 - c * c) - sqrt (1 - q * q))) by ring.
    eapply Rle_trans. apply Rabs_triang. apply Rplus_le_compat; auto.
    eapply Rle_trans. apply sqrt_diff; nra. now apply sqrt_le_1_alt.
  - intros P.
    replace (sin th - sqrt (1 - q * q)) with ((sin th - sqrt (1 - c * c)) + (sqrt (1 - c * c) - sqrt (1 - q * q))) by ring.
    eapply Rle_trans. apply Rabs_triang. apply Rplus_le_compat; auto.
    eapply Rle_trans. apply sqrt_diff_div; [nra | exact P].
    apply Rmult_le_compat_r; auto. left. apply Rinv_0_lt_compat. now apply sqrt_lt_R0.
Qed.

(** ** The round trip *)
Theorem C81_cartesian_spherical_round_trip :
  forall f L e ea ec m deg n x y z,
    fmt_ok f -> libm_ok f L -> libm_accurate f L e -> atan2_accurate f L ea -> acos_accurate f L ec ->
    usable f x -> usable f y -> usable f z ->
    no_underflow f x -> no_underflow f y -> no_underflow f z ->
    not_tiny f x \/ not_tiny f y \/ not_tiny f z ->
    exists r th ph x' y' z',
      frepresent_as f L m deg (S n) nokw (cart3 x y z) CSph
        = Ok false (PSph (fdist r) (Some th) (Some ph)) /\
      frepresent_as f L m deg (S n) nokw (PSph (fdist r) (Some th) (Some ph)) CCart3
        = Ok false (cart3 x' y' z') /\
      let d := sqrt (x * x + y * y + z * z) in
      let rho := sqrt (x * x + y * y) in
      let a := (23 * fu f + 3 * e + ea + ec) * d + 2 * eta f in
      let b := 10 * fu f + 2 * eta f in
      Rabs (z' - z) <= (11 * fu f + 2 * e + ec + eta f) * d + eta f /\
      Rabs (x' - x) <= a + sqrt b * d /\
      Rabs (y' - y) <= a + sqrt b * d /\
      (0 < rho -> Rabs (x' - x) <= a + b * (d / rho) * d /\ Rabs (y' - y) <= a + b * (d / rho) * d).
Proof.
  intros f L e ea ec m deg n x y z ok Lok Lacc Aacc Cacc Ux Uy Uz Nx Ny Nz N.
  assert (Ux' := Ux). assert (Uy' := Uy). assert (Uz' := Uz).
  destruct Ux' as [[Fx Ox] Rx]. destruct Uy' as [[Fy Oy] Ry]. destruct Uz' as [[Fz Oz] Rz].
  destruct (fl_norm3 f L ok x y z Fx Fy Fz Rx Ry Rz) as (r & Er & _ & Ir & _ & Br).
  destruct (Br N) as (Pr & Bx & By & Bz).
  destruct (fl_ratio f L ok z r Fz Pr Bz) as (Ed & Bd & Id).
  destruct (fl_acos f L Lok _ Id Bd) as (Ea & Ia & Ba).
  assert (Lok' := Lok). destruct Lok' as (_ & _ & _ & _ & HA).
  destruct (HA y x (conj Fy Oy) (conj Fx Ox)) as [IA BA].
  pose proof (Aacc y x (conj Fy Oy) (conj Fx Ox)) as EA.
  destruct (fl_mk_Sph f L ok m r _ _ (Rlt_le _ _ Pr) Ba IA) as (ph & Bv & Iv & Ew & Em).
  destruct (wrap_atan2_err f L _ _ ok IA BA Ew) as (k & Hk).
  pose proof (Cacc _ Id Bd) as EC.
  set (c := frnd f (z / r)) in *. set (th := m_acos L c) in *.
  assert (E1 : frepresent_as f L m deg (S n) nokw (cart3 x y z) CSph
               = Ok false (PSph (fdist r) (Some th) (Some ph))).
  { unfold frepresent_as, cart3. step. cbv zeta. unfold NF in *. rewrite Er, Ed, Ea. cbn [natan2 Num_fl lift2].
    exact Em. }
  destruct (C61_spherical_to_cartesian_accuracy f L e m deg n r th ph ok Lok Lacc Ir Ia Iv)
    as (x' & y' & z' & E2 & _ & _ & _ & Ax & Ay & Az).
  exists r, th, ph, x', y', z'. split; [exact E1|]. split; [exact E2|].
  pose proof (C59_radius_accuracy f L m deg n x y z r _ _ ok Ux Uy Uz Nx Ny Nz E1) as Hr.
  cbv zeta.
  pose proof (fu_pos f) as Pu. pose proof (fu_small f ok) as Su.
  assert (Peta : 0 <= eta f) by (apply bpow_ge_0).
  set (u := fu f) in *. set (d := sqrt (x * x + y * y + z * z)) in *. set (rho := sqrt (x * x + y * y)) in *.
  assert (Pd : 0 <= d) by apply sqrt_pos.
  assert (Hr' : Rabs (r - d) <= 4 * u * d).
  { assert (1 - 4 * u <= (1 - u) ^ 3) by nra. assert ((1 + u) ^ 3 <= 1 + 4 * u) by nra.
    apply Rabs_le. split; nra. }
  assert (Pd' : 0 < d). { destruct Pd as [Pd|Pd]; auto. rewrite <- Pd in Hr. lra. }
  assert (Hr4 : r <= 5 / 4 * d) by (apply Rabs_le_inv in Hr'; nra).
  assert (Pe : 0 <= e). { destruct Lacc as [K _]. eapply Rle_trans; [apply Rabs_pos | exact (K _ Iv)]. }
  assert (Pea : 0 <= ea) by (eapply Rle_trans; [apply Rabs_pos | exact EA]).
  assert (Pec : 0 <= ec) by (eapply Rle_trans; [apply Rabs_pos | exact EC]).
  rewrite (Rabs_pos_eq r) in Ax, Ay, Az by lra.
  (* the exact direction *)
  assert (DD : d * d = x * x + y * y + z * z) by (apply sqrt_sqrt; nra).
  assert (RR : rho * rho = x * x + y * y) by (apply sqrt_sqrt; nra).
  set (q := z / d). assert (Eq : z = q * d) by (unfold q; field; lra).
  assert (Bq : -1 <= q <= 1).
  { assert (q * q <= 1). { apply Rmult_le_reg_r with (d * d). nra.
      replace (q * q * (d * d)) with (z * z) by (rewrite Eq; ring). nra. }
    nra. }
  assert (Es : sqrt (1 - q * q) = rho / d).
  { apply Rmult_eq_reg_r with d; [| lra]. replace (rho / d * d) with rho by (field; lra).
    rewrite <- (sqrt_square d) at 1 by lra. rewrite <- sqrt_mult by nra. unfold rho. f_equal.
    replace ((1 - q * q) * (d * d)) with (d * d - z * z) by (rewrite Eq; ring). lra. }
  set (s := rho / d) in *.
  assert (Es' : rho = s * d) by (unfold s; field; lra).
  assert (Bs : 0 <= s <= 1).
  { rewrite <- Es. split. apply sqrt_pos. apply Rle_trans with (sqrt 1); [apply sqrt_le_1_alt; pose proof (Rle_0_sqr q); unfold Rsqr in *; lra | rewrite sqrt_1; lra]. }
  assert (Cq : Rabs (c - q) <= 5 * u + eta f).
  { replace (c - q) with ((c - z / r) + (z / r - q)) by ring. eapply Rle_trans. apply Rabs_triang.
    assert (Q : Rabs (z / r) <= 1).
    { unfold Rdiv. rewrite Rabs_mult, (Rabs_pos_eq (/ r)) by (left; now apply Rinv_0_lt_compat).
      apply Rmult_le_reg_r with r; auto. rewrite Rmult_assoc, Rinv_l by lra. lra. }
    assert (Rabs (c - z / r) <= u + eta f).
    { eapply Rle_trans. apply rn_err; auto. fold u. unfold eta. nra. }
    assert (Rabs (z / r - q) <= 4 * u).
    { replace (z / r - q) with (z / r * ((d - r) / d)) by (unfold q; field; lra).
      rewrite Rabs_mult. unfold Rdiv at 2. rewrite Rabs_mult, (Rabs_pos_eq (/ d)) by (left; now apply Rinv_0_lt_compat).
      assert (Rabs (d - r) * / d <= 4 * u).
      { apply Rmult_le_reg_r with d; auto. rewrite Rmult_assoc, Rinv_l by lra. rewrite Rabs_minus_sym. lra. }
      pose proof (Rabs_pos (z / r)).
      assert (0 <= Rabs (d - r) * / d) by (apply Rmult_le_pos; [apply Rabs_pos | left; now apply Rinv_0_lt_compat]).
      nra. }
    lra. }
  destruct (polar_sine th c q ec (5 * u + eta f) Bd Bq EC Cq) as (Hcos & Hsin & Hsin').
  rewrite Es in Hsin, Hsin'.
  (* the azimuth *)
  destruct (Ratan2_polar x y) as [Px Py]. fold rho in Px, Py.
  assert (Hang : Rabs (ph - (Ratan2 y x + 2 * PI * IZR k)) <= 16 * u + ea).
  { replace (ph - (Ratan2 y x + 2 * PI * IZR k)) with
      ((ph - (m_atan2 L y x + 2 * PI * IZR k)) + (m_atan2 L y x - Ratan2 y x)) by ring.
    eapply Rle_trans. apply Rabs_triang. apply Rplus_le_compat; [exact Hk | exact EA]. }
  assert (Hc : Rabs (cos ph - cos (Ratan2 y x)) <= 16 * u + ea).
  { rewrite <- (cos_period_Z (Ratan2 y x) k). eapply Rle_trans. apply cos_lip. exact Hang. }
  assert (Hs : Rabs (sin ph - sin (Ratan2 y x)) <= 16 * u + ea).
  { rewrite <- (sin_period_Z (Ratan2 y x) k). eapply Rle_trans. apply sin_lip. exact Hang. }
  assert (U0 : 0 <= u * d) by nra. assert (U1 : 0 <= e * d) by nra. assert (U2 : 0 <= ea * d) by nra.
  assert (UE : (u + e) * r <= (u + e) * (5 / 4 * d)) by (apply Rmult_le_compat_l; lra).
  split.
  { rewrite Eq.
    replace (z' - q * d) with ((z' - r * cos th) + (r - d) * cos th + d * (cos th - q)) by ring.
    eapply Rle_trans. apply Rabs_triang. eapply Rle_trans. apply Rplus_le_compat_r. apply Rabs_triang.
    rewrite !Rabs_mult. rewrite (Rabs_pos_eq d) by auto.
    assert (Rabs (r - d) * Rabs (cos th) <= (4 * u * d) * 1).
    { apply Rmult_le_compat; auto using Rabs_pos; apply Rabs_le; apply COS_bound. }
    assert (d * Rabs (cos th - q) <= d * (ec + (5 * u + eta f))) by (apply Rmult_le_compat_l; auto).
    lra. }
  assert (Fin : forall t w w0 g, -1 <= w <= 1 -> -1 <= w0 <= 1 ->
     Rabs (t - r * sin th * w) <= 2 * (u + e) * r + 2 * eta f ->
     Rabs (w - w0) <= 16 * u + ea -> Rabs (sin th - s) <= ec + g ->
     Rabs (t - rho * w0) <= (23 * u + 3 * e + ea + ec) * d + 2 * eta f + g * d).
  { intros t w w0 g Bw Bw0 H1 H2 H3. rewrite Es'.
    replace (t - s * d * w0) with ((t - r * sin th * w) + (r - d) * (sin th * w) + d * ((sin th - s) * w + s * (w - w0))) by ring.
    assert (Aw : Rabs w <= 1) by (apply Rabs_le; lra).
    eapply Rle_trans. apply Rabs_triang. eapply Rle_trans. apply Rplus_le_compat_r. apply Rabs_triang.
    rewrite (Rabs_mult d), (Rabs_pos_eq d) by auto. rewrite (Rabs_mult (r - d)).
    assert (A1 : Rabs (r - d) * Rabs (sin th * w) <= (4 * u * d) * 1).
    { apply Rmult_le_compat; auto using Rabs_pos. rewrite Rabs_mult.
      rewrite <- (Rmult_1_r 1). apply Rmult_le_compat; auto using Rabs_pos, sin_abs_1. }
    assert (A2 : Rabs ((sin th - s) * w + s * (w - w0)) <= (ec + g) + (16 * u + ea)).
    { eapply Rle_trans. apply Rabs_triang. rewrite !Rabs_mult. rewrite (Rabs_pos_eq s) by lra.
      assert (Rabs (sin th - s) * Rabs w <= (ec + g) * 1) by (apply Rmult_le_compat; auto using Rabs_pos).
      assert (s * Rabs (w - w0) <= 1 * (16 * u + ea)) by (apply Rmult_le_compat; auto using Rabs_pos; apply Bs).
      lra. }
    assert (A3 : d * Rabs ((sin th - s) * w + s * (w - w0)) <= d * ((ec + g) + (16 * u + ea)))
      by (apply Rmult_le_compat_l; auto).
    lra. }
  replace (2 * (5 * u + eta f)) with (10 * u + 2 * eta f) in Hsin, Hsin' by ring.
  split; [| split].
  - replace (x' - x) with (x' - rho * cos (Ratan2 y x)) by (now rewrite Px).
    apply (Fin x' (cos ph)); auto; apply COS_bound.
  - replace (y' - y) with (y' - rho * sin (Ratan2 y x)) by (now rewrite Py).
    apply (Fin y' (sin ph)); auto; apply SIN_bound.
  - intros Prho.
    assert (Ps : 0 < s) by (unfold s; apply Rdiv_lt_0_compat; lra).
    assert (Q : 0 < 1 - q * q).
    { assert (s * s = 1 - q * q) by (rewrite <- Es; apply sqrt_sqrt; nra). nra. }
    specialize (Hsin' Q).
    replace ((10 * u + 2 * eta f) / s) with ((10 * u + 2 * eta f) * (d / rho)) in Hsin'
      by (unfold s; field; lra).
    split.
    + replace (x' - x) with (x' - rho * cos (Ratan2 y x)) by (now rewrite Px).
      apply (Fin x' (cos ph)); auto; apply COS_bound.
    + replace (y' - y) with (y' - rho * sin (Ratan2 y x)) by (now rewrite Py).
      apply (Fin y' (sin ph)); auto; apply SIN_bound.
Qed.
Example C81_cartesian_spherical_round_trip_ex : exists r th ph x' y' z',
  frepresent_as binary64 (cr_libm binary64) Eager true 1 nokw (cart3 1 2 (-2)) CSph
    = Ok false (PSph (fdist r) (Some th) (Some ph)) /\
  frepresent_as binary64 (cr_libm binary64) Eager true 1 nokw (PSph (fdist r) (Some th) (Some ph)) CCart3
    = Ok false (cart3 x' y' z').
Proof.
  assert (ok := binary64_ok).
  assert (NT : forall v, 1 <= v * v -> not_tiny binary64 v).
  { intros v Hv. unfold not_tiny. pose proof (min_normal_small _ ok). lra. }
  destruct (C81_cartesian_spherical_round_trip binary64 (cr_libm binary64) _ _ _ Eager true 0 1 2 (-2)
    ok (cr_libm_ok _ ok) (cr_libm_accurate _ ok) (cr_libm_atan2 _ ok) (cr_libm_acos _ ok))
    as (r & th & ph & x' & y' & z' & E1 & E2 & _);
    try (apply usable_int; auto; lia); try (right; apply NT; lra).
  { left. apply NT. lra. }
  exists r, th, ph, x', y', z'. auto.
Qed.

(** ** Finding: a small component perpendicular to the axis is lost for good *)
Theorem C81_finding_component_lost :
  forall f L m deg n x,
    fmt_ok f -> libm_ok f L -> m_sin L 0 = 0 -> m_cos L 0 = 1 -> isf f x -> x * x <= fu f / 2 ->
    exists th ph,
      frepresent_as f L m deg (S n) nokw (cart3 x 0 1) CSph
        = Ok false (PSph (fdist 1) (Some th) (Some ph)) /\
      frepresent_as f L m deg (S n) nokw (PSph (fdist 1) (Some th) (Some ph)) CCart3
        = Ok false (cart3 0 0 1).
Proof.
  intros f L m deg n x ok Lok S0 C0 Ix Hx.
  destruct (C59_finding_small_polar_angle_lost f L m deg n x ok Lok Ix Hx) as (ph & E).
  exists 0, ph. split; [exact E|].
  unfold frepresent_as, cart3. step. change (Num_fl f L) with (NF f L).
  change (@ncos ext (NF f L) (Some ph)) with (Some (m_cos L ph) : ext).
  change (@nsin ext (NF f L) (Some ph)) with (Some (m_sin L ph) : ext).
  change (@ncos ext (NF f L) (Some 0)) with (Some (m_cos L 0) : ext).
  change (@nsin ext (NF f L) (Some 0)) with (Some (m_sin L 0) : ext).
  unfold fdist, distance, length_of_kind. cbn [dk dval]. rewrite S0, C0.
  assert (M0 : forall w, @nmul ext (NF f L) (Some 0) (Some w) = Some 0).
  { intros w. cbn. rewrite Rmult_0_l, fop_small by (auto; rewrite Rabs_R0; lra). now rewrite rn0. }
  assert (M1 : @nmul ext (NF f L) (Some 1) (Some 0) = Some 0).
  { cbn. rewrite Rmult_0_r, fop_small by (auto; rewrite Rabs_R0; lra). now rewrite rn0. }
  assert (M2 : @nmul ext (NF f L) (Some 1) (Some 1) = Some 1).
  { cbn. rewrite Rmult_1_l, fop_small by (auto; rewrite Rabs_R1; lra).
    rewrite rn_id; auto. now apply F1. }
  rewrite M1, !M0, M2. reflexivity.
Qed.
Example C81_finding_component_lost_ex : exists th ph,
  frepresent_as binary32 (cr_libm binary32) Eager true 1 nokw (cart3 (bpow radix2 (-13)) 0 1) CSph
    = Ok false (PSph (fdist 1) (Some th) (Some ph)) /\
  frepresent_as binary32 (cr_libm binary32) Eager true 1 nokw (PSph (fdist 1) (Some th) (Some ph)) CCart3
    = Ok false (cart3 0 0 1).
Proof.
  assert (ok := binary32_ok).
  apply C81_finding_component_lost; auto using cr_libm_ok.
  - cbn. rewrite sin_0. apply rn0.
  - cbn. rewrite cos_0. apply rn_id. auto. now apply F1.
  - split. apply F_bpow; auto. simpl; lia.
    rewrite Rabs_pos_eq by apply bpow_ge_0. apply bpow_lt. simpl; lia.
  - rewrite <- bpow_plus. unfold fu. change (- fprec binary32)%Z with (-24)%Z.
    replace (bpow radix2 (-24) / 2) with (bpow radix2 (-25)).
    apply bpow_le; lia.
    change (-25)%Z with (-24 + -1)%Z. rewrite bpow_plus. change (bpow radix2 (-1)) with (/2). reflexivity.
Qed.

Print Assumptions C81_cartesian_spherical_round_trip.
Print Assumptions C81_finding_component_lost.
