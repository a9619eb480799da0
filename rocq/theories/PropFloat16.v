(** * C83: cylindrical <-> spherical and plane polar round trips in floating point. *)
From Coq Require Import Reals Bool List ZArith Lra Lia.
From Flocq Require Import Core.
From Verif Require Import Num Vectors Transform Pos3D Float FloatThm FloatConv PropFloat PropFloat3 PropFloat14.
Open Scope R_scope.

(** ** The rounded length of a vector of two components *)
Lemma norm2_acc f x y : fmt_ok f -> no_underflow f x -> no_underflow f y ->
  Rabs (frnd f (sqrt (frnd f (frnd f (x * x) + frnd f (y * y)))) - sqrt (x * x + y * y))
    <= 4 * fu f * sqrt (x * x + y * y).
Proof.
  intros ok Nx Ny. pose proof (fu_pos f) as Pu. pose proof (fu_small f ok) as Su.
  set (r := frnd f (sqrt _)). set (u := fu f) in *. set (d := sqrt (x * x + y * y)).
  assert (Pd : 0 <= d) by apply sqrt_pos.
  assert (Hr : d * (1 - u) ^ 3 <= r <= d * (1 + u) ^ 3).
  { unfold r, d, u. apply sqrt_rel; auto. nra.
    - destruct Nx as [-> | Nx]; destruct Ny as [-> | Ny].
      left; ring. right. unfold not_tiny in Ny. nra. right. unfold not_tiny in Nx. nra.
      right. unfold not_tiny in Nx. nra.
    - fold u. pose proof (sq_rel f x ok Nx) as Hx. pose proof (sq_rel f y ok Ny) as Hy. fold u in Hx, Hy.
      assert (X0 : 0 <= x * x) by nra. assert (Y0 : 0 <= y * y) by nra.
      assert (Px : 0 <= frnd f (x * x)) by nra. assert (Py : 0 <= frnd f (y * y)) by nra.
      pose proof (add_rel f _ _ ok (rn_F f ok _) (rn_F f ok _) Px Py) as H1. fold u in H1.
      set (a := frnd f (x * x)) in *. set (b := frnd f (y * y)) in *. set (s := frnd f (a + b)) in *.
      set (X := x * x) in *. set (Y := y * y) in *.
      assert (S1 : (X + Y) * (1 - u) ^ 2 <= s <= (X + Y) * (1 + u) ^ 2) by (split; nra).
      assert (Z1 : (1 - u) ^ 3 <= (1 - u) ^ 2) by nra. assert (Z2 : (1 + u) ^ 2 <= (1 + u) ^ 3) by nra.
      split. eapply Rle_trans; [| apply S1]. apply Rmult_le_compat_l; lra.
      eapply Rle_trans; [apply S1|]. apply Rmult_le_compat_l; lra. }
  assert (1 - 4 * u <= (1 - u) ^ 3) by nra. assert ((1 + u) ^ 3 <= 1 + 4 * u) by nra.
  apply Rabs_le. split; nra.
Qed.

(** the computed cosine of the polar angle, for a length [r] near [d] *)
Lemma cosine_acc f z r d : fmt_ok f -> 0 < r -> 0 < d -> Rabs z <= r -> Rabs (r - d) <= 4 * fu f * d ->
  Rabs (frnd f (z / r) - z / d) <= 5 * fu f + eta f.
Proof.
  intros ok Pr Pd Bz Hr. pose proof (fu_pos f) as Pu. set (u := fu f) in *.
  replace (frnd f (z / r) - z / d) with ((frnd f (z / r) - z / r) + (z / r - z / d)) by ring.
  eapply Rle_trans. apply Rabs_triang.
  assert (Q : Rabs (z / r) <= 1).
  { unfold Rdiv. rewrite Rabs_mult, (Rabs_pos_eq (/ r)) by (left; now apply Rinv_0_lt_compat).
    apply Rmult_le_reg_r with r; auto. rewrite Rmult_assoc, Rinv_l by lra. lra. }
  assert (Rabs (frnd f (z / r) - z / r) <= u + eta f).
  { eapply Rle_trans. apply rn_err; auto. fold u. unfold eta. nra. }
  assert (Rabs (z / r - z / d) <= 4 * u).
  { replace (z / r - z / d) with (z / r * ((d - r) / d)) by (field; lra).
    rewrite Rabs_mult. unfold Rdiv at 2. rewrite Rabs_mult, (Rabs_pos_eq (/ d)) by (left; now apply Rinv_0_lt_compat).
    assert (Rabs (d - r) * / d <= 4 * u).
    { apply Rmult_le_reg_r with d; auto. rewrite Rmult_assoc, Rinv_l by lra. rewrite Rabs_minus_sym. lra. }
    pose proof (Rabs_pos (z / r)).
    assert (0 <= Rabs (d - r) * / d) by (apply Rmult_le_pos; [apply Rabs_pos | left; now apply Rinv_0_lt_compat]).
    assert (Rabs (z / r) * (Rabs (d - r) * / d) <= 1 * (Rabs (d - r) * / d)) by (apply Rmult_le_compat_r; auto).
    lra. }
  lra.
Qed.

(** ** Spherical -> cylindrical *)
Theorem C83_spherical_to_cylindrical_accuracy :
  forall f L e m deg n r th ph,
    fmt_ok f -> libm_ok f L -> libm_accurate f L e -> isf f r -> isf f th ->
    exists rho z,
      frepresent_as f L m deg (S n) nokw (PSph (fdist r) (Some th) ph) CCyl
        = Ok false (PCyl (Some rho) ph (Some z)) /\
      isf f rho /\ isf f z /\ 0 <= rho /\
      Rabs (rho - Rabs (r * sin th)) <= (fu f + e) * Rabs r + eta f /\
      Rabs (z - r * cos th) <= (fu f + e) * Rabs r + eta f.
Proof.
  intros f L e m deg n r th ph ok Lok Lacc Ir It.
  destruct (sin_fl f L Lok e Lacc th It) as (Is & Bs & As).
  destruct (cos_fl f L Lok e Lacc th It) as (Ic & Bc & Ac).
  destruct (fl_mul f L ok r _ Ir Bs) as (E1 & I1 & _ & A1).
  destruct (fl_mul f L ok r _ Ir Bc) as (E2 & I2 & _ & A2).
  assert (K : forall t w s, Rabs (t - r * w) <= fu f * Rabs r + eta f -> Rabs (w - s) <= e ->
     Rabs (t - r * s) <= (fu f + e) * Rabs r + eta f).
  { intros t w s H1 H2. replace (t - r * s) with ((t - r * w) + r * (w - s)) by ring.
    eapply Rle_trans. apply Rabs_triang. rewrite Rabs_mult.
    assert (Rabs r * Rabs (w - s) <= Rabs r * e) by (apply Rmult_le_compat_l; auto using Rabs_pos). lra. }
  exists (Rabs (frnd f (r * m_sin L th))), (frnd f (r * m_cos L th)). split.
  { unfold frepresent_as. step. change (Num_fl f L) with (NF f L).
    change (@ncos ext (NF f L) (Some th)) with (Some (m_cos L th) : ext).
    change (@nsin ext (NF f L) (Some th)) with (Some (m_sin L th) : ext).
    unfold fdist, distance, length_of_kind. cbn [dk dval].
    rewrite E1, E2.
    change (@nabs ext (NF f L) (Some (frnd f (r * m_sin L th)))) with (Some (Rabs (frnd f (r * m_sin L th))) : ext).
    unfold mk_Cyl. rewrite fl_check_nonneg by (auto; apply Rabs_pos). reflexivity. }
  split. { destruct I1 as [F1 O1]. split. now apply F_abs. now rewrite Rabs_Rabsolu. }
  split; [exact I2|]. split; [apply Rabs_pos|]. split.
  - eapply Rle_trans. apply Rabs_triang_inv2. eapply K; eassumption.
  - eapply K; eassumption.
Qed.
Example C83_spherical_to_cylindrical_accuracy_ex : exists rho z,
  frepresent_as binary64 (cr_libm binary64) Eager true 1 nokw (PSph (fdist 5) (Some 1) (Some 2)) CCyl
    = Ok false (PCyl (Some rho) (Some 2) (Some z)).
Proof.
  assert (ok := binary64_ok).
  destruct (C83_spherical_to_cylindrical_accuracy binary64 (cr_libm binary64) _ Eager true 0 5 1 (Some 2) ok
    (cr_libm_ok _ ok) (cr_libm_accurate _ ok)) as (rho & z & E & _);
    try (match goal with |- isf _ ?v => apply (usable_int binary64); auto; lia end).
  exists rho, z. exact E.
Qed.

(** ** Cylindrical -> spherical -> cylindrical *)
Theorem C83_cylindrical_spherical_round_trip :
  forall f L e ec m deg n rho ph z,
    fmt_ok f -> libm_ok f L -> libm_accurate f L e -> acos_accurate f L ec ->
    usable f rho -> usable f z -> 0 <= rho ->
    no_underflow f rho -> no_underflow f z -> not_tiny f rho \/ not_tiny f z ->
    exists r th rho' z',
      frepresent_as f L m deg (S n) nokw (cyl rho ph z) CSph
        = Ok false (PSph (fdist r) (Some th) (Some ph)) /\
      frepresent_as f L m deg (S n) nokw (PSph (fdist r) (Some th) (Some ph)) CCyl
        = Ok false (cyl rho' ph z') /\
      0 <= rho' /\
      let d := sqrt (rho * rho + z * z) in
      let a := (6 * fu f + 3 * e + ec) * d + eta f in
      let b := 10 * fu f + 2 * eta f in
      Rabs (z' - z) <= (11 * fu f + 2 * e + ec + eta f) * d + eta f /\
      Rabs (rho' - rho) <= a + sqrt b * d /\
      (0 < rho -> Rabs (rho' - rho) <= a + b * (d / rho) * d).
Proof.
  intros f L e ec m deg n rho ph z ok Lok Lacc Cacc Ux Uz Prho Nx Nz N.
  assert (Ux' := Ux). assert (Uz' := Uz).
  destruct Ux' as [[Fx Ox] Rx]. destruct Uz' as [[Fz Oz] Rz].
  destruct (fl_norm2 f L ok rho z Fx Fz Rx Rz) as (r & Er & Vr & Ir & _ & Br).
  destruct (Br N) as (Pr & Bx & Bz).
  destruct (fl_ratio f L ok z r Fz Pr Bz) as (Ed & Bd & Id).
  destruct (fl_acos f L Lok _ Id Bd) as (Ea & Ia & Ba).
  pose proof (Cacc _ Id Bd) as EC.
  pose proof (norm2_acc f rho z ok Nx Nz) as Hr. rewrite <- Vr in Hr.
  set (c := frnd f (z / r)) in *. set (th := m_acos L c) in *.
  destruct (C83_spherical_to_cylindrical_accuracy f L e m deg n r th (Some ph) ok Lok Lacc Ir Ia)
    as (rho' & z' & E2 & _ & _ & Prho' & Ax & Az).
  exists r, th, rho', z'. split.
  { unfold frepresent_as, cyl. step. change (Num_fl f L) with (NF f L). cbv zeta. rewrite Er, Ed, Ea.
    unfold mk_Sph. cbn [conv_r length_of_kind dval conv_az].
    rewrite fl_check_nonneg by (auto; lra). rewrite fl_ang0, fl_angPI, fl_check_polar by auto. reflexivity. }
  split; [exact E2|]. split; [exact Prho'|]. cbv zeta.
  pose proof (fu_pos f) as Pu. pose proof (fu_small f ok) as Su.
  assert (Peta : 0 <= eta f) by (apply bpow_ge_0).
  set (d := sqrt (rho * rho + z * z)) in *.
  assert (Pd : 0 <= d) by apply sqrt_pos.
  assert (Pd' : 0 < d).
  { destruct Pd as [Pd|Pd]; auto. rewrite <- Pd in Hr. rewrite Rmult_0_r, Rminus_0_r, Rabs_pos_eq in Hr by lra. lra. }
  pose proof (cosine_acc f z r d ok Pr Pd' Bz Hr) as Cq. fold c in Cq.
  set (u := fu f) in *.
  assert (Hr4 : r <= 5 / 4 * d).
  { pose proof Hr as Hr'. apply Rabs_le_inv in Hr'. assert (u * d <= / 16 * d) by (apply Rmult_le_compat_r; lra). lra. }
  assert (Pe : 0 <= e). { destruct Lacc as [K _]. eapply Rle_trans; [apply Rabs_pos | exact (K _ Ia)]. }
  assert (Pec : 0 <= ec) by (eapply Rle_trans; [apply Rabs_pos | exact EC]).
  rewrite (Rabs_pos_eq r) in Ax, Az by lra.
  assert (DD : d * d = rho * rho + z * z) by (apply sqrt_sqrt; nra).
  set (q := z / d) in *. assert (Eq : z = q * d) by (unfold q; field; lra).
  assert (Bq : -1 <= q <= 1).
  { assert (q * q <= 1). { apply Rmult_le_reg_r with (d * d). nra.
      replace (q * q * (d * d)) with (z * z) by (rewrite Eq; ring). nra. }
    nra. }
  assert (Es : sqrt (1 - q * q) = rho / d).
  { apply Rmult_eq_reg_r with d; [| lra]. replace (rho / d * d) with rho by (field; lra).
    rewrite <- (sqrt_square d) at 1 by lra. rewrite <- sqrt_mult by nra.
    rewrite <- (sqrt_square rho) by lra. f_equal.
    replace ((1 - q * q) * (d * d)) with (d * d - z * z) by (rewrite Eq; ring). lra. }
  set (s := rho / d) in *.
  assert (Es' : rho = s * d) by (unfold s; field; lra).
  assert (Bs : 0 <= s) by (rewrite <- Es; apply sqrt_pos).
  destruct (polar_sine th c q ec (5 * u + eta f) Bd Bq EC Cq) as (Hcos & Hsin & Hsin').
  rewrite Es in Hsin, Hsin'.
  assert (U0 : 0 <= u * d) by (apply Rmult_le_pos; lra). assert (U1 : 0 <= e * d) by (apply Rmult_le_pos; lra).
  assert (UE : (u + e) * r <= (u + e) * (5 / 4 * d)) by (apply Rmult_le_compat_l; lra).
  split.
  { rewrite Eq.
    replace (z' - q * d) with ((z' - r * cos th) + (r - d) * cos th + d * (cos th - q)) by ring.
    eapply Rle_trans. apply Rabs_triang. eapply Rle_trans. apply Rplus_le_compat_r. apply Rabs_triang.
    rewrite !Rabs_mult. rewrite (Rabs_pos_eq d) by auto.
    assert (Rabs (r - d) * Rabs (cos th) <= (4 * u * d) * 1).
    { apply Rmult_le_compat; auto using Rabs_pos; apply Rabs_le; apply COS_bound. }
    assert (d * Rabs (cos th - q) <= d * (ec + (5 * u + eta f))) by (apply Rmult_le_compat_l; auto).
    lra. }
  assert (Fin : forall g, Rabs (sin th - s) <= ec + g ->
     Rabs (rho' - rho) <= (6 * u + 3 * e + ec) * d + eta f + g * d).
  { intros g H.
    replace (rho' - rho) with ((rho' - Rabs (r * sin th)) + (Rabs (r * sin th) - Rabs rho))
      by (rewrite (Rabs_pos_eq rho) by auto; ring).
    assert (A : Rabs (Rabs (r * sin th) - Rabs rho) <= 4 * u * d + d * (ec + g)).
    { eapply Rle_trans. apply Rabs_triang_inv2. rewrite Es'.
      replace (r * sin th - s * d) with ((r - d) * sin th + d * (sin th - s)) by ring.
      eapply Rle_trans. apply Rabs_triang. rewrite !Rabs_mult. rewrite (Rabs_pos_eq d) by auto.
      assert (Rabs (r - d) * Rabs (sin th) <= (4 * u * d) * 1).
      { apply Rmult_le_compat; auto using Rabs_pos, sin_abs_1. }
      assert (d * Rabs (sin th - s) <= d * (ec + g)) by (apply Rmult_le_compat_l; auto).
      lra. }
    eapply Rle_trans. apply Rabs_triang. lra. }
  replace (2 * (5 * u + eta f)) with (10 * u + 2 * eta f) in Hsin, Hsin' by ring.
  split.
  - now apply Fin.
  - intros P0.
    assert (Ps : 0 < s) by (unfold s; apply Rdiv_lt_0_compat; lra).
    assert (Q : 0 < 1 - q * q).
    { assert (s * s = 1 - q * q) by (rewrite <- Es; apply sqrt_sqrt; nra). nra. }
    specialize (Hsin' Q).
    replace ((10 * u + 2 * eta f) / s) with ((10 * u + 2 * eta f) * (d / rho)) in Hsin'
      by (unfold s; field; lra).
    now apply Fin.
Qed.
Example C83_cylindrical_spherical_round_trip_ex : exists r th rho' z',
  frepresent_as binary64 (cr_libm binary64) Eager true 1 nokw (cyl 3 2 (-4)) CSph
    = Ok false (PSph (fdist r) (Some th) (Some 2)) /\
  frepresent_as binary64 (cr_libm binary64) Eager true 1 nokw (PSph (fdist r) (Some th) (Some 2)) CCyl
    = Ok false (cyl rho' 2 z').
Proof.
  assert (ok := binary64_ok).
  assert (NT : forall v, 1 <= v * v -> not_tiny binary64 v).
  { intros v Hv. unfold not_tiny. pose proof (min_normal_small _ ok). lra. }
  destruct (C83_cylindrical_spherical_round_trip binary64 (cr_libm binary64) _ _ Eager true 0 3 2 (-4)
    ok (cr_libm_ok _ ok) (cr_libm_accurate _ ok) (cr_libm_acos _ ok))
    as (r & th & rho' & z' & E1 & E2 & _);
    try (apply usable_int; auto; lia); try (right; apply NT; lra). lra.
  exists r, th, rho', z'. auto.
Qed.

(** ** Plane: Cartesian -> polar -> Cartesian *)
Theorem C83_cartesian_polar_round_trip :
  forall f L e ea m deg n x y,
    fmt_ok f -> libm_ok f L -> libm_accurate f L e -> atan2_accurate f L ea ->
    usable f x -> usable f y -> no_underflow f x -> no_underflow f y ->
    exists r ph x' y',
      frepresent_as f L m deg (S n) nokw (PCart2 (Some x) (Some y)) CPolar
        = Ok false (PPolar (fdist r) (Some ph)) /\
      frepresent_as f L m deg (S n) nokw (PPolar (fdist r) (Some ph)) CCart2
        = Ok false (PCart2 (Some x') (Some y')) /\
      let d := sqrt (x * x + y * y) in
      Rabs (r - d) <= 4 * fu f * d /\
      Rabs (x' - x) <= (22 * fu f + 2 * e + 2 * ea) * d + eta f /\
      Rabs (y' - y) <= (22 * fu f + 2 * e + 2 * ea) * d + eta f.
Proof.
  intros f L e ea m deg n x y ok Lok Lacc Aacc Ux Uy Nx Ny.
  assert (Ux' := Ux). assert (Uy' := Uy).
  destruct Ux' as [[Fx Ox] Rx]. destruct Uy' as [[Fy Oy] Ry].
  assert (I0 : isf f 0) by (apply (usable_int f 0); auto; lia).
  destruct (C61_cartesian_cylindrical_round_trip f L e ea m deg n x y 0 ok Lok Lacc Aacc Ux Uy I0 Nx Ny)
    as (r & ph & x' & y' & E1 & E2 & H).
  destruct (fl_norm2 f L ok x y Fx Fy Rx Ry) as (rho & Er & Vr & Ir & Pr & _).
  destruct (fl_atan2_wrap f L ok Lok y x (conj Fy Oy) (conj Fx Ox)) as (v & Ev & Iv & Bv).
  pose proof (norm2_acc f x y ok Nx Ny) as Hr. rewrite <- Vr in Hr.
  assert (Q : r = rho /\ ph = v).
  { revert E1. unfold frepresent_as, cart3, cyl. step. change (Num_fl f L) with (NF f L). rewrite Er. unfold mk_Cyl, conv_az.
    rewrite Ev, fl_check_nonneg by auto. intros E1. injection E1. auto. }
  destruct Q as [-> ->].
  destruct (C61_polar_to_cartesian_accuracy f L e m deg n rho v ok Lok Lacc Ir Iv) as (x2 & y2 & E3 & _ & _ & _ & _).
  destruct (sin_fl f L Lok e Lacc v Iv) as (Is & Bs & _).
  destruct (cos_fl f L Lok e Lacc v Iv) as (Ic & Bc & _).
  destruct (fl_mul f L ok rho _ Ir Bs) as (M1 & _ & _ & _).
  destruct (fl_mul f L ok rho _ Ir Bc) as (M2 & _ & _ & _).
  exists rho, v, x', y'. split.
  { unfold frepresent_as. step. change (Num_fl f L) with (NF f L). rewrite Er. unfold mk_Polar, conv_az.
    cbn [conv_r length_of_kind dval]. rewrite Ev, fl_check_nonneg by auto. reflexivity. }
  split.
  { revert E2. unfold frepresent_as, cart3, cyl. step. step. change (Num_fl f L) with (NF f L).
    change (@ncos ext (NF f L) (Some v)) with (Some (m_cos L v) : ext).
    change (@nsin ext (NF f L) (Some v)) with (Some (m_sin L v) : ext).
    unfold fdist, distance, length_of_kind. cbn [dk dval].
    rewrite M1, M2. unfold mk_Cart3, mk_Cart2. unfold ret. intros E2. injection E2 as <- <-. reflexivity. }
  cbv zeta in *. split; [exact Hr | exact H].
Qed.
Example C83_cartesian_polar_round_trip_ex : exists r ph x' y',
  frepresent_as binary32 (cr_libm binary32) Eager true 1 nokw (PCart2 (Some (-3)) (Some (-4))) CPolar
    = Ok false (PPolar (fdist r) (Some ph)) /\
  frepresent_as binary32 (cr_libm binary32) Eager true 1 nokw (PPolar (fdist r) (Some ph)) CCart2
    = Ok false (PCart2 (Some x') (Some y')).
Proof.
  assert (ok := binary32_ok).
  assert (NT : forall v, 1 <= v * v -> no_underflow binary32 v).
  { intros v Hv. right. unfold not_tiny. pose proof (min_normal_small _ ok). lra. }
  destruct (C83_cartesian_polar_round_trip binary32 (cr_libm binary32) _ _ Eager true 0 (-3) (-4)
    ok (cr_libm_ok _ ok) (cr_libm_accurate _ ok) (cr_libm_atan2 _ ok)) as (r & ph & x' & y' & E1 & E2 & _);
    try (apply usable_int; auto; lia); try (apply NT; lra).
  exists r, ph, x', y'. auto.
Qed.

Print Assumptions C83_spherical_to_cylindrical_accuracy.
Print Assumptions C83_cylindrical_spherical_round_trip.
Print Assumptions C83_cartesian_polar_round_trip.
