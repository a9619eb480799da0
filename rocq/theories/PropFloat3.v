(** * C61: accuracy of conversions to and from Cartesian coordinates in
      floating point.

    [e] bounds the absolute error of the sine and cosine of the mathematical
    library, [ea] that of atan2; [u = fu f] is the relative rounding error and
    [2 ^ femin] the smallest positive number. *)
From Coq Require Import Reals Bool List ZArith Lra Lia.
From Flocq Require Import Core.
From Verif Require Import Num Vectors Transform Pos3D Float FloatThm FloatConv PropFloat.
Open Scope R_scope.

Definition eta (f : fmt) : R := bpow radix2 (femin f).
Definition atan2_accurate (f : fmt) (L : libm) (ea : R) : Prop :=
  forall y x, isf f y -> isf f x -> Rabs (m_atan2 L y x - Ratan2 y x) <= ea.

(** The correctly rounded library is accurate to [u + eta] and [4 u + eta]. *)
Lemma cr_libm_accurate f : fmt_ok f -> libm_accurate f (cr_libm f) (fu f + eta f).
Proof.
  intros ok. split; intros x _; cbn.
  - eapply Rle_trans. apply rn_err; auto. pose proof (SIN_bound x). pose proof (fu_pos f).
    assert (Rabs (sin x) <= 1) by (apply Rabs_le; lra). unfold eta. nra.
  - eapply Rle_trans. apply rn_err; auto. pose proof (COS_bound x). pose proof (fu_pos f).
    assert (Rabs (cos x) <= 1) by (apply Rabs_le; lra). unfold eta. nra.
Qed.
Lemma cr_libm_atan2 f : fmt_ok f -> atan2_accurate f (cr_libm f) (4 * fu f + eta f).
Proof.
  intros ok y x _ _. cbn. eapply Rle_trans. apply rn_err; auto. pose proof (Ratan2_range y x).
  pose proof (fu_pos f). pose proof PI_bounds.
  assert (Rabs (Ratan2 y x) <= 4) by (apply Rabs_le; lra). unfold eta. nra.
Qed.

Section Acc.
Variable f : fmt.
Variable L : libm.
Hypothesis ok : fmt_ok f.
Hypothesis Lok : libm_ok f L.
Variable e : R.
Hypothesis Lacc : libm_accurate f L e.

(** product of a number by a number of size at most 1 *)
Lemma fl_mul r c : isf f r -> -1 <= c <= 1 ->
  @nmul ext (NF f L) (Some r) (Some c) = Some (frnd f (r * c)) /\ isf f (frnd f (r * c)) /\
  Rabs (frnd f (r * c)) <= Rabs r /\ Rabs (frnd f (r * c) - r * c) <= fu f * Rabs r + eta f.
Proof.
  intros [Fr Or] Hc.
  assert (Hc' : Rabs c <= 1) by (apply Rabs_le; lra).
  assert (B : Rabs (r * c) <= Rabs r).
  { rewrite Rabs_mult. pose proof (Rabs_pos r). nra. }
  assert (B' : Rabs (frnd f (r * c)) <= Rabs r) by (apply rn_abs_le; auto; now apply F_abs).
  split. { cbn. unfold fop. apply fin_some. lra. }
  split. { split. apply rn_F; auto. lra. }
  split; auto. eapply Rle_trans. apply rn_err; auto. unfold eta. pose proof (fu_pos f). nra.
Qed.

Lemma sin_fl a : isf f a -> isf f (m_sin L a) /\ -1 <= m_sin L a <= 1 /\ Rabs (m_sin L a - sin a) <= e.
Proof. intros I. destruct Lok as (H & _). destruct Lacc as [K _]. destruct (H a I). auto. Qed.
Lemma cos_fl a : isf f a -> isf f (m_cos L a) /\ -1 <= m_cos L a <= 1 /\ Rabs (m_cos L a - cos a) <= e.
Proof. intros I. destruct Lok as (_ & H & _). destruct Lacc as [_ K]. destruct (H a I). auto. Qed.
End Acc.

(** ** Conversions to Cartesian coordinates *)

Theorem C61_cylindrical_to_cartesian_accuracy :
  forall f L e m deg n rho phi z,
    fmt_ok f -> libm_ok f L -> libm_accurate f L e -> isf f rho -> isf f phi -> isf f z ->
    exists x y,
      frepresent_as f L m deg (S n) nokw (cyl rho phi z) CCart3 = Ok false (cart3 x y z) /\
      isf f x /\ isf f y /\
      Rabs (x - rho * cos phi) <= (fu f + e) * Rabs rho + eta f /\
      Rabs (y - rho * sin phi) <= (fu f + e) * Rabs rho + eta f.
Proof.
  intros f L e m deg n rho phi z ok Lok Lacc Ir Ip Iz.
  destruct (sin_fl f L Lok e Lacc phi Ip) as (Is & Bs & As).
  destruct (cos_fl f L Lok e Lacc phi Ip) as (Ic & Bc & Ac).
  destruct (fl_mul f L ok rho _ Ir Bs) as (E1 & I1 & _ & A1).
  destruct (fl_mul f L ok rho _ Ir Bc) as (E2 & I2 & _ & A2).
  assert (K : forall t w s, Rabs (t - rho * w) <= fu f * Rabs rho + eta f -> Rabs (w - s) <= e ->
     Rabs (t - rho * s) <= (fu f + e) * Rabs rho + eta f).
  { intros t w s H1 H2. replace (t - rho * s) with ((t - rho * w) + rho * (w - s)) by ring.
    eapply Rle_trans. apply Rabs_triang. rewrite Rabs_mult. pose proof (Rabs_pos rho). nra. }
  eexists _, _. split.
  { unfold frepresent_as, cyl. step. change (Num_fl f L) with (NF f L).
    change (@ncos ext (NF f L) (Some phi)) with (Some (m_cos L phi) : ext).
    change (@nsin ext (NF f L) (Some phi)) with (Some (m_sin L phi) : ext).
    rewrite E1, E2. reflexivity. }
  split; auto. split; auto. split.
  - eapply K; eassumption. - eapply K; eassumption.
Qed.

Theorem C61_polar_to_cartesian_accuracy :
  forall f L e m deg n r phi,
    fmt_ok f -> libm_ok f L -> libm_accurate f L e -> isf f r -> isf f phi ->
    exists x y,
      frepresent_as f L m deg (S n) nokw (PPolar (fdist r) (Some phi)) CCart2
        = Ok false (PCart2 (Some x) (Some y)) /\
      isf f x /\ isf f y /\
      Rabs (x - r * cos phi) <= (fu f + e) * Rabs r + eta f /\
      Rabs (y - r * sin phi) <= (fu f + e) * Rabs r + eta f.
Proof.
  intros f L e m deg n rho phi ok Lok Lacc Ir Ip.
  destruct (sin_fl f L Lok e Lacc phi Ip) as (Is & Bs & As).
  destruct (cos_fl f L Lok e Lacc phi Ip) as (Ic & Bc & Ac).
  destruct (fl_mul f L ok rho _ Ir Bs) as (E1 & I1 & _ & A1).
  destruct (fl_mul f L ok rho _ Ir Bc) as (E2 & I2 & _ & A2).
  assert (K : forall t w s, Rabs (t - rho * w) <= fu f * Rabs rho + eta f -> Rabs (w - s) <= e ->
     Rabs (t - rho * s) <= (fu f + e) * Rabs rho + eta f).
  { intros t w s H1 H2. replace (t - rho * s) with ((t - rho * w) + rho * (w - s)) by ring.
    eapply Rle_trans. apply Rabs_triang. rewrite Rabs_mult. pose proof (Rabs_pos rho). nra. }
  eexists _, _. split.
  { unfold frepresent_as. step. change (Num_fl f L) with (NF f L).
    change (@ncos ext (NF f L) (Some phi)) with (Some (m_cos L phi) : ext).
    change (@nsin ext (NF f L) (Some phi)) with (Some (m_sin L phi) : ext).
    unfold fdist, distance, length_of_kind. cbn [dk dval].
    rewrite E1, E2. reflexivity. }
  split; auto. split; auto. split.
  - eapply K; eassumption. - eapply K; eassumption.
Qed.

Theorem C61_spherical_to_cartesian_accuracy :
  forall f L e m deg n r th ph,
    fmt_ok f -> libm_ok f L -> libm_accurate f L e -> isf f r -> isf f th -> isf f ph ->
    exists x y z,
      frepresent_as f L m deg (S n) nokw (PSph (fdist r) (Some th) (Some ph)) CCart3
        = Ok false (cart3 x y z) /\
      isf f x /\ isf f y /\ isf f z /\
      Rabs (x - r * sin th * cos ph) <= 2 * (fu f + e) * Rabs r + 2 * eta f /\
      Rabs (y - r * sin th * sin ph) <= 2 * (fu f + e) * Rabs r + 2 * eta f /\
      Rabs (z - r * cos th) <= (fu f + e) * Rabs r + eta f.
Proof.
  intros f L e m deg n r th ph ok Lok Lacc Ir It Ip.
  destruct (sin_fl f L Lok e Lacc th It) as (Is & Bs & As).
  destruct (cos_fl f L Lok e Lacc th It) as (Ic & Bc & Ac).
  destruct (sin_fl f L Lok e Lacc ph Ip) as (Is' & Bs' & As').
  destruct (cos_fl f L Lok e Lacc ph Ip) as (Ic' & Bc' & Ac').
  destruct (fl_mul f L ok r _ Ir Bs) as (E1 & I1 & M1 & A1).
  destruct (fl_mul f L ok r _ Ir Bc) as (E2 & I2 & _ & A2).
  set (a := frnd f (r * m_sin L th)) in *.
  destruct (fl_mul f L ok a _ I1 Bs') as (E3 & I3 & _ & A3).
  destruct (fl_mul f L ok a _ I1 Bc') as (E4 & I4 & _ & A4).
  pose proof (fu_pos f) as Pu. pose proof (Rabs_pos r) as Pr.
  assert (Pe : 0 <= e) by (eapply Rle_trans; [apply Rabs_pos | exact As]).
  assert (Peta : 0 <= eta f) by (apply bpow_ge_0).
  assert (Ka : Rabs (a - r * sin th) <= (fu f + e) * Rabs r + eta f).
  { replace (a - r * sin th) with ((a - r * m_sin L th) + r * (m_sin L th - sin th)) by ring.
    eapply Rle_trans. apply Rabs_triang. rewrite Rabs_mult. nra. }
  assert (K : forall t w s, -1 <= s <= 1 -> -1 <= w <= 1 -> Rabs (t - a * w) <= fu f * Rabs a + eta f -> Rabs (w - s) <= e ->
     Rabs (t - r * sin th * s) <= 2 * (fu f + e) * Rabs r + 2 * eta f).
  { intros t w s Hs Hw H1 H2.
    replace (t - r * sin th * s) with ((t - a * w) + a * (w - s) + (a - r * sin th) * s) by ring.
    assert (Hs' : Rabs s <= 1) by (apply Rabs_le; lra).
    eapply Rle_trans. apply Rabs_triang. eapply Rle_trans. apply Rplus_le_compat_r. apply Rabs_triang.
    rewrite !Rabs_mult.
    assert (Rabs a * Rabs (w - s) <= Rabs r * e) by (apply Rmult_le_compat; auto using Rabs_pos).
    assert (Rabs (a - r * sin th) * Rabs s <= ((fu f + e) * Rabs r + eta f) * 1)
      by (apply Rmult_le_compat; auto using Rabs_pos).
    nra. }
  eexists _, _, _. split.
  { unfold frepresent_as. step. change (Num_fl f L) with (NF f L).
    change (@ncos ext (NF f L) (Some ph)) with (Some (m_cos L ph) : ext).
    change (@nsin ext (NF f L) (Some ph)) with (Some (m_sin L ph) : ext).
    change (@ncos ext (NF f L) (Some th)) with (Some (m_cos L th) : ext).
    change (@nsin ext (NF f L) (Some th)) with (Some (m_sin L th) : ext).
    unfold fdist, distance, length_of_kind. cbn [dk dval].
    rewrite E1, E2, E3, E4. reflexivity. }
  split; auto. split; auto. split; auto. split; [| split].
  - apply (K _ (m_cos L ph) (cos ph)); auto. apply COS_bound.
  - apply (K _ (m_sin L ph) (sin ph)); auto. apply SIN_bound.
  - replace (frnd f (r * m_cos L th) - r * cos th) with
      ((frnd f (r * m_cos L th) - r * m_cos L th) + r * (m_cos L th - cos th)) by ring.
    eapply Rle_trans. apply Rabs_triang. rewrite Rabs_mult. nra.
Qed.
Example C61_spherical_to_cartesian_accuracy_ex : exists x y z,
  frepresent_as binary64 (cr_libm binary64) Eager true 1 nokw (PSph (fdist 5) (Some 1) (Some 2)) CCart3
    = Ok false (cart3 x y z) /\
  Rabs (z - 5 * cos 1) <= (fu binary64 + (fu binary64 + eta binary64)) * Rabs 5 + eta binary64.
Proof.
  assert (ok := binary64_ok).
  destruct (C61_spherical_to_cartesian_accuracy binary64 (cr_libm binary64) _ Eager true 0 5 1 2
    ok (cr_libm_ok _ ok) (cr_libm_accurate _ ok)) as (x & y & z & E & _ & _ & _ & _ & _ & A);
    try (match goal with |- isf _ ?v => apply (usable_int binary64); auto; lia end).
  exists x, y, z. auto.
Qed.

(** ** Round trip Cartesian -> cylindrical -> Cartesian *)

Lemma sin_abs_1 t : Rabs (sin t) <= 1.
Proof. apply Rabs_le. pose proof (SIN_bound t). lra. Qed.
Lemma cos_lip a b : Rabs (cos a - cos b) <= Rabs (a - b).
Proof.
  destruct (Req_dec a b) as [-> | N]. { unfold Rminus. rewrite !Rplus_opp_r, Rabs_R0. lra. }
  rewrite form2. replace (-2 * sin ((a - b) / 2) * sin ((a + b) / 2))
    with (-2 * (sin ((a - b) / 2) * sin ((a + b) / 2))) by ring.
  rewrite !Rabs_mult. rewrite (Rabs_left (-2)) by lra.
  assert (Rabs (sin ((a + b) / 2)) <= 1) by apply sin_abs_1.
  assert (Rabs (sin ((a - b) / 2)) <= Rabs ((a - b) / 2)).
  { generalize ((a - b) / 2). intros t. destruct (Rle_or_lt 0 t) as [H0|H0].
    - rewrite (Rabs_pos_eq t) by auto. destruct (Rle_or_lt t 1) as [H1|H1].
      + destruct H0 as [H0 | <-]; [| rewrite sin_0, Rabs_R0; lra].
        pose proof (sin_lt_x t H0). assert (0 < sin t) by (apply sin_gt_0; auto; pose proof PI_bounds; lra).
        rewrite Rabs_pos_eq; lra.
      + eapply Rle_trans. apply sin_abs_1. lra.
    - rewrite <- (Ropp_involutive t) at 1. rewrite sin_neg, Rabs_Ropp, (Rabs_left t) by auto.
      destruct (Rle_or_lt (- t) 1) as [H1|H1].
      + pose proof (sin_lt_x (- t) ltac:(lra)). assert (0 < sin (- t)) by (apply sin_gt_0; pose proof PI_bounds; lra).
        rewrite Rabs_pos_eq; lra.
      + eapply Rle_trans. apply sin_abs_1. lra. }
  assert (E : Rabs ((a - b) / 2) = Rabs (a - b) / 2).
  { unfold Rdiv. rewrite Rabs_mult, (Rabs_pos_eq (/2)) by lra. reflexivity. }
  pose proof (Rabs_pos (sin ((a - b) / 2))). nra.
Qed.
Lemma sin_lip a b : Rabs (sin a - sin b) <= Rabs (a - b).
Proof.
  rewrite <- !cos_shift. replace (Rabs (a - b)) with (Rabs ((PI / 2 - a) - (PI / 2 - b))). apply cos_lip.
  replace (PI / 2 - a - (PI / 2 - b)) with (- (a - b)) by ring. apply Rabs_Ropp.
Qed.

(** wrapping the computed atan2 moves it by 0 or one exact turn, up to 16 u *)
Lemma wrap_atan2_err f L a v : fmt_ok f -> isf f a -> - frnd f PI <= a <= frnd f PI ->
  @nwrap ext (NF f L) (Some a) = Some v ->
  exists k : Z, Rabs (v - (a + 2 * PI * IZR k)) <= 16 * fu f.
Proof.
  intros ok Ia Ba E. pose proof (fu_pos f) as Pu. pose proof (fu_small f ok) as Su.
  pose proof (rnPI_bounds f ok) as BP. pose proof PI_bounds as B0.
  cbn in E. rewrite (rn_2PI f ok) in E.
  destruct (Rle_or_lt 0 a) as [H|H].
  - rewrite fmod_id in E by lra. injection E as <-. exists 0%Z. rewrite Rmult_0_r, Rplus_0_r.
    unfold Rminus. rewrite Rplus_opp_r, Rabs_R0. lra.
  - exists 1%Z. rewrite Rmult_1_r.
    assert (T : ftrunc_rem (2 * frnd f PI) a = a).
    { unfold ftrunc_rem. assert (Q : Ztrunc (a / (2 * frnd f PI)) = 0%Z).
      { rewrite Ztrunc_ceil.
        2:{ apply Rmult_le_reg_r with (2 * frnd f PI). lra. unfold Rdiv. rewrite Rmult_assoc, Rinv_l by lra. lra. }
        apply Zceil_imp. simpl.
        assert (-1 < a / (2 * frnd f PI)) by (apply Rmult_lt_reg_r with (2 * frnd f PI); [lra|]; unfold Rdiv; rewrite Rmult_assoc, Rinv_l by lra; lra).
        assert (a / (2 * frnd f PI) <= 0) by (apply Rmult_le_reg_r with (2 * frnd f PI); [lra|]; unfold Rdiv; rewrite Rmult_assoc, Rinv_l by lra; lra).
        lra. }
      rewrite Q. ring. }
    unfold fmod in E. rewrite T in E. assert (Q : Rltb a 0 = true) by (now apply Rltb_true). rewrite Q in E.
    apply (fop_isf f ok) in E. destruct E as [_ ->].
    assert (F2 : generic_format radix2 (fexp_of f) (2 * frnd f PI)) by (rewrite <- rn_2PI by auto; apply rn_F; auto).
    destruct (rn_add_rel f ok a (2 * frnd f PI) (proj1 Ia) F2) as (e & He & ->).
    destruct (rn_rel f ok PI) as (e' & He' & EP).
    { right. pose proof (min_normal_small f ok). rewrite Rabs_pos_eq; lra. }
    apply Rabs_le_inv in He, He'.
    replace ((a + 2 * frnd f PI) * (1 + e) - (a + 2 * PI)) with ((a + 2 * frnd f PI) * e + 2 * (frnd f PI - PI)) by ring.
    rewrite EP at 2. replace (PI * (1 + e') - PI) with (PI * e') by ring.
    assert (0 <= a + 2 * frnd f PI <= 8) by lra.
    apply Rabs_le. split; nra.
Qed.

Theorem C61_cartesian_cylindrical_round_trip :
  forall f L e ea m deg n x y z,
    fmt_ok f -> libm_ok f L -> libm_accurate f L e -> atan2_accurate f L ea ->
    usable f x -> usable f y -> isf f z -> no_underflow f x -> no_underflow f y ->
    exists rho phi x' y',
      frepresent_as f L m deg (S n) nokw (cart3 x y z) CCyl = Ok false (cyl rho phi z) /\
      frepresent_as f L m deg (S n) nokw (cyl rho phi z) CCart3 = Ok false (cart3 x' y' z) /\
      let d := sqrt (x * x + y * y) in
      Rabs (x' - x) <= (22 * fu f + 2 * e + 2 * ea) * d + eta f /\
      Rabs (y' - y) <= (22 * fu f + 2 * e + 2 * ea) * d + eta f.
Proof.
  intros f L e ea m deg n x y z ok Lok Lacc Aacc [[Fx Ox] Rx] [[Fy Oy] Ry] Iz Nx Ny.
  destruct (fl_norm2 f L ok x y Fx Fy Rx Ry) as (rho & Er & Vr & Ir & Pr & _).
  assert (Lok' := Lok). destruct Lok' as (_ & _ & _ & _ & HA).
  destruct (HA y x (conj Fy Oy) (conj Fx Ox)) as [IA BA].
  pose proof (Aacc y x (conj Fy Oy) (conj Fx Ox)) as EA.
  destruct (fl_wrap f L ok _ IA) as (phi & Ew & Iv & Bv).
  destruct (wrap_atan2_err f L _ _ ok IA BA Ew) as (k & Hk).
  destruct (C61_cylindrical_to_cartesian_accuracy f L e m deg n rho phi z ok Lok Lacc Ir Iv Iz)
    as (x' & y' & E2 & _ & _ & Ax & Ay).
  exists rho, phi, x', y'. split.
  { unfold frepresent_as, cart3. step. change (Num_fl f L) with (NF f L). rewrite Er. unfold mk_Cyl, conv_az.
    change (@natan2 ext (NF f L) (Some y) (Some x)) with (Some (m_atan2 L y x) : ext).
    rewrite Ew, fl_check_nonneg by auto. reflexivity. }
  split; [exact E2|]. cbv zeta.
  pose proof (fu_pos f) as Pu. pose proof (fu_small f ok) as Su.
  set (u := fu f) in *. set (d := sqrt (x * x + y * y)).
  assert (Pd : 0 <= d) by apply sqrt_pos.
  assert (Pe : 0 <= e). { destruct Lacc as [K _]. eapply Rle_trans; [apply Rabs_pos | exact (K _ Iv)]. }
  assert (Pea : 0 <= ea) by (eapply Rle_trans; [apply Rabs_pos | exact EA]).
  (* radius *)
  assert (Hr : d * (1 - u) ^ 3 <= rho <= d * (1 + u) ^ 3).
  { rewrite Vr. unfold d, u. apply sqrt_rel; auto. nra.
    - destruct Nx as [-> | Nx]; destruct Ny as [-> | Ny].
      left; ring. right. unfold not_tiny in Ny. nra. right. unfold not_tiny in Nx. nra.
      right. unfold not_tiny in Nx. nra.
    - fold u. pose proof (sq_rel f x ok Nx) as Hx. pose proof (sq_rel f y ok Ny) as Hy. fold u in Hx, Hy.
      assert (X0 : 0 <= x * x) by nra. assert (Y0 : 0 <= y * y) by nra.
      assert (Px : 0 <= frnd f (x * x)) by nra. assert (Py : 0 <= frnd f (y * y)) by nra.
      pose proof (add_rel f _ _ ok (rn_F f ok _) (rn_F f ok _) Px Py) as H1. fold u in H1.
      set (a := frnd f (x * x)) in *. set (b := frnd f (y * y)) in *. set (s := frnd f (a + b)) in *.
      set (X := x * x) in *. set (Y := y * y) in *.
      assert (S1 : (X + Y) * (1 - u) ^ 2 <= s <= (X + Y) * (1 + u) ^ 2) by (split; nra).
      assert (Z1 : (1 - u) ^ 3 <= (1 - u) ^ 2) by nra. assert (Z2 : (1 + u) ^ 2 <= (1 + u) ^ 3) by nra.
      split. eapply Rle_trans; [| apply S1]. apply Rmult_le_compat_l; lra.
      eapply Rle_trans; [apply S1|]. apply Rmult_le_compat_l; lra. }
  assert (Hr' : Rabs (rho - d) <= 4 * u * d).
  { assert (1 - 4 * u <= (1 - u) ^ 3) by nra. assert ((1 + u) ^ 3 <= 1 + 4 * u) by nra.
    apply Rabs_le. split; nra. }
  apply Rabs_le_inv in Hr'.
  assert (Hr4 : rho <= 5 / 4 * d) by nra.
  rewrite (Rabs_pos_eq rho) in Ax, Ay by auto.
  (* angle *)
  destruct (Ratan2_polar x y) as [Px Py]. fold d in Px, Py.
  assert (Hang : Rabs (phi - (Ratan2 y x + 2 * PI * IZR k)) <= 16 * u + ea).
  { replace (phi - (Ratan2 y x + 2 * PI * IZR k)) with
      ((phi - (m_atan2 L y x + 2 * PI * IZR k)) + (m_atan2 L y x - Ratan2 y x)) by ring.
    eapply Rle_trans. apply Rabs_triang. lra. }
  assert (Hc : Rabs (cos phi - cos (Ratan2 y x)) <= 16 * u + ea).
  { rewrite <- (cos_period_Z (Ratan2 y x) k). eapply Rle_trans. apply cos_lip. exact Hang. }
  assert (Hs : Rabs (sin phi - sin (Ratan2 y x)) <= 16 * u + ea).
  { rewrite <- (sin_period_Z (Ratan2 y x) k). eapply Rle_trans. apply sin_lip. exact Hang. }
  assert (Fin : forall t c c0 w, Rabs (t - rho * c) <= (u + e) * rho + eta f -> Rabs (c - c0) <= 16 * u + ea ->
     -1 <= c <= 1 -> d * c0 = w -> Rabs (t - w) <= (22 * u + 2 * e + 2 * ea) * d + eta f).
  { intros t c c0 w H1 H2 H3 <-.
    replace (t - d * c0) with ((t - rho * c) + (rho - d) * c + d * (c - c0)) by ring.
    eapply Rle_trans. apply Rabs_triang. eapply Rle_trans. apply Rplus_le_compat_r. apply Rabs_triang.
    rewrite !Rabs_mult. rewrite (Rabs_pos_eq d) by auto.
    assert (Rabs (rho - d) * Rabs c <= (4 * u * d) * 1).
    { apply Rmult_le_compat; auto using Rabs_pos; apply Rabs_le; lra. }
    assert (d * Rabs (c - c0) <= d * (16 * u + ea)) by (apply Rmult_le_compat_l; auto).
    assert ((u + e) * rho <= (u + e) * (5 / 4 * d)) by (apply Rmult_le_compat_l; lra).
    assert (0 <= u * d) by nra. assert (0 <= e * d) by nra. assert (0 <= ea * d) by nra. nra. }
  split.
  - apply (Fin x' (cos phi) (cos (Ratan2 y x))); auto. apply COS_bound.
  - apply (Fin y' (sin phi) (sin (Ratan2 y x))); auto. apply SIN_bound.
Qed.
Example C61_cartesian_cylindrical_round_trip_ex : exists rho phi x' y',
  frepresent_as binary32 (cr_libm binary32) Eager true 1 nokw (cart3 (-3) (-4) 7) CCyl = Ok false (cyl rho phi 7) /\
  frepresent_as binary32 (cr_libm binary32) Eager true 1 nokw (cyl rho phi 7) CCart3 = Ok false (cart3 x' y' 7).
Proof.
  assert (ok := binary32_ok).
  assert (NT : forall v, 1 <= v * v -> no_underflow binary32 v).
  { intros v Hv. right. unfold not_tiny. pose proof (min_normal_small _ ok). lra. }
  destruct (C61_cartesian_cylindrical_round_trip binary32 (cr_libm binary32) _ _ Eager true 0 (-3) (-4) 7
    ok (cr_libm_ok _ ok) (cr_libm_accurate _ ok) (cr_libm_atan2 _ ok)) as (rho & phi & x' & y' & E1 & E2 & _);
    try (apply usable_int; auto; lia); try (apply NT; lra).
  exists rho, phi, x', y'. auto.
Qed.

Print Assumptions C61_cylindrical_to_cartesian_accuracy.
Print Assumptions C61_polar_to_cartesian_accuracy.
Print Assumptions C61_spherical_to_cartesian_accuracy.
Print Assumptions C61_cartesian_cylindrical_round_trip.
