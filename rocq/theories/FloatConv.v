(** * Floating point: the conversion formulas, operation by operation. *)
From Coq Require Import Reals Bool List ZArith Lra Lia.
From Flocq Require Import Core.
From Verif Require Import Num Vectors Transform Pos3D Float FloatThm.
Open Scope R_scope.

Section F.
Variable f : fmt.
Variable L : libm.
Hypothesis ok : fmt_ok f.
Hypothesis Lok : libm_ok f L.
Notation F := (generic_format radix2 (fexp_of f)).
Notation rn := (frnd f).

(** [v] is far from the overflow limit when squared. *)
Definition room (v : R) : Prop := v * v <= bpow radix2 (femax f - 3).

Lemma emax_big : (8 <= femax f)%Z. Proof. destruct ok as (H1 & H2 & H3). lia. Qed.
Lemma emin_neg : (femin f <= -16)%Z. Proof. destruct ok as (H1 & H2 & H3). lia. Qed.

Definition NF := Num_fl f L.

Lemma fl_cst0 : @ncst ext NF 0 = Some 0.
Proof. cbn. rewrite fop_small by (auto; rewrite Rabs_R0; lra). now rewrite rn0. Qed.
Lemma fl_ang r : Rabs r <= 16 -> @nang ext NF r = Some (rn r).
Proof. intros H. cbn. now apply fop_small. Qed.
Lemma fl_ang0 : @nang ext NF 0 = Some 0.
Proof. rewrite fl_ang by (rewrite Rabs_R0; lra). now rewrite rn0. Qed.
Lemma fl_angPI : @nang ext NF PI = Some (rn PI).
Proof. apply fl_ang. pose proof PI_bounds. rewrite Rabs_pos_eq; lra. Qed.
Lemma fl_angPI2 : @nang ext NF (PI / 2) = Some (rn PI / 2).
Proof.
  pose proof PI_bounds. rewrite fl_ang by (rewrite Rabs_pos_eq; lra). now rewrite rn_PI2.
Qed.

(** squares *)
Lemma fl_sq v : room v ->
  @nsq ext NF (Some v) = Some (rn (v * v)) /\ 0 <= rn (v * v) <= bpow radix2 (femax f - 3) /\ F (rn (v * v)).
Proof.
  intros H. pose proof emax_big. pose proof emin_neg. split; [| split].
  - unfold nsq. cbn. apply (fop_some f ok _ (femax f - 3)). lia. rewrite Rabs_pos_eq by nra. exact H.
  - split. rewrite <- (rn0 f). apply rn_le; auto. nra. apply rn_le_F; auto. apply F_bpow; auto. lia.
  - apply rn_F; auto.
Qed.

(** a sum of two non-negative numbers *)
Lemma fl_add a b e : F a -> F b -> 0 <= a <= bpow radix2 e -> 0 <= b <= bpow radix2 e ->
  (0 <= e < femax f - 1)%Z ->
  @nadd ext NF (Some a) (Some b) = Some (rn (a + b)) /\
  0 <= rn (a + b) <= bpow radix2 (e + 1) /\ a <= rn (a + b) /\ b <= rn (a + b) /\ F (rn (a + b)).
Proof.
  intros Fa Fb Ha Hb He. pose proof emin_neg.
  assert (S : a + b <= bpow radix2 (e + 1)).
  { rewrite bpow_plus. change (bpow radix2 1) with 2. lra. }
  split.
  { cbn. apply (fop_some f ok _ (e + 1)). lia. rewrite Rabs_pos_eq; lra. }
  split. { split. rewrite <- (rn0 f). apply rn_le; auto. lra. apply rn_le_F; auto. apply F_bpow; auto. lia. }
  split. apply rn_ge_F; auto; lra. split. apply rn_ge_F; auto; lra. apply rn_F; auto.
Qed.

(** the square root of a number that is not too large *)
Lemma fl_sqrt s : F s -> 0 <= s <= bpow radix2 (femax f - 1) ->
  @nsqrt ext NF (Some s) = Some (rn (sqrt s)) /\ isf f (rn (sqrt s)) /\ 0 <= rn (sqrt s).
Proof.
  intros Fs Hs. pose proof emin_neg. pose proof emax_big.
  assert (B : 0 <= sqrt s <= bpow radix2 (femax f - 1)).
  { split. apply sqrt_pos.
    assert (1 <= bpow radix2 (femax f - 1)) by (change 1 with (bpow radix2 0); apply bpow_le; lia).
    apply Rsqr_incr_0_var; [| lra]. unfold Rsqr. rewrite sqrt_sqrt by lra. nra. }
  assert (Q : fop f (sqrt s) = Some (rn (sqrt s))).
  { apply (fop_some f ok _ (femax f - 1)). lia. rewrite Rabs_pos_eq; lra. }
  split; [| split].
  - cbn. assert (E : Rleb 0 s = true) by (apply Rleb_true; lra). now rewrite E.
  - now apply (fop_isf f ok) in Q.
  - rewrite <- (rn0 f). apply rn_le; auto. lra.
Qed.

(** *** Length of a vector *)
Lemma fl_norm2 x y : F x -> F y -> room x -> room y ->
  exists r, @nsqrt ext NF (@nadd ext NF (@nsq ext NF (Some x)) (@nsq ext NF (Some y))) = Some r /\
    r = rn (sqrt (rn (rn (x * x) + rn (y * y)))) /\
    isf f r /\ 0 <= r /\
    (fmin_normal f <= x * x \/ fmin_normal f <= y * y -> 0 < r /\ Rabs x <= r /\ Rabs y <= r).
Proof.
  intros Fx Fy Rx Ry. pose proof emax_big.
  destruct (fl_sq x Rx) as (E1 & B1 & G1). destruct (fl_sq y Ry) as (E2 & B2 & G2).
  destruct (fl_add _ _ (femax f - 3) G1 G2 B1 B2 ltac:(lia)) as (E3 & B3 & B4 & B5 & G3).
  replace (femax f - 3 + 1)%Z with (femax f - 2)%Z in B3 by lia.
  assert (B3' : 0 <= rn (rn (x * x) + rn (y * y)) <= bpow radix2 (femax f - 1)).
  { split. apply B3. eapply Rle_trans. apply B3. apply bpow_le. lia. }
  destruct (fl_sqrt _ G3 B3') as (E4 & B6 & B7).
  eexists. rewrite E1, E2, E3. split; [exact E4|]. split; [reflexivity|]. split; auto. split; auto.
  set (s := rn (rn (x * x) + rn (y * y))) in *.
  assert (K : forall a b, F a -> F b -> rn (a * a) <= s -> rn (b * b) <= s -> fmin_normal f <= a * a ->
     Rabs a <= rn (sqrt s) /\ Rabs b <= rn (sqrt s)).
  { intros a b Fa Fb Sa Sb Na. pose proof (sqrt_sq_ge f ok a s Fa Na Sa). split; auto.
    destruct (Rle_or_lt (fmin_normal f) (b * b)) as [Nb|Nb]. now apply sqrt_sq_ge.
    eapply Rle_trans; [| eassumption]. apply Rsqr_le_abs_0. unfold Rsqr. lra. }
  assert (P : forall a, fmin_normal f <= a * a -> 0 < Rabs a).
  { intros a Ha. apply Rabs_pos_lt. intros ->. pose proof (bpow_gt_0 radix2 (femin f + fprec f - 1)).
    unfold fmin_normal in Ha. lra. }
  intros [N|N].
  - destruct (K x y Fx Fy B4 B5 N). pose proof (P x N). repeat split; auto; lra.
  - destruct (K y x Fy Fx B5 B4 N). pose proof (P y N). repeat split; auto; lra.
Qed.

Lemma fl_norm3 x y z : F x -> F y -> F z -> room x -> room y -> room z ->
  exists r, @nsqrt ext NF (@nadd ext NF (@nadd ext NF (@nsq ext NF (Some x)) (@nsq ext NF (Some y)))
                                         (@nsq ext NF (Some z))) = Some r /\
    r = rn (sqrt (rn (rn (rn (x * x) + rn (y * y)) + rn (z * z)))) /\
    isf f r /\ 0 <= r /\
    (fmin_normal f <= x * x \/ fmin_normal f <= y * y \/ fmin_normal f <= z * z ->
       0 < r /\ Rabs x <= r /\ Rabs y <= r /\ Rabs z <= r).
Proof.
  intros Fx Fy Fz Rx Ry Rz. pose proof emax_big.
  destruct (fl_sq x Rx) as (E1 & B1 & G1). destruct (fl_sq y Ry) as (E2 & B2 & G2).
  destruct (fl_sq z Rz) as (E0 & B0 & G0).
  destruct (fl_add _ _ (femax f - 3) G1 G2 B1 B2 ltac:(lia)) as (E3 & B3 & B4 & B5 & G3).
  replace (femax f - 3 + 1)%Z with (femax f - 2)%Z in B3 by lia.
  assert (B0' : 0 <= rn (z * z) <= bpow radix2 (femax f - 2)).
  { split. apply B0. eapply Rle_trans. apply B0. apply bpow_le. lia. }
  destruct (fl_add _ _ (femax f - 2) G3 G0 B3 B0' ltac:(lia)) as (E3' & B3' & B4' & B5' & G3').
  replace (femax f - 2 + 1)%Z with (femax f - 1)%Z in B3' by lia.
  destruct (fl_sqrt _ G3' B3') as (E4 & B6 & B7).
  eexists. rewrite E1, E2, E3, E0, E3'. split; [exact E4|]. split; [reflexivity|]. split; auto. split; auto.
  set (s := rn (rn (rn (x * x) + rn (y * y)) + rn (z * z))) in *.
  assert (Sx : rn (x * x) <= s) by lra. assert (Sy : rn (y * y) <= s) by lra.
  assert (P : forall a, fmin_normal f <= a * a -> 0 < Rabs a).
  { intros a Ha. apply Rabs_pos_lt. intros ->. pose proof (bpow_gt_0 radix2 (femin f + fprec f - 1)).
    unfold fmin_normal in Ha. lra. }
  assert (K : forall a b, F a -> F b -> rn (a * a) <= s -> rn (b * b) <= s -> fmin_normal f <= a * a ->
     Rabs b <= rn (sqrt s)).
  { intros a b Fa Fb Sa Sb Na. pose proof (sqrt_sq_ge f ok a s Fa Na Sa).
    destruct (Rle_or_lt (fmin_normal f) (b * b)) as [Nb|Nb]. now apply sqrt_sq_ge.
    eapply Rle_trans; [| eassumption]. apply Rsqr_le_abs_0. unfold Rsqr. lra. }
  assert (K' : forall a, F a -> rn (a * a) <= s -> fmin_normal f <= a * a ->
     0 < rn (sqrt s) /\ Rabs x <= rn (sqrt s) /\ Rabs y <= rn (sqrt s) /\ Rabs z <= rn (sqrt s)).
  { intros a Fa Sa Na. pose proof (P a Na). pose proof (K a a Fa Fa Sa Sa Na).
    split. lra. split. now apply (K a x). split. now apply (K a y). now apply (K a z). }
  intros [N|[N|N]].
  - now apply (K' x). - now apply (K' y). - now apply (K' z).
Qed.

(** *** Polar angle *)
Lemma fl_ratio z r : F z -> 0 < r -> Rabs z <= r ->
  @ndiv ext NF (Some z) (Some r) = Some (rn (z / r)) /\ -1 <= rn (z / r) <= 1 /\ isf f (rn (z / r)).
Proof.
  intros Fz Hr Hz.
  assert (B : Rabs (z / r) <= 1).
  { unfold Rdiv. rewrite Rabs_mult, (Rabs_pos_eq (/ r)) by (left; now apply Rinv_0_lt_compat).
    apply Rmult_le_reg_r with r; auto. rewrite Rmult_assoc, Rinv_l by lra. lra. }
  assert (B' : Rabs (rn (z / r)) <= 1) by (apply rn_abs_le; auto; apply F1; auto).
  split; [| split].
  - cbn. assert (E : Reqb r 0 = false) by (apply Reqb_false; lra). rewrite E.
    apply fop_small; auto. lra.
  - now apply Rabs_le_inv.
  - apply small_isf; auto. apply rn_F; auto. lra.
Qed.

Lemma fl_acos c : isf f c -> -1 <= c <= 1 ->
  @nacos ext NF (Some c) = Some (m_acos L c) /\ isf f (m_acos L c) /\ 0 <= m_acos L c <= rn PI.
Proof.
  intros Fc Hc. destruct Lok as (_ & _ & H & _). destruct (H c Fc Hc) as [H1 H2].
  split; auto. cbn. destruct Hc as [H3 H4]. apply Rleb_true in H3, H4. now rewrite H3, H4.
Qed.

(** *** Azimuth *)
Lemma fl_wrap a : isf f a -> exists v, @nwrap ext NF (Some a) = Some v /\ isf f v /\ 0 <= v <= 2 * rn PI.
Proof.
  intros [Fa _]. pose proof PI_bounds. pose proof (rnPI_bounds f ok).
  cbn. rewrite <- (rn_2PI f ok). apply (fmod_range f ok); auto.
  - apply small_isf; auto. apply rn_F; auto. rewrite rn_2PI, Rabs_pos_eq by (auto; lra). lra.
  - rewrite (rn_2PI f ok). lra.
Qed.
Lemma fl_atan2_wrap y x : isf f y -> isf f x ->
  exists v, @nwrap ext NF (@natan2 ext NF (Some y) (Some x)) = Some v /\ isf f v /\ 0 <= v <= 2 * rn PI.
Proof.
  intros Fy Fx. destruct Lok as (_ & _ & _ & _ & H). destruct (H y x Fy Fx) as [H1 _].
  cbn [natan2 NF Num_fl lift2]. now apply fl_wrap.
Qed.

(** *** Checks *)
Lemma fl_check_nonneg m v : 0 <= v -> @check_nonneg ext NF m (Some v) = ret tt.
Proof.
  intros H. destruct m; auto. unfold check_nonneg. rewrite fl_cst0. cbn.
  assert (E : Rltb v 0 = false) by (now apply Rltb_false). now rewrite E.
Qed.
Lemma fl_check_polar m v l u : l <= v <= u -> @check_polar ext NF m (Some l) (Some u) (Some v) = ret tt.
Proof.
  intros H. destruct m; auto. unfold check_polar. cbn.
  assert (E : Rltb v l = false) by (apply Rltb_false; lra).
  assert (E' : Rltb u v = false) by (apply Rltb_false; lra). now rewrite E, E'.
Qed.

(** *** The constructors, on arguments in range *)
Lemma fl_mk_Sph m r th a : 0 <= r -> 0 <= th <= rn PI -> isf f a ->
  exists v, 0 <= v <= 2 * rn PI /\ isf f v /\ @nwrap ext NF (Some a) = Some v /\
    @mk_Sph ext NF m (RQty KDistance (Some r)) (Some th) (AsQty (Some a))
    = ret (PSph (mkDist KDistance (Some r : ext)) (Some th : ext) (Some v : ext)).
Proof.
  intros Hr Ht Ha. destruct (fl_wrap a Ha) as (v & E & Fv & Bv). exists v. split; auto. split; auto. split; auto.
  unfold mk_Sph. cbn [conv_r length_of_kind dval conv_az].
  rewrite fl_check_nonneg, fl_ang0, fl_angPI, fl_check_polar, E by auto. reflexivity.
Qed.
End F.
