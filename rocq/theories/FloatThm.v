(** * Floating point: facts about rounding used by PropFloat.v. *)
From Coq Require Import Reals Bool List ZArith Lra Lia.
From Flocq Require Import Core Plus_error Relative Div_sqrt_error.
From Verif Require Import Num Vectors Transform Float.
Open Scope R_scope.

Lemma binary32_ok : fmt_ok binary32. Proof. repeat split; simpl; lia. Qed.
Lemma binary64_ok : fmt_ok binary64. Proof. repeat split; simpl; lia. Qed.
Lemma bfloat16_ok : fmt_ok bfloat16. Proof. repeat split; simpl; lia. Qed.

Section F.
Variable f : fmt.
Hypothesis ok : fmt_ok f.
Notation p := (fprec f).
Notation F := (generic_format radix2 (fexp_of f)).
Notation rn := (frnd f).

Local Instance prec_pos : Prec_gt_0 p.
Proof. destruct ok as [H _]. unfold Prec_gt_0. lia. Qed.
Local Instance vexp : Valid_exp (fexp_of f).
Proof. apply FLT_exp_valid, prec_pos. Qed.
Local Instance mexp : Monotone_exp (fexp_of f).
Proof. apply FLT_exp_monotone. Qed.

Lemma prec_gt : (0 < p)%Z.
Proof. destruct ok as [H _]. lia. Qed.

Lemma rn_F x : F (rn x).
Proof. apply generic_format_round; auto with typeclass_instances. Qed.
Lemma rn_id x : F x -> rn x = x.
Proof. intros H. apply round_generic; auto with typeclass_instances. Qed.
Lemma rn_le x y : x <= y -> rn x <= rn y.
Proof. intros H. apply round_le; auto with typeclass_instances. Qed.
Lemma rn_ge_F x y : F x -> x <= y -> x <= rn y.
Proof. intros H K. apply round_ge_generic; auto with typeclass_instances. Qed.
Lemma rn_le_F x y : F y -> x <= y -> rn x <= y.
Proof. intros H K. apply round_le_generic; auto with typeclass_instances. Qed.
Lemma F0 : F 0. Proof. apply generic_format_0. Qed.
Lemma rn0 : rn 0 = 0. Proof. apply rn_id, F0. Qed.
Lemma F_opp x : F x -> F (- x). Proof. apply generic_format_opp. Qed.
Lemma F_abs x : F x -> F (Rabs x). Proof. apply generic_format_abs. Qed.
Lemma rn_opp x : rn (- x) = - rn x.
Proof. unfold frnd. apply round_NE_opp. Qed.
Lemma F_bpow e : (femin f <= e)%Z -> F (bpow radix2 e).
Proof.
  intros H. apply generic_format_bpow. unfold fexp_of, FLT_exp.
  destruct ok as [H1 _]. apply Z.max_lub; lia.
Qed.
Lemma F1 : F 1.
Proof. change 1 with (bpow radix2 0). apply F_bpow. destruct ok as (H1 & H2 & _). lia. Qed.

Lemma rn_abs_le x y : F y -> Rabs x <= y -> Rabs (rn x) <= y.
Proof.
  intros Fy H. apply Rabs_le. apply Rabs_le_inv in H. split.
  - apply rn_ge_F. now apply F_opp. lra.
  - apply rn_le_F; auto. lra.
Qed.

Lemma fin_some x : Rabs x < fmax f -> fin f x = Some x.
Proof. intros H. unfold fin. apply Rltb_true in H. now rewrite H. Qed.
Lemma fop_some x e : (femin f <= e < femax f)%Z -> Rabs x <= bpow radix2 e -> fop f x = Some (rn x).
Proof.
  intros [H1 H2] H. unfold fop. apply fin_some.
  apply Rle_lt_trans with (bpow radix2 e). apply rn_abs_le; auto. now apply F_bpow.
  now apply bpow_lt.
Qed.
Lemma fop_isf x y : fop f x = Some y -> isf f y /\ y = rn x.
Proof.
  unfold fop, fin. destruct (Rltb _ _) eqn:E; [| discriminate].
  intros [= <-]. apply Rltb_true in E. repeat split; auto. apply rn_F.
Qed.
Lemma isf_bnd x e : (femin f <= e < femax f)%Z -> F x -> Rabs x <= bpow radix2 e -> isf f x.
Proof.
  intros [H1 H2] Fx H. split; auto. apply Rle_lt_trans with (1:=H). now apply bpow_lt.
Qed.

(** Small constants never overflow. *)
Lemma fop_small x : Rabs x <= 16 -> fop f x = Some (rn x).
Proof.
  intros H. apply (fop_some x 4). destruct ok as (H1 & H2 & H3). lia. exact H.
Qed.
Lemma small_isf x : F x -> Rabs x <= 16 -> isf f x.
Proof. intros Fx H. apply (isf_bnd x 4); auto. destruct ok as (H1 & H2 & H3). lia. Qed.

(** *** Rounded pi *)
Lemma F_small_int n : (Z.abs n <= 16)%Z -> F (IZR n).
Proof.
  intros H. unfold fexp_of. destruct ok as (H1 & H2 & H3).
  destruct (Z.eq_dec (Z.abs n) 16) as [E|E].
  - assert (Q : n = 16%Z \/ n = (-16)%Z) by lia. destruct Q; subst.
    + change 16 with (bpow radix2 4). apply F_bpow; lia.
    + change (-16) with (- bpow radix2 4). apply F_opp, F_bpow; lia.
  - apply generic_format_FLT. exists (Float radix2 n 0); simpl.
    + unfold F2R; simpl. ring.
    + apply Z.lt_le_trans with (2 ^ 4)%Z. simpl; lia. apply Z.pow_le_mono_r; lia.
    + lia.
Qed.
Lemma PI_bounds : 3 < PI < 4.
Proof. split. pose proof PI2_3_2; lra. pose proof PI2_3_2; pose proof PI_4; destruct PI_4; try lra.
  exfalso. pose proof (PI2_3_2). (* PI = 4 impossible: PI_ineq *)
  pose proof (PI_ineq 1) as [_ Q]. simpl in Q. unfold tg_alt, PI_tg in Q. simpl in Q. lra. Qed.

(** Scaling by a power of two commutes with rounding of normal numbers. *)
Lemma rn_scale x k : x <> 0 -> fmin_normal f <= Rabs x -> fmin_normal f <= Rabs (x * bpow radix2 k) ->
  rn (x * bpow radix2 k) = rn x * bpow radix2 k.
Proof.
  intros H0 H1 H2. unfold frnd, round, F2R, scaled_mantissa, cexp; simpl.
  rewrite mag_mult_bpow by auto.
  assert (C : forall y, fmin_normal f <= Rabs y -> fexp_of f (mag radix2 y) = (mag radix2 y - p)%Z).
  { intros y Hy. unfold fexp_of, FLT_exp. apply Z.max_l.
    assert (femin f + p - 1 < mag radix2 y)%Z.
    { apply mag_gt_bpow. exact Hy. } lia. }
  assert (M : fexp_of f (mag radix2 x + k) = (fexp_of f (mag radix2 x) + k)%Z).
  { rewrite <- mag_mult_bpow with (r := radix2) by auto. rewrite (C _ H2), (C _ H1).
    rewrite mag_mult_bpow by auto. lia. }
  rewrite M. rewrite Z.opp_add_distr, !bpow_plus.
  replace (x * bpow radix2 k * (bpow radix2 (- fexp_of f (mag radix2 x)) * bpow radix2 (- k)))
    with (x * bpow radix2 (- fexp_of f (mag radix2 x)) * (bpow radix2 k * bpow radix2 (- k))) by ring.
  rewrite <- bpow_plus, Z.add_opp_diag_r. simpl. rewrite Rmult_1_r. ring.
Qed.

Lemma min_normal_small : fmin_normal f <= / 16.
Proof.
  unfold fmin_normal. change (/ 16) with (bpow radix2 (-4)). apply bpow_le.
  destruct ok as (H1 & H2 & H3). lia.
Qed.
Lemma rn_2PI : rn (2 * PI) = 2 * rn PI.
Proof.
  pose proof PI_bounds. pose proof min_normal_small.
  pose proof (rn_scale PI 1) as Q. simpl in Q. rewrite (Rmult_comm 2 PI), (Rmult_comm 2 (rn PI)).
  apply Q. lra. rewrite Rabs_pos_eq; lra. rewrite Rabs_pos_eq; lra.
Qed.
Lemma rn_PI2 : rn (PI / 2) = rn PI / 2.
Proof.
  pose proof PI_bounds. pose proof min_normal_small.
  pose proof (rn_scale PI (-1)) as Q. simpl in Q. unfold Rdiv.
  apply Q. lra. rewrite Rabs_pos_eq; lra. rewrite Rabs_pos_eq; lra.
Qed.
Lemma rnPI_bounds : 3 <= rn PI <= 4.
Proof.
  pose proof PI_bounds. split.
  - apply rn_ge_F. apply (F_small_int 3). lia. lra.
  - apply rn_le_F. apply (F_small_int 4). lia. lra.
Qed.

(** *** The square root of a square *)
Lemma half_ulp_err x : Rabs (rn x - x) <= / 2 * ulp radix2 (fexp_of f) x.
Proof. apply error_le_half_ulp. auto with typeclass_instances. Qed.

(** If [z] is a number of the format whose square is normal, the rounded root
    of the rounded square is at least [|z|]. *)
Lemma sqrt_sq_ge z s : F z -> fmin_normal f <= z * z -> rn (z * z) <= s -> Rabs z <= rn (sqrt s).
Proof.
  intros Fz Hn Hs.
  apply Rle_trans with (rn (sqrt (rn (z * z)))); [| now apply rn_le, sqrt_le_1_alt ].
  assert (Hz : 0 < Rabs z).
  { apply Rabs_pos_lt. intros ->. rewrite Rmult_0_l in Hn.
    pose proof (bpow_gt_0 radix2 (femin f + p - 1)). unfold fmin_normal in Hn. lra. }
  assert (Ha : z * z = Rabs z * Rabs z) by (rewrite <- Rabs_mult, Rabs_pos_eq by nra; auto).
  rewrite Ha in *. apply F_abs in Fz. clear Ha Hs. revert Hz Fz Hn. generalize (Rabs z). clear z.
  intros z Hz Fz Hn.
  set (e := mag radix2 z). 
  assert (He : bpow radix2 (e - 1) <= z < bpow radix2 e).
  { rewrite <- (Rabs_pos_eq z) at 2 3 by lra. split. apply bpow_mag_le. lra. apply bpow_mag_gt. }
  assert (Hlow : bpow radix2 (e-1) * bpow radix2 (e-1) <= z * z) by (pose proof (bpow_gt_0 radix2 (e-1)); nra).
  destruct (Req_dec z (bpow radix2 (e-1))) as [E|NE].
  { (* a power of two: the square is exact *)
    assert (Fzz : F (z * z)).
    { rewrite E, <- bpow_plus. apply F_bpow.
      unfold fmin_normal in Hn. rewrite E, <- bpow_plus in Hn. apply le_bpow in Hn.
      destruct ok as (H1 & _). lia. }
    rewrite (rn_id _ Fzz), sqrt_square by lra. rewrite (rn_id _ Fz). lra. }
  (* ulp of z and of z*z *)
  assert (Hzz : z * z < bpow radix2 (2 * e)).
  { replace (2 * e)%Z with (e + e)%Z by lia. rewrite bpow_plus. pose proof (bpow_gt_0 radix2 e). nra. }
  assert (Hm : (mag radix2 (z * z) <= 2 * e)%Z).
  { apply mag_le_bpow. nra. rewrite Rabs_pos_eq by nra. exact Hzz. }
  assert (Hm2 : (femin f + p - 1 < mag radix2 (z * z))%Z).
  { apply mag_gt_bpow. rewrite Rabs_pos_eq by nra. exact Hn. }
  assert (U : ulp radix2 (fexp_of f) (z * z) <= bpow radix2 (2 * e - p)).
  { rewrite ulp_neq_0 by nra. apply bpow_le. unfold cexp, fexp_of, FLT_exp. lia. }
  pose proof (half_ulp_err (z * z)) as Herr. apply Rabs_le_inv in Herr.
  assert (Hemin : (femin f <= e - p)%Z).
  { destruct ok as (H1 & H2 & _).
    assert (femin f + p - 1 < 2 * e)%Z by lia. lia. }
  assert (Uz : ulp radix2 (fexp_of f) z = bpow radix2 (e - p)).
  { rewrite ulp_neq_0 by lra. unfold cexp. fold e. unfold fexp_of, FLT_exp. f_equal. apply Z.max_l. lia. }
  (* pred z = z - ulp z *)
  assert (Hpred : pred radix2 (fexp_of f) z = z - bpow radix2 (e - p)).
  { rewrite pred_eq_pos by lra. unfold pred_pos. fold e. rewrite Req_bool_false by auto. now rewrite Uz. }
  (* z is at least one ulp above the power of two *)
  assert (Hsep : bpow radix2 (e - 1) + bpow radix2 (e - p) <= z).
  { assert (Fb : F (bpow radix2 (e - 1))).
    { apply F_bpow. destruct ok as (H1 & _). lia. }
    assert (bpow radix2 (e - 1) <= pred radix2 (fexp_of f) z).
    { apply pred_ge_gt; auto with typeclass_instances. lra. }
    lra. }
  apply round_N_ge_midp; auto with typeclass_instances.
  rewrite Hpred.
  replace ((z + (z - bpow radix2 (e - p))) / 2) with (z - bpow radix2 (e - p) / 2) by field.
  set (h := bpow radix2 (e - p)) in *.
  assert (Hh : 0 < h) by apply bpow_gt_0.
  assert (Hb1 : bpow radix2 (2 * e - p) = 2 * (bpow radix2 (e - 1) * h)).
  { unfold h. rewrite <- bpow_plus. replace (2 * e - p)%Z with (1 + (e - 1 + (e - p)))%Z by lia.
    rewrite bpow_plus. change (bpow radix2 1) with 2. reflexivity. }
  assert (Hbp : 0 < bpow radix2 (e-1)) by apply bpow_gt_0.
  set (b := bpow radix2 (e-1)) in *.
  assert (Hlt : (z - h / 2) * (z - h / 2) < rn (z * z)) by nra.
  apply Rle_lt_trans with (sqrt ((z - h/2) * (z - h/2))).
  - rewrite sqrt_square by lra. lra.
  - apply sqrt_lt_1_alt. split; [nra | exact Hlt].
Qed.

(** *** Relative errors *)
Lemma fu_eq : / 2 * bpow radix2 (- p + 1) = fu f.
Proof. unfold fu. rewrite bpow_plus. change (bpow radix2 1) with 2. field. Qed.
Lemma fu_pos : 0 < fu f. Proof. apply bpow_gt_0. Qed.
Lemma fu_small : fu f <= / 16.
Proof. unfold fu. change (/16) with (bpow radix2 (-4)). apply bpow_le. destruct ok as [H _]. lia. Qed.

Lemma rn_rel x : x = 0 \/ fmin_normal f <= Rabs x -> exists e, Rabs e <= fu f /\ rn x = x * (1 + e).
Proof.
  intros [-> | H].
  - exists 0. rewrite Rabs_R0, rn0. split. pose proof fu_pos; lra. ring.
  - destruct (relative_error_N_FLT_ex radix2 (femin f) p (prec_gt) (fun t => negb (Z.even t)) x H) as (e & He & Hx).
    rewrite fu_eq in He. exists e. split; auto.
Qed.
Lemma rn_add_rel x y : F x -> F y -> exists e, Rabs e <= fu f /\ rn (x + y) = (x + y) * (1 + e).
Proof.
  intros Fx Fy.
  destruct (FLT_plus_error_N_ex radix2 (femin f) p (fun t => negb (Z.even t)) x y Fx Fy) as (e & He & Hx).
  exists e. split; auto. eapply Rle_trans. exact He.
  unfold u_ro. rewrite fu_eq. pose proof fu_pos.
  apply Rmult_le_reg_r with (1 + fu f). lra. unfold Rdiv. rewrite Rmult_assoc, Rinv_l by lra. nra.
Qed.
(** any operation: relative error plus an absolute one from underflow *)
Lemma rn_err x : Rabs (rn x - x) <= fu f * Rabs x + bpow radix2 (femin f).
Proof.
  destruct (error_N_FLT radix2 (femin f) p prec_gt (fun t => negb (Z.even t)) x)
    as (e & eta & He & Heta & _ & Hx).
  rewrite fu_eq in He. unfold frnd, fexp_of. rewrite Hx.
  replace (x * (1 + e) + eta - x) with (x * e + eta) by ring.
  eapply Rle_trans. apply Rabs_triang. rewrite Rabs_mult.
  pose proof (Rabs_pos x). pose proof (bpow_gt_0 radix2 (femin f)). nra.
Qed.

(** *** Floored modulo *)
Lemma trunc_rem_spec M x : F M -> 0 < M -> F x ->
  F (ftrunc_rem M x) /\ - M < ftrunc_rem M x < M /\
  (0 <= x -> 0 <= ftrunc_rem M x) /\ (x <= 0 -> ftrunc_rem M x <= 0).
Proof.
  intros FM HM Fx. unfold ftrunc_rem.
  assert (FF : F (x - M * IZR (Ztrunc (x / M)))).
  { rewrite (Rmult_comm M). apply format_REM_ZR; auto with typeclass_instances. }
  split; auto. clear FF.
  assert (Ex : x = (x / M) * M) by (field; lra).
  set (q := x / M) in *.
  destruct (Rle_or_lt 0 q) as [Hq|Hq].
  - rewrite Ztrunc_floor by auto. pose proof (Zfloor_lb q). pose proof (Zfloor_ub q).
    rewrite Ex. split; [nra|]. split; [nra|]. intros.
    assert (q = 0) by nra. rewrite H2 in *. rewrite Zfloor_IZR with (n:=0%Z) in *. lra.
  - rewrite Ztrunc_ceil by lra. pose proof (Zceil_ub q).
    assert (IZR (Zceil q) < q + 1).
    { unfold Zceil in *. rewrite opp_IZR in *. pose proof (Zfloor_ub (- q)). lra. }
    rewrite Ex. split; [nra|]. split; [intros; exfalso; nra | nra].
Qed.

Lemma fmod_range M x : isf f M -> 0 < M -> F x ->
  exists v, fmod f M x = Some v /\ isf f v /\ 0 <= v <= M.
Proof.
  intros [FM OM] HM Fx. rewrite Rabs_pos_eq in OM by lra.
  destruct (trunc_rem_spec M x FM HM Fx) as (Ft & Ht & _). unfold fmod.
  set (t := ftrunc_rem M x) in *. destruct (Rltb t 0) eqn:E.
  - apply Rltb_true in E. exists (rn (t + M)).
    assert (B : 0 <= rn (t + M) <= M).
    { split. rewrite <- rn0. apply rn_le. lra. apply rn_le_F; auto. lra. }
    split. unfold fop. apply fin_some. rewrite Rabs_pos_eq; lra.
    split; [| exact B]. split. apply rn_F. rewrite Rabs_pos_eq; lra.
  - apply Rltb_false in E. exists t. repeat split; auto; try lra. rewrite Rabs_pos_eq; lra.
Qed.

Lemma fmod_id M x : 0 < M -> 0 <= x < M -> fmod f M x = Some x.
Proof.
  intros HM Hx. unfold fmod, ftrunc_rem.
  assert (E : Ztrunc (x / M) = 0%Z).
  { rewrite Ztrunc_floor. 2:{ apply Rmult_le_pos; [lra|]. left; apply Rinv_0_lt_compat; lra. }
    apply Zfloor_imp. simpl. split.
    apply Rmult_le_pos; [lra|]. left; apply Rinv_0_lt_compat; lra.
    apply Rmult_lt_reg_r with M; auto. unfold Rdiv. rewrite Rmult_assoc, Rinv_l by lra. lra. }
  rewrite E, Rmult_0_r, Rminus_0_r.
  assert (Q : Rltb x 0 = false) by (apply Rltb_false; lra). now rewrite Q.
Qed.

(** the result differs from [x] by a whole number of turns, up to one rounding *)
Lemma fmod_err M x v : F M -> 0 < M -> F x -> fmod f M x = Some v ->
  exists k : Z, Rabs (v - (x - M * IZR k)) <= fu f * M.
Proof.
  intros FM HM Fx H.
  destruct (trunc_rem_spec M x FM HM Fx) as (Ft & Ht & _). unfold fmod in H.
  pose proof fu_pos.
  destruct (Rltb (ftrunc_rem M x) 0) eqn:E.
  - apply Rltb_true in E. apply fop_isf in H. destruct H as [_ ->].
    exists (Ztrunc (x / M) - 1)%Z. rewrite minus_IZR.
    replace (x - M * (IZR (Ztrunc (x / M)) - 1)) with (ftrunc_rem M x + M) by (unfold ftrunc_rem; ring).
    destruct (rn_add_rel _ _ Ft FM) as (e & He & ->).
    replace ((ftrunc_rem M x + M) * (1 + e) - (ftrunc_rem M x + M)) with ((ftrunc_rem M x + M) * e) by ring.
    rewrite Rabs_mult, (Rabs_pos_eq (_ + M)) by lra. rewrite Rmult_comm.
    apply Rmult_le_compat; try lra. apply Rabs_pos.
  - injection H as <-. exists (Ztrunc (x / M)). unfold ftrunc_rem, Rminus.
    rewrite Rplus_opp_r, Rabs_R0. nra.
Qed.

(** A tiny negative angle wraps to the upper end itself. *)
Lemma fmod_tiny_negative M x : isf f M -> 1 <= M -> - fu f / 2 < x < 0 -> fmod f M x = Some M.
Proof.
  intros [FM OM] HM Hx. rewrite Rabs_pos_eq in OM by lra. pose proof fu_small.
  assert (T : ftrunc_rem M x = x).
  { unfold ftrunc_rem. assert (E : Ztrunc (x / M) = 0%Z).
    { rewrite Ztrunc_ceil.
      2:{ apply Rmult_le_reg_r with M. lra. unfold Rdiv. rewrite Rmult_assoc, Rinv_l by lra. lra. }
      apply Zceil_imp. simpl.
      assert (-1 < x / M). { apply Rmult_lt_reg_r with M. lra. unfold Rdiv. rewrite Rmult_assoc, Rinv_l by lra. lra. }
      assert (x / M <= 0). { apply Rmult_le_reg_r with M. lra. unfold Rdiv. rewrite Rmult_assoc, Rinv_l by lra. lra. }
      lra. }
    rewrite E. ring. }
  unfold fmod. rewrite T.
  assert (Q : Rltb x 0 = true) by (apply Rltb_true; lra). rewrite Q.
  assert (E : rn (x + M) = M).
  { apply Rle_antisym. apply rn_le_F; auto. lra.
    apply round_N_ge_midp; auto with typeclass_instances.
    (* pred M <= M - u *)
    assert (F12 : F (/ 2)).
    { change (/2) with (bpow radix2 (-1)). apply F_bpow. destruct ok as (H1 & H2 & _). lia. }
    assert (Hp : / 2 <= pred radix2 (fexp_of f) M).
    { apply pred_ge_gt; auto with typeclass_instances. lra. }
    set (y := pred radix2 (fexp_of f) M) in *.
    assert (Hs : M = y + ulp radix2 (fexp_of f) y).
    { rewrite <- succ_eq_pos by lra. unfold y. symmetry. apply succ_pred; auto with typeclass_instances. }
    assert (Hu : fu f <= ulp radix2 (fexp_of f) y).
    { rewrite ulp_neq_0 by lra. apply bpow_le. unfold cexp.
      assert (-1 < mag radix2 y)%Z. { apply mag_gt_bpow. simpl. rewrite Rabs_pos_eq; lra. }
      unfold fexp_of, FLT_exp. lia. }
    lra. }
  unfold fop. rewrite E. apply fin_some. rewrite Rabs_pos_eq; lra.
Qed.
End F.
