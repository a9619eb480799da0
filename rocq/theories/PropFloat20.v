(** * C79, continued: the modulus of a parallax and the parallax of a modulus, in floating point.

    /repo/src/coordinax/_src/distances/core.py 188-199, 244-255. *)
From Coq Require Import Reals Bool List ZArith Lra Lia.
From Flocq Require Import Core.
From Verif Require Import Num Vectors Transform Float FloatThm FDist FDistThm PropFloat12.
Open Scope R_scope.

(** The modulus of a parallax is 5 log10(distance / 10 pc) of the distance 1 AU / tan(p). *)
Theorem C79_modulus_of_parallax : forall f L lg e p, fmt_ok f -> distance_libm f L lg e -> herr f e <= 1 / 100 ->
  isf f p -> 0 < p < PI / 2 -> fmin_normal f <= tan p <= fmax f / 8 ->
  80 * fmin_normal f <= / tan p <= fmax f / 16 -> mid f (AU / PC) ->
  10 * fmin_normal f <= AU / PC * (/ tan p / 10) <= fmax f / 40 ->
  let M := 5 * decimal_log (AU * / tan p / (10 * PC)) in Rabs M <= fmax f / 64 ->
  exists mu, fd_modulus f L lg (parallax_rad p) = modulus mu /\ isf f mu /\ Rabs (mu - M) <= herr f e * (19 + 2 * Rabs M).
Proof.
  intros f L lg e p ok HL small I P T [V1 V2] MA [W1 W2] M HM.
  pose proof (bnd f L lg e ok HL small) as (E0 & E1 & U). pose proof (normal_pos f) as N. pose proof AU_pos as PA. pose proof PC_pos as PP. pose proof (big f ok) as B.
  destruct (length_of_parallax f L lg e ok HL small p I P T ltac:(lra)) as (d & Ed & Id & Pd & Rd).
  assert (HB : 0 < herr f e <= 1 / 100) by (unfold herr in *; lra). set (h := herr f e) in *.
  assert (V : 0 < / tan p) by lra. set (v := / tan p) in *.
  set (k := AU / PC) in *. assert (K : 0 < k) by (destruct MA; lra).
  assert (A1 : v * 0.98 <= d <= v * 1.02) by (destruct Rd; split; nra).
  assert (ED : forall z, AU * z / (10 * PC) = k * (z / 10)) by (intros z; unfold k; field; lra).
  assert (RK : rel (2 * h) (AU * d / (10 * PC)) (AU * v / (10 * PC))).
  { rewrite !ED. destruct Rd as [R1 R2]. split; nra. }
  assert (B0 : 0 < AU * v / (10 * PC)) by (rewrite ED; apply Rmult_lt_0_compat; lra).
  assert (RL := rel_log (2 * h) _ _ B0 ltac:(lra) RK).
  change (log10 (AU * d / (10 * PC))) with (decimal_log (AU * d / (10 * PC))) in RL.
  change (log10 (AU * v / (10 * PC))) with (decimal_log (AU * v / (10 * PC))) in RL.
  assert (Q : 2 * h / (1 - 2 * h) / 2 <= 1.03 * h).
  { assert (2 * h / (1 - 2 * h) <= 2.06 * h). { apply Rmult_le_reg_r with (1 - 2 * h). lra. unfold Rdiv. rewrite Rmult_assoc, Rinv_l by lra. nra. } lra. }
  set (l := decimal_log (AU * v / (10 * PC))) in *. set (l' := decimal_log (AU * d / (10 * PC))) in *.
  assert (D5 : Rabs (5 * l' - M) <= 5.15 * h).
  { unfold M. fold l. replace (5 * l' - 5 * l) with (5 * (l' - l)) by ring. rewrite Rabs_mult, (Rabs_pos_eq 5) by lra. lra. }
  assert (T5 : Rabs (5 * l') <= Rabs M + 5.15 * h).
  { replace (5 * l') with (M + (5 * l' - M)) by ring. eapply Rle_trans. apply Rabs_triang. lra. }
  assert (T1 : Rabs (5 * l') = 5 * Rabs l') by (rewrite Rabs_mult, (Rabs_pos_eq 5) by lra; reflexivity).
  destruct (modulus_of_length f L lg e ok HL small AU d Id) as (mu & Emu & Imu & Rmu).
  - split; lra.
  - exact MA.
  - fold k. split; nra.
  - fold l'. pose proof (Rabs_pos l'). nra.
  - exists mu. split; [|split; auto].
    + unfold fd_modulus, parallax_rad. cbn [fdcls]. cbv zeta. change (mkFD KParallax (Some p) 1) with (parallax_rad p). rewrite Ed. exact Emu.
    + fold l' in Rmu. fold h in Rmu. replace (mu - M) with ((mu - 5 * l') + (5 * l' - M)) by ring. eapply Rle_trans. apply Rabs_triang.
      pose proof (Rabs_pos M). nra.
Qed.

(** The parallax of a modulus is atan(1 AU / distance) of the distance 10^(mu/5+1) pc; the
    check for negative parallaxes passes. *)
Theorem C79_parallax_of_modulus : forall f L lg e m mu, fmt_ok f -> distance_libm f L lg e -> herr f e <= 1 / 100 ->
  isf f mu -> herr f e * (3 + Rabs mu / 2) <= 1 / 16 ->
  2 * fmin_normal f <= Rpower 10 (mu / 5 + 1) <= fmax f / 16 -> mid f (PC / AU) ->
  10 * fmin_normal f <= PC / AU * Rpower 10 (mu / 5 + 1) <= fmax f / 32 ->
  10 * fmin_normal f <= atan (AU / (PC * Rpower 10 (mu / 5 + 1))) ->
  exists p, fd_parallax f L m (modulus mu) = Ok false (parallax_rad p) /\ isf f p /\ 0 < p /\
    rel_close (herr f e * (30 + 6 * Rabs mu)) p (atan (AU / (PC * Rpower 10 (mu / 5 + 1)))).
Proof.
  intros f L lg e m mu ok HL small I H [N1 N2] MA [W1 W2] NA.
  pose proof (bnd f L lg e ok HL small) as (E0 & E1 & U). pose proof (normal_pos f) as N. pose proof AU_pos as PA. pose proof PC_pos as PP. pose proof (big f ok) as B.
  destruct (length_of_modulus f L lg e ok HL small mu I H ltac:(lra) N2) as (d & Ed & Id & Pd & Rd).
  assert (HB : 0 < herr f e <= 1 / 100) by (unfold herr in *; lra). set (h := herr f e) in *.
  pose proof (Rabs_pos mu) as PM. set (w := h * (15 + 3 * Rabs mu)) in *.
  assert (W : 0 <= w <= 3 / 8) by (unfold w; split; nra).
  assert (D0 : 0 < Rpower 10 (mu / 5 + 1)) by apply exp_pos. set (D := Rpower 10 (mu / 5 + 1)) in *.
  set (k := PC / AU) in *. assert (K : 0 < k) by (destruct MA; lra).
  assert (ET : forall z, 0 < z -> AU / (PC * z) = / (k * z)) by (intros z Z; unfold k; field; repeat split; lra).
  rewrite (ET D D0) in *.
  assert (RK : rel w (k * d) (k * D)) by (destruct Rd; split; nra).
  assert (KD : 0 < k * D) by nra. assert (Kd : 0 < k * d) by nra.
  assert (RI := rel_inv w _ _ KD ltac:(lra) RK). assert (Q : w / (1 - w) <= 1.6 * w).
  { apply Rmult_le_reg_r with (1 - w). lra. unfold Rdiv. rewrite Rmult_assoc, Rinv_l by lra. nra. }
  assert (IV : 0 < / (k * D)) by now apply Rinv_0_lt_compat.
  assert (RI' : rel (1.6 * w) (/ (k * d)) (/ (k * D))) by (eapply rel_weak; [left; exact IV|exact Q|exact RI]).
  assert (RA := rel_atan (1.6 * w) _ _ IV ltac:(lra) RI'). pose proof (atan_pos _ IV) as AP.
  destruct (parallax_of_length f L lg e m ok HL small PC d Id Pd) as (p & Ep & Ip & Pp & Rp).
  - exact MA.
  - fold k. destruct RK. split; nra.
  - rewrite (ET d Pd). destruct RA. nra.
  - exists p. repeat split; auto; try apply Ip.
    + unfold fd_parallax, modulus. cbn [fdcls]. cbv zeta. change (mkFD KDistMod (Some mu) 1) with (modulus mu). rewrite Ed. exact Ep.
    + unfold rel_close. rewrite (Rabs_pos_eq (atan _)) by lra. apply rel_abs. rewrite (ET d Pd) in Rp. fold h in Rp.
      eapply rel_weak. 3: eapply (rel_trans (4 * h) (1.6 * w)); eauto; try lra. lra.
      assert (h * w <= h * (3 / 8)) by (apply Rmult_le_compat_l; lra). unfold w in *. nra.
Qed.

(** ** The hypotheses are met *)
Lemma range32 : fmin_normal binary32 <= / 1000000000000 /\ 1000000000000 <= fmax binary32 / 64.
Proof.
  unfold fmin_normal, fmax. split.
  - apply Rle_trans with (bpow radix2 (-40)). apply bpow_le. simpl; lia. change (bpow radix2 (-40)) with (/ 1099511627776). apply Rinv_le_contravar; lra.
  - apply Rle_trans with (bpow radix2 46 / 64). change (bpow radix2 46) with 70368744177664. lra. apply Rmult_le_compat_r. lra. apply bpow_le. simpl; lia.
Qed.
Lemma au_over_pc : / 250000 <= AU / PC <= / 160000.
Proof.
  pose proof PI_tight as PT. pose proof AU_pos. replace (AU / PC) with (PI / 648000) by (unfold PC; field; split; lra). lra.
Qed.
(** a parallax of one radian *)
Example C79_modulus_of_parallax_ex : exists mu,
  fd_modulus binary32 (cr_libm binary32) (fun x => frnd binary32 (decimal_log x)) (parallax_rad 1) = modulus mu /\ mu < 0.
Proof.
  assert (ok := binary32_ok). destruct bits32 as (B1 & B2 & B3). destruct range32 as (R1 & R2). pose proof au_over_pc as AP. pose proof (normal_pos binary32) as N. pose proof (fu_256 binary32 ok) as U.
  pose proof AU_pos as PA. pose proof PC_pos as PP. pose proof PI_tight as PT.
  assert (T1 : 1 <= tan 1 <= 1.74). { split. apply tan_ge. lra. eapply Rle_trans. 2: apply tan_PI3_le. apply tan_le; lra. }
  assert (V : / 2 <= / tan 1 <= 1). { split. apply Rinv_le_contravar; lra. apply Rle_trans with (/ 1). apply Rinv_le_contravar; lra. lra. }
  set (v := / tan 1) in *. assert (EK : AU * v / (10 * PC) = AU / PC * (v / 10)) by (field; lra).
  set (k := AU / PC) in *. assert (KB : / 10000000 <= k * (v / 10) <= / 1600000) by nra.
  assert (DL : - 30000000 <= 5 * decimal_log (k * (v / 10)) <= - 5 / 10).
  { set (y := k * (v / 10)) in *. unfold decimal_log. pose proof ln10_bounds as LB. assert (Y : 0 < y) by lra.
    pose proof (ln_le' (/ y) ltac:(now apply Rinv_0_lt_compat)) as L1. rewrite ln_Rinv in L1 by auto.
    assert (IY : / y <= 10000000). { replace 10000000 with (/ / 10000000) by field. apply Rinv_le_contravar; lra. }
    pose proof (ln_le' y Y) as L2. assert (I : / 3 <= / ln 10 <= / 2) by (split; apply Rinv_le_contravar; lra).
    replace (5 * (ln y / ln 10)) with (- (5 * (- ln y * / ln 10))) by (field; lra). split.
    - assert (- ln y * / ln 10 <= 9999999 * / 2) by (apply Rmult_le_compat; lra). lra.
    - assert (9/10 * / 3 <= - ln y * / ln 10) by (apply Rmult_le_compat; lra). lra. }
  destruct (C79_modulus_of_parallax binary32 (cr_libm binary32) (fun x => frnd binary32 (decimal_log x)) (fu binary32) 1 ok (cr_distance_libm _ ok)) as (mu & E & _ & R).
  - unfold herr; lra.
  - apply small_isf; auto. apply F1; auto. rewrite Rabs_pos_eq; lra.
  - lra.
  - lra.
  - fold v. lra.
  - split; fold k; lra.
  - fold v k. lra.
  - fold v. rewrite EK. fold k. rewrite Rabs_left1 by lra. lra.
  - exists mu. split; auto. fold v in R. rewrite EK in R. fold k in R. apply Rabs_le_inv in R. rewrite Rabs_left1 in R by lra. unfold herr in R.
    assert ((fu binary32 + fu binary32) * (19 + 2 * - (5 * decimal_log (k * (v / 10)))) <= / 5000000 * (19 + 2 * - (5 * decimal_log (k * (v / 10))))) by (apply Rmult_le_compat_r; lra). lra.
Qed.
(** the modulus 5, i.e. 100 pc *)
Example C79_parallax_of_modulus_ex : exists p,
  fd_parallax binary32 (cr_libm binary32) Eager (modulus 5) = Ok false (parallax_rad p) /\
  Rabs (p - atan (AU / (PC * 100))) <= 120 * fu binary32 * atan (AU / (PC * 100)).
Proof.
  assert (ok := binary32_ok). destruct bits32 as (B1 & B2 & B3). destruct range32 as (R1 & R2). pose proof au_over_pc as AP. pose proof (normal_pos binary32) as N. pose proof (fu_256 binary32 ok) as U.
  pose proof AU_pos as PA. pose proof PC_pos as PP. pose proof PI_tight as PT.
  assert (EP : Rpower 10 (5 / 5 + 1) = 100). { replace (5 / 5 + 1) with (1 + 1) by field. rewrite Rpower_plus, Rpower_1 by lra. ring. }
  assert (KB : 160000 <= PC / AU <= 250000).
  { replace (PC / AU) with (/ (AU / PC)) by (field; lra). split.
    - replace 160000 with (/ / 160000) by field. apply Rinv_le_contravar; lra.
    - replace 250000 with (/ / 250000) by field. apply Rinv_le_contravar; lra. }
  assert (T : / 25000000 <= AU / (PC * 100) <= 1) by (replace (AU / (PC * 100)) with (AU / PC / 100) by (field; lra); lra).
  assert (A : / 50000000 <= atan (AU / (PC * 100))).
  { pose proof (atan_concave (AU / (PC * 100)) 1 ltac:(lra) ltac:(lra)) as G. rewrite atan_1, Rmult_1_r in G. nra. }
  destruct (C79_parallax_of_modulus binary32 (cr_libm binary32) (fun x => frnd binary32 (decimal_log x)) (fu binary32) Eager 5 ok (cr_distance_libm _ ok)) as (p & E & _ & _ & R).
  - unfold herr; lra.
  - apply small_isf; auto. apply (F_small_int binary32 ok 5). lia. rewrite Rabs_pos_eq; lra.
  - unfold herr. rewrite Rabs_pos_eq by lra. lra.
  - rewrite EP. lra.
  - split; lra.
  - rewrite EP. lra.
  - rewrite EP. lra.
  - exists p. split; auto. unfold rel_close in R. rewrite EP in R. rewrite (Rabs_pos_eq 5), (Rabs_pos_eq (atan _)) in R by lra. unfold herr in R.
    replace (120 * fu binary32) with ((fu binary32 + fu binary32) * (30 + 6 * 5)) by ring. exact R.
Qed.
Print Assumptions C79_modulus_of_parallax.
Print Assumptions C79_parallax_of_modulus.
