(** * C74, third part: spherical velocities near the pole in floating point. *)
From Coq Require Import Reals Bool List ZArith Lra Lia.
From Flocq Require Import Core.
From Verif Require Import Num Vectors Transform Pos3D Pos3DThm Vel UVel Float FloatThm FloatConv PropFloat PropFloat3 FVel PropFloat6 PropFloat7.
Import ListNotations.
Open Scope R_scope.

(** Finding: close to the axis (where the computed polar angle is 0, C59) the polar
    component of a spherical velocity is not a number, whatever the velocity; nothing is raised.
    In binary32 this happens for every point (x, 0, 1) with |x| < 1.7e-4. *)
Theorem C74_finding_no_polar_velocity_near_the_pole : forall f L m deg n x vx vy vz,
  fmt_ok f -> libm_ok f L -> isf f x -> x * x <= fu f / 2 -> isf f vx -> isf f vy -> isf f vz ->
  exists a c, fvel_represent_as f L m deg (S n) nokw (mkVel WCart3 [Some vx; Some vy; Some vz]) WSph (cart3 x 0 1)
    = Ok false (mkVel WSph [a; None; c]).
Proof.
  intros f L m deg n x vx vy vz ok Lok Ix Hx _ _ _.
  pose proof (fu_pos f) as Pu. pose proof (fu_small f ok) as Su.
  assert (S1 : forall v, Rabs v <= 16 -> fop f v = Some (frnd f v)) by (intros; now apply fop_small).
  set (a := frnd f (x * x)).
  assert (Fu2 : generic_format radix2 (fexp_of f) (fu f / 2)).
  { replace (fu f / 2) with (bpow radix2 (- fprec f - 1)).
    apply F_bpow; auto. destruct ok as (H1 & H2 & H3). lia.
    unfold fu, Zminus. rewrite bpow_plus. change (bpow radix2 (Z.opp 1)) with (/ 2). reflexivity. }
  assert (Ba : 0 <= a <= fu f / 2).
  { unfold a. split. apply rn_ge_F; auto. apply F0. nra. apply rn_le_F; auto. }
  assert (Fa : generic_format radix2 (fexp_of f) a) by (apply rn_F; auto).
  assert (E1 : @nsq ext (NF f L) (Some x) = Some a).
  { unfold nsq. cbn. apply S1. rewrite Rabs_pos_eq by nra. lra. }
  assert (E2 : @nsq ext (NF f L) (Some 0) = Some 0).
  { unfold nsq. cbn. rewrite Rmult_0_l, S1 by (rewrite Rabs_R0; lra). now rewrite rn0. }
  assert (E3 : @nsq ext (NF f L) (Some 1) = Some 1).
  { unfold nsq. cbn. rewrite Rmult_1_l, S1 by (rewrite Rabs_R1; lra). rewrite rn_id; auto. now apply F1. }
  assert (E4 : @nadd ext (NF f L) (Some a) (Some 0) = Some a).
  { cbn. rewrite Rplus_0_r, S1 by (rewrite Rabs_pos_eq; lra). now rewrite rn_id. }
  assert (E5 : @nadd ext (NF f L) (Some a) (Some 1) = Some 1).
  { cbn. rewrite S1 by (rewrite Rabs_pos_eq; lra). f_equal.
    assert (V : Valid_exp (fexp_of f)) by (apply FLT_exp_valid; destruct ok; unfold Prec_gt_0; lia).
    apply Rle_antisym.
    - apply round_N_le_midp; auto. now apply F1.
      rewrite succ_eq_pos by lra. rewrite ulp_neq_0 by lra. unfold cexp.
      change 1 with (bpow radix2 0). rewrite mag_bpow.
      unfold fexp_of, FLT_exp. rewrite Z.max_l by (destruct ok as (H1 & H2 & _); lia).
      replace (0 + 1 - fprec f)%Z with (- fprec f + 1)%Z by lia. rewrite bpow_plus.
      change (bpow radix2 1) with 2. change (bpow radix2 0) with 1. fold (fu f). lra.
    - apply rn_ge_F; auto. now apply F1. lra. }
  assert (E6 : @nsqrt ext (NF f L) (Some 1) = Some 1).
  { cbn. assert (Q : Rleb 0 1 = true) by (apply Rleb_true; lra). rewrite Q, sqrt_1, S1 by (rewrite Rabs_R1; lra).
    rewrite rn_id; auto. now apply F1. }
  assert (E7 : @ndiv ext (NF f L) (Some 1) (Some 1) = Some 1).
  { cbn. assert (Q : Reqb 1 0 = false) by (apply Reqb_false; lra). rewrite Q.
    replace (1 / 1) with 1 by field. rewrite S1 by (rewrite Rabs_R1; lra). rewrite rn_id; auto. now apply F1. }
  assert (E8 : @nacos ext (NF f L) (Some 1) = Some 0).
  { cbn. assert (Q1 : Rleb (-1) 1 = true) by (apply Rleb_true; lra).
    assert (Q2 : Rleb 1 1 = true) by (apply Rleb_true; lra). rewrite Q1, Q2. cbn [andb].
    destruct Lok as (_ & _ & _ & H & _). now rewrite H. }

  assert (E9 : @nsub ext (NF f L) (Some 1) (Some 1) = Some 0).
  { cbn.
    rewrite Rminus_diag_eq, S1 by (auto; rewrite Rabs_R0; lra). now rewrite rn0. }
  assert (SQ : @nsqrt ext (NF f L) (Some 0) = Some 0).
  { cbn. assert (Q : Rleb 0 0 = true) by (apply Rleb_true; lra). rewrite Q, sqrt_0. unfold fop. rewrite rn0.
    apply fin_some. rewrite Rabs_R0. apply bpow_gt_0. }
  assert (D : forall z : ext, @ndiv ext (NF f L) z (Some 0) = None).
  { intros [z|]; cbn; auto. assert (Q : Reqb 0 0 = true) by (now apply Reqb_true). now rewrite Q. }
  assert (NN : @nneg ext (NF f L) None = None) by reflexivity.
  assert (J : exists a1 c1 a2 c2 a3 c3, fjacobian f L deg (S n) nokw (cart3 x 0 1) CSph = Ok false [[a1; None; c1]; [a2; None; c2]; [a3; None; c3]]).
  { unfold fjacobian, fjac_column, cart3. cbn [components length seq mapM map]. unfold seed, basis. cbn [seq map nth Nat.eqb].
    do 3 (step; unfold mk_Sph; cbn [conv_r conv_az length_of_kind check_nonneg check_polar]; unfold ret; rewrite ?bind_ok).
    cbn [components map dd dval]. unfold nsq. cbn [nmul nadd nsqrt natan2 nacos ndiv nneg nwrap Num_fdual dd dv].
    change (Num_fl f L) with (NF f L). unfold nsq in E1, E2, E3.
    rewrite !E1, !E2, !E3, !E4, !E5, !E6, !E7, !E3, !E9, !SQ, !D, !NN. do 6 eexists. reflexivity. }
  destruct J as (a1 & c1 & a2 & c2 & a3 & c3 & EJ).
  unfold fvel_represent_as, pvel_represent_as. cbn [vc vcls_eqb andb negb vdim integral_cls dim_of Nat.eqb].
  unfold pvel_generic. cbn [vc integral_cls]. unfold cart3 at 1. step. unfold ret. rewrite bind_ok. unfold pcast_distance.
  unfold ret, can_map. rewrite !bind_ok. unfold ret. rewrite bind_ok. change (PCart3 (Some x) (Some 0) (Some 1)) with (cart3 x 0 1). rewrite EJ, bind_ok.
  do 2 eexists. reflexivity.
Qed.
Example C74_pole_case : exists x, isf binary32 x /\ x * x <= fu binary32 / 2 /\ 0 < x.
Proof.
  exists (bpow radix2 (-13)). assert (ok := binary32_ok). split; [|split; [|apply bpow_gt_0]].
  - split. apply F_bpow; auto. simpl; lia.
    rewrite Rabs_pos_eq by apply bpow_ge_0. apply bpow_lt. simpl; lia.
  - rewrite <- bpow_plus. unfold fu. change (- fprec binary32)%Z with (-24)%Z.
    replace (bpow radix2 (-24) / 2) with (bpow radix2 (-25)).
    apply bpow_le; lia.
    change (-25)%Z with (-24 + -1)%Z. rewrite bpow_plus. change (bpow radix2 (-1)) with (/2). reflexivity.
Qed.
Print Assumptions C74_finding_no_polar_velocity_near_the_pole.
