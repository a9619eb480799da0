(** * C84: in floating point, scaling by a power of two scales the result exactly. *)
From Coq Require Import Reals Bool List ZArith Lra Lia.
From Flocq Require Import Core.
From Verif Require Import Num Vectors Transform Pos3D Float FloatThm FloatConv PropFloat PropFloat3.
Open Scope R_scope.

(** [v] and [v * 2^k] are finite and neither square overflows or underflows *)
Definition scalable (f : fmt) (k : Z) (v : R) : Prop :=
  usable f v /\ usable f (v * bpow radix2 k) /\ no_underflow f v /\ no_underflow f (v * bpow radix2 k).
(** atan2 of the library depends on the ratio only, for powers of two *)
Definition atan2_scale_free (L : libm) : Prop :=
  forall y x k, m_atan2 L (y * bpow radix2 k) (x * bpow radix2 k) = m_atan2 L y x.

Lemma Ratan2_scale y x c : 0 < c -> Ratan2 (y * c) (x * c) = Ratan2 y x.
Proof.
  intros Hc. unfold Ratan2.
  assert (K : forall a, Rltb 0 (a * c) = Rltb 0 a /\ Rltb (a * c) 0 = Rltb a 0 /\ Rleb 0 (a * c) = Rleb 0 a).
  { intros a. destruct (Rtotal_order a 0) as [H | [-> | H] ].
    - assert (a * c < 0) by nra.
      rewrite !(proj2 (Rltb_false 0 _)), !(proj2 (Rltb_true _ 0)) by lra. repeat split.
      destruct (Rleb 0 (a * c)) eqn:E1; destruct (Rleb 0 a) eqn:E2; auto; apply Rleb_true in E1 || apply Rleb_true in E2; lra.
    - rewrite Rmult_0_l. auto.
    - assert (0 < a * c) by nra.
      rewrite !(proj2 (Rltb_true 0 _)), !(proj2 (Rltb_false _ 0)), !(proj2 (Rleb_true 0 _)) by lra. auto. }
  destruct (K x) as (E1 & E2 & _). destruct (K y) as (E3 & E4 & E5). rewrite E1, E2, E3, E4, E5.
  destruct (Req_dec x 0) as [-> | N].
  - rewrite !(proj2 (Rltb_false 0 0)) by lra. reflexivity.
  - replace (y * c / (x * c)) with (y / x) by (field; lra). reflexivity.
Qed.
Lemma cr_libm_scale_free f : atan2_scale_free (cr_libm f).
Proof. intros y x k. cbn. rewrite Ratan2_scale; auto. apply bpow_gt_0. Qed.

Section S.
Variable f : fmt.
Hypothesis ok : fmt_ok f.
Variable k : Z.
Notation c := (bpow radix2 k).
Notation rn := (frnd f).

Lemma cc : bpow radix2 (k + k) = c * c. Proof. apply bpow_plus. Qed.
Lemma fmin_pos : 0 < fmin_normal f. Proof. apply bpow_gt_0. Qed.
Lemma F_fmin : generic_format radix2 (fexp_of f) (fmin_normal f).
Proof. apply F_bpow; auto. destruct ok as (H1 & H2 & H3). lia. Qed.

(** a number that is 0 or normal on both scales *)
Definition both (s : R) : Prop := s = 0 \/ (fmin_normal f <= s /\ fmin_normal f <= s * (c * c)).

Lemma rn_both s : both s -> rn (s * (c * c)) = rn s * (c * c).
Proof.
  pose proof fmin_pos. intros [-> | [H1 H2] ].
  - rewrite Rmult_0_l, rn0. ring.
  - rewrite <- cc in *. apply rn_scale; auto. lra. rewrite Rabs_pos_eq; lra. rewrite Rabs_pos_eq; lra.
Qed.
Lemma both_sq v : no_underflow f v -> no_underflow f (v * c) -> both (v * v).
Proof.
  pose proof fmin_pos. pose proof (bpow_gt_0 radix2 k) as Pc.
  intros [-> | H1]. left; ring. intros [E | H2].
  - left. apply Rmult_integral in E as [-> | E]. ring. lra.
  - right. unfold not_tiny in *. split; auto. replace (v * v * (c * c)) with (v * c * (v * c)) by ring. auto.
Qed.
Lemma both_rn s : both s -> both (rn s).
Proof.
  intros B. pose proof (rn_both s B) as E. destruct B as [-> | [H1 H2] ].
  - left. apply rn0.
  - right. rewrite <- E. split; apply rn_ge_F; auto using F_fmin.
Qed.
Lemma both_add a b : both a -> both b -> both (a + b).
Proof.
  pose proof fmin_pos. intros [-> | [H1 H2] ] [-> | [H3 H4] ].
  - left; ring. - right. rewrite !Rplus_0_l. auto. - right. rewrite !Rplus_0_r. auto.
  - right. split. lra. rewrite Rmult_plus_distr_r. lra.
Qed.
Lemma sq_scale v : no_underflow f v -> no_underflow f (v * c) ->
  rn (v * c * (v * c)) = rn (v * v) * (c * c) /\ both (rn (v * v)).
Proof.
  intros H1 H2. pose proof (both_sq v H1 H2) as B. split.
  - replace (v * c * (v * c)) with (v * v * (c * c)) by ring. now apply rn_both.
  - now apply both_rn.
Qed.
Lemma sqrt_scale s : both s -> rn (sqrt (s * (c * c))) = rn (sqrt s) * c.
Proof.
  pose proof fmin_pos as P. pose proof (min_normal_small f ok) as Q. pose proof (bpow_gt_0 radix2 k) as Pc.
  intros [-> | [H1 H2] ].
  - rewrite Rmult_0_l, sqrt_0, rn0. ring.
  - assert (E : sqrt (s * (c * c)) = sqrt s * c).
    { rewrite sqrt_mult by nra. rewrite sqrt_square by lra. reflexivity. }
    assert (K : forall t, fmin_normal f <= t -> fmin_normal f <= sqrt t).
    { intros t Ht. apply Rsqr_incr_0_var; [| apply sqrt_pos]. unfold Rsqr. rewrite sqrt_sqrt by lra. nra. }
    pose proof (K _ H1) as K1. pose proof (K _ H2) as K2. rewrite E in K2 |- *.
    apply rn_scale; auto. lra. rewrite Rabs_pos_eq; lra. rewrite Rabs_pos_eq; lra.
Qed.
Lemma norm2_scale x y : scalable f k x -> scalable f k y ->
  rn (sqrt (rn (rn (x * c * (x * c)) + rn (y * c * (y * c))))) = rn (sqrt (rn (rn (x * x) + rn (y * y)))) * c.
Proof.
  intros (_ & _ & X1 & X2) (_ & _ & Y1 & Y2).
  destruct (sq_scale x X1 X2) as [-> Bx]. destruct (sq_scale y Y1 Y2) as [-> By].
  rewrite <- Rmult_plus_distr_r, rn_both by (now apply both_add).
  apply sqrt_scale. apply both_rn. now apply both_add.
Qed.
Lemma norm3_scale x y z : scalable f k x -> scalable f k y -> scalable f k z ->
  rn (sqrt (rn (rn (rn (x * c * (x * c)) + rn (y * c * (y * c))) + rn (z * c * (z * c)))))
    = rn (sqrt (rn (rn (rn (x * x) + rn (y * y)) + rn (z * z)))) * c.
Proof.
  intros (_ & _ & X1 & X2) (_ & _ & Y1 & Y2) (_ & _ & Z1 & Z2).
  destruct (sq_scale x X1 X2) as [-> Bx]. destruct (sq_scale y Y1 Y2) as [-> By].
  destruct (sq_scale z Z1 Z2) as [-> Bz].
  rewrite <- Rmult_plus_distr_r, rn_both by (now apply both_add).
  rewrite <- Rmult_plus_distr_r, rn_both by (apply both_add; auto; apply both_rn; now apply both_add).
  apply sqrt_scale. apply both_rn. apply both_add; auto. apply both_rn. now apply both_add.
Qed.
Lemma tiny_scale v : scalable f k v -> not_tiny f v -> not_tiny f (v * c).
Proof.
  pose proof fmin_pos. pose proof (bpow_gt_0 radix2 k) as Pc.
  intros (_ & _ & _ & [E | H2]) N; auto. exfalso.
  apply Rmult_integral in E as [-> | E]; [| lra]. unfold not_tiny in N. lra.
Qed.
End S.

Theorem C84_cartesian_to_spherical_scale :
  forall f L k m deg n x y z,
    fmt_ok f -> libm_ok f L -> atan2_scale_free L ->
    scalable f k x -> scalable f k y -> scalable f k z ->
    not_tiny f x \/ not_tiny f y \/ not_tiny f z ->
    exists r th ph,
      frepresent_as f L m deg (S n) nokw (cart3 x y z) CSph
        = Ok false (PSph (fdist r) (Some th) (Some ph)) /\
      frepresent_as f L m deg (S n) nokw
          (cart3 (x * bpow radix2 k) (y * bpow radix2 k) (z * bpow radix2 k)) CSph
        = Ok false (PSph (fdist (r * bpow radix2 k)) (Some th) (Some ph)).
Proof.
  intros f L k m deg n x y z ok Lok HL Sx Sy Sz N.
  pose proof (norm3_scale f ok k x y z Sx Sy Sz) as NS.
  assert (N' : not_tiny f (x * bpow radix2 k) \/ not_tiny f (y * bpow radix2 k) \/ not_tiny f (z * bpow radix2 k)).
  { destruct N as [N|[N|N] ]; [left | right; left | right; right]; now apply tiny_scale. }
  pose proof (bpow_gt_0 radix2 k) as Pc.
  destruct Sx as ([[Fx Ox] Rx] & [[Fx' Ox'] Rx'] & _ & _).
  destruct Sy as ([[Fy Oy] Ry] & [[Fy' Oy'] Ry'] & _ & _).
  destruct Sz as ([[Fz Oz] Rz] & [[Fz' Oz'] Rz'] & _ & _).
  destruct (fl_norm3 f L ok x y z Fx Fy Fz Rx Ry Rz) as (r & Er & Vr & Ir & _ & Br).
  destruct (fl_norm3 f L ok _ _ _ Fx' Fy' Fz' Rx' Ry' Rz') as (r' & Er' & Vr' & Ir' & _ & Br').
  assert (Rr : r' = r * bpow radix2 k) by (rewrite Vr', Vr; exact NS).
  destruct (Br N) as (Pr & Bx & By & Bz). destruct (Br' N') as (Pr' & Bx' & By' & Bz').
  destruct (fl_ratio f L ok z r Fz Pr Bz) as (Ed & Bd & Id).
  destruct (fl_ratio f L ok _ r' Fz' Pr' Bz') as (Ed' & _ & _).
  replace (z * bpow radix2 k / r') with (z / r) in Ed' by (rewrite Rr; field; lra).
  destruct (fl_acos f L Lok _ Id Bd) as (Ea & Ia & Ba).
  assert (Lok' := Lok). destruct Lok' as (_ & _ & _ & _ & HA).
  destruct (HA y x (conj Fy Oy) (conj Fx Ox)) as [IA _].
  destruct (fl_mk_Sph f L ok m r _ _ (Rlt_le _ _ Pr) Ba IA) as (v & Bv & Iv & Ew & Em).
  destruct (fl_mk_Sph f L ok m r' _ _ (Rlt_le _ _ Pr') Ba IA) as (v' & _ & _ & Ew' & Em').
  assert (v' = v) by (rewrite Ew in Ew'; injection Ew'; auto). subst v'.
  exists r, (m_acos L (frnd f (z / r))), v. split; unfold frepresent_as, cart3; step; cbv zeta; unfold NF in *.
  - rewrite Er, Ed, Ea. cbn [natan2 Num_fl lift2]. exact Em.
  - rewrite Er', Ed', Ea. cbn [natan2 Num_fl lift2]. rewrite HL. rewrite <- Rr. exact Em'.
Qed.

Theorem C84_cartesian_to_cylindrical_scale :
  forall f L k m deg n x y z z',
    fmt_ok f -> libm_ok f L -> atan2_scale_free L -> scalable f k x -> scalable f k y ->
    exists rho ph,
      frepresent_as f L m deg (S n) nokw (PCart3 (Some x) (Some y) z) CCyl
        = Ok false (PCyl (Some rho) (Some ph) z) /\
      frepresent_as f L m deg (S n) nokw
          (PCart3 (Some (x * bpow radix2 k)) (Some (y * bpow radix2 k)) z') CCyl
        = Ok false (PCyl (Some (rho * bpow radix2 k)) (Some ph) z').
Proof.
  intros f L k m deg n x y z z' ok Lok HL Sx Sy.
  pose proof (norm2_scale f ok k x y Sx Sy) as NS.
  pose proof (bpow_gt_0 radix2 k) as Pc.
  destruct Sx as ([[Fx Ox] Rx] & [[Fx' Ox'] Rx'] & _ & _).
  destruct Sy as ([[Fy Oy] Ry] & [[Fy' Oy'] Ry'] & _ & _).
  destruct (fl_norm2 f L ok x y Fx Fy Rx Ry) as (r & Er & Vr & _ & Pr & _).
  destruct (fl_norm2 f L ok _ _ Fx' Fy' Rx' Ry') as (r' & Er' & Vr' & _ & Pr' & _).
  assert (Rr : r' = r * bpow radix2 k) by (rewrite Vr', Vr; exact NS).
  destruct (fl_atan2_wrap f L ok Lok y x (conj Fy Oy) (conj Fx Ox)) as (v & Ev & _ & _).
  assert (Ev' : @nwrap ext (NF f L) (@natan2 ext (NF f L) (Some (y * bpow radix2 k)) (Some (x * bpow radix2 k))) = Some v).
  { cbn [natan2 NF Num_fl lift2] in *. rewrite HL. exact Ev. }
  exists r, v. rewrite <- Rr. split; unfold frepresent_as; step; change (Num_fl f L) with (NF f L).
  - rewrite Er. unfold mk_Cyl, conv_az. rewrite Ev, fl_check_nonneg by auto. reflexivity.
  - rewrite Er'. unfold mk_Cyl, conv_az. rewrite Ev', fl_check_nonneg by auto. reflexivity.
Qed.

Theorem C84_cylindrical_to_spherical_scale :
  forall f L k m deg n rho phi z,
    fmt_ok f -> libm_ok f L -> scalable f k rho -> scalable f k z -> not_tiny f rho \/ not_tiny f z ->
    exists r th,
      frepresent_as f L m deg (S n) nokw (PCyl (Some rho) phi (Some z)) CSph
        = Ok false (PSph (fdist r) (Some th) phi) /\
      frepresent_as f L m deg (S n) nokw (PCyl (Some (rho * bpow radix2 k)) phi (Some (z * bpow radix2 k))) CSph
        = Ok false (PSph (fdist (r * bpow radix2 k)) (Some th) phi).
Proof.
  intros f L k m deg n rho phi z ok Lok Sx Sz N.
  pose proof (norm2_scale f ok k rho z Sx Sz) as NS.
  assert (N' : not_tiny f (rho * bpow radix2 k) \/ not_tiny f (z * bpow radix2 k)).
  { destruct N as [N|N]; [left | right]; now apply tiny_scale. }
  pose proof (bpow_gt_0 radix2 k) as Pc.
  destruct Sx as ([[Fx Ox] Rx] & [[Fx' Ox'] Rx'] & _ & _).
  destruct Sz as ([[Fz Oz] Rz] & [[Fz' Oz'] Rz'] & _ & _).
  destruct (fl_norm2 f L ok rho z Fx Fz Rx Rz) as (r & Er & Vr & Ir & _ & Br).
  destruct (fl_norm2 f L ok _ _ Fx' Fz' Rx' Rz') as (r' & Er' & Vr' & Ir' & _ & Br').
  assert (Rr : r' = r * bpow radix2 k) by (rewrite Vr', Vr; exact NS).
  destruct (Br N) as (Pr & Bx & Bz). destruct (Br' N') as (Pr' & Bx' & Bz').
  destruct (fl_ratio f L ok z r Fz Pr Bz) as (Ed & Bd & Id).
  destruct (fl_ratio f L ok _ r' Fz' Pr' Bz') as (Ed' & _ & _).
  replace (z * bpow radix2 k / r') with (z / r) in Ed' by (rewrite Rr; field; lra).
  destruct (fl_acos f L Lok _ Id Bd) as (Ea & Ia & Ba).
  exists r, (m_acos L (frnd f (z / r))). rewrite <- Rr.
  split; unfold frepresent_as; step; change (Num_fl f L) with (NF f L); cbv zeta.
  - rewrite Er, Ed, Ea. unfold mk_Sph. cbn [conv_r length_of_kind dval conv_az].
    rewrite fl_check_nonneg by (auto; lra). rewrite fl_ang0, fl_angPI, fl_check_polar by auto. reflexivity.
  - rewrite Er', Ed', Ea. unfold mk_Sph. cbn [conv_r length_of_kind dval conv_az].
    rewrite fl_check_nonneg by (auto; lra). rewrite fl_ang0, fl_angPI, fl_check_polar by auto. reflexivity.
Qed.

(** For instance (1, 2, -2) and (2, 4, -4) in binary32. *)
Lemma scalable_small n : (1 <= Z.abs n <= 8)%Z -> scalable binary32 1 (IZR n).
Proof.
  intros H. assert (ok := binary32_ok).
  assert (NT : forall v, 1 <= v * v -> no_underflow binary32 v).
  { intros v Hv. right. unfold not_tiny. pose proof (min_normal_small _ ok). lra. }
  assert (Q : forall a, (1 <= Z.abs a)%Z -> 1 <= IZR a * IZR a).
  { intros a Ha. rewrite <- mult_IZR. apply IZR_le. nia. }
  unfold scalable. replace (IZR n * bpow radix2 1) with (IZR (n * 2)) by (rewrite mult_IZR; reflexivity).
  split. apply usable_int; auto; lia. split. apply usable_int; auto; lia.
  split; apply NT, Q; lia.
Qed.
Example C84_cartesian_to_spherical_scale_ex : exists r th ph,
  frepresent_as binary32 (cr_libm binary32) Eager true 1 nokw (cart3 1 2 (-2)) CSph
    = Ok false (PSph (fdist r) (Some th) (Some ph)) /\
  frepresent_as binary32 (cr_libm binary32) Eager true 1 nokw (cart3 (1 * bpow radix2 1) (2 * bpow radix2 1) (-2 * bpow radix2 1)) CSph
    = Ok false (PSph (fdist (r * bpow radix2 1)) (Some th) (Some ph)).
Proof.
  assert (ok := binary32_ok).
  apply (C84_cartesian_to_spherical_scale binary32 (cr_libm binary32) 1 Eager true 0 1 2 (-2)); auto using cr_libm_ok, cr_libm_scale_free;
    try (apply scalable_small; lia).
  left. unfold not_tiny. pose proof (min_normal_small _ ok). lra.
Qed.
Example C84_cartesian_to_cylindrical_scale_ex : exists rho ph,
  frepresent_as binary32 (cr_libm binary32) Eager true 1 nokw (PCart3 (Some 1) (Some 2) (Some 7)) CCyl
    = Ok false (PCyl (Some rho) (Some ph) (Some 7)) /\
  frepresent_as binary32 (cr_libm binary32) Eager true 1 nokw (PCart3 (Some (1 * bpow radix2 1)) (Some (2 * bpow radix2 1)) (Some 14)) CCyl
    = Ok false (PCyl (Some (rho * bpow radix2 1)) (Some ph) (Some 14)).
Proof.
  assert (ok := binary32_ok).
  apply (C84_cartesian_to_cylindrical_scale binary32 (cr_libm binary32) 1 Eager true 0 1 2); auto using cr_libm_ok, cr_libm_scale_free;
    apply scalable_small; lia.
Qed.
Example C84_cylindrical_to_spherical_scale_ex : exists r th,
  frepresent_as binary32 (cr_libm binary32) Eager true 1 nokw (PCyl (Some 3) (Some 1) (Some (-4))) CSph
    = Ok false (PSph (fdist r) (Some th) (Some 1)) /\
  frepresent_as binary32 (cr_libm binary32) Eager true 1 nokw (PCyl (Some (3 * bpow radix2 1)) (Some 1) (Some (-4 * bpow radix2 1))) CSph
    = Ok false (PSph (fdist (r * bpow radix2 1)) (Some th) (Some 1)).
Proof.
  assert (ok := binary32_ok).
  apply (C84_cylindrical_to_spherical_scale binary32 (cr_libm binary32) 1 Eager true 0 3 (Some 1) (-4)); auto using cr_libm_ok;
    try (apply scalable_small; lia).
  left. unfold not_tiny. pose proof (min_normal_small _ ok). lra.
Qed.

Print Assumptions C84_cartesian_to_spherical_scale.
Print Assumptions C84_cartesian_to_cylindrical_scale.
Print Assumptions C84_cylindrical_to_spherical_scale.
