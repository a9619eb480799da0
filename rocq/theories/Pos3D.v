(** * Exact results of the basic 3-D conversions on finite coordinates. *)
From Coq Require Import Reals Bool List ZArith Lra Lia.
From Verif Require Import Num Vectors Spec Transform.
Import ListNotations.
Open Scope R_scope.

(** ** Tactics *)
Ltac resolve1 :=
  match goal with
  | |- context [resolve ?c ?t] =>
      let r := eval vm_compute in (resolve c t) in
      let H := fresh in
      assert (H : resolve c t = r) by (vm_compute; reflexivity); rewrite H; clear H
  end.
Ltac step := rewrite rep_S; cbn [cls_of finite pos_map]; resolve1; cbn [run].

(** Reduce model code on finite values to real expressions. *)
Ltac ered :=
  cbn [finite pos_map dist_map dval dk nokw kw_Delta kw_y kw_z kw_theta kw_phi
       mk_Cart1 mk_Cart2 mk_Cart3 mk_Radial mk_Polar mk_TwoSphere mk_Cyl mk_Sph mk_MSph mk_LonLat
       mk_Prolate conv_r conv_az ang_val check_nonneg check_polar check_prolate ret bind warn
       ncst nlen nang nadd nsub nmul ndiv nneg nsqrt nsin ncos ntan nacos natan2 nabs nsign nwrap nexp10
       nltb nleb neqb Num_ext lift1 lift2 lift2b nsq distance length_of_kind orb dflt fst snd] in *.

Lemma sq_nonneg a : 0 <= a * a. Proof. nra. Qed.

Lemma hyp2_nonneg x y : 0 <= x * x + y * y. Proof. nra. Qed.
Lemma hyp3_nonneg x y z : 0 <= x * x + y * y + z * z. Proof. nra. Qed.

Lemma esqrt_some a : 0 <= a -> esqrt (Some a) = Some (sqrt a).
Proof. intros H. unfold esqrt. apply Rleb_true in H. now rewrite H. Qed.
Lemma ediv_some a b : b <> 0 -> ediv (Some a) (Some b) = Some (a / b).
Proof. intros H. unfold ediv. apply Reqb_false in H. now rewrite H. Qed.
Lemma ediv_none a : ediv (Some a) (Some 0) = None.
Proof. unfold ediv. assert (Reqb 0 0 = true) as -> by (now apply Reqb_true). reflexivity. Qed.
Lemma eacos_some a : -1 <= a <= 1 -> eacos (Some a) = Some (acos a).
Proof.
  intros [H1 H2]. unfold eacos. apply Rleb_true in H1, H2. now rewrite H1, H2.
Qed.
Lemma etan_some a : cos a <> 0 -> etan (Some a) = Some (tan a).
Proof. intros H. unfold etan. apply Reqb_false in H. now rewrite H. Qed.

Lemma ltb_ge a b : b <= a -> Rltb a b = false. Proof. apply Rltb_false. Qed.

(** length of a radial field, on finite values *)
Definition mlen (d : dist R) : ext := @distance ext _ (@dist_map R ext (@Some R) d).
Lemma mlen_valid d : valid_dist d -> mlen d = Some (len d) /\ 0 <= len d.
Proof.
  destruct d as [[] v]; unfold mlen, len, valid_dist; ered; intros H.
  - auto.
  - assert (0 < cos v) by (apply cos_gt_0; lra).
    assert (0 < sin v) by (apply sin_gt_0; lra).
    assert (T : 0 < tan v) by (unfold tan; now apply Rdiv_lt_0_compat).
    rewrite etan_some by lra. rewrite ediv_some by lra. split; auto.
    apply Rlt_le, Rdiv_lt_0_compat; auto. apply AU_pos.
  - rewrite ediv_some by lra. ered. split.
    + f_equal. rewrite Rpower_plus, Rpower_1 by lra. ring.
    + apply Rlt_le. pose proof PC_pos. pose proof (exp_pos (v / 5 * ln 10)).
      apply Rmult_lt_0_compat; [lra| exact H1].
Qed.

(** ** Geometry of the spherical formulas *)
Lemma acos_ratio x y z :
  let r := sqrt (x*x + y*y + z*z) in
  r <> 0 ->
  -1 <= z / r <= 1 /\ 0 < r /\ r * cos (acos (z / r)) = z /\
  r * sin (acos (z / r)) = sqrt (x*x + y*y) /\ 0 <= acos (z/r) <= PI.
Proof.
  intros r Hr.
  assert (Hp : 0 < r) by (pose proof (sqrt_pos (x*x+y*y+z*z)); fold r in H; lra).
  assert (Hr2 : r * r = x*x+y*y+z*z) by (apply sqrt_sqrt; nra).
  assert (B : -1 <= z / r <= 1).
  { split; apply Rmult_le_reg_r with r; auto; unfold Rdiv; rewrite ?Rmult_assoc, Rinv_l by lra; nra. }
  split; auto. split; auto. split.
  - rewrite cos_acos by auto. field; lra.
  - split; [| apply acos_bound].
    rewrite sin_acos by auto.
    rewrite <- (sqrt_square r) at 1 by lra. rewrite <- sqrt_mult_alt by nra.
    f_equal. unfold Rsqr. replace (r * r * (1 - z/r*(z/r))) with (r*r - z*z) by (field; lra). lra.
Qed.

Lemma acos_ratio2 rho z :
  let r := sqrt (rho*rho + z*z) in
  0 <= rho -> r <> 0 ->
  -1 <= z / r <= 1 /\ 0 < r /\ r * cos (acos (z / r)) = z /\
  r * sin (acos (z / r)) = rho /\ 0 <= acos (z/r) <= PI.
Proof.
  intros r H0 Hr.
  pose proof (acos_ratio rho 0 z) as G. cbn zeta in G.
  replace (rho*rho + 0*0 + z*z) with (rho*rho+z*z) in G by ring.
  replace (rho*rho + 0*0) with (rho*rho) in G by ring.
  rewrite sqrt_square in G by auto. apply G. exact Hr.
Qed.

(** ** Exact results of the basic overloads *)
Section Base.
Variables (m : mode) (deg : bool) (f : nat) (kw : kwargs ext).
Notation rep := (represent_as m deg (S f) kw).

Lemma nonneg_ok x : 0 <= x -> check_nonneg (A:=ext) m (Some x) = ret tt.
Proof. intros H. destruct m; ered; auto. now rewrite ltb_ge. Qed.
Lemma nonneg_none : check_nonneg m (None : ext) = ret tt.
Proof. destruct m; reflexivity. Qed.
Lemma polar_ok l u x : l <= x <= u -> check_polar (A:=ext) m (Some l) (Some u) (Some x) = ret tt.
Proof. intros [H1 H2]. destruct m; ered; auto. rewrite !ltb_ge by auto. reflexivity. Qed.
Lemma polar_none l u : check_polar (A:=ext) m (Some l) (Some u) (None : ext) = ret tt.
Proof. destruct m; reflexivity. Qed.

Lemma rep_self p : (2 <= dim_of (cls_of p))%nat -> cls_of p <> CTwoSphere -> cls_of p <> CProlate ->
  rep p (cls_of p) = Ok false p.
Proof. intros H1 H2 H3. destruct p; cbn in H1, H2, H3; try congruence; try lia; step; reflexivity. Qed.

Lemma rep_Cart3_Cyl x y z :
  rep (finite (PCart3 x y z)) CCyl
  = Ok false (finite (PCyl (sqrt (x*x+y*y)) (Rwrap (Ratan2 y x)) z)).
Proof.
  step. unfold mk_Cyl. ered. rewrite esqrt_some by apply hyp2_nonneg.
  rewrite nonneg_ok by apply sqrt_pos. reflexivity.
Qed.

Lemma rep_Cart3_Sph x y z : x*x+y*y+z*z <> 0 ->
  let r := sqrt (x*x+y*y+z*z) in
  rep (finite (PCart3 x y z)) CSph
  = Ok false (finite (PSph (mkDist KDistance r) (acos (z / r)) (Rwrap (Ratan2 y x)))).
Proof.
  intros H r.
  assert (Hr : r <> 0).
  { unfold r. intro E. apply sqrt_eq_0 in E; nra. }
  destruct (acos_ratio x y z Hr) as (B & Hp & _ & _ & Hb). fold r in B, Hp, Hb.
  step. cbv zeta. unfold mk_Sph. ered. rewrite esqrt_some by apply hyp3_nonneg. fold r.
  rewrite ediv_some, eacos_some by auto.
  rewrite nonneg_ok by lra. rewrite polar_ok by auto. reflexivity.
Qed.
Lemma rep_Cart3_Sph_origin x y z : x*x+y*y+z*z = 0 ->
  rep (finite (PCart3 x y z)) CSph
  = Ok false (PSph (mkDist KDistance (Some 0)) None (Some (Rwrap (Ratan2 y x)))).
Proof.
  intros H. step. cbv zeta. unfold mk_Sph. ered. rewrite H, esqrt_some by lra. rewrite sqrt_0, ediv_none.
  cbn [eacos]. rewrite nonneg_ok by lra. rewrite polar_none. reflexivity.
Qed.

Lemma rep_Cyl_Cart3 rho phi z :
  rep (finite (PCyl rho phi z)) CCart3 = Ok false (finite (PCart3 (rho * cos phi) (rho * sin phi) z)).
Proof. step. reflexivity. Qed.

Lemma rep_Cyl_Sph rho phi z : 0 <= rho -> rho*rho+z*z <> 0 ->
  let r := sqrt (rho*rho+z*z) in
  rep (finite (PCyl rho phi z)) CSph
  = Ok false (finite (PSph (mkDist KDistance r) (acos (z / r)) phi)).
Proof.
  intros Hrho H r.
  assert (Hr : r <> 0).
  { unfold r. intro E. apply sqrt_eq_0 in E; nra. }
  destruct (acos_ratio2 rho z Hrho Hr) as (B & Hp & _ & _ & Hb). fold r in B, Hp, Hb.
  step. cbv zeta. unfold mk_Sph. ered. rewrite esqrt_some by apply hyp2_nonneg. fold r.
  rewrite ediv_some, eacos_some by auto.
  rewrite nonneg_ok by lra. rewrite polar_ok by auto. reflexivity.
Qed.
Lemma rep_Cyl_Sph_origin rho phi z : rho*rho+z*z = 0 ->
  rep (finite (PCyl rho phi z)) CSph
  = Ok false (PSph (mkDist KDistance (Some 0)) None (Some phi)).
Proof.
  intros H. step. cbv zeta. unfold mk_Sph. ered. rewrite H, esqrt_some by lra. rewrite sqrt_0, ediv_none.
  cbn [eacos]. rewrite nonneg_ok by lra. rewrite polar_none. reflexivity.
Qed.

Lemma rep_Sph_Cart3 r theta phi : valid_dist r ->
  rep (finite (PSph r theta phi)) CCart3
  = Ok false (finite (PCart3 (len r * sin theta * cos phi) (len r * sin theta * sin phi) (len r * cos theta))).
Proof.
  intros H. step. destruct (mlen_valid r H) as [E _]. unfold mlen in E.
  cbn [finite pos_map]. cbv [mk_Cart3]. rewrite E. reflexivity.
Qed.
Lemma rep_MSph_Cart3 r theta phi : valid_dist r ->
  rep (finite (PMSph r theta phi)) CCart3
  = Ok false (finite (PCart3 (len r * sin phi * cos theta) (len r * sin phi * sin theta) (len r * cos phi))).
Proof.
  intros H. step. destruct (mlen_valid r H) as [E _]. unfold mlen in E.
  cbn [finite pos_map]. cbv [mk_Cart3]. rewrite E. reflexivity.
Qed.

Lemma rep_Sph_Cyl r theta phi : valid_dist r -> 0 <= theta <= PI ->
  rep (finite (PSph r theta phi)) CCyl
  = Ok false (finite (PCyl (len r * sin theta) phi (len r * cos theta))).
Proof.
  intros H Ht. destruct (mlen_valid r H) as [E P]. unfold mlen in E.
  assert (0 <= len r * sin theta) by (apply Rmult_le_pos; auto; apply sin_ge_0; lra).
  step. cbn [finite pos_map]. rewrite E. unfold mk_Cyl. ered.
  rewrite Rabs_pos_eq by auto. rewrite nonneg_ok by auto. reflexivity.
Qed.
Lemma rep_MSph_Cyl r theta phi : valid_dist r -> 0 <= phi <= PI ->
  rep (finite (PMSph r theta phi)) CCyl
  = Ok false (finite (PCyl (len r * sin phi) theta (len r * cos phi))).
Proof.
  intros H Ht. destruct (mlen_valid r H) as [E P]. unfold mlen in E.
  assert (0 <= len r * sin phi) by (apply Rmult_le_pos; auto; apply sin_ge_0; lra).
  step. cbn [finite pos_map]. rewrite E. unfold mk_Cyl. ered.
  rewrite Rabs_pos_eq by auto. rewrite nonneg_ok by auto. reflexivity.
Qed.

(** Overloads that hand the radial field over unchanged: the range check on the
    field value decides. *)
Lemma nonneg_cases x :
  check_nonneg (A:=ext) m (Some x) = ret tt \/
  (m = Eager /\ x < 0 /\ check_nonneg (A:=ext) m (Some x) = Raise ENegative).
Proof.
  destruct m; ered; auto. destruct (Rltb x 0) eqn:E; auto.
  right. apply Rltb_true in E. auto.
Qed.

Lemma rep_Sph_LonLat r theta phi : 0 <= theta <= PI ->
  rep (finite (PSph r theta phi)) CLonLat
  = (do _ <- check_nonneg (A:=ext) m (Some (dval r)); ret (finite (PLonLat phi (PI/2 - theta) r))).
Proof.
  intros Ht. step. unfold mk_LonLat. ered. rewrite polar_ok by lra. ered.
  destruct (nonneg_cases (dval r)) as [E|(_&_&E)]; rewrite E; reflexivity.
Qed.
Lemma rep_Sph_MSph r theta phi : 0 <= theta <= PI ->
  rep (finite (PSph r theta phi)) CMSph
  = (do _ <- check_nonneg (A:=ext) m (Some (dval r)); ret (finite (PMSph r phi theta))).
Proof.
  intros Ht. step. unfold mk_MSph. ered. rewrite polar_ok by lra. ered.
  destruct (nonneg_cases (dval r)) as [E|(_&_&E)]; rewrite E; reflexivity.
Qed.
Lemma rep_LonLat_Sph lon lat d : - (PI/2) <= lat <= PI/2 ->
  rep (finite (PLonLat lon lat d)) CSph
  = (do _ <- check_nonneg (A:=ext) m (Some (dval d)); ret (finite (PSph d (PI/2 - lat) lon))).
Proof.
  intros Ht. step. unfold mk_Sph. ered. rewrite polar_ok by lra. ered.
  destruct (nonneg_cases (dval d)) as [E|(_&_&E)]; rewrite E; reflexivity.
Qed.
Lemma rep_MSph_Sph r theta phi : 0 <= phi <= PI ->
  rep (finite (PMSph r theta phi)) CSph
  = (do _ <- check_nonneg (A:=ext) m (Some (dval r)); ret (finite (PSph r phi theta))).
Proof.
  intros Ht. step. unfold mk_Sph. ered. rewrite polar_ok by lra. ered.
  destruct (nonneg_cases (dval r)) as [E|(_&_&E)]; rewrite E; reflexivity.
Qed.
End Base.
