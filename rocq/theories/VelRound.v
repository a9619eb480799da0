(** * Velocities: round trips, speed, LonCosLat. *)
From Coq Require Import Reals Bool List ZArith Lra Lia.
From Verif Require Import Num Vectors Spec Transform Pos3D Pos3DThm PosLow RoundTrip PosGlue Prolate ProlateThm Vel SpecVel VelAt DualPos DualThm VelHom VelPush VelThm VelLow VelProlate VelProlate2.
Import ListNotations.
Open Scope R_scope.

(** ** The Cartesian velocity determines the components off the axis *)
Lemma rot_inj C S x y x' y' : C*C + S*S = 1 -> x*C - y*S = x'*C - y'*S -> x*S + y*C = x'*S + y'*C -> x = x' /\ y = y'.
Proof.
  intros H E1 E2. split.
  - transitivity ((x*C - y*S)*C + (x*S + y*C)*S). transitivity (x*(C*C+S*S)); [rewrite H; ring|ring].
    rewrite E1, E2. transitivity (x'*(C*C+S*S)); [ring|rewrite H; ring].
  - transitivity ((x*S + y*C)*C - (x*C - y*S)*S). transitivity (y*(C*C+S*S)); [rewrite H; ring|ring].
    rewrite E1, E2. transitivity (y'*(C*C+S*S)); [ring|rewrite H; ring].
Qed.
Lemma mul_inj k x y : k <> 0 -> k * x = k * y -> x = y. Proof. intros; eapply Rmult_eq_reg_l; eauto. Qed.

Lemma vel_at_inj p u u' : plain3 (cls_of p) -> off_axis p -> length u = 3%nat -> length u' = 3%nat ->
  vel_at p u = vel_at p u' -> u = u'.
Proof.
  intros P O L L' E.
  destruct u as [|a [|b [|c [|]]]]; try discriminate L. destruct u' as [|a' [|b' [|c' [|]]]]; try discriminate L'.
  destruct p; cbn in P; try contradiction; cbn in E; auto; apply list3_inj in E; destruct E as (E1 & E2 & E3).
  - pose proof (cs1 phi) as T.
    assert (N : rho <> 0). { intros N. apply (O _ _ _ eq_refl). rewrite N. ring. }
    destruct (rot_inj (cos phi) (sin phi) a (rho*b) a' (rho*b')) as [A B]; try lra.
    apply mul_inj in B; auto. congruence.
  - pose proof (cs1 phi) as T. pose proof (cs1 theta) as T'.
    assert (N : len r * sin theta <> 0).
    { intros N. apply (O _ _ _ eq_refl).
      replace (_ + _) with (len r * sin theta * (len r * sin theta) * (cos phi * cos phi + sin phi * sin phi)) by ring. rewrite N. ring. }
    destruct (rot_inj (cos phi) (sin phi) (a*sin theta + len r*cos theta*b) (len r*sin theta*c) (a'*sin theta + len r*cos theta*b') (len r*sin theta*c')) as [A B]; try lra.
    apply mul_inj in B; auto.
    destruct (rot_inj (cos theta) (sin theta) a (len r*b) a' (len r*b')) as [A' B']; try lra.
    apply mul_inj in B'; [|intros Z; apply N; rewrite Z; ring]. congruence.
  - pose proof (cs1 phi) as T. pose proof (cs1 theta) as T'.
    assert (N : len r * sin phi <> 0).
    { intros N. apply (O _ _ _ eq_refl).
      replace (_ + _) with (len r * sin phi * (len r * sin phi) * (cos theta * cos theta + sin theta * sin theta)) by ring. rewrite N. ring. }
    destruct (rot_inj (cos theta) (sin theta) (a*sin phi + len r*cos phi*c) (len r*sin phi*b) (a'*sin phi + len r*cos phi*c') (len r*sin phi*b')) as [A B]; try lra.
    apply mul_inj in B; auto.
    destruct (rot_inj (cos phi) (sin phi) a (len r*c) a' (len r*c')) as [A' B']; try lra.
    apply mul_inj in B'; [|intros Z; apply N; rewrite Z; ring]. congruence.
  - pose proof (cs1 lon) as T. pose proof (cs1 lat) as T'.
    assert (N : len d * cos lat <> 0).
    { intros N. apply (O _ _ _ eq_refl).
      replace (_ + _) with (len d * cos lat * (len d * cos lat) * (cos lon * cos lon + sin lon * sin lon)) by ring. rewrite N. ring. }
    destruct (rot_inj (cos lon) (sin lon) (c*cos lat - len d*sin lat*b) (len d*cos lat*a) (c'*cos lat - len d*sin lat*b') (len d*cos lat*a')) as [A B]; try lra.
    apply mul_inj in B; auto.
    destruct (rot_inj (cos lat) (sin lat) c (len d*b) c' (len d*b')) as [A' B']; try lra.
    apply mul_inj in B'; [|intros Z; apply N; rewrite Z; ring]. congruence.
Qed.
Lemma uncos_inj p v v' : vc v = vc v' -> cls_of p = integral_cls (vc v) -> vplain3 (vc v) -> off_axis p ->
  length (vcomps v) = 3%nat -> length (vcomps v') = 3%nat -> uncos p v = uncos p v' -> v = v'.
Proof.
  intros E C P O L L' U. destruct v as [cv u], v' as [cv' u']; cbn in *. subst cv'. f_equal.
  unfold uncos in U; cbn in U. destruct cv; auto. destruct p; try discriminate C.
  pose proof (lat_cos_ne0 _ _ _ O) as N.
  destruct u as [|a [|b [|c [|]]]]; try discriminate L. destruct u' as [|a' [|b' [|c' [|]]]]; try discriminate L'.
  apply list3_inj in U. destruct U as (U1 & -> & ->). apply list3_eq; auto.
  transitivity (a / cos lat * cos lat). field; auto. rewrite U1. field; auto.
Qed.
Lemma uncos_length p v : length (vcomps v) = 3%nat -> length (uncos p v) = 3%nat.
Proof.
  intros L. unfold uncos. destruct (vc v); auto. destruct p; auto.
  destruct (vcomps v) as [|a [|b [|c [|]]]]; try discriminate L; reflexivity.
Qed.

Theorem vel_round_trip m m' deg deg' f f' kw kw' P v t pt :
  rep_ok m deg (4 + f) P -> rep_ok m' deg' (4 + f') P -> valid P -> denotes P pt ->
  vplain3 (vc v) -> vplain3 t -> length (vcomps v) = 3%nat ->
  exists v', vel_represent_as m deg (4 + f) kw (vfinite v) t (finite P) = Ok false (vfinite v') /\
    vel_represent_as m' deg' (4 + f') kw' (vfinite v') (vc v) (finite P) = Ok false (vfinite v).
Proof.
  intros H H' VP D Pv Pt L.
  destruct (vel_plain3 m deg f kw P v t pt) as (v' & A1 & A2 & A3 & A4); auto.
  exists v'. split; auto.
  destruct (vel_plain3 m' deg' f' kw' P v' (vc v) pt) as (v'' & B1 & B2 & B3 & B4); auto. { now rewrite A2. }
  rewrite B1. repeat f_equal.
  destruct (proj2 H nokw (integral_cls (vc v)) Pv) as (p & _ & Cp & Vp & Ep).
  destruct (proj2 H nokw (integral_cls t) Pt) as (q & _ & Cq & Vq & Eq).
  assert (Dp : denotes p pt) by now apply Ep. assert (Dq : denotes q pt) by now apply Eq.
  assert (Op : off_axis p) by (eapply off_axis_pt; [exact Ep|apply H]).
  specialize (A4 p q Vp Vq Dp Dq Cp Cq). rewrite A2 in B4. specialize (B4 q p Vq Vp Dq Dp Cq Cp).
  symmetry. apply (uncos_inj p); auto. 
  apply (vel_at_inj p); auto using uncos_length. now rewrite Cp. congruence.
Qed.

Lemma pro_tan_inj mu nu D u u' : pro_in mu nu D -> length u = 3%nat -> length u' = 3%nat ->
  pro_tan mu nu D u = pro_tan mu nu D u' -> u = u'.
Proof.
  intros H L L' E. destruct (pro_in_facts mu nu D H) as (HA & HDD & P1 & P2 & P3 & P4).
  destruct H as (H1 & H2 & H3 & H4).
  destruct u as [|a [|b [|c [|]]]]; try discriminate L. destruct u' as [|a' [|b' [|c' [|]]]]; try discriminate L'.
  apply list3_inj in E. destruct E as (E1 & E2 & E3).
  assert (SS : Rsign nu * Rsign nu = 1).
  { apply Rsign_sq. intros Z. rewrite Z, Rabs_R0 in H3. lra. }
  set (A := Rabs nu / (D*D)) in *. set (s := Rsign nu) in *. 
  assert (EA : A * (D*D) = Rabs nu) by (unfold A; field; lra).
  set (be := b*s/(D*D)) in *. set (be' := b'*s/(D*D)) in *.
  assert (F1 : a*(1-A) - (mu-D*D)*be = a'*(1-A) - (mu-D*D)*be').
  { apply Rmult_eq_reg_r with (/ (2*prolate_R mu nu D)); [exact E1|]. apply Rinv_neq_0_compat. lra. }
  assert (F2 : a*A + mu*be = a'*A + mu*be').
  { apply Rmult_eq_reg_r with (/ (2*sqrt (mu*A)) * s).
    - rewrite <- !Rmult_assoc. exact E3.
    - assert (/ (2*sqrt (mu*A)) <> 0) by (apply Rinv_neq_0_compat; lra). 
      assert (s <> 0) by (intros Z; rewrite Z in SS; lra). now apply Rmult_integral_contrapositive. }
  assert (Dt : 0 < mu - Rabs nu) by lra.
  assert (Ga : (a - a') * (mu - Rabs nu) = 0).
  { rewrite <- EA. transitivity (mu * (a*(1-A) - (mu-D*D)*be - (a'*(1-A) - (mu-D*D)*be')) + (mu-D*D)*(a*A + mu*be - (a'*A + mu*be'))). ring.
    rewrite F1, F2. ring. }
  assert (Gb : (be - be') * (mu - Rabs nu) = 0).
  { rewrite <- EA. transitivity ((1-A) * (a*A + mu*be - (a'*A + mu*be')) - A * (a*(1-A) - (mu-D*D)*be - (a'*(1-A) - (mu-D*D)*be'))). ring.
    rewrite F1, F2. ring. }
  apply Rmult_integral in Ga, Gb.
  assert (a = a') by lra. assert (Eb : be = be') by lra.
  apply list3_eq; auto.
  transitivity (be * (D*D) * s). unfold be. transitivity (b*(s*s)); [rewrite SS; ring|field; lra].
  rewrite Eb. unfold be'. transitivity (b'*(s*s)); [field; lra|rewrite SS; ring].
Qed.

(** The conversion to prolate components is injective. *)
Theorem to_prolate_inj m m' deg deg' f f' (kw kw' : kwargs ext) P v1 v2 v' D pt :
  rep_ok m deg (5 + f) P -> rep_ok m' deg' (5 + f') P -> valid P -> off_plane P -> denotes P pt ->
  vplain3 (vc v1) -> vc v1 <> WLonCosLat -> length (vcomps v1) = 3%nat ->
  vc v2 = vc v1 -> length (vcomps v2) = 3%nat ->
  0 < D -> kw_Delta kw = Some (Some D) -> kw_Delta kw' = Some (Some D) ->
  vel_represent_as m deg (5 + f) kw (vfinite v1) WProlate (finite P) = Ok false v' ->
  vel_represent_as m' deg' (5 + f') kw' (vfinite v2) WProlate (finite P) = Ok false v' ->
  v1 = v2.
Proof.
  intros H H' VP Z Dn Pv N L C2 L2 HD K K' E1 E2. assert (O := proj1 H).
  destruct (vel_to_prolate m deg f kw P v1 D pt) as (w1 & A1 & A2 & A3 & A4); auto.
  destruct (vel_to_prolate m' deg' f' kw' P v2 D pt) as (w2 & B1 & B2 & B3 & B4); auto; try (rewrite C2; auto).
  assert (w1 = w2) as <-.
  { rewrite A1 in E1. rewrite B1 in E2. assert (X : vfinite w1 = vfinite w2) by congruence.
    destruct w1 as [c1 x1], w2 as [c2 x2]. unfold vfinite in X. cbn in *. injection X as X1 X2. f_equal; auto.
    clear - X2. revert x2 X2. induction x1; destruct x2; intros X2; try discriminate; auto. injection X2 as -> X2. f_equal; auto. }
  destruct (proj2 H nokw (integral_cls (vc v1)) Pv) as (p & _ & Cp & Vp & Ep).
  assert (Dp : denotes p pt) by now apply Ep.
  assert (NF : not_at_focus D P). { intros pt' Dn' [-> | ->]; apply (O _ _ _ Dn'); ring. }
  destruct (off_same P p pt VP Vp Dn Dp) as [Op Zp].
  assert (Pp : plain3 (cls_of p)) by now rewrite Cp.
  assert (NFp : not_at_focus D (uncast p)).
  { intros pt' Dn' [-> | ->]; apply uncast_pt, Ep in Dn'; apply (O _ _ _ Dn'); ring. }
  destruct (any_to_prolate Traced deg f kw (uncast p) D) as (q & _ & Cq & Vq & Fq & _ & _ & Eq); auto using uncast_valid, uncast_len.
  { now rewrite uncast_cls. }
  assert (Dq : denotes q pt) by (apply Eq, uncast_pt; auto).
  assert (M : vel_means p v1 (vat p (vcomps v1))) by (apply means_vat; auto).
  apply (A4 p q _ Vp Vq Dp Dq Cp Cq Fq) in M. rewrite C2 in B4. apply (B4 p q _ Vp Vq Dp Dq Cp Cq Fq) in M.
  apply means_vat in M; auto; try (rewrite C2; auto).
  rewrite !vat_plain in M by now apply plain3_not_prolate.
  apply vel_at_inj in M; auto. destruct v1, v2; cbn in *. congruence.
Qed.

(** 2-D round trip *)
Lemma vel_at_inj2 p u u' pt : plain2 (cls_of p) -> denotes p pt -> pt <> [0;0] -> length u = 2%nat -> length u' = 2%nat ->
  vel_at p u = vel_at p u' -> u = u'.
Proof.
  intros P D O L L' E.
  destruct u as [|a [|b [|]]]; try discriminate L. destruct u' as [|a' [|b' [|]]]; try discriminate L'.
  destruct p; cbn in P; try contradiction; cbn in E; auto; apply list2_inj in E; destruct E as (E1 & E2).
  cbn in D. subst pt. assert (N : len r <> 0) by (intros N; apply O; rewrite N, !Rmult_0_l; reflexivity).
  pose proof (cs1 phi) as T.
  destruct (rot_inj (cos phi) (sin phi) a (len r*b) a' (len r*b')) as [A B]; try lra.
  apply mul_inj in B; auto. congruence.
Qed.
Theorem vel_round_trip2 m m' deg deg' f f' kw kw' P v t pt :
  valid P -> plain2 (cls_of P) -> denotes P pt -> pt <> [0;0] ->
  vplain2 (vc v) -> vplain2 t -> length (vcomps v) = 2%nat ->
  exists v', vel_represent_as m deg (1 + f) kw (vfinite v) t (finite P) = Ok false (vfinite v') /\
    vel_represent_as m' deg' (1 + f') kw' (vfinite v') (vc v) (finite P) = Ok false (vfinite v).
Proof.
  intros VP PP D O Pv Pt L.
  destruct (vel_plain2 m deg f kw P v t pt) as (v' & A1 & A2 & A3 & A4); auto.
  exists v'. split; auto.
  destruct (vel_plain2 m' deg' f' kw' P v' (vc v) pt) as (v'' & B1 & B2 & B3 & B4); auto. { now rewrite A2. }
  rewrite B1. repeat f_equal.
  destruct (represent_as_plain2 m deg f kw P (integral_cls (vc v)) VP PP Pv) as (p & _ & Cp & Vp & Ep & _).
  destruct (represent_as_plain2 m deg f kw P (integral_cls t) VP PP Pt) as (q & _ & Cq & Vq & Eq & _).
  assert (Dp : denotes p pt) by now apply Ep. assert (Dq : denotes q pt) by now apply Eq.
  specialize (A4 p q Vp Vq Dp Dq Cp Cq). rewrite A2 in B4. specialize (B4 q p Vq Vp Dq Dp Cq Cp).
  destruct v as [cv u], v'' as [cv'' u'']; cbn in *. subst cv''. f_equal.
  apply (vel_at_inj2 p _ _ pt); auto. now rewrite Cp. congruence.
Qed.

(** ** Speed *)
Lemma cart_speed_ok w : cart_speed (map (@Some R) w) = Some (norm_of w).
Proof.
  unfold norm_of.
  assert (F : forall l : list R, fold_right (fun a s => a * a + s)%num (Some 0%R : ext) (map (@Some R) l) = Some (fold_right (fun x s => x*x+s)%R 0%R l)).
  { induction l as [|x l IH]; [reflexivity|]. cbn [map fold_right]. rewrite IH. reflexivity. }
  assert (NN : forall l, 0 <= fold_right (fun x s => x*x+s) 0 l).
  { induction l as [|x l IH]; cbn; [lra|nra]. }
  assert (G : nsqrt (fold_right (fun a s => a * a + s)%num (Some 0%R : ext) (map (@Some R) w)) = Some (sqrt (fold_right (fun x s => x*x+s) 0 w))).
  { rewrite F. apply esqrt_some. apply NN. }
  destruct w as [|a [|b w]]; try exact G.
  cbn. f_equal. rewrite Rplus_0_r. symmetry. apply sqrt_Rsqr_abs.
Qed.
Theorem speed3 deg f P v pt p w :
  rep_ok Traced deg (4 + f) P -> denotes P pt -> vplain3 (vc v) -> length (vcomps v) = 3%nat ->
  valid p -> denotes p pt -> cls_of p = integral_cls (vc v) -> vel_means p v w ->
  vel_norm deg (4 + f) (vfinite v) (finite P) = Ok false (Some (norm_of w)).
Proof.
  intros H D Pv L Vp Dp Cp M. unfold vel_norm. cbn [vc vfinite].
  assert (vcart_cls (vc v) = WCart3) as ->.
  { unfold vcart_cls, vdim, vplain3 in *. destruct (vc v); cbn in Pv; try contradiction; reflexivity. }
  destruct (vel_plain3 Traced deg f nokw P v WCart3 pt) as (v' & A1 & A2 & A3 & A4); auto; try exact I.
  change (vel_represent_as _ _ _ _ (mkVel (vc v) (map Some (vcomps v))) _ _) with (vel_represent_as Traced deg (4+f) nokw (vfinite v) WCart3 (finite P)).
  rewrite A1, bind_ok. unfold ret. f_equal.
  cbn [vcomps vfinite]. rewrite cart_speed_ok. f_equal. f_equal.
  assert (Op : off_axis p). { apply (off_axis_pt p); [tauto|]. intros x y z Dx.
    assert (E : [x;y;z] = pt). { apply denotes_cart_at in Dx, Dp. congruence. all: rewrite Cp; now apply plain3_not_prolate. }
    apply (proj1 H x y z). now rewrite E. }
  apply means_iff in M; auto. 
  assert (Hpt : exists x y z, pt = [x;y;z]).
  { destruct (proj2 H nokw CCart3 I) as (c & _ & Cc & _ & Ec). destruct c; try discriminate Cc. apply Ec in D. cbn in D. eauto. }
  destruct Hpt as (x & y & z & Ept).
  specialize (A4 p (PCart3 x y z) Vp I Dp). cbn [denotes cls_of integral_cls] in A4. specialize (A4 Ept Cp eq_refl).
  rewrite M, <- A4. unfold uncos. rewrite A2. destruct (vcomps v') as [|? [|? [|? [|]]]]; try discriminate A3. reflexivity.
Qed.
(** Two dimensions: CartesianVel2D has no norm of its own. *)
Theorem speed2 deg f v P : vdim (vc v) = 2%nat -> exists e, vel_norm deg f v P = Raise e.
Proof.
  intros D. unfold vel_norm. assert (vcart_cls (vc v) = WCart2) as -> by (unfold vcart_cls; now rewrite D).
  destruct (vel_represent_as Traced deg f nokw v WCart2 P) as [w c|e]; cbn [bind]; eauto.
Qed.
Theorem speed2_ok deg f v P w c : vdim (vc v) = 2%nat -> vel_represent_as Traced deg f nokw v WCart2 P = Ok w c -> vel_norm deg f v P = Raise EType.
Proof. intros D E. unfold vel_norm. assert (vcart_cls (vc v) = WCart2) as -> by (unfold vcart_cls; now rewrite D). now rewrite E. Qed.
Theorem speed1 deg f P v x : valid P -> one_d (cls_of P) -> denotes P [x] -> 0 <= x ->
  one_d (integral_cls (vc v)) -> length (vcomps v) = 1%nat ->
  vel_norm deg (1 + f) (vfinite v) (finite P) = Ok false (Some (norm_of (vcomps v))).
Proof.
  intros VP PP D Hx Pv L. unfold vel_norm. cbn [vc vfinite].
  assert (vcart_cls (vc v) = WCart1) as ->.
  { unfold vcart_cls, vdim in *. destruct (vc v); cbn in Pv; try contradiction; reflexivity. }
  change (vel_represent_as _ _ _ _ (mkVel (vc v) (map Some (vcomps v))) _ _) with (vel_represent_as Traced deg (1+f) nokw (vfinite v) WCart1 (finite P)).
  rewrite (vel_1d Traced deg f nokw P v WCart1 x); auto; try exact I. rewrite bind_ok. unfold ret. f_equal.
  cbn [vcomps vfinite]. apply cart_speed_ok.
Qed.
