(** * Prolate spheroidal velocities: the change of representation. *)
From Coq Require Import Reals Bool List ZArith Lra Lia.
From Verif Require Import Num Vectors Spec Transform Pos3D Pos3DThm RoundTrip PosGlue Prolate ProlateThm Vel SpecVel VelAt DualPos DualThm VelHom VelPush VelThm VelProlate.
Import ListNotations.
Open Scope R_scope.

Section CP2.
Variables rho z D a b c : R.
Hypothesis Hr : 0 < rho.
Hypothesis Hz : z <> 0.
Hypothesis HD : 0 < D.
Let mu := pro_mu rho z D.
Let nu := pro_absnu rho z D * Rsign z.
Lemma cp_in : pro_in mu nu D.
Proof.
  destruct (cp_Q rho z D Hr Hz HD) as (Q0 & Q2 & SQ & Qd & Qs).
  assert (Hab : Rabs nu = pro_absnu rho z D) by (apply pro_nu_abs; lra).
  unfold pro_in. split; auto. rewrite Hab. unfold mu, pro_mu, pro_absnu. lra.
Qed.
Lemma cp_Rz : prolate_R mu nu D = rho /\ prolate_z mu nu D = z.
Proof.
  destruct cp_in as (H1 & H2 & H3 & H4).
  apply prolate_point_unique with (mu := mu) (nu := nu) (Delta := D); auto.
  apply prolate_Rz_point; lra. apply pro_point; lra.
Qed.
Definition cp_ds := 2*rho*a + 2*z*c.
Definition cp_dQ := ((rho*rho+z*z-D*D)*cp_ds + 4*(D*D)*rho*a) / pro_D rho z D.
Definition cp_tan : list R := [(cp_ds + cp_dQ)/2; (cp_ds - cp_dQ)/2 * Rsign z; b].
Lemma cp_nu_sign : Rsign nu = Rsign z.
Proof.
  pose proof cp_in as (H1 & H2 & H3 & H4).
  assert (Hab : Rabs nu = pro_absnu rho z D) by (apply pro_nu_abs; lra). rewrite Hab in H3.
  unfold nu. destruct (Rsign_cases z) as [[P E]|[[P E]|[P E]]]; rewrite E.
  - apply Rsign_pos. lra. - lra. - apply Rsign_neg. lra.
Qed.
Lemma cp_tan_inv : pro_tan mu nu D cp_tan = [a; b; c].
Proof.
  destruct (cp_Q rho z D Hr Hz HD) as (Q0 & Q2 & SQ & Qd & Qs).
  pose proof cp_in as Hin. destruct cp_Rz as [ER EZ].
  destruct (pro_in_facts mu nu D Hin) as (HA & HDD & P1 & P2 & P3 & P4).
  assert (Hab : Rabs nu = pro_absnu rho z D) by (apply pro_nu_abs; lra).
  assert (SS : Rsign z * Rsign z = 1) by now apply Rsign_sq.
  unfold pro_tan, cp_tan. rewrite ER, cp_nu_sign.
  unfold prolate_z in EZ. rewrite cp_nu_sign in EZ.
  assert (EZ' : sqrt (mu * (Rabs nu / (D*D))) = z * Rsign z) by (transitivity (sqrt (mu * (Rabs nu / (D*D))) * Rsign z * Rsign z); [rewrite Rmult_assoc, SS; ring|now rewrite EZ]).
  rewrite EZ'. 
  assert (NS : Rsign z <> 0) by nra.
  rewrite Hab. unfold mu, pro_mu, pro_absnu.
  set (Q := pro_D rho z D) in *. set (s := rho*rho+z*z+D*D) in *. set (d := rho*rho+z*z-D*D) in *.
  assert (EQ : cp_dQ * Q = d*cp_ds + 4*(D*D)*rho*a) by (unfold cp_dQ; fold Q d; field; lra).
  assert (ss2 : (cp_ds - cp_dQ)/2 * Rsign z * Rsign z = (cp_ds - cp_dQ)/2) by (rewrite Rmult_assoc, SS; ring).
  rewrite ss2.
  apply list3_eq; auto.
  - apply Rmult_eq_reg_r with (2*rho*(D*D)); [|nra]. 
    transitivity ((cp_ds + cp_dQ)/2 * (D*D - (s-Q)/2) - ((s+Q)/2 - D*D)*((cp_ds-cp_dQ)/2)).
    field. split; lra.
    replace (D*D - (s-Q)/2) with ((Q-d)/2) by (unfold s, d; field).
    replace ((s+Q)/2 - D*D) with ((Q+d)/2) by (unfold s, d; field).
    transitivity ((cp_dQ*Q - d*cp_ds)/2). field. rewrite EQ. field.
  - assert (E2 : s*cp_ds - cp_dQ*Q = 4*(D*D)*(z*c)). { rewrite EQ. unfold cp_ds, s, d. ring. }
    apply Rmult_eq_reg_r with (2*z*(D*D)); [|apply Rmult_integral_contrapositive; split; [lra|lra]].
    transitivity (((cp_ds + cp_dQ)/2*((s-Q)/2) + (s+Q)/2*((cp_ds-cp_dQ)/2)) * (Rsign z / Rsign z)).
    field. repeat split; lra.
    replace (Rsign z / Rsign z) with 1 by (field; auto).
    transitivity ((s*cp_ds - cp_dQ*Q)/2). field. rewrite E2. field.
Qed.
End CP2.

(** Cartesian velocity, prolate included *)
Definition vat (p : pos R) (u : list R) : list R :=
  match p with
  | PProlate mu nu phi D => vel_at (pro_cyl mu nu phi D) (pro_tan mu nu D u)
  | _ => vel_at p u
  end.
Lemma vat_plain p u : cls_of p <> CProlate -> vat p u = vel_at p u.
Proof. destruct p; cbn; congruence. Qed.

(** off the polar axis and off the equatorial plane *)
Definition off_plane (p : pos R) : Prop := forall x y z, denotes p [x;y;z] -> z <> 0.
Lemma prolate_in mu nu phi D : valid (PProlate mu nu phi D) -> off_axis (PProlate mu nu phi D) ->
  off_plane (PProlate mu nu phi D) -> pro_in mu nu D.
Proof.
  intros V O Z. pose proof V as (V1 & V2 & V3). 
  assert (Dn : denotes (PProlate mu nu phi D) [prolate_R mu nu D * cos phi; prolate_R mu nu D * sin phi; prolate_z mu nu D]).
  { apply pro_cyl_pt; auto. reflexivity. }
  pose proof (O _ _ _ Dn) as O'. pose proof (Z _ _ _ Dn) as Z'.
  assert (HDD : 0 < D*D) by nra.
  assert (N1 : mu <> D*D). { intros E. apply O'. unfold prolate_R. rewrite E, Rminus_diag_eq, Rmult_0_l, sqrt_0 by auto. ring. }
  assert (N2 : Rabs nu <> D*D). { intros E. apply O'. unfold prolate_R. rewrite E.
    replace (1 - D*D/(D*D)) with 0 by (field; lra). rewrite Rmult_0_r, sqrt_0. ring. }
  assert (N3 : nu <> 0). { intros E. apply Z'. unfold prolate_z. rewrite E, Rsign_0. ring. }
  pose proof (Rabs_pos_lt nu N3). unfold pro_in. repeat split; auto; lra.
Qed.
Lemma cyl_regular rho phi z : valid (PCyl rho phi z) -> off_axis (PCyl rho phi z) -> off_plane (PCyl rho phi z) -> 0 < rho /\ z <> 0.
Proof.
  intros V O Z. split. 2: apply (Z _ _ _ eq_refl).
  cbn in V. pose proof (O _ _ _ eq_refl) as O'. destruct (Req_EM_T rho 0) as [E|N]; [|lra].
  exfalso. apply O'. rewrite E. ring.
Qed.

Lemma d_Cyl_Prolate deg f (kw : kwargs dual) rho phi z D a b c : 0 < rho -> z <> 0 -> 0 < D ->
  kw_Delta kw = Some (dconst (Some D)) ->
  represent_as Traced deg (S f) kw (dpos (PCyl rho phi z) [a;b;c]) CProlate
  = Ok false (dpos (PProlate (pro_mu rho z D) (pro_absnu rho z D * Rsign z) phi D) (cp_tan rho z D a b c)).
Proof.
  intros H1 H2 H3 K. dstep. rewrite K. cbv iota beta zeta. cbn [nth map].
  unfold dconst. rewrite (d_prolate_coords rho z D a c H1 H2 H3). cbn [fst snd].
  unfold mk_Prolate. dred. reflexivity.
Qed.

Lemma dual_to_prolate deg f (kw : kwargs dual) p u D : valid p -> length_radial p -> off_axis p -> off_plane p ->
  length u = 3%nat -> plain3 (cls_of p) -> 0 < D -> kw_Delta kw = Some (dconst (Some D)) ->
  exists q u', represent_as Traced deg (5 + f) kw (dpos p u) CProlate = Ok false (dpos q u') /\ cls_of q = CProlate /\
    length u' = 3%nat /\ vat q u' = vat p u.
Proof.
  intros V L O Z Hu P HD K.
  assert (Base : forall kw' f' rho phi z u0, valid (PCyl rho phi z) -> off_axis (PCyl rho phi z) -> off_plane (PCyl rho phi z) ->
     length u0 = 3%nat -> kw_Delta kw' = Some (dconst (Some D)) ->
     exists q u', represent_as Traced deg (S f') kw' (dpos (PCyl rho phi z) u0) CProlate = Ok false (dpos q u') /\ cls_of q = CProlate /\
       length u' = 3%nat /\ vat q u' = vel_at (PCyl rho phi z) u0).
  { intros kw' f' rho phi z u0 V0 O0 Z0 L0 K0. destruct (cyl_regular rho phi z V0 O0 Z0) as [R1 R2].
    destruct u0 as [|a [|b [|c [|]]]]; try discriminate L0. rewrite (d_Cyl_Prolate deg f' kw' rho phi z D) by auto.
    do 2 eexists. split; [reflexivity|]. split; [reflexivity|]. split; [reflexivity|].
    cbn [vat]. rewrite cp_tan_inv by auto. unfold pro_cyl. destruct (cp_Rz rho z D R1 R2 HD) as [-> ->]. reflexivity. }
  rewrite (vat_plain p) by (now apply plain3_not_prolate).
  destruct (pcls_eqb (cls_of p) CCyl) eqn:Ec.
  { destruct p; try discriminate Ec. cbn [plus]. apply Base; auto. }
  destruct (represent_as_dual deg f nokw p u CCyl) as (q & u1 & R1 & R2 & R3 & R4 & R5 & R6 & R7); auto; try exact I.
  destruct q; try discriminate R2.
  assert (R6' : forall pt, denotes p pt <-> denotes (PCyl rho phi z) pt).
  { intros pt. rewrite !denotes_cart_at, R6 by (try (cbn; congruence); now apply plain3_not_prolate). tauto. }
  assert (Oq : off_axis (PCyl rho phi z)). { eapply off_axis_pt; [|exact O]. exact R6'. }
  assert (Zq : off_plane (PCyl rho phi z)). { intros x0 y0 z0 Dn. apply (Z x0 y0 z0). now apply R6'. }
  destruct (Base (kw_Delta_only (dconst (Some D))) (3 + f)%nat rho phi z u1) as (q & u' & B1 & B2 & B3 & B4); auto.
  exists q, u'. split; [|split; [auto|split; [auto|]]].
  - cbn [plus] in *. destruct p; cbn in P; try contradiction; try discriminate Ec; dstep; rewrite K;
    cbn [dpos seed finite pos_map] in R1; rewrite R1, bind_ok; exact B1.
  - rewrite B4. exact R7.
Qed.

Lemma dual_from_prolate deg f (kw : kwargs dual) mu nu phi D u t : pro_in mu nu D -> length u = 3%nat -> plain3 t ->
  exists q u', represent_as Traced deg (5 + f) kw (dpos (PProlate mu nu phi D) u) t = Ok false (dpos q u') /\ cls_of q = t /\
    length u' = 3%nat /\ vat q u' = vat (PProlate mu nu phi D) u.
Proof.
  intros Hin L P. destruct (pro_in_facts mu nu D Hin) as (HA & HDD & P1 & P2 & P3 & P4).
  cbn [vat]. set (c := pro_cyl mu nu phi D).
  assert (Lt : length (pro_tan mu nu D u) = 3%nat) by (destruct u as [|? [|? [|? [|]]]]; try discriminate L; reflexivity).
  assert (Vc : valid c) by (cbn; lra).
  assert (Oc : off_axis c). { intros x y z Dn. unfold c, pro_cyl in Dn. cbn in Dn. apply list3_inj in Dn. destruct Dn as (-> & -> & ->).
    replace (_ + _) with (prolate_R mu nu D * prolate_R mu nu D * (cos phi * cos phi + sin phi * sin phi)) by ring.
    rewrite cs1. nra. }
  destruct (represent_as_dual deg f nokw c (pro_tan mu nu D u) t) as (q & u1 & R1 & R2 & R3 & R4 & R5 & R6 & R7); auto; try exact I.
  assert (Nq : cls_of q <> CProlate) by (rewrite R2; now apply plain3_not_prolate).
  assert (C1 : represent_as Traced deg (4 + f) nokw (dpos (PProlate mu nu phi D) u) CCyl = Ok false (dpos c (pro_tan mu nu D u))).
  { cbn [plus]. apply d_Prolate_Cyl; auto. }
  destruct (pcls_eqb t CCyl) eqn:Et.
  { destruct t; try discriminate Et. cbn [plus]. rewrite d_Prolate_Cyl by auto.
    do 2 eexists. split; [reflexivity|]. split; [reflexivity|]. split; [auto|]. reflexivity. }
  exists q, u1. split; [|split; [auto|split; [auto|]]].
  - cbn [plus] in *. cbn [dpos seed finite pos_map] in C1.
    destruct t; cbn in P; try contradiction; try discriminate Et; dstep; rewrite C1, bind_ok; exact R1.
  - rewrite (vat_plain q) by auto. exact R7.
Qed.

(** ** Uniqueness, linearity *)
Lemma prolate_unique mu nu mu' nu' D R z : 0 < D -> D*D < mu -> D*D < mu' -> Rabs nu < D*D -> Rabs nu' < D*D ->
  prolate_point mu nu D R z -> prolate_point mu' nu' D R z -> mu' = mu /\ nu' = nu.
Proof.
  intros HD M M' N N' (_&A1&A2&A3&A4) (_&B1&B2&B3&B4). unfold on_confocal in *.
  set (D2 := D*D) in *.
  assert (S : mu' + Rabs nu' = mu + Rabs nu) by lra.
  assert (Q : (mu' - mu)*(mu'+mu-(R*R+z*z+D2)) = 0) by lra.
  assert (E : mu' = mu). { apply Rmult_integral in Q. destruct Q as [Q|Q]; [lra|]. rewrite A3 in Q. lra. }
  split; auto. assert (AN : Rabs nu' = Rabs nu) by lra. rewrite A4 in B4.
  rewrite <- (Rsign_mul_abs nu'), <- (Rsign_mul_abs nu), AN, B4. reflexivity.
Qed.
Lemma polar_unique R phi R' phi' : 0 < R -> 0 < R' -> R * cos phi = R' * cos phi' -> R * sin phi = R' * sin phi' ->
  R = R' /\ cos phi = cos phi' /\ sin phi = sin phi'.
Proof.
  intros H H' E1 E2. pose proof (cs1 phi). pose proof (cs1 phi').
  assert (Q : R*R = R'*R').
  { transitivity ((R * cos phi)*(R * cos phi) + (R * sin phi)*(R * sin phi)).
    transitivity (R*R*(cos phi * cos phi + sin phi * sin phi)). rewrite H0; ring. ring.
    rewrite E1, E2. transitivity (R'*R'*(cos phi' * cos phi' + sin phi' * sin phi')). ring. rewrite H1; ring. }
  assert (R = R') by nra. subst R'. split; auto. split; nra.
Qed.
Lemma vat_same_prolate mu nu phi D mu' nu' phi' pt u :
  pro_in mu nu D -> pro_in mu' nu' D ->
  denotes (PProlate mu nu phi D) pt -> denotes (PProlate mu' nu' phi' D) pt ->
  vat (PProlate mu nu phi D) u = vat (PProlate mu' nu' phi' D) u.
Proof.
  intros H H' Dn Dn'.
  destruct (pro_in_facts _ _ _ H) as (_ & _ & _ & _ & P3 & _).
  destruct (pro_in_facts _ _ _ H') as (_ & _ & _ & _ & P3' & _).
  apply pro_cyl_pt in Dn; [|now apply pro_in_valid]. apply pro_cyl_pt in Dn'; [|now apply pro_in_valid].
  cbn in Dn, Dn'. subst pt. apply list3_inj in Dn'. destruct Dn' as (E1 & E2 & E3).
  destruct (polar_unique _ _ _ _ P3 P3' E1 E2) as (ER & EC & ES).
  pose proof H as (G1 & G2 & G3 & G4). pose proof H' as (K1 & K2 & K3 & K4).
  pose proof (prolate_Rz_point mu nu D G1 ltac:(lra) ltac:(lra)) as Z1.
  pose proof (prolate_Rz_point mu' nu' D G1 ltac:(lra) ltac:(lra)) as Z2.
  rewrite ER, E3 in Z1.
  destruct (prolate_unique mu nu mu' nu' D _ _ G1 ltac:(lra) ltac:(lra) ltac:(lra) ltac:(lra) Z1 Z2) as [-> ->].
  cbn [vat]. destruct u as [|a [|b [|c [|]]]]; auto.
  unfold pro_cyl. cbn -[Rabs Rsign prolate_R prolate_z]. rewrite EC, ES. reflexivity.
Qed.

Lemma vat_linear p : plain3 (cls_of p) \/ cls_of p = CProlate -> linear 3 3 (vat p).
Proof.
  intros [P|P].
  - pose proof (vel_at_linear p (plain3_not_prolate _ P)) as H. destruct p; cbn in P; try contradiction; exact H.
  - destruct p; try discriminate P. split.
    + cbn -[Rabs Rsign prolate_R prolate_z]. unfold Rdiv. apply list3_eq; ring.
    + intros k a b La Lb. repeat (destruct a as [|? a]; cbn in La; try discriminate);
      repeat (destruct b as [|? b]; cbn in Lb; try discriminate).
      cbn -[Rabs Rsign prolate_R prolate_z]. unfold Rdiv. apply list3_eq; ring.
Qed.

(** Regular positions: off the axis; prolate ones also off the plane. *)
Definition regular (p : pos R) : Prop :=
  valid p /\ off_axis p /\ ((plain3 (cls_of p) /\ length_radial p) \/ (cls_of p = CProlate /\ off_plane p)).

Lemma generic_push m deg f (kw : kwargs ext) P v t cp q0 :
  represent_as m deg (5 + f) kw (finite P) (integral_cls (vc v)) = Ok false (finite cp) ->
  valid cp -> off_axis cp -> off_plane cp -> cls_of cp = integral_cls (vc v) -> 
  cast_distance m (finite cp) = Ok false (finite (uncast cp)) ->
  plain3 (integral_cls (vc v)) ->
  ((t = WProlate /\ exists D, 0 < D /\ kw_Delta kw = Some (Some D)) \/ plain3 (integral_cls t)) ->
  represent_as Traced deg (5 + f) kw (finite (uncast cp)) (integral_cls t) = Ok false (finite q0) ->
  cls_of q0 = integral_cls t -> length (vcomps v) = 3%nat ->
  exists v', vel_generic m deg (5 + f) kw (vfinite v) t (finite P) = Ok false (vfinite (mkVel t v')) /\
    length v' = 3%nat /\ vat q0 v' = vat (uncast cp) (vcomps v).
Proof.
  intros H1 V O Z C HC Pv Pt K Cq L.
  set (p := uncast cp) in *.
  assert (Cp : cls_of p = integral_cls (vc v)) by (unfold p; now rewrite uncast_cls).
  assert (N3 : dim_of (cls_of p) = 3%nat).
  { rewrite Cp. destruct (integral_cls (vc v)); cbn in Pv; try contradiction; reflexivity. }
  assert (N3t : dim_of (integral_cls t) = 3%nat).
  { destruct Pt as [(Pt & _)|Pt]; [subst; reflexivity|]. destruct (integral_cls t); cbn in Pt; try contradiction; reflexivity. }
  assert (Vp : valid p) by now apply uncast_valid.
  assert (Op : off_axis p) by (eapply off_axis_pt; [intros; symmetry; apply uncast_pt|auto]).
  assert (Zp : off_plane p) by (intros x y z Dn; apply (Z x y z); now apply uncast_pt).
  destruct (jac_push deg (5+f) kw p q0 (integral_cls t) 3 (vat p) vat) with (v := vcomps v)
    as (cols & v' & J1 & J2 & J3 & J4); auto; rewrite ?N3; auto.
  - intros u Lu. destruct Pt as [(Pt & D & HD & KD)|Pt].
    + subst t. destruct (dual_to_prolate deg f (kw_map dconst kw) p u D) as (q & u' & R1 & R2 & R3 & R4); auto.
      { apply uncast_len. } { now rewrite Cp. } { cbn. now rewrite KD. }
      exists q, u'. auto.
    + change (5+f)%nat with (4+(S f))%nat.
      destruct (represent_as_dual deg (S f) (kw_map dconst kw) p u (integral_cls t)) as (q & u' & R1 & R2 & R3 & R4 & R5 & R6 & R7); auto.
      { apply uncast_len. } { now rewrite Cp. }
      exists q, u'. rewrite !vat_plain; auto. rewrite Cp; now apply plain3_not_prolate. rewrite R2; now apply plain3_not_prolate.
  - apply vat_linear. rewrite Cp. auto.
  - apply vat_linear. rewrite Cq. destruct Pt as [(Pt & _)|Pt]; [subst; auto|auto].
  - rewrite N3 in J2, J3. exists v'. split; [|auto].
    unfold vel_generic. cbn [vc vfinite]. rewrite H1, bind_ok, HC, bind_ok, can_map_ok, bind_ok by (now apply plain3_not_prolate). fold p. rewrite J1, bind_ok.
    unfold ret, vfinite. cbn [vc vcomps]. f_equal. f_equal. unfold vdim. rewrite N3t. exact J2.
Qed.

Lemma cast_ok' m p : valid p -> cast_distance m (finite p) = Ok false (finite (uncast p)).
Proof.
  intros V. destruct (pcls_eqb (cls_of p) CProlate) eqn:E.
  - destruct p; try discriminate E. cbn in V. destruct V as (V1 & V2 & V3).
    cbn [cast_distance finite pos_map uncast]. unfold mk_Prolate. cbv zeta.
    rewrite prolate_check_ok by auto. reflexivity.
  - apply cast_ok; auto. intros E'. rewrite E' in E. discriminate.
Qed.
Lemma means_vat p v w : valid p -> off_axis p -> off_plane p -> 
  vplain3 (vc v) /\ vc v <> WLonCosLat \/ vc v = WProlate -> cls_of p = integral_cls (vc v) ->
  length (vcomps v) = 3%nat -> (vel_means p v w <-> w = vat p (vcomps v)).
Proof.
  intros V O Z [[P N]|P] C L.
  - rewrite vat_plain by (rewrite C; now apply plain3_not_prolate).
    rewrite means_plain; auto. tauto. intros E; rewrite E in P; contradiction.
    rewrite L. unfold vdim, vplain3 in *. destruct (integral_cls (vc v)); cbn in P; try contradiction; reflexivity.
  - destruct v as [cv u]; cbn in *. subst cv. destruct p; try discriminate C.
    cbn [vat]. rewrite <- moves_prolate; auto. unfold vel_means; cbn. tauto. eapply prolate_in; eauto.
Qed.
Lemma denotes_total' p : valid p -> cls_of p <> CProlate -> exists pt, denotes p pt.
Proof. intros V N. exists (cart_at p). now apply denotes_cart_at. Qed.
Lemma denotes_functional p a b : valid p -> denotes p a -> denotes p b -> a = b.
Proof.
  intros V A B. destruct (pcls_eqb (cls_of p) CProlate) eqn:E.
  - destruct p; try discriminate E. rewrite pro_cyl_pt in A, B by auto. cbn in A, B. congruence.
  - assert (cls_of p <> CProlate) by (intros E'; rewrite E' in E; discriminate).
    apply denotes_cart_at in A, B; auto. congruence.
Qed.
Lemma off_same p q pt : valid p -> valid q -> denotes p pt -> denotes q pt ->
  (off_axis p -> off_axis q) /\ (off_plane p -> off_plane q).
Proof.
  intros Vp Vq Dp Dq. split; intros H x y z D; apply (H x y z);
  pose proof (denotes_functional q _ _ Vq D Dq); congruence.
Qed.
Lemma vat_same p p' pt u : valid p -> valid p' -> off_axis p -> off_plane p -> cls_of p' = cls_of p ->
  plain3 (cls_of p) \/ cls_of p = CProlate -> focal_length p = focal_length p' ->
  denotes p pt -> denotes p' pt -> vat p u = vat p' u.
Proof.
  intros V V' O Z C P F D D'. destruct (off_same p p' pt V V' D D') as [O' Z'].
  destruct P as [P|P].
  - rewrite !vat_plain by (rewrite ?C; now apply plain3_not_prolate). eapply vel_at_same; eauto.
  - destruct p; try discriminate P. destruct p'; try discriminate C. cbn in F. inversion F; subst.
    eapply vat_same_prolate; eauto; eapply prolate_in; eauto.
Qed.

(** ** To prolate *)
Theorem vel_to_prolate m deg f (kw : kwargs ext) P v D pt :
  rep_ok m deg (5 + f) P -> valid P -> off_plane P -> denotes P pt ->
  vplain3 (vc v) -> vc v <> WLonCosLat -> length (vcomps v) = 3%nat ->
  0 < D -> kw_Delta kw = Some (Some D) ->
  exists v', vel_represent_as m deg (5 + f) kw (vfinite v) WProlate (finite P) = Ok false (vfinite v') /\
    vc v' = WProlate /\ length (vcomps v') = 3%nat /\
    forall p q w, valid p -> valid q -> denotes p pt -> denotes q pt ->
      cls_of p = integral_cls (vc v) -> cls_of q = CProlate -> focal_length q = Some D ->
      (vel_means p v w <-> vel_means q v' w).
Proof.
  intros [O HP] VP Z Dn Pv Nv L HD K.
  destruct (HP kw (integral_cls (vc v)) Pv) as (cp & H1 & H2 & H3 & H4).
  assert (Oc : off_axis cp) by (eapply off_axis_pt; eauto).
  assert (Zc : off_plane cp) by (intros x y z Dx; apply (Z x y z); now apply H4).
  assert (Pu : plain3 (cls_of (uncast cp))) by (rewrite uncast_cls, H2; exact Pv).
  assert (Du : denotes (uncast cp) pt) by (apply uncast_pt, H4, Dn).
  assert (Vu : valid (uncast cp)) by now apply uncast_valid.
  destruct (off_same cp (uncast cp) pt) as [Ou Zu]; auto. now apply H4.
  specialize (Ou Oc). specialize (Zu Zc).
  destruct (any_to_prolate Traced deg f kw (uncast cp) D) as (q0 & K1 & K2 & K3 & K4 & _ & _ & K7); auto.
  { apply uncast_len. }
  { intros pt' D' F. pose proof (denotes_functional _ _ _ Vu Du D'); subst pt'.
    destruct F as [-> | ->]; apply (Ou _ _ _ Du); ring. }
  destruct (generic_push m deg f kw P v WProlate cp q0) as (v' & G1 & G2 & G3); auto.
  { now apply cast_ok'. } { left. eauto. }
  exists (mkVel WProlate v'). split; [|split; [auto|split; [auto|]]].
  { unfold vel_represent_as. cbn [vc vfinite]. rewrite <- G1. unfold vplain3 in Pv.
    destruct (vc v); cbn in Pv; try contradiction; try congruence; reflexivity. }
  intros p q w Vp Vq Dp Dq Cp Cq Fq.
  destruct (off_same P p pt VP Vp Dn Dp) as [Op Zp]. destruct (off_same P q pt VP Vq Dn Dq) as [Oq Zq].
  rewrite !means_vat; cbn [vc vcomps]; auto.
  assert (Dq0 : denotes q0 pt) by now apply K7.
  rewrite (vat_same q q0 pt), G3, (vat_same p (uncast cp) pt); auto; try congruence; try tauto;
  rewrite ?uncast_cls; try congruence; auto.
  - rewrite Cp. auto.
  - assert (Pp : plain3 (cls_of p)) by (rewrite Cp; exact Pv). rewrite <- Cp in H2.
    destruct p; cbn in Pp; try contradiction; destruct cp; try discriminate H2; reflexivity.
Qed.

