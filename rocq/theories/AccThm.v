(** * Accelerations: what the transformation computes, and the missing term. *)
From Coq Require Import Reals Bool List ZArith Lra Lia.
From Coquelicot Require Import Coquelicot.
From Verif Require Import Num Vectors Spec Transform Pos3D Pos3DThm PosLow RoundTrip PosGlue Vel SpecVel VelAt DualPos DualThm VelHom VelPush VelThm VelLow VelRound.
Import ListNotations.
Open Scope R_scope.

(** The part of the second derivative that is quadratic in the velocity. *)
Definition curvature (p : pos R) (u : list R) : list R :=
  match p, u with
  | PCart1 _, [_] => [0]
  | PRadial _, [_] => [0]
  | PCart2 _ _, [_; _] => [0; 0]
  | PPolar r phi, [a; b] =>
      [- 2*a*b*sin phi - len r*b*b*cos phi; 2*a*b*cos phi - len r*b*b*sin phi]
  | PCart3 _ _ _, [_; _; _] => [0; 0; 0]
  | PCyl rho phi _, [a; b; _] =>
      [- 2*a*b*sin phi - rho*b*b*cos phi; 2*a*b*cos phi - rho*b*b*sin phi; 0]
  | PSph r th ph, [a; b; c] =>
      [2*a*b*cos th*cos ph - 2*a*c*sin th*sin ph - len r*(b*b+c*c)*sin th*cos ph - 2*len r*b*c*cos th*sin ph;
       2*a*b*cos th*sin ph + 2*a*c*sin th*cos ph - len r*(b*b+c*c)*sin th*sin ph + 2*len r*b*c*cos th*cos ph;
       - 2*a*b*sin th - len r*b*b*cos th]
  | PMSph r th ph, [a; c; b] =>
      [2*a*b*cos ph*cos th - 2*a*c*sin ph*sin th - len r*(b*b+c*c)*sin ph*cos th - 2*len r*b*c*cos ph*sin th;
       2*a*b*cos ph*sin th + 2*a*c*sin ph*cos th - len r*(b*b+c*c)*sin ph*sin th + 2*len r*b*c*cos ph*cos th;
       - 2*a*b*sin ph - len r*b*b*cos ph]
  | PLonLat lon lat d, [a; b; c] =>
      [- 2*c*b*sin lat*cos lon - 2*c*a*cos lat*sin lon - len d*(a*a+b*b)*cos lat*cos lon + 2*len d*a*b*sin lat*sin lon;
       - 2*c*b*sin lat*sin lon + 2*c*a*cos lat*cos lon - len d*(a*a+b*b)*cos lat*sin lon - 2*len d*a*b*sin lat*cos lon;
       2*c*b*cos lat - len d*b*b*sin lat]
  | _, _ => []
  end.

Definition smooth_cls (c : pcls) : Prop := c <> CProlate /\ c <> CTwoSphere.
Definition c0 (p : pos R) (u a : list R) (i : nat) (t : R) : R :=
  nth i (cart_at (shift p (vadd u (vscale (t / 2) a)) t)) 0.
Definition c1 (p : pos R) (u a : list R) (i : nat) (t : R) : R :=
  nth i (vel_at (shift p (vadd u (vscale (t / 2) a)) t) (vadd u (vscale t a))) 0.
Lemma pt_dim_smooth p : smooth_cls (cls_of p) -> pt_dim p = dim_of (cls_of p).
Proof. intros [H1 H2]. destruct p; cbn in *; congruence. Qed.

Ltac splitl L u := repeat (destruct u as [|? u]; cbn in L; try discriminate); clear L.
Ltac folds := repeat match goal with r : dist R |- _ => progress fold (len r) end.
Lemma c0_derive p u a : smooth_cls (cls_of p) -> length u = dim_of (cls_of p) -> length a = dim_of (cls_of p) ->
  forall i, (i < dim_of (cls_of p))%nat -> forall t, is_derive (c0 p u a i) t (c1 p u a i t).
Proof.
  intros [S1 S2] Lu La i Hi t. unfold c0, c1.
  destruct p; cbn in S1, S2, Lu, La, Hi; try congruence; splitl Lu u; splitl La a;
  do 3 (try (destruct i as [|i]; [cbn; unfold len; cbn [dk dval]; folds; unfold Rdiv; auto_derive; auto; field|])); lia.
Qed.
Lemma c1_derive p u a : smooth_cls (cls_of p) -> length u = dim_of (cls_of p) -> length a = dim_of (cls_of p) ->
  forall i, (i < dim_of (cls_of p))%nat ->
  is_derive (c1 p u a i) 0 (nth i (vadd (vel_at p a) (curvature p u)) 0).
Proof.
  intros [S1 S2] Lu La i Hi. unfold c1.
  destruct p; cbn in S1, S2, Lu, La, Hi; try congruence; splitl Lu u; splitl La a;
  do 3 (try (destruct i as [|i]; [cbn; unfold len; cbn [dk dval]; folds; unfold Rdiv; auto_derive; auto;
    rewrite ?Rmult_0_l, ?Rplus_0_r; field|])); lia.
Qed.
Lemma vadd_length (a b : list R) : length a = length b -> length (vadd a b) = length a.
Proof. intros H. unfold vadd. rewrite map_length, combine_length. lia. Qed.
Lemma curvature_length p u : smooth_cls (cls_of p) -> length u = dim_of (cls_of p) -> length (curvature p u) = dim_of (cls_of p).
Proof. intros [S1 S2] Lu. destruct p; cbn in S1, S2, Lu; try congruence; splitl Lu u; reflexivity. Qed.

Lemma ball_abs (t y e : R) : Hierarchy.ball t e y -> Rabs (y - t) < e.
Proof. intros H. exact H. Qed.

Theorem acc_means_iff p u a w : smooth_cls (cls_of p) -> length u = dim_of (cls_of p) -> length a = dim_of (cls_of p) ->
  (acc_means p u a w <-> w = vadd (vel_at p a) (curvature p u)).
Proof.
  intros S Lu La.
  assert (NP : forall u t, cls_of (shift p u t) <> CProlate) by (intros; rewrite cls_shift; apply S).
  assert (PD := pt_dim_smooth p S).
  assert (LV : length (vel_at p a) = dim_of (cls_of p)) by (rewrite vel_at_length; auto; apply S).
  assert (LR : length (vadd (vel_at p a) (curvature p u)) = dim_of (cls_of p)).
  { rewrite vadd_length; auto. now rewrite LV, curvature_length. }
  assert (PS : forall u t, pt_dim (shift p u t) = pt_dim p) by (intros; destruct p; reflexivity).
  split.
  - intros (c & c' & eps & He & Hc & Hd).
    assert (E0 : forall t, Rabs t < eps -> map (fun i => c i t) (seq 0 (length w)) = cart_at (shift p (vadd u (vscale (t/2) a)) t)).
    { intros t Ht. specialize (Hc t Ht). apply denotes_cart_at in Hc; auto. }
    assert (Lw : length w = dim_of (cls_of p)).
    { specialize (E0 0). rewrite Rabs_R0 in E0. specialize (E0 He).
      apply (f_equal (@length R)) in E0. rewrite map_length, seq_length in E0. rewrite E0.
      rewrite cart_at_length by auto. now rewrite PS. }
    apply list_nth_eq. { now rewrite LR. }
    intros i Hi. destruct (Hd i Hi) as [Hd1 Hd2].
    assert (Ec : forall t, Rabs t < eps -> c i t = c0 p u a i t).
    { intros t Ht. rewrite <- (map_seq_nth (fun i => c i t) (length w) i Hi). unfold c0. f_equal. now apply E0. }
    rewrite Lw in Hi.
    assert (Ec' : forall t, Rabs t < eps -> c' i t = c1 p u a i t).
    { intros t Ht. specialize (Hd1 t Ht). apply is_derive_Reals in Hd1.
      assert (Hl : is_derive (c0 p u a i) t (c' i t)).
      { eapply is_derive_ext_loc; [|exact Hd1].
        assert (Hm : 0 < eps - Rabs t) by lra. exists (mkposreal _ Hm). intros y Hy. apply Ec.
        apply ball_abs in Hy. cbn in Hy. pose proof (Rabs_triang_inv y t) as Hy'. apply Rle_lt_trans with (Rabs t + Rabs (y - t)); lra. }
      pose proof (c0_derive p u a S Lu La i Hi t) as Hl'.
      apply is_derive_unique in Hl. apply is_derive_unique in Hl'. congruence. }
    apply is_derive_Reals in Hd2.
    assert (Hl : is_derive (c1 p u a i) 0 (nth i w 0)).
    { eapply is_derive_ext_loc; [|exact Hd2]. exists (mkposreal eps He). intros y Hy. apply Ec'.
      apply ball_abs in Hy. cbn in Hy. now rewrite Rminus_0_r in Hy. }
    pose proof (c1_derive p u a S Lu La i Hi) as Hl'.
    apply is_derive_unique in Hl. apply is_derive_unique in Hl'. congruence.
  - intros ->. exists (c0 p u a), (c1 p u a), 1. split; [lra|]. rewrite LR. split.
    + intros t _. apply denotes_cart_at; auto.
      apply list_nth_eq. rewrite map_length, seq_length, cart_at_length, PS; auto.
      intros i Hi. rewrite map_length, seq_length in Hi. rewrite map_seq_nth by auto. reflexivity.
    + intros i Hi. split.
      * intros t _. apply is_derive_Reals. now apply c0_derive.
      * apply is_derive_Reals. now apply c1_derive.
Qed.

(** ** What the code computes: the Jacobian times the acceleration *)
Definition aplain3 (c : xcls) : Prop := plain3 (integral_cls (acc_integral_cls c)).
Lemma uncast_nonneg p : valid p -> ~ negative_field (uncast p).
Proof.
  destruct p; cbn; auto; intros V; try (pose proof (len_nonneg _ V); lra);
  destruct V as [V _]; pose proof (len_nonneg _ V); lra.
Qed.
Lemma acc_jac m deg f P a t pt : rep_ok m deg (4 + f) P -> denotes P pt ->
  aplain3 (xc a) -> aplain3 t -> length (xcomps a) = 3%nat ->
  exists a', xc a' = t /\ length (xcomps a') = 3%nat /\
    (forall kw velocity, vplain3 (vc velocity) -> length (vcomps velocity) = 3%nat ->
       acc_represent_as m deg (4 + f) kw (afinite a) t (vfinite velocity) (finite P) = Ok false (afinite a')) /\
    forall p q, valid p -> valid q -> denotes p pt -> denotes q pt ->
      cls_of p = integral_cls (acc_integral_cls (xc a)) -> cls_of q = integral_cls (acc_integral_cls t) ->
      vel_at q (xcomps a') = vel_at p (xcomps a).
Proof.
  intros [O HP] D Pa Pt La. unfold aplain3 in *.
  set (cs := integral_cls (acc_integral_cls (xc a))) in *. set (ct := integral_cls (acc_integral_cls t)) in *.
  assert (Any : forall kw, exists cp, represent_as m deg (4 + f) kw (finite P) cs = Ok false (finite cp) /\
     cls_of cp = cs /\ valid cp /\ (forall pt, denotes P pt <-> denotes cp pt)) by (intros; now apply HP).
  (* the Jacobian only depends on the point *)
  assert (J : forall cp, cls_of cp = cs -> valid cp -> (forall pt, denotes P pt <-> denotes cp pt) ->
    exists cols q x, jacobian deg (4 + f) nokw (finite (uncast cp)) ct = Ok false cols /\
      matvec 3 cols (map (@Some R) (xcomps a)) = map (@Some R) x /\ length x = 3%nat /\ cls_of q = ct /\ valid q /\
      (forall pt, denotes P pt <-> denotes q pt) /\
      vel_at q x = vel_at (uncast cp) (xcomps a)).
  { intros cp Ccp Vcp Ecp. set (p := uncast cp).
    assert (Vp : valid p) by now apply uncast_valid.
    assert (Cp : cls_of p = cs) by (unfold p; now rewrite uncast_cls).
    assert (Ep : forall pt, denotes P pt <-> denotes p pt) by (intros; unfold p; now rewrite uncast_pt, Ecp).
    assert (Op : off_axis p) by (eapply off_axis_pt; eauto).
    assert (P3 : plain3 (cls_of p)) by now rewrite Cp.
    assert (N3 : dim_of (cls_of p) = 3%nat) by (destruct p; cbn in P3; try contradiction; reflexivity).
    assert (PD : pt_dim p = 3%nat) by (destruct p; cbn in P3; try contradiction; reflexivity).
    destruct (rep3_total Traced deg f nokw p ct) as (q & K1 & K2 & K3 & K4 & _);
      auto; [apply uncast_len|now apply off_axis_origin|].
    assert (P3q : plain3 (cls_of q)) by now rewrite K2.
    assert (N3q : dim_of (cls_of q) = 3%nat) by (destruct q; cbn in P3q; try contradiction; reflexivity).
    assert (PDq : pt_dim q = 3%nat) by (destruct q; cbn in P3q; try contradiction; reflexivity).
    destruct (jac_push deg (4+f) nokw p q ct 3 (vel_at p) vel_at) with (v := xcomps a)
      as (cols & x & J1 & J2 & J3 & J4); auto; rewrite ?N3; auto.
    - now rewrite <- K2.
    - intros u Lu.
      destruct (represent_as_dual deg f (kw_map dconst nokw) p u ct) as (q' & u' & R1 & R2 & R3 & R4 & R5 & R6 & R7); auto.
      { apply uncast_len. } exists q', u'. auto.
    - pose proof (vel_at_linear p (plain3_not_prolate _ P3)) as LL. rewrite N3, PD in LL. exact LL.
    - pose proof (vel_at_linear q (plain3_not_prolate _ P3q)) as LL. rewrite N3q, PDq in LL. exact LL.
    - rewrite N3 in J2, J3. exists cols, q, x. repeat split; auto. intros; apply K4, Ep; auto. intros; apply Ep, K4; auto. }
  destruct (Any nokw) as (cp0 & H1 & H2 & H3 & H4).
  destruct (J cp0 H2 H3 H4) as (cols0 & q0 & x0 & J1 & J2 & J3 & J4 & J5 & J6 & J7).
  exists (mkAcc t x0). cbn [xc xcomps]. split; [auto|]. split; [auto|].
  assert (Spec : forall p q, valid p -> valid q -> denotes p pt -> denotes q pt -> cls_of p = cs -> cls_of q = ct ->
      vel_at q x0 = vel_at p (xcomps a)).
  { intros p q Vp Vq Dp Dq Cp Cq.
    assert (D0 : denotes q0 pt) by now apply J6. assert (Dc : denotes (uncast cp0) pt) by (apply uncast_pt, H4, D).
    assert (Oq0 : off_axis q0) by (eapply off_axis_pt; eauto).
    assert (Oc : off_axis (uncast cp0)) by (eapply off_axis_pt; [intros; symmetry; apply uncast_pt|]; eapply off_axis_pt; eauto).
    rewrite <- (vel_at_same q0 q pt), <- (vel_at_same (uncast cp0) p pt); auto; rewrite ?uncast_cls, ?J4, ?H2; auto using uncast_valid. }
  split; [|exact Spec].
  intros kw velocity Pv Lv.
  destruct (Any kw) as (cp & G1 & G2 & G3 & G4).
  destruct (J cp G2 G3 G4) as (cols & q & x & L1 & L2 & L3 & L4 & L5 & L6 & L7).
  (* same result *)
  assert (x = x0).
  { assert (Oq : off_axis q) by (eapply off_axis_pt; eauto). apply (vel_at_inj q); auto. now rewrite L4.
    rewrite L7. symmetry. apply (Spec (uncast cp) q); auto using uncast_valid.
    apply uncast_pt, G4, D. apply L6, D. now rewrite uncast_cls. }
  subst x.
  assert (Ocp : off_axis (uncast cp)) by (eapply off_axis_pt; [intros; symmetry; apply uncast_pt|]; eapply off_axis_pt; eauto).
  destruct (vel_plain3 m deg f kw (uncast cp) velocity (acc_integral_cls (xc a)) pt) as (v1 & W1 & _); auto.
  { apply rep_ok_plain3; auto using uncast_valid, uncast_nonneg. now rewrite uncast_cls, G2. }
  { apply uncast_pt, G4, D. }
  unfold acc_represent_as. cbn [xc afinite xcomps].
  fold cs ct. rewrite G1, bind_ok.
  rewrite (cast_ok m cp G3) by (rewrite G2; now apply plain3_not_prolate). rewrite !bind_ok.
  rewrite W1, bind_ok, can_map_ok, bind_ok, L1, bind_ok by (now apply plain3_not_prolate).
  assert (Vt : vdim (acc_integral_cls t) = 3%nat) by (unfold vdim; fold ct; destruct ct; cbn in Pt; try contradiction; reflexivity).
  assert (Va : vdim (acc_integral_cls (xc a)) = 3%nat) by (unfold vdim; fold cs; destruct cs; cbn in Pa; try contradiction; reflexivity).
  rewrite Va, Vt. cbn [Nat.eqb negb]. rewrite andb_false_r.
  change (afinite (mkAcc t x0)) with (mkAcc (A:=ext) t (map (@Some R) x0)).
  assert (L2' : matvec 3 cols (map (@Some R) (xcomps a)) = map (@Some R) x0) by exact L2.
  unfold cs, ct in *. 
  destruct (xc a); cbn in Pa; try contradiction; destruct t; cbn in Pt; try contradiction; cbn [acc_integral_cls]; unfold ret; f_equal; f_equal; exact L2'.
Qed.

(** Accelerations in prolate coordinates are never returned. *)
Lemma acc_prolate_raises m deg f kw a t velocity position :
  xc a = XProlate \/ t = XProlate ->
  exists e, acc_represent_as m deg f kw a t velocity position = Raise e.
Proof.
  intros H. unfold acc_represent_as.
  destruct (negb _); [eauto|].
  assert (xcls_eqb (xc a) t && Nat.eqb (vdim (acc_integral_cls (xc a))) 1 = false) as ->.
  { destruct H as [-> | ->]. cbn [acc_integral_cls vdim integral_cls dim_of Nat.eqb]. apply andb_false_r.
    unfold xcls_eqb. destruct (xc a); reflexivity. }
  destruct (represent_as _ _ _ _ _ _) as [w x|e]; [|cbn; eauto]. cbn [bind].
  destruct (cast_distance m x) as [w2 x2|e]; [|cbn; eauto]. cbn [bind].
  destruct (vel_represent_as _ _ _ _ _ _ _) as [w3 x3|e]; [|cbn; eauto]. cbn [bind].
  destruct H as [-> | ->]; cbn [acc_integral_cls integral_cls can_map]; [cbn; eauto|].
  destruct (can_map _) as [w4 x4|e]; [|cbn; eauto]. cbn [bind].
  destruct (jacobian _ _ _ _ _) as [w5 x5|e]; cbn; eauto.
Qed.

(** 2-D *)
Definition aplain2 (c : xcls) : Prop := plain2 (integral_cls (acc_integral_cls c)).
Lemma acc_jac2 m deg f P a t pt : valid P -> plain2 (cls_of P) -> denotes P pt -> pt <> [0;0] ->
  aplain2 (xc a) -> aplain2 t -> length (xcomps a) = 2%nat ->
  exists a', xc a' = t /\ length (xcomps a') = 2%nat /\
    (forall kw velocity, vplain2 (vc velocity) -> length (vcomps velocity) = 2%nat ->
       acc_represent_as m deg (1 + f) kw (afinite a) t (vfinite velocity) (finite P) = Ok false (afinite a')) /\
    forall p q, valid p -> valid q -> denotes p pt -> denotes q pt ->
      cls_of p = integral_cls (acc_integral_cls (xc a)) -> cls_of q = integral_cls (acc_integral_cls t) ->
      vel_at q (xcomps a') = vel_at p (xcomps a).
Proof.
  intros VP PP D O Pa Pt La. unfold aplain2 in *.
  set (cs := integral_cls (acc_integral_cls (xc a))) in *. set (ct := integral_cls (acc_integral_cls t)) in *.
  assert (Any : forall kw, exists cp, represent_as m deg (1 + f) kw (finite P) cs = Ok false (finite cp) /\
     cls_of cp = cs /\ valid cp /\ (forall pt, denotes P pt <-> denotes cp pt)).
  { intros kw. destruct (represent_as_plain2 m deg f kw P cs VP PP Pa) as (cp & K1 & K2 & K3 & K4 & _). eauto 10. }
  assert (J : forall cp, cls_of cp = cs -> valid cp -> (forall pt, denotes P pt <-> denotes cp pt) ->
    exists cols q x, jacobian deg (1 + f) nokw (finite (uncast cp)) ct = Ok false cols /\
      matvec 2 cols (map (@Some R) (xcomps a)) = map (@Some R) x /\ length x = 2%nat /\ cls_of q = ct /\ valid q /\
      (forall pt, denotes P pt <-> denotes q pt) /\
      vel_at q x = vel_at (uncast cp) (xcomps a)).
  { intros cp Ccp Vcp Ecp. set (p := uncast cp).
    assert (Vp : valid p) by now apply uncast_valid.
    assert (Cp : cls_of p = cs) by (unfold p; now rewrite uncast_cls).
    assert (Ep : forall pt, denotes P pt <-> denotes p pt) by (intros; unfold p; now rewrite uncast_pt, Ecp).
    assert (P2 : plain2 (cls_of p)) by now rewrite Cp.
    assert (N2 : dim_of (cls_of p) = 2%nat) by (destruct p; cbn in P2; try contradiction; reflexivity).
    assert (PD : pt_dim p = 2%nat) by (destruct p; cbn in P2; try contradiction; reflexivity).
    assert (NPp : cls_of p <> CProlate) by (destruct p; cbn in P2; try contradiction; cbn; congruence).
    destruct (represent_as_plain2 Traced deg f nokw p ct) as (q & K1 & K2 & K3 & K4 & _); auto.
    assert (P2q : plain2 (cls_of q)) by now rewrite K2.
    assert (N2q : dim_of (cls_of q) = 2%nat) by (destruct q; cbn in P2q; try contradiction; reflexivity).
    assert (PDq : pt_dim q = 2%nat) by (destruct q; cbn in P2q; try contradiction; reflexivity).
    assert (NPq : cls_of q <> CProlate) by (destruct q; cbn in P2q; try contradiction; cbn; congruence).
    destruct (jac_push deg (1+f) nokw p q ct 2 (vel_at p) vel_at) with (v := xcomps a)
      as (cols & x & J1 & J2 & J3 & J4); auto; rewrite ?N2; auto.
    - now rewrite <- K2.
    - intros u Lu.
      destruct (dual2 deg f (kw_map dconst nokw) p u ct) as (q' & u' & R1 & R2 & R3 & R4); auto.
      { apply uncast_len. }
      { rewrite <- Ep. intros D'. apply O. apply denotes_cart_at in D, D'.
        congruence. all: destruct P; cbn in PP; try contradiction; cbn; congruence. }
      exists q', u'. auto.
    - pose proof (vel_at_linear p NPp) as LL. rewrite N2, PD in LL. exact LL.
    - pose proof (vel_at_linear q NPq) as LL. rewrite N2q, PDq in LL. exact LL.
    - rewrite N2 in J2, J3. exists cols, q, x. repeat split; auto. intros; apply K4, Ep; auto. intros; apply Ep, K4; auto. }
  destruct (Any nokw) as (cp0 & H1 & H2 & H3 & H4).
  destruct (J cp0 H2 H3 H4) as (cols0 & q0 & x0 & J1 & J2 & J3 & J4 & J5 & J6 & J7).
  exists (mkAcc t x0). cbn [xc xcomps]. split; [auto|]. split; [auto|].
  assert (Spec : forall p q, valid p -> valid q -> denotes p pt -> denotes q pt -> cls_of p = cs -> cls_of q = ct ->
      vel_at q x0 = vel_at p (xcomps a)).
  { intros p q Vp Vq Dp Dq Cp Cq.
    assert (D0 : denotes q0 pt) by now apply J6. assert (Dc : denotes (uncast cp0) pt) by (apply uncast_pt, H4, D).
    rewrite <- (vel_at_same2 q0 q pt), <- (vel_at_same2 (uncast cp0) p pt); auto; rewrite ?uncast_cls, ?J4, ?H2; auto using uncast_valid. }
  split; [|exact Spec].
  intros kw velocity Pv Lv.
  destruct (Any kw) as (cp & G1 & G2 & G3 & G4).
  destruct (J cp G2 G3 G4) as (cols & q & x & L1 & L2 & L3 & L4 & L5 & L6 & L7).
  assert (x = x0).
  { apply (vel_at_inj2 q _ _ pt); auto. now rewrite L4. apply L6, D.
    rewrite L7. symmetry. apply (Spec (uncast cp) q); auto using uncast_valid.
    apply uncast_pt, G4, D. apply L6, D. now rewrite uncast_cls. }
  subst x.
  destruct (vel_plain2 m deg f kw (uncast cp) velocity (acc_integral_cls (xc a)) pt) as (v1 & W1 & _); auto using uncast_valid.
  { now rewrite uncast_cls, G2. }
  { apply uncast_pt, G4, D. }
  unfold acc_represent_as. cbn [xc afinite xcomps].
  fold cs ct. rewrite G1, bind_ok.
  rewrite (cast_ok m cp G3) by (rewrite G2; destruct cs; cbn in Pa; try contradiction; congruence). rewrite !bind_ok.
  rewrite W1, bind_ok, can_map_ok, bind_ok, L1, bind_ok by (destruct cs; cbn in Pa; try contradiction; discriminate).
  assert (Vt : vdim (acc_integral_cls t) = 2%nat) by (unfold vdim; fold ct; destruct ct; cbn in Pt; try contradiction; reflexivity).
  assert (Va : vdim (acc_integral_cls (xc a)) = 2%nat) by (unfold vdim; fold cs; destruct cs; cbn in Pa; try contradiction; reflexivity).
  rewrite Va, Vt. cbn [Nat.eqb negb]. rewrite andb_false_r.
  change (afinite (mkAcc t x0)) with (mkAcc (A:=ext) t (map (@Some R) x0)).
  unfold cs, ct in *. 
  destruct (xc a); cbn in Pa; try contradiction; destruct t; cbn in Pt; try contradiction; cbn [acc_integral_cls]; unfold ret; f_equal; f_equal; exact L2.
Qed.
