(** * Change of representation of velocities in one and two dimensions. *)
From Coq Require Import Reals Bool List ZArith Lra Lia.
From Verif Require Import Num Vectors Spec Transform Pos3D Pos3DThm PosLow RoundTrip PosGlue Vel SpecVel VelAt DualPos DualThm VelHom VelPush VelThm.
Import ListNotations.
Open Scope R_scope.

Lemma list2_eq (a b a' b' : R) : a = a' -> b = b' -> [a;b] = [a';b'].
Proof. congruence. Qed.
Lemma list2_inj (a b a' b' : R) : [a;b] = [a';b'] -> a = a' /\ b = b'.
Proof. intros H; inversion H; auto. Qed.

Section D.
Variables (deg : bool) (f : nat) (kw : kwargs dual).
Notation rep := (represent_as Traced deg (S f) kw).
Lemma d_Cart2_Polar x y a b : x*x+y*y <> 0 ->
  rep (dpos (PCart2 x y) [a;b]) CPolar
  = Ok false (dpos (PPolar (Dist (sqrt (x*x+y*y))) (Rwrap (Ratan2 y x)))
      [ (a*x + x*a + (b*y + y*b)) * ((1/2) / sqrt (x*x+y*y));
        b * (x/(y*y+x*x)) - a * (y/(y*y+x*x)) ]).
Proof.
  intros H. dstep. unfold mk_Polar. dred.
  rewrite !esqrt_some by apply hyp2_nonneg.
  rewrite !ediv_some by (try apply sqrt_ne0; try apply hyp2_nonneg; lra). reflexivity.
Qed.
Lemma d_Polar_Cart2 r phi a b :
  rep (dpos (PPolar (Dist r) phi) [a;b]) CCart2
  = Ok false (dpos (PCart2 (r * cos phi) (r * sin phi))
      [ a * cos phi + r * - (b * sin phi); a * sin phi + r * (b * cos phi)]).
Proof. dstep. reflexivity. Qed.
Lemma d_self2 p u : plain2 (cls_of p) -> rep (dpos p u) (cls_of p) = Ok false (dpos p u).
Proof. destruct p; cbn [plain2 cls_of]; intros H; try contradiction; dstep; reflexivity. Qed.

Lemma dual2 p u t : valid p -> length_radial p -> ~ denotes p [0;0] -> length u = 2%nat ->
  plain2 (cls_of p) -> plain2 t ->
  exists q u', rep (dpos p u) t = Ok false (dpos q u') /\ cls_of q = t /\ length u' = 2%nat /\
    vel_at q u' = vel_at p u.
Proof.
  intros V L O Hu P Pt. 
  destruct (pcls_eqb (cls_of p) t) eqn:Et.
  { assert (cls_of p = t) as <- by (destruct (cls_of p), t; try discriminate; reflexivity).
    rewrite d_self2 by auto. exists p, u. auto. }
  destruct u as [|a [|b [|]]]; try discriminate.
  destruct p; cbn in P; try contradiction; destruct t; cbn in Pt; try contradiction; try discriminate Et.
  - assert (H : x*x+y*y <> 0).
    { intros E. apply O. cbn. assert (x = 0) by nra. assert (y = 0) by nra. now subst. }
    rewrite d_Cart2_Polar by auto.
    destruct (atan2_CS x y H) as (R0 & R1 & R2 & R3).
    do 2 eexists. split; [reflexivity|]. split; [reflexivity|]. split; [reflexivity|].
    set (ph := Rwrap (Ratan2 y x)) in *. set (rho := sqrt (x*x+y*y)) in *.
    cbn [vel_at Dist len dk dval]. unfold Dist, len; cbn [dk dval]. rewrite R1, R2.
    destruct (azim_tangent rho (cos ph) (sin ph) a b) as [T1 T2]; [lra|apply cs1|].
    cbv zeta in T1, T2. rewrite R1, R2 in T1, T2. apply list2_eq; auto.
  - cbn in L. rewrite (length_radial_dist r L), d_Polar_Cart2. do 2 eexists. split; [reflexivity|].
    split; [reflexivity|]. split; [reflexivity|]. cbn. unfold len; cbn. apply list2_eq; ring.
Qed.
End D.

Lemma vel_at_same2 p p' pt u : plain2 (cls_of p) -> cls_of p' = cls_of p -> valid p -> valid p' ->
  pt <> [0;0] -> denotes p pt -> denotes p' pt -> vel_at p u = vel_at p' u.
Proof.
  intros P C V V' O D D'. destruct p; cbn in P; try contradiction; destruct p'; try discriminate C; cbn in D, D'.
  - subst pt. apply list2_inj in D'. destruct D' as [-> ->]. reflexivity.
  - subst pt. apply list2_inj in D'. destruct D' as [E1 E2]. cbn in V, V'.
    pose proof (len_nonneg _ V). pose proof (len_nonneg _ V').
    pose proof (cs1 phi). pose proof (cs1 phi0).
    assert (Q : len r * len r = len r0 * len r0).
    { transitivity ((len r * cos phi) * (len r * cos phi) + (len r * sin phi) * (len r * sin phi)).
      transitivity (len r * len r * (cos phi * cos phi + sin phi * sin phi)). rewrite H1; ring. ring.
      rewrite E1, E2. transitivity (len r0 * len r0 * (cos phi0 * cos phi0 + sin phi0 * sin phi0)). ring. rewrite H2; ring. }
    assert (Q' : len r = len r0) by nra.
    assert (len r <> 0). { intros E. apply O. rewrite E. now rewrite !Rmult_0_l. }
    rewrite <- Q' in *. assert (cos phi = cos phi0) as Ec by nra. assert (sin phi = sin phi0) as Es by nra.
    destruct u as [|a [|b [|]]]; cbn; auto. rewrite Q', Ec, Es. reflexivity.
Qed.

Definition vplain2 (c : vcls) : Prop := plain2 (integral_cls c).

Theorem vel_plain2 m deg f kw P v t pt :
  valid P -> plain2 (cls_of P) -> denotes P pt -> pt <> [0;0] ->
  vplain2 (vc v) -> vplain2 t -> length (vcomps v) = 2%nat ->
  exists v', vel_represent_as m deg (1 + f) kw (vfinite v) t (finite P) = Ok false (vfinite v') /\
    vc v' = t /\ length (vcomps v') = 2%nat /\
    forall p q, valid p -> valid q -> denotes p pt -> denotes q pt ->
      cls_of p = integral_cls (vc v) -> cls_of q = integral_cls t ->
      vel_at q (vcomps v') = vel_at p (vcomps v).
Proof.
  intros V PP D O Pv Pt L. change (1 + f)%nat with (S f). unfold vel_represent_as. cbn [vc vfinite].
  destruct (vcls_eqb (vc v) t) eqn:Eself.
  { assert (vc v = t) as Et by (destruct (vc v), t; try discriminate Eself; reflexivity). subst t.
    exists v. split; [|split; [auto|split; [auto|]]].
    - unfold vplain2 in Pt. destruct (vc v); cbn in Pt; try contradiction; reflexivity.
    - intros p q Vp Vq Dp Dq Cp Cq. apply (vel_at_same2 q p pt); auto; try congruence. rewrite Cq; exact Pv. }
  assert (G : exists v', vel_generic m deg (S f) kw (vfinite v) t (finite P) = Ok false (vfinite v') /\
    vc v' = t /\ length (vcomps v') = 2%nat /\
    forall p q, valid p -> valid q -> denotes p pt -> denotes q pt ->
      cls_of p = integral_cls (vc v) -> cls_of q = integral_cls t ->
      vel_at q (vcomps v') = vel_at p (vcomps v)).
  2:{ destruct G as (v' & G1 & G2). exists v'. split; auto. rewrite <- G1.
      unfold vplain2 in *. destruct (vc v); cbn in Pv; try contradiction; destruct t; cbn in Pt; try contradiction;
      try discriminate Eself; reflexivity. }
  destruct (represent_as_plain2 m deg f kw P (integral_cls (vc v)) V PP Pv) as (cp & H1 & H2 & H3 & H4 & _).
  set (p0 := uncast cp).
  assert (Vp : valid p0) by now apply uncast_valid.
  assert (Cp : cls_of p0 = integral_cls (vc v)) by (unfold p0; now rewrite uncast_cls).
  assert (Ep : forall x, denotes P x <-> denotes p0 x) by (intros x; unfold p0; now rewrite uncast_pt, H4).
  assert (P2 : plain2 (cls_of p0)) by now rewrite Cp.
  assert (N2 : dim_of (cls_of p0) = 2%nat) by (destruct p0; cbn in P2; try contradiction; reflexivity).
  destruct (represent_as_plain2 Traced deg f kw p0 (integral_cls t)) as (q0 & K1 & K2 & K3 & K4 & _); auto.
  assert (P2q : plain2 (cls_of q0)) by now rewrite K2.
  assert (N2q : dim_of (cls_of q0) = 2%nat) by (destruct q0; cbn in P2q; try contradiction; reflexivity).
  assert (NPp : cls_of p0 <> CProlate) by (destruct p0; cbn in P2; try contradiction; cbn; congruence).
  assert (NPq : cls_of q0 <> CProlate) by (destruct q0; cbn in P2q; try contradiction; cbn; congruence).
  destruct (jac_push deg (S f) kw p0 q0 (integral_cls t) 2 (vel_at p0) vel_at) with (v := vcomps v)
    as (cols & v' & J1 & J2 & J3 & J4); auto; rewrite ?N2; auto.
  - congruence.
  - intros u Lu.
    destruct (dual2 deg f (kw_map dconst kw) p0 u (integral_cls t)) as (q' & u' & R1 & R2 & R3 & R4); auto using uncast_len.
    { apply uncast_len. } { rewrite <- Ep. intros D'. apply O. apply denotes_cart_at in D, D'.
      congruence. all: destruct P; cbn in PP; try contradiction; cbn; congruence. }
    exists q', u'. auto.
  - assert (E : pt_dim p0 = 2%nat) by (destruct p0; cbn in P2; try contradiction; reflexivity).
    pose proof (vel_at_linear p0 NPp) as LL. rewrite N2, E in LL. exact LL.
  - assert (E : pt_dim q0 = 2%nat) by (destruct q0; cbn in P2q; try contradiction; reflexivity).
    pose proof (vel_at_linear q0 NPq) as LL. rewrite N2q, E in LL. exact LL.
  - rewrite N2 in J2, J3. exists (mkVel t v'). split; [|split; [auto|split; [auto|]]].
    + unfold vel_generic. cbn [vc vfinite]. rewrite H1, bind_ok.
      assert (N : cls_of cp <> CProlate) by (rewrite H2, <- Cp; auto).
      rewrite (cast_ok m cp H3 N), bind_ok. rewrite H2 in N. rewrite (can_map_ok _ N), bind_ok. fold p0. rewrite J1, bind_ok. unfold ret, vfinite. cbn [vc vcomps].
      f_equal. f_equal. replace (vdim t) with 2%nat. exact J2.
      unfold vdim, vplain2 in *. destruct (integral_cls t); cbn in Pt; try contradiction; reflexivity.
    + intros p q Vp' Vq Dp Dq Cp' Cq. cbn [vcomps].
      rewrite <- (vel_at_same2 q0 q pt), <- (vel_at_same2 p0 p pt); auto; try congruence.
      now apply Ep. apply K4. now apply Ep.
Qed.

(** ** One dimension *)
Lemma vel_1d m deg f kw P v t x : valid P -> one_d (cls_of P) -> denotes P [x] -> 0 <= x ->
  one_d (integral_cls (vc v)) -> one_d (integral_cls t) -> length (vcomps v) = 1%nat ->
  vel_represent_as m deg (1 + f) kw (vfinite v) t (finite P) = Ok false (vfinite (mkVel t (vcomps v))).
Proof.
  intros V PP D Hx Pv Pt L. unfold vel_represent_as. cbn [vc vfinite].
  destruct v as [cv xs]; cbn [vc vcomps] in *. destruct xs as [|a [|]]; try discriminate L.
  destruct (vcls_eqb cv t) eqn:Eself.
  { assert (cv = t) as -> by (destruct cv, t; try discriminate Eself; reflexivity).
    destruct t; cbn in Pt; try contradiction; reflexivity. }
  assert (HR : cv = WRadial \/ cv = WCart1) by (destruct cv; cbn in Pv; try contradiction; auto).
  assert (HT : t = WRadial \/ t = WCart1) by (destruct t; cbn in Pt; try contradiction; auto).
  assert (Len : match P with PRadial r => len r = x | PCart1 y => y = x | _ => True end).
  { destruct P; auto; cbn in D; congruence. }
  destruct HR as [HR|HR], HT as [HT|HT]; subst; try discriminate Eself; cbn [vcls_eqb andb negb vdim Nat.eqb integral_cls dim_of].
  - (* Radial -> Cart1 *)
    assert (Hrep : exists r, represent_as m deg (1+f) kw (finite P) CRadial = Ok false (finite (PRadial r)) /\ valid_dist r).
    { destruct P; cbn in PP; try contradiction; cbn [plus].
      - exists (mkDist KDistance x). subst x0. split; [|exact Hx]. rewrite rep_Cart1_Radial. now rewrite nonneg_ok.
      - exists r. split; [|exact V]. apply rep_1D_self. exact I. }
    destruct Hrep as (r & Hr & Vr).
    unfold vel_generic. cbn [vc vfinite integral_cls]. rewrite Hr, bind_ok, (cast_ok m (PRadial r)), bind_ok by (auto; cbn; congruence). rewrite can_map_ok, bind_ok by discriminate.
    cbn [uncast]. unfold jacobian, jac_column, finite. cbn [pos_map components length seq mapM].
    cbn [plus]. dstep. cbn. unfold vfinite; cbn. unfold ret. do 3 f_equal. f_equal. ring.
  - (* Cart1 -> Radial *)
    assert (Hrep : exists y, represent_as m deg (1+f) kw (finite P) CCart1 = Ok false (finite (PCart1 y))).
    { destruct P; cbn in PP; try contradiction; cbn [plus].
      - exists x0. apply rep_1D_self. exact I.
      - exists (len r). apply rep_Radial_Cart1. exact V. }
    destruct Hrep as (y & Hr).
    unfold vel_generic. cbn [vc vfinite integral_cls]. rewrite Hr, bind_ok, (cast_ok m (PCart1 y)), bind_ok by (cbn; try exact I; congruence). rewrite can_map_ok, bind_ok by discriminate.
    cbn [uncast]. unfold jacobian, jac_column, finite. cbn [pos_map components length seq mapM].
    cbn [plus]. dstep. cbn. unfold vfinite; cbn. unfold ret. do 3 f_equal. f_equal. ring.
Qed.
