(** * Prolate spheroidal coordinates and the other 3-D classes. *)
From Coq Require Import Reals Bool List ZArith Lra Lia.
From Verif Require Import Num Vectors Spec Transform Pos3D Pos3DThm FromThm PosLow Prolate Dispatch RoundTrip.
Import ListNotations.
Open Scope R_scope.

(** conversions to Cartesian and cylindrical coordinates are total *)
Lemma rep3_total' m deg f kw p t :
  valid p -> plain3 (cls_of p) -> t = CCart3 \/ t = CCyl -> length_radial p ->
  exists q, represent_as m deg (4 + f) kw (finite p) t = Ok false (finite q) /\ cls_of q = t /\ valid q /\
            (forall pt, denotes p pt <-> denotes q pt) /\
            (azimuth_in_range p -> azimuth_in_range q) /\ length_radial q.
Proof.
  intros V P T L.
  assert (PT : plain3 t) by (destruct T; subst; exact I).
  destruct (represent_as_plain3 m deg f kw p t V P PT) as [(q&H1&H2&H3&H4&H5&H6)|[(_&_&N)|(O&q&H1&H2&H3)]].
  - exists q. auto 10.
  - exfalso. eapply valid_length_nonneg; eauto.
  - exfalso. assert (G : exists q', represent_as m deg (4 + f) kw (finite p) t = Ok false (finite q')).
    { cbn [plus]. destruct p; cbn in P; try contradiction; cbn in V, L; destruct T; subst t.
      - eexists. step. change (PCart3 (Some x : ext) (Some y) (Some z)) with (finite (PCart3 x y z)). reflexivity.
      - rewrite rep_Cart3_Cyl. eauto.
      - rewrite rep_Cyl_Cart3. eauto.
      - eexists. step. change (PCyl (Some rho : ext) (Some phi) (Some z)) with (finite (PCyl rho phi z)). reflexivity.
      - rewrite rep_Sph_Cart3 by tauto. eauto.
      - rewrite rep_Sph_Cyl by tauto. eauto.
      - rewrite rep_MSph_Cart3 by tauto. eauto.
      - rewrite rep_MSph_Cyl by tauto. eauto.
      - destruct V as [V1 V2]. rewrite (rep_redispatch m deg _ _ _ _ CSph) by reflexivity.
        rewrite rep_LonLat_Sph by auto. rewrite nonneg_ok by (unfold valid_dist in V1; now rewrite L in V1).
        rewrite bind_ret_l. unfold ret. rewrite bind_ok. rewrite rep_Sph_Cart3 by auto. eauto.
      - destruct V as [V1 V2]. rewrite (rep_redispatch m deg _ _ _ _ CSph) by reflexivity.
        rewrite rep_LonLat_Sph by auto. rewrite nonneg_ok by (unfold valid_dist in V1; now rewrite L in V1).
        rewrite bind_ret_l. unfold ret. rewrite bind_ok. rewrite rep_Sph_Cyl; eauto. lra. }
    destruct G as [q' G]. rewrite G in H1. inversion H1; subst q. eapply H2. reflexivity.
Qed.

Lemma not_focus_cyl Delta rho phi z : not_at_focus Delta (PCyl rho phi z) -> ~ at_focus rho z Delta.
Proof.
  intros N [-> E]. apply (N [0; 0; z]). cbn. now rewrite !Rmult_0_l.
  assert (z = Delta \/ z = - Delta) as [->| ->] by (assert ((z-Delta)*(z+Delta)=0) by nra; apply Rmult_integral in H; lra);
  [left|right]; reflexivity.
Qed.

(** cylindrical -> prolate *)
Lemma cyl_to_prolate m deg f (kw : kwargs ext) rho phi z Delta :
  0 <= rho -> 0 < Delta -> kw_Delta kw = Some (Some Delta) -> not_at_focus Delta (PCyl rho phi z) ->
  exists mu nu, represent_as m deg (S f) kw (finite (PCyl rho phi z)) CProlate
     = Ok false (finite (PProlate mu nu phi Delta)) /\ valid (PProlate mu nu phi Delta) /\
     prolate_point mu nu Delta rho z /\
     (forall pt, denotes (PCyl rho phi z) pt <-> denotes (PProlate mu nu phi Delta) pt).
Proof.
  intros H1 H2 H3 H4. apply not_focus_cyl in H4.
  pose proof (pro_point rho z Delta H1 H2) as PP.
  do 2 eexists. split; [apply rep_Cyl_Prolate; auto|]. split.
  - cbn. split; auto. split. apply pro_mu_range; auto. rewrite pro_nu_abs by auto. apply pro_absnu_range; auto.
  - split; auto. intros pt. cbn [denotes]. split.
    + intros ->. exists rho, z. auto.
    + intros (R0 & z0 & P0 & ->). destruct (prolate_point_unique _ _ _ _ _ _ _ H2 PP P0) as [-> ->]. reflexivity.
Qed.

(** any 3-D class -> prolate *)
Lemma any_to_prolate m deg f (kw : kwargs ext) p Delta :
  valid p -> plain3 (cls_of p) -> length_radial p -> 0 < Delta -> kw_Delta kw = Some (Some Delta) ->
  not_at_focus Delta p ->
  exists q, represent_as m deg (5 + f) kw (finite p) CProlate = Ok false (finite q) /\
    cls_of q = CProlate /\ valid q /\ focal_length q = Some Delta /\ azimuth q <> None /\
    (azimuth_in_range p -> azimuth_in_range q) /\
    (forall pt, denotes p pt <-> denotes q pt).
Proof.
  intros V P L D K N.
  destruct (rep3_total' m deg f nokw p CCyl V P (or_intror eq_refl) L) as (c & H1 & H2 & H3 & H4 & H5 & H6).
  destruct c; try discriminate H2. cbn in H3.
  assert (Nc : not_at_focus Delta (PCyl rho phi z)). { intros pt Dn. apply N. now apply H4. }
  assert (Via : forall kw', kw_Delta kw' = Some (Some Delta : ext) ->
    exists mu nu, represent_as m deg (4 + f) kw' (finite (PCyl rho phi z)) CProlate
     = Ok false (finite (PProlate mu nu phi Delta)) /\ valid (PProlate mu nu phi Delta) /\
     prolate_point mu nu Delta rho z /\
     (forall pt, denotes (PCyl rho phi z) pt <-> denotes (PProlate mu nu phi Delta) pt)).
  { intros kw' K'. cbn [plus]. apply cyl_to_prolate; auto. }
  destruct (cls_of p) eqn:C; try contradiction P.
  2: { destruct p; try discriminate C. cbn in V.
       destruct (cyl_to_prolate m deg (4+f) kw rho0 phi0 z0 Delta V D K N) as (mu & nu & K1 & K2 & K3 & K4).
       exists (PProlate mu nu phi0 Delta). split; [exact K1|]. cbn in K2. cbn. repeat split; try tauto; try discriminate;
       intros; apply K4; auto. }
  all: destruct (Via (kw_Delta_only (A:=ext) (Some Delta)) eq_refl) as (mu & nu & K1 & K2 & K3 & K4);
    exists (PProlate mu nu phi Delta); split;
    [ cbn [plus] in *; destruct p; try discriminate C; step; rewrite K; cbn [finite pos_map] in H1; rewrite H1, bind_ok; exact K1
    | split; [reflexivity|]; split; [exact K2|]; split; [reflexivity|]; split; [discriminate|]; split;
      [ intros A; specialize (H5 A); exact H5 | intros pt; rewrite H4; apply K4 ] ].
Qed.

(** prolate -> any 3-D class *)
Lemma prolate_to_any m deg f kw mu nu phi Delta t :
  valid (PProlate mu nu phi Delta) -> plain3 t -> ~ at_origin (PProlate mu nu phi Delta) ->
  exists q, represent_as m deg (5 + f) kw (finite (PProlate mu nu phi Delta)) t = Ok false (finite q) /\
    cls_of q = t /\ valid q /\ length_radial q /\
    (forall pt, denotes (PProlate mu nu phi Delta) pt <-> denotes q pt).
Proof.
  intros (V1 & V2 & V3) P O.
  set (R0 := prolate_R mu nu Delta). set (z0 := prolate_z mu nu Delta).
  pose proof (prolate_Rz_point mu nu Delta V1 V2 V3) as PP. fold R0 z0 in PP.
  assert (EQ : forall pt, denotes (PProlate mu nu phi Delta) pt <-> denotes (PCyl R0 phi z0) pt).
  { intros pt. cbn [denotes]. split.
    - intros (a & b & P0 & ->). destruct (prolate_point_unique _ _ _ _ _ _ _ V1 PP P0) as [-> ->]. reflexivity.
    - intros ->. exists R0, z0. auto. }
  assert (R0p : 0 <= R0) by apply sqrt_pos.
  assert (G : exists q, represent_as m deg (4 + f) nokw (finite (PCyl R0 phi z0)) t = Ok false (finite q) /\
    cls_of q = t /\ valid q /\ length_radial q /\ (forall pt, denotes (PCyl R0 phi z0) pt <-> denotes q pt)).
  { destruct (rep3_total m deg f nokw (PCyl R0 phi z0) t) as (q & A1 & A2 & A3 & A4 & A5 & A6); cbn; auto.
    - change (~ at_origin (PCyl R0 phi z0)); unfold at_origin. rewrite <- EQ. exact O.
    - exists q; auto 10. }
  destruct G as (q & A1 & A2 & A3 & A4 & A5).
  exists q. repeat split; auto.
  2: { intros D. apply A5, EQ, D. } 2: { intros D. apply EQ, A5, D. }
  cbn [plus].
  assert (C1 : represent_as m deg (S (S (S (S f)))) nokw (finite (PProlate mu nu phi Delta)) CCyl = Ok false (finite (PCyl R0 phi z0))).
  { apply rep_Prolate_Cyl; auto. }
  destruct t; try contradiction P.
  1,3,4,5: step; cbn [finite pos_map] in C1; rewrite C1, bind_ok; exact A1.
  rewrite rep_Prolate_Cyl by auto. fold R0 z0. rewrite <- A1. cbn [plus]. symmetry. step. reflexivity.
Qed.

(** prolate -> prolate *)
Lemma prolate_prolate_same m deg f (kw : kwargs ext) p : cls_of p = CProlate -> kw_Delta kw = None ->
  represent_as m deg (S f) kw p CProlate = Ok false p.
Proof. intros C K. destruct p; try discriminate C. step. rewrite K. reflexivity. Qed.
Lemma prolate_prolate_new m deg f (kw : kwargs ext) mu nu phi D D' :
  valid (PProlate mu nu phi D) -> 0 < D' -> kw_Delta kw = Some (Some D') -> not_at_focus D' (PProlate mu nu phi D) ->
  exists mu' nu', represent_as m deg (S (S f)) kw (finite (PProlate mu nu phi D)) CProlate
     = Ok false (finite (PProlate mu' nu' phi D')) /\ valid (PProlate mu' nu' phi D') /\
     (forall pt, denotes (PProlate mu nu phi D) pt <-> denotes (PProlate mu' nu' phi D') pt).
Proof.
  intros (V1 & V2 & V3) HD K N.
  pose proof (prolate_Rz_point mu nu D V1 V2 V3) as PP.
  assert (EQ : forall pt, denotes (PProlate mu nu phi D) pt <-> denotes (PCyl (prolate_R mu nu D) phi (prolate_z mu nu D)) pt).
  { intros pt. cbn [denotes]. split.
    - intros (a & b & P0 & ->). destruct (prolate_point_unique _ _ _ _ _ _ _ V1 PP P0) as [-> ->]. reflexivity.
    - intros ->. eauto. }
  destruct (cyl_to_prolate m deg f (kw_Delta_only (A:=ext) (Some D')) (prolate_R mu nu D) phi (prolate_z mu nu D) D') as (mu' & nu' & K1 & K2 & _ & K4);
    auto. apply sqrt_pos. { intros pt A. apply N. now apply EQ. }
  exists mu', nu'. split; [|split; auto].
  - step. rewrite K.
    assert (C1 : represent_as m deg (S f) nokw (finite (PProlate mu nu phi D)) CCyl = Ok false (finite (PCyl (prolate_R mu nu D) phi (prolate_z mu nu D)))).
    { apply rep_Prolate_Cyl; auto. }
    cbn [finite pos_map] in C1. rewrite C1, bind_ok. exact K1.
  - intros pt. rewrite EQ. apply K4.
Qed.

(** a missing Delta is reported *)
Lemma prolate_needs_Delta m deg f (kw : kwargs ext) p : kw_Delta kw = None ->
  dim_of (cls_of p) = 3%nat -> cls_of p <> CProlate ->
  represent_as m deg (S f) kw p CProlate = Raise EMissingDelta.
Proof. intros K D N. destruct p; try discriminate D; try (cbn in N; congruence); step; rewrite K; reflexivity. Qed.

(** cylindrical -> prolate -> cylindrical *)
Lemma cyl_prolate_cyl m deg f (kw : kwargs ext) kw' rho phi z Delta :
  0 <= rho -> 0 < Delta -> kw_Delta kw = Some (Some Delta) -> not_at_focus Delta (PCyl rho phi z) ->
  exists q, represent_as m deg (S f) kw (finite (PCyl rho phi z)) CProlate = Ok false (finite q) /\
    represent_as m deg (S f) kw' (finite q) CCyl = Ok false (finite (PCyl rho phi z)).
Proof.
  intros H1 H2 H3 H4. destruct (cyl_to_prolate m deg f kw rho phi z Delta H1 H2 H3 H4) as (mu & nu & K1 & (V1&V2&V3) & K3 & _).
  eexists. split; [exact K1|]. rewrite rep_Prolate_Cyl by auto.
  destruct (prolate_point_unique mu nu Delta (prolate_R mu nu Delta) (prolate_z mu nu Delta) rho z) as [-> ->]; auto.
  apply prolate_Rz_point; auto.
Qed.
(** prolate -> cylindrical -> prolate *)
Lemma prolate_cyl_prolate m deg f (kw : kwargs ext) kw' mu nu phi Delta :
  valid (PProlate mu nu phi Delta) -> kw_Delta kw = Some (Some Delta) ->
  not_at_focus Delta (PProlate mu nu phi Delta) ->
  exists q, represent_as m deg (S f) kw' (finite (PProlate mu nu phi Delta)) CCyl = Ok false (finite q) /\
    represent_as m deg (S f) kw (finite q) CProlate = Ok false (finite (PProlate mu nu phi Delta)).
Proof.
  intros (V1 & V2 & V3) K N. set (R0 := prolate_R mu nu Delta). set (z0 := prolate_z mu nu Delta).
  pose proof (prolate_Rz_point mu nu Delta V1 V2 V3) as PP. fold R0 z0 in PP.
  exists (PCyl R0 phi z0). split; [apply rep_Prolate_Cyl; auto|].
  destruct (cyl_to_prolate m deg f kw R0 phi z0 Delta) as (mu' & nu' & K1 & (W1 & W2 & W3) & K3 & _); auto.
  apply sqrt_pos. { intros pt D. apply N. cbn in D. subst. exists R0, z0. auto. }
  rewrite K1. repeat f_equal.
  - destruct PP as (_&A1&A2&A3&_), K3 as (_&B1&B2&B3&_). unfold on_confocal in *.
    set (D2 := Delta*Delta) in *. 
    assert (S : mu' + Rabs nu' = mu + Rabs nu) by lra.
    assert (Q1 : mu*mu - mu*(R0*R0+z0*z0+D2) + D2*(z0*z0) = 0) by lra.
    assert (Q2 : mu'*mu' - mu'*(R0*R0+z0*z0+D2) + D2*(z0*z0) = 0) by lra.
    assert (Q : (mu' - mu)*(mu'+mu-(R0*R0+z0*z0+D2)) = 0) by lra.
    apply Rmult_integral in Q. destruct Q as [Q|Q]; [lra|].
    rewrite A3 in Q. assert (mu' = Rabs nu) by lra. lra.
  - destruct PP as (_&A1&A2&A3&A4), K3 as (_&B1&B2&B3&B4). unfold on_confocal in *.
    set (D2 := Delta*Delta) in *. 
    assert (S : mu' + Rabs nu' = mu + Rabs nu) by lra.
    assert (Q : (mu' - mu)*(mu'+mu-(R0*R0+z0*z0+D2)) = 0) by lra.
    assert (mu' = mu).
    { apply Rmult_integral in Q. destruct Q as [Q|Q]; [lra|]. rewrite A3 in Q. lra. }
    assert (AN : Rabs nu' = Rabs nu) by lra. rewrite A4 in B4.
    rewrite <- (Rsign_mul_abs nu'), <- (Rsign_mul_abs nu), AN, B4. reflexivity.
Qed.
