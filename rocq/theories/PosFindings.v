(** * Counter-examples about positions (proofs; statements in PropPos.v). *)
From Coq Require Import Reals Bool List ZArith Lra Lia.
From Verif Require Import Num Vectors Spec Transform Pos3D Pos3DThm FromThm PosLow Prolate Dispatch Range RoundTrip Embed ProlateThm PosGlue.
Import ListNotations.
Open Scope R_scope.

Lemma cyl_radial_finding m deg f kw rho phi z : 0 <= rho -> z <> 0 ->
  exists q, represent_as m deg (S f) kw (finite (PCyl rho phi z)) CRadial = Ok true (finite q) /\
    forall pt, denotes (PCyl rho phi z) pt -> ~ denotes q [norm_of pt].
Proof.
  intros H N. rewrite rep_Cyl_Radial by auto. eexists; split; [reflexivity|].
  intros pt D E. cbn in D, E. subst pt. inversion E as [E1]. unfold len in E1; cbn [dk dval] in E1.
  rewrite norm3 in E1. pose proof (sin2_cos2 phi) as S. unfold Rsqr in S.
  assert (Q : rho * cos phi * (rho * cos phi) + rho * sin phi * (rho * sin phi) + z * z = rho*rho + z*z).
  { transitivity (rho*rho*(sin phi * sin phi + cos phi*cos phi) + z*z); [ring|]. rewrite S. ring. }
  rewrite Q in E1. assert (sqrt (rho*rho+z*z) * sqrt (rho*rho+z*z) = rho*rho+z*z) by (apply sqrt_sqrt; nra).
  rewrite E1 in H0. nra.
Qed.

Lemma tan_PI8 : 0 < tan (PI/8) < 1.
Proof.
  pose proof PI_pos. split. apply tan_gt_0; lra. rewrite <- tan_PI4. apply tan_increasing; lra.
Qed.
Lemma parallax_projection_finding m deg f kw :
  exists p q, valid p /\ represent_as m deg (S f) kw (finite p) CPolar = Ok true (finite q) /\
    exists pt pt', denotes p pt /\ project_pt CPolar pt = Some pt' /\ ~ denotes q pt'.
Proof.
  pose proof PI_pos. pose proof tan_PI8 as T8. pose proof AU_pos.
  exists (PSph (mkDist KParallax (PI/4)) (PI/6) 0), (PPolar (mkDist KDistance (AU / tan (PI/8))) 0).
  split. { cbn. unfold valid_dist; cbn. lra. }
  split.
  - step. unfold mk_Polar. ered. rewrite sin_PI6. replace (PI/4*(1/2)) with (PI/8) by field.
    assert (0 < cos (PI/8)) by (apply cos_gt_0; lra).
    rewrite etan_some by lra. rewrite ediv_some by lra.
    rewrite nonneg_ok. reflexivity. apply Rlt_le, Rdiv_lt_0_compat; lra.
  - eexists _, _. split; [reflexivity|]. split; [reflexivity|]. cbn. unfold len; cbn [dk dval].
    rewrite tan_PI4, sin_PI6, cos_0, sin_0. intros E. injection E as E _.
    assert (AU / tan (PI/8) > AU).
    { unfold Rdiv. rewrite <- (Rmult_1_r AU) at 2. apply Rmult_gt_compat_l; auto. rewrite <- Rinv_1.
      apply Rinv_lt_contravar; lra. }
    lra.
Qed.
Lemma parallax_projection_unit m deg f kw p theta phi :
  represent_as m deg (S f) kw (finite (PSph (mkDist KParallax p) theta phi)) CCart2 = Raise EUnit.
Proof. step. reflexivity. Qed.

Lemma len_DM_lt v : v < 0 -> len (mkDist KDistMod v) < len (mkDist KDistMod (-v)).
Proof.
  intros H. unfold len; cbn [dk dval]. apply Rmult_lt_compat_l. pose proof PC_pos; lra.
  apply Rpower_lt; lra.
Qed.

(** SphericalPos.from_ with a negative distance modulus (an object nearer than
    10 pc) flips the modulus' sign and moves the point. *)
Lemma from_Sph_DM m deg v theta (phi : ang R) : v < 0 ->
  exists q, from_Sph m deg (RKeep (mkDist KDistMod (Some v : ext))) (Some theta : ext) (fang phi) = Ok false (finite q) /\
  forall pt, denotes q pt -> norm_of pt <> len (mkDist KDistMod v).
Proof.
  intros H. pose proof (from_Sph_eq m deg (mkDist KDistMod v) theta phi) as E.
  pose proof (fold_polar_spec v theta (azR phi)) as S. cbn [dval dk] in E.
  destruct (fold_polar v theta (azR phi)) as [[r' th'] ph']. destruct S as (S1 & _).
  eexists. split; [exact E|]. intros pt D. cbn in D. subst pt.
  assert (L : 0 <= len (mkDist KDistMod r')).
  { apply len_nonneg. exact I. }
  rewrite norm_sph by auto. rewrite S1, Rabs_left by auto. apply Rgt_not_eq. apply (len_DM_lt v H).
Qed.

(** 1-D -> spherical with the default angles puts the point on the polar axis,
    1-D -> Cartesian on the x axis. *)
Lemma default_embedding_finding m deg f x : x <> 0 ->
  exists q c, represent_as m deg (S f) nokw (finite (PCart1 x)) CSph = Ok false (finite q) /\
    represent_as m deg (S f) nokw (finite (PCart1 x)) CCart3 = Ok false (finite c) /\
    denotes q [0; 0; x] /\ denotes c [x; 0; 0].
Proof.
  intros N.
  assert (K : nokw = fkw None None None None None) by reflexivity.
  destruct (embed_Cart1 m deg f None None None None None x CSph _ eq_refl) as [(q&H1&H2&H3&_)|[(H1&H2&H3&[|])|(H1&H2&_)]]; try discriminate.
  - destruct (embed_Cart1 m deg f None None None None None x CCart3 _ eq_refl) as [(c&K1&K2&K3&_)|[(K1&K2&K3&[|])|(K1&[|]&_)]]; try discriminate.
    exists q, c. rewrite K. split; auto. split; auto. cbn in H3, K3. rewrite sin_0, cos_0 in H3. split.
    + replace (x*0*1) with 0 in H3 by ring. replace (x*0*0) with 0 in H3 by ring. now rewrite Rmult_1_r in H3.
    + exact K3.
  - exfalso. cbn in H1. injection H1 as _ _ H1. rewrite cos_0 in H1. lra.
Qed.
