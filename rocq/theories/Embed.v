(** * Changing the dimension of a position. *)
From Coq Require Import Reals Bool List ZArith Lra Lia.
From Verif Require Import Num Vectors Spec Transform Pos3D Pos3DThm FromThm PosLow Prolate Dispatch RoundTrip.
Import ListNotations.
Open Scope R_scope.

Section E.
Variables (m : mode) (deg : bool) (f : nat).
Variables (kD ky kz : option R) (kth kph : option (ang R)).
Notation kw := (fkw kD ky kz kth kph).

Lemma from_Sph_ok (d : dist R) theta (phi : ang R) : dk d = KDistance ->
  exists q, from_Sph m deg (RKeep (@dist_map R ext (@Some R) d)) (Some theta : ext) (fang phi) = Ok false (finite q)
    /\ cls_of q = CSph /\ valid q /\ length_radial q /\
    denotes q [dval d * sin theta * cos (angR phi); dval d * sin theta * sin (angR phi); dval d * cos theta].
Proof.
  intros K. pose proof (from_Sph_eq m deg d theta phi) as E. pose proof (fold_polar_spec (dval d) theta (azR phi)) as S.
  destruct (fold_polar _ _ _) as [[r' th'] ph']. destruct S as (S1 & S2 & S3 & S4 & S5 & _).
  rewrite E. eexists. split; [reflexivity|]. split; [reflexivity|]. cbn [valid denotes].
  unfold valid_dist, len; cbn [dk dval]. rewrite K. split. { split; auto. rewrite S1. apply Rabs_pos. }
  split; [reflexivity|].
  rewrite cos_redec, sin_redec, S3, S4, S5, cos_azR, sin_azR. reflexivity.
Qed.
Lemma from_MSph_ok (d : dist R) (theta : ang R) phi : dk d = KDistance ->
  exists q, from_MSph m deg (RKeep (@dist_map R ext (@Some R) d)) (fang theta) (Some phi : ext) = Ok false (finite q)
    /\ cls_of q = CMSph /\ valid q /\ length_radial q /\
    denotes q [dval d * sin phi * cos (angR theta); dval d * sin phi * sin (angR theta); dval d * cos phi].
Proof.
  intros K. pose proof (from_MSph_eq m deg d theta phi) as E. pose proof (fold_polar_spec (dval d) phi (azR theta)) as S.
  destruct (fold_polar _ _ _) as [[r' th'] ph']. destruct S as (S1 & S2 & S3 & S4 & S5 & _).
  rewrite E. eexists. split; [reflexivity|]. split; [reflexivity|]. cbn [valid denotes].
  unfold valid_dist, len; cbn [dk dval]. rewrite K. split. { split; auto. rewrite S1. apply Rabs_pos. }
  split; [reflexivity|].
  rewrite cos_redec, sin_redec, S3, S4, S5, cos_azR, sin_azR. reflexivity.
Qed.

Definition embedded (p : pos R) (t : pcls) (pt : list R) (r : res (pos ext)) : Prop :=
  exists q, r = Ok false (finite q) /\ cls_of q = t /\ denotes q pt /\ length_radial q /\
            ((forall x, p = PCart1 x -> 0 <= x) -> valid q).
Definition outcome (p : pos R) (t : pcls) (pt : list R) (r : res (pos ext)) : Prop :=
  embedded p t pt r
  \/ (r = Raise ENegative /\ m = Eager /\ (exists x, p = PCart1 x /\ x < 0) /\ (t = CPolar \/ t = CCyl))
  \/ (pt = [0;0;0] /\ (t = CSph \/ t = CMSph) /\ exists q, r = Ok false q /\ has_nan q).

Ltac emb := eexists; split; [reflexivity|]; split; [reflexivity|]; split;
  [ cbn; unfold len; cbn; rewrite ?cos_azdflt, ?sin_azdflt; reflexivity
  | split; [ first [exact I | reflexivity | assumption] | cbn; unfold valid_dist; cbn; auto ] ].
Lemma from_Sph_qty m' deg' (x : ext) th ph :
  from_Sph m' deg' (RQty KDistance x) th ph = from_Sph m' deg' (RKeep (mkDist KDistance x)) th ph.
Proof. reflexivity. Qed.
Lemma from_MSph_qty m' deg' (x : ext) th ph :
  from_MSph m' deg' (RQty KDistance x) th ph = from_MSph m' deg' (RKeep (mkDist KDistance x)) th ph.
Proof. reflexivity. Qed.

Lemma embed_Cart1 x t pt : embed_pt (PCart1 x) t (rdflt ky) (rdflt kz) (adflt kth) (adflt kph) = Some pt ->
  outcome (PCart1 x) t pt (represent_as m deg (S f) kw (finite (PCart1 x)) t).
Proof.
  destruct t; cbn [embed_pt]; intros H; inversion H; subst; clear H.
  - left. rewrite rep_Cart1_Cart2. emb.
  - rewrite rep_Cart1_Polar. destruct (nonneg_cases m x) as [E|(Em&N&E)]; rewrite E.
    + left. emb.
    + right; left. repeat split; auto. exists x; auto.
  - left. rewrite rep_Cart1_Cart3. emb.
  - rewrite rep_Cart1_Cyl. destruct (nonneg_cases m x) as [E|(Em&N&E)]; rewrite E.
    + left. emb.
    + right; left. repeat split; auto. exists x; auto.
  - left. step. cbv zeta. rewrite from_Sph_qty. ired. destruct (dflt_fang kph) as (a & Ea & Eb). rewrite Ea, dflt_angv.
    destruct (from_Sph_ok (mkDist KDistance x) (adflt kth) a eq_refl) as (q & Q1 & Q2 & Q3 & Q5 & Q4).
    exists q. split; [exact Q1|]. split; auto. rewrite Eb in Q4. auto.
  - left. step. cbv zeta. rewrite from_MSph_qty. ired. destruct (dflt_fang kth) as (a & Ea & Eb). rewrite Ea, dflt_angv.
    destruct (from_MSph_ok (mkDist KDistance x) a (adflt kph) eq_refl) as (q & Q1 & Q2 & Q3 & Q5 & Q4).
    exists q. split; [exact Q1|]. split; auto. rewrite Eb in Q4. auto.
Qed.

Lemma embed_Radial r t pt : valid_dist r -> dk r = KDistance ->
  embed_pt (PRadial r) t (rdflt ky) (rdflt kz) (adflt kth) (adflt kph) = Some pt ->
  outcome (PRadial r) t pt (represent_as m deg (S f) kw (finite (PRadial r)) t).
Proof.
  intros V K. assert (LV : len r = dval r) by (unfold len; now rewrite K).
  assert (NN : 0 <= dval r) by (unfold valid_dist in V; now rewrite K in V).
  destruct r as [k v]; cbn [dk] in K; subst k; cbn [dval] in *.
  destruct t; cbn [embed_pt]; intros H; inversion H; subst; clear H; left.
  - rewrite rep_Radial_Cart2. emb.
  - rewrite rep_Radial_Polar, nonneg_ok by auto. emb.
  - rewrite rep_Radial_Cart3. emb.
  - rewrite rep_Radial_Cyl; cbn [dk dval]; rewrite nonneg_ok by auto. emb.
  - step. cbv zeta. ired. destruct (dflt_fang kph) as (a & Ea & Eb). rewrite Ea, dflt_angv.
    destruct (from_Sph_ok (mkDist KDistance v) (adflt kth) a eq_refl) as (q & Q1 & Q2 & Q3 & Q5 & Q4).
    exists q. split; [exact Q1|]. split; auto. rewrite Eb in Q4. auto.
  - step. cbv zeta. ired. destruct (dflt_fang kth) as (a & Ea & Eb). rewrite Ea, dflt_angv.
    destruct (from_MSph_ok (mkDist KDistance v) a (adflt kph) eq_refl) as (q & Q1 & Q2 & Q3 & Q5 & Q4).
    exists q. split; [exact Q1|]. split; auto. rewrite Eb in Q4. auto.
Qed.


Lemma rep_Cart2_via t' : match t' with CCyl | CSph | CMSph => True | _ => False end -> forall a b,
    represent_as m deg (5+f) kw (finite (PCart2 a b)) t'
    = represent_as m deg (4+f) nokw (finite (PCart3 a b (rdflt kz))) t'.
Proof.
  intros Ht a b. cbn [plus].
  assert (E : represent_as m deg (S (S (S (S f)))) nokw (finite (PCart2 a b)) CCart2 = Ok false (finite (PCart2 a b)))
      by (step; reflexivity).
  assert (E2 : represent_as m deg (S (S (S (S f)))) (kw_z_only (A:=ext) (Some (rdflt kz))) (finite (PCart2 a b)) CCart3
       = Ok false (finite (PCart3 a b (rdflt kz)))) by (step; reflexivity).
  destruct t'; try contradiction; step; change (PCart2 (Some a : ext) (Some b)) with (finite (PCart2 a b));
    rewrite E, bind_ok; ired; rewrite dflt_len, E2, bind_ok; reflexivity.
Qed.

Lemma embed_Cart2 a b t pt : embed_pt (PCart2 a b) t (rdflt ky) (rdflt kz) (adflt kth) (adflt kph) = Some pt ->
  outcome (PCart2 a b) t pt (represent_as m deg (5 + f) kw (finite (PCart2 a b)) t).
Proof.
  intros H.
  assert (Hg : forall t', match t' with CCyl | CSph | CMSph => True | _ => False end -> outcome (PCart2 a b) t' [a; b; rdflt kz]
     (represent_as m deg (5+f) kw (finite (PCart2 a b)) t')).
  { intros t' Ht. rewrite rep_Cart2_via by auto.
    assert (P3 : plain3 t') by (destruct t'; try contradiction; exact I).
    destruct (represent_as_plain3 m deg f nokw (PCart3 a b (rdflt kz)) t' I I P3)
      as [(q & H1 & H2 & H3 & H4 & _ & H6)|[(_ & _ & [])|(O & q & H1 & H2 & H3)]].
    - left. exists q. split; auto. split; auto. split; [apply H4; reflexivity|]. split; auto. apply H6. exact I.
    - unfold at_origin in O; cbn in O.
      assert (T : t' = CSph \/ t' = CMSph).
      { destruct t'; try contradiction Ht; auto. exfalso. revert H1. cbn [plus].
        rewrite rep_Cart3_Cyl. intros E. injection E as E. apply (H2 (PCyl (sqrt (a * a + b * b)) (Rwrap (Ratan2 b a)) (rdflt kz))). symmetry. exact E. }
      right; right. split; [symmetry; exact O|]. split; auto. exists q; auto. }
  destruct t; cbn [embed_pt] in H; inversion H; subst; clear H; try (apply Hg; exact I).
  left. cbn [plus]. rewrite rep_Cart2_Cart3. emb.
Qed.

Lemma embed_Polar r a t pt : valid_dist r -> dk r = KDistance ->
  embed_pt (PPolar r a) t (rdflt ky) (rdflt kz) (adflt kth) (adflt kph) = Some pt ->
  outcome (PPolar r a) t pt (represent_as m deg (2 + f) kw (finite (PPolar r a)) t).
Proof.
  intros V K. assert (LV : len r = dval r) by (unfold len; now rewrite K).
  assert (NN : 0 <= dval r) by (unfold valid_dist in V; now rewrite K in V).
  destruct r as [k v]; cbn [dk] in K; subst k; cbn [dval] in *.
  destruct t; cbn [embed_pt plus]; intros H; inversion H; subst; clear H; left.
  - step.
    assert (E : represent_as m deg (S f) nokw (finite (PPolar (mkDist KDistance v) a)) CPolar = Ok false (finite (PPolar (mkDist KDistance v) a)))
      by (step; reflexivity).
    change (PPolar (dist_map (@Some R : R -> ext) (mkDist KDistance v)) (Some a)) with (finite (PPolar (mkDist KDistance v) a)).
    rewrite E, bind_ok. ired. rewrite dflt_len.
    pose proof (rep_Polar_Cyl m deg f None None (Some (rdflt kz)) None None (mkDist KDistance v) a) as E2. cbn [dk dval] in E2; rewrite nonneg_ok in E2 by auto.
    unfold fkw in E2; cbn [okmap] in E2. change (mkKw None None (Some (Some (rdflt kz) : ext)) None None) with (kw_z_only (A:=ext) (Some (rdflt kz))) in E2.
    rewrite E2. rewrite bind_ret_l. unfold ret. rewrite bind_ok, rep_Cyl_Cart3. emb.
  - rewrite rep_Polar_Cyl; cbn [dk dval]; rewrite nonneg_ok by auto. emb.
  - step. ired. rewrite dflt_angv.
    destruct (from_Sph_ok (mkDist KDistance v) (adflt kth) (AsAngle a) eq_refl) as (q & Q1 & Q2 & Q3 & Q5 & Q4).
    exists q. split; [exact Q1|]. split; auto.
  - step. ired. rewrite dflt_angv.
    destruct (from_MSph_ok (mkDist KDistance v) (AsAngle a) (adflt kph) eq_refl) as (q & Q1 & Q2 & Q3 & Q5 & Q4).
    exists q. split; [exact Q1|]. split; auto.
Qed.
End E.

Theorem embed_all m deg f kD ky kz kth kph p t pt :
  valid p -> length_radial p ->
  embed_pt p t (rdflt ky) (rdflt kz) (adflt kth) (adflt kph) = Some pt ->
  outcome m p t pt (represent_as m deg (5 + f) (fkw kD ky kz kth kph) (finite p) t).
Proof.
  intros V L H. destruct p; cbn in V, L; try (destruct t; discriminate H).
  - apply embed_Cart1; auto.
  - apply embed_Radial; auto.
  - apply embed_Cart2; auto.
  - apply (embed_Polar m deg (3 + f)); auto.
Qed.

(** ** Projections *)
Lemma norm3 x y z : norm_of [x; y; z] = sqrt (x*x+y*y+z*z).
Proof. unfold norm_of; cbn. f_equal. ring. Qed.
Lemma norm2 x y : norm_of [x; y] = sqrt (x*x+y*y).
Proof. unfold norm_of; cbn. f_equal. ring. Qed.
Lemma norm_polar r a : 0 <= r -> norm_of [r * cos a; r * sin a] = r.
Proof.
  intros H. rewrite norm2. pose proof (sin2_cos2 a) as S. unfold Rsqr in S.
  transitivity (sqrt (r * r)); [f_equal|now apply sqrt_square].
  transitivity (r*r*(sin a * sin a + cos a * cos a)); [ring|]. rewrite S. ring.
Qed.
Lemma norm_sph r t p : 0 <= r -> norm_of [r * sin t * cos p; r * sin t * sin p; r * cos t] = r.
Proof.
  intros H. rewrite norm3. pose proof (sin2_cos2 t) as S. pose proof (sin2_cos2 p) as S'. unfold Rsqr in S, S'.
  transitivity (sqrt (r * r)); [f_equal|now apply sqrt_square].
  transitivity (r*r*(sin t * sin t * (sin p * sin p + cos p * cos p) + cos t * cos t)); [ring|].
  rewrite S'. transitivity (r*r*(sin t * sin t + cos t * cos t)); [ring|]. rewrite S. ring.
Qed.
Lemma norm_lonlat r b l : 0 <= r -> norm_of [r * cos b * cos l; r * cos b * sin l; r * sin b] = r.
Proof. intros H. transitivity (norm_of [r * sin (PI/2-b) * cos l; r * sin (PI/2-b) * sin l; r * cos (PI/2-b)]).
  now rewrite shift_sin, shift_cos. now apply norm_sph. Qed.

Definition low (t : pcls) : Prop := match t with CCart1 | CRadial | CCart2 | CPolar => True | _ => False end.
Definition projected (p : pos R) (t : pcls) (r : res (pos ext)) : Prop :=
  exists q, r = Ok true (finite q) /\ cls_of q = t /\ valid q /\
    forall pt pt', denotes p pt -> project_pt t pt = Some pt' -> denotes q pt'.

Section P.
Variables (m : mode) (deg : bool) (f : nat) (kw : kwargs ext).

Lemma project_Cart3 x y z t : low t ->
  projected (PCart3 x y z) t (represent_as m deg (S (S f)) kw (finite (PCart3 x y z)) t).
Proof.
  destruct t; try contradiction; intros _.
  - step. unfold mk_Cart1, ret. cbn [warn]. eexists (PCart1 x). split; [reflexivity|]. split; [reflexivity|]. split; [exact I|].
    intros pt pt' D P. cbn in D; subst. cbn in P. inversion P. reflexivity.
  - step. unfold mk_Radial. ered. rewrite esqrt_some by apply hyp3_nonneg. rewrite nonneg_ok by apply sqrt_pos.
    eexists (PRadial (mkDist KDistance _)). split; [reflexivity|]. split; [reflexivity|]. split; [apply sqrt_pos|].
    intros pt pt' D P. cbn in D; subst. cbn [project_pt] in P. inversion P. rewrite norm3. reflexivity.
  - step. eexists (PCart2 x y). split; [reflexivity|]. split; [reflexivity|]. split; [exact I|].
    intros pt pt' D P. cbn in D; subst. cbn in P. inversion P. reflexivity.
  - step. change (PCart3 (Some x : ext) (Some y) (Some z)) with (finite (PCart3 x y z)).
    assert (E : represent_as m deg (S f) nokw (finite (PCart3 x y z)) CCart2 = Ok true (finite (PCart2 x y))) by (step; reflexivity).
    rewrite E. cbn [bind].
    destruct (represent_as_plain2 m deg f nokw (PCart2 x y) CPolar I I I) as (q & H1 & H2 & H3 & H4 & _).
    rewrite H1. cbn. exists q. split; [reflexivity|]. split; auto. split; auto.
    intros pt pt' D P. cbn in D; subst. cbn in P. inversion P. apply H4. reflexivity.
Qed.

Lemma project_Cyl rho phi z t : 0 <= rho -> low t -> t <> CRadial ->
  projected (PCyl rho phi z) t (represent_as m deg (S f) kw (finite (PCyl rho phi z)) t).
Proof.
  intros V. destruct t; try contradiction; intros _ N; try congruence; step.
  - eexists (PCart1 (rho * cos phi)). split; [reflexivity|]. split; [reflexivity|]. split; [exact I|].
    intros pt pt' D P. cbn in D; subst. cbn in P. inversion P. reflexivity.
  - eexists (PCart2 (rho * cos phi) (rho * sin phi)). split; [reflexivity|]. split; [reflexivity|]. split; [exact I|].
    intros pt pt' D P. cbn in D; subst. cbn in P. inversion P. reflexivity.
  - unfold mk_Polar. ered. rewrite nonneg_ok by auto.
    eexists (PPolar (mkDist KDistance rho) phi). split; [reflexivity|]. split; [reflexivity|]. split; [exact V|].
    intros pt pt' D P. cbn in D; subst. cbn in P. inversion P. reflexivity.
Qed.
(** CylindricalPos -> RadialPos returns the distance from the axis. *)
Lemma rep_Cyl_Radial rho phi z : 0 <= rho ->
  represent_as m deg (S f) kw (finite (PCyl rho phi z)) CRadial
  = Ok true (finite (PRadial (mkDist KDistance rho))).
Proof. intros H. step. unfold mk_Radial. ered. rewrite nonneg_ok by auto. reflexivity. Qed.

Lemma project_Sph r theta phi t : valid_dist r -> dk r = KDistance -> 0 <= theta <= PI -> low t ->
  projected (PSph r theta phi) t (represent_as m deg (S f) kw (finite (PSph r theta phi)) t).
Proof.
  intros V K Th. assert (LV : len r = dval r) by (unfold len; now rewrite K).
  assert (NN : 0 <= dval r) by (unfold valid_dist in V; now rewrite K in V).
  assert (SS : 0 <= dval r * sin theta) by (apply Rmult_le_pos; auto; apply sin_ge_0; lra).
  destruct r as [k v]; cbn [dk] in K; subst k. cbn [dval] in *.
  destruct t; try contradiction; intros _; step.
  - eexists (PCart1 (v * sin theta * cos phi)). split; [reflexivity|]. split; [reflexivity|]. split; [exact I|].
    intros pt pt' D P. cbn in D; subst. cbn in P. inversion P. reflexivity.
  - unfold mk_Radial. ered. rewrite nonneg_ok by auto.
    eexists (PRadial (mkDist KDistance v)). split; [reflexivity|]. split; [reflexivity|]. split; [exact V|].
    intros pt pt' D P. cbn in D; subst. cbn [project_pt] in P. inversion P. cbn. rewrite norm_sph; auto.
  - eexists (PCart2 (v * sin theta * cos phi) (v * sin theta * sin phi)). split; [reflexivity|]. split; [reflexivity|]. split; [exact I|].
    intros pt pt' D P. cbn in D; subst. cbn in P. inversion P. reflexivity.
  - unfold mk_Polar. ered. rewrite nonneg_ok by auto.
    eexists (PPolar (mkDist KDistance (v * sin theta)) phi). split; [reflexivity|]. split; [reflexivity|]. split; [exact SS|].
    intros pt pt' D P. cbn in D; subst. cbn in P. inversion P. reflexivity.
Qed.
Lemma project_MSph r theta phi t : valid_dist r -> dk r = KDistance -> 0 <= phi <= PI -> low t ->
  projected (PMSph r theta phi) t (represent_as m deg (S f) kw (finite (PMSph r theta phi)) t).
Proof.
  intros V K Th. assert (LV : len r = dval r) by (unfold len; now rewrite K).
  assert (NN : 0 <= dval r) by (unfold valid_dist in V; now rewrite K in V).
  assert (SS : 0 <= dval r * sin phi) by (apply Rmult_le_pos; auto; apply sin_ge_0; lra).
  destruct r as [k v]; cbn [dk] in K; subst k. cbn [dval] in *.
  destruct t; try contradiction; intros _; step.
  - eexists (PCart1 (v * sin phi * cos theta)). split; [reflexivity|]. split; [reflexivity|]. split; [exact I|].
    intros pt pt' D P. cbn in D; subst. cbn in P. inversion P. reflexivity.
  - unfold mk_Radial. ered. rewrite nonneg_ok by auto.
    eexists (PRadial (mkDist KDistance v)). split; [reflexivity|]. split; [reflexivity|]. split; [exact V|].
    intros pt pt' D P. cbn in D; subst. cbn [project_pt] in P. inversion P. cbn. rewrite norm_sph; auto.
  - eexists (PCart2 (v * sin phi * cos theta) (v * sin phi * sin theta)). split; [reflexivity|]. split; [reflexivity|]. split; [exact I|].
    intros pt pt' D P. cbn in D; subst. cbn in P. inversion P. reflexivity.
  - unfold mk_Polar. ered. rewrite nonneg_ok by auto.
    eexists (PPolar (mkDist KDistance (v * sin phi)) theta). split; [reflexivity|]. split; [reflexivity|]. split; [exact SS|].
    intros pt pt' D P. cbn in D; subst. cbn in P. inversion P. reflexivity.
Qed.
Lemma project_Cart2 x y t : low t -> dim_of t = 1%nat ->
  projected (PCart2 x y) t (represent_as m deg (S f) kw (finite (PCart2 x y)) t).
Proof.
  destruct t; try contradiction; intros _; try discriminate; intros _; step.
  - eexists (PCart1 x). split; [reflexivity|]. split; [reflexivity|]. split; [exact I|].
    intros pt pt' D P. cbn in D; subst. cbn in P. inversion P. reflexivity.
  - unfold mk_Radial. ered. rewrite esqrt_some by apply hyp2_nonneg. rewrite nonneg_ok by apply sqrt_pos.
    eexists (PRadial (mkDist KDistance _)). split; [reflexivity|]. split; [reflexivity|]. split; [apply sqrt_pos|].
    intros pt pt' D P. cbn in D; subst. cbn [project_pt] in P. inversion P. rewrite norm2. reflexivity.
Qed.
Lemma project_Polar r phi t : valid_dist r -> dk r = KDistance -> low t -> dim_of t = 1%nat ->
  projected (PPolar r phi) t (represent_as m deg (S f) kw (finite (PPolar r phi)) t).
Proof.
  intros V K. assert (LV : len r = dval r) by (unfold len; now rewrite K).
  assert (NN : 0 <= dval r) by (unfold valid_dist in V; now rewrite K in V).
  destruct r as [k v]; cbn [dk] in K; subst k. cbn [dval] in *.
  destruct t; try contradiction; intros _; try discriminate; intros _; step.
  - eexists (PCart1 (v * cos phi)). split; [reflexivity|]. split; [reflexivity|]. split; [exact I|].
    intros pt pt' D P. cbn in D; subst. cbn in P. inversion P. reflexivity.
  - unfold mk_Radial. ered. rewrite nonneg_ok by auto.
    eexists (PRadial (mkDist KDistance v)). split; [reflexivity|]. split; [reflexivity|]. split; [exact V|].
    intros pt pt' D P. cbn in D; subst. cbn [project_pt] in P. inversion P. cbn. rewrite norm_polar; auto.
Qed.
End P.

Lemma rep_Prolate_Cart3 m deg f kw mu nu phi Delta :
  0 < Delta -> Delta*Delta <= mu -> Rabs nu <= Delta*Delta ->
  represent_as m deg (S (S f)) kw (finite (PProlate mu nu phi Delta)) CCart3
  = Ok false (finite (PCart3 (prolate_R mu nu Delta * cos phi) (prolate_R mu nu Delta * sin phi) (prolate_z mu nu Delta))).
Proof.
  intros H1 H2 H3. step.
  change (PProlate (Some mu : ext) (Some nu) (Some phi) (Some Delta)) with (finite (PProlate mu nu phi Delta)).
  rewrite rep_Prolate_Cyl by auto. rewrite bind_ok. rewrite rep_Cyl_Cart3. reflexivity.
Qed.

Theorem project_all m deg f kw p t :
  valid p -> length_radial p -> projectable (cls_of p) t ->
  projected p t (represent_as m deg (4 + f) kw (finite p) t).
Proof.
  intros V L P. destruct p; cbn in V, L; try contradiction P; cbn [plus].
  - apply project_Cart2; destruct t; try contradiction; cbn; auto.
  - apply project_Polar; auto; destruct t; try contradiction; cbn; auto.
  - apply project_Cart3; destruct t; try contradiction; cbn; auto.
  - apply project_Cyl; auto; destruct t; try contradiction; cbn; auto; congruence.
  - apply project_Sph; try tauto; destruct t; try contradiction; cbn; auto.
  - apply project_MSph; try tauto; destruct t; try contradiction; cbn; auto.
  - destruct V as (V1 & V2 & V3).
    assert (LO : low t) by (destruct t; try contradiction; exact I).
    destruct (project_Cart3 m deg (S f) nokw (prolate_R mu nu Delta * cos phi) (prolate_R mu nu Delta * sin phi) (prolate_z mu nu Delta) t LO)
      as (q & H1 & H2 & H3 & H4).
    exists q. split; [|split; auto; split; auto].
    + destruct t; try contradiction; step;
      change (PProlate (Some mu : ext) (Some nu) (Some phi) (Some Delta)) with (finite (PProlate mu nu phi Delta));
      rewrite rep_Prolate_Cart3 by auto; rewrite bind_ok, H1; reflexivity.
    + intros pt pt' (R0 & z0 & PP & ->) Pr. eapply H4; [reflexivity|].
      destruct (prolate_point_unique mu nu Delta R0 z0 (prolate_R mu nu Delta) (prolate_z mu nu Delta)) as [-> ->]; auto.
      apply prolate_Rz_point; auto.
Qed.

(** ** Embedding followed by projection *)
Lemma embed_project m deg f kD ky kz kth kph kw' p t :
  valid p -> length_radial p -> embeddable (cls_of p) t ->
  exists q r, represent_as m deg (5 + f) (fkw kD ky kz kth kph) (finite p) t = Ok false (finite q) /\
    represent_as m deg (5 + f) kw' (finite q) (cls_of p) = Ok true (finite r) /\
    cls_of r = cls_of p /\ (forall pt, denotes p pt <-> denotes r pt).
Proof.
  intros V L Em.
  assert (Ex : exists pt, embed_pt p t (rdflt ky) (rdflt kz) (adflt kth) (adflt kph) = Some pt /\
      exists pt', project_pt (cls_of p) pt = Some pt' /\ (forall x, denotes p x <-> x = pt') /\ length pt' = dim_of (cls_of p)).
  { destruct p; cbn in Em; try contradiction; destruct t; try contradiction; cbn;
      (eexists; split; [reflexivity|]; eexists; split; [reflexivity|]; split; [|reflexivity]; cbn; tauto). }
  destruct Ex as (pt & E1 & pt' & E2 & E3 & E4).
  assert (Emb : exists q, represent_as m deg (5 + f) (fkw kD ky kz kth kph) (finite p) t = Ok false (finite q) /\
     cls_of q = t /\ denotes q pt /\ length_radial q /\ valid q).
  { destruct (embed_all m deg f kD ky kz kth kph p t pt V L E1) as [(q&H1&H2&H3&H4&H5)|[(H1&H2&(x&H3&_)&H4)|(H1&H2&_)]].
    - exists q. repeat split; auto. destruct q; cbn in *; auto; subst t; try (destruct p; contradiction);
      apply H5; intros x0 ->; contradiction.
    - subst p. destruct H4; subst t; contradiction.
    - destruct H2; subst t; destruct p; contradiction. }
  destruct Emb as (q & H1 & H2 & H3 & H4 & H5).
  assert (PJ : projectable (cls_of q) (cls_of p)).
  { rewrite H2. destruct p; cbn in Em; try contradiction; destruct t; try contradiction; exact I. }
  destruct (project_all m deg (S f) kw' q (cls_of p) H5 H4 PJ) as (r & K1 & K2 & K3 & K4).
  exists q, r. split; auto. split; auto. split; auto.
  assert (D : denotes r pt') by (eapply K4; eauto).
  intros x. rewrite E3. clear - K2 D Em. split.
  - intros ->; auto.
  - intros D'. destruct p; cbn in Em; try contradiction; destruct r; cbn in *; try discriminate; congruence.
Qed.
