(** * The out-of-range tolerant constructors [from_]. *)
From Coq Require Import Reals Bool List ZArith Lra Lia.
From Verif Require Import Num Vectors Spec Transform Pos3D Pos3DThm.
Import ListNotations.
Open Scope R_scope.

Definition ang_map {A B} (f : A -> B) (a : ang A) : ang B :=
  match a with AsAngle x => AsAngle (f x) | AsQty x => AsQty (f x) end.
Definition fang (a : ang R) : ang ext := ang_map (@Some R) a.
Definition angR (a : ang R) : R := match a with AsAngle x => x | AsQty x => x end.
Definition azR (a : ang R) : R := match a with AsAngle x => x | AsQty x => Rwrap x end.

Lemma conv_az_fin a : conv_az (fang a) = Some (azR a).
Proof. destruct a; reflexivity. Qed.
Lemma ang_val_fin a : @ang_val ext (fang a) = Some (angR a).
Proof. destruct a; reflexivity. Qed.
Lemma cos_azR a : cos (azR a) = cos (angR a).
Proof. destruct a; cbn; auto using cos_Rwrap. Qed.
Lemma sin_azR a : sin (azR a) = sin (angR a).
Proof. destruct a; cbn; auto using sin_Rwrap. Qed.

Lemma cos_plus_PI x : cos (x + PI) = - cos x. Proof. apply neg_cos. Qed.
Lemma sin_plus_PI x : sin (x + PI) = - sin x. Proof. apply neg_sin. Qed.
Lemma cos_2PI_minus x : cos (2 * PI - x) = cos x.
Proof. rewrite <- (cos_neg (2*PI - x)). rewrite <- (cos_period_Z _ 1). f_equal. ring. Qed.
Lemma sin_2PI_minus x : sin (2 * PI - x) = - sin x.
Proof. rewrite <- (Ropp_involutive (2*PI - x)), sin_neg. f_equal. rewrite <- (sin_period_Z _ 1). f_equal. ring. Qed.
Lemma cos_PI_minus x : cos (PI - x) = - cos x.
Proof. rewrite <- (cos_neg (PI - x)), <- neg_cos. rewrite <- (cos_period_Z (- (PI - x)) 1). f_equal. ring. Qed.

(** The stored azimuth after [redecorate]. *)
Definition redec (deg : bool) (a : R) : R := if deg then Rwrap a else a.
Lemma cos_redec deg a : cos (redec deg a) = cos a.
Proof. destruct deg; cbn; auto using cos_Rwrap. Qed.
Lemma sin_redec deg a : sin (redec deg a) = sin a.
Proof. destruct deg; cbn; auto using sin_Rwrap. Qed.
Lemma conv_redec deg a : conv_az (redecorate deg (Some a : ext)) = Some (redec deg a).
Proof. destruct deg; reflexivity. Qed.

(** Folding of a signed radius and an arbitrary polar angle. *)
Definition fold_polar (r theta phi : R) : R * R * R :=
  let neg := Rltb r 0 in
  let r' := if neg then - r else r in
  let phi := if neg then phi + PI else phi in
  let theta := Rwrap (if neg then PI - theta else theta) in
  if Rltb theta PI then (r', theta, phi) else (r', 2 * PI - theta, phi + PI).

Lemma fold_polar_spec r theta phi :
  let '(r', theta', phi') := fold_polar r theta phi in
  r' = Rabs r /\ 0 <= theta' <= PI /\
  r' * sin theta' * cos phi' = r * sin theta * cos phi /\
  r' * sin theta' * sin phi' = r * sin theta * sin phi /\
  r' * cos theta' = r * cos theta /\
  (exists k, phi' = phi + PI * INR k /\ (k <= 2)%nat).
Proof.
  unfold fold_polar. pose proof PI_pos.
  assert (Hn : (if Rltb r 0 then - r else r) = Rabs r).
  { destruct (Rltb r 0) eqn:E. apply Rltb_true in E. now rewrite Rabs_left.
    apply Rltb_false in E. now rewrite Rabs_pos_eq. }
  set (th := if Rltb r 0 then PI - theta else theta).
  set (ph := if Rltb r 0 then phi + PI else phi).
  pose proof (Rwrap_range th).
  assert (G : (if Rltb r 0 then - r else r) * sin th * cos ph = r * sin theta * cos phi /\
              (if Rltb r 0 then - r else r) * sin th * sin ph = r * sin theta * sin phi /\
              (if Rltb r 0 then - r else r) * cos th = r * cos theta).
  { unfold th, ph. destruct (Rltb r 0).
    - rewrite cos_plus_PI, sin_plus_PI, cos_PI_minus, sin_PI_x. repeat split; ring.
    - auto. }
  destruct G as (G1 & G2 & G3).
  destruct (Rltb (Rwrap th) PI) eqn:E.
  - apply Rltb_true in E. rewrite sin_Rwrap, cos_Rwrap. repeat split; auto; try lra.
    exists (if Rltb r 0 then 1%nat else 0%nat). unfold ph. destruct (Rltb r 0); cbn; split; try lia; ring.
  - apply Rltb_false in E.
    rewrite cos_2PI_minus, sin_2PI_minus, cos_plus_PI, sin_plus_PI, sin_Rwrap, cos_Rwrap.
    repeat split; auto; try lra.
    exists (if Rltb r 0 then 2%nat else 1%nat). unfold ph. destruct (Rltb r 0); cbn; split; try lia; ring.
Qed.

(** Exact result of [SphericalPos.from_] on finite arguments. *)
Lemma from_Sph_eq m deg (d : dist R) theta (phi : ang R) :
  let '(r', theta', phi') := fold_polar (dval d) theta (azR phi) in
  from_Sph m deg (RKeep (@dist_map R ext (@Some R) d)) (Some theta : ext) (fang phi)
  = Ok false (finite (PSph (mkDist (dk d) r') theta' (redec deg phi'))).
Proof.
  pose proof (fold_polar_spec (dval d) theta (azR phi)) as S.
  destruct (fold_polar (dval d) theta (azR phi)) as [[r' th'] ph'] eqn:E.
  destruct S as (E1 & E2 & _).
  assert (Hrp : 0 <= r') by (rewrite E1; apply Rabs_pos). clear E1.
  unfold from_Sph, conv_r. rewrite conv_az_fin. cbn [dist_map dval dk]. ered.
  unfold fold_polar in E. unfold sel.
  destruct (Rltb (dval d) 0); ered; destruct (Rltb _ PI) in *; ered; inversion E; subst;
    unfold mk_Sph; ered; rewrite nonneg_ok, polar_ok by auto; rewrite conv_redec; reflexivity.
Qed.

Lemma from_MSph_eq m deg (d : dist R) (theta : ang R) phi :
  let '(r', phi', theta') := fold_polar (dval d) phi (azR theta) in
  from_MSph m deg (RKeep (@dist_map R ext (@Some R) d)) (fang theta) (Some phi : ext)
  = Ok false (finite (PMSph (mkDist (dk d) r') (redec deg theta') phi')).
Proof.
  pose proof (fold_polar_spec (dval d) phi (azR theta)) as S.
  destruct (fold_polar (dval d) phi (azR theta)) as [[r' th'] ph'] eqn:E.
  destruct S as (E1 & E2 & _).
  assert (Hrp : 0 <= r') by (rewrite E1; apply Rabs_pos). clear E1.
  unfold from_MSph, conv_r. rewrite conv_az_fin. cbn [dist_map dval dk]. ered.
  unfold fold_polar in E. unfold sel.
  destruct (Rltb (dval d) 0); ered; destruct (Rltb _ PI) in *; ered; inversion E; subst;
    unfold mk_MSph; ered; rewrite nonneg_ok, polar_ok by auto; rewrite conv_redec; reflexivity.
Qed.

(** Folding of latitude: d3/lonlatspherical.py:231-239. *)
Definition fold_lat (r lon lat : R) : R * R * R :=
  let neg := Rltb r 0 in
  let r' := if neg then - r else r in
  let lon := if neg then lon + PI else lon in
  let lat := if neg then - lat else lat in
  let p1 := Rltb lat (- (PI/2)) in
  let lat1 := if p1 then - PI - lat else lat in
  let lon := if p1 then lon + PI else lon in
  let p2 := Rltb (PI/2) lat1 in
  (r', if p2 then lon + PI else lon, if p2 then PI - lat1 else lat1).

Lemma fold_lat_spec r lon lat :
  let '(r', lon', lat') := fold_lat r lon lat in
  r' = Rabs r /\
  r' * cos lat' * cos lon' = r * cos lat * cos lon /\
  r' * cos lat' * sin lon' = r * cos lat * sin lon /\
  r' * sin lat' = r * sin lat /\
  (- (PI/2) <= lat' <= PI/2 <->
   - (5 * PI / 2) <= (if Rltb r 0 then - lat else lat) <= 3 * PI / 2).
Proof.
  unfold fold_lat. pose proof PI_pos.
  assert (Hn : (if Rltb r 0 then - r else r) = Rabs r).
  { destruct (Rltb r 0) eqn:E. apply Rltb_true in E. now rewrite Rabs_left.
    apply Rltb_false in E. now rewrite Rabs_pos_eq. }
  set (la := if Rltb r 0 then - lat else lat).
  set (lo := if Rltb r 0 then lon + PI else lon).
  set (r' := if Rltb r 0 then - r else r) in *.
  assert (G : r' * cos la * cos lo = r * cos lat * cos lon /\
              r' * cos la * sin lo = r * cos lat * sin lon /\
              r' * sin la = r * sin lat).
  { unfold la, lo, r'. destruct (Rltb r 0).
    - rewrite cos_plus_PI, sin_plus_PI, cos_neg, sin_neg. repeat split; ring.
    - auto. }
  destruct G as (G1 & G2 & G3).
  assert (C1 : cos (- PI - la) = - cos la).
  { rewrite <- cos_neg. replace (- (- PI - la)) with (la + PI) by ring. apply cos_plus_PI. }
  assert (S1 : sin (- PI - la) = sin la).
  { rewrite <- (Ropp_involutive (sin la)), <- sin_plus_PI, <- sin_neg. f_equal. ring. }
  destruct (Rltb la (- (PI/2))) eqn:E1.
  - apply Rltb_true in E1. destruct (Rltb (PI/2) (-PI - la)) eqn:E2.
    + apply Rltb_true in E2. rewrite !cos_plus_PI, !sin_plus_PI, cos_PI_minus, sin_PI_x, C1, S1.
      repeat split; auto; try nra; intros; lra.
    + apply Rltb_false in E2. rewrite cos_plus_PI, sin_plus_PI, C1, S1.
      repeat split; auto; try nra; intros; lra.
  - apply Rltb_false in E1. destruct (Rltb (PI/2) la) eqn:E2.
    + apply Rltb_true in E2. rewrite !cos_plus_PI, !sin_plus_PI, cos_PI_minus, sin_PI_x.
      repeat split; auto; try nra; intros; lra.
    + apply Rltb_false in E2. repeat split; auto; intros; lra.
Qed.

Lemma from_LonLat_eq m deg (d : dist R) lat (lon : ang R) :
  let '(r', lon', lat') := fold_lat (dval d) (azR lon) lat in
  from_LonLat m deg (fang lon) (Some lat : ext) (RKeep (@dist_map R ext (@Some R) d))
  = (do _ <- check_polar m (Some (- (PI/2))) (Some (PI/2)) (Some lat' : ext);
     ret (finite (PLonLat (redec deg lon') lat' (mkDist (dk d) r')))).
Proof.
  pose proof (fold_lat_spec (dval d) (azR lon) lat) as S.
  destruct (fold_lat (dval d) (azR lon) lat) as [[r' lo'] la'] eqn:E.
  destruct S as (E1 & _).
  assert (Hrp : 0 <= r') by (rewrite E1; apply Rabs_pos). clear E1.
  unfold from_LonLat, conv_r. rewrite conv_az_fin. cbn [dist_map dval dk]. ered.
  unfold fold_lat in E. unfold sel.
  destruct (Rltb (dval d) 0); ered; destruct (Rltb _ (- (PI/2))) in *; ered;
   destruct (Rltb (PI/2) _) in *; ered; inversion E; subst;
    unfold mk_LonLat; ered; rewrite nonneg_ok by auto; rewrite conv_redec; reflexivity.
Qed.
