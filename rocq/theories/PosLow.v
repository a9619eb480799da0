(** * 1-D and 2-D representation changes, embeddings and projections. *)
From Coq Require Import Reals Bool List ZArith Lra Lia.
From Verif Require Import Num Vectors Spec Transform Pos3D Pos3DThm FromThm.
Import ListNotations.
Open Scope R_scope.

(** Keyword arguments with finite values. *)
Definition okmap {T U} (g : T -> U) (o : option T) : option U :=
  match o with Some x => Some (g x) | None => None end.
Definition fkw (Delta y z : option R) (theta phi : option (ang R)) : kwargs ext :=
  mkKw (okmap (@Some R) Delta) (okmap (@Some R) y) (okmap (@Some R) z) (okmap fang theta) (okmap fang phi).
Definition rdflt (o : option R) : R := match o with Some x => x | None => 0 end.
Definition adflt (o : option (ang R)) : R := match o with Some a => angR a | None => 0 end.

Lemma dflt_len o : dflt (okmap (@Some R) o) (zeroL : ext) = Some (rdflt o).
Proof. destruct o; reflexivity. Qed.
Definition azdflt (o : option (ang R)) : R := match o with Some a => azR a | None => Rwrap 0 end.
Lemma dflt_az o : conv_az (dflt (okmap fang o) (zeroA : ang ext)) = Some (azdflt o).
Proof. destruct o; cbn. apply conv_az_fin. reflexivity. Qed.
Lemma dflt_angv o : ang_val (dflt (okmap fang o) (zeroA : ang ext)) = Some (adflt o).
Proof. destruct o; cbn. apply ang_val_fin. reflexivity. Qed.
Lemma cos_azdflt o : cos (azdflt o) = cos (adflt o).
Proof. destruct o; cbn; auto using cos_azR, cos_Rwrap. Qed.
Lemma sin_azdflt o : sin (azdflt o) = sin (adflt o).
Proof. destruct o; cbn; auto using sin_azR, sin_Rwrap. Qed.
Lemma dflt_fang o : exists a, dflt (okmap fang o) (zeroA : ang ext) = fang a /\ angR a = adflt o.
Proof. destruct o; cbn. exists a; auto. exists (AsQty 0). auto. Qed.

Ltac ired := cbn [fkw kw_Delta kw_y kw_z kw_theta kw_phi okmap] in *.

(** ** 2-D *)
Lemma good_Cart2 m deg f kw x y t : plain2 t ->
  good m (PCart2 x y) t (represent_as m deg (S f) kw (finite (PCart2 x y)) t).
Proof.
  intros Ht. destruct t; try contradiction; left.
  - exists (PCart2 x y). split; [step; reflexivity|]. cbn. tauto.
  - exists (PPolar (mkDist KDistance (sqrt (x*x+y*y))) (Rwrap (Ratan2 y x))).
    split. { step. unfold mk_Polar. ered. rewrite esqrt_some by apply hyp2_nonneg. rewrite nonneg_ok by apply sqrt_pos. reflexivity. }
    split; [reflexivity|]. split; [apply sqrt_pos|]. split.
    + intros pt. cbn. rewrite cos_Rwrap, sin_Rwrap. destruct (Ratan2_polar x y) as [-> ->]. tauto.
    + split; [intros _; apply Rwrap_range | intros _; reflexivity].
Qed.
Lemma good_Polar m deg f kw r phi t : valid_dist r -> plain2 t ->
  good m (PPolar r phi) t (represent_as m deg (S f) kw (finite (PPolar r phi)) t).
Proof.
  intros Hr Ht. destruct (mlen_valid r Hr) as [E Hl]. unfold mlen in E. destruct t; try contradiction; left.
  - exists (PCart2 (len r * cos phi) (len r * sin phi)).
    split. { step. unfold mk_Cart2. rewrite E. reflexivity. } cbn. tauto.
  - exists (PPolar r phi). split; [step; reflexivity|]. cbn. tauto.
Qed.
Theorem represent_as_plain2 m deg f kw p t :
  valid p -> plain2 (cls_of p) -> plain2 t ->
  exists q, represent_as m deg (S f) kw (finite p) t = Ok false (finite q) /\ cls_of q = t /\ valid q /\
            (forall pt, denotes p pt <-> denotes q pt) /\
            (azimuth_in_range p -> azimuth_in_range q) /\ (length_radial p -> length_radial q).
Proof.
  intros V Hp Ht.
  assert (G : good m p t (represent_as m deg (S f) kw (finite p) t)).
  { destruct p; cbn in Hp; try contradiction; cbn in V. apply good_Cart2; auto. apply good_Polar; auto. }
  destruct G as [G|[(E&_&N)|(O&_)]]; auto; exfalso.
  - destruct p; cbn in *; try contradiction. destruct t; try contradiction.
    + destruct (mlen_valid r V) as [E' _]. unfold mlen in E'. revert E. step. unfold mk_Cart2. discriminate.
    + revert E. step. discriminate.
  - destruct p; cbn in *; try contradiction; discriminate.
Qed.

(** ** 1-D *)
Lemma rep_Cart1_Radial m deg f kw x :
  represent_as m deg (S f) kw (finite (PCart1 x)) CRadial
  = (do _ <- check_nonneg (A:=ext) m (Some x); ret (finite (PRadial (mkDist KDistance x)))).
Proof. step. reflexivity. Qed.
Lemma rep_Radial_Cart1 m deg f kw r : valid_dist r ->
  represent_as m deg (S f) kw (finite (PRadial r)) CCart1 = Ok false (finite (PCart1 (len r))).
Proof.
  intros H. destruct (mlen_valid r H) as [E _]. unfold mlen in E.
  step. unfold mk_Cart1. rewrite E. reflexivity.
Qed.
Lemma rep_1D_self m deg f kw (p : pos ext) : one_d (cls_of p) ->
  represent_as m deg (S f) kw p (cls_of p) = Ok false p.
Proof. destruct p; cbn [cls_of one_d]; try contradiction; intros _; step; reflexivity. Qed.

(** ** Embeddings *)

(** [pt] is the point a lower-dimensional position becomes in the Cartesian
    family: missing coordinates appended. *)
Section Embed.
Variables (m : mode) (deg : bool) (f : nat).
Variables (kD ky kz : option R) (kth kph : option (ang R)).
Notation kw := (fkw kD ky kz kth kph).
Notation y := (rdflt ky). Notation z := (rdflt kz).
Notation th := (adflt kth). Notation ph := (adflt kph).

Lemma rep_Cart1_Cart2 x :
  represent_as m deg (S f) kw (finite (PCart1 x)) CCart2 = Ok false (finite (PCart2 x y)).
Proof. step. unfold mk_Cart2. ired. rewrite dflt_len. reflexivity. Qed.
Lemma rep_Cart1_Cart3 x :
  represent_as m deg (S f) kw (finite (PCart1 x)) CCart3 = Ok false (finite (PCart3 x y z)).
Proof. step. unfold mk_Cart3. ired. rewrite !dflt_len. reflexivity. Qed.
Lemma rep_Cart2_Cart3 x y' :
  represent_as m deg (S f) kw (finite (PCart2 x y')) CCart3 = Ok false (finite (PCart3 x y' z)).
Proof. step. unfold mk_Cart3. ired. rewrite !dflt_len. reflexivity. Qed.
Lemma rep_Cart1_Polar x :
  represent_as m deg (S f) kw (finite (PCart1 x)) CPolar
  = (do _ <- check_nonneg (A:=ext) m (Some x); ret (finite (PPolar (mkDist KDistance x) (azdflt kph)))).
Proof. step. unfold mk_Polar. ired. rewrite dflt_az. reflexivity. Qed.
Lemma rep_Cart1_Cyl x :
  represent_as m deg (S f) kw (finite (PCart1 x)) CCyl
  = (do _ <- check_nonneg (A:=ext) m (Some x); ret (finite (PCyl x (azdflt kph) z))).
Proof. step. unfold mk_Cyl. ired. rewrite dflt_az, dflt_len. reflexivity. Qed.
Lemma rep_Radial_Cart2 r :
  represent_as m deg (S f) kw (finite (PRadial r)) CCart2
  = match dk r with KDistance => Ok false (finite (PCart2 (dval r) y)) | _ => Raise EUnit end.
Proof. step. unfold as_length, mk_Cart2. ired. rewrite dflt_len. destruct r as [[] v]; reflexivity. Qed.
Lemma rep_Radial_Cart3 r :
  represent_as m deg (S f) kw (finite (PRadial r)) CCart3
  = match dk r with KDistance => Ok false (finite (PCart3 (dval r) y z)) | _ => Raise EUnit end.
Proof. step. unfold as_length, mk_Cart3. ired. rewrite !dflt_len. destruct r as [[] v]; reflexivity. Qed.
Lemma rep_Radial_Cyl r :
  represent_as m deg (S f) kw (finite (PRadial r)) CCyl
  = match dk r with
    | KDistance => (do _ <- check_nonneg (A:=ext) m (Some (dval r)); ret (finite (PCyl (dval r) (azdflt kph) z)))
    | _ => Raise EUnit end.
Proof.
  step. unfold as_length, mk_Cyl. ired. rewrite dflt_az, dflt_len. destruct r as [[] v]; try reflexivity.
  cbn [dist_map dk dval]. rewrite bind_ret_l. reflexivity.
Qed.
Lemma rep_Radial_Polar r :
  represent_as m deg (S f) kw (finite (PRadial r)) CPolar
  = (do _ <- check_nonneg (A:=ext) m (Some (dval r)); ret (finite (PPolar r (azdflt kph)))).
Proof. step. unfold mk_Polar. ired. rewrite dflt_az. reflexivity. Qed.
Lemma rep_Polar_Cyl r phi :
  represent_as m deg (S f) kw (finite (PPolar r phi)) CCyl
  = match dk r with
    | KDistance => (do _ <- check_nonneg (A:=ext) m (Some (dval r)); ret (finite (PCyl (dval r) phi z)))
    | _ => Raise EUnit end.
Proof.
  step. unfold as_length, mk_Cyl. ired. rewrite dflt_len. destruct r as [[] v]; try reflexivity.
  cbn [dist_map dk dval]. rewrite bind_ret_l. reflexivity.
Qed.
End Embed.
