(** * Property C57: conversions are correct in every choice of units.

    The other properties are about SI values.  Here the same conversion code runs on
    numbers that carry units and obey unxt's unit rules (UQ.v): each component of a
    vector may be in its own unit (x in kpc, y in m, phi in deg, ...).  Vocabulary:
    [uphys] = value times unit scale = the SI value; [is_a d q] = [q] is a quantity
    of dimension [d] in some unit of positive scale. *)
From Coq Require Import Reals Bool List ZArith Lra Lia.
From Verif Require Import Num Vectors Spec Transform Pos3D Pos3DThm RoundTrip Vel Units UQ Rel Scale UQThm PropPos.
Import ListNotations.
Open Scope R_scope.

Definition is_a (d : dim) (q : uq ext) : Prop := uqd q = Some d /\ 0 < uqs q.
(** a Distance, a Parallax (an angle), or a DistanceModulus (in mag) *)
Definition is_radial (r : dist (uq ext)) : Prop :=
  is_a (match dk r with KDistance => length_d | KParallax => angle_d | KDistMod => mag_d end) (dval r).
Definition pos_units (p : pos (uq ext)) : Prop :=
  match p with
  | PCart1 x => is_a length_d x
  | PRadial r => is_radial r
  | PCart2 x y => is_a length_d x /\ is_a length_d y
  | PPolar r phi => is_radial r /\ is_a angle_d phi
  | PTwoSphere a b => is_a angle_d a /\ is_a angle_d b
  | PCart3 x y z => is_a length_d x /\ is_a length_d y /\ is_a length_d z
  | PCyl rho phi z => is_a length_d rho /\ is_a angle_d phi /\ is_a length_d z
  | PSph r a b | PMSph r a b => is_radial r /\ is_a angle_d a /\ is_a angle_d b
  | PLonLat a b r => is_a angle_d a /\ is_a angle_d b /\ is_radial r
  | PProlate mu nu phi D => is_a area_d mu /\ is_a area_d nu /\ is_a angle_d phi /\ is_a length_d D
  end.
Definition given {T} (P : T -> Prop) (o : option T) : Prop := forall x, o = Some x -> P x.
Definition kw_units (kw : kwargs (uq ext)) : Prop :=
  given (is_a length_d) (kw_Delta kw) /\ given (is_a length_d) (kw_y kw) /\ given (is_a length_d) (kw_z kw) /\
  given (fun a => is_a angle_d (ang_val a)) (kw_theta kw) /\ given (fun a => is_a angle_d (ang_val a)) (kw_phi kw).
(** The SI values of all fields *)
Definition si (p : pos (uq ext)) : pos ext := pos_map uphys p.
Definition si_kw (kw : kwargs (uq ext)) : kwargs ext := kw_map uphys kw.

Lemma l1 q : is_a length_d q <-> relu (Len 1) q (uphys q). Proof. unfold is_a, relu. cbn. tauto. Qed.
Lemma l2 q : is_a area_d q <-> relu (Len 2) q (uphys q). Proof. unfold is_a, relu. cbn. tauto. Qed.
Lemma l3 q : is_a angle_d q <-> relu Ang q (uphys q). Proof. unfold is_a, relu. cbn. tauto. Qed.
Lemma l4 r : is_radial r <-> rdist relu False r (dist_map uphys r).
Proof. unfold is_radial, rdist, is_a, relu. destruct r as [[] v]; cbn; tauto. Qed.
Lemma relu_si p : pos_units p -> rpos relu False p (si p).
Proof.
  destruct p; cbn; rewrite ?l1, ?l2, ?l3, ?l4; tauto.
Qed.
Lemma relu_fun k (q : uq ext) x : relu k q x -> relu k q (uphys q) /\ x = uphys q.
Proof. intros R. assert (x = uphys q) by apply R. now subst. Qed.
Lemma rdist_fun (r : dist (uq ext)) r' : rdist relu False r r' -> rdist relu False r (dist_map uphys r) /\ r' = dist_map uphys r.
Proof.
  intros (E & ST & R). destruct r as [k v], r' as [k' v']. cbn in *. subst k'. destruct (relu_fun _ _ _ R) as [R' ->].
  split; [split; [reflexivity|split; [tauto|exact R']]|reflexivity].
Qed.
Lemma si_relu p P : rpos relu False p P -> pos_units p /\ P = si p.
Proof.
  destruct p, P; cbn [rpos pos_units si pos_map]; try tauto; rewrite ?l1, ?l2, ?l3, ?l4; intros H;
  repeat match goal with X : _ /\ _ |- _ => destruct X end;
  repeat match goal with
  | X : relu _ ?q ?x |- _ => lazymatch x with uphys _ => fail | _ => destruct (relu_fun _ _ _ X); clear X end
  | X : rdist relu _ ?q ?x |- _ => lazymatch x with dist_map _ _ => fail | _ => destruct (rdist_fun _ _ X); clear X end
  end; subst; auto; tauto.
Qed.
Lemma relu_kw kw : kw_units kw -> rkw relu kw (si_kw kw).
Proof.
  destruct kw as [kD ky kz kt kp]. unfold kw_units, given, rkw, si_kw, kw_map. cbn.
  intros (H1 & H2 & H3 & H4 & H5). repeat match goal with |- _ /\ _ => split end.
  - destruct kD; cbn; auto. now apply l1, H1.
  - destruct ky; cbn; auto. now apply l1, H2.
  - destruct kz; cbn; auto. now apply l1, H3.
  - destruct kt as [[]|]; cbn; auto; now apply l3, (H4 _ eq_refl).
  - destruct kp as [[]|]; cbn; auto; now apply l3, (H5 _ eq_refl).
Qed.

(** ** C57 *)
(** Any conversion, in any units: the same exception as for the SI values; or the
    same warning and a result with the right dimensions whose SI values are exactly
    those of the SI run.  No unit error can occur. *)
Theorem C57_conversion_in_any_units : forall m deg f kw p t, kw_units kw -> pos_units p ->
  match represent_as m deg f kw p t, represent_as m deg f (si_kw kw) (si p) t with
  | Ok w q, Ok w' Q => w = w' /\ pos_units q /\ si q = Q
  | Raise e, Raise e' => e = e'
  | _, _ => False
  end.
Proof.
  intros m deg f kw p t K U.
  pose proof (represent_as_rel relu False (relu_preserved scal_ext) m deg f kw (si_kw kw) p (si p) t (relu_kw _ K) (relu_si _ U)) as R.
  unfold rres in R. destruct (represent_as m deg f kw p t), (represent_as m deg f (si_kw kw) (si p) t); auto.
  destruct R as [-> R]. destruct (si_relu _ _ R) as [? ->]. auto.
Qed.
Print Assumptions C57_conversion_in_any_units.

(** Consequences.  The choice of units of the input does not matter: *)
Theorem C57_units_do_not_matter : forall m deg f kw kw' p p' t,
  kw_units kw -> kw_units kw' -> pos_units p -> pos_units p' -> si p = si p' -> si_kw kw = si_kw kw' ->
  match represent_as m deg f kw p t, represent_as m deg f kw' p' t with
  | Ok w q, Ok w' q' => w = w' /\ si q = si q'
  | Raise e, Raise e' => e = e'
  | _, _ => False
  end.
Proof.
  intros m deg f kw kw' p p' t K K' U U' E E'.
  pose proof (C57_conversion_in_any_units m deg f kw p t K U) as A.
  pose proof (C57_conversion_in_any_units m deg f kw' p' t K' U') as B. rewrite <- E, <- E' in B.
  destruct (represent_as m deg f kw p t), (represent_as m deg f kw' p' t), (represent_as m deg f (si_kw kw) (si p) t);
  try contradiction; try congruence.
  destruct A as (-> & _ & ->), B as (-> & _ & ->). auto.
Qed.
Print Assumptions C57_units_do_not_matter.

(** ... and a 3-D conversion in any mixture of units always succeeds (away from the
    origin) and gives the same point of space: *)
Theorem C57_same_point_in_any_units : forall m deg f kw p P t,
  kw_units kw -> pos_units p -> si p = finite P -> valid P -> length_radial P -> plain3 (cls_of P) -> plain3 t -> ~ at_origin P ->
  exists q Q, represent_as m deg (4 + f) kw p t = Ok false q /\ pos_units q /\ cls_of q = t /\
    si q = finite Q /\ valid Q /\ (forall pt, denotes P pt <-> denotes Q pt).
Proof.
  intros m deg f kw p P t K U E V L P1 T N.
  destruct (C01_represent_as_3d_total m deg f (si_kw kw) P t V P1 T L N) as (Q & EQ & CQ & VQ & DQ & _ & _).
  pose proof (C57_conversion_in_any_units m deg (4 + f) kw p t K U) as A. rewrite E in A.
  destruct (represent_as m deg (4 + f) kw p t) as [w q|e], (represent_as m deg (4 + f) (si_kw kw) (finite P) t) as [w' Q'|e'];
  try contradiction; try discriminate.
  injection EQ as -> ->. destruct A as (-> & Uq & Eq). exists q, Q. repeat match goal with |- _ /\ _ => split end; auto.
  rewrite <- CQ. transitivity (cls_of (si q)). { destruct q; reflexivity. } rewrite Eq. destruct Q; reflexivity.
Qed.
Print Assumptions C57_same_point_in_any_units.

(** ** The units of the results *)
Definition q_ (d : dim) (v s : R) : uq ext := mkUq (A:=ext) (Some v) (Some d) s.
Definition unit_of (q : uq ext) : udim_ * R := (uqd q, uqs q).
(** Cartesian to cylindrical: [rho] comes in the unit of [x] (whatever the unit of
    [y]), [phi] in radian, [z] keeps its unit and value. *)
Theorem C57_units_of_cylindrical : forall m deg f kw x y z sx sy sz, 0 < sx -> 0 < sy -> 0 < sz ->
  exists rho phi, represent_as m deg (4 + f) kw (PCart3 (q_ length_d x sx) (q_ length_d y sy) (q_ length_d z sz)) CCyl
    = Ok false (PCyl rho phi (q_ length_d z sz)) /\
    unit_of rho = (Some length_d, sx) /\ unit_of phi = (Some angle_d, 1) /\
    uqv rho = Some (sqrt (x * x + (y * sy / sx) * (y * sy / sx))).
Proof.
  intros m deg f kw x y z sx sy sz Hx Hy Hz. change (4 + f)%nat with (S (3 + f)).
  step. unfold mk_Cyl, nsq.
  assert (SQ : sqrt (sx * sx) = sx) by (apply sqrt_square; lra).
  set (rho := nsqrt _). assert (Er : rho = mkUq (A:=ext) (Some (sqrt (x * x + (y * sy / sx) * (y * sy / sx)))) (Some length_d) sx).
  { unfold rho, q_. cbn. rewrite SQ. f_equal. unfold esqrt.
    replace (sy * sy / (sx * sx) * (y * y)) with ((y * sy / sx) * (y * sy / sx)) by (field; lra).
    pose proof (Rle_0_sqr x). pose proof (Rle_0_sqr (y * sy / sx)). unfold Rsqr in *.
    match goal with |- context [Rleb ?a ?b] => destruct (Rleb a b) eqn:Q end; auto. apply Rleb_false in Q. lra. }
  rewrite Er. set (r := sqrt _). assert (Hr : 0 <= r) by apply sqrt_pos.
  assert (Ck : check_nonneg m (mkUq (A:=ext) (Some r) (Some length_d) sx) = ret tt).
  { destruct m; auto. unfold check_nonneg. cbn. rewrite Rmult_0_r. destruct (Rltb r 0) eqn:Q; auto. apply Rltb_true in Q. lra. }
  rewrite Ck. unfold ret. rewrite bind_ok.
  eexists _, _. split; [reflexivity|]. cbn. repeat split.
Qed.
Print Assumptions C57_units_of_cylindrical.

(** Not vacuous: a position in kpc, m, pc; a wrong dimension does not satisfy
    [pos_units], and gives a dimension error. *)
Example C57_case : pos_units (PCart3 (q_ length_d 8 (3.0857e19)) (q_ length_d 2 1) (q_ length_d 3 (3.0857e16))).
Proof. cbn. unfold is_a. cbn. repeat split; auto; lra. Qed.
Definition seconds_d : dim := mkDim 0 0 1 0 0.
Example C57_wrong_dimension : forall x y s t, 0 < s -> 0 < t ->
  uqd (nadd (nsq (q_ length_d x s)) (nsq (q_ seconds_d y t))) = None.
Proof. reflexivity. Qed.
