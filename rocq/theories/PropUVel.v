(** * Property C58: velocities and accelerations convert correctly in every choice
      of units.

    As C57, for velocities and accelerations: the code differentiates the conversion
    of the *stored* numbers, puts the unit of the row over that of the column on each
    entry, and multiplies by components in yet other units.  Vocabulary: PropUQ.v;
    [vel_units], [acc_units]: every component has the dimension its field declares
    (Units.v, from the class bodies). *)
From Coq Require Import Reals Bool List ZArith Lra Lia.
From Verif Require Import Num Vectors Spec Transform Pos3D Pos3DThm RoundTrip Vel SpecVel Units UQ Scale Rel UQThm UVel UVelThm PropPos PropVel PropUQ.
Import ListNotations.
Open Scope R_scope.

Definition declared (f : fkind) (q : uq ext) : Prop := match f with FQ d => is_a d q | _ => False end.
Definition vel_units (v : vel (uq ext)) : Prop := Forall2 declared (fields_of (TVel (vc v))) (vcomps v).
Definition acc_units (a : acc (uq ext)) : Prop := Forall2 declared (fields_of (TAcc (xc a))) (xcomps a).
Definition si_vel (v : vel (uq ext)) : vel ext := mkVel (vc v) (map uphys (vcomps v)).
Definition si_acc (a : acc (uq ext)) : acc ext := mkAcc (xc a) (map uphys (xcomps a)).

Lemma Forall2_len {T U} (P : T -> U -> Prop) a b : Forall2 P a b -> length a = length b.
Proof. induction 1; cbn; auto. Qed.
Lemma du_is_a d q : du d q (uphys q) <-> is_a d q. Proof. unfold du, is_a. tauto. Qed.
Lemma comps_fwd {K} (g : K -> dim) (ks : list K) (fs : list fkind) u : fs = map (fun k => FQ (g k)) ks ->
  Forall2 declared fs u -> all3 (fun k => du (g k)) ks u (map uphys u).
Proof.
  intros -> F. revert u F. induction ks as [|k ks IH]; intros u F; cbn in F; inversion F; subst; cbn; auto.
  split; auto. now apply du_is_a.
Qed.
Lemma comps_bwd {K} (g : K -> dim) (ks : list K) (fs : list fkind) : fs = map (fun k => FQ (g k)) ks ->
  forall u x, all3 (fun k => du (g k)) ks u x -> Forall2 declared fs u /\ x = map uphys u.
Proof.
  intros ->. induction ks as [|k ks IH]; intros [|q u] [|y x]; cbn; try tauto.
  - intros _. split; auto.
  - intros [D H]. destruct (IH _ _ H) as [F ->]. pose proof D as (_ & _ & ->). split; auto. constructor; auto. now apply du_is_a.
Qed.
Lemma vel_fields c : fields_of (TVel c) = map (fun k => FQ (per 1 (dim_kind k))) (kinds (integral_cls c)).
Proof. destruct c; reflexivity. Qed.
Lemma acc_fields c : fields_of (TAcc c) = map (fun k => FQ (per 2 (dim_kind k))) (kinds (integral_cls (acc_integral_cls c))).
Proof. destruct c; reflexivity. Qed.
Lemma vrel_fwd v : vel_units v -> vrel v (si_vel v).
Proof. intros U. split; [reflexivity|]. exact (comps_fwd _ _ _ _ (vel_fields _) U). Qed.
Lemma vrel_bwd v V : vrel v V -> vel_units v /\ V = si_vel v.
Proof.
  intros [E C]. unfold comps_rel in C. rewrite <- E in C. destruct (comps_bwd _ _ _ (vel_fields (vc v)) _ _ C) as [F X].
  split; auto. destruct V; cbn in *; subst; reflexivity.
Qed.
Lemma xrel_fwd v : acc_units v -> xrel v (si_acc v).
Proof. intros U. split; [reflexivity|]. exact (comps_fwd _ _ _ _ (acc_fields _) U). Qed.
Lemma xrel_bwd v V : xrel v V -> acc_units v /\ V = si_acc v.
Proof.
  intros [E C]. unfold comps_rel in C. rewrite <- E in C. destruct (comps_bwd _ _ _ (acc_fields (xc v)) _ _ C) as [F X].
  split; auto. destruct V; cbn in *; subst; reflexivity.
Qed.

(** ** C58 *)
(** A velocity in any units at a position in any units: the same exception as for the
    SI values; or the same warning and a velocity with the declared dimensions whose
    SI values are exactly those of the SI run.  No unit error can occur. *)
Theorem C58_velocity_in_any_units : forall m deg f kw v t p, kw_units kw -> vel_units v -> pos_units p ->
  match uvel_represent_as m deg f kw v t p, vel_represent_as m deg f (si_kw kw) (si_vel v) t (si p) with
  | Ok w q, Ok w' Q => w = w' /\ vel_units q /\ si_vel q = Q
  | Raise e, Raise e' => e = e'
  | _, _ => False
  end.
Proof.
  intros m deg f kw v t p K V U.
  pose proof (vel_rel m deg f kw (si_kw kw) v (si_vel v) t p (si p) (relu_kw _ K) (vrel_fwd _ V) (relu_si _ U)) as R.
  unfold rres in R. destruct (uvel_represent_as m deg f kw v t p), (vel_represent_as m deg f (si_kw kw) (si_vel v) t (si p)); auto.
  destruct R as [-> R]. destruct (vrel_bwd _ _ R) as [? ->]. auto.
Qed.
Print Assumptions C58_velocity_in_any_units.

Theorem C58_acceleration_in_any_units : forall m deg f kw a t v p, kw_units kw -> acc_units a -> vel_units v -> pos_units p ->
  match uacc_represent_as m deg f kw a t v p, acc_represent_as m deg f (si_kw kw) (si_acc a) t (si_vel v) (si p) with
  | Ok w q, Ok w' Q => w = w' /\ acc_units q /\ si_acc q = Q
  | Raise e, Raise e' => e = e'
  | _, _ => False
  end.
Proof.
  intros m deg f kw a t v p K X V U.
  pose proof (acc_rel m deg f kw (si_kw kw) a (si_acc a) t v (si_vel v) p (si p) (relu_kw _ K) (xrel_fwd _ X) (vrel_fwd _ V) (relu_si _ U)) as R.
  unfold rres in R. destruct (uacc_represent_as m deg f kw a t v p), (acc_represent_as m deg f (si_kw kw) (si_acc a) t (si_vel v) (si p)); auto.
  destruct R as [-> R]. destruct (xrel_bwd _ _ R) as [? ->]. auto.
Qed.
Print Assumptions C58_acceleration_in_any_units.

(** With C19: in any mixture of units, the converted velocity is the same motion in
    space. *)
Theorem C58_same_motion_in_any_units : forall m deg f kw p P v V t pt,
  kw_units kw -> vel_units v -> pos_units p -> si p = finite P -> si_vel v = vfinite V ->
  valid P -> plain3 (cls_of P) -> ~ negative_field P -> off_axis P -> denotes P pt ->
  vplain3 (vc V) -> vplain3 t ->
  exists u U, uvel_represent_as m deg (4 + f) kw v t p = Ok false u /\ vel_units u /\ vc u = t /\ si_vel u = vfinite U /\
    forall a b w, valid a -> valid b -> denotes a pt -> denotes b pt ->
      cls_of a = integral_cls (vc V) -> cls_of b = integral_cls t ->
      (vel_means a V w <-> vel_means b U w).
Proof.
  intros m deg f kw p P v V t pt K HV HP Ep Ev VP PP NN O D Pv Pt.
  assert (L : length (vcomps V) = 3%nat).
  { assert (Q : length (map uphys (vcomps v)) = length (map (@Some R) (vcomps V))) by (change (length (vcomps (si_vel v)) = length (vcomps (vfinite V))); now rewrite Ev).
    assert (C : vc v = vc V) by (change (vc (si_vel v) = vc (vfinite V)); now rewrite Ev).
    rewrite !map_length in Q. rewrite <- Q. apply Forall2_len in HV.
    rewrite C in HV. destruct (vc V); cbn in Pv, HV; try contradiction; congruence. }
  destruct (C19_velocity_keeps_meaning_3d m deg f (si_kw kw) P V t pt VP PP NN O D Pv Pt L) as (V' & E & C & M).
  pose proof (C58_velocity_in_any_units m deg (4 + f) kw v t p K HV HP) as A. rewrite Ep, Ev in A.
  destruct (uvel_represent_as m deg (4 + f) kw v t p) as [w u|e], (vel_represent_as m deg (4 + f) (si_kw kw) (vfinite V) t (finite P)) as [w' U'|e'];
  try contradiction; try discriminate.
  injection E as -> ->. destruct A as (-> & Uu & Eu). exists u, V'. repeat match goal with |- _ /\ _ => split end; auto.
  change (vc (si_vel u) = t). now rewrite Eu.
Qed.
Print Assumptions C58_same_motion_in_any_units.

(** Not vacuous: km/s, deg/yr and pc/Myr. *)
Example C58_case : vel_units (mkVel WCyl [q_ speed_d 220 1000; q_ angspeed_d 3 (1/100); q_ speed_d 1 977]).
Proof. repeat constructor; cbn; lra. Qed.
(** A wrong dimension in a velocity component shows up as a dimension error. *)
Example C58_wrong_dimension : forall a b s t, 0 < s -> 0 < t ->
  uqd (nadd (q_ speed_d a s) (q_ acc_d b t)) = None.
Proof. reflexivity. Qed.

(** ** The units of the results *)
(** Cartesian to cylindrical, position in units (sx, sy, sz), velocity in units
    (ux, uy, uz): d_rho comes in the unit of d_x; d_phi in rad * ux / sx; d_z in
    sz / sx * ux, which is the unit of d_x when x and z have the same unit (not the
    unit d_z was given in). *)
Theorem C58_units_of_cylindrical_velocity : forall m deg f kw x y z sx sy sz a b c ux uy uz,
  0 < sx -> 0 < sy -> 0 < sz -> 0 < ux -> 0 < uy -> 0 < uz ->
  exists d_rho d_phi d_z,
    uvel_represent_as m deg (4 + f) kw (mkVel WCart3 [q_ speed_d a ux; q_ speed_d b uy; q_ speed_d c uz]) WCyl
      (PCart3 (q_ length_d x sx) (q_ length_d y sy) (q_ length_d z sz)) = Ok false (mkVel WCyl [d_rho; d_phi; d_z]) /\
    unit_of d_rho = (Some speed_d, ux) /\ unit_of d_phi = (Some angspeed_d, ux / sx) /\
    unit_of d_z = (Some speed_d, sz / sx * ux).
Proof.
  intros m deg f kw x y z sx sy sz a b c ux uy uz Hx Hy Hz Ha Hb Hc. change (4 + f)%nat with (S (3 + f)).
  unfold uvel_represent_as, pvel_represent_as. cbn [vc vcls_eqb andb negb vdim integral_cls dim_of Nat.eqb].
  unfold pvel_generic. cbn [vc integral_cls]. step. unfold ret. rewrite !bind_ok. cbn [pcast_distance]. unfold ret. rewrite !bind_ok.
  cbn [can_map]. unfold ret at 1. rewrite bind_ok. unfold ujacobian. cbn [components length seq combine mapM].
  assert (COL : forall ix, exists r1 r2 r3, ujac_column deg (S (3 + f)) kw (PCart3 (q_ length_d x sx) (q_ length_d y sy) (q_ length_d z sz)) CCyl ix = Ok false
     [mkUq r1 (dim2 dim_div (Some length_d) (uqd (snd ix))) (sx / uqs (snd ix));
      mkUq r2 (dim2 dim_div (Some angle_d) (uqd (snd ix))) (1 / uqs (snd ix));
      mkUq r3 (dim2 dim_div (Some length_d) (uqd (snd ix))) (sz / uqs (snd ix))]).
  { intros ix. unfold ujac_column. cbn [components length useed]. step. unfold mk_Cyl, check_nonneg, ret. rewrite !bind_ok.
    cbn [components map]. unfold jac_entry at 1 2 3. do 3 eexists. f_equal.
    repeat (apply f_equal2); try reflexivity.
    - cbn. rewrite sqrt_square by lra. reflexivity. }
  destruct (COL (0%nat, q_ length_d x sx)) as (r1 & r2 & r3 & E1). destruct (COL (1%nat, q_ length_d y sy)) as (r4 & r5 & r6 & E2).
  destruct (COL (2%nat, q_ length_d z sz)) as (r7 & r8 & r9 & E3).
  rewrite E1, bind_ok, E2, bind_ok, E3, bind_ok. unfold ret. rewrite !bind_ok. cbn [vcomps umatvec map combine].
  do 3 eexists. split; [reflexivity|]. unfold unit_of. cbn. repeat split; f_equal; field; lra.
Qed.
Print Assumptions C58_units_of_cylindrical_velocity.
