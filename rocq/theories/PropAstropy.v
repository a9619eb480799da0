(** * C46: exchanging vectors with astropy *)
From Coq Require Import Reals Bool List Lra.
From Verif Require Import Num Vectors Spec Transform Vel Astropy.
Import ListNotations.
Open Scope R_scope.

(** ** Specification: what the astropy objects mean (astropy's documentation) *)
Definition ameans (r : arep R) : list R :=
  match r with
  | RCart x y z => [x; y; z]
  | RCyl rho phi z => [rho * cos phi; rho * sin phi; z]
  | RPhys phi theta r => [r * sin theta * cos phi; r * sin theta * sin phi; r * cos theta]
  | RSph lon lat d => [d * cos lat * cos lon; d * cos lat * sin lon; d * sin lat]
  end.
(** the ranges of astropy's own objects *)
Definition agood (r : arep R) : Prop :=
  match r with
  | RCart _ _ _ => True
  | RCyl rho _ _ => 0 <= rho
  | RPhys phi theta r => 0 <= phi < 2 * PI /\ 0 <= theta <= PI /\ 0 <= r
  | RSph lon lat d => 0 <= lon < 2 * PI /\ - (PI / 2) <= lat <= PI / 2 /\ 0 <= d
  end.
Definition rep_map {A B} (f : A -> B) (r : arep A) : arep B :=
  match r with
  | RCart x y z => RCart (f x) (f y) (f z) | RCyl a b c => RCyl (f a) (f b) (f c)
  | RPhys a b c => RPhys (f a) (f b) (f c) | RSph a b c => RSph (f a) (f b) (f c)
  end.
Definition afin (r : arep R) : arep ext := rep_map (B:=ext) (@Some R) r.
(** astropy's own change of representation: keeps the point, returns the class asked
    for (itself if it has that class already) with components in range. *)
Definition astropy_ok (apy : arep ext -> acl -> arep ext) : Prop :=
  (forall r, apy r (acl_of r) = r) /\
  forall r t, agood r -> exists r', apy (afin r) t = afin r' /\ acl_of r' = t /\ agood r' /\ ameans r' = ameans r.

(** the four classes with an astropy counterpart *)
Definition counterpart (c : pcls) : option acl :=
  match c with CCart3 => Some ACart | CCyl => Some ACyl | CSph => Some APhys | CLonLat => Some ASph | _ => None end.

(** ** Helpers *)
Lemma Rltb_no x y : y <= x -> Rltb x y = false.
Proof. intros. apply Rltb_false. lra. Qed.
Lemma nonneg_ok x : 0 <= x -> check_nonneg (A:=ext) Eager (Some x) = ret tt.
Proof. intros. unfold check_nonneg. cbn. now rewrite Rltb_no. Qed.
Lemma polar_ok l u x : l <= x <= u -> check_polar (A:=ext) Eager (Some l) (Some u) (Some x) = ret tt.
Proof. intros. unfold check_polar. cbn. now rewrite !Rltb_no by lra. Qed.

(** The position object with its azimuth wrapped. *)
Definition wrapped (p : pos R) : pos R :=
  match p with
  | PCyl rho phi z => PCyl rho (Rwrap phi) z
  | PSph r theta phi => PSph r theta (Rwrap phi)
  | PLonLat lon lat d => PLonLat (Rwrap lon) lat d
  | p => p
  end.

(** ** To astropy: the same point, in the counterpart class *)
Theorem C46_to_astropy (v : pos R) a T :
  counterpart (cls_of v) = Some a -> valid v -> length_radial v -> T = None \/ T = Some a ->
  exists r, convert_to_apy (finite v) T = Ok false (afin r) /\ acl_of r = a /\ agood r /\ denotes v (ameans r).
Proof.
  intros C V L HT.
  assert (E : existsb (applies (cls_of (finite v)) T) converters = true).
  { destruct v; try discriminate C; injection C as <-; destruct HT as [->| ->]; reflexivity. }
  unfold convert_to_apy. rewrite E. pose proof PI_pos.
  destruct v as [| | | | |x y z|rho phi z|[k r] theta phi| |lon lat [k d]|]; try discriminate C; injection C as <-; cbn in V, L; subst.
  - exists (RCart x y z). repeat split.
  - exists (RCyl rho phi z). repeat split; auto.
  - destruct V as [Vr Vt]; cbn in Vr. exists (RPhys (Rwrap phi) theta r). cbn. unfold apy_phys. cbn.
    rewrite !Rltb_no by lra. cbn. pose proof (Rwrap_range phi).
    rewrite cos_Rwrap, sin_Rwrap. repeat split; auto; lra.
  - destruct V as [Vr Vt]; cbn in Vr. exists (RSph (Rwrap lon) lat d). cbn. unfold apy_sph. cbn.
    rewrite !Rltb_no by lra. cbn. pose proof (Rwrap_range lon).
    rewrite cos_Rwrap, sin_Rwrap. repeat split; auto; lra.
Qed.

Section Back.
Variable apy : arep ext -> acl -> arep ext.
Hypothesis HA : astropy_ok apy.

(** ** From astropy: any representation, any of the four classes *)
Theorem C46_from_astropy c a (r : arep R) : counterpart c = Some a -> agood r ->
  exists v, from_apy apy c (afin r) = Ok false (finite v) /\ cls_of v = c /\ valid v /\ azimuth_in_range v /\
            denotes v (ameans r).
Proof.
  intros C G. destruct (proj2 HA r a G) as (r' & E & Ca & G' & M). rewrite <- M.
  destruct c; try discriminate C; injection C as <-; cbn [from_apy]; unfold from_Cart3, from_Cyl, from_SphPos, from_LonLatPos;
    rewrite E; destruct r' as [x y z|rho phi z|phi theta l|lon lat d]; try discriminate Ca; cbn in G'.
  - exists (PCart3 x y z). repeat split.
  - exists (PCyl rho (Rwrap phi) z). cbn [afin rep_map]. unfold mk_Cyl. rewrite nonneg_ok by auto.
    pose proof (Rwrap_range phi). cbn. rewrite cos_Rwrap, sin_Rwrap. repeat split; auto; lra.
  - destruct G' as (Gp & Gt & Gl). exists (PSph (mkDist KDistance l) theta (Rwrap phi)). cbn [afin rep_map]. unfold mk_Sph.
    cbn [conv_r length_of_kind dval dk]. rewrite nonneg_ok by auto.
    pose proof (polar_ok 0 PI theta Gt) as Q. change (nang (A:=ext) 0) with (Some 0 : ext). change (nang (A:=ext) PI) with (Some PI : ext).
    rewrite Q. pose proof (Rwrap_range phi). cbn. rewrite cos_Rwrap, sin_Rwrap. repeat split; auto; lra.
  - destruct G' as (Gp & Gt & Gl). exists (PLonLat (Rwrap lon) lat (mkDist KDistance d)). cbn [afin rep_map]. unfold mk_LonLat.
    cbn [conv_r length_of_kind dval dk].
    pose proof (polar_ok (- (PI/2)) (PI/2) lat Gt) as Q.
    change (nneg (nang (A:=ext) (PI/2))) with (Some (- (PI/2)) : ext). change (nang (A:=ext) (PI/2)) with (Some (PI/2) : ext).
    rewrite Q. rewrite nonneg_ok by auto. pose proof (Rwrap_range lon). cbn. rewrite cos_Rwrap, sin_Rwrap. repeat split; auto; lra.
Qed.

(** ** Round trip coordinax -> astropy -> coordinax: the same object, azimuth wrapped *)
Theorem C46_round_trip (v : pos R) a :
  counterpart (cls_of v) = Some a -> valid v -> length_radial v ->
  exists r, convert_to_apy (finite v) (Some a) = Ok false r /\
            convert_from_apy apy r (cls_of v) = Ok false (finite (wrapped v)) /\
            from_apy apy (cls_of v) r = Ok false (finite (wrapped v)).
Proof.
  intros C V L.
  destruct (C46_to_astropy v a (Some a) C V L (or_intror eq_refl)) as (r & E & Ca & G & _).
  exists (afin r). split; [exact E|]. pose proof (proj1 HA (afin r)) as I. assert (Ia : acl_of (afin r) = a) by now destruct r.
  rewrite Ia in I. pose proof PI_pos.
  assert (K : from_apy apy (cls_of v) (afin r) = Ok false (finite (wrapped v))).
  { destruct v as [| | | | |x y z|rho phi z|[k d] theta phi| |lon lat [k d]|]; try discriminate C; injection C as <-; cbn in V, L; subst;
    cbn [cls_of from_apy]; unfold from_Cart3, from_Cyl, from_SphPos, from_LonLatPos; rewrite I;
    unfold convert_to_apy in E; cbn in E.
    - injection E as E. rewrite <- E. reflexivity.
    - injection E as E. rewrite <- E. unfold mk_Cyl. rewrite nonneg_ok by auto. reflexivity.
    - destruct V as [Vr Vt]; cbn in Vr. unfold apy_phys in E. cbn in E. rewrite !Rltb_no in E by lra. cbn in E. injection E as E. rewrite <- E.
      unfold mk_Sph. cbn [conv_r length_of_kind dval dk]. rewrite nonneg_ok by auto.
      pose proof (polar_ok 0 PI theta Vt) as Q. change (nang (A:=ext) 0) with (Some 0 : ext). change (nang (A:=ext) PI) with (Some PI : ext).
      rewrite Q. cbn. rewrite (Rwrap_id (Rwrap phi)) by apply Rwrap_range. reflexivity.
    - destruct V as [Vr Vt]; cbn in Vr. unfold apy_sph in E. cbn in E. rewrite !Rltb_no in E by lra. cbn in E. injection E as E. rewrite <- E.
      unfold mk_LonLat. cbn [conv_r length_of_kind dval dk].
      pose proof (polar_ok (- (PI/2)) (PI/2) lat Vt) as Q.
      change (nneg (nang (A:=ext) (PI/2))) with (Some (- (PI/2)) : ext). change (nang (A:=ext) (PI/2)) with (Some (PI/2) : ext).
      rewrite Q. rewrite nonneg_ok by auto. cbn. rewrite (Rwrap_id (Rwrap lon)) by apply Rwrap_range. reflexivity. }
  split; [|exact K]. unfold convert_from_apy. rewrite Ia.
  destruct v; try discriminate C; injection C as <-; exact K.
Qed.
Theorem C46_round_trip_exact (v : pos R) a :
  counterpart (cls_of v) = Some a -> valid v -> length_radial v -> azimuth_in_range v ->
  exists r, convert_to_apy (finite v) (Some a) = Ok false r /\ convert_from_apy apy r (cls_of v) = Ok false (finite v).
Proof.
  intros C V L Z. destruct (C46_round_trip v a C V L) as (r & E & F & _). exists r. split; [exact E|]. rewrite F. do 2 f_equal.
  destruct v; try discriminate C; cbn in Z |- *; rewrite ?(Rwrap_id _ Z); reflexivity.
Qed.

(** [convert(rep, cls)] succeeds only for the class of the representation, and gives
    that class: no conversion by relabelling the components. *)
Theorem C46_convert_only_counterparts (r : arep ext) c w v : convert_from_apy apy r c = Ok w v ->
  counterpart c = Some (acl_of r) /\ cls_of v = c.
Proof.
  unfold convert_from_apy, from_apy, from_Cart3, from_Cyl, from_SphPos, from_LonLatPos. intros H.
  destruct (acl_of r), c; try discriminate H; split; auto.
  all: match type of H with context [apy ?q ?a] => destruct (apy q a); try discriminate H end.
  all: unfold mk_Cart3, mk_Cyl, mk_Sph, mk_LonLat in H; repeat (match type of H with bind ?c _ = _ => destruct c; [cbn in H|discriminate H] end);
    unfold ret in H; cbn in H; repeat (match type of H with context [if ?b then Raise _ else _] => destruct b; cbn in H; try discriminate H end);
    injection H as _ <-; reflexivity.
Qed.

(** ** Round trip astropy -> coordinax -> astropy *)
Theorem C46_astropy_round_trip (r : arep R) c : counterpart c = Some (acl_of r) -> agood r ->
  (forall rho phi z, r = RCyl rho phi z -> 0 <= phi < 2 * PI) ->
  exists v, convert_from_apy apy (afin r) c = Ok false v /\ convert_to_apy v (Some (acl_of r)) = Ok false (afin r).
Proof.
  intros C G Hc. pose proof (proj1 HA (afin r)) as I. pose proof PI_pos.
  destruct r as [x y z|rho phi z|phi theta l|lon lat d]; cbn in G; destruct c; try discriminate C; cbn [afin rep_map acl_of] in *; unfold convert_from_apy; cbn [acl_of from_apy];
    unfold from_Cart3, from_Cyl, from_SphPos, from_LonLatPos; rewrite I.
  - eexists; split; reflexivity.
  - specialize (Hc _ _ _ eq_refl). unfold mk_Cyl. rewrite nonneg_ok by auto. eexists; split; [reflexivity|]. cbn. rewrite (Rwrap_id phi) by auto. reflexivity.
  - destruct G as (Gp & Gt & Gl). unfold mk_Sph. cbn [conv_r length_of_kind dval dk]. rewrite nonneg_ok by auto.
    pose proof (polar_ok 0 PI theta Gt) as Q. change (nang (A:=ext) 0) with (Some 0 : ext). change (nang (A:=ext) PI) with (Some PI : ext).
    rewrite Q. eexists; split; [reflexivity|]. unfold convert_to_apy. cbn. unfold apy_phys. cbn. rewrite !Rltb_no by lra. cbn.
    rewrite !(Rwrap_id phi) by auto. reflexivity.
  - destruct G as (Gp & Gt & Gl). unfold mk_LonLat. cbn [conv_r length_of_kind dval dk].
    pose proof (polar_ok (- (PI/2)) (PI/2) lat Gt) as Q.
    change (nneg (nang (A:=ext) (PI/2))) with (Some (- (PI/2)) : ext). change (nang (A:=ext) (PI/2)) with (Some (PI/2) : ext).
    rewrite Q. rewrite nonneg_ok by auto. eexists; split; [reflexivity|]. unfold convert_to_apy. cbn. unfold apy_sph. cbn. rewrite !Rltb_no by lra. cbn.
    rewrite !(Rwrap_id lon) by auto. reflexivity.
Qed.

(** ** Findings *)
(** MathSphericalPos.from_(rep) and ProlateSpheroidalPos.from_(rep) do not return the
    class they were called on. *)
Theorem C46_from_other_class_refuted c (r : arep R) : c = CMSph \/ c = CProlate -> agood r ->
  exists v, from_apy apy c (afin r) = Ok false (finite v) /\ cls_of v <> c /\ denotes v (ameans r).
Proof.
  intros C G. pose (c' := match acl_of r with ACart => CCart3 | ACyl => CCyl | APhys => CSph | ASph => CLonLat end).
  assert (Hc : counterpart c' = Some (acl_of r)) by (unfold c'; now destruct r).
  destruct (C46_from_astropy c' _ r Hc G) as (v & E & Cv & _ & _ & D). exists v.
  split; [|split]; auto.
  - rewrite <- E. unfold c'. destruct C as [-> | ->]; destruct r; reflexivity.
  - rewrite Cv. unfold c'. destruct C as [-> | ->]; destruct r; discriminate.
Qed.
(** A negative cylindrical radius is legal in astropy but refused here. *)
Theorem C46_negative_rho_refused rho phi z : rho < 0 ->
  convert_from_apy apy (afin (RCyl rho phi z)) CCyl = Raise ENegative.
Proof.
  intros H. cbn [convert_from_apy acl_of afin rep_map from_apy]. unfold convert_from_apy. cbn [acl_of afin rep_map from_apy]. unfold from_Cyl.
  pose proof (proj1 HA (afin (RCyl rho phi z))) as I. cbn [acl_of afin rep_map] in I. rewrite I.
  unfold mk_Cyl, check_nonneg. cbn. assert (Rltb rho 0 = true) as -> by (now apply Rltb_true). reflexivity.
Qed.
End Back.

(** The target class given to [convert] is ignored: every position class with a
    counterpart converts to its counterpart whatever representation is asked for -
    except that nothing is wrong when the counterpart or the base class is asked for. *)
Theorem C46_convert_ignores_target_refuted (v : pos R) a : counterpart (cls_of v) = Some a -> valid v -> length_radial v ->
  forall T, exists r, convert_to_apy (finite v) T = Ok false (afin r) /\ acl_of r = a.
Proof.
  intros C V L T.
  destruct (C46_to_astropy v a None C V L (or_introl eq_refl)) as (r & E & Ca & _). exists r. split; [|exact Ca].
  rewrite <- E. unfold convert_to_apy. destruct v; try discriminate C; destruct T as [[]|]; reflexivity.
Qed.
(** Classes without a counterpart raise. *)
Theorem C46_no_counterpart_raises (v : pos ext) T : counterpart (cls_of v) = None -> convert_to_apy v T = Raise EType.
Proof. intros C. unfold convert_to_apy. destruct v; try discriminate C; reflexivity. Qed.

(** ** Velocities: lossless both ways, components matched by name *)
Definition d_named (d : adif R) : vcls :=
  match d with DCart _ _ _ => WCart3 | DCyl _ _ _ => WCyl | DPhys _ _ _ => WSph | DSph _ _ _ => WLonLat | DCosLat _ _ _ => WLonCosLat end.
Theorem C46_velocity_round_trip (v : vel R) : In (vc v) [WCart3; WCyl; WSph; WLonLat; WLonCosLat] -> length (vcomps v) = 3%nat ->
  exists d, vel_to_apy v = Ok false d /\ d_named d = vc v /\ vel_from_apy (vc v) d = Ok false v.
Proof.
  destruct v as [c [|x [|y [|z [|? ?]]]]]; cbn [vc vcomps]; intros H N; try discriminate N.
  cbn in H. repeat (destruct H as [<-|H]; [eexists; repeat split|]). contradiction.
Qed.
Theorem C46_differential_round_trip (d : adif R) : exists v, vel_from_apy (d_named d) d = Ok false v /\ vel_to_apy v = Ok false d.
Proof. destruct d; eexists; split; reflexivity. Qed.
(** The physics-spherical components keep their names. *)
Theorem C46_spherical_differential_names (d_r d_theta d_phi : R) :
  vel_to_apy (mkVel WSph [d_r; d_theta; d_phi]) = Ok false (DPhys d_phi d_theta d_r).
Proof. reflexivity. Qed.
(** Finding: a velocity class returns the class of the differential, not its own. *)
Theorem C46_velocity_from_other_class_refuted (d : adif R) c : In c [WCart3; WCyl; WSph; WMSph; WLonLat; WLonCosLat; WProlate] -> c <> d_named d ->
  exists v, vel_from_apy c d = Ok false v /\ vc v <> c.
Proof.
  intros H N. exists (vel_of_apy d). split.
  - cbn in H. repeat (destruct H as [<-|H]; [reflexivity|]). contradiction.
  - intros E. apply N. rewrite <- E. now destruct d.
Qed.

(** ** The hypotheses are met: an astropy conversion with these properties *)
Definition cart_of (r : arep R) : R * R * R :=
  match ameans r with [x; y; z] => (x, y, z) | _ => (0, 0, 0) end.
Definition apy0R (r : arep R) (t : acl) : arep R :=
  if acl_eqb (acl_of r) t then r else
  let '(x, y, z) := cart_of r in
  let rho := sqrt (x * x + y * y) in let l := sqrt (z * z + rho * rho) in
  match t with
  | ACart => RCart x y z
  | ACyl => RCyl rho (Rwrap (Ratan2 y x)) z
  | APhys => RPhys (Rwrap (Ratan2 y x)) (Ratan2 rho z) l
  | ASph => RSph (Rwrap (Ratan2 y x)) (PI / 2 - Ratan2 rho z) l
  end.
Definition apy0 (r : arep ext) (t : acl) : arep ext :=
  if acl_eqb (acl_of r) t then r else
  match r with
  | RCart (Some x) (Some y) (Some z) => afin (apy0R (RCart x y z) t)
  | RCyl (Some x) (Some y) (Some z) => afin (apy0R (RCyl x y z) t)
  | RPhys (Some x) (Some y) (Some z) => afin (apy0R (RPhys x y z) t)
  | RSph (Some x) (Some y) (Some z) => afin (apy0R (RSph x y z) t)
  | r => r
  end.
Lemma Ratan2_upper r z : 0 <= r -> 0 <= Ratan2 r z <= PI.
Proof.
  intros H. pose proof (Ratan2_range r z) as [B1 B2]. pose proof PI_pos. split; [|lra].
  destruct (Rle_lt_dec 0 (Ratan2 r z)) as [G|L]; auto. exfalso.
  destruct (Ratan2_polar z r) as [P Q]. pose proof (sin_lt_0 (Ratan2 r z + 2 * PI)) as S.
  rewrite sin_plus, sin_2PI, cos_2PI in S. assert (sin (Ratan2 r z) < 0) by (assert (T: sin (Ratan2 r z) * 1 + cos (Ratan2 r z) * 0 < 0) by (apply S; lra); lra).
  pose proof (sqrt_pos (z * z + r * r)) as T. destruct (Req_dec (sqrt (z * z + r * r)) 0) as [Z|Z].
  - apply sqrt_eq_0 in Z; [|nra]. assert (z = 0) by nra. assert (r = 0) by nra. subst.
    unfold Ratan2 in L. rewrite !Rltb_no in L by lra. cbn in L. lra.
  - assert (0 < sqrt (z*z+r*r)) by lra. nra.
Qed.
Lemma apy0R_ok r t : agood r -> acl_of (apy0R r t) = t /\ agood (apy0R r t) /\ ameans (apy0R r t) = ameans r.
Proof.
  intros G. unfold apy0R. destruct (acl_eqb (acl_of r) t) eqn:E.
  - split; auto. destruct r, t; try discriminate E; reflexivity.
  - assert (exists x y z, ameans r = [x; y; z]) as (x & y & z & M) by (destruct r; cbn; eauto).
    unfold cart_of. rewrite M. set (rho := sqrt (x*x+y*y)). pose proof (sqrt_pos (x*x+y*y)) as Hr. fold rho in Hr.
    set (l := sqrt (z*z+rho*rho)). pose proof (sqrt_pos (z*z+rho*rho)) as Hl. fold l in Hl.
    destruct (Ratan2_polar x y) as [Px Py]. fold rho in Px, Py. destruct (Ratan2_polar z rho) as [Pz Pr]. fold l in Pz, Pr.
    pose proof (Rwrap_range (Ratan2 y x)). pose proof (Ratan2_upper rho z Hr). pose proof PI_pos.
    destruct t; cbn; rewrite ?cos_Rwrap, ?sin_Rwrap, ?cos_shift, ?sin_shift, ?Px, ?Py, ?Pz, ?Pr; repeat split; auto; try lra.
    + now rewrite Px, Py.
    + now rewrite Px, Py.
Qed.
Theorem C46_astropy_ok_inhabited : astropy_ok apy0.
Proof.
  split.
  - intros r. unfold apy0. destruct r; reflexivity.
  - intros r t G. destruct (apy0R_ok r t G) as (C & G' & M). exists (apy0R r t). repeat split; auto.
    unfold apy0. destruct (acl_eqb (acl_of (afin r)) t) eqn:E.
    + unfold apy0R. replace (acl_of r) with (acl_of (afin r)) by now destruct r. now rewrite E.
    + destruct r; reflexivity.
Qed.
Example C46_case : exists r, convert_to_apy (finite (PSph (mkDist KDistance 2) (PI/2) (- PI/2))) (Some APhys) = Ok false r /\
  convert_from_apy apy0 r CSph = Ok false (finite (PSph (mkDist KDistance 2) (PI/2) (Rwrap (- PI/2)))).
Proof.
  pose proof PI_pos. destruct (C46_round_trip apy0 C46_astropy_ok_inhabited (PSph (mkDist KDistance 2) (PI/2) (- PI/2)) APhys eq_refl) as (r & E & F & _).
  - cbn. lra.
  - reflexivity.
  - eauto.
Qed.

Print Assumptions C46_to_astropy.
Print Assumptions C46_round_trip.
Print Assumptions C46_astropy_round_trip.
Print Assumptions C46_from_astropy.
Print Assumptions C46_astropy_ok_inhabited.
