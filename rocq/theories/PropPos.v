(** * Properties C01-C10, C16-C18: positions.

    Vocabulary: Spec.v ([denotes], [valid], [finite], [plain3], ...), the data
    types of Vectors.v, and the entry points of the model ([represent_as],
    constructors, [from_]).  [m] is the execution mode, [deg] an unspecified
    behaviour of the unxt library, [kw] the keyword arguments and [4 + f] any
    re-dispatching depth limit of at least 4 (see C09). *)
From Coq Require Import Reals Bool List ZArith Lra Lia.
From Verif Require Import Num Vectors Spec Transform Pos3D Pos3DThm FromThm PosLow Prolate Dispatch Range RoundTrip Embed ProlateThm PosGlue PosFindings.
Import ListNotations.
Open Scope R_scope.

(** ** C01 *)
Theorem C01_represent_as_3d_keeps_point : forall m deg f kw p t w q,
  valid p -> plain3 (cls_of p) -> plain3 t ->
  represent_as m deg (4 + f) kw (finite p) t = Ok w (finite q) ->
  w = false /\ cls_of q = t /\ valid q /\ (forall pt, denotes p pt <-> denotes q pt).
Proof. exact C01_finite. Qed.
Print Assumptions C01_represent_as_3d_keeps_point.
Example C01_case : let p := PSph (mkDist KParallax (1/2)) (PI/3) 1 in
  valid p /\ plain3 (cls_of p) /\ exists pt, denotes p pt.
Proof. cbn. unfold valid_dist; cbn. pose proof PI2_3_2. pose proof PI_pos. repeat split; try lra. eauto. Qed.

(** Every call with a length-valued radial part away from the origin succeeds. *)
Theorem C01_represent_as_3d_total : forall m deg f kw p t,
  valid p -> plain3 (cls_of p) -> plain3 t -> length_radial p -> ~ at_origin p ->
  exists q, represent_as m deg (4 + f) kw (finite p) t = Ok false (finite q) /\ cls_of q = t /\ valid q /\
            (forall pt, denotes p pt <-> denotes q pt) /\
            (azimuth_in_range p -> azimuth_in_range q) /\ length_radial q.
Proof. exact rep3_total. Qed.
Print Assumptions C01_represent_as_3d_total.
Example C01_total_case : let p := PCart3 1 2 3 in valid p /\ length_radial p /\ ~ at_origin p.
Proof. cbn. repeat split; auto. unfold at_origin; cbn. intros H; inversion H; lra. Qed.

(** The only other outcomes: a negative distance modulus is refused, the origin
    yields NaN. *)
Theorem C01_represent_as_3d_outcomes : forall m deg f kw p t,
  valid p -> plain3 (cls_of p) -> plain3 t ->
  (exists q, represent_as m deg (4 + f) kw (finite p) t = Ok false (finite q)) \/
  (represent_as m deg (4 + f) kw (finite p) t = Raise ENegative /\ m = Eager /\ negative_field p) \/
  (at_origin p /\ exists q, represent_as m deg (4 + f) kw (finite p) t = Ok false q /\ has_nan q /\ cls_of q = t).
Proof.
  exact (fun m deg f kw p t V P T =>
    match represent_as_plain3 m deg f kw p t V P T with
    | or_introl (ex_intro _ q (conj E _)) => or_introl (ex_intro _ q E)
    | or_intror o => or_intror o
    end).
Qed.
Print Assumptions C01_represent_as_3d_outcomes.

(** ** C02 *)
Theorem C02_represent_as_2d_keeps_point : forall m deg f kw p t,
  valid p -> plain2 (cls_of p) -> plain2 t ->
  exists q, represent_as m deg (S f) kw (finite p) t = Ok false (finite q) /\ cls_of q = t /\ valid q /\
            (forall pt, denotes p pt <-> denotes q pt) /\
            (azimuth_in_range p -> azimuth_in_range q) /\ (length_radial p -> length_radial q).
Proof. exact represent_as_plain2. Qed.
Print Assumptions C02_represent_as_2d_keeps_point.
Example C02_case : valid (PPolar (mkDist KDistance 2) 7) /\ plain2 (cls_of (PPolar (mkDist KDistance 2) 7)).
Proof. cbn. unfold valid_dist; cbn. split; [lra|exact I]. Qed.

(** CartesianPos1D -> RadialPos succeeds (eagerly) exactly when x >= 0 and keeps x. *)
Theorem C02_cart1_radial : forall m deg f kw x,
  (0 <= x -> represent_as m deg (S f) kw (finite (PCart1 x)) CRadial = Ok false (finite (PRadial (mkDist KDistance x)))) /\
  (x < 0 -> represent_as Eager deg (S f) kw (finite (PCart1 x)) CRadial = Raise ENegative).
Proof. exact rep_1d. Qed.
Print Assumptions C02_cart1_radial.
Theorem C02_radial_cart1 : forall m deg f kw r, valid_dist r ->
  represent_as m deg (S f) kw (finite (PRadial r)) CCart1 = Ok false (finite (PCart1 (len r))).
Proof. exact rep_Radial_Cart1. Qed.
Print Assumptions C02_radial_cart1.

(** ** C03 *)
(** [embed_pt] is the intended point, with defaults 0 for missing keyword arguments. *)
Theorem C03_embedding : forall m deg f kD ky kz kth kph p t pt,
  valid p -> length_radial p ->
  embed_pt p t (rdflt ky) (rdflt kz) (adflt kth) (adflt kph) = Some pt ->
  let r := represent_as m deg (5 + f) (fkw kD ky kz kth kph) (finite p) t in
  (exists q, r = Ok false (finite q) /\ cls_of q = t /\ denotes q pt /\ length_radial q /\
             ((forall x, p = PCart1 x -> 0 <= x) -> valid q))
  \/ (r = Raise ENegative /\ m = Eager /\ (exists x, p = PCart1 x /\ x < 0) /\ (t = CPolar \/ t = CCyl))
  \/ (pt = [0;0;0] /\ (t = CSph \/ t = CMSph) /\ exists q, r = Ok false q /\ has_nan q).
Proof. exact embed_all. Qed.
Print Assumptions C03_embedding.
Example C03_embedding_case : embed_pt (PCart2 1 2) CCyl 0 3 0 0 = Some [1; 2; 3]. Proof. reflexivity. Qed.

Theorem C03_projection : forall m deg f kw p t,
  valid p -> length_radial p -> projectable (cls_of p) t ->
  exists q, represent_as m deg (4 + f) kw (finite p) t = Ok true (finite q) /\ cls_of q = t /\ valid q /\
    forall pt pt', denotes p pt -> project_pt t pt = Some pt' -> denotes q pt'.
Proof. exact project_all. Qed.
Print Assumptions C03_projection.
Example C03_projection_case : let p := PSph (mkDist KDistance 2) 1 4 in
  valid p /\ length_radial p /\ projectable (cls_of p) CPolar.
Proof. cbn. unfold valid_dist; cbn. pose proof PI2_3_2. repeat split; lra. Qed.

Theorem C03_embed_then_project : forall m deg f kD ky kz kth kph kw' p t,
  valid p -> length_radial p -> embeddable (cls_of p) t ->
  exists q r, represent_as m deg (5 + f) (fkw kD ky kz kth kph) (finite p) t = Ok false (finite q) /\
    represent_as m deg (5 + f) kw' (finite q) (cls_of p) = Ok true (finite r) /\
    cls_of r = cls_of p /\ (forall pt, denotes p pt <-> denotes r pt).
Proof. exact embed_project. Qed.
Print Assumptions C03_embed_then_project.
Example C03_embed_then_project_case : valid (PPolar (mkDist KDistance 2) 1) /\ embeddable CPolar CCyl.
Proof. cbn. unfold valid_dist; cbn. split; [lra|exact I]. Qed.

(** Finding: CylindricalPos -> RadialPos returns the distance from the z axis,
    every other 3-D class the distance from the origin. *)
Theorem C03_cylindrical_radial_refuted : forall m deg f kw rho phi z, 0 <= rho -> z <> 0 ->
  exists q, represent_as m deg (S f) kw (finite (PCyl rho phi z)) CRadial = Ok true (finite q) /\
    forall pt, denotes (PCyl rho phi z) pt -> ~ denotes q [norm_of pt].
Proof. exact cyl_radial_finding. Qed.
Print Assumptions C03_cylindrical_radial_refuted.
(** Finding: with a parallax as radial part the projection to PolarPos is a
    different point, and to CartesianPos2D it raises a unit error. *)
Theorem C03_parallax_projection_refuted : forall m deg f kw,
  exists p q, valid p /\ represent_as m deg (S f) kw (finite p) CPolar = Ok true (finite q) /\
    exists pt pt', denotes p pt /\ project_pt CPolar pt = Some pt' /\ ~ denotes q pt'.
Proof. exact parallax_projection_finding. Qed.
Print Assumptions C03_parallax_projection_refuted.
Theorem C03_parallax_projection_unit_error : forall m deg f kw p theta phi,
  represent_as m deg (S f) kw (finite (PSph (mkDist KParallax p) theta phi)) CCart2 = Raise EUnit.
Proof. exact parallax_projection_unit. Qed.
Print Assumptions C03_parallax_projection_unit_error.
(** Finding: the default embedding of a 1-D position depends on the target. *)
Theorem C03_default_embedding_inconsistent : forall m deg f x, x <> 0 ->
  exists q c, represent_as m deg (S f) nokw (finite (PCart1 x)) CSph = Ok false (finite q) /\
    represent_as m deg (S f) nokw (finite (PCart1 x)) CCart3 = Ok false (finite c) /\
    denotes q [0; 0; x] /\ denotes c [x; 0; 0].
Proof. exact default_embedding_finding. Qed.
Print Assumptions C03_default_embedding_inconsistent.

(** ** C04 *)
Theorem C04_round_trip : forall m deg f kw kw' p t,
  valid p -> plain3 (cls_of p) -> plain3 t -> length_radial p -> ~ at_origin p ->
  exists q p', represent_as m deg (4 + f) kw (finite p) t = Ok false (finite q) /\
    represent_as m deg (4 + f) kw' (finite q) (cls_of p) = Ok false (finite p') /\
    cls_of p' = cls_of p /\ (forall pt, denotes p pt <-> denotes p' pt) /\
    (azimuth_in_range p -> off_axis p -> p' = p).
Proof. exact round_trip. Qed.
Print Assumptions C04_round_trip.
Example C04_case : let p := PCyl 2 1 3 in
  valid p /\ plain3 (cls_of p) /\ ~ at_origin p /\ azimuth_in_range p /\ off_axis p.
Proof.
  intros p. pose proof PI2_3_2. split; [cbn; lra|]. split; [exact I|]. split; [|split].
  - intros H0. apply list3_inj in H0. lra.
  - unfold azimuth_in_range; cbn; lra.
  - intros x y z H0. apply list3_inj in H0. destruct H0 as (-> & -> & ->).
    pose proof (sin2_cos2 1) as S. unfold Rsqr in S. nra.
Qed.
Theorem C04_round_trip_cartesian : forall m deg f kw kw' x y z t, plain3 t -> x*x+y*y+z*z <> 0 ->
  exists q, represent_as m deg (4 + f) kw (finite (PCart3 x y z)) t = Ok false (finite q) /\
    represent_as m deg (4 + f) kw' (finite q) CCart3 = Ok false (finite (PCart3 x y z)).
Proof. exact round_trip_cart. Qed.
Print Assumptions C04_round_trip_cartesian.

(** ** C05 *)
(** A constructor called eagerly succeeds exactly on components in range (NaN
    passes), whatever the type of the azimuth argument. *)
Theorem C05_constructor_iff_in_range : forall b p,
  (in_range p /\ exists q, build Eager b p = Ok false q /\ in_range q /\ cls_of q = cls_of p) \/
  (~ in_range p /\ exists e, build Eager b p = Raise e).
Proof. exact build_iff. Qed.
Print Assumptions C05_constructor_iff_in_range.
Example C05_case : in_range (finite (PSph (mkDist KDistance 2) 1 9)) /\ ~ in_range (finite (PSph (mkDist KDistance (-2)) 1 9)).
Proof. cbn. pose proof PI2_3_2. split; [split; lra|lra]. Qed.
Theorem C05_represent_as_in_range : forall deg f kw p t w q, in_range p ->
  represent_as (A:=ext) Eager deg f kw p t = Ok w q -> in_range q.
Proof. exact rep_in_range. Qed.
Print Assumptions C05_represent_as_in_range.
Theorem C05_from_in_range : forall deg r theta phi w q,
  (from_Sph Eager deg r theta phi = Ok w q -> in_range q) /\
  (forall th ph, from_MSph Eager deg r th ph = Ok w q -> in_range q) /\
  (forall lon lat, from_LonLat Eager deg lon lat r = Ok w q -> in_range q).
Proof.
  exact (fun deg r theta phi w q => conj (from_Sph_rng deg r theta phi w q)
    (conj (fun th ph => from_MSph_rng deg r th ph w q) (fun lon lat => from_LonLat_rng deg lon lat r w q))).
Qed.
Print Assumptions C05_from_in_range.

(** ** C06 *)
Theorem C06_azimuth_wrapped : forall m b p, in_range (finite p) ->
  build m b (finite p) = Ok false (finite (match azimuth p with
     | Some a => with_azimuth p (if b then Rwrap a else a) | None => p end)).
Proof. exact build_in_range. Qed.
Print Assumptions C06_azimuth_wrapped.
(** [Rwrap a] is the representative of [a] modulo 2 pi in [0, 2 pi). *)
Theorem C06_wrap_meaning : forall a, 0 <= Rwrap a < 2 * PI /\ exists k : Z, Rwrap a = a - 2 * PI * IZR k.
Proof. exact (fun a => conj (Rwrap_range a) (ex_intro _ (Int_part (a / (2*PI))) eq_refl)). Qed.
Print Assumptions C06_wrap_meaning.
Theorem C06_wrap_identity_in_range : forall a, 0 <= a < 2 * PI -> Rwrap a = a.
Proof. exact Rwrap_id. Qed.
Print Assumptions C06_wrap_identity_in_range.

(** ** C07 *)
Theorem C07_spherical_from : forall m deg (d : dist R) theta (phi : ang R), dk d = KDistance ->
  exists q, from_Sph m deg (RKeep (@dist_map R ext (@Some R) d)) (Some theta : ext) (fang phi) = Ok false (finite q)
    /\ cls_of q = CSph /\ valid q /\ length_radial q /\
    denotes q [dval d * sin theta * cos (angR phi); dval d * sin theta * sin (angR phi); dval d * cos theta].
Proof. exact from_Sph_ok. Qed.
Print Assumptions C07_spherical_from.
Theorem C07_math_spherical_from : forall m deg (d : dist R) (theta : ang R) phi, dk d = KDistance ->
  exists q, from_MSph m deg (RKeep (@dist_map R ext (@Some R) d)) (fang theta) (Some phi : ext) = Ok false (finite q)
    /\ cls_of q = CMSph /\ valid q /\ length_radial q /\
    denotes q [dval d * sin phi * cos (angR theta); dval d * sin phi * sin (angR theta); dval d * cos phi].
Proof. exact from_MSph_ok. Qed.
Print Assumptions C07_math_spherical_from.
(** Finding: a negative distance modulus (an object nearer than 10 pc) is
    mistaken for a negative distance; the point is moved. *)
Theorem C07_negative_modulus_refuted : forall m deg v theta (phi : ang R), v < 0 ->
  exists q, from_Sph m deg (RKeep (mkDist KDistMod (Some v : ext))) (Some theta : ext) (fang phi) = Ok false (finite q) /\
  forall pt, denotes q pt -> norm_of pt <> len (mkDist KDistMod v).
Proof. exact from_Sph_DM. Qed.
Print Assumptions C07_negative_modulus_refuted.

(** ** C08 *)
Theorem C08_lonlat_from : forall deg (v : R) lat (lon : ang R),
  let ok := - (5 * PI / 2) <= (if Rltb v 0 then - lat else lat) <= 3 * PI / 2 in
  (ok -> forall m, exists q, from_LonLat m deg (fang lon) (Some lat : ext) (RQty KDistance (Some v)) = Ok false (finite q) /\
     cls_of q = CLonLat /\ valid q /\
     denotes q [v * cos lat * cos (angR lon); v * cos lat * sin (angR lon); v * sin lat]) /\
  (~ ok -> from_LonLat Eager deg (fang lon) (Some lat : ext) (RQty KDistance (Some v)) = Raise EPolarRange).
Proof. exact from_LonLat_spec. Qed.
Print Assumptions C08_lonlat_from.
Example C08_case : - (5 * PI / 2) <= (if Rltb 1 0 then - 2 else 2) <= 3 * PI / 2.
Proof. pose proof PI2_3_2. destruct (Rltb 1 0); lra. Qed.

(** ** C09 *)
Theorem C09_no_ambiguity : forall c t, resolve c t <> Ambig.
Proof. exact (fun c t => match c, t with _, _ => ltac:(destruct c, t; vm_compute; discriminate) end). Qed.
Print Assumptions C09_no_ambiguity.
Theorem C09_result_class : forall m deg f (kw : kwargs ext) p t w q,
  represent_as m deg f kw p t = Ok w q -> cls_of q = t.
Proof. exact (fun m deg f kw p t w q H => proj1 (rep_class m deg f kw p t w q H)). Qed.
Print Assumptions C09_result_class.
(** Re-dispatching stops after at most 3 levels. *)
Theorem C09_bounded_redispatch : forall m deg f (kw : kwargs ext) p t,
  diverges (cls_of p) t = false -> represent_as m deg (3 + f) kw p t = represent_as m deg 3 kw p t.
Proof. exact rep_fuel. Qed.
Print Assumptions C09_bounded_redispatch.
(** On supported pairs only value errors occur (no recursion error, no lookup error). *)
Theorem C09_supported_pairs : forall m deg f (kw : kwargs ext) p t e,
  supported (cls_of p) t = true -> represent_as m deg (3 + f) kw p t = Raise e -> value_error e.
Proof.
  exact (fun m deg f kw p t e S => rep_errors m deg 3 (3 + f) kw p t e S (rk_le _ _) (le_n_S _ _ (le_n_S _ _ (le_n_S _ _ (Nat.le_0_l _))))).
Qed.
Print Assumptions C09_supported_pairs.
Theorem C09_unsupported_pairs : forall m deg f (kw : kwargs ext) p t,
  supported (cls_of p) t = false -> diverges (cls_of p) t = false ->
  exists e, represent_as m deg (3 + f) kw p t = Raise e /\ (e = ENotFound \/ (cls_of p = CProlate /\ value_error e)).
Proof. exact rep_not_found. Qed.
Print Assumptions C09_unsupported_pairs.
(** Finding: TwoSpherePos conversions never terminate: every depth limit is exceeded. *)
Theorem C09_two_sphere_diverges : forall m deg f (kw : kwargs ext) p t,
  diverges (cls_of p) t = true -> represent_as m deg f kw p t = Raise ERecursion.
Proof. exact rep_diverges. Qed.
Print Assumptions C09_two_sphere_diverges.
Example C09_case : supported CLonLat CMSph = true /\ diverges CTwoSphere CCart2 = true /\ supported CPolar CLonLat = false.
Proof. repeat split. Qed.

(** ** C10 *)
Theorem C10_warns_iff_dimension_reduced : forall m deg f (kw : kwargs ext) p t w q,
  represent_as m deg f kw p t = Ok w q -> w = Nat.ltb (dim_of t) (dim_of (cls_of p)).
Proof. exact (fun m deg f kw p t w q H => proj2 (rep_class m deg f kw p t w q H)). Qed.
Print Assumptions C10_warns_iff_dimension_reduced.

(** ** C16 *)
Theorem C16_prolate_to_cylindrical : forall m deg f kw mu nu phi Delta,
  0 < Delta -> Delta * Delta <= mu -> Rabs nu <= Delta * Delta ->
  exists R0 z0, represent_as m deg (S f) kw (finite (PProlate mu nu phi Delta)) CCyl
     = Ok false (finite (PCyl R0 phi z0)) /\ prolate_point mu nu Delta R0 z0 /\
     (forall R1 z1, prolate_point mu nu Delta R1 z1 -> R1 = R0 /\ z1 = z0).
Proof.
  exact (fun m deg f kw mu nu phi Delta H1 H2 H3 =>
    let PP := prolate_Rz_point mu nu Delta H1 H2 H3 in
    ex_intro _ (prolate_R mu nu Delta) (ex_intro _ (prolate_z mu nu Delta)
      (conj (rep_Prolate_Cyl m deg f kw mu nu phi Delta H1 H2 H3)
      (conj PP (fun R1 z1 P1 => prolate_point_unique mu nu Delta R1 z1 _ _ H1 P1 PP))))).
Qed.
Print Assumptions C16_prolate_to_cylindrical.
Example C16_case : valid (PProlate 5 (-3) 1 2). Proof. cbn. rewrite Rabs_left; lra. Qed.

(** ** C17 *)
Theorem C17_cylindrical_to_prolate : forall m deg f (kw : kwargs ext) rho phi z Delta,
  0 <= rho -> 0 < Delta -> kw_Delta kw = Some (Some Delta) -> not_at_focus Delta (PCyl rho phi z) ->
  exists mu nu, represent_as m deg (S f) kw (finite (PCyl rho phi z)) CProlate
     = Ok false (finite (PProlate mu nu phi Delta)) /\ valid (PProlate mu nu phi Delta) /\
     prolate_point mu nu Delta rho z /\
     (forall pt, denotes (PCyl rho phi z) pt <-> denotes (PProlate mu nu phi Delta) pt).
Proof. exact cyl_to_prolate. Qed.
Print Assumptions C17_cylindrical_to_prolate.
Theorem C17_cylindrical_prolate_round_trip : forall m deg f (kw : kwargs ext) kw' rho phi z Delta,
  0 <= rho -> 0 < Delta -> kw_Delta kw = Some (Some Delta) -> not_at_focus Delta (PCyl rho phi z) ->
  exists q, represent_as m deg (S f) kw (finite (PCyl rho phi z)) CProlate = Ok false (finite q) /\
    represent_as m deg (S f) kw' (finite q) CCyl = Ok false (finite (PCyl rho phi z)).
Proof. exact cyl_prolate_cyl. Qed.
Print Assumptions C17_cylindrical_prolate_round_trip.
Theorem C17_prolate_cylindrical_round_trip : forall m deg f (kw : kwargs ext) kw' mu nu phi Delta,
  valid (PProlate mu nu phi Delta) -> kw_Delta kw = Some (Some Delta) ->
  not_at_focus Delta (PProlate mu nu phi Delta) ->
  exists q, represent_as m deg (S f) kw' (finite (PProlate mu nu phi Delta)) CCyl = Ok false (finite q) /\
    represent_as m deg (S f) kw (finite q) CProlate = Ok false (finite (PProlate mu nu phi Delta)).
Proof. exact prolate_cyl_prolate. Qed.
Print Assumptions C17_prolate_cylindrical_round_trip.
(** Finding: at the foci nu is NaN (0/0). *)
Theorem C17_focus_gives_nan : forall m deg f (kw : kwargs ext) phi z Delta,
  0 < Delta -> z*z = Delta*Delta -> kw_Delta kw = Some (Some Delta) ->
  represent_as m deg (S f) kw (finite (PCyl 0 phi z)) CProlate
  = Ok false (PProlate (Some (Delta*Delta)) None (Some phi) (Some Delta)).
Proof. exact rep_Cyl_Prolate_focus. Qed.
Print Assumptions C17_focus_gives_nan.
Example C17_case : not_at_focus 1 (PCyl 2 3 1).
Proof.
  intros pt H [E|E]; subst pt; cbn in H; apply list3_inj in H; destruct H as (H1 & H2 & H3); pose proof (sin2_cos2 3) as S; unfold Rsqr in S; nra.
Qed.

(** ** C18 *)
Theorem C18_delta_required : forall m deg f (kw : kwargs ext) p, kw_Delta kw = None ->
  dim_of (cls_of p) = 3%nat -> cls_of p <> CProlate ->
  represent_as m deg (S f) kw p CProlate = Raise EMissingDelta.
Proof. exact prolate_needs_Delta. Qed.
Print Assumptions C18_delta_required.
Theorem C18_without_delta_unchanged : forall m deg f (kw : kwargs ext) p, cls_of p = CProlate -> kw_Delta kw = None ->
  represent_as m deg (S f) kw p CProlate = Ok false p.
Proof. exact prolate_prolate_same. Qed.
Print Assumptions C18_without_delta_unchanged.
Theorem C18_any_to_prolate : forall m deg f (kw : kwargs ext) p Delta,
  valid p -> plain3 (cls_of p) -> length_radial p -> 0 < Delta -> kw_Delta kw = Some (Some Delta) ->
  not_at_focus Delta p ->
  exists q, represent_as m deg (5 + f) kw (finite p) CProlate = Ok false (finite q) /\
    cls_of q = CProlate /\ valid q /\ focal_length q = Some Delta /\ azimuth q <> None /\
    (azimuth_in_range p -> azimuth_in_range q) /\
    (forall pt, denotes p pt <-> denotes q pt).
Proof. exact any_to_prolate. Qed.
Print Assumptions C18_any_to_prolate.
Theorem C18_prolate_new_delta : forall m deg f (kw : kwargs ext) mu nu phi D D',
  valid (PProlate mu nu phi D) -> 0 < D' -> kw_Delta kw = Some (Some D') -> not_at_focus D' (PProlate mu nu phi D) ->
  exists mu' nu', represent_as m deg (S (S f)) kw (finite (PProlate mu nu phi D)) CProlate
     = Ok false (finite (PProlate mu' nu' phi D')) /\ valid (PProlate mu' nu' phi D') /\
     (forall pt, denotes (PProlate mu nu phi D) pt <-> denotes (PProlate mu' nu' phi D') pt).
Proof. exact prolate_prolate_new. Qed.
Print Assumptions C18_prolate_new_delta.
Theorem C18_prolate_to_any : forall m deg f kw mu nu phi Delta t,
  valid (PProlate mu nu phi Delta) -> plain3 t -> ~ at_origin (PProlate mu nu phi Delta) ->
  exists q, represent_as m deg (5 + f) kw (finite (PProlate mu nu phi Delta)) t = Ok false (finite q) /\
    cls_of q = t /\ valid q /\ length_radial q /\
    (forall pt, denotes (PProlate mu nu phi Delta) pt <-> denotes q pt).
Proof. exact prolate_to_any. Qed.
Print Assumptions C18_prolate_to_any.
