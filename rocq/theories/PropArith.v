(** * Properties C11-C15: norm, arithmetic and equality of positions.

    Vocabulary: Spec.v ([denotes], [valid], [vadd], [can_hold], ...).  [4 + f]
    is any re-dispatching depth limit of at least 4.  Values are SI values;
    units: C64. *)
From Coq Require Import Reals Bool List ZArith Lra Lia.
From Verif Require Import Num Vectors Spec Transform Dispatch RoundTrip Arith ArithThm ArithThm2.
Import ListNotations.
Open Scope R_scope.

(** ** C11 *)
(** [norm] returns a quantity whose length is the Euclidean length of the point. *)
Theorem C11_norm_is_distance_to_origin : forall deg f p a,
  valid p -> ~ negative_field p -> cls_of p <> CTwoSphere -> denotes p a ->
  exists d, pos_norm deg (4 + f) (finite p) = Ok false (@dist_map R ext (@Some R) d) /\
    valid_dist d /\ len d = norm_of a /\ (length_radial p -> dk d = KDistance).
Proof. exact norm_ok. Qed.
Print Assumptions C11_norm_is_distance_to_origin.
Example C11_case : let p := PSph (mkDist KDistance 2) 1 4 in
  valid p /\ ~ negative_field p /\ cls_of p <> CTwoSphere /\ exists a, denotes p a /\ length a = 3%nat.
Proof.
  cbn. unfold valid_dist; cbn. pose proof PI2_3_2. repeat split; try lra; try discriminate.
  eexists. split; reflexivity.
Qed.
Theorem C11_norm_representation_independent : forall m deg deg' f f' kw p t,
  valid p -> plain3 (cls_of p) -> plain3 t -> length_radial p -> ~ at_origin p ->
  exists q n, represent_as m deg (4 + f) kw (finite p) t = Ok false (finite q) /\
    pos_norm deg' (4 + f') (finite p) = Ok false (mkDist KDistance (Some n)) /\
    pos_norm deg' (4 + f') (finite q) = Ok false (mkDist KDistance (Some n)).
Proof. exact norm_rep. Qed.
Print Assumptions C11_norm_representation_independent.
(** [v * v] has the squares of the Cartesian coordinates; they sum to [norm]^2. *)
Theorem C11_product_sums_to_norm_squared : forall m deg f p a,
  valid p -> ~ negative_field p -> cls_of p <> CTwoSphere -> denotes p a ->
  pos_mul_pos m deg (4 + f) (finite p) (finite p) = Ok false (map (@Some R) (vmul a a)) /\
  vsum (vmul a a) = norm_of a * norm_of a.
Proof. exact norm_mul. Qed.
Print Assumptions C11_product_sums_to_norm_squared.
(** [v * w] is the componentwise product of the Cartesian coordinates, for any
    two positions of the same dimension, whatever their classes. *)
Theorem C11_product_is_componentwise : forall m deg f p q a b,
  valid p -> ~ negative_field p -> cls_of p <> CTwoSphere -> denotes p a ->
  valid q -> ~ negative_field q -> cls_of q <> CTwoSphere -> denotes q b ->
  pos_mul_pos m deg (4 + f) (finite p) (finite q) = Ok false (map (@Some R) (map (fun '(x, y) => x * y) (combine a b)) : list ext).
Proof. exact pos_mul_pos_ok. Qed.
Print Assumptions C11_product_is_componentwise.
(** Finding: with a parallax (or distance modulus) as radial part the norm of
    MathSphericalPos and LonLatSphericalPos is not a length but that parallax. *)
Theorem C11_norm_may_be_an_angle : forall deg f (v a b : R),
  pos_norm deg f (finite (PMSph (mkDist KParallax v) a b)) = Ok false (mkDist KParallax (Some v)) /\
  pos_norm deg f (finite (PLonLat a b (mkDist KParallax v))) = Ok false (mkDist KParallax (Some v)).
Proof. exact (fun deg f v a b => conj eq_refl eq_refl). Qed.
Print Assumptions C11_norm_may_be_an_angle.

(** ** C12 *)
Theorem C12_add : forall m deg f p q a b,
  valid p -> ~ negative_field p -> valid q -> ~ negative_field q ->
  cls_of q <> CTwoSphere -> dim_of (cls_of q) = dim_of (cls_of p) -> denotes p a -> denotes q b ->
  can_hold (cls_of p) (vadd a b) ->
  exists s, pos_add m deg (4 + f) (finite p) (finite q) = Ok false (finite s) /\ cls_of s = cls_of p /\ valid s /\
    denotes s (vadd a b) /\ length_radial s.
Proof. exact add_ok. Qed.
Print Assumptions C12_add.
Theorem C12_sub : forall m deg f p q a b,
  valid p -> ~ negative_field p -> valid q -> ~ negative_field q ->
  cls_of q <> CTwoSphere -> dim_of (cls_of q) = dim_of (cls_of p) -> denotes p a -> denotes q b ->
  can_hold (cls_of p) (vsub a b) ->
  exists s, pos_sub m deg (4 + f) (finite p) (finite q) = Ok false (finite s) /\ cls_of s = cls_of p /\ valid s /\
    denotes s (vsub a b) /\ length_radial s.
Proof. exact sub_ok. Qed.
Print Assumptions C12_sub.
Example C12_case : let p := PSph (mkDist KParallax (1/2)) 0 4 in let q := PCyl 2 0 1 in
  valid p /\ ~ negative_field p /\ valid q /\ dim_of (cls_of q) = dim_of (cls_of p) /\
  exists a b, denotes p a /\ denotes q b /\ can_hold (cls_of p) (vadd a b).
Proof.
  cbn. unfold valid_dist; cbn. pose proof PI2_3_2. repeat split; try lra.
  do 2 eexists. split; [reflexivity|]. split; [reflexivity|]. split; [reflexivity|].
  cbn. intros E. apply list3_inj in E. destruct E as (E & _). rewrite sin_0, cos_0 in E. lra.
Qed.
Theorem C12_sub_inverts_add : forall m deg f p q a b,
  valid p -> ~ negative_field p -> valid q -> ~ negative_field q ->
  cls_of q <> CTwoSphere -> dim_of (cls_of q) = dim_of (cls_of p) -> denotes p a -> denotes q b ->
  can_hold (cls_of p) (vadd a b) -> can_hold (cls_of p) a ->
  exists s s', pos_add m deg (4 + f) (finite p) (finite q) = Ok false (finite s) /\
    pos_sub m deg (4 + f) (finite s) (finite q) = Ok false (finite s') /\
    cls_of s' = cls_of p /\ (forall pt, denotes p pt <-> denotes s' pt).
Proof. exact add_sub. Qed.
Print Assumptions C12_sub_inverts_add.
Theorem C12_add_commutes : forall m deg f p q a b,
  valid p -> ~ negative_field p -> valid q -> ~ negative_field q ->
  dim_of (cls_of q) = dim_of (cls_of p) -> denotes p a -> denotes q b ->
  can_hold (cls_of p) (vadd a b) -> can_hold (cls_of q) (vadd a b) ->
  exists s t, pos_add m deg (4 + f) (finite p) (finite q) = Ok false (finite s) /\
    pos_add m deg (4 + f) (finite q) (finite p) = Ok false (finite t) /\
    (forall pt, denotes s pt <-> denotes t pt).
Proof. exact add_comm. Qed.
Print Assumptions C12_add_commutes.
(** Finding: in the spherical classes the difference of equal points is NaN. *)
Theorem C12_difference_of_equals_is_nan : forall m deg f p q a,
  valid p -> ~ negative_field p -> valid q -> ~ negative_field q -> cls_of q <> CTwoSphere ->
  cls_of p = CSph \/ cls_of p = CMSph \/ cls_of p = CLonLat -> dim_of (cls_of q) = 3%nat ->
  denotes p a -> denotes q a ->
  exists s, pos_sub m deg (4 + f) (finite p) (finite q) = Ok false s /\ has_nan s /\ cls_of s = cls_of p.
Proof. exact sub_self_nan. Qed.
Print Assumptions C12_difference_of_equals_is_nan.
(** Finding: prolate positions support no arithmetic (Delta is not passed on). *)
Theorem C12_prolate_refuted : forall m deg f mu nu phi Delta k q, valid (PProlate mu nu phi Delta) ->
  valid q -> ~ negative_field q -> cls_of q <> CTwoSphere -> dim_of (cls_of q) = 3%nat ->
  pos_add m deg (4 + f) (finite (PProlate mu nu phi Delta)) (finite q) = Raise EMissingDelta /\
  pos_sub m deg (4 + f) (finite (PProlate mu nu phi Delta)) (finite q) = Raise EMissingDelta /\
  pos_neg m deg (4 + f) (finite (PProlate mu nu phi Delta)) = Raise EMissingDelta /\
  pos_mul m deg (4 + f) (Some k : ext) (finite (PProlate mu nu phi Delta)) = Raise EMissingDelta.
Proof. exact prolate_arith. Qed.
Print Assumptions C12_prolate_refuted.
Theorem C12_two_sphere_refuted : forall m deg f theta phi (q : pos ext) k,
  pos_add m deg (4 + f) (PTwoSphere theta phi) q = Raise ERecursion /\
  pos_sub m deg (4 + f) (PTwoSphere theta phi) q = Raise ERecursion /\
  pos_neg m deg (4 + f) (PTwoSphere theta phi) = Raise ERecursion /\
  pos_mul m deg (4 + f) k (PTwoSphere theta phi) = Raise ERecursion.
Proof. exact twosphere_arith. Qed.
Print Assumptions C12_two_sphere_refuted.

(** ** C13 *)
Theorem C13_neg : forall m deg f p a,
  valid p -> ~ negative_field p -> denotes p a -> can_hold (cls_of p) (vscale (-1) a) ->
  exists s, pos_neg m deg (4 + f) (finite p) = Ok false (finite s) /\ cls_of s = cls_of p /\ valid s /\
    denotes s (vscale (-1) a) /\ length_radial s.
Proof. exact neg_ok. Qed.
Print Assumptions C13_neg.
Theorem C13_scalar_multiple : forall m deg f k p a,
  valid p -> ~ negative_field p -> denotes p a -> can_hold (cls_of p) (vscale k a) ->
  radial_scaled (cls_of p) = false ->
  exists s, pos_mul m deg (4 + f) (Some k : ext) (finite p) = Ok false (finite s) /\ cls_of s = cls_of p /\ valid s /\
    denotes s (vscale k a) /\ length_radial s.
Proof. exact mul_ok. Qed.
Print Assumptions C13_scalar_multiple.
Theorem C13_scalar_multiple_radial : forall m deg f k p a, 0 <= k ->
  valid p -> length_radial p -> denotes p a -> radial_scaled (cls_of p) = true ->
  exists s, pos_mul m deg (4 + f) (Some k : ext) (finite p) = Ok false (finite s) /\ cls_of s = cls_of p /\ valid s /\
    denotes s (vscale k a) /\ length_radial s.
Proof. exact mul_radial_ok. Qed.
Print Assumptions C13_scalar_multiple_radial.
Theorem C13_right_multiple : forall m deg f (k : ext) p, pos_mul_r m deg f p k = pos_mul m deg f k p.
Proof. exact (fun m deg f k p => eq_refl). Qed.
Print Assumptions C13_right_multiple.
Example C13_case : let p := PLonLat 1 0 (mkDist KDistance 3) in
  valid p /\ ~ negative_field p /\ exists a, denotes p a /\ can_hold (cls_of p) (vscale (-2) a).
Proof.
  cbn. unfold valid_dist; cbn. pose proof PI2_3_2. repeat split; try lra.
  eexists. split; [reflexivity|]. split; [reflexivity|]. cbn. intros E. apply list3_inj in E.
  destruct E as (E1 & E2 & _). unfold len in *. cbn in *. rewrite cos_0 in *. pose proof (sin2_cos2 1) as S. unfold Rsqr in S. nra.
Qed.
(** Finding: negating a RadialPos, or a negative multiple of a PolarPos,
    MathSphericalPos or RadialPos, raises. *)
Theorem C13_negative_radial_raises : forall deg f k r a b, k < 0 -> 0 < dval r ->
  (valid_dist r -> pos_neg Eager deg (4 + f) (finite (PRadial r)) = Raise ENegative) /\
  pos_mul Eager deg (4 + f) (Some k : ext) (finite (PPolar r a)) = Raise ENegative /\
  pos_mul Eager deg (4 + f) (Some k : ext) (finite (PMSph r a b)) = Raise ENegative /\
  (dk r = KDistance -> pos_mul Eager deg (4 + f) (Some k : ext) (finite (PRadial r)) = Raise ENegative).
Proof.
  exact (fun deg f k r a b K P => conj (fun V => radial_neg deg f r V P) (mul_negative deg f k r K P a b)).
Qed.
Print Assumptions C13_negative_radial_raises.
(** Finding: 2 * v with a parallax as radial part doubles the parallax. *)
Theorem C13_parallax_multiple_refuted : forall m deg f, exists p, valid p /\ exists q,
  pos_mul m deg (4 + f) (Some 2 : ext) (finite p) = Ok false (finite q) /\ cls_of q = CMSph /\
  forall pt, denotes p pt -> ~ denotes q (vscale 2 pt).
Proof. exact mul_parallax. Qed.
Print Assumptions C13_parallax_multiple_refuted.

(** ** C14 *)
Theorem C14_cartesian_division : forall m b p a k, k <> 0 -> is_cart (cls_of p) = true -> denotes p a ->
  pos_div m b (finite p) (Some k : ext) = Ok false (finite (cart_pos (vscale (/ k) a))).
Proof. exact div_cart. Qed.
Print Assumptions C14_cartesian_division.
Theorem C14_division_by_zero : forall m b x y z,
  pos_div m b (finite (PCart3 x y z)) (Some 0 : ext) = Ok false (PCart3 None None None).
Proof. exact div_zero. Qed.
Print Assumptions C14_division_by_zero.
(** Finding: dividing a CylindricalPos off the axis by any k > 1 never gives (1/k) v. *)
Theorem C14_curvilinear_division_refuted : forall m b rho phi z k, 1 < k -> 0 < rho -> 0 < phi < 2 * PI ->
  exists q, pos_div m b (finite (PCyl rho phi z)) (Some k : ext) = Ok false (finite q) /\ cls_of q = CCyl /\
    forall pt, denotes (PCyl rho phi z) pt -> ~ denotes q (vscale (/ k) pt).
Proof. exact div_cyl_refuted. Qed.
Print Assumptions C14_curvilinear_division_refuted.
Theorem C14_curvilinear_components : forall m b rho phi z k, 0 < k -> 0 <= rho -> exists phi',
  pos_div m b (finite (PCyl rho phi z)) (Some k : ext) = Ok false (finite (PCyl (rho / k) phi' (z / k))) /\
  cos phi' = cos (phi / k) /\ sin phi' = sin (phi / k).
Proof. exact div_cyl. Qed.
Print Assumptions C14_curvilinear_components.
(** Division of a ProlateSpheroidalPos divides the coordinates and keeps the focal
    distance; it fails when the quotient is out of range. *)
Theorem C14_prolate_division : forall m b mu nu phi Delta k, k <> 0 ->
  (valid (PProlate (mu / k) (nu / k) phi Delta) -> exists phi',
    pos_div m b (finite (PProlate mu nu phi Delta)) (Some k : ext) = Ok false (finite (PProlate (mu / k) (nu / k) phi' Delta)) /\
    cos phi' = cos (phi / k) /\ sin phi' = sin (phi / k)) /\
  (~ valid (PProlate (mu / k) (nu / k) phi Delta) -> exists e,
    pos_div Eager b (finite (PProlate mu nu phi Delta)) (Some k : ext) = Raise e).
Proof.
  intros m b mu nu phi Delta k K. assert (K' : Reqb k 0 = false) by (now apply Reqb_false).
  assert (E : forall md, pos_div md b (finite (PProlate mu nu phi Delta)) (Some k : ext) =
    mk_Prolate md (Some (mu / k) : ext) (Some (nu / k)) (if b then AsQty (Some (phi / k)) else AsAngle (Some (phi / k))) (Some Delta)).
  { intros md. unfold pos_div, div_components, build. cbn [finite pos_map]. cbn [ndiv Num_ext ediv]. rewrite K'. reflexivity. }
  rewrite !E. unfold mk_Prolate, check_prolate. split.
  - intros (A & B & C). exists (if b then Rwrap (phi / k) else phi / k). split; [|destruct b; auto; split; [apply cos_Rwrap|apply sin_Rwrap]].
    destruct m; [|destruct b; reflexivity]. cbn [nleb nltb nsq nmul nabs ncst Num_ext lift1 lift2 lift2b].
    replace (Rleb Delta 0) with false by (symmetry; apply Rleb_false; lra).
    replace (Rltb (mu / k) (Delta * Delta)) with false by (symmetry; apply Rltb_false; lra).
    replace (Rltb (Delta * Delta) (Rabs (nu / k))) with false by (symmetry; apply Rltb_false; lra). destruct b; reflexivity.
  - intros N. cbn [nleb nltb nsq nmul nabs ncst Num_ext lift1 lift2 lift2b].
    destruct (Rleb Delta 0) eqn:E1; [eexists; reflexivity|]. destruct (Rltb (mu / k) (Delta * Delta)) eqn:E2; [eexists; reflexivity|].
    destruct (Rltb (Delta * Delta) (Rabs (nu / k))) eqn:E3; [eexists; reflexivity|]. exfalso. apply N.
    apply Rleb_false in E1. apply Rltb_false in E2, E3. cbn. lra.
Qed.
Print Assumptions C14_prolate_division.

(** ** C15 *)
Theorem C15_reflexive : forall m deg f p, cls_of p <> CTwoSphere ->
  pos_eq m deg (4 + f) (finite p) (finite p) = Ok false true.
Proof. exact eq_refl_ok. Qed.
Print Assumptions C15_reflexive.
Theorem C15_cartesian : forall m deg f p q a b,
  is_cart (cls_of p) = true -> valid q -> ~ negative_field q -> cls_of q <> CTwoSphere ->
  dim_of (cls_of q) = dim_of (cls_of p) -> denotes p a -> denotes q b ->
  exists e, pos_eq m deg (4 + f) (finite p) (finite q) = Ok false e /\ (e = true <-> a = b).
Proof. exact eq_cart. Qed.
Print Assumptions C15_cartesian.
Theorem C15_curvilinear_3d : forall m deg f p q a b,
  plain3 (cls_of p) -> plain3 (cls_of q) -> valid p -> valid q -> length_radial p -> length_radial q ->
  azimuth_in_range p -> azimuth_in_range q -> off_axis p -> ~ at_origin q -> denotes p a -> denotes q b ->
  exists e, pos_eq m deg (4 + f) (finite p) (finite q) = Ok false e /\ (e = true <-> a = b).
Proof. exact eq_curv3. Qed.
Print Assumptions C15_curvilinear_3d.
Theorem C15_polar : forall m deg f r phi q a b,
  plain2 (cls_of q) -> valid_dist r -> dk r = KDistance -> dval r <> 0 -> 0 <= phi < 2 * PI ->
  valid q -> length_radial q -> azimuth_in_range q -> denotes (PPolar r phi) a -> denotes q b ->
  exists e, pos_eq m deg (4 + f) (finite (PPolar r phi)) (finite q) = Ok false e /\ (e = true <-> a = b).
Proof. exact eq_polar. Qed.
Print Assumptions C15_polar.
Example C15_case : let p := PCyl 2 1 3 in let q := PCart3 (2 * cos 1) (2 * sin 1) 3 in
  off_axis p /\ ~ at_origin q /\ azimuth_in_range p.
Proof.
  pose proof PI2_3_2. pose proof (sin2_cos2 1) as S. unfold Rsqr in S. cbn. split; [|split].
  - intros x y z E. apply list3_inj in E. destruct E as (-> & -> & ->). nra.
  - intros E. apply list3_inj in E. lra.
  - unfold azimuth_in_range; cbn; lra.
Qed.
(** Finding: across dimensions equality is not symmetric. *)
Theorem C15_not_symmetric_across_dimensions : forall m deg f, exists p q,
  pos_eq m deg (4 + f) (finite p) (finite q) = Ok false false /\
  pos_eq m deg (4 + f) (finite q) (finite p) = Ok true true.
Proof. exact eq_asym. Qed.
Print Assumptions C15_not_symmetric_across_dimensions.
Theorem C15_prolate_not_comparable : forall m deg f (p q : pos ext), cls_of p = CProlate -> cls_of q <> CProlate ->
  dim_of (cls_of q) = 3%nat -> pos_eq m deg (4 + f) p q = Raise EMissingDelta.
Proof. exact eq_prolate_missing. Qed.
Print Assumptions C15_prolate_not_comparable.
