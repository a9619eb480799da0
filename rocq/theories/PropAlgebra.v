(** * Property C56: conversions and arithmetic obey the laws of geometry.

    Sequences of calls: converting in two steps is converting in one; vector
    arithmetic is associative, commutes with scaling, and the norm is a norm.
    Vocabulary: Spec.v, SpecVel.v. *)
From Coq Require Import Reals Bool List ZArith Lra Lia.
From Verif Require Import Num Vectors Spec Transform Pos3D Pos3DThm RoundTrip PosGlue Prolate Arith ArithThm ArithThm2 Vel SpecVel VelAt DualThm VelThm VelLow VelProlate VelProlate2 VelRound AccThm VelMisc PropPos PropArith PropVel.
Import ListNotations.
Open Scope R_scope.

(** ** Conversions *)
(** p -> t1 -> t2 and p -> t2 denote the same point; away from the polar axis they
    are the same object. *)
Theorem C56_position_path_independent : forall m deg f kw kw' kw'' p t1 t2,
  valid p -> plain3 (cls_of p) -> plain3 t1 -> plain3 t2 -> length_radial p -> ~ at_origin p ->
  exists q1 q2 q, represent_as m deg (4 + f) kw (finite p) t1 = Ok false (finite q1) /\
    represent_as m deg (4 + f) kw' (finite q1) t2 = Ok false (finite q2) /\
    represent_as m deg (4 + f) kw'' (finite p) t2 = Ok false (finite q) /\
    cls_of q2 = t2 /\ cls_of q = t2 /\ (forall pt, denotes q2 pt <-> denotes q pt) /\
    (azimuth_in_range p -> off_axis p -> q2 = q).
Proof.
  intros m deg f kw kw' kw'' p t1 t2 V P T1 T2 L O.
  destruct (rep3_total m deg f kw p t1 V P T1 L O) as (q1 & A1 & A2 & A3 & A4 & A5 & A6).
  assert (O1 : ~ at_origin q1). { unfold at_origin. rewrite <- A4. exact O. }
  assert (P1 : plain3 (cls_of q1)) by now rewrite A2.
  destruct (rep3_total m deg f kw' q1 t2 A3 P1 T2 A6 O1) as (q2 & B1 & B2 & B3 & B4 & B5 & B6).
  destruct (rep3_total m deg f kw'' p t2 V P T2 L O) as (q & D1 & D2 & D3 & D4 & D5 & D6).
  exists q1, q2, q. repeat (split; [assumption|]). split.
  - intros pt. now rewrite <- B4, <- D4, A4.
  - intros Az OA. destruct (denotes_total p V) as [pt D].
    assert (E2 : denotes q2 pt) by now apply B4, A4. assert (E : denotes q pt) by now apply D4.
    destruct (off_same p q2 pt V B3 D E2) as [OO _].
    eapply coords_unique with (pt := pt); eauto; try (now rewrite B2); congruence.
Qed.
Print Assumptions C56_position_path_independent.
Example C56_case : let p := PCyl 2 1 3 in
  valid p /\ plain3 (cls_of p) /\ length_radial p /\ ~ at_origin p /\ azimuth_in_range p /\ off_axis p.
Proof.
  cbn. pose proof PI2_3_2. assert (S := sin2_cos2 1). unfold Rsqr in S.
  refine (conj _ (conj I (conj I (conj _ (conj _ _))))); try lra.
  - unfold at_origin; cbn. intros H'. inversion H'. lra.
  - intros x y z E. cbn in E. inversion E. intros Z. nra.
Qed.

Theorem C56_position_path_independent_2d : forall m deg f kw kw' kw'' p t1 t2,
  valid p -> plain2 (cls_of p) -> plain2 t1 -> plain2 t2 ->
  exists q1 q2 q, represent_as m deg (S f) kw (finite p) t1 = Ok false (finite q1) /\
    represent_as m deg (S f) kw' (finite q1) t2 = Ok false (finite q2) /\
    represent_as m deg (S f) kw'' (finite p) t2 = Ok false (finite q) /\
    cls_of q2 = t2 /\ cls_of q = t2 /\ (forall pt, denotes q2 pt <-> denotes q pt).
Proof.
  intros m deg f kw kw' kw'' p t1 t2 V P T1 T2.
  destruct (C02_represent_as_2d_keeps_point m deg f kw p t1 V P T1) as (q1 & A1 & A2 & A3 & A4 & _).
  assert (P1 : plain2 (cls_of q1)) by now rewrite A2.
  destruct (C02_represent_as_2d_keeps_point m deg f kw' q1 t2 A3 P1 T2) as (q2 & B1 & B2 & B3 & B4 & _).
  destruct (C02_represent_as_2d_keeps_point m deg f kw'' p t2 V P T2) as (q & D1 & D2 & D3 & D4 & _).
  exists q1, q2, q. repeat (split; [assumption|]). intros pt. now rewrite <- B4, <- D4, A4.
Qed.
Print Assumptions C56_position_path_independent_2d.

(** The same for velocities (at one position): exact equality. *)
Theorem C56_velocity_path_independent : forall m deg f kw kw' kw'' P v t1 t2 pt,
  valid P -> plain3 (cls_of P) -> ~ negative_field P -> off_axis P -> denotes P pt ->
  vplain3 (vc v) -> vplain3 t1 -> vplain3 t2 -> length (vcomps v) = 3%nat ->
  exists v1 v2, vel_represent_as m deg (4 + f) kw (vfinite v) t1 (finite P) = Ok false (vfinite v1) /\
    vel_represent_as m deg (4 + f) kw' (vfinite v1) t2 (finite P) = Ok false (vfinite v2) /\
    vel_represent_as m deg (4 + f) kw'' (vfinite v) t2 (finite P) = Ok false (vfinite v2) /\ vc v2 = t2.
Proof.
  intros m deg f kw kw' kw'' P v t1 t2 pt V PP NN O D Pv P1 P2 L.
  assert (H := rep_ok_plain3 m deg f P V PP NN O).
  destruct (vel_plain3 m deg f kw P v t1 pt H D Pv P1 L) as (v1 & A1 & A2 & A3 & A4).
  assert (Pv1 : vplain3 (vc v1)) by now rewrite A2.
  destruct (vel_plain3 m deg f kw' P v1 t2 pt H D Pv1 P2 A3) as (v2 & B1 & B2 & B3 & B4).
  destruct (vel_plain3 m deg f kw'' P v t2 pt H D Pv P2 L) as (w & E1 & E2 & E3 & E4).
  exists v1, v2. split; [exact A1|]. split; [exact B1|]. split; [|exact B2]. rewrite E1. do 2 f_equal.
  destruct (proj2 H nokw (integral_cls (vc v)) Pv) as (p & _ & Cp & Vp & Ep).
  destruct (proj2 H nokw (integral_cls t1) P1) as (q & _ & Cq & Vq & Eq).
  destruct (proj2 H nokw (integral_cls t2) P2) as (r & _ & Cr & Vr & Er).
  assert (Dp : denotes p pt) by now apply Ep. assert (Dq : denotes q pt) by now apply Eq.
  assert (Dr : denotes r pt) by now apply Er.
  assert (Or : off_axis r) by (eapply off_axis_pt; [exact Er|apply H]).
  specialize (A4 p q Vp Vq Dp Dq Cp Cq). rewrite A2 in B4. specialize (B4 q r Vq Vr Dq Dr Cq Cr).
  specialize (E4 p r Vp Vr Dp Dr Cp Cr).
  destruct v2 as [c2 u2], w as [cw uw]. cbn in *. subst c2 cw. f_equal.
  assert (G : uncos r (mkVel t2 uw) = uncos r (mkVel t2 u2)) by
    (apply (vel_at_inj r); auto using uncos_length; [now rewrite Cr| congruence]).
  enough (K : mkVel t2 uw = mkVel t2 u2) by (now injection K).
  apply (uncos_inj r); auto.
Qed.
Print Assumptions C56_velocity_path_independent.

(** ** Lists of coordinates (facts about the specification's own operations) *)
Lemma vadd_len a b : length a = length b -> length (vadd a b) = length a.
Proof. intros H. unfold vadd. rewrite map_length, combine_length. lia. Qed.
Lemma vadd_assoc a b c : vadd (vadd a b) c = vadd a (vadd b c).
Proof.
  revert b c; induction a as [|x a IH]; intros [|y b] [|z c]; try reflexivity.
  unfold vadd in *. cbn. f_equal; [ring|apply IH].
Qed.
Lemma vscale_vadd k a b : vscale k (vadd a b) = vadd (vscale k a) (vscale k b).
Proof.
  revert b; induction a as [|x a IH]; intros [|y b]; try reflexivity.
  unfold vadd, vscale in *. cbn. f_equal; [ring|apply IH].
Qed.
Lemma vscale_vscale k l a : vscale k (vscale l a) = vscale (k * l) a.
Proof. induction a as [|x a IH]; [reflexivity|]. unfold vscale in *. cbn. f_equal; [ring|apply IH]. Qed.
Lemma vscale_1 a : vscale 1 a = a.
Proof. induction a as [|x a IH]; [reflexivity|]. unfold vscale in *. cbn. f_equal; [ring|apply IH]. Qed.
Lemma vsub_vadd a b : vsub a b = vadd a (vscale (-1) b).
Proof.
  revert b; induction a as [|x a IH]; intros [|y b]; try reflexivity.
  unfold vsub, vadd, vscale in *. cbn. f_equal; [ring|apply IH].
Qed.
Lemma vsub_flip a b : vsub b a = vscale (-1) (vsub a b).
Proof.
  revert b; induction a as [|x a IH]; intros [|y b]; try reflexivity.
  unfold vsub, vscale in *. cbn. f_equal; [ring|apply IH].
Qed.
Definition sq (a : list R) : R := fold_right (fun x s => x * x + s) 0 a.
Lemma sq_nonneg a : 0 <= sq a.
Proof. induction a as [|x a IH]; cbn; [lra|]. fold (sq a). nra. Qed.
Lemma norm_sq a : norm_of a = sqrt (sq a). Proof. reflexivity. Qed.
Lemma norm_scale k a : norm_of (vscale k a) = Rabs k * norm_of a.
Proof.
  rewrite !norm_sq. replace (sq (vscale k a)) with (k * k * sq a).
  - rewrite sqrt_mult; [|nra|apply sq_nonneg]. f_equal. replace (k * k) with (Rsqr k) by reflexivity. apply sqrt_Rsqr_abs.
  - induction a as [|x a IH]; cbn; [ring|]. fold (sq a) (vscale k a) (sq (vscale k a)). rewrite <- IH. ring.
Qed.
Lemma norm_nonneg a : 0 <= norm_of a. Proof. apply sqrt_pos. Qed.
Lemma minkowski2 x y u v : 0 <= u -> 0 <= v ->
  sqrt ((x + y) * (x + y) + (u + v) * (u + v)) <= sqrt (x * x + u * u) + sqrt (y * y + v * v).
Proof.
  intros U V. set (A := sqrt (x*x+u*u)). set (B := sqrt (y*y+v*v)).
  assert (HA : A * A = x*x+u*u) by (apply sqrt_sqrt; nra). assert (HB : B * B = y*y+v*v) by (apply sqrt_sqrt; nra).
  assert (0 <= A) by apply sqrt_pos. assert (0 <= B) by apply sqrt_pos.
  assert (C : x * y + u * v <= A * B).
  { destruct (Rle_dec (x * y + u * v) 0); [nra|].
    apply Rsqr_incr_0_var; [|nra]. unfold Rsqr.
    replace (A * B * (A * B)) with ((A * A) * (B * B)) by ring. rewrite HA, HB.
    enough (0 <= (x * v - u * y) * (x * v - u * y)) by nra. apply Rle_0_sqr. }
  apply Rsqr_incr_0_var; [|lra]. unfold Rsqr. rewrite sqrt_sqrt by (apply Rplus_le_le_0_compat; apply Rle_0_sqr).
  replace ((A + B) * (A + B)) with (A * A + B * B + 2 * (A * B)) by ring. rewrite HA, HB. lra.
Qed.
Lemma norm_triangle a b : norm_of (vadd a b) <= norm_of a + norm_of b.
Proof.
  revert b; induction a as [|x a IH]; intros [|y b].
  - unfold vadd, norm_of; cbn. rewrite sqrt_0. lra.
  - unfold vadd, norm_of; cbn. rewrite sqrt_0. pose proof (sqrt_pos (y * y + fold_right (fun x s => x * x + s) 0 b)). lra.
  - unfold vadd, norm_of; cbn. rewrite sqrt_0. pose proof (sqrt_pos (x * x + fold_right (fun x s => x * x + s) 0 a)). lra.
  - specialize (IH b). rewrite !norm_sq in *. cbn [vadd combine map sq fold_right].
    fold (vadd a b). fold (sq a) (sq b) (sq (vadd a b)).
    set (u := sqrt (sq a)) in *. set (v := sqrt (sq b)) in *.
    assert (Hu : u * u = sq a) by apply sqrt_sqrt, sq_nonneg. assert (Hv : v * v = sq b) by apply sqrt_sqrt, sq_nonneg.
    rewrite <- Hu, <- Hv. assert (0 <= u) by apply sqrt_pos. assert (0 <= v) by apply sqrt_pos.
    eapply Rle_trans; [|apply minkowski2; assumption]. apply sqrt_le_1_alt.
    assert (S := sqrt_sqrt _ (sq_nonneg (vadd a b))). assert (0 <= sqrt (sq (vadd a b))) by apply sqrt_pos. nra.
Qed.

(** ** Addition and subtraction *)
Lemma good_result s : valid s -> length_radial s -> ~ negative_field s.
Proof. exact (valid_length_nonneg s). Qed.
Lemma not_two_sphere c pt : can_hold c pt -> c <> CTwoSphere.
Proof. intros [_ H] E. subst c. exact H. Qed.

(** (p + q) + r and p + (q + r) are the same point (and the same class). *)
Theorem C56_add_associative : forall m deg f p q r a b c,
  valid p -> ~ negative_field p -> valid q -> ~ negative_field q -> valid r -> ~ negative_field r ->
  cls_of r <> CTwoSphere -> dim_of (cls_of q) = dim_of (cls_of p) -> dim_of (cls_of r) = dim_of (cls_of p) ->
  denotes p a -> denotes q b -> denotes r c ->
  can_hold (cls_of p) (vadd a b) -> can_hold (cls_of q) (vadd b c) -> can_hold (cls_of p) (vadd a (vadd b c)) ->
  exists s t u w, pos_add m deg (4 + f) (finite p) (finite q) = Ok false (finite s) /\
    pos_add m deg (4 + f) (finite s) (finite r) = Ok false (finite u) /\
    pos_add m deg (4 + f) (finite q) (finite r) = Ok false (finite t) /\
    pos_add m deg (4 + f) (finite p) (finite t) = Ok false (finite w) /\
    cls_of u = cls_of p /\ cls_of w = cls_of p /\
    denotes u (vadd a (vadd b c)) /\ denotes w (vadd a (vadd b c)).
Proof.
  intros m deg f p q r a b c Vp Np Vq Nq Vr Nr NT Dq Dr Da Db Dc H1 H2 H3.
  assert (Tq := not_two_sphere _ _ H2).
  destruct (C12_add m deg f p q a b) as (s & A1 & A2 & A3 & A4 & A5); auto.
  destruct (C12_add m deg f q r b c) as (t & B1 & B2 & B3 & B4 & B5); auto; [congruence|].
  destruct (C12_add m deg f s r (vadd a b) c) as (u & E1 & E2 & E3 & E4 & E5); auto using good_result; try congruence.
  { rewrite A2, vadd_assoc. exact H3. }
  destruct (C12_add m deg f p t a (vadd b c)) as (w & G1 & G2 & G3 & G4 & G5); auto using good_result; try congruence.
  exists s, t, u, w. rewrite vadd_assoc in E4. repeat (split; [first [assumption|congruence]|]). assumption.
Qed.
Print Assumptions C56_add_associative.

(** p - q is p + (-q). *)
Theorem C56_sub_is_add_neg : forall m deg f p q a b,
  valid p -> ~ negative_field p -> valid q -> ~ negative_field q ->
  dim_of (cls_of q) = dim_of (cls_of p) -> denotes p a -> denotes q b ->
  can_hold (cls_of q) (vscale (-1) b) -> can_hold (cls_of p) (vsub a b) ->
  exists s n t, pos_sub m deg (4 + f) (finite p) (finite q) = Ok false (finite s) /\
    pos_neg m deg (4 + f) (finite q) = Ok false (finite n) /\
    pos_add m deg (4 + f) (finite p) (finite n) = Ok false (finite t) /\
    cls_of s = cls_of p /\ cls_of t = cls_of p /\ (denotes s (vsub a b) /\ denotes t (vsub a b)).
Proof.
  intros m deg f p q a b Vp Np Vq Nq Dq Da Db H1 H2. assert (Tq := not_two_sphere _ _ H1).
  destruct (C12_sub m deg f p q a b) as (s & A1 & A2 & A3 & A4 & A5); auto.
  destruct (C13_neg m deg f q b) as (n & B1 & B2 & B3 & B4 & B5); auto.
  destruct (C12_add m deg f p n a (vscale (-1) b)) as (t & E1 & E2 & E3 & E4 & E5); auto using good_result; try congruence.
  { now rewrite <- vsub_vadd. }
  rewrite <- vsub_vadd in E4. exists s, n, t. auto 10.
Qed.
Print Assumptions C56_sub_is_add_neg.

(** -(-p) is the same point as p. *)
Theorem C56_double_negation : forall m deg f p a,
  valid p -> ~ negative_field p -> denotes p a -> can_hold (cls_of p) (vscale (-1) a) -> can_hold (cls_of p) a ->
  exists s t, pos_neg m deg (4 + f) (finite p) = Ok false (finite s) /\
    pos_neg m deg (4 + f) (finite s) = Ok false (finite t) /\ cls_of t = cls_of p /\ denotes t a.
Proof.
  intros m deg f p a V N D H1 H2.
  destruct (C13_neg m deg f p a) as (s & A1 & A2 & A3 & A4 & A5); auto.
  assert (E : vscale (-1) (vscale (-1) a) = a) by (rewrite vscale_vscale; replace (-1 * -1) with 1 by ring; apply vscale_1).
  destruct (C13_neg m deg f s (vscale (-1) a)) as (t & B1 & B2 & B3 & B4 & B5); auto using good_result.
  { rewrite A2, E. exact H2. }
  rewrite E in B4. exists s, t. repeat (split; [first [assumption|congruence]|]). assumption.
Qed.
Print Assumptions C56_double_negation.

(** ** Multiplication by numbers *)
Theorem C56_distributive : forall m deg f k p q a b,
  valid p -> ~ negative_field p -> valid q -> ~ negative_field q ->
  radial_scaled (cls_of p) = false -> radial_scaled (cls_of q) = false ->
  dim_of (cls_of q) = dim_of (cls_of p) -> denotes p a -> denotes q b ->
  can_hold (cls_of p) (vadd a b) -> can_hold (cls_of p) (vscale k (vadd a b)) ->
  can_hold (cls_of p) (vscale k a) -> can_hold (cls_of q) (vscale k b) ->
  exists s u kp kq w, pos_add m deg (4 + f) (finite p) (finite q) = Ok false (finite s) /\
    pos_mul m deg (4 + f) (Some k : ext) (finite s) = Ok false (finite u) /\
    pos_mul m deg (4 + f) (Some k : ext) (finite p) = Ok false (finite kp) /\
    pos_mul m deg (4 + f) (Some k : ext) (finite q) = Ok false (finite kq) /\
    pos_add m deg (4 + f) (finite kp) (finite kq) = Ok false (finite w) /\
    cls_of u = cls_of p /\ cls_of w = cls_of p /\
    denotes u (vscale k (vadd a b)) /\ denotes w (vscale k (vadd a b)).
Proof.
  intros m deg f k p q a b Vp Np Vq Nq Rp Rq Dq Da Db H1 H2 H3 H4. assert (Tq := not_two_sphere _ _ H4).
  destruct (C12_add m deg f p q a b) as (s & A1 & A2 & A3 & A4 & A5); auto.
  destruct (C13_scalar_multiple m deg f k s (vadd a b)) as (u & B1 & B2 & B3 & B4 & B5); auto using good_result; try (now rewrite A2).
  destruct (C13_scalar_multiple m deg f k p a) as (kp & E1 & E2 & E3 & E4 & E5); auto.
  destruct (C13_scalar_multiple m deg f k q b) as (kq & F1 & F2 & F3 & F4 & F5); auto.
  destruct (C12_add m deg f kp kq (vscale k a) (vscale k b)) as (w & G1 & G2 & G3 & G4 & G5); auto using good_result; try congruence.
  { rewrite E2, <- vscale_vadd. exact H2. }
  rewrite <- vscale_vadd in G4. exists s, u, kp, kq, w.
  repeat (split; [first [assumption|congruence]|]). assumption.
Qed.
Print Assumptions C56_distributive.

Theorem C56_scalars_multiply : forall m deg f k l p a,
  valid p -> ~ negative_field p -> radial_scaled (cls_of p) = false -> denotes p a ->
  can_hold (cls_of p) (vscale l a) -> can_hold (cls_of p) (vscale (k * l) a) ->
  exists s t u, pos_mul m deg (4 + f) (Some l : ext) (finite p) = Ok false (finite s) /\
    pos_mul m deg (4 + f) (Some k : ext) (finite s) = Ok false (finite t) /\
    pos_mul m deg (4 + f) (Some (k * l) : ext) (finite p) = Ok false (finite u) /\
    cls_of t = cls_of u /\ denotes t (vscale (k * l) a) /\ denotes u (vscale (k * l) a).
Proof.
  intros m deg f k l p a V N Rs D H1 H2.
  destruct (C13_scalar_multiple m deg f l p a) as (s & A1 & A2 & A3 & A4 & A5); auto.
  destruct (C13_scalar_multiple m deg f k s (vscale l a)) as (t & B1 & B2 & B3 & B4 & B5); auto using good_result; try (now rewrite A2).
  { rewrite A2, vscale_vscale. exact H2. }
  destruct (C13_scalar_multiple m deg f (k * l) p a) as (u & E1 & E2 & E3 & E4 & E5); auto.
  rewrite vscale_vscale in B4. exists s, t, u. repeat (split; [first [assumption|congruence]|]). assumption.
Qed.
Print Assumptions C56_scalars_multiply.

(** 1 * p is the point p and (-1) * p is -p. *)
Theorem C56_one_and_minus_one : forall m deg f p a,
  valid p -> ~ negative_field p -> radial_scaled (cls_of p) = false -> denotes p a ->
  can_hold (cls_of p) a -> can_hold (cls_of p) (vscale (-1) a) ->
  exists s t n, pos_mul m deg (4 + f) (Some 1 : ext) (finite p) = Ok false (finite s) /\ cls_of s = cls_of p /\ denotes s a /\
    pos_mul m deg (4 + f) (Some (-1) : ext) (finite p) = Ok false (finite t) /\
    pos_neg m deg (4 + f) (finite p) = Ok false (finite n) /\ (forall pt, denotes t pt <-> denotes n pt).
Proof.
  intros m deg f p a V N Rs D H1 H2.
  destruct (C13_scalar_multiple m deg f 1 p a) as (s & A1 & A2 & A3 & A4 & A5); auto; [now rewrite vscale_1|].
  destruct (C13_scalar_multiple m deg f (-1) p a) as (t & B1 & B2 & B3 & B4 & B5); auto.
  destruct (C13_neg m deg f p a) as (n & E1 & E2 & E3 & E4 & E5); auto.
  rewrite vscale_1 in A4. exists s, t, n. repeat (split; [first [assumption|congruence]|]).
  intros pt. split; intros X.
  - now rewrite (denotes_functional t _ _ B3 X B4).
  - now rewrite (denotes_functional n _ _ E3 X E4).
Qed.
Print Assumptions C56_one_and_minus_one.

(** ** The norm is a norm *)
Theorem C56_norm_homogeneous : forall m deg f k p a,
  valid p -> ~ negative_field p -> radial_scaled (cls_of p) = false -> denotes p a -> can_hold (cls_of p) (vscale k a) ->
  exists s d d', pos_mul m deg (4 + f) (Some k : ext) (finite p) = Ok false (finite s) /\
    pos_norm deg (4 + f) (finite p) = Ok false (@dist_map R ext (@Some R) d) /\
    pos_norm deg (4 + f) (finite s) = Ok false (mkDist KDistance (Some d') : dist ext) /\
    d' = Rabs k * len d.
Proof.
  intros m deg f k p a V N Rs D H. assert (T := not_two_sphere _ _ H).
  destruct (C13_scalar_multiple m deg f k p a) as (s & A1 & A2 & A3 & A4 & A5); auto.
  destruct (C11_norm_is_distance_to_origin deg f p a) as (d & B1 & B2 & B3 & _); auto.
  destruct (C11_norm_is_distance_to_origin deg f s (vscale k a)) as (d' & E1 & E2 & E3 & E4); auto using good_result; [congruence|].
  exists s, d, (len d'). split; [assumption|]. split; [assumption|]. split.
  - rewrite E1. unfold dist_map, len. now rewrite (E4 A5).
  - rewrite E3, B3. apply norm_scale.
Qed.
Print Assumptions C56_norm_homogeneous.

Theorem C56_norm_of_negative : forall m deg f p a,
  valid p -> ~ negative_field p -> denotes p a -> can_hold (cls_of p) (vscale (-1) a) ->
  exists s d d', pos_neg m deg (4 + f) (finite p) = Ok false (finite s) /\
    pos_norm deg (4 + f) (finite p) = Ok false (@dist_map R ext (@Some R) d) /\
    pos_norm deg (4 + f) (finite s) = Ok false (mkDist KDistance (Some d') : dist ext) /\ d' = len d.
Proof.
  intros m deg f p a V N D H. assert (T := not_two_sphere _ _ H).
  destruct (C13_neg m deg f p a) as (s & A1 & A2 & A3 & A4 & A5); auto.
  destruct (C11_norm_is_distance_to_origin deg f p a) as (d & B1 & B2 & B3 & _); auto.
  destruct (C11_norm_is_distance_to_origin deg f s (vscale (-1) a)) as (d' & E1 & E2 & E3 & E4); auto using good_result; [congruence|].
  exists s, d, (len d'). split; [assumption|]. split; [assumption|]. split.
  - rewrite E1. unfold dist_map, len. now rewrite (E4 A5).
  - rewrite E3, B3, norm_scale. replace (Rabs (-1)) with 1; [ring|]. rewrite Rabs_left by lra. ring.
Qed.
Print Assumptions C56_norm_of_negative.

Theorem C56_triangle_inequality : forall m deg f p q a b,
  valid p -> ~ negative_field p -> valid q -> ~ negative_field q -> cls_of q <> CTwoSphere ->
  dim_of (cls_of q) = dim_of (cls_of p) -> denotes p a -> denotes q b -> can_hold (cls_of p) (vadd a b) ->
  exists s dp dq ds, pos_add m deg (4 + f) (finite p) (finite q) = Ok false (finite s) /\
    pos_norm deg (4 + f) (finite p) = Ok false (@dist_map R ext (@Some R) dp) /\
    pos_norm deg (4 + f) (finite q) = Ok false (@dist_map R ext (@Some R) dq) /\
    pos_norm deg (4 + f) (finite s) = Ok false (mkDist KDistance (Some ds) : dist ext) /\
    ds <= len dp + len dq.
Proof.
  intros m deg f p q a b Vp Np Vq Nq Tq Dq Da Db H. assert (T := not_two_sphere _ _ H).
  destruct (C12_add m deg f p q a b) as (s & A1 & A2 & A3 & A4 & A5); auto.
  destruct (C11_norm_is_distance_to_origin deg f p a) as (d & B1 & B2 & B3 & _); auto.
  destruct (C11_norm_is_distance_to_origin deg f q b) as (e & F1 & F2 & F3 & _); auto.
  destruct (C11_norm_is_distance_to_origin deg f s (vadd a b)) as (d' & E1 & E2 & E3 & E4); auto using good_result; [congruence|].
  exists s, d, e, (len d'). split; [assumption|]. split; [assumption|]. split; [assumption|]. split.
  - rewrite E1. unfold dist_map, len. now rewrite (E4 A5).
  - rewrite E3, B3, F3. apply norm_triangle.
Qed.
Print Assumptions C56_triangle_inequality.

(** The distance between two positions is symmetric. *)
Theorem C56_distance_symmetric : forall m deg f p q a b,
  valid p -> ~ negative_field p -> valid q -> ~ negative_field q ->
  dim_of (cls_of q) = dim_of (cls_of p) -> denotes p a -> denotes q b ->
  can_hold (cls_of p) (vsub a b) -> can_hold (cls_of q) (vsub b a) ->
  exists s t d, pos_sub m deg (4 + f) (finite p) (finite q) = Ok false (finite s) /\
    pos_sub m deg (4 + f) (finite q) (finite p) = Ok false (finite t) /\
    pos_norm deg (4 + f) (finite s) = Ok false (mkDist KDistance (Some d) : dist ext) /\
    pos_norm deg (4 + f) (finite t) = Ok false (mkDist KDistance (Some d) : dist ext) /\ d = norm_of (vsub a b).
Proof.
  intros m deg f p q a b Vp Np Vq Nq Dq Da Db H1 H2.
  assert (Tp := not_two_sphere _ _ H1). assert (Tq := not_two_sphere _ _ H2).
  destruct (C12_sub m deg f p q a b) as (s & A1 & A2 & A3 & A4 & A5); auto.
  destruct (C12_sub m deg f q p b a) as (t & B1 & B2 & B3 & B4 & B5); auto.
  destruct (C11_norm_is_distance_to_origin deg f s (vsub a b)) as (d & E1 & E2 & E3 & E4); auto using good_result; [congruence|].
  destruct (C11_norm_is_distance_to_origin deg f t (vsub b a)) as (e & F1 & F2 & F3 & F4); auto using good_result; [congruence|].
  assert (K : norm_of (vsub b a) = norm_of (vsub a b)).
  { rewrite vsub_flip, norm_scale. replace (Rabs (-1)) with 1; [ring|]. rewrite Rabs_left by lra. ring. }
  rewrite K in F3. specialize (E4 A5). specialize (F4 B5). unfold len in E3, F3. rewrite E4 in E3. rewrite F4 in F3.
  exists s, t, (norm_of (vsub a b)). repeat (split; [first [assumption|reflexivity]|]).
  split; [rewrite E1|split; [rewrite F1|reflexivity]]; unfold dist_map; rewrite ?E4, ?F4, ?E3, ?F3; reflexivity.
Qed.
Print Assumptions C56_distance_symmetric.
Example C56_arith_case : let p := PSph (mkDist KDistance 1) 0 0 in let q := PCyl 2 0 1 in
  let a := [0; 0; 1] in let b := [2; 0; 1] in
  valid p /\ ~ negative_field p /\ valid q /\ ~ negative_field q /\ dim_of (cls_of q) = dim_of (cls_of p) /\
  denotes p a /\ denotes q b /\ radial_scaled (cls_of p) = false /\ radial_scaled (cls_of q) = false /\
  can_hold (cls_of p) (vadd a b) /\ can_hold (cls_of p) (vsub a b) /\ can_hold (cls_of p) (vscale 3 (vadd a b)) /\
  can_hold (cls_of q) (vsub b a).
Proof.
  cbn. unfold valid_dist; cbn. pose proof PI2_3_2. rewrite !cos_0, !sin_0. unfold len; cbn.
  refine (conj _ (conj _ (conj _ (conj _ (conj _ (conj _ (conj _ (conj _ (conj _ (conj _ (conj _ (conj _ _))))))))))));
  try first [lra | tauto | reflexivity | apply list3_eq; ring
            | split; [reflexivity|]; first [exact I | intros E; inversion E; lra]].
Qed.
