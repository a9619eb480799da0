(** * C47: batched conversions are the element-wise conversions.

    Specification vocabulary: [valid s idx] (idx is an index into shape s),
    [position s idx] (C-order position of idx), [is_broadcast] (numpy broadcasting),
    [align] (the index read in a broadcast copy): ShapesThm.v; [gives r y]: the call
    terminates normally with value y. *)
From Coq Require Import Reals List Bool ZArith Arith Lia Lra.
From Verif Require Import Num Vectors Transform Vel Shapes ShapesThm Batch BatchThm.
From Verif Require Import Spec SpecVel PropVel.
Import ListNotations.
Open Scope nat_scope.
Notation is_index := ShapesThm.valid.
Notation element v idx := (mkVel (bvc v) (adat (bvdat v) idx)).
Notation acc_element a idx := (mkAcc (bxc a) (adat (bxdat a) idx)).

(** Positions: the batch converts iff every element does, to the element-wise result. *)
Theorem C47_positions : forall m deg f kw P t,
  (forall Q, gives (b_represent_as m deg f kw P t) Q -> ash Q = ash P /\
     forall idx, is_index (ash P) idx -> gives (represent_as m deg f kw (adat P idx) t) (adat Q idx)) /\
  ((forall idx, is_index (ash P) idx -> exists q, gives (represent_as m deg f kw (adat P idx) t) q) ->
   exists Q, gives (b_represent_as m deg f kw P t) Q).
Proof.
  intros. split. intros Q H. now apply b_map_spec in H. apply (b_map_total p0 (fun p => represent_as m deg f kw p t)).
Qed.
Print Assumptions C47_positions.

(** Velocities, at positions of the same shape: the same. *)
Theorem C47_velocities : forall m deg f kw v t P, ash P = ash (bvdat v) ->
  (forall r, gives (b_vel_represent_as m deg f kw v t P) r -> bvc r = t /\ ash (bvdat r) = ash (bvdat v) /\
     forall idx, is_index (ash (bvdat v)) idx ->
       gives (vel_represent_as m deg f kw (element v idx) t (adat P idx)) (mkVel t (adat (bvdat r) idx))) /\
  (prod (ash (bvdat v)) <> 0 ->
   (forall idx, is_index (ash (bvdat v)) idx -> exists y, gives (vel_represent_as m deg f kw (element v idx) t (adat P idx)) y) ->
   exists r, gives (b_vel_represent_as m deg f kw v t P) r).
Proof. intros m deg f kw v t P S. split; [intros r; now apply b_same_spec|now apply b_same_total]. Qed.
Print Assumptions C47_velocities.

(** Accelerations, with velocities and positions of the same shape: the same. *)
Theorem C47_accelerations : forall m deg f kw a t v P, ash P = ash (bxdat a) -> ash (bvdat v) = ash (bxdat a) ->
  (forall r, gives (b_acc_represent_as m deg f kw a t v P) r -> bxc r = t /\ ash (bxdat r) = ash (bxdat a) /\
     forall idx, is_index (ash (bxdat a)) idx ->
       gives (acc_represent_as m deg f kw (acc_element a idx) t (element v idx) (adat P idx)) (mkAcc t (adat (bxdat r) idx))) /\
  (prod (ash (bxdat a)) <> 0 ->
   (forall idx, is_index (ash (bxdat a)) idx ->
      exists y, gives (acc_represent_as m deg f kw (acc_element a idx) t (element v idx) (adat P idx)) y) ->
   exists r, gives (b_acc_represent_as m deg f kw a t v P) r).
Proof.
  intros m deg f kw a t v P SP Sv. split; [|now apply b_acc_total].
  intros r H. apply b_acc_spec in H as (A & B & C). auto.
Qed.
Print Assumptions C47_accelerations.

(** Together with C19: converting a whole batch of velocities keeps the meaning of
    every one of them, whatever the shape. *)
Theorem C47_batch_keeps_meaning : forall m deg f kw (s : list nat) (P : list nat -> pos R) (c t : vcls) (x : list nat -> list R) pt,
  vplain3 c -> vplain3 t -> prod s <> 0 ->
  (forall idx, is_index s idx -> Spec.valid (P idx) /\ plain3 (cls_of (P idx)) /\ ~ negative_field (P idx) /\
     off_axis (P idx) /\ denotes (P idx) (pt idx) /\ length (x idx) = 3) ->
  exists r, gives (b_vel_represent_as m deg (4 + f) kw (mkBVel c (mkArr s (fun i => map (@Some R) (x i)))) t
                     (mkArr s (fun i => finite (P i)))) r /\
    bvc r = t /\ ash (bvdat r) = s /\
    forall idx, is_index s idx -> exists y, adat (bvdat r) idx = map (@Some R) y /\
      forall p q w, Spec.valid p -> Spec.valid q -> denotes p (pt idx) -> denotes q (pt idx) ->
        cls_of p = integral_cls c -> cls_of q = integral_cls t ->
        (vel_means p (mkVel c (x idx)) w <-> vel_means q (mkVel t y) w).
Proof.
  intros m deg f kw s P c t x pt Hc Ht NZ H.
  set (v := mkBVel c _). set (PP := mkArr s _).
  assert (E : forall idx, is_index s idx -> exists y,
     vel_represent_as m deg (4 + f) kw (element v idx) t (adat PP idx) = Ok false (vfinite (mkVel t y)) /\
     forall p q w, Spec.valid p -> Spec.valid q -> denotes p (pt idx) -> denotes q (pt idx) ->
        cls_of p = integral_cls c -> cls_of q = integral_cls t ->
        (vel_means p (mkVel c (x idx)) w <-> vel_means q (mkVel t y) w)).
  { intros idx V. destruct (H idx V) as (A1 & A2 & A3 & A4 & A5 & A6).
    destruct (C19_velocity_keeps_meaning_3d m deg f kw (P idx) (mkVel c (x idx)) t (pt idx)) as (v' & B1 & B2 & B3); auto.
    destruct v' as [c' y]. cbn in B2. subst c'. exists y. split; [exact B1|exact B3]. }
  destruct (C47_velocities m deg (4 + f) kw v t PP eq_refl) as [C1 C2].
  destruct (C2 NZ) as [r Hr]. { intros idx V. destruct (E idx V) as (y & B & _). exists (vfinite (mkVel t y)), false. exact B. }
  destruct (C1 r Hr) as (D1 & D2 & D3). exists r. split; [exact Hr|]. split; auto. split; auto. intros idx V.
  destruct (E idx V) as (y & B1 & B2). exists y. split; auto. specialize (D3 idx V). destruct D3 as [w D3].
  pose proof (eq_trans (eq_sym B1) D3) as K. unfold vfinite in K. cbn [vc vcomps] in K. injection K as _ K. symmetry. exact K.
Qed.
Print Assumptions C47_batch_keeps_meaning.
(** non-vacuity: a 2x2 batch of spherical velocities at spherical positions *)
Example C47_batch_keeps_meaning_case :
  let P (i : list nat) := PCart3 1%R (INR (nth 0 i 0)) (INR (nth 1 i 0)) in
  forall idx, is_index [2; 2] idx -> Spec.valid (P idx) /\ plain3 (cls_of (P idx)) /\ ~ negative_field (P idx) /\
     off_axis (P idx) /\ denotes (P idx) [1%R; INR (nth 0 idx 0); INR (nth 1 idx 0)] /\ length [1%R; 2%R; 3%R] = 3.
Proof.
  intros P idx V. cbn. repeat split; try tauto.
  intros x y z D. cbn in D. injection D as D1 D2 D3. subst. pose proof (Rle_0_sqr (INR (nth 0 idx 0))). unfold Rsqr in *. lra.
Qed.

(** ** What the shape handling does when the shapes differ *)

(** Only the number of elements must agree: with equally many positions in another
    shape, the elements are paired by their C-order position, silently. *)
Theorem C47_finding_paired_by_position : forall m deg f kw v t P r,
  bvc v <> t -> bvc v <> WLonCosLat -> t <> WLonCosLat ->
  gives (b_vel_represent_as m deg f kw v t P) r ->
  prod (ash P) = prod (ash (bvdat v)) /\ ash (bvdat r) = ash (bvdat v) /\
  forall idx jdx, is_index (ash (bvdat v)) idx -> is_index (ash P) jdx ->
    position (ash P) jdx = position (ash (bvdat v)) idx ->
    gives (vel_represent_as m deg f kw (element v idx) t (adat P jdx)) (mkVel t (adat (bvdat r) idx)).
Proof.
  intros m deg f kw v t P r N N1 N2 H. unfold b_vel_represent_as in H.
  replace (vcls_eqb (bvc v) t) with false in H by (destruct (bvc v), t; cbn; congruence). cbn [andb] in H.
  destruct (negb (vdim (bvc v) =? vdim t)) eqn:D; [now apply gives_raise in H|].
  assert (G : gives (b_vel_generic m deg f kw v t P) r) by (destruct (bvc v), t; try congruence; exact H).
  apply b_generic_spec in G as (A & B & C & E). split; auto. split; auto. intros idx jdx V W Eq.
  specialize (E idx V). rewrite !position_ravel in Eq by auto. unfold partner in E. rewrite <- Eq, unravel_ravel in E by auto.
  unfold vel_represent_as. cbn [vc]. replace (vcls_eqb (bvc v) t) with false by (destruct (bvc v), t; cbn; congruence). cbn [andb].
  rewrite D. destruct (bvc v), t; try congruence; exact E.
Qed.
Print Assumptions C47_finding_paired_by_position.

(** There is no broadcasting: one position for several velocities (or several
    positions for one velocity) raises, for every pair of distinct classes without
    LonCosLat. *)
Theorem C47_finding_no_broadcasting : forall m deg f kw v t P,
  bvc v <> t -> bvc v <> WLonCosLat -> t <> WLonCosLat -> prod (ash P) <> prod (ash (bvdat v)) ->
  exists e, b_vel_represent_as m deg f kw v t P = Raise e.
Proof.
  intros m deg f kw v t P N N1 N2 S. destruct (b_vel_represent_as m deg f kw v t P) as [w r|e] eqn:E; [|eauto].
  destruct (C47_finding_paired_by_position m deg f kw v t P r) as [K _]; auto. now exists w. congruence.
Qed.
Print Assumptions C47_finding_no_broadcasting.

(** Between LonLat and LonCosLat, however, the arrays are broadcast. *)
Theorem C47_loncoslat_broadcasts : forall m deg f kw v P r t,
  (bvc v = WLonLat /\ t = WLonCosLat) \/ (bvc v = WLonCosLat /\ t = WLonLat) ->
  gives (b_vel_represent_as m deg f kw v t P) r ->
  is_broadcast [ash (bvdat v); ash P] (ash (bvdat r)) /\
  forall idx, is_index (ash (bvdat r)) idx ->
    gives (vel_represent_as m deg f kw (element v (align (ash (bvdat v)) idx)) t (adat P (align (ash P) idx)))
          (mkVel t (adat (bvdat r) idx)).
Proof.
  intros m deg f kw v P r t [[E ->]|[E ->]] H; unfold b_vel_represent_as in H; rewrite E in H; cbn in H.
  - apply (b_lcl_spec m deg f true) in H as (A & B & C). split; auto. intros idx V. specialize (C idx V). rewrite E in *. exact C.
  - apply (b_lcl_spec m deg f false) in H as (A & B & C). split; auto. intros idx V. specialize (C idx V). rewrite E in *. exact C.
Qed.
Print Assumptions C47_loncoslat_broadcasts.

(** So one LonCosLat velocity at an array of positions converts to any other class,
    while the same velocity given as LonLat components raises (previous theorems). *)
Theorem C47_finding_loncoslat_inconsistent : forall m deg f kw v t P,
  bvc v = WLonCosLat -> vdim t = 3 -> t <> WLonCosLat -> t <> WLonLat ->
  ash (bvdat v) = [] -> prod (ash P) <> 0 ->
  (forall idx, is_index (ash P) idx -> exists y, gives (vel_represent_as m deg f kw (element v []) t (adat P idx)) y) ->
  exists r, gives (b_vel_represent_as m deg f kw v t P) r /\ bvc r = t /\ ash (bvdat r) = ash P /\
    forall idx, is_index (ash P) idx -> gives (vel_represent_as m deg f kw (element v []) t (adat P idx)) (mkVel t (adat (bvdat r) idx)).
Proof.
  intros m deg f kw v t P E D N1 N2 S NZ H.
  assert (R1 : forall p, vel_represent_as m deg f kw (element v []) t p =
    do v' <- lcl_to_lonlat m deg f (element v []) p; vel_generic m deg f nokw v' t p).
  { intros p. unfold vel_represent_as. cbn [vc]. rewrite E. destruct t; try congruence; try discriminate D; reflexivity. }
  assert (R2 : b_vel_represent_as m deg f kw v t P = do v' <- b_lcl_to_lonlat m deg f v P; b_vel_generic m deg f nokw v' t P).
  { unfold b_vel_represent_as. rewrite E. destruct t; try congruence; try discriminate D; reflexivity. }
  assert (B : is_broadcast [ash (bvdat v); ash P] (ash P)).
  { rewrite S. split.
    - intros c [<-|[<-|[]]]; split; auto; cbn; try lia. intros k n Hk. unfold axis in Hk. destruct k; discriminate.
    - intros k n Hk. exists (ash P). split; [right; now left|auto]. }
  assert (Al : forall idx, align (ash (bvdat v)) idx = []).
  { intros idx. rewrite S. unfold align. cbn [length combine map]. reflexivity. }
  destruct (b_lcl_total m deg f false v P (ash P) B NZ) as [v' Hv'].
  { intros idx V. destruct (H idx V) as [y Hy]. rewrite R1 in Hy. apply gives_bind in Hy as (u & Hu & _).
    apply (lonlat_of_lcl m deg f false) in Hu. auto. }
  { intros idx V. rewrite Al, align_self by auto. destruct (H idx V) as [y Hy]. rewrite R1 in Hy. apply gives_bind in Hy as (u & Hu & _). eauto. }
  pose proof (b_lcl_spec m deg f false v P v' Hv') as (A1 & A2 & A3).
  assert (Sv : ash (bvdat v') = ash P) by (eapply broadcast_unique; eauto). rewrite Sv in *.
  assert (A4 : forall idx, is_index (ash P) idx -> gives (lcl_to_lonlat m deg f (element v []) (adat P idx)) (element v' idx)).
  { intros idx V. specialize (A3 idx V). rewrite Al, align_self in A3 by auto. rewrite A1. exact A3. }
  destruct (b_generic_total m deg f nokw v' t P) as [r Hr]; rewrite ?Sv; auto.
  { intros idx V. rewrite partner_self by auto. destruct (H idx V) as [y Hy]. rewrite R1 in Hy. apply gives_bind in Hy as (u & Hu & Hy).
    rewrite (gives_det _ _ _ (A4 idx V) Hu). eauto. }
  pose proof (b_generic_spec m deg f nokw v' t P r Hr) as (_ & B1 & B2 & B3). rewrite Sv in *.
  exists r. split. { rewrite R2. apply gives_bind. eauto. } split; auto. split; auto.
  intros idx V. rewrite R1. apply gives_bind. exists (element v' idx). split; auto.
  specialize (B3 idx V). rewrite partner_self in B3 by auto. exact B3.
Qed.
Print Assumptions C47_finding_loncoslat_inconsistent.
