(** * C51: arithmetic of velocities and accelerations. *)
From Coq Require Import Reals Bool List Arith Lra Lia.
From Verif Require Import Num Vectors Transform Arith Vel Spec SpecVel VelArith VelLin Pos3D Pos3DThm PropVel FourVec Operators.
Import ListNotations.
Open Scope R_scope.

(** *** Which operations exist.  The answer differs between the dimensions, and
    between velocities and accelerations. *)
Definition raises {T} (r : res T) : Prop := exists e, r = Raise e.
Definition scalar_shape (k : scalar) : Prop := forall n, In n (sshape k) -> n = 0%nat.

Theorem C51_support : forall v w a b k,
  (raises (vadd_op v w) <-> ~ (vc v = vc w /\ In (vc v) [WCart1; WCart2; WCart3])) /\
  (raises (vsub_op v w) <-> ~ (vc v = WCart3 /\ vc w = WCart3)) /\
  (raises (vscale_op k v) <-> ~ (In (vc v) [WCart1; WCart2] /\ scalar_shape k)) /\
  raises (vmul_right_op v k) /\ raises (vdiv_op v k) /\
  (raises (aadd_op a b) <-> ~ (xc a = xc b /\ In (xc a) [XCart1; XCart2; XCart3])) /\
  (raises (asub_op a b) <-> ~ (xc a = xc b /\ In (xc a) [XCart1; XCart3])) /\
  (raises (ascale_op k a) <-> ~ (In (xc a) [XCart1; XCart2] /\ scalar_shape k)).
Proof.
  intros v w a b k.
  assert (S : any_axis (sshape k) = true <-> ~ scalar_shape k).
  { unfold any_axis. rewrite existsb_exists. split.
    - intros (n & I & E) H. rewrite (H n I) in E. discriminate E.
    - intros H. destruct (existsb (fun n => negb (Nat.eqb n 0%nat)) (sshape k)) eqn:E.
      + apply existsb_exists in E. exact E.
      + exfalso. apply H. intros n I. destruct (Nat.eq_dec n 0) as [->|N]; [reflexivity|].
        exfalso. assert (T : existsb (fun n => negb (Nat.eqb n 0%nat)) (sshape k) = true).
        { apply existsb_exists. exists n. split; [exact I|]. apply negb_true_iff, Nat.eqb_neq, N. }
        rewrite E in T. discriminate T. }
  unfold raises. refine (conj _ (conj _ (conj _ (conj _ (conj _ (conj _ (conj _ _))))))).
  - unfold vadd_op. destruct (vc v), (vc w); split; intros H; try (destruct H as [e H]; discriminate H); try (eexists; reflexivity);
      try (intros [E I]; try discriminate E; cbn in I; repeat (destruct I as [I|I]; try discriminate I); exact I);
      exfalso; apply H; cbn; auto.
  - unfold vsub_op. destruct (vc v), (vc w); split; intros H; try (destruct H as [e H]; discriminate H); try (eexists; reflexivity);
      try (intros [E I]; discriminate); exfalso; apply H; auto.
  - unfold vscale_op. destruct (any_axis (sshape k)) eqn:E.
    + split; [intros _ [_ H]; apply S; auto|]. intros _. destruct (vc v); eexists; reflexivity.
    + assert (SS : scalar_shape k). { intros n I. destruct (Nat.eq_dec n 0) as [->|N]; [reflexivity|]. exfalso.
        assert (T : any_axis (sshape k) = true). { apply existsb_exists. exists n. split; [exact I|]. apply negb_true_iff, Nat.eqb_neq, N. }
        congruence. }
      destruct (vc v); split; intros H; try (destruct H as [e H]; discriminate H); try (eexists; reflexivity);
      try (intros [I _]; cbn in I; repeat (destruct I as [I|I]; try discriminate I); exact I);
      exfalso; apply H; cbn; auto.
  - eexists; reflexivity.
  - eexists; reflexivity.
  - unfold aadd_op. destruct (xc a), (xc b); split; intros H; try (destruct H as [e H]; discriminate H); try (eexists; reflexivity);
      try (intros [E I]; try discriminate E; cbn in I; repeat (destruct I as [I|I]; try discriminate I); exact I);
      exfalso; apply H; cbn; auto.
  - unfold asub_op. destruct (xc a), (xc b); split; intros H; try (destruct H as [e H]; discriminate H); try (eexists; reflexivity);
      try (intros [E I]; try discriminate E; cbn in I; repeat (destruct I as [I|I]; try discriminate I); exact I);
      exfalso; apply H; cbn; auto.
  - unfold ascale_op. destruct (any_axis (sshape k)) eqn:E.
    + split; [intros _ [_ H]; apply S; auto|]. intros _. destruct (xc a); eexists; reflexivity.
    + assert (SS : scalar_shape k). { intros n I. destruct (Nat.eq_dec n 0) as [->|N]; [reflexivity|]. exfalso.
        assert (T : any_axis (sshape k) = true). { apply existsb_exists. exists n. split; [exact I|]. apply negb_true_iff, Nat.eqb_neq, N. }
        congruence. }
      destruct (xc a); split; intros H; try (destruct H as [e H]; discriminate H); try (eexists; reflexivity);
      try (intros [I _]; cbn in I; repeat (destruct I as [I|I]; try discriminate I); exact I);
      exfalso; apply H; cbn; auto.
Qed.

(** *** What the existing operations compute: component by component. *)
Lemma vplus_fin : forall a b : list R, vplus (@map R ext (@Some R) a) (@map R ext (@Some R) b) = @map R ext (@Some R) (vadd a b).
Proof.
  induction a as [|x a IH]; intros [|y b]; try reflexivity.
  change ((Some (x + y) : ext) :: vplus (@map R ext (@Some R) a) (@map R ext (@Some R) b) = (Some (x + y) : ext) :: @map R ext (@Some R) (vadd a b)).
  rewrite IH. reflexivity.
Qed.
Lemma vminus_fin : forall a b : list R, vminus (@map R ext (@Some R) a) (@map R ext (@Some R) b) = @map R ext (@Some R) (vadd a (vscale (-1) b)).
Proof.
  induction a as [|x a IH]; intros [|y b]; try reflexivity.
  change ((Some (x - y) : ext) :: vminus (@map R ext (@Some R) a) (@map R ext (@Some R) b) = (Some (x + -1 * y) : ext) :: @map R ext (@Some R) (vadd a (vscale (-1) b))).
  rewrite IH. do 2 f_equal. ring.
Qed.
Lemma vscale_fin k : forall a : list R, map (fun x : ext => nmul (Some k : ext) x) (@map R ext (@Some R) a) = @map R ext (@Some R) (vscale k a).
Proof. induction a as [|x a IH]; [reflexivity|]. cbn [map vscale]. f_equal. exact IH. Qed.

Theorem C51_velocities_componentwise : forall v w k s f r,
  (vadd_op (vfinite v) (vfinite w) = Ok f r -> f = false /\ r = vfinite (mkVel (vc v) (vadd (vcomps v) (vcomps w)))) /\
  (vsub_op (vfinite v) (vfinite w) = Ok f r -> f = false /\ r = vfinite (mkVel (vc v) (vadd (vcomps v) (vscale (-1) (vcomps w))))) /\
  (vscale_op (mkScalar s (Some k)) (vfinite v) = Ok f r -> f = false /\ r = vfinite (mkVel (vc v) (vscale k (vcomps v)))) /\
  vel_neg (vfinite v) = vfinite (mkVel (vc v) (vscale (-1) (vcomps v))) /\ vel_pos (vfinite v) = vfinite v.
Proof.
  intros v w k s f r. split; [|split; [|split; [|split]]].
  - unfold vadd_op, vfinite; cbn [vc vcomps]. rewrite vplus_fin.
    destruct (vc v), (vc w); intros E; try discriminate E; injection E as <- <-; auto.
  - unfold vsub_op, vfinite; cbn [vc vcomps]. rewrite vminus_fin.
    destruct (vc v), (vc w); intros E; try discriminate E; injection E as <- <-; auto.
  - unfold vscale_op, vfinite; cbn [vc vcomps sval]. rewrite vscale_fin.
    destruct (vc v); intros E; try discriminate E; destruct (any_axis _); try discriminate E; injection E as <- <-; auto.
  - unfold vel_neg, vfinite; cbn [vc vcomps]. f_equal. unfold vscale. rewrite !map_map. apply map_ext. intros x. cbn. f_equal. ring.
  - reflexivity.
Qed.
Theorem C51_accelerations_componentwise : forall a b k s f r,
  (aadd_op (afinite a) (afinite b) = Ok f r -> f = false /\ r = afinite (mkAcc (xc a) (vadd (xcomps a) (xcomps b)))) /\
  (asub_op (afinite a) (afinite b) = Ok f r -> f = false /\ r = afinite (mkAcc (xc a) (vadd (xcomps a) (vscale (-1) (xcomps b))))) /\
  (ascale_op (mkScalar s (Some k)) (afinite a) = Ok f r -> f = false /\ r = afinite (mkAcc (xc a) (vscale k (xcomps a)))) /\
  acc_neg (afinite a) = afinite (mkAcc (xc a) (vscale (-1) (xcomps a))).
Proof.
  intros a b k s f r. split; [|split; [|split]].
  - unfold aadd_op, afinite; cbn [xc xcomps]. rewrite vplus_fin.
    destruct (xc a), (xc b); intros E; try discriminate E; injection E as <- <-; auto.
  - unfold asub_op, afinite; cbn [xc xcomps]. rewrite vminus_fin.
    destruct (xc a), (xc b); intros E; try discriminate E; injection E as <- <-; auto.
  - unfold ascale_op, afinite; cbn [xc xcomps sval]. rewrite vscale_fin.
    destruct (xc a); intros E; try discriminate E; destruct (any_axis _); try discriminate E; injection E as <- <-; auto.
  - unfold acc_neg, afinite; cbn [xc xcomps]. f_equal. unfold vscale. rewrite !map_map. apply map_ext. intros x. cbn. f_equal. ring.
Qed.
(** The hypotheses are met in each supported case. *)
Example C51_componentwise_met :
  vsub_op (vfinite (mkVel WCart3 [3; 5; 7])) (vfinite (mkVel WCart3 [1; 1; 1])) =
    Ok false (vfinite (mkVel WCart3 (vadd [3; 5; 7] (vscale (-1) [1; 1; 1])))) /\
  vscale_op (mkScalar [] (Some 2)) (vfinite (mkVel WCart2 [3; 5])) = Ok false (vfinite (mkVel WCart2 [2 * 3; 2 * 5])) /\
  aadd_op (afinite (mkAcc XCart1 [3])) (afinite (mkAcc XCart1 [4])) = Ok false (afinite (mkAcc XCart1 [3 + 4])).
Proof.
  split; [|split]; try reflexivity.
  unfold vsub_op, vfinite; cbn [vc vcomps]. rewrite vminus_fin. reflexivity.
Qed.

(** Where subtraction exists it is addition of the opposite; addition and
    negation exist in every dimension, so the missing subtractions can be had. *)
Theorem C51_subtraction_is_adding_the_opposite : forall v w a b,
  (vc v = vc w -> In (vc v) [WCart1; WCart2; WCart3] ->
     vadd_op (vfinite v) (vel_neg (vfinite w)) = Ok false (vfinite (mkVel (vc v) (vadd (vcomps v) (vscale (-1) (vcomps w)))))) /\
  (xc a = xc b -> In (xc a) [XCart1; XCart2; XCart3] ->
     aadd_op (afinite a) (acc_neg (afinite b)) = Ok false (afinite (mkAcc (xc a) (vadd (xcomps a) (vscale (-1) (xcomps b)))))).
Proof.
  intros v w a b. split; intros E I.
  - rewrite (proj1 (proj2 (proj2 (proj2 (C51_velocities_componentwise w w 0 [] false (vfinite w)))))).
    unfold vadd_op, vfinite; cbn [vc vcomps]. rewrite <- E, vplus_fin.
    cbn in I. destruct I as [I|[I|[I|[]]]]; rewrite <- I; reflexivity.
  - rewrite (proj2 (proj2 (proj2 (C51_accelerations_componentwise b b 0 [] false (afinite b))))).
    unfold aadd_op, afinite; cbn [xc xcomps]. rewrite <- E, vplus_fin.
    cbn in I. destruct I as [I|[I|[I|[]]]]; rewrite <- I; reflexivity.
Qed.

(** The boosts (Operators.v) use the same addition. *)
Theorem C51_boosts_use_the_same_sum : forall v w f r, vel_add v w = Ok f r <-> vadd_op v w = Ok f r.
Proof. intros v w f r. unfold vel_add, vadd_op. destruct (vc v), (vc w); split; intros E; try discriminate E; exact E. Qed.

(** Waiting a time [t] with the summed velocity is the sum of the displacements. *)
Theorem C51_displacements_add : forall m deg fuel v w t q1 q2 f1 f2 s f,
  vadd_op (vfinite v) (vfinite w) = Ok f s ->
  length (vcomps v) = vdim (vc v) -> length (vcomps w) = vdim (vc w) ->
  vel_mul_time m (vfinite v) (Some t) = Ok f1 q1 -> vel_mul_time m (vfinite w) (Some t) = Ok f2 q2 ->
  vel_mul_time m s (Some t) = pos_add m deg (S fuel) q1 q2.
Proof.
  intros m deg fuel v w t q1 q2 f1 f2 s f A L1 L2 H1 H2.
  destruct (proj1 (C51_velocities_componentwise v w 0 [] f s) A) as [-> ->].
  destruct v as [c x], w as [c' y]. unfold vadd_op, vfinite in A; cbn [vc vcomps] in *.
  assert (C : c = c' /\ (c = WCart1 \/ c = WCart2 \/ c = WCart3)) by (destruct c, c'; try discriminate A; auto).
  destruct C as [<- [-> | [-> | ->]]];
    [destruct x as [|x1 [|? ?]], y as [|y1 [|? ?]]; try discriminate L1; try discriminate L2
    |destruct x as [|x1 [|x2 [|? ?]]], y as [|y1 [|y2 [|? ?]]]; try discriminate L1; try discriminate L2
    |destruct x as [|x1 [|x2 [|x3 [|? ?]]]], y as [|y1 [|y2 [|y3 [|? ?]]]]; try discriminate L1; try discriminate L2];
    unfold vel_mul_time, vfinite in *; cbn in H1, H2; injection H1 as <- <-; injection H2 as <- <-;
    unfold pos_add, cart_add, Arith.rep; step; unfold ret; cbn; unfold mk_Cart1, mk_Cart2, mk_Cart3, ret.
  - do 3 f_equal. ring.
  - f_equal. f_equal; f_equal; ring.
  - f_equal. f_equal; f_equal; ring.
Qed.

(** *** Converting between classes is linear: at every position, for every pair of
    classes and every keyword. *)
Definition vcomb (k l : R) (v w : vel R) : vel R := mkVel (vc v) (vadd (vscale k (vcomps v)) (vscale l (vcomps w))).
Definition acomb (k l : R) (a b : acc R) : acc R := mkAcc (xc a) (vadd (vscale k (xcomps a)) (vscale l (xcomps b))).

Lemma vlin_finite k l v w : length (vcomps v) = length (vcomps w) ->
  vlin k l (vfinite v) (vfinite w) = vfinite (vcomb k l v w).
Proof. intros L. exact (f_equal (mkVel (vc v)) (lin_finite k l _ _ L)). Qed.
Lemma xlin_finite k l v w : length (xcomps v) = length (xcomps w) ->
  xlin k l (afinite v) (afinite w) = afinite (acomb k l v w).
Proof. intros L. exact (f_equal (mkAcc (xc v)) (lin_finite k l _ _ L)). Qed.
Lemma alike_finite v w : vc v = vc w -> length (vcomps v) = length (vcomps w) -> alike (vfinite v) (vfinite w).
Proof. intros C L. split; [exact C|]. cbn. rewrite !map_length. exact L. Qed.

Theorem C51_conversion_is_linear : forall m deg fuel kw P t k l v w v' w' f f',
  vc v = vc w -> length (vcomps v) = length (vcomps w) ->
  vel_represent_as m deg fuel kw (vfinite v) t P = Ok f (vfinite v') ->
  vel_represent_as m deg fuel kw (vfinite w) t P = Ok f' (vfinite w') ->
  vel_represent_as m deg fuel kw (vfinite (vcomb k l v w)) t P = Ok f (vfinite (vcomb k l v' w')) /\
  vc v' = vc w' /\ length (vcomps v') = length (vcomps w').
Proof.
  intros m deg fuel kw P t k l v w v' w' f f' C L H1 H2.
  destruct (represent_lin m deg fuel k l kw _ _ t P (alike_finite v w C L)) as [(b & x & y & E1 & E2 & E & A)|(e & E1 & _)].
  2:{ rewrite H1 in E1. discriminate E1. }
  rewrite H1 in E1. injection E1 as <- <-. rewrite H2 in E2. injection E2 as -> <-.
  destruct A as [CC LL]. cbn in CC, LL. rewrite !map_length in LL.
  rewrite <- (vlin_finite k l v w L), E, (vlin_finite k l v' w' LL). auto.
Qed.
(** The same when the position is given as a quantity. *)
Theorem C51_conversion_at_a_quantity_is_linear : forall m deg fuel kw x t k l v w v' w' f f',
  vc v = vc w -> length (vcomps v) = length (vcomps w) ->
  vel_represent_as_q m deg fuel kw (vfinite v) t x = Ok f (vfinite v') ->
  vel_represent_as_q m deg fuel kw (vfinite w) t x = Ok f' (vfinite w') ->
  vel_represent_as_q m deg fuel kw (vfinite (vcomb k l v w)) t x = Ok f (vfinite (vcomb k l v' w')).
Proof.
  intros m deg fuel kw P t k l v w v' w' f f' C L H1 H2.
  destruct (represent_q_lin m deg fuel k l kw _ _ t P (alike_finite v w C L)) as [(b & x & y & E1 & E2 & E & A)|(e & E1 & _)].
  2:{ rewrite H1 in E1. discriminate E1. }
  rewrite H1 in E1. injection E1 as <- <-. rewrite H2 in E2. injection E2 as -> <-.
  destruct A as [CC LL]. cbn in CC, LL. rewrite !map_length in LL.
  rewrite <- (vlin_finite k l v w L), E, (vlin_finite k l v' w' LL). auto.
Qed.
Theorem C51_acceleration_conversion_is_linear : forall m deg fuel kw P u t k l a b a' b' f f',
  xc a = xc b -> length (xcomps a) = length (xcomps b) ->
  acc_represent_as m deg fuel kw (afinite a) t u P = Ok f (afinite a') ->
  acc_represent_as m deg fuel kw (afinite b) t u P = Ok f' (afinite b') ->
  acc_represent_as m deg fuel kw (afinite (acomb k l a b)) t u P = Ok f (afinite (acomb k l a' b')).
Proof.
  intros m deg fuel kw P u t k l v w v' w' f f' C L H1 H2.
  assert (A : xalike (afinite v) (afinite w)) by (split; [exact C|]; cbn; rewrite !map_length; exact L).
  destruct (acc_represent_lin m deg fuel k l kw _ _ t u P A) as [(b & x & y & E1 & E2 & E & B)|(e & E1 & _)].
  2:{ rewrite H1 in E1. discriminate E1. }
  rewrite H1 in E1. injection E1 as <- <-. rewrite H2 in E2. injection E2 as -> <-.
  destruct B as [CC LL]. cbn in CC, LL. rewrite !map_length in LL.
  rewrite <- (xlin_finite k l v w L), E, (xlin_finite k l v' w' LL). auto.
Qed.
(** Whether the conversion succeeds does not depend on the numbers in the velocity. *)
Theorem C51_success_does_not_depend_on_the_numbers : forall m deg fuel kw P t v w,
  vc v = vc w -> length (vcomps v) = length (vcomps w) ->
  (exists f v', vel_represent_as m deg fuel kw v t P = Ok f v') ->
  (exists f w', vel_represent_as m deg fuel kw w t P = Ok f w').
Proof.
  intros m deg fuel kw P t v w C L (f & v' & H).
  destruct (represent_lin m deg fuel 1 1 kw v w t P (conj C L)) as [(b & x & y & E1 & E2 & E & A)|(e & E1 & _)]; [eauto|].
  rewrite H in E1. discriminate E1.
Qed.
(** Negating before or after the conversion is the same, also with undefined entries. *)
Theorem C51_conversion_commutes_with_negation : forall m deg fuel kw P t v f v',
  vel_represent_as m deg fuel kw v t P = Ok f v' ->
  vel_represent_as m deg fuel kw (vel_neg v) t P = Ok f (vel_neg v').
Proof.
  intros m deg fuel kw P t v f v' H.
  assert (N : forall x : vel ext, vlin (-1) 0 x x = vel_neg x).
  { intros [c x]. unfold vlin, vel_neg; cbn [vc vcomps]. f_equal. induction x as [|a x IH]; [reflexivity|].
    change (lin1 (-1) 0 a a :: lin (-1) 0 x x = nneg a :: map nneg x). rewrite IH. f_equal.
    destruct a; cbn; try reflexivity. f_equal. ring. }
  destruct (represent_lin m deg fuel (-1) 0 kw v v t P (conj eq_refl eq_refl)) as [(b & x & y & E1 & E2 & E & A)|(e & E1 & _)].
  2:{ rewrite H in E1. discriminate E1. }
  rewrite H in E1, E2. injection E1 as <- <-. injection E2 as <-. rewrite !N in E. exact E.
Qed.

(** *** Speeds. *)
Definition sumsq (x : list R) : R := fold_right (fun a s => a * a + s) 0 x.
Definition speed (x : list R) : R := sqrt (sumsq x).
Lemma sumsq_pos x : 0 <= sumsq x.
Proof. induction x as [|a x IH]; [cbn; lra|]. change (0 <= a * a + sumsq x). pose proof (Rle_0_sqr a) as Q. unfold Rsqr in Q. lra. Qed.
Lemma cart_speed_fin x : x <> [] -> cart_speed (@map R ext (@Some R) x) = Some (speed x).
Proof.
  intros N. assert (F : forall l, fold_right (fun a s : ext => nadd (nmul a a) s) (Some 0 : ext) (@map R ext (@Some R) l) = Some (sumsq l)).
  { induction l as [|a l IH]; [reflexivity|]. change (nadd (nmul (Some a : ext) (Some a)) (fold_right (fun a s : ext => nadd (nmul a a) s) (Some 0 : ext) (@map R ext (@Some R) l)) = (Some (a * a + sumsq l) : ext)). rewrite IH. reflexivity. }
  destruct x as [|a [|b x]]; [congruence| |].
  - unfold speed. cbn. f_equal. rewrite <- sqrt_Rsqr_abs. f_equal. unfold Rsqr. ring.
  - unfold cart_speed. change (@map R ext (@Some R) (a :: b :: x)) with ((Some a : ext) :: (Some b : ext) :: @map R ext (@Some R) x).
    cbv beta iota. change ((Some a : ext) :: (Some b : ext) :: @map R ext (@Some R) x) with (@map R ext (@Some R) (a :: b :: x)).
    rewrite F. unfold speed. change (nsqrt (Some (sumsq (a :: b :: x)) : ext)) with (esqrt (Some (sumsq (a :: b :: x)))). unfold esqrt.
    unfold Rleb. destruct (Rle_dec 0 (sumsq (a :: b :: x))) as [_|Q]; [reflexivity|]. exfalso. apply Q, sumsq_pos.
Qed.
Lemma sumsq_scale k x : sumsq (vscale k x) = k * k * sumsq x.
Proof. induction x as [|a x IH]; [cbn; ring|]. change (k * a * (k * a) + sumsq (vscale k x) = k * k * (a * a + sumsq x)). rewrite IH. ring. Qed.
Lemma speed_scale k x : speed (vscale k x) = Rabs k * speed x.
Proof.
  unfold speed. rewrite sumsq_scale. rewrite sqrt_mult; [|pose proof (Rle_0_sqr k) as Q; unfold Rsqr in Q; lra|apply sumsq_pos].
  f_equal. rewrite <- sqrt_Rsqr_abs. reflexivity.
Qed.
Definition dotl (a b : list R) : R := fold_right (fun '(x, y) s => x * y + s) 0 (combine a b).
Lemma sumsq_add : forall a b, length a = length b -> sumsq (vadd a b) = sumsq a + 2 * dotl a b + sumsq b.
Proof.
  induction a as [|x a IH]; intros [|y b] L; try discriminate L; [cbn; ring|]. injection L as L.
  change (sumsq (vadd (x :: a) (y :: b))) with ((x + y) * (x + y) + sumsq (vadd a b)).
  change (dotl (x :: a) (y :: b)) with (x * y + dotl a b).
  change (sumsq (x :: a)) with (x * x + sumsq a). change (sumsq (y :: b)) with (y * y + sumsq b). rewrite (IH b L). ring.
Qed.
Lemma dotl_scale k : forall a b, dotl a (vscale k b) = k * dotl a b.
Proof.
  induction a as [|x a IH]; intros [|y b]; try (cbn; ring).
  change (dotl (x :: a) (vscale k (y :: b))) with (x * (k * y) + dotl a (vscale k b)).
  change (dotl (x :: a) (y :: b)) with (x * y + dotl a b). rewrite IH. ring.
Qed.
Lemma cauchy : forall a b, length a = length b -> dotl a b * dotl a b <= sumsq a * sumsq b.
Proof.
  intros a b L.
  assert (Q : forall k, 0 <= sumsq a + 2 * (k * dotl a b) + k * k * sumsq b).
  { intros k. pose proof (sumsq_pos (vadd a (vscale k b))) as P. rewrite sumsq_add in P by (unfold vscale; rewrite map_length; exact L).
    rewrite dotl_scale, sumsq_scale in P. exact P. }
  pose proof (sumsq_pos a) as A. pose proof (sumsq_pos b) as B.
  destruct (Req_dec (sumsq b) 0) as [Z|N].
  - rewrite Z, Rmult_0_r. destruct (Req_dec (dotl a b) 0) as [D|D]; [rewrite D; lra|].
    specialize (Q (- (sumsq a + 1) / (2 * dotl a b))). rewrite Z in Q.
    replace (2 * (- (sumsq a + 1) / (2 * dotl a b) * dotl a b)) with (- (sumsq a + 1)) in Q by (field; exact D). lra.
  - assert (Bp : 0 < sumsq b) by lra. specialize (Q (- dotl a b / sumsq b)).
    assert (E : sumsq a + 2 * (- dotl a b / sumsq b * dotl a b) + - dotl a b / sumsq b * (- dotl a b / sumsq b) * sumsq b
      = (sumsq a * sumsq b - dotl a b * dotl a b) / sumsq b) by (field; exact N).
    rewrite E in Q. apply (Rmult_le_compat_r (sumsq b)) in Q; [|lra].
    unfold Rdiv in Q. rewrite Rmult_assoc, Rinv_l, Rmult_1_r, Rmult_0_l in Q by exact N. lra.
Qed.
Lemma speed_triangle a b : length a = length b -> speed (vadd a b) <= speed a + speed b.
Proof.
  intros L. unfold speed. pose proof (sumsq_pos a) as A. pose proof (sumsq_pos b) as B.
  pose proof (sqrt_pos (sumsq a)) as SA. pose proof (sqrt_pos (sumsq b)) as SB.
  apply Rsqr_incr_0; [|apply sqrt_pos|lra].
  rewrite Rsqr_sqrt by apply sumsq_pos. rewrite sumsq_add by exact L. unfold Rsqr.
  assert (D : dotl a b <= sqrt (sumsq a) * sqrt (sumsq b)).
  { rewrite <- sqrt_mult by assumption. apply Rle_trans with (Rabs (dotl a b)); [apply Rle_abs|].
    rewrite <- sqrt_Rsqr_abs. apply sqrt_le_1_alt. unfold Rsqr. apply cauchy, L. }
  pose proof (sqrt_sqrt _ A) as EA. pose proof (sqrt_sqrt _ B) as EB. nra.
Qed.

(** The Euclidean norm of the Cartesian components. *)
Lemma vel_norm_inv deg fuel v P f s : vel_norm deg fuel (vfinite v) P = Ok f s ->
  exists c, vel_represent_as Traced deg fuel nokw (vfinite v) (vcart_cls (vc v)) P = Ok f c /\ s = cart_speed (vcomps c).
Proof.
  unfold vel_norm. change (vc (vfinite v)) with (vc v).
  destruct (vel_represent_as Traced deg fuel nokw (vfinite v) (vcart_cls (vc v)) P) as [b c|e]; [|discriminate].
  unfold bind, ret. intros E. exists c. destruct (vcart_cls (vc v)); try discriminate E; injection E as <- <-; rewrite orb_false_r; auto.
Qed.
(** outside two dimensions *)
Lemma vel_norm_not2 deg fuel v P : vdim (vc v) <> 2%nat ->
  vel_norm deg fuel v P = do c <- vel_represent_as Traced deg fuel nokw v (vcart_cls (vc v)) P; ret (cart_speed (vcomps c)).
Proof. intros D. unfold vel_norm. destruct (vc v); cbn [vdim integral_cls dim_of] in D; try reflexivity; now destruct D. Qed.

(** The speed of [k v] is [|k|] times the speed of [v]; the speed of a sum is at
    most the sum of the speeds: at every position, in every class of one or three
    dimensions (in two, C20: the speed raises). *)
Theorem C51_speed_scales_and_triangle : forall deg fuel P v w v' w' f f' k,
  vdim (vc v) <> 2%nat -> vc v = vc w -> length (vcomps v) = length (vcomps w) ->
  vel_represent_as Traced deg fuel nokw (vfinite v) (vcart_cls (vc v)) P = Ok f (vfinite v') -> vcomps v' <> [] ->
  vel_represent_as Traced deg fuel nokw (vfinite w) (vcart_cls (vc w)) P = Ok f' (vfinite w') ->
  exists s1 s2 s12 sk,
    vel_norm deg fuel (vfinite v) P = Ok f (Some s1) /\
    vel_norm deg fuel (vfinite w) P = Ok f' (Some s2) /\
    vel_norm deg fuel (vfinite (mkVel (vc v) (vadd (vcomps v) (vcomps w)))) P = Ok f (Some s12) /\
    vel_norm deg fuel (vfinite (mkVel (vc v) (vscale k (vcomps v)))) P = Ok f (Some sk) /\
    0 <= s1 /\ s12 <= s1 + s2 /\ sk = Rabs k * s1.
Proof.
  intros deg fuel P v w v' w' f f' k D2 C L H1 NE H2.
  assert (S1 : forall x : list R, vscale 1 x = x). { intros x. unfold vscale. rewrite <- (map_id x) at 2. apply map_ext. intros; ring. }
  assert (S0 : forall (x : list R), vadd (vscale k x) (vscale 0 x) = vscale k x).
  { induction x as [|a x IH]; [reflexivity|]. change (k * a + 0 * a :: vadd (vscale k x) (vscale 0 x) = k * a :: vscale k x). rewrite IH. f_equal. ring. }
  rewrite <- C in H2.
  destruct (C51_conversion_is_linear Traced deg fuel nokw P _ 1 1 v w v' w' f f' C L H1 H2) as (E1 & C' & L').
  destruct (C51_conversion_is_linear Traced deg fuel nokw P _ k 0 v v v' v' f f eq_refl eq_refl H1 H1) as (E2 & _ & _).
  unfold vcomb in E1, E2. rewrite !S1 in E1. rewrite !S0 in E2.
  assert (NW : vcomps w' <> []) by (intros Z; rewrite Z in L'; destruct (vcomps v'); [congruence|discriminate L']).
  exists (speed (vcomps v')), (speed (vcomps w')), (speed (vadd (vcomps v') (vcomps w'))), (speed (vscale k (vcomps v'))).
  rewrite !vel_norm_not2 by (cbn [vc vfinite]; rewrite <- ?C; exact D2).
  change (vc (vfinite v)) with (vc v). change (vc (vfinite w)) with (vc w). rewrite <- C.
  change (vc (vfinite (mkVel (vc v) (vadd (vcomps v) (vcomps w))))) with (vc v).
  change (vc (vfinite (mkVel (vc v) (vscale k (vcomps v))))) with (vc v).
  rewrite H1, H2, E1, E2. unfold bind, ret. rewrite !orb_false_r.
  change (vcomps (vfinite v')) with (@map R ext (@Some R) (vcomps v')). change (vcomps (vfinite w')) with (@map R ext (@Some R) (vcomps w')).
  change (vcomps (vfinite (mkVel (vc v') (vadd (vcomps v') (vcomps w'))))) with (@map R ext (@Some R) (vadd (vcomps v') (vcomps w'))).
  change (vcomps (vfinite (mkVel (vc v') (vscale k (vcomps v'))))) with (@map R ext (@Some R) (vscale k (vcomps v'))).
  rewrite !cart_speed_fin; try assumption;
    [|destruct (vcomps v'); [congruence|discriminate]
     |destruct (vcomps v'); [congruence|]; destruct (vcomps w'); [congruence|]; discriminate].
  repeat split; auto; [apply sqrt_pos|apply speed_triangle, L'|apply speed_scale].
Qed.
(** Speed in Cartesian components. *)
Theorem C51_speed_of_components : forall deg fuel P v, In (vc v) [WCart1; WCart3] -> vcomps v <> [] ->
  vel_norm deg fuel (vfinite v) P = Ok false (Some (sqrt (fold_right (fun a s => a * a + s) 0 (vcomps v)))).
Proof.
  intros deg fuel P v I N. rewrite vel_norm_not2 by (cbn in I; destruct I as [I|[I|[]]]; cbn [vc vfinite]; rewrite <- I; discriminate).
  change (vc (vfinite v)) with (vc v).
  assert (E : vel_represent_as Traced deg fuel nokw (vfinite v) (vcart_cls (vc v)) P = Ok false (vfinite v)).
  { unfold vel_represent_as. change (vc (vfinite v)) with (vc v).
    cbn in I. destruct I as [I|[I|[]]]; rewrite <- I; reflexivity. }
  rewrite E. unfold bind, ret. change (vcomps (vfinite v)) with (@map R ext (@Some R) (vcomps v)).
  rewrite (cart_speed_fin _ N). reflexivity.
Qed.

(** Accelerations: [a.norm()] is the Euclidean norm for a Cartesian acceleration and a
    TypeError for the others; [a.norm(v, q)] is a TypeError for a Cartesian acceleration,
    and the norm of the conversion to Cartesian components for the others. *)
Theorem C51_acceleration_norm : forall deg fuel P v a,
  (In (xc a) [XCart1; XCart2; XCart3] -> xcomps a <> [] ->
     acc_norm0 (afinite a) = Ok false (Some (sqrt (fold_right (fun a s => a * a + s) 0 (xcomps a)))) /\
     acc_norm deg fuel (afinite a) v P = Raise EType) /\
  (~ In (xc a) [XCart1; XCart2; XCart3] ->
     acc_norm0 (afinite a) = Raise EType /\
     forall w a', acc_represent_as Traced deg fuel nokw (afinite a) (xcart_cls (xc a)) v P = Ok w (afinite a') -> xcomps a' <> [] ->
       acc_norm deg fuel (afinite a) v P = Ok w (Some (sqrt (fold_right (fun a s => a * a + s) 0 (xcomps a'))))).
Proof.
  intros deg fuel P v a. unfold acc_norm0, acc_norm. change (xc (afinite a)) with (xc a). split.
  - intros I N. change (xcomps (afinite a)) with (@map R ext (@Some R) (xcomps a)). rewrite (cart_speed_fin _ N).
    cbn in I. destruct I as [I|[I|[I|[]]]]; rewrite <- I; auto.
  - intros I. assert (G : forall r0 r1 r2 r3 : res ext, match xc a with XCart1 => r1 | XCart2 => r2 | XCart3 => r3 | _ => r0 end = r0).
    { intros. destruct (xc a); cbn in I; try reflexivity; exfalso; apply I; auto. }
    rewrite !G. split; [reflexivity|]. intros w a' E N. rewrite E. unfold bind, ret. rewrite orb_false_r.
    change (xcomps (afinite a')) with (@map R ext (@Some R) (xcomps a')). now rewrite (cart_speed_fin _ N).
Qed.
Print Assumptions C51_acceleration_norm.

(** *** Equality: same class and same components; no conversion, unlike positions. *)
Lemma all_eqb_fin : forall a b : list R, all_eqb (@map R ext (@Some R) a) (@map R ext (@Some R) b) = true <-> a = b.
Proof.
  induction a as [|x a IH]; intros [|y b]; try (cbn; split; [discriminate|discriminate]); [cbn; tauto|].
  change (andb (neqb (Some x : ext) (Some y)) (all_eqb (@map R ext (@Some R) a) (@map R ext (@Some R) b)) = true <-> x :: a = y :: b).
  rewrite andb_true_iff, (IH b). change (neqb (Some x : ext) (Some y)) with (Reqb x y). unfold Reqb. destruct (Req_EM_T x y) as [E|E].
  - split; [intros [_ ->]; rewrite E; reflexivity|intros Q; injection Q; auto].
  - split; [intros [Q _]; discriminate Q|intros Q; injection Q; congruence].
Qed.
Lemma vcls_eqb_iff a b : vcls_eqb a b = true <-> a = b.
Proof. destruct a, b; cbn; split; intros; try reflexivity; discriminate. Qed.
Theorem C51_equality : forall (v w : vel R) (a b : acc R),
  (vel_eq (vfinite v) (vfinite w) = true <-> v = w) /\ (acc_eq (afinite a) (afinite b) = true <-> a = b).
Proof.
  intros [c x] [c' y] [d z] [d' u]. unfold vel_eq, acc_eq, vfinite, afinite; cbn [vc vcomps xc xcomps].
  rewrite !andb_true_iff, !all_eqb_fin, vcls_eqb_iff. split.
  - split; [intros [-> ->]; reflexivity|intros E; injection E; auto].
  - unfold xcls_eqb. rewrite vcls_eqb_iff. split; [intros [E ->]|intros E; injection E; intros; subst; auto].
    f_equal. destruct d, d'; try discriminate E; reflexivity.
Qed.
(** An undefined component makes a velocity different from itself. *)
Theorem C51_undefined_is_not_equal : forall c x y, vel_eq (mkVel c (x ++ None :: y)) (mkVel c (x ++ None :: y)) = false.
Proof.
  intros c x y. unfold vel_eq; cbn [vc vcomps]. apply andb_false_iff. right.
  induction x as [|a x IH]; [reflexivity|]. change (andb (neqb a a) (all_eqb (x ++ None :: y) (x ++ None :: y)) = false).
  rewrite IH. apply andb_false_r.
Qed.
(** Finding: a velocity is not equal to its own conversion to another class,
    whatever the position (positions are, see C15). *)
Theorem C51_finding_equality_is_not_physical : forall m deg fuel kw P v t f v',
  vel_represent_as m deg fuel kw v t P = Ok f v' -> vc v' = t -> vc v <> t -> vel_eq v v' = false.
Proof.
  intros m deg fuel kw P v t f v' _ E N. unfold vel_eq. apply andb_false_iff. left.
  destruct (vcls_eqb (vc v) (vc v')) eqn:Q; [|reflexivity]. apply vcls_eqb_iff in Q. congruence.
Qed.

(** The hypotheses of the linearity theorem are met: any two velocities at a point
    off the origin (C21 gives the results). *)
Example C51_linear_met : forall m deg f a b c a' b' c' k l,
  exists P v' w', vel_represent_as m deg (4 + f) nokw (vfinite (mkVel WLonLat [a;b;c])) WLonCosLat (finite P) = Ok false (vfinite v') /\
    vel_represent_as m deg (4 + f) nokw (vfinite (mkVel WLonLat [a';b';c'])) WLonCosLat (finite P) = Ok false (vfinite w') /\
    vel_represent_as m deg (4 + f) nokw (vfinite (vcomb k l (mkVel WLonLat [a;b;c]) (mkVel WLonLat [a';b';c']))) WLonCosLat (finite P)
      = Ok false (vfinite (vcomb k l v' w')).
Proof.
  intros m deg f a b c a' b' c' k l. destruct C21_case as (P & pt & V & PP & NN & D & O & V' & D').
  pose proof (C21_lonlat_to_loncoslat m deg f nokw P 0 0 _ a b c pt V PP NN D O V' D') as E.
  pose proof (C21_lonlat_to_loncoslat m deg f nokw P 0 0 _ a' b' c' pt V PP NN D O V' D') as E'.
  exists P, (mkVel WLonCosLat [a * cos 0; b; c]), (mkVel WLonCosLat [a' * cos 0; b'; c']).
  split; [exact E|]. split; [exact E'|].
  refine (proj1 (C51_conversion_is_linear m deg (4 + f) nokw (finite P) WLonCosLat k l _ _ _ _ false false _ _ E E')); reflexivity.
Qed.
Print Assumptions C51_speed_scales_and_triangle.
