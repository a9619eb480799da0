(** * Properties C25-C27: inverses and pipes of operators.

    Vocabulary: SpecOp.v.  [good n o]: the parameters of [o] are valid vectors of
    dimension [n]; [acts o e e']: the map of events that [o] stands for;
    [visits o e e1]: [e1] is met on the way.  [can_hold c x]: class [c] can
    represent the point [x] (spherical classes cannot hold the origin, RadialPos
    no negative number); Cartesian, cylindrical and polar classes can hold
    everything.  [deg] is irrelevant here; [4 + f] is any re-dispatching limit of
    at least 4; the primed parameters are those of the calls. *)
From Coq Require Import Reals Bool List ZArith Lra Lia.
From Verif Require Import Num Vectors Spec Transform Dispatch RoundTrip Arith ArithThm ArithThm2 Vel SpecVel FourVec Operators SpecOp OpThm OpInv OpVel OpVel2 OpGlue OpMisc.
Import ListNotations.
Open Scope R_scope.

(** ** C25 *)
(** [op(q, t)], position of any class: going forth and back in either order
    returns a position of the same class that denotes the same point, at the same
    time. *)
Theorem C25_inverse_on_position_and_time : forall m deg f m' deg' f' n o, good n o -> invertible o ->
  exists o', inverse m deg (4 + f) (ofinite o) = Ok false (ofinite o') /\ good n o' /\
    (forall q x t, good_pos n q -> denotes q x -> can_hold (cls_of q) x ->
      (forall e1, visits o (x, t) e1 -> can_hold (cls_of q) (fst e1)) ->
      exists q1 t1 q2,
        call m' deg' (4 + f') (ofinite o) (VPosT (finite q) (Some t)) = Ok false (VPosT (finite q1) (Some t1)) /\
        call m' deg' (4 + f') (ofinite o') (VPosT (finite q1) (Some t1)) = Ok false (VPosT (finite q2) (Some t)) /\
        cls_of q1 = cls_of q /\ cls_of q2 = cls_of q /\ same_point q2 q) /\
    (forall q x t, good_pos n q -> denotes q x -> can_hold (cls_of q) x ->
      (forall e1, visits o' (x, t) e1 -> can_hold (cls_of q) (fst e1)) ->
      exists q1 t1 q2,
        call m' deg' (4 + f') (ofinite o') (VPosT (finite q) (Some t)) = Ok false (VPosT (finite q1) (Some t1)) /\
        call m' deg' (4 + f') (ofinite o) (VPosT (finite q1) (Some t1)) = Ok false (VPosT (finite q2) (Some t)) /\
        cls_of q1 = cls_of q /\ cls_of q2 = cls_of q /\ same_point q2 q).
Proof. exact inverse_posT. Qed.
Print Assumptions C25_inverse_on_position_and_time.
(** Cartesian positions: the very same object comes back, unconditionally. *)
Theorem C25_inverse_on_cartesian : forall m deg f m' deg' f' n o, good n o -> invertible o ->
  exists o', inverse m deg (4 + f) (ofinite o) = Ok false (ofinite o') /\
    (forall q t, good_pos n q -> is_cart (cls_of q) = true ->
      exists q1 t1, call m' deg' (4 + f') (ofinite o) (VPosT (finite q) (Some t)) = Ok false (VPosT (finite q1) (Some t1)) /\
        call m' deg' (4 + f') (ofinite o') (VPosT (finite q1) (Some t1)) = Ok false (VPosT (finite q) (Some t)) /\
        cls_of q1 = cls_of q) /\
    (forall q t, good_pos n q -> is_cart (cls_of q) = true ->
      exists q1 t1, call m' deg' (4 + f') (ofinite o') (VPosT (finite q) (Some t)) = Ok false (VPosT (finite q1) (Some t1)) /\
        call m' deg' (4 + f') (ofinite o) (VPosT (finite q1) (Some t1)) = Ok false (VPosT (finite q) (Some t)) /\
        cls_of q1 = cls_of q).
Proof. exact inverse_cart. Qed.
Print Assumptions C25_inverse_on_cartesian.
(** [op(FourVector)].  Rotations reset [c], hence the condition. *)
Theorem C25_inverse_on_four_vectors : forall m deg f m' deg' f' o, good 3 o -> invertible o ->
  exists o', inverse m deg (4 + f) (ofinite o) = Ok false (ofinite o') /\
    (forall v, good_pos 3 (fq v) -> cls_of (fq v) = CCart3 -> (rotates o = true -> fc v = c_light) ->
      exists v1, call m' deg' (4 + f') (ofinite o) (VFour (fvfinite v)) = Ok false (VFour (fvfinite v1)) /\
        call m' deg' (4 + f') (ofinite o') (VFour (fvfinite v1)) = Ok false (VFour (fvfinite v))) /\
    (forall v, good_pos 3 (fq v) -> cls_of (fq v) = CCart3 -> (rotates o = true -> fc v = c_light) ->
      exists v1, call m' deg' (4 + f') (ofinite o') (VFour (fvfinite v)) = Ok false (VFour (fvfinite v1)) /\
        call m' deg' (4 + f') (ofinite o) (VFour (fvfinite v1)) = Ok false (VFour (fvfinite v))).
Proof. exact inverse_four. Qed.
Print Assumptions C25_inverse_on_four_vectors.
(** [op(q)], for the operators that accept it. *)
Theorem C25_inverse_on_positions : forall m deg f m' deg' f' n o, good n o -> invertible o -> timeless o ->
  exists o', inverse m deg (4 + f) (ofinite o) = Ok false (ofinite o') /\
    (forall q, good_pos n q -> is_cart (cls_of q) = true ->
      exists q1, call m' deg' (4 + f') (ofinite o) (VPos (finite q)) = Ok false (VPos (finite q1)) /\
        call m' deg' (4 + f') (ofinite o') (VPos (finite q1)) = Ok false (VPos (finite q))) /\
    (forall q, good_pos n q -> is_cart (cls_of q) = true ->
      exists q1, call m' deg' (4 + f') (ofinite o') (VPos (finite q)) = Ok false (VPos (finite q1)) /\
        call m' deg' (4 + f') (ofinite o) (VPos (finite q1)) = Ok false (VPos (finite q))).
Proof. exact inverse_place. Qed.
Print Assumptions C25_inverse_on_positions.
(** [op(q, p)], for the operators that accept it. *)
Theorem C25_inverse_on_position_and_velocity : forall m deg f m' deg' f' n o, good n o -> invertible o -> steady o ->
  exists o', inverse m deg (4 + f) (ofinite o) = Ok false (ofinite o') /\
    (forall q v, good_pos n q -> is_cart (cls_of q) = true -> cart_vel n v ->
      exists q1 v1, call m' deg' (4 + f') (ofinite o) (VPosVel (finite q) (vfinite v)) = Ok false (VPosVel (finite q1) (vfinite v1)) /\
        call m' deg' (4 + f') (ofinite o') (VPosVel (finite q1) (vfinite v1)) = Ok false (VPosVel (finite q) (vfinite v))) /\
    (forall q v, good_pos n q -> is_cart (cls_of q) = true -> cart_vel n v ->
      exists q1 v1, call m' deg' (4 + f') (ofinite o') (VPosVel (finite q) (vfinite v)) = Ok false (VPosVel (finite q1) (vfinite v1)) /\
        call m' deg' (4 + f') (ofinite o) (VPosVel (finite q1) (vfinite v1)) = Ok false (VPosVel (finite q) (vfinite v))).
Proof. exact inverse_posvel. Qed.
Print Assumptions C25_inverse_on_position_and_velocity.
(** A VelocityBoost applied to a lone velocity. *)
Theorem C25_inverse_on_velocity : forall m deg f n w v, cart_vel n w -> cart_vel n v ->
  exists o', inverse m deg f (ofinite (OVelBoost w)) = Ok false o' /\
   (do y <- call m deg f (ofinite (OVelBoost w)) (VVel (vfinite v)); call m deg f o' y) = Ok false (VVel (vfinite v)) /\
   (do y <- call m deg f o' (VVel (vfinite v)); call m deg f (ofinite (OVelBoost w)) y) = Ok false (VVel (vfinite v)).
Proof.
  intros m deg f n w v Gw Gv.
  assert (E : vel_neg (vfinite w) = vfinite (mkVel (vc w) (vscale (-1) (vcomps w)))) by apply vneg_fin.
  assert (Gn : cart_vel n (mkVel (vc w) (vscale (-1) (vcomps w)))). { apply cart_vel_with; auto. unfold vscale. rewrite map_length. apply Gw. }
  eexists. split; [reflexivity|]. unfold ofinite. cbn [op_map].
  change (OVelBoost (vel_neg (vel_map Some w))) with (OVelBoost (vel_neg (vfinite w))). rewrite E. cbn [call call_single call_vec]. split.
  - change (vel_map Some w) with (vfinite w). pose proof (vel_add_ok n v w Gv Gw) as A. change (vel_add (vfinite v) (vfinite w) = Ok false (vfinite (mkVel (vc v) (vadd (vcomps v) (vcomps w))))) in A.
    rewrite A. cbn [bind ret call call_single call_vec].
    assert (G1 : cart_vel n (mkVel (vc v) (vadd (vcomps v) (vcomps w)))). { apply cart_vel_with; auto. rewrite vadd_length, (proj1 Gv), (proj1 Gw). apply Nat.min_id. }
    pose proof (vel_add_ok n _ _ G1 Gn) as B. cbn [vc vcomps] in B. rewrite vadd_neg in B by (rewrite (proj1 Gv), (proj1 Gw); auto).
    change (vel_add (vfinite (mkVel (vc v) (vadd (vcomps v) (vcomps w)))) (vfinite (mkVel (vc w) (vscale (-1) (vcomps w)))) = Ok false (vfinite (mkVel (vc v) (vcomps v)))) in B.
    rewrite B. destruct v; reflexivity.
  - change (vel_map Some w) with (vfinite w). pose proof (vel_add_ok n v _ Gv Gn) as A. cbn [vc vcomps] in A.
    change (vel_add (vfinite v) (vfinite (mkVel (vc w) (vscale (-1) (vcomps w)))) = Ok false (vfinite (mkVel (vc v) (vadd (vcomps v) (vscale (-1) (vcomps w)))))) in A.
    rewrite A. cbn [bind ret call call_single call_vec].
    assert (G1 : cart_vel n (mkVel (vc v) (vadd (vcomps v) (vscale (-1) (vcomps w))))).
    { apply cart_vel_with; auto. rewrite vadd_length. unfold vscale. rewrite map_length, (proj1 Gv), (proj1 Gw). apply Nat.min_id. }
    pose proof (vel_add_ok n _ _ G1 Gw) as B. cbn [vc vcomps] in B. rewrite vadd_neg' in B by (rewrite (proj1 Gv), (proj1 Gw); auto).
    change (vel_add (vfinite (mkVel (vc v) (vadd (vcomps v) (vscale (-1) (vcomps w))))) (vfinite w) = Ok false (vfinite (mkVel (vc v) (vcomps v)))) in B.
    rewrite B. destruct v; reflexivity.
Qed.
Print Assumptions C25_inverse_on_velocity.

(** A concrete operator and position satisfying the hypotheses: a pipe of a
    quarter turn, a spherical translation, a boost and a GalileanOperator. *)
Definition quarter : mat R := [[0; -1; 0]; [1; 0; 0]; [0; 0; 1]].
Lemma quarter_orthogonal : orthogonal quarter.
Proof.
  split. { split; [reflexivity|]. repeat constructor. }
  intros i j Hi Hj. destruct i as [|[|[|]]]; try lia; destruct j as [|[|[|]]]; try lia; cbv [quarter nth vsum vmul combine map fold_right Nat.eqb]; ring.
Qed.
Definition sample_translation : pos R := PSph (mkDist KDistance 2) 1 4.
Lemma sample_good : good_pos 3 sample_translation /\ negatable sample_translation.
Proof.
  assert (B := PI2_3_2). split.
  - repeat split; cbn; unfold valid_dist; cbn; try lra; try discriminate.
  - intros b Hb. cbn in Hb. split. { subst b. reflexivity. } subst b. cbn [sample_translation cls_of]. unfold len. cbn [dk dval vscale map].
    assert (0 < sin 1) by (apply sin_gt_0; lra). intros E. injection E as E1 E2 E3. 
    assert (K : (2 * sin 1 * cos 4) * (2 * sin 1 * cos 4) + (2 * sin 1 * sin 4) * (2 * sin 1 * sin 4) = 4 * sin 1 * sin 1).
    { replace (4 * sin 1 * sin 1) with (4 * sin 1 * sin 1 * (Rsqr (sin 4) + Rsqr (cos 4))) by (rewrite sin2_cos2; ring). unfold Rsqr. ring. }
    nra.
Qed.
Definition sample_op : op R :=
  OPipe [ORotation quarter; OSpatial sample_translation; OBoost (mkVel WCart3 [1; 2; 3]);
         OPipe [OVelBoost (mkVel WCart3 [4; 5; 6])];
         OGalilean quarter (mkFV 7 (PCart3 1 2 3) c_light) (mkVel WCart3 [1; 0; 0])].
Example C25_case : good 3 sample_op /\ invertible sample_op /\
  good_pos 3 (PCyl 1 2 3) /\ (forall e1, visits sample_op ([cos 2; sin 2; 3], 5) e1 -> length (fst e1) = 3%nat -> can_hold CCyl (fst e1)) /\
  good 3 (OPipe [OSpatial sample_translation; OVelBoost (mkVel WCart3 [4; 5; 6])]) /\ steady (OPipe [OSpatial sample_translation; OVelBoost (mkVel WCart3 [4; 5; 6])]).
Proof.
  pose proof quarter_orthogonal as Q. pose proof sample_good as [S1 S2].
  split; [cbn [good good1 sample_op]|split; [|split; [|split; [|split]]]].
  - repeat split; try apply Q; try apply S1; try discriminate; cbn; auto.
  - cbn [invertible invertible1 sample_op]. split; [exact Q|]. split; [exact S2|]. split; [exact I|]. split; [split; exact I|]. split; [|exact I]. split; [exact Q|]. intros b Hb. cbn in Hb. subst b. split; [reflexivity|exact I].
  - repeat split; cbn; try lra; try discriminate.
  - intros e1 _ L. split; auto.
  - cbn [good good1]. repeat split; try apply S1; auto.
  - cbn. auto.
Qed.

(** Findings: where the hypotheses fail. *)
(** A translation along the radius has no inverse. *)
Theorem C25_radial_translation_refuted : forall deg f r, valid_dist r -> 0 < dval r ->
  inverse Eager deg (4 + f) (ofinite (OSpatial (PRadial r))) = Raise ENegative.
Proof.
  intros deg f r V P. unfold ofinite. cbn [op_map inverse].
  pose proof (radial_neg deg f r V P) as H. unfold finite in H. rewrite H. reflexivity.
Qed.
Print Assumptions C25_radial_translation_refuted.
(** A translation given in prolate spheroidal coordinates has no inverse, and
    cannot be composed with another. *)
Theorem C25_prolate_translation_refuted : forall m deg f mu nu phi Delta, valid (PProlate mu nu phi Delta) ->
  inverse m deg (4 + f) (ofinite (OSpatial (PProlate mu nu phi Delta))) = Raise EMissingDelta.
Proof.
  intros m deg f mu nu phi Delta V. unfold ofinite. cbn [op_map inverse].
  destruct (prolate_arith m deg f mu nu phi Delta 0 (PCart3 0 0 0) V) as (_ & _ & H & _); cbn; auto; try discriminate.
  exact (f_equal (fun x => do n <- x; ret (OSpatial n)) H).
Qed.
Print Assumptions C25_prolate_translation_refuted.
(** A boost with a curvilinear velocity (accepted by the constructor) can be
    applied but its inverse raises. *)
Theorem C25_cylindrical_boost_refuted : forall deg f a t (q : pos ext), 0 < a -> 0 < t ->
  exists o', inverse Eager deg f (ofinite (OBoost (mkVel WCyl [a; 0; 0]))) = Ok false o' /\
    call Eager deg f o' (VPosT q (Some t)) = Raise ENegative.
Proof.
  intros deg f a t q A T. eexists. split; [reflexivity|]. unfold ofinite. cbn [op_map call call_single call_vec vel_map vc vcomps map vel_neg].
  unfold boost_pos, vel_mul_time. cbn [vc vcomps map integral_cls pos_from_components]. unfold mk_Cyl. cbn [conv_az check_nonneg].
  cbn. rewrite (proj2 (Rltb_true (- a * t) 0)) by nra. reflexivity.
Qed.
Print Assumptions C25_cylindrical_boost_refuted.
(** A GalileanOperator cannot be called on a position without a time. *)
Theorem C25_galilean_operator_needs_time : forall m deg f M T v q,
  exists e, call m deg f (OGalilean M T v) (VPos q) = Raise e.
Proof. exact galilean_needs_time. Qed.
Print Assumptions C25_galilean_operator_needs_time.

(** ** C26 *)
(** Left to right, for every supported argument; the exceptions coincide. *)
Theorem C26_left_to_right : forall m deg f o ops x, vector_kind x = true ->
  call m deg f (OPipe []) x = Ok false x /\
  call m deg f (OPipe (o :: ops)) x = do y <- call m deg f o x; call m deg f (OPipe ops) y.
Proof.
  intros m deg f o ops x K. split. { now rewrite call_pipe. }
  transitivity (do y <- call m deg f (OPipe [o]) x; call m deg f (OPipe ops) y); [exact (call_app m deg f [o] ops x K)|]. now rewrite call_one.
Qed.
Print Assumptions C26_left_to_right.
Theorem C26_galilean_operator_is_its_pipe : forall m deg f M T v x, vector_kind x = true ->
  call m deg f (OGalilean M T v) x = call m deg f (OPipe [ORotation M; OTranslation T; OBoost v]) x.
Proof. intros. now rewrite call_galilean, call_pipe. Qed.
Print Assumptions C26_galilean_operator_is_its_pipe.
Theorem C26_or_is_sequence : forall m deg f a b c w x, op_or a b = Ok w c -> vector_kind x = true ->
  call m deg f c x = do y <- call m deg f a x; call m deg f b y.
Proof. intros. eapply or_call; eauto. Qed.
Print Assumptions C26_or_is_sequence.
Theorem C26_or_associative : forall m deg f a b c ab bc l r w1 w2 w3 w4 x, vector_kind x = true ->
  op_or a b = Ok w1 ab -> op_or ab c = Ok w2 l -> op_or b c = Ok w3 bc -> op_or a bc = Ok w4 r ->
  call m deg f l x = call m deg f r x.
Proof.
  intros m deg f a b c ab bc l r w1 w2 w3 w4 x K E1 E2 E3 E4.
  rewrite (or_call m deg f _ _ _ _ _ E2 K), (or_call m deg f _ _ _ _ _ E1 K), (or_call m deg f _ _ _ _ _ E4 K), bind_assoc.
  apply bind_vector; [intros w y E; eapply call_vector; eauto|]. intros y Ky. now rewrite (or_call m deg f _ _ _ _ _ E3 Ky).
Qed.
Print Assumptions C26_or_associative.
Theorem C26_nested_pipes_flatten : forall m deg f a b c x, vector_kind x = true ->
  call m deg f (OPipe (a ++ OPipe b :: c)) x = call m deg f (OPipe (a ++ b ++ c)) x.
Proof. intros. now apply call_nested. Qed.
Print Assumptions C26_nested_pipes_flatten.
(** [|] on pipes concatenates the tuples. *)
Theorem C26_or_flattens : forall A (a b : list (op A)) (o : op A), (forall l, o <> OPipe l) ->
  op_or (OPipe a) (OPipe b) = Ok false (OPipe (a ++ b)) /\ op_or (OPipe a) o = Ok false (OPipe (a ++ [o])).
Proof. intros A a b o N. split; [reflexivity|]. destruct o; try reflexivity. now contradiction (N operators). Qed.
Print Assumptions C26_or_flattens.
(** Finding: [op | pipe] raises AttributeError, so [a | (b | c)] raises for every
    non-composite [a], while [(a | b) | c] works. *)
Theorem C26_right_nested_or_refuted : forall A (a b c : op A), (forall l, a <> OPipe l) -> (forall l, b <> OPipe l) -> (forall l, c <> OPipe l) ->
  (do bc <- op_or b c; op_or a bc) = Raise EAttribute /\
  (do ab <- op_or a b; op_or ab c) = Ok false (OPipe [a; b; c]).
Proof.
  intros A a b c Na Nb Nc. destruct a; try (now contradiction (Na operators)); destruct b; try (now contradiction (Nb operators)); destruct c; try (now contradiction (Nc operators)); split; reflexivity.
Qed.
Print Assumptions C26_right_nested_or_refuted.
Theorem C26_or_raises_iff : forall A (a b : op A),
  (exists w c, op_or a b = Ok w c) <-> ~ ((forall l, a <> OPipe l) /\ exists l, b = OPipe l).
Proof.
  intros A a b. destruct a; destruct b; cbn; unfold ret; split; try (intros (? & ? & H); discriminate H);
   try (intros _; eauto; fail); try (intros _ [_ [l H]]; discriminate H); try (intros _ [H _]; now contradiction (H operators));
   try (intros H; exfalso; apply H; split; [intros l H'; discriminate H'|eauto]).
Qed.
Print Assumptions C26_or_raises_iff.
(** The order is observable: a quarter turn and a shift do not commute. *)
Theorem C26_order_matters : forall m deg f,
  let q := finite (PCart3 0 0 0) in let s := ofinite (OSpatial (PCart3 1 0 0)) in let r := ofinite (ORotation quarter) in
  call m deg (4 + f) (OPipe [s; r]) (VPos q) = Ok false (VPos (finite (PCart3 0 1 0))) /\
  call m deg (4 + f) (OPipe [r; s]) (VPos q) = Ok false (VPos (finite (PCart3 1 0 0))).
Proof.
  intros m deg f q s r.
  assert (P : forall x, good_pos 3 (PCart3 x 0 0)) by (intros; repeat split; auto; discriminate).
  assert (G1 : good 3 (OPipe [OSpatial (PCart3 1 0 0); ORotation quarter])). { cbn. split; [apply P|split; [|exact I]]. split; auto. apply quarter_orthogonal. }
  assert (G2 : good 3 (OPipe [ORotation quarter; OSpatial (PCart3 1 0 0)])). { cbn. split; [|split; [apply P|exact I]]. split; auto. apply quarter_orthogonal. }
  assert (A1 : acts (OPipe [OSpatial (PCart3 1 0 0); ORotation quarter]) ([0; 0; 0], 0) ([0; 1; 0], 0)).
  { apply acts_pipe. cbn [chain acts]. exists ([1; 0; 0], 0). split. { exists [1; 0; 0]. split; [reflexivity|]. cbn. f_equal. f_equal; [lra|f_equal; [lra|f_equal; lra]]. }
    eexists. split; [|reflexivity]. cbn. f_equal. f_equal; [lra|f_equal; [lra|f_equal; lra]]. }
  assert (A2 : acts (OPipe [ORotation quarter; OSpatial (PCart3 1 0 0)]) ([0; 0; 0], 0) ([1; 0; 0], 0)).
  { apply acts_pipe. cbn [chain acts]. exists ([0; 0; 0], 0). split. { cbn. f_equal. f_equal; [lra|f_equal; [lra|f_equal; lra]]. }
    eexists. split; [|reflexivity]. exists [1; 0; 0]. split; [reflexivity|]. cbn. f_equal. f_equal; [lra|f_equal; [lra|f_equal; lra]]. }
  assert (K : forall o e', good 3 o -> timeless o -> acts o ([0;0;0], 0) e' -> forall x y z, fst e' = [x; y; z] ->
     call m deg (4 + f) (ofinite o) (VPos (finite (PCart3 0 0 0))) = Ok false (VPos (finite (PCart3 x y z)))).
  { intros o e' G Tl A x y z E. rewrite (call_agrees_p m deg (4 + f) (ofinite o)) with (t := Some 0).
    - destruct (call_posT m deg f 3 o ([0; 0; 0], 0) e' (PCart3 0 0 0) G (P 0) eq_refl A) as (q' & B1 & B2 & B3 & B4).
      { intros e1 V. eapply (visits_cart 3 o (PCart3 0 0 0) [0;0;0] 0); eauto; reflexivity. }
      cbn [snd] in B1. rewrite B1. cbn. do 2 f_equal. destruct q'; try discriminate B2. cbn in B4. rewrite E in B4. injection B4 as -> -> ->. reflexivity.
    - now apply timeless_ofinite. }
  split; [apply (K _ ([0; 1; 0], 0) G1)|apply (K _ ([1; 0; 0], 0) G2)]; try exact A1; try exact A2; try reflexivity; cbn; auto.
Qed.
Print Assumptions C26_order_matters.

(** ** C27 *)
(** Pipe.inverse: the inverses of the parts, in reverse order (any parameters). *)
Theorem C27_inverse_reverses : forall m deg f ops w o', inverse m deg f (OPipe ops) = Ok w o' ->
  exists l, o' = OPipe (rev l) /\ length l = length ops /\
    Forall2 (fun o i => exists w', inverse m deg f o = Ok w' i) ops l.
Proof.
  intros m deg f ops w o' E.
  assert (X : inverse m deg f (OPipe ops) = do l <- (fix go ops := match ops with [] => ret [] | o :: ops => do l <- go ops; do i <- inverse m deg f o; ret (l ++ [i]) end) ops; ret (OPipe l)) by reflexivity.
  rewrite X in E. clear X. apply bind_Ok in E. destruct E as (w1 & w2 & l & E1 & E2 & _). injection E2 as _ <-. clear w2 w.
  assert (Y : exists l', l = rev l' /\ length l' = length ops /\ Forall2 (fun o i => exists w', inverse m deg f o = Ok w' i) ops l').
  { revert w1 l E1. induction ops as [|o ops IH]; intros w1 l E. { injection E as _ <-. exists []. auto. }
    apply bind_Ok in E. destruct E as (w2 & w3 & l1 & E1 & E2 & _). apply bind_Ok in E2. destruct E2 as (w4 & w5 & i & E3 & E4 & _). injection E4 as _ <-.
    destruct (IH _ _ E1) as (l' & -> & L & H). exists (i :: l'). split; [reflexivity|]. split; [cbn; now rewrite L|]. constructor; eauto. }
  destruct Y as (l' & -> & Y). exists l'. auto.
Qed.
Print Assumptions C27_inverse_reverses.
Theorem C27_galilean_operator_inverse : forall m deg f M T v,
  inverse m deg f (OGalilean M T v) = inverse m deg f (OPipe [ORotation M; OTranslation T; OBoost v]).
Proof. intros. cbn [inverse]. destruct (fv_neg m deg f T); cbn; rewrite ?orb_false_r; reflexivity. Qed.
Print Assumptions C27_galilean_operator_inverse.
(** The inverse of the inverse does what the operator does ... *)
Theorem C27_inverse_is_an_involution : forall m deg f n o, good n o -> invertible o ->
  exists o' o'', inverse m deg (4 + f) (ofinite o) = Ok false (ofinite o') /\ inverse m deg (4 + f) (ofinite o') = Ok false (ofinite o'') /\
    good n o' /\ good n o'' /\ (forall e e', length (fst e) = n -> (acts o'' e e' <-> acts o e e')) /\
    (forall m' deg' f' q t, good_pos n q -> is_cart (cls_of q) = true ->
      call m' deg' (4 + f') (ofinite o'') (VPosT (finite q) (Some t)) = call m' deg' (4 + f') (ofinite o) (VPosT (finite q) (Some t))).
Proof.
  intros m deg f n o G Iv. destruct (involution m deg f n o G Iv) as (o' & o'' & A & B & G' & G'' & E). exists o', o''.
  split; auto. split; auto. split; auto. split; auto. split; auto. intros m' deg' f' q t Gq C.
  apply (same_calls m' deg' f' n o o''); auto. intros e e' L. symmetry. auto.
Qed.
Print Assumptions C27_inverse_is_an_involution.
(** ... and for non-composite operators without vectors it is the operator. *)
Theorem C27_involution_exact : forall m deg f o, good 3 o ->
  match o with OIdentity | ORotation _ | OBoost _ | OVelBoost _ => True | _ => False end ->
  (do i <- inverse m deg f (ofinite o); inverse m deg f i) = Ok false (ofinite o).
Proof.
  intros m deg f o G H. destruct o; try contradiction; unfold ofinite; cbn [op_map inverse bind ret orb]; auto.
  - destruct G as [_ S]. cbn [inverse bind]. do 2 f_equal. rewrite tr_fin, tr_fin. now rewrite tr_tr.
  - rewrite !vneg_fin. cbn [vc vcomps]. rewrite vneg_neg. destruct velocity; reflexivity.
  - rewrite !vneg_fin. cbn [vc vcomps]. rewrite vneg_neg. destruct velocity; reflexivity.
Qed.
Print Assumptions C27_involution_exact.
Example C27_case : good 3 sample_op /\ invertible sample_op. Proof. split; apply C25_case. Qed.
Theorem C27_is_inertial : forall ops, (is_inertial (OPipe ops) = true <-> Forall (fun o => is_inertial o = true) ops).
Proof. intros ops. cbn [is_inertial]. now rewrite forallb_forall, Forall_forall. Qed.
Print Assumptions C27_is_inertial.
(** Every operator of these modules is inertial. *)
Theorem C27_all_inertial : forall o, is_inertial o = true.
Proof. induction o using op_ind'; auto. now apply C27_is_inertial. Qed.
Print Assumptions C27_all_inertial.
(** [pipe[i]], non-negative and negative [i]; IndexError outside. *)
Theorem C27_getitem : forall A (o : op A) ops, parts o = Some ops ->
  (forall i x, nth_error ops i = Some x ->
    op_getitem o (Z.of_nat i) = Ok false x /\ op_getitem o (Z.of_nat i - Z.of_nat (length ops)) = Ok false x) /\
  (forall i, (i < - Z.of_nat (length ops) \/ Z.of_nat (length ops) <= i)%Z -> op_getitem o i = Raise EValue).
Proof.
  intros A o ops P. unfold op_getitem. rewrite P. split.
  - intros i x H. destruct (index_nth ops i x H) as [-> ->]. auto.
  - intros i H. now rewrite index_out.
Qed.
Print Assumptions C27_getitem.
(** Slices are Pipes of the selected operators. *)
Lemma nth_error_ext {T} (a b : list T) : length a = length b -> (forall i, (i < length a)%nat -> nth_error a i = nth_error b i) -> a = b.
Proof.
  revert b. induction a as [|x a IH]; intros [|y b] L H; try discriminate L; auto.
  assert (E := H 0%nat ltac:(cbn; lia)). injection E as <-. f_equal. apply IH; auto. intros i Hi. apply (H (S i)). cbn; lia.
Qed.
Theorem C27_getslice : forall A (o : op A) ops, parts o = Some ops ->
  op_getslice o None None 1 = Ok false (OPipe ops) /\
  op_getslice o None None (-1) = Ok false (OPipe (rev ops)) /\
  (forall a b, (a <= b <= length ops)%nat ->
    op_getslice o (Some (Z.of_nat a)) (Some (Z.of_nat b)) 1 = Ok false (OPipe (firstn (b - a) (skipn a ops)))) /\
  (forall a, (a <= length ops)%nat -> op_getslice o (Some (Z.of_nat a)) None 1 = Ok false (OPipe (skipn a ops)) /\
    op_getslice o None (Some (Z.of_nat a)) 1 = Ok false (OPipe (firstn a ops))).
Proof.
  intros A o ops P. unfold op_getslice. rewrite P.
  assert (S1 : forall a b start stop, slice_start (Z.of_nat (length ops)) 1 a = Z.of_nat start -> slice_stop (Z.of_nat (length ops)) 1 b = Z.of_nat stop ->
     (start <= stop <= length ops)%nat -> py_slice ops a b 1 = firstn (stop - start) (skipn start ops)).
  { intros a b start stop Ea Eb L. destruct (slice_ok ops a b 1 ltac:(lia)) as [L1 L2]. rewrite Ea, Eb in *.
    assert (Len : Z.to_nat (slice_length (Z.of_nat start) (Z.of_nat stop) 1) = (stop - start)%nat).
    { unfold slice_length. cbn [Z.ltb Z.compare]. destruct (Z.of_nat start <? Z.of_nat stop)%Z eqn:E; [rewrite Z.div_1_r; lia|lia]. }
    rewrite Len in *. apply nth_error_ext. { rewrite L1, firstn_length, skipn_length. lia. }
    intros i Hi. rewrite L1 in Hi. rewrite (proj1 (L2 i Hi)).
    replace (Z.to_nat (Z.of_nat start + Z.of_nat i * 1)) with (start + i)%nat by lia.
    clear - Hi L. revert start stop i Hi L. induction ops as [|x l IH]; intros start stop i Hi L. { cbn in L. lia. }
    destruct start as [|start].
    - cbn [skipn plus]. rewrite Nat.sub_0_r in *. clear IH L. revert i stop Hi. generalize (x :: l) as l0. induction l0 as [|y l0 IH]; intros i stop Hi. { now rewrite firstn_nil; destruct i. }
      destruct stop; [lia|]. destruct i; auto. cbn. apply IH. lia.
    - destruct stop; [lia|]. cbn [skipn plus nth_error]. rewrite (IH start stop i) by (cbn in L; lia). reflexivity. }
  cbn [Z.eqb]. split; [|split; [|split]].
  - rewrite (S1 None None 0%nat (length ops)) by (reflexivity || lia). cbn [skipn]. rewrite Nat.sub_0_r, firstn_all. reflexivity.
  - unfold ret. do 2 f_equal. destruct (slice_ok ops None None (-1) ltac:(lia)) as [L1 L2].
    unfold slice_start, slice_stop in *. cbn [Z.ltb Z.compare] in *.
    assert (Len : Z.to_nat (slice_length (Z.of_nat (length ops) - 1) (-1) (-1)) = length ops).
    { unfold slice_length. cbn [Z.ltb Z.compare]. destruct (-1 <? Z.of_nat (length ops) - 1)%Z eqn:E; [|lia]. change (- -1)%Z with 1%Z. rewrite Z.div_1_r. lia. }
    rewrite Len in *. apply nth_error_ext. { now rewrite rev_length. }
    intros i Hi. rewrite L1 in Hi. rewrite (proj1 (L2 i Hi)).
    replace (Z.to_nat (Z.of_nat (length ops) - 1 + Z.of_nat i * -1)) with (length ops - S i)%nat by lia.
    destruct ops as [|x0 ops0] eqn:E0; [cbn in Hi; lia|]. rewrite <- E0 in *.
    rewrite !nth_error_nth' with (d := x0) by (rewrite ?rev_length; lia). rewrite rev_nth by lia. reflexivity.
  - intros a b L. rewrite (S1 _ _ a b); auto; try lia; unfold slice_start, slice_stop, slice_bound; cbn [Z.ltb Z.compare];
      (destruct (_ <? 0)%Z eqn:E1; [lia|]; destruct (_ <? Z.of_nat _)%Z eqn:E2; lia).
  - intros a L. split.
    + rewrite (S1 _ None a (length ops)); auto; try lia.
      * unfold ret. do 2 f_equal. rewrite firstn_all2; auto. rewrite skipn_length. lia.
      * unfold slice_start, slice_bound; cbn [Z.ltb Z.compare]. (destruct (_ <? 0)%Z eqn:E1; [lia|]; destruct (_ <? Z.of_nat _)%Z eqn:E2; lia).
    + rewrite (S1 None _ 0%nat a); auto; try lia.
      * cbn [skipn]. now rewrite Nat.sub_0_r.
      * unfold slice_stop, slice_bound; cbn [Z.ltb Z.compare]. (destruct (_ <? 0)%Z eqn:E1; [lia|]; destruct (_ <? Z.of_nat _)%Z eqn:E2; lia).
Qed.
Print Assumptions C27_getslice.
(** Any slice: the [i]-th operator selected is number [start + i * step]. *)
Theorem C27_getslice_general : forall A (o : op A) ops a b s, parts o = Some ops -> s <> 0%Z ->
  let n := Z.of_nat (length ops) in let start := slice_start n s a in let k := Z.to_nat (slice_length start (slice_stop n s b) s) in
  exists l, op_getslice o a b s = Ok false (OPipe l) /\ length l = k /\
    forall i, (i < k)%nat -> nth_error l i = nth_error ops (Z.to_nat (start + Z.of_nat i * s)) /\ (0 <= start + Z.of_nat i * s < n)%Z.
Proof.
  intros A o ops a b s P S n start k. unfold op_getslice. rewrite P. destruct (Z.eqb_spec s 0); [contradiction|].
  eexists. split; [reflexivity|]. exact (slice_ok ops a b s S).
Qed.
Print Assumptions C27_getslice_general.
