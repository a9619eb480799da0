(** * Properties C29 and C30: the Galilean group; FourVector. *)
From Coq Require Import Reals Bool List ZArith Lra Lia.
From Verif Require Import Num Vectors Spec Transform Pos3DThm Dispatch RoundTrip Arith ArithThm ArithThm2 Vel SpecVel VelThm VelProlate2 FourVec Operators SpecOp OpThm OpInv OpVel OpVel2 OpGlue OpMisc OpSimp PropOp.
Import ListNotations.
Open Scope R_scope.

(** ** C29 *)
(** [op(q, t)] realises the map of events, for every operator (pipes of any
    length and depth included) and every position class. *)
Theorem C29_calls_act_on_events : forall m deg f n o x t x' t' q,
  good n o -> good_pos n q -> denotes q x -> acts o (x, t) (x', t') ->
  (forall e1, visits o (x, t) e1 -> can_hold (cls_of q) (fst e1)) ->
  exists q', call m deg (4 + f) (ofinite o) (VPosT (finite q) (Some t)) = Ok false (VPosT (finite q') (Some t')) /\
    cls_of q' = cls_of q /\ valid q' /\ denotes q' x'.
Proof.
  intros m deg f n o x t x' t' q G Gq D A S.
  destruct (call_posT m deg f n o (x, t) (x', t') q G Gq D A S) as (q' & E & C & Gq' & D'). exists q'. repeat (split; auto). apply Gq'.
Qed.
Print Assumptions C29_calls_act_on_events.
(** The formulas, on Cartesian positions. *)
Lemma cart_call m deg f n o x t x' t' : (n = 1 \/ n = 2 \/ n = 3)%nat -> good n o -> length x = n -> acts o (x, t) (x', t') ->
  call m deg (4 + f) (ofinite o) (VPosT (finite (cart_pos x)) (Some t)) = Ok false (VPosT (finite (cart_pos x')) (Some t')).
Proof.
  intros Hn G L A.
  assert (Gq : good_pos n (cart_pos x) /\ is_cart (cls_of (cart_pos x)) = true /\ denotes (cart_pos x) x).
  { destruct x as [|x0 [|x1 [|x2 [|]]]]; cbn in L; try lia; subst n; cbn [cart_pos]; repeat split; cbn; auto; discriminate. }
  destruct Gq as (Gq & C & D).
  destruct (call_posT m deg f n o (x, t) (x', t') (cart_pos x) G Gq D A) as (q' & E & Cq & Gq' & D'). { now apply (visits_cart n o (cart_pos x) x t G Gq C D). }
  cbn [snd fst] in *. rewrite E. do 3 f_equal. apply cart_is; auto. apply Gq'. now rewrite Cq.
Qed.
Theorem C29_spatial_translation : forall m deg f n q b x t, (n = 1 \/ n = 2 \/ n = 3)%nat -> good_pos n q -> denotes q b -> length x = n ->
  call m deg (4 + f) (ofinite (OSpatial q)) (VPosT (finite (cart_pos x)) (Some t))
  = Ok false (VPosT (finite (cart_pos (vadd x b))) (Some t)).
Proof. intros. apply (cart_call m deg f n); auto. exists b; auto. Qed.
Print Assumptions C29_spatial_translation.
Theorem C29_translation : forall m deg f v b x t, good_pos 3 (fq v) -> denotes (fq v) b -> length x = 3%nat ->
  call m deg (4 + f) (ofinite (OTranslation v)) (VPosT (finite (cart_pos x)) (Some t))
  = Ok false (VPosT (finite (cart_pos (vadd x b))) (Some (t + ft v))).
Proof. intros. apply (cart_call m deg f 3); auto. split; auto. exists b; auto. Qed.
Print Assumptions C29_translation.
Theorem C29_boost : forall m deg f n v x t, (n = 1 \/ n = 2 \/ n = 3)%nat -> cart_vel n v -> length x = n ->
  call m deg (4 + f) (ofinite (OBoost v)) (VPosT (finite (cart_pos x)) (Some t))
  = Ok false (VPosT (finite (cart_pos (vadd x (vscale t (vcomps v))))) (Some t)).
Proof. intros. apply (cart_call m deg f n); auto. reflexivity. Qed.
Print Assumptions C29_boost.
Theorem C29_rotation : forall m deg f M x t, square3 M -> length x = 3%nat ->
  call m deg (4 + f) (ofinite (ORotation M)) (VPosT (finite (cart_pos x)) (Some t))
  = Ok false (VPosT (finite (cart_pos (rot M x))) (Some t)) /\
  call m deg (4 + f) (ofinite (ORotation M)) (VPosT (finite (cart_pos [0; 0; 0])) (Some t))
  = Ok false (VPosT (finite (cart_pos [0; 0; 0])) (Some t)).
Proof.
  intros m deg f M x t S L. split; (apply (cart_call m deg f 3); auto; [split; auto|]). reflexivity.
  cbn. f_equal. destruct (square3_shape M S) as (a & b & c & d & e & g & h & i & j & ->). cbn. f_equal; [ring|f_equal; [ring|f_equal; ring]].
Qed.
Print Assumptions C29_rotation.
(** GalileanOperator: rotation, then translation, then boost at the new time. *)
Theorem C29_galilean_operator : forall m deg f M T v b x t, good 3 (OGalilean M T v) -> denotes (fq T) b -> length x = 3%nat ->
  call m deg (4 + f) (ofinite (OGalilean M T v)) (VPosT (finite (cart_pos x)) (Some t))
  = Ok false (VPosT (finite (cart_pos (vadd (vadd (rot M x) b) (vscale (t + ft T) (vcomps v))))) (Some (t + ft T))).
Proof.
  intros m deg f M T v b x t G D L. apply (cart_call m deg f 3); auto. eexists. eexists. split; [reflexivity|]. split; [exists b; auto|]. reflexivity.
Qed.
Print Assumptions C29_galilean_operator.
(** Finding: the class docstring says (t, x) -> (t + s, R x + v t + a), with the
    time before the translation; the result differs whenever s v <> 0. *)
Theorem C29_docstring_formula_refuted : forall m deg f s, s <> 0 ->
  let M := [[1; 0; 0]; [0; 1; 0]; [0; 0; 1]] in let a := [1; 2; 3] in let v := [1; 0; 0] in
  let o := OGalilean M (mkFV s (PCart3 1 2 3) c_light) (mkVel WCart3 v) in
  exists y, call m deg (4 + f) (ofinite o) (VPosT (finite (cart_pos [0; 0; 0])) (Some 0)) = Ok false (VPosT (finite (cart_pos y)) (Some (0 + s))) /\
    y <> vadd (vadd (rot M [0; 0; 0]) (vscale 0 v)) a.
Proof.
  intros m deg f s Hs M a v o.
  assert (G : good 3 o). { cbn. repeat split; auto; try discriminate. repeat constructor. }
  eexists. split; [exact (C29_galilean_operator m deg f M (mkFV s (PCart3 1 2 3) c_light) (mkVel WCart3 v) [1; 2; 3] [0; 0; 0] 0 G eq_refl eq_refl)|].
  cbn. intros H. injection H as H _ _. apply Hs. lra.
Qed.
Print Assumptions C29_docstring_formula_refuted.
(** Every operator with orthogonal rotations keeps time intervals, and distances
    between simultaneous points. *)
Theorem C29_rigid_motion : forall m deg f n o x y t s, (n = 1 \/ n = 2 \/ n = 3)%nat -> good n o -> rigid o -> length x = n -> length y = n ->
  exists x' y' t' s',
    call m deg (4 + f) (ofinite o) (VPosT (finite (cart_pos x)) (Some t)) = Ok false (VPosT (finite (cart_pos x')) (Some t')) /\
    call m deg (4 + f) (ofinite o) (VPosT (finite (cart_pos y)) (Some s)) = Ok false (VPosT (finite (cart_pos y')) (Some s')) /\
    length x' = n /\ length y' = n /\ t' - s' = t - s /\ (t = s -> norm_of (vsub x' y') = norm_of (vsub x y)).
Proof.
  intros m deg f n o x y t s Hn G Rg Lx Ly.
  destruct (acts_total n o G (x, t) Lx) as ([x' t'] & A & L1). destruct (acts_total n o G (y, s) Ly) as ([y' s'] & B & L2).
  destruct (rigid_motion n o G Rg x y t s x' y' t' s' Lx Ly A B) as [E1 E2].
  exists x', y', t', s'. split; [eapply cart_call; eauto|]. split; [eapply cart_call; eauto|]. auto.
Qed.
Print Assumptions C29_rigid_motion.
Example C29_case : good 3 sample_op /\ rigid sample_op.
Proof. split; [apply C25_case|]. pose proof quarter_orthogonal. cbn. auto 10. Qed.

(** FourVectors: as the pair (q, t); [c] kept, but reset by rotations. *)
Theorem C29_four_vector_agrees : forall m deg f o q t c, dim_of (cls_of q) = 3%nat ->
  match call m deg f (ofinite o) (VPosT q t) with
  | Ok w (VPosT q' t') => call m deg f (ofinite o) (VFour (mkFV t q c)) = Ok w (VFour (mkFV t' q' (if rotates o then ncst c_light else c)))
  | Ok w _ => False
  | Raise e => call m deg f (ofinite o) (VFour (mkFV t q c)) = Raise e
  end.
Proof.
  intros m deg f o q t c D. pose proof (call_agrees m deg f (ofinite o) q t c D) as A. rewrite rotates_ofinite in A.
  destruct (call m deg f (ofinite o) (VPosT q t)) as [w v|e] eqn:E; cbn [map_res] in A; [|exact A].
  pose proof (call_kind m deg f (ofinite o) q t w v E) as (q' & t' & -> & _). exact A.
Qed.
Print Assumptions C29_four_vector_agrees.
(** Positions without a time: as with a time, when all parts ignore it. *)
Theorem C29_position_agrees : forall m deg f o q t, timeless o ->
  match call m deg f (ofinite o) (VPosT q t) with
  | Ok w (VPosT q' t') => call m deg f (ofinite o) (VPos q) = Ok w (VPos q')
  | Ok w _ => False
  | Raise e => call m deg f (ofinite o) (VPos q) = Raise e
  end.
Proof.
  intros m deg f o q t Tl. pose proof (call_agrees_p m deg f (ofinite o) (timeless_ofinite o Tl) q t) as A.
  destruct (call m deg f (ofinite o) (VPosT q t)) as [w v|e] eqn:E; cbn [map_res] in A; [|exact A].
  pose proof (call_kind m deg f (ofinite o) q t w v E) as (q' & t' & -> & _). exact A.
Qed.
Print Assumptions C29_position_agrees.

(** Length arrays: as the Cartesian position; non-composite operators in 1-3
    dimensions, pipes in 3. *)
Theorem C29_arrays : forall m deg f n o x x' t', (n = 3 \/ (n = 1 \/ n = 2) /\ simple o = true)%nat -> good n o -> timeless o ->
  length x = n -> acts o (x, 0) (x', t') ->
  call m deg (4 + f) (ofinite o) (VArr (map (@Some R) x)) = Ok false (VArr (map (@Some R) x')).
Proof.
  intros m deg f n o x x' t' Hn G Tl L A.
  assert (H3 : (n = 1 \/ n = 2 \/ n = 3)%nat) by lia.
  pose proof (cart_call m deg f n o x 0 x' t' H3 G L A) as C.
  pose proof (C29_position_agrees m deg (4 + f) o (finite (cart_pos x)) (Some 0) Tl) as P. rewrite C in P.
  pose proof (acts_length n o (x, 0) (x', t') G L A) as L'. cbn in L'.
  assert (CC : forall y, length y = n -> cart_components m deg (4 + f) (finite (cart_pos y)) = Ok false (@map R ext (@Some R) y)).
  { intros y Ly. apply cart_components_ok; destruct y as [|y0 [|y1 [|y2 [|]]]]; cbn in Ly; try lia; cbn; auto; discriminate. }
  assert (CF : forall y, length y = n -> cart_from (@map R ext (@Some R) y) = Ok false (finite (cart_pos y))).
  { intros y Ly. destruct y as [|y0 [|y1 [|y2 [|]]]]; cbn in Ly; try lia; reflexivity. }
  assert (OA : forall g, g (VPos (finite (cart_pos x))) = Ok false (VPos (finite (cart_pos x'))) -> on_array m deg (4 + f) g (@map R ext (@Some R) x) = Ok false (VArr (@map R ext (@Some R) x'))).
  { intros g Hg. unfold on_array. rewrite map_length, L.
    assert (X : (do q <- cart_from (@map R ext (@Some R) x); do r <- g (VPos q); match r with VPos q' => do y <- cart_components m deg (4 + f) q'; ret (VArr y) | _ => Raise EType end) = Ok false (VArr (@map R ext (@Some R) x'))).
    { rewrite CF, bind_ok by auto. rewrite Hg, bind_ok. rewrite CC, bind_ok by auto. reflexivity. }
    destruct n as [|[|[|[|]]]]; try lia; exact X. }
  destruct (simple o) eqn:Sm.
  - destruct o as [|q|v|M|v|v|ops|M T v]; try discriminate Sm; try contradiction.
    + cbn in A. injection A as -> ->. reflexivity.
    + exact (OA _ P).
    + cbn in A. injection A as -> ->. destruct G as [-> SM]. destruct x as [|x0 [|x1 [|x2 [|]]]]; try discriminate L.
      change (Ok false (VArr (matmul_vec (@map (list R) (list ext) (@map R ext (@Some R)) M) (@map R ext (@Some R) [x0; x1; x2]))) = Ok false (VArr (@map R ext (@Some R) (rot M [x0; x1; x2])))).
      now rewrite matmul_vec_some.
    + exact (OA _ P).
  - destruct Hn as [-> |[_ H]]; [|discriminate H]. destruct o as [|q|v|M|v|v|ops|M T v]; try discriminate Sm; try contradiction.
    destruct x as [|x0 [|x1 [|x2 [|]]]]; try discriminate L. rewrite ofinite_pipe in *. exact (OA _ P).
Qed.
Print Assumptions C29_arrays.
(** Length arrays with a time, in 1-3 dimensions: as the event. *)
Theorem C29_arrays_with_time : forall m deg f n o x t x' t', (n = 1 \/ n = 2 \/ n = 3)%nat -> simple o = true -> good n o ->
  length x = n -> acts o (x, t) (x', t') ->
  call m deg (4 + f) (ofinite o) (VArrT (map (@Some R) x) (Some t)) = Ok false (VArrT (map (@Some R) x') (Some t')).
Proof.
  intros m deg f n o x t x' t' Hn Sm G L A.
  pose proof (cart_call m deg f n o x t x' t' Hn G L A) as C.
  pose proof (acts_length n o (x, t) (x', t') G L A) as L'. cbn in L'.
  assert (OA : forall g, g (VPosT (finite (cart_pos x)) (Some t)) = Ok false (VPosT (finite (cart_pos x')) (Some t')) ->
     on_array_t m deg (4 + f) g (@map R ext (@Some R) x) (Some t) = Ok false (VArrT (@map R ext (@Some R) x') (Some t'))).
  { intros g Hg. unfold on_array_t.
    replace (cart_from (@map R ext (@Some R) x)) with (Ok false (finite (cart_pos x)))
      by (destruct x as [|y0 [|y1 [|y2 [|]]]]; cbn in L; try lia; reflexivity).
    rewrite bind_ok, Hg, bind_ok.
    rewrite (cart_components_ok m deg f (cart_pos x') x'), bind_ok; [reflexivity| | | | ];
      destruct x' as [|y0 [|y1 [|y2 [|]]]]; cbn in L'; try lia; cbn; auto; discriminate. }
  destruct o as [|q|v|M|v|v|ops|M T v]; try discriminate Sm.
  - cbn in A. injection A as -> ->. reflexivity.
  - exact (OA _ C).
  - exact (OA _ C).
  - exact (OA _ C).
  - exact (OA _ C).
  - exact (OA _ C).
Qed.
Print Assumptions C29_arrays_with_time.
Example C29_arrays_with_time_case : simple (OBoost (mkVel WCart3 [1; 2; 3])) = true /\ good 3 (OBoost (mkVel WCart3 [1; 2; 3])) /\
  acts (OBoost (mkVel WCart3 [1; 2; 3])) ([1; 1; 1], 2) (vadd [1; 1; 1] (vscale 2 [1; 2; 3]), 2).
Proof. repeat split; cbn; auto. Qed.
(** the Cartesian velocity class of dimension n *)
Definition is_cart_vel (n : nat) (c : vcls) : Prop :=
  match n with 1%nat => c = WCart1 | 2%nat => c = WCart2 | 3%nat => c = WCart3 | _ => False end.
(** A velocity boost adds Cartesian velocities of equal dimension; with any other pair of
    classes it raises. *)
Theorem C29_velocity_boost : forall m deg f w (v : vel ext),
  (forall n, is_cart_vel n (vc v) -> is_cart_vel n (vc w) ->
    call m deg f (OVelBoost w) (VVel v) = Ok false (VVel (mkVel (vc v) (vplus (vcomps v) (vcomps w)))) /\
    forall q, call m deg f (OVelBoost w) (VPosVel q v) = Ok false (VPosVel q (mkVel (vc v) (vplus (vcomps v) (vcomps w))))) /\
  (~ (exists n, is_cart_vel n (vc v) /\ is_cart_vel n (vc w)) -> forall q,
    call m deg f (OVelBoost w) (VVel v) = Raise ERuntime /\ call m deg f (OVelBoost w) (VPosVel q v) = Raise ERuntime).
Proof.
  intros m deg f [cw xw] [cv xv]. cbn [vc vcomps]. split.
  - intros n. destruct n as [|[|[|[|]]]]; cbn; try tauto; intros -> ->; split; reflexivity.
  - intros N q. destruct cv, cw; try (split; reflexivity); exfalso; apply N; [exists 1%nat|exists 2%nat|exists 3%nat]; split; reflexivity.
Qed.
Print Assumptions C29_velocity_boost.
(** Finding: a pipe of two or more velocity boosts cannot be applied to a lone
    velocity, although its parts can be applied one after the other. *)
Theorem C29_finding_pipe_on_velocity_raises : forall m deg f n w1 w2 ops (v : vel ext),
  is_cart_vel n (vc v) -> is_cart_vel n (vc w1) -> is_cart_vel n (vc w2) ->
  call m deg f (OPipe [OVelBoost w1]) (VVel v) = call m deg f (OVelBoost w1) (VVel v) /\
  (exists u, (do y <- call m deg f (OVelBoost w1) (VVel v); call m deg f (OVelBoost w2) y) = Ok false (VVel u)) /\
  call m deg f (OPipe (OVelBoost w1 :: OVelBoost w2 :: ops)) (VVel v) = Raise ENotFound.
Proof.
  intros m deg f n [c1 x1] [c2 x2] ops [c x] E E1 E2. cbn [vc] in *. cbn [call call_single call_vec]. split; [reflexivity|].
  destruct n as [|[|[|[|]]]]; cbn in *; try tauto; subst c c1 c2; cbn; eauto.
Qed.
Print Assumptions C29_finding_pipe_on_velocity_raises.
(** Finding: a GalileanOperator cannot be applied to a lone velocity, whatever its
    parts, nor can an empty pipe (both are not found by dispatch). *)
Theorem C29_finding_galilean_on_velocity_raises : forall m deg f M T w (v : vel ext),
  call m deg f (OGalilean M T w) (VVel v) = Raise ENotFound /\ call m deg f (OPipe []) (VVel v) = Raise ENotFound.
Proof. exact (fun m deg f M T w v => conj eq_refl eq_refl). Qed.
Print Assumptions C29_finding_galilean_on_velocity_raises.
(** Finding: composites on arrays are ambiguous except for a Pipe on a 3-array. *)
Theorem C29_composite_arrays_refuted : forall m deg f ops M T v x t, length x <> 3%nat ->
  call m deg f (OPipe ops) (VArr x) = Raise EAmbiguous /\ call m deg f (OPipe ops) (VArrT x t) = Raise EAmbiguous /\
  (forall y, call m deg f (OGalilean M T v) (VArr y) = Raise EAmbiguous).
Proof.
  intros m deg f ops M T v x t L. split; [|split; [reflexivity|reflexivity]]. destruct x as [|? [|? [|? [|]]]]; try reflexivity. now contradiction L.
Qed.
Print Assumptions C29_composite_arrays_refuted.

(** ** Velocities *)
(** Operators that accept (q, p), on a Cartesian velocity: translations leave it,
    velocity boosts add to it; the position moves as without the velocity. *)
Theorem C29_position_and_velocity : forall m deg f n o x t x' t' q v,
  good n o -> steady o -> good_pos n q -> cart_vel n v -> denotes q x -> acts o (x, t) (x', t') ->
  (forall e1, visits o (x, t) e1 -> can_hold (cls_of q) (fst e1)) ->
  exists q', call m deg (4 + f) (ofinite o) (VPosVel (finite q) (vfinite v))
     = Ok false (VPosVel (finite q') (vfinite (mkVel (vc v) (vel_acts o (vcomps v))))) /\
    cls_of q' = cls_of q /\ valid q' /\ denotes q' x'.
Proof.
  intros m deg f n o x t x' t' q v G St Gq Cv D A S.
  destruct (call_posvel m deg f n o (x, t) (x', t') q v G St Gq Cv D A S) as (q' & E & C & Gq' & D'). exists q'. repeat (split; auto). apply Gq'.
Qed.
Print Assumptions C29_position_and_velocity.
(** A translation of a curvilinear velocity: its components change, the velocity
    of the motion does not ([vel_means], SpecVel.v). *)
Theorem C29_translation_keeps_velocity : forall m deg f tr q v a b,
  good_pos 3 tr -> good_pos 3 q -> plain3 (cls_of q) -> off_axis q ->
  vplain3 (vc v) -> length (vcomps v) = 3%nat -> denotes tr b -> denotes q a -> can_hold (cls_of q) (vadd a b) ->
  (forall x y z, vadd a b = [x; y; z] -> x * x + y * y <> 0) ->
  exists q' v', call m deg (4 + f) (ofinite (OSpatial tr)) (VPosVel (finite q) (vfinite v)) = Ok false (VPosVel (finite q') (vfinite v')) /\
    cls_of q' = cls_of q /\ denotes q' (vadd a b) /\ vc v' = vc v /\
    forall p p' w, valid p -> valid p' -> denotes p a -> denotes p' (vadd a b) ->
      cls_of p = integral_cls (vc v) -> cls_of p' = integral_cls (vc v) -> (vel_means p v w <-> vel_means p' v' w).
Proof.
  intros m deg f tr q v a b Gt Gq Pq Oq Pv Lv Db Da H Oab.
  destruct (translate_vel3 m deg f tr q v a b Gt Gq Pq Oq Pv Lv Db Da H Oab) as (q' & v' & E & C & Gq' & D & Cv & Lv' & K).
  exists q', v'. split; [exact E|]. split; auto. split; auto. split; auto. intros p p' w Vp Vp' Dp Dp' Cp Cp'.
  destruct (off_same q p a (proj1 Gq) Vp Da Dp) as [Op _].
  assert (Op' : off_axis p'). { intros x y z Dx. apply (Oab x y z). apply (denotes_fun p' _ _ Vp'); auto. }
  rewrite (means_iff p v w), (means_iff p' v' w); auto; try (now rewrite Cv). now rewrite (K p p').
Qed.
Print Assumptions C29_translation_keeps_velocity.
Example C29_velocity_case : let tr := PCart3 1 2 3 in let q := PCyl 1 0 5 in let v := mkVel WSph [1; 2; 3] in
  good_pos 3 tr /\ good_pos 3 q /\ plain3 (cls_of q) /\ off_axis q /\ vplain3 (vc v) /\
  denotes tr [1; 2; 3] /\ denotes q [1 * cos 0; 1 * sin 0; 5] /\ can_hold (cls_of q) (vadd [1 * cos 0; 1 * sin 0; 5] [1; 2; 3]) /\
  (forall x y z, vadd [1 * cos 0; 1 * sin 0; 5] [1; 2; 3] = [x; y; z] -> x * x + y * y <> 0).
Proof.
  cbv zeta. rewrite cos_0, sin_0. repeat split; try discriminate; try (cbn; lra); try (cbn; auto; fail).
  - intros x y z H. cbn in H. rewrite cos_0, sin_0 in H. injection H as -> -> ->. lra.
  - cbn. rewrite cos_0, sin_0. reflexivity.
  - intros x y z H. cbn in H. injection H as <- <- <-. lra.
Qed.

(** ** C30 *)
Theorem C30_add : forall m deg f v w a b, good_pos 3 (fq v) -> good_pos 3 (fq w) -> denotes (fq v) a -> denotes (fq w) b ->
  can_hold (cls_of (fq v)) (vadd a b) ->
  exists s, fv_add m deg (4 + f) (fvfinite v) (fvfinite w) = Ok false (fvfinite s) /\ ft s = ft v + ft w /\ fc s = fc v /\
    cls_of (fq s) = cls_of (fq v) /\ good_pos 3 (fq s) /\ denotes (fq s) (vadd a b).
Proof. exact fv_add_ok. Qed.
Print Assumptions C30_add.
Theorem C30_sub : forall m deg f v w a b, good_pos 3 (fq v) -> good_pos 3 (fq w) -> denotes (fq v) a -> denotes (fq w) b ->
  can_hold (cls_of (fq v)) (vsub a b) ->
  exists s, fv_sub m deg (4 + f) (fvfinite v) (fvfinite w) = Ok false (fvfinite s) /\ ft s = ft v - ft w /\ fc s = fc v /\
    cls_of (fq s) = cls_of (fq v) /\ good_pos 3 (fq s) /\ denotes (fq s) (vsub a b).
Proof. exact fv_sub_ok. Qed.
Print Assumptions C30_sub.
Theorem C30_neg : forall m deg f v a, good_pos 3 (fq v) -> denotes (fq v) a -> can_hold (cls_of (fq v)) (vscale (-1) a) ->
  exists s, fv_neg m deg (4 + f) (fvfinite v) = Ok false (fvfinite s) /\ ft s = - ft v /\ fc s = fc v /\
    cls_of (fq s) = cls_of (fq v) /\ good_pos 3 (fq s) /\ denotes (fq s) (vscale (-1) a).
Proof. exact fv_neg_ok. Qed.
Print Assumptions C30_neg.
(** [norm2 = (c t)^2 - |q|^2], for every representation of q. *)
Theorem C30_norm2 : forall deg f v a, good_pos 3 (fq v) -> length_radial (fq v) -> denotes (fq v) a ->
  fv_norm2 deg (4 + f) (fvfinite v) = Ok false (Some (interval2 (fc v) (ft v) a)).
Proof. exact fv_norm2_ok. Qed.
Print Assumptions C30_norm2.
Theorem C30_norm2_representation_independent : forall deg deg' f f' t c p q, good_pos 3 p -> good_pos 3 q -> length_radial p -> length_radial q ->
  same_point p q -> fv_norm2 deg (4 + f) (fvfinite (mkFV t p c)) = fv_norm2 deg' (4 + f') (fvfinite (mkFV t q c)).
Proof.
  intros deg deg' f f' t c p q Gp Gq Lp Lq S. destruct (denotes_total p (proj1 Gp)) as (a & D).
  pose proof (fv_norm2_ok deg f (mkFV t p c) a Gp Lp D) as E1. pose proof (fv_norm2_ok deg' f' (mkFV t q c) a Gq Lq (proj1 (S a) D)) as E2.
  unfold fvfinite. rewrite E1, E2. reflexivity.
Qed.
Print Assumptions C30_norm2_representation_independent.
Lemma norm_neg a : norm_of (vscale (-1) a) = norm_of a.
Proof. unfold norm_of. f_equal. induction a as [|x a IH]; [reflexivity|]. unfold vscale in *. cbn [map fold_right]. transitivity (-1 * x * (-1 * x) + fold_right (fun x s : R => x * x + s) 0 a); [f_equal; exact IH|ring]. Qed.
(** Invariant under negation and under rotations. *)
Theorem C30_norm2_neg : forall m deg deg' f f' v a, good_pos 3 (fq v) -> length_radial (fq v) -> denotes (fq v) a -> can_hold (cls_of (fq v)) (vscale (-1) a) ->
  (do w <- fv_neg m deg (4 + f) (fvfinite v); fv_norm2 deg' (4 + f') w) = fv_norm2 deg' (4 + f') (fvfinite v).
Proof.
  intros m deg deg' f f' v a G L D H. destruct G as (V & N & T & Dm).
  destruct (neg_ok m deg f (fq v) a V N D H) as (s & E & C & Vs & Ds & Ls).
  assert (E' : fv_neg m deg (4 + f) (fvfinite v) = Ok false (fvfinite (mkFV (- ft v) s (fc v)))).
  { unfold fv_neg. cbn [fq fv_map fvfinite]. fold (finite (fq v)). rewrite E, bind_ok. reflexivity. }
  rewrite E', bind_ok.
  pose proof (fv_norm2_ok deg' f' (mkFV (- ft v) s (fc v)) (vscale (-1) a)) as K1. pose proof (fv_norm2_ok deg' f' v a) as K2. unfold fvfinite. rewrite K1, K2; auto.
  - cbn [ft fc]. unfold interval2. rewrite norm_neg. do 2 f_equal. ring.
  - repeat split; auto.
  - cbn [fq]. apply good_result; auto; congruence.
Qed.
Print Assumptions C30_norm2_neg.
Theorem C30_norm2_rotation : forall m deg deg' f f' M v a, orthogonal M -> good_pos 3 (fq v) -> length_radial (fq v) -> denotes (fq v) a ->
  can_hold (cls_of (fq v)) (rot M a) -> fc v = c_light ->
  (do w <- call m deg (4 + f) (ofinite (ORotation M)) (VFour (fvfinite v)); match w with VFour w => fv_norm2 deg' (4 + f') w | _ => Raise EType end)
  = fv_norm2 deg' (4 + f') (fvfinite v).
Proof.
  intros m deg deg' f f' M v a O G L D H C.
  destruct (rotate_ok' m deg f M (fq v) a) as (s & E & Cs & Gs & Ds & Ls); auto. { apply O. }
  assert (E' : call m deg (4 + f) (ofinite (ORotation M)) (VFour (fvfinite v)) = Ok false (VFour (fvfinite (mkFV (ft v) s c_light)))).
  { unfold ofinite. cbn [op_map call call_single call_vec]. cbn [fq fv_map fvfinite]. fold (finite (fq v)). rewrite E, bind_ok. reflexivity. }
  rewrite E', bind_ok. cbn [bind].
  pose proof (fv_norm2_ok deg' f' (mkFV (ft v) s c_light) (rot M a)) as K1. pose proof (fv_norm2_ok deg' f' v a) as K2. unfold fvfinite. rewrite K1, K2; auto.
  cbn [ft fc]. unfold interval2. rewrite C, rot_norm; auto. rewrite (denotes_length _ _ D); [apply G|apply G].
Qed.
Print Assumptions C30_norm2_rotation.
(** [norm] is the principal square root of [norm2] in the complex numbers. *)
Theorem C30_norm : forall deg f v a, good_pos 3 (fq v) -> length_radial (fq v) -> denotes (fq v) a ->
  exists re im, fv_norm deg (4 + f) (fvfinite v) = Ok false (Some re, Some im) /\
    re * re - im * im = interval2 (fc v) (ft v) a /\ re * im = 0 /\ 0 <= re /\ 0 <= im.
Proof.
  intros deg f v a G L D. destruct (csqrt_ok (interval2 (fc v) (ft v) a)) as (re & im & E & K). exists re, im. split; auto.
  unfold fv_norm. pose proof (fv_norm2_ok deg f v a G L D) as N. unfold fvfinite. rewrite N, bind_ok, E. reflexivity.
Qed.
Print Assumptions C30_norm.
(** The array of a four-vector: c t and the Cartesian coordinates. *)
Theorem C30_to_array : forall m deg f v a, good_pos 3 (fq v) -> denotes (fq v) a ->
  fv_to_array m deg (4 + f) (fvfinite v) = Ok false (@map R ext (@Some R) (fc v * ft v :: a)).
Proof. exact fv_array_ok. Qed.
Print Assumptions C30_to_array.
Lemma fin_div (x : R) : ndiv (Some x : ext) (ncst c_light) = Some (x / c_light).
Proof. cbn. destruct (Reqb c_light 0) eqn:E; auto. apply Reqb_true in E. unfold c_light in E. lra. Qed.
(** Array to four-vector and back is the identity on every array of length 4. *)
Theorem C30_array_round_trip : forall m deg f ct x y z,
  (do v <- fv_from_array (@map R ext (@Some R) [ct; x; y; z]); fv_to_array m deg (4 + f) v) = Ok false (@map R ext (@Some R) [ct; x; y; z]).
Proof.
  intros m deg f ct x y z.
  assert (Cp : 0 < c_light) by (unfold c_light; lra).
  assert (E : fv_from_array (@map R ext (@Some R) [ct; x; y; z]) = Ok false (fvfinite (mkFV (ct / c_light) (PCart3 x y z) c_light))).
  { cbn [map fv_from_array]. unfold ret, fvfinite, fv_map. cbn [ft fq fc pos_map]. do 2 f_equal. now rewrite (fin_div ct). }
  rewrite E, bind_ok. rewrite (C30_to_array m deg f _ [x; y; z]).
  - cbn [fc ft]. do 3 f_equal. field. lra.
  - repeat split; cbn; auto; discriminate.
  - reflexivity.
Qed.
Print Assumptions C30_array_round_trip.
(** Four-vector to array and back, at the default c: the same time and place
    (the place becomes Cartesian). *)
Theorem C30_from_to_array : forall m deg f v a, good_pos 3 (fq v) -> denotes (fq v) a -> fc v = c_light ->
  exists w, (do x <- fv_to_array m deg (4 + f) (fvfinite v); fv_from_array x) = Ok false (fvfinite w) /\
    ft w = ft v /\ fc w = fc v /\ cls_of (fq w) = CCart3 /\ denotes (fq w) a.
Proof.
  intros m deg f v a G D C. assert (Cp : 0 < c_light) by (unfold c_light; lra).
  rewrite (C30_to_array m deg f v a G D), bind_ok. destruct G as (V & N & T & Dm). pose proof (denotes_length _ _ D T) as L. rewrite Dm in L.
  destruct a as [|x [|y [|z [|]]]]; try discriminate L. exists (mkFV (ft v) (PCart3 x y z) c_light).
  split; [|cbn; auto]. cbn [map fv_from_array]. unfold ret, fvfinite, fv_map. cbn [ft fq fc pos_map]. do 2 f_equal.
  rewrite fin_div. do 2 f_equal. rewrite C. field. lra.
Qed.
Print Assumptions C30_from_to_array.
(** Finding: an array does not record [c], so another speed of light changes the
    time on the way back. *)
Theorem C30_custom_c_refuted : forall m deg f t c, t <> 0 -> c <> c_light ->
  exists t', (do x <- fv_to_array m deg (4 + f) (fvfinite (mkFV t (PCart3 1 2 3) c)); fv_from_array x) = Ok false (fvfinite (mkFV t' (PCart3 1 2 3) c_light)) /\ t' <> t.
Proof.
  intros m deg f t c Ht Hc. assert (Cp : 0 < c_light) by (unfold c_light; lra). exists (c * t / c_light).
  rewrite (C30_to_array m deg f (mkFV t (PCart3 1 2 3) c) [1; 2; 3]), bind_ok; [|repeat split; cbn; auto; discriminate|reflexivity]. split.
  - cbn [map fv_from_array fc ft]. unfold ret, fvfinite, fv_map. cbn [ft fq fc pos_map]. do 2 f_equal. now rewrite fin_div.
  - intros H. apply Hc. apply (Rmult_eq_reg_r t); auto. apply (Rmult_eq_reg_r (/ c_light)); [|apply Rinv_neq_0_compat; lra].
    unfold Rdiv in H. rewrite H. field. lra.
Qed.
Print Assumptions C30_custom_c_refuted.
(** Finding: a rotation puts the default [c] in the result, so the Minkowski
    square changes when [c] was another value. *)
Theorem C30_rotation_resets_c_refuted : forall m deg f t c, t <> 0 -> c * c <> c_light * c_light ->
  let M := [[1; 0; 0]; [0; 1; 0]; [0; 0; 1]] in let v := mkFV t (PCart3 1 2 3) c in
  exists w, call m deg (4 + f) (ofinite (ORotation M)) (VFour (fvfinite v)) = Ok false (VFour (fvfinite w)) /\
    fv_norm2 deg (4 + f) (fvfinite w) <> fv_norm2 deg (4 + f) (fvfinite v).
Proof.
  intros m deg f t c Ht Hc M v.
  assert (SM : square3 M) by (split; [reflexivity|repeat constructor]).
  assert (G : good_pos 3 (fq v)) by (repeat split; cbn; auto; discriminate).
  destruct (rotate_ok' m deg f M (fq v) [1; 2; 3]) as (s & E & Cs & Gs & Ds & Ls); auto. { reflexivity. } { split; cbn; auto. }
  assert (ER : rot M [1; 2; 3] = [1; 2; 3]) by (cbn; f_equal; [ring|f_equal; [ring|f_equal; ring]]). rewrite ER in Ds. clear ER.
  exists (mkFV t s c_light). split.
  { unfold ofinite. cbn [op_map call call_single call_vec]. cbn [fq fv_map fvfinite]. cbn [fq fv_map fvfinite v] in E |- *. unfold finite in E. rewrite E, bind_ok. reflexivity. }
  pose proof (fv_norm2_ok deg f (mkFV t s c_light) [1; 2; 3]) as K1. pose proof (fv_norm2_ok deg f v [1; 2; 3]) as K2. unfold fvfinite. rewrite K1, K2; auto; [|exact I|reflexivity].
  intros H. injection H as H. unfold interval2, v in H. cbn [ft fc] in H.
  apply Hc. apply (Rmult_eq_reg_r (t * t)); [lra|]. intros K. apply Rmult_integral in K. tauto.
Qed.
Print Assumptions C30_rotation_resets_c_refuted.
(** Finding: [FourVector.from_] of an array of length 3 never succeeds. *)
Theorem C30_from_three_refuted : forall (a b c : ext), exists e, fv_from_array [a; b; c] = Raise e.
Proof. intros. eexists. reflexivity. Qed.
Print Assumptions C30_from_three_refuted.
Example C30_case : let v := mkFV 2 (PCyl 3 1 1) c_light in let w := mkFV 1 (PCyl 1 2 3) c_light in
  good_pos 3 (fq v) /\ good_pos 3 (fq w) /\ length_radial (fq v) /\ orthogonal quarter /\
  (forall a b, denotes (fq v) a -> denotes (fq w) b -> can_hold (cls_of (fq v)) (vadd a b) /\ can_hold (cls_of (fq v)) (vscale (-1) a) /\ can_hold (cls_of (fq v)) (rot quarter a)).
Proof.
  cbv zeta. pose proof PI2_1. split; [repeat split; try discriminate; cbn; lra|]. split; [repeat split; try discriminate; cbn; lra|].
  split; [exact I|]. split; [apply quarter_orthogonal|].
  intros a b Da Db. pose proof (denotes_length _ _ Da ltac:(discriminate)) as La. pose proof (denotes_length _ _ Db ltac:(discriminate)) as Lb.
  cbn [fq cls_of dim_of] in *. destruct a as [|a0 [|a1 [|a2 [|]]]]; try discriminate La. destruct b as [|b0 [|b1 [|b2 [|]]]]; try discriminate Lb.
  repeat split.
Qed.
