(** * Properties C31-C33: the Galactocentric frame. *)
From Coq Require Import Reals Bool List Lra Lia.
From Verif Require Import Num Vectors Spec Transform Pos3D Pos3DThm Dispatch RoundTrip Arith ArithThm ArithThm2 Vel SpecVel FourVec Operators SpecOp OpThm OpInv OpVel OpMisc OpSimp Frames SpecFrame FrameThm.
Import ListNotations.
Open Scope R_scope.
Notation fin := (@map R ext (@Some R)).

(** ** C31 *)
(** There and back again, on length arrays, both ways. *)
Theorem C31_arrays : forall m deg f g x, good_frame g -> length x = 3%nat ->
  (do y <- fcall m deg (4 + f) (FToGCF (gfinite g)) (FArr (fin x)); fcall m deg (4 + f) (FToICRS (gfinite g)) y) = Ok false (FArr (fin x)) /\
  (do y <- fcall m deg (4 + f) (FToICRS (gfinite g)) (FArr (fin x)); fcall m deg (4 + f) (FToGCF (gfinite g)) y) = Ok false (FArr (fin x)).
Proof.
  intros m deg f g x G L. destruct (to_gcf_affine m deg f g G) as (S & _ & _ & A & _). destruct (to_icrs_affine m deg f g G) as (S' & L' & _ & B & _).
  split.
  - rewrite A, bind_ok, B by (auto; now apply aff_length). unfold back. rewrite aff_inv; auto. apply whole_ortho.
  - rewrite B, bind_ok, A by (auto; now apply aff_length). unfold back. rewrite aff_inv'; auto. apply whole_ortho.
Qed.
Print Assumptions C31_arrays.
(** On positions with velocities, as arrays. *)
Theorem C31_arrays_with_velocity : forall m deg f g x p, good_frame g -> length x = 3%nat -> length p = 3%nat ->
  (do y <- fcall m deg (4 + f) (FToGCF (gfinite g)) (FArrs (fin x) (fin p)); fcall m deg (4 + f) (FToICRS (gfinite g)) y) = Ok false (FArrs (fin x) (fin p)) /\
  (do y <- fcall m deg (4 + f) (FToICRS (gfinite g)) (FArrs (fin x) (fin p)); fcall m deg (4 + f) (FToGCF (gfinite g)) y) = Ok false (FArrs (fin x) (fin p)).
Proof.
  intros m deg f g x p G L Lp. destruct (to_gcf_affine m deg f g G) as (S & _ & LV & _ & A & _). destruct (to_icrs_affine m deg f g G) as (S' & L' & LV' & _ & B & _).
  split.
  - rewrite A, bind_ok, B by (auto; now apply aff_length). unfold back, back_v. rewrite !aff_inv; auto; apply whole_ortho.
  - rewrite B, bind_ok, A by (auto; now apply aff_length). unfold back, back_v. rewrite !aff_inv'; auto; apply whole_ortho.
Qed.
Print Assumptions C31_arrays_with_velocity.
Lemma self_vel m deg f p q : vel_represent_as m deg f nokw (vfinite (mkVel WCart3 p)) WCart3 q = Ok false (vfinite (mkVel WCart3 p)).
Proof. reflexivity. Qed.
(** On vectors of any 3-D class: the Cartesian vectors of the same place and
    velocity come back, whenever the velocity has a Cartesian form there. *)
Theorem C31_vectors : forall m deg f g q v a w p, good_frame g -> good_pos 3 q -> denotes q a -> length p = 3%nat ->
  vel_represent_as m deg (4 + f) nokw v WCart3 (finite q) = Ok w (vfinite (mkVel WCart3 p)) ->
  (do y <- fcall m deg (4 + f) (FToGCF (gfinite g)) (FPosVel (finite q) v); fcall m deg (4 + f) (FToICRS (gfinite g)) y)
  = Ok w (FPosVel (finite (cart_pos a)) (vfinite (mkVel WCart3 p))) /\
  (do y <- fcall m deg (4 + f) (FToICRS (gfinite g)) (FPosVel (finite q) v); fcall m deg (4 + f) (FToGCF (gfinite g)) y)
  = Ok w (FPosVel (finite (cart_pos a)) (vfinite (mkVel WCart3 p))).
Proof.
  intros m deg f g q v a w p G Gq D Lp E.
  destruct (to_gcf_affine m deg f g G) as (S & _ & LV & _ & _ & A). destruct (to_icrs_affine m deg f g G) as (S' & L' & LV' & _ & _ & B).
  assert (La : length a = 3%nat). { destruct Gq as (V & N & T & Dm). pose proof (denotes_length q a D T) as La. now rewrite Dm in La. }
  split.
  - rewrite (A q v a w p) by auto. destruct (cart3_good (aff (whole g) (shift g) a)) as (Gc & Dc & _); [now apply aff_length|]. cbn [bind].
    rewrite (B _ _ _ _ (aff (whole g) (g_vsun g) p) Gc Dc (aff_length _ _ _ S LV) (self_vel m deg (4 + f) _ _)).
    unfold back, back_v. rewrite !aff_inv; auto; try apply whole_ortho. now rewrite orb_false_r.
  - rewrite (B q v a w p) by auto. destruct (cart3_good (aff (tr (whole g)) (back g) a)) as (Gc & Dc & _); [now apply aff_length|]. cbn [bind].
    rewrite (A _ _ _ _ (aff (tr (whole g)) (back_v g) p) Gc Dc (aff_length _ _ _ S' LV') (self_vel m deg (4 + f) _ _)).
    unfold back, back_v. rewrite !aff_inv'; auto; try apply whole_ortho. now rewrite orb_false_r.
Qed.
Print Assumptions C31_vectors.
(** [op.inverse] is the operator of the opposite direction. *)
Theorem C31_inverse : forall eqf g,
  (do o <- frame_transform_op eqf ICRS (GCF g); ret (finverse o)) = frame_transform_op eqf (GCF g) ICRS /\
  (do o <- frame_transform_op eqf (GCF g) ICRS; ret (finverse o)) = frame_transform_op eqf ICRS (GCF g) /\
  finertial (FToGCF g) = true /\ finertial (FToICRS g) = true.
Proof. intros. repeat split. Qed.
Print Assumptions C31_inverse.
Definition default_gcf : gcf R :=
  mkGCF (2664051 / 10000 * (PI / 180)) (- (28936175 / 1000000) * (PI / 180)) (mkDist KDistance (8122 * PC)) 0 (208 / 10 * PC) [12900; 245600; 7780].
Example C31_case : good_frame default_gcf /\ good_pos 3 (PCyl 1 2 3) /\
  (forall m deg f p q, length p = 3%nat -> vel_represent_as m deg (4 + f) nokw (vfinite (mkVel WCart3 p)) WCart3 (finite q) = Ok false (vfinite (mkVel WCart3 p))).
Proof.
  pose proof PC_pos. split; [|split; [repeat split; cbn; try lra; discriminate|reflexivity]].
  repeat split; cbn; try lra. rewrite Rabs_right; lra.
Qed.

(** The inverse of a pipe of frame operators, however nested, undoes it: arrays with
    velocities, and Cartesian vectors. *)
Inductive good_fop : fop ext -> Prop :=
| gf_id : good_fop FIdentity
| gf_gcf g : good_frame g -> good_fop (FToGCF (gfinite g))
| gf_icrs g : good_frame g -> good_fop (FToICRS (gfinite g))
| gf_pipe ops : Forall good_fop ops -> good_fop (FPipe ops).
Definition undoes m deg f (o o' : fop ext) : Prop := forall x p, length x = 3%nat -> length p = 3%nat -> exists y q, length y = 3%nat /\ length q = 3%nat /\
  (fcall m deg (4 + f) o (FArrs (fin x) (fin p)) = Ok false (FArrs (fin y) (fin q)) /\
   fcall m deg (4 + f) o' (FArrs (fin y) (fin q)) = Ok false (FArrs (fin x) (fin p))) /\
  (fcall m deg (4 + f) o (FPosVel (finite (cart_pos x)) (vfinite (mkVel WCart3 p))) = Ok false (FPosVel (finite (cart_pos y)) (vfinite (mkVel WCart3 q))) /\
   fcall m deg (4 + f) o' (FPosVel (finite (cart_pos y)) (vfinite (mkVel WCart3 q))) = Ok false (FPosVel (finite (cart_pos x)) (vfinite (mkVel WCart3 p)))).
Fixpoint floop m deg f (ops : list (fop ext)) (x : fvalue ext) : res (fvalue ext) :=
  match ops with [] => ret x | o :: ops => do y <- fcall m deg f o x; floop m deg f ops y end.
Lemma fcall_pipe m deg f ops x : (forall a, x <> FArr a) -> fcall m deg f (FPipe ops) x = floop m deg f ops x.
Proof.
  intros H. assert (E : forall y, (fix go (ops : list (fop ext)) (x : fvalue ext) : res (fvalue ext) :=
    match ops with [] => ret x | o :: ops => do y <- fcall m deg f o x; go ops y end) ops y = floop m deg f ops y).
  { induction ops as [|o ops IH]; intros y; auto. cbn [floop]. destruct (fcall m deg f o y); auto. cbn [bind]. now rewrite IH. }
  destruct x; try (now exfalso; eapply H); cbn [fcall]; apply E.
Qed.
Lemma floop_app m deg f a b x : floop m deg f (a ++ b) x = (do y <- floop m deg f a x; floop m deg f b y).
Proof.
  revert x; induction a as [|o a IH]; intros x; cbn [app floop].
  - unfold ret. cbn. now destruct (floop m deg f b x).
  - destruct (fcall m deg f o x) as [w y|e]; auto. cbn [bind]. rewrite IH. destruct (floop m deg f a y) as [w2 z|e2]; auto. cbn [bind].
    destruct (floop m deg f b z); auto. now rewrite orb_assoc.
Qed.
Lemma finverse_pipe ops : finverse (FPipe ops) = FPipe (rev (map finverse ops)).
Proof. cbn [finverse]. f_equal. induction ops as [|o ops IH]; auto. cbn [map rev]. now rewrite <- IH. Qed.
Lemma good_undoes m deg f : forall o, good_fop o -> undoes m deg f o (finverse o).
Proof.
  fix IH 2. intros o G. destruct G as [|g G|g G|ops F].
  - intros x p Lx Lp. exists x, p. repeat split; auto.
  - intros x p Lx Lp. destruct (to_gcf_affine m deg f g G) as (S & LS & LV & _ & A & AV). destruct (to_icrs_affine m deg f g G) as (S' & L' & LV' & _ & B & BV).
    exists (aff (whole g) (shift g) x), (aff (whole g) (g_vsun g) p). split; [now apply aff_length|]. split; [now apply aff_length|]. split; split.
    + now apply A.
    + cbn [finverse]. rewrite B by now apply aff_length. unfold back, back_v. rewrite !aff_inv; auto; apply whole_ortho.
    + destruct (cart3_good x Lx) as (Gc & Dc & _). now rewrite (AV (cart_pos x) _ x false p Gc Dc Lp (self_vel m deg (4 + f) _ _)).
    + cbn [finverse]. destruct (cart3_good (aff (whole g) (shift g) x)) as (Gc & Dc & _); [now apply aff_length|].
      rewrite (BV _ _ _ _ (aff (whole g) (g_vsun g) p) Gc Dc (aff_length _ _ _ S LV) (self_vel m deg (4 + f) _ _)).
      unfold back, back_v. rewrite !aff_inv; auto; apply whole_ortho.
  - intros x p Lx Lp. destruct (to_gcf_affine m deg f g G) as (S & LS & LV & _ & A & AV). destruct (to_icrs_affine m deg f g G) as (S' & L' & LV' & _ & B & BV).
    exists (aff (tr (whole g)) (back g) x), (aff (tr (whole g)) (back_v g) p). split; [now apply aff_length|]. split; [now apply aff_length|]. split; split.
    + now apply B.
    + cbn [finverse]. rewrite A by now apply aff_length. unfold back, back_v. rewrite !aff_inv'; auto; apply whole_ortho.
    + destruct (cart3_good x Lx) as (Gc & Dc & _). now rewrite (BV (cart_pos x) _ x false p Gc Dc Lp (self_vel m deg (4 + f) _ _)).
    + cbn [finverse]. destruct (cart3_good (aff (tr (whole g)) (back g) x)) as (Gc & Dc & _); [now apply aff_length|].
      rewrite (AV _ _ _ _ (aff (tr (whole g)) (back_v g) p) Gc Dc (aff_length _ _ _ S' LV') (self_vel m deg (4 + f) _ _)).
      unfold back, back_v. rewrite !aff_inv'; auto; apply whole_ortho.
  - rewrite finverse_pipe.
    assert (K : forall x p, length x = 3%nat -> length p = 3%nat -> exists y q, length y = 3%nat /\ length q = 3%nat /\
      (floop m deg (4 + f) ops (FArrs (fin x) (fin p)) = Ok false (FArrs (fin y) (fin q)) /\
       floop m deg (4 + f) (rev (map finverse ops)) (FArrs (fin y) (fin q)) = Ok false (FArrs (fin x) (fin p))) /\
      (floop m deg (4 + f) ops (FPosVel (finite (cart_pos x)) (vfinite (mkVel WCart3 p))) = Ok false (FPosVel (finite (cart_pos y)) (vfinite (mkVel WCart3 q))) /\
       floop m deg (4 + f) (rev (map finverse ops)) (FPosVel (finite (cart_pos y)) (vfinite (mkVel WCart3 q))) = Ok false (FPosVel (finite (cart_pos x)) (vfinite (mkVel WCart3 p))))).
    { induction F as [|o ops Go F IHF]; intros x p Lx Lp.
      - exists x, p. repeat split; auto.
      - destruct (IH o Go x p Lx Lp) as (y & q & Ly & Lq & (A1 & A2) & (A3 & A4)). destruct (IHF y q Ly Lq) as (z & r & Lz & Lr & (B1 & B2) & (B3 & B4)).
        exists z, r. split; auto. split; auto. cbn [map rev]. rewrite !floop_app. cbn [floop].
        rewrite A1, A3, !bind_ok, B1, B2, B3, B4, !bind_ok, A2, A4. repeat split; auto. }
    intros x p Lx Lp. destruct (K x p Lx Lp) as (y & q & Ly & Lq & A & B). exists y, q. split; auto. split; auto.
    rewrite !fcall_pipe by discriminate. auto.
Qed.
Theorem C31_pipe_inverse : forall m deg f o x p, good_fop o -> length x = 3%nat -> length p = 3%nat ->
  (do y <- fcall m deg (4 + f) o (FArrs (fin x) (fin p)); fcall m deg (4 + f) (finverse o) y) = Ok false (FArrs (fin x) (fin p)) /\
  (do y <- fcall m deg (4 + f) o (FPosVel (finite (cart_pos x)) (vfinite (mkVel WCart3 p))); fcall m deg (4 + f) (finverse o) y)
    = Ok false (FPosVel (finite (cart_pos x)) (vfinite (mkVel WCart3 p))).
Proof.
  intros m deg f o x p G Lx Lp. destruct (good_undoes m deg f o G x p Lx Lp) as (y & q & _ & _ & (A & B) & (C & D)).
  rewrite A, C, !bind_ok. auto.
Qed.
Print Assumptions C31_pipe_inverse.
Theorem C31_pipe_order : forall ops, finverse (FPipe ops) = FPipe (rev (map finverse ops)).
Proof. exact finverse_pipe. Qed.
Print Assumptions C31_pipe_order.

(** ** C32 *)
(** The documented zero point of the roll, 58.5986320306 degrees. *)
Theorem C32_roll_zero_point : roll0 * (180 / PI) = 585986320306 / 10000000000.
Proof. unfold roll0. pose proof PI_RGT_0. field. lra. Qed.
Print Assumptions C32_roll_zero_point.

(** The Galactic centre goes to the origin, the Sun to [sun_place]. *)
Theorem C32_centre_and_sun : forall m deg f g, good_frame g ->
  fcall m deg (4 + f) (FToGCF (gfinite g)) (FArr (fin (galactic_centre g))) = Ok false (FArr (fin [0; 0; 0])) /\
  fcall m deg (4 + f) (FToGCF (gfinite g)) (FArr (fin [0; 0; 0])) = Ok false (FArr (fin (sun_place g))).
Proof.
  intros m deg f g G. destruct (to_gcf_affine m deg f g G) as (_ & _ & _ & A & _). pose proof (ratio g G) as Rt. destruct G as (K & D & Z & V).
  rewrite !A by reflexivity. set (d := dval (g_dist g)) in *.
  assert (S1 : sin (tilt g) = g_zsun g / d) by (unfold tilt; fold d; apply sin_asin; auto).
  assert (C1 : cos (tilt g) = sqrt (d * d - g_zsun g * g_zsun g) / d).
  { unfold tilt. fold d. rewrite cos_asin by auto. replace (1 - (g_zsun g / d)²) with ((d * d - g_zsun g * g_zsun g) / (d * d)) by (unfold Rsqr; field; lra).
    rewrite sqrt_div_alt by nra. rewrite sqrt_square by lra. reflexivity. }
  pose proof (sc (g_lat g)) as La. pose proof (sc (g_lon g)) as Lo. pose proof (sc (g_roll g - roll0)) as Lr.
  split; do 3 f_equal; unfold aff, whole, turn; rewrite !mm_rot by (try apply mm_square; repeat split; repeat constructor).
  - assert (E : rot (ey (g_lat g)) (rot (ez (- g_lon g)) (galactic_centre g)) = [d; 0; 0]).
    { unfold galactic_centre. fold d. cbv [rot ez ey map vsum vmul combine fold_right]. rewrite cos_neg, sin_neg.
      set (sa := sin (g_lat g)) in *. set (ca := cos (g_lat g)) in *. set (so := sin (g_lon g)) in *. set (co := cos (g_lon g)) in *.
      assert (C2 : co * co = 1 - so * so) by lra. assert (C3 : ca * ca = 1 - sa * sa) by lra.
      f_equal; [|f_equal; [ring|f_equal]].
      - transitivity (d * (ca * ca * (so * so + co * co) + sa * sa)); [ring|]. rewrite C2, C3. ring.
      - transitivity (d * (sa * ca * (1 - (so * so + co * co)))); [ring|]. rewrite C2. ring. }
    rewrite E. unfold shift. fold d. cbv [rot ey ex map vsum vmul combine fold_right vadd]. repeat f_equal; ring.
  - unfold shift, sun_place. fold d. cbv [rot ez ey ex map vsum vmul combine fold_right vadd]. rewrite S1, C1.
    f_equal; [field; lra|f_equal; [ring|f_equal; field; lra]].
Qed.
Print Assumptions C32_centre_and_sun.
(** The distance between the Sun's place and the centre is the configured one. *)
Theorem C32_sun_distance : forall g, good_frame g -> norm_of (sun_place g) = dval (g_dist g) /\ norm_of (galactic_centre g) = dval (g_dist g).
Proof.
  intros g (K & D & Z & V). set (d := dval (g_dist g)) in *. split; unfold norm_of, sun_place, galactic_centre; fold d; cbn [fold_right].
  - assert (0 <= d * d - g_zsun g * g_zsun g). { pose proof (Rabs_pos (g_zsun g)). assert (g_zsun g * g_zsun g = Rabs (g_zsun g) * Rabs (g_zsun g)). { rewrite <- Rabs_mult. symmetry. apply Rabs_right. nra. } nra. }
    pose proof (sqrt_sqrt _ H) as Q. replace (- sqrt (d * d - g_zsun g * g_zsun g) * - sqrt (d * d - g_zsun g * g_zsun g) + (0 * 0 + (g_zsun g * g_zsun g + 0))) with (d * d) by lra. apply sqrt_square; lra.
  - pose proof (sc (g_lat g)) as La. pose proof (sc (g_lon g)) as Lo.
    assert (C2 : cos (g_lon g) * cos (g_lon g) = 1 - sin (g_lon g) * sin (g_lon g)) by lra. assert (C3 : cos (g_lat g) * cos (g_lat g) = 1 - sin (g_lat g) * sin (g_lat g)) by lra.
    transitivity (sqrt (d * d * ((cos (g_lat g) * cos (g_lat g)) * (sin (g_lon g) * sin (g_lon g) + cos (g_lon g) * cos (g_lon g)) + sin (g_lat g) * sin (g_lat g)))); [f_equal; ring|].
    rewrite C2, C3. rewrite <- (sqrt_square d) at 3 by lra. f_equal. ring.
Qed.
Print Assumptions C32_sun_distance.
Lemma aff_diff M b x y : square3 M -> length b = 3%nat -> length x = 3%nat -> length y = 3%nat -> vsub (aff M b x) (aff M b y) = rot M (vsub x y).
Proof.
  intros SM Lb Lx Ly. destruct (square3_shape M SM) as (a & a' & a'' & c & c' & c'' & e & e' & e'' & ->).
  destruct x as [|x0 [|x1 [|x2 [|]]]]; try discriminate Lx. destruct y as [|y0 [|y1 [|y2 [|]]]]; try discriminate Ly. destruct b as [|b0 [|b1 [|b2 [|]]]]; try discriminate Lb.
  cbv [aff rot map vsum vmul combine fold_right vadd vsub]. f_equal; [ring|f_equal; [ring|f_equal; ring]].
Qed.
Lemma vsub_length a b n : length a = n -> length b = n -> length (vsub a b) = n.
Proof. intros A B. unfold vsub. rewrite map_length, combine_length. lia. Qed.
(** Distances between places, and between velocities, are kept, both ways. *)
Theorem C32_isometry : forall m deg f g o x y p r, good_frame g -> o = FToGCF (gfinite g) \/ o = FToICRS (gfinite g) ->
  length x = 3%nat -> length y = 3%nat -> length p = 3%nat -> length r = 3%nat ->
  exists x' y' p' r', fcall m deg (4 + f) o (FArrs (fin x) (fin p)) = Ok false (FArrs (fin x') (fin p')) /\
    fcall m deg (4 + f) o (FArrs (fin y) (fin r)) = Ok false (FArrs (fin y') (fin r')) /\
    fcall m deg (4 + f) o (FArr (fin x)) = Ok false (FArr (fin x')) /\
    norm_of (vsub x' y') = norm_of (vsub x y) /\ norm_of (vsub p' r') = norm_of (vsub p r).
Proof.
  intros m deg f g o x y p r G H Lx Ly Lp Lr.
  assert (X : exists M b vs, orthogonal M /\ affine m deg f o M b vs).
  { destruct H as [-> | ->]; eexists; eexists; eexists; (split; [|apply to_gcf_affine || apply to_icrs_affine; auto]); [|apply ortho_tr]; apply whole_ortho. }
  destruct X as (M & b & vs & O & S & Lb & Lv & A & B & _).
  exists (aff M b x), (aff M b y), (aff M vs p), (aff M vs r). rewrite !B, A by auto. repeat split; rewrite aff_diff, rot_norm; auto; now apply vsub_length.
Qed.
Print Assumptions C32_isometry.
(** Handedness is kept: no reflection. *)
Lemma det_ex t a b c : length a = 3%nat -> length b = 3%nat -> length c = 3%nat -> det3 (rot (ex t) a) (rot (ex t) b) (rot (ex t) c) = det3 a b c.
Proof.
  intros La Lb Lc. destruct a as [|a0 [|a1 [|a2 [|]]]]; try discriminate La. destruct b as [|b0 [|b1 [|b2 [|]]]]; try discriminate Lb. destruct c as [|c0 [|c1 [|c2 [|]]]]; try discriminate Lc.
  cbv [ex rot map vsum vmul combine fold_right det3]. transitivity ((sin t * sin t + cos t * cos t) * det3 [a0; a1; a2] [b0; b1; b2] [c0; c1; c2]); [cbv [det3]; ring|rewrite sc; cbv [det3]; ring].
Qed.
Lemma det_ey t a b c : length a = 3%nat -> length b = 3%nat -> length c = 3%nat -> det3 (rot (ey t) a) (rot (ey t) b) (rot (ey t) c) = det3 a b c.
Proof.
  intros La Lb Lc. destruct a as [|a0 [|a1 [|a2 [|]]]]; try discriminate La. destruct b as [|b0 [|b1 [|b2 [|]]]]; try discriminate Lb. destruct c as [|c0 [|c1 [|c2 [|]]]]; try discriminate Lc.
  cbv [ey rot map vsum vmul combine fold_right det3]. transitivity ((sin t * sin t + cos t * cos t) * det3 [a0; a1; a2] [b0; b1; b2] [c0; c1; c2]); [cbv [det3]; ring|rewrite sc; cbv [det3]; ring].
Qed.
Lemma det_ez t a b c : length a = 3%nat -> length b = 3%nat -> length c = 3%nat -> det3 (rot (ez t) a) (rot (ez t) b) (rot (ez t) c) = det3 a b c.
Proof.
  intros La Lb Lc. destruct a as [|a0 [|a1 [|a2 [|]]]]; try discriminate La. destruct b as [|b0 [|b1 [|b2 [|]]]]; try discriminate Lb. destruct c as [|c0 [|c1 [|c2 [|]]]]; try discriminate Lc.
  cbv [ez rot map vsum vmul combine fold_right det3]. transitivity ((sin t * sin t + cos t * cos t) * det3 [a0; a1; a2] [b0; b1; b2] [c0; c1; c2]); [cbv [det3]; ring|rewrite sc; cbv [det3]; ring].
Qed.
Lemma whole_rot g x : length x = 3%nat -> rot (whole g) x = rot (ey (tilt g)) (rot (ex (g_roll g - roll0)) (rot (ey (g_lat g)) (rot (ez (- g_lon g)) x))).
Proof. intros L. unfold whole, turn. rewrite !mm_rot; auto; try apply mm_square; repeat split; repeat constructor. Qed.
Theorem C32_orientation : forall m deg f g s a b c, good_frame g -> length s = 3%nat -> length a = 3%nat -> length b = 3%nat -> length c = 3%nat ->
  exists s' a' b' c', fcall m deg (4 + f) (FToGCF (gfinite g)) (FArr (fin s)) = Ok false (FArr (fin s')) /\
    fcall m deg (4 + f) (FToGCF (gfinite g)) (FArr (fin a)) = Ok false (FArr (fin a')) /\
    fcall m deg (4 + f) (FToGCF (gfinite g)) (FArr (fin b)) = Ok false (FArr (fin b')) /\
    fcall m deg (4 + f) (FToGCF (gfinite g)) (FArr (fin c)) = Ok false (FArr (fin c')) /\
    det3 (vsub a' s') (vsub b' s') (vsub c' s') = det3 (vsub a s) (vsub b s) (vsub c s).
Proof.
  intros m deg f g s a b c G Ls La Lb Lc. destruct (to_gcf_affine m deg f g G) as (S & L & _ & A & _).
  exists (aff (whole g) (shift g) s), (aff (whole g) (shift g) a), (aff (whole g) (shift g) b), (aff (whole g) (shift g) c). rewrite !A by auto. repeat split.
  rewrite !aff_diff, !whole_rot by (auto; now apply vsub_length). rewrite det_ey, det_ex, det_ey, det_ez; auto; now apply vsub_length.
Qed.
Print Assumptions C32_orientation.
(** The roll: the direction of the ICRS north pole has these components across the
    Sun-centre line (the y axis, and the upward normal to that line in the x-z
    plane). *)
Theorem C32_roll : forall m deg f g, good_frame g -> let d := dval (g_dist g) in
  exists s n, fcall m deg (4 + f) (FToGCF (gfinite g)) (FArr (fin [0; 0; 0])) = Ok false (FArr (fin s)) /\
    fcall m deg (4 + f) (FToGCF (gfinite g)) (FArr (fin [0; 0; 1])) = Ok false (FArr (fin n)) /\
    vsum (vmul (vsub n s) [0; 1; 0]) = - sin (g_roll g - roll0) * cos (g_lat g) /\
    vsum (vmul (vsub n s) [g_zsun g / d; 0; sqrt (d * d - g_zsun g * g_zsun g) / d]) = cos (g_roll g - roll0) * cos (g_lat g).
Proof.
  intros m deg f g G d. destruct (to_gcf_affine m deg f g G) as (S & L & _ & A & _). pose proof (ratio g G) as Rt. destruct G as (K & D & Z & V). fold d in D, Z, Rt.
  assert (S1 : g_zsun g / d = sin (tilt g)) by (unfold tilt; fold d; symmetry; apply sin_asin; auto).
  assert (C1 : sqrt (d * d - g_zsun g * g_zsun g) / d = cos (tilt g)).
  { unfold tilt. fold d. rewrite cos_asin by auto. replace (1 - (g_zsun g / d)²) with ((d * d - g_zsun g * g_zsun g) / (d * d)) by (unfold Rsqr; field; lra).
    rewrite sqrt_div_alt by nra. rewrite sqrt_square by lra. reflexivity. }
  exists (aff (whole g) (shift g) [0; 0; 0]), (aff (whole g) (shift g) [0; 0; 1]). rewrite !A by auto. split; auto. split; auto.
  rewrite aff_diff by auto. rewrite whole_rot by auto. rewrite S1, C1. pose proof (sc (tilt g)) as T.
  cbv [ey ex ez rot map vsum vmul vsub combine fold_right]. split; [ring|].
  set (st := sin (tilt g)) in *. set (ct := cos (tilt g)) in *. set (sa := sin (g_lat g)). set (ca := cos (g_lat g)). set (sr := sin (g_roll g - roll0)). set (cr := cos (g_roll g - roll0)).
  transitivity (cr * ca * (st * st + ct * ct)); [ring|]. rewrite T. ring.
Qed.
Print Assumptions C32_roll.
(** Velocities: the velocity of the moving image, plus [galcen_v_sun]. *)
Theorem C32_velocity : forall m deg f g (path : R -> list R) t p, good_frame g ->
  (forall s, length (path s) = 3%nat) -> length p = 3%nat -> moves path t p ->
  exists (image : R -> list R) v, (forall s, fcall m deg (4 + f) (FToGCF (gfinite g)) (FArr (fin (path s))) = Ok false (FArr (fin (image s)))) /\
    moves image t v /\ length v = 3%nat /\
    fcall m deg (4 + f) (FToGCF (gfinite g)) (FArrs (fin (path t)) (fin p)) = Ok false (FArrs (fin (image t)) (fin (vadd v (g_vsun g)))).
Proof.
  intros m deg f g path t p G Lx Lp Mv. destruct (to_gcf_affine m deg f g G) as (S & L & LV & A & B & _).
  exists (fun s => aff (whole g) (shift g) (path s)), (rot (whole g) p).
  split; [intros; now apply A|]. split; [|split; [rewrite rot_length; apply S|now rewrite B]].
  pose proof (Mv 0%nat ltac:(lia)) as D0. pose proof (Mv 1%nat ltac:(lia)) as D1. pose proof (Mv 2%nat ltac:(lia)) as D2.
  assert (E : forall s, path s = [nth 0 (path s) 0; nth 1 (path s) 0; nth 2 (path s) 0]).
  { intros s. specialize (Lx s). destruct (path s) as [|y0 [|y1 [|y2 [|]]]]; try discriminate Lx. reflexivity. }
  destruct (square3_shape _ S) as (a & a' & a'' & c & c' & c'' & e & e' & e'' & EM). rewrite EM. remember (shift g) as b eqn:Eb. clear Eb.
  destruct b as [|b0 [|b1 [|b2 [|]]]]; try discriminate L. destruct p as [|p0 [|p1 [|p2 [|]]]]; try discriminate Lp. cbn [nth] in D0, D1, D2.
  assert (K : forall k0 k1 k2 l, derivable_pt_lim (fun s => k0 * nth 0 (path s) 0 + (k1 * nth 1 (path s) 0 + (k2 * nth 2 (path s) 0 + 0)) + l) t (k0 * p0 + (k1 * p1 + (k2 * p2 + 0)))).
  { intros. replace (k0 * p0 + (k1 * p1 + (k2 * p2 + 0))) with (k0 * p0 + (k1 * p1 + (k2 * p2 + 0)) + 0) by ring.
    apply (derivable_pt_lim_plus (fun s => k0 * nth 0 (path s) 0 + (k1 * nth 1 (path s) 0 + (k2 * nth 2 (path s) 0 + 0))) (fun _ => l)); [|apply derivable_pt_lim_const].
    apply (derivable_pt_lim_plus (fun s => k0 * nth 0 (path s) 0)); [now apply (derivable_pt_lim_scal (fun s => nth 0 (path s) 0))|].
    apply (derivable_pt_lim_plus (fun s => k1 * nth 1 (path s) 0)); [now apply (derivable_pt_lim_scal (fun s => nth 1 (path s) 0))|].
    apply (derivable_pt_lim_plus (fun s => k2 * nth 2 (path s) 0) (fun _ => 0)); [now apply (derivable_pt_lim_scal (fun s => nth 2 (path s) 0))|apply derivable_pt_lim_const]. }
  intros i Hi. cbv beta.
  assert (X : forall F G l, (forall s, F s = G s) -> derivable_pt_lim G t l -> derivable_pt_lim F t l).
  { intros F0 G0 l EQ H eps He. destruct (H eps He) as (dl & HD). exists dl. intros h Hh Hd. rewrite !EQ. auto. }
  destruct i as [|[|[|]]]; try lia; (eapply X; [intros s; rewrite (E s); reflexivity|]); cbv [aff rot map vsum vmul combine fold_right vadd nth]; apply K.
Qed.
Print Assumptions C32_velocity.
(** A body at rest with respect to the Sun moves with [galcen_v_sun]. *)
Theorem C32_solar_velocity : forall m deg f g x, good_frame g -> length x = 3%nat ->
  exists x', fcall m deg (4 + f) (FToGCF (gfinite g)) (FArrs (fin x) (fin [0; 0; 0])) = Ok false (FArrs (fin x') (fin (g_vsun g))).
Proof.
  intros m deg f g x G L. destruct (to_gcf_affine m deg f g G) as (S & _ & LV & _ & B & _). rewrite B by auto. eexists. do 3 f_equal.
  unfold aff. destruct (square3_shape _ S) as (a & a' & a'' & c & c' & c'' & e & e' & e'' & ->).
  destruct (g_vsun g) as [|v0 [|v1 [|v2 [|]]]]; try discriminate LV. cbv [rot map vsum vmul combine fold_right vadd]. repeat f_equal; ring.
Qed.
Print Assumptions C32_solar_velocity.
(** Outside the domain (Sun higher than its distance, or no distance) x and z are
    not finite. *)
Theorem C32_domain : forall m deg f g x, dk (g_dist g) = KDistance -> 0 <= dval (g_dist g) ->
  dval (g_dist g) = 0 \/ dval (g_dist g) < Rabs (g_zsun g) -> length x = 3%nat ->
  exists y, fcall m deg (4 + f) (FToGCF (gfinite g)) (FArr (fin x)) = Ok false (FArr [None; y; None]).
Proof.
  intros m deg f g x K D Z L. destruct x as [|x0 [|x1 [|x2 [|]]]]; try discriminate L.
  assert (E : easin (ndiv (Some (g_zsun g) : ext) (Some (dval (g_dist g)))) = None).
  { set (d := dval (g_dist g)) in *. cbn. destruct (Reqb d 0) eqn:E0; [reflexivity|]. apply Reqb_false in E0. destruct Z as [Z|Z]; [contradiction|].
    unfold easin. destruct (Rleb (-1) (g_zsun g / d) && Rleb (g_zsun g / d) 1) eqn:Q; auto. exfalso. apply andb_prop in Q. destruct Q as [Q1 Q2]. apply Rleb_true in Q1, Q2.
    assert (E : g_zsun g / d * d = g_zsun g) by (field; lra). assert (Rabs (g_zsun g) <= d); [|lra]. rewrite <- E. apply Rabs_le. split; nra. }
  cbn [fcall]. unfold frame_call. cbn [map]. unfold to_gcf_parts, gfinite. cbn [g_dist g_lat g_lon g_roll g_zsun g_vsun dk dist_map dval]. rewrite K, E.
  change (euler_x (nsub (Some (g_roll g) : ext) (ncst roll0))) with (@map (list R) (list ext) fin (ex (g_roll g - roll0))).
  change (euler_y (Some (g_lat g) : ext)) with (@map (list R) (list ext) fin (ey (g_lat g))).
  change (euler_z (nneg (Some (g_lon g) : ext))) with (@map (list R) (list ext) fin (ez (- g_lon g))).
  rewrite !mm_fin. fold (turn g). destruct (square3_shape _ (proj1 (turn_ortho g))) as (a & a' & a'' & c & c' & c'' & e & e' & e'' & ->).
  cbn [map euler_y ncos nsin nneg lift1 Num_ext matmul_vec dot combine fold_right nmul nadd lift2 cart_from]. unfold ret. rewrite !bind_ok.
  unfold apply_q.
  set (A := matmul _ _). assert (EA : exists b0 b1 b2, A = [[None; None; None]; [b0; b1; b2]; [None; None; None]]).
  { unfold A. cbn. eexists. eexists. eexists. reflexivity. }
  destruct EA as (b0 & b1 & b2 & ->). cbn [call call_single]. unfold ret. rewrite bind_ok.
  cbn [matmul_vec map dot combine fold_right nmul lift2 nadd]. cbn [call call_single]. unfold on_array. cbn [length cart_from]. unfold ret. rewrite bind_ok. cbn [call_vec].
  unfold pos_add, cart_add, Arith.rep. change (4 + f)%nat with (S (3 + f)). step. unfold ret. rewrite !bind_ok.
  unfold cart_components, Arith.rep. cbn [cls_of cart_cls dim_of]. step. unfold ret. rewrite !bind_ok. eexists. reflexivity.
Qed.
Print Assumptions C32_domain.
(** A distance given as a parallax or modulus is rejected. *)
Theorem C32_needs_length : forall m deg f g x y z, dk (g_dist g) <> KDistance -> fcall m deg f (FToGCF g) (FArr [x; y; z]) = Raise EUnit.
Proof. intros m deg f g x y z H. cbn [fcall frame_call]. unfold to_gcf_parts. destruct (dk (g_dist g)); [contradiction| |]; reflexivity. Qed.
Print Assumptions C32_needs_length.

(** ** C33 *)
(** The whole table. *)
Theorem C33_lookup : forall eqf g h,
  frame_transform_op eqf ICRS ICRS = Ok false FIdentity /\
  frame_transform_op eqf ICRS (GCF g) = Ok false (FToGCF g) /\ frame_transform_op eqf (GCF g) ICRS = Ok false (FToICRS g) /\
  (eqf g h = true -> frame_transform_op eqf (GCF g) (GCF h) = Ok false (FPipe [FIdentity])) /\
  (eqf g h = false -> frame_transform_op eqf (GCF g) (GCF h) = Ok false (FPipe [FToICRS g; FToGCF h])).
Proof. intros eqf g h. repeat split; intros H; cbn; now rewrite H. Qed.
Print Assumptions C33_lookup.
(** It raises exactly when NoFrame is involved. *)
Theorem C33_no_frame : forall eqf a b, (a = NoFrame \/ b = NoFrame <-> frame_transform_op eqf a b = Raise EFrame) /\
  (a <> NoFrame -> b <> NoFrame -> exists o, frame_transform_op eqf a b = Ok false o).
Proof.
  intros eqf a b. destruct a as [| |g], b as [| |h]; cbn.
  all: try (split; [split; intros H; auto; try discriminate H; destruct H; discriminate|intros; try contradiction; eexists; reflexivity]).
  destruct (eqf g h); (split; [split; intros H; [destruct H; discriminate|discriminate H]|intros; eexists; reflexivity]).
Qed.
Print Assumptions C33_no_frame.
(** ICRS to ICRS changes nothing. *)
Theorem C33_icrs_identity : forall m deg f eqf x, (do o <- frame_transform_op eqf ICRS ICRS; fcall m deg f o x) = Ok false x.
Proof. reflexivity. Qed.
Print Assumptions C33_icrs_identity.
(** Between two Galactocentric frames: through ICRS, whether or not the frames
    compare equal ([eqf] may say equal only of equal frames). *)
Theorem C33_through_icrs : forall m deg f (eqf : gcf ext -> gcf ext -> bool) g h x p,
  (forall a b, eqf a b = true -> a = b) -> good_frame g -> good_frame h -> length x = 3%nat -> length p = 3%nat ->
  (do o <- frame_transform_op eqf (GCF (gfinite g)) (GCF (gfinite h)); fcall m deg (4 + f) o (FArrs (fin x) (fin p)))
  = (do y <- fcall m deg (4 + f) (FToICRS (gfinite g)) (FArrs (fin x) (fin p)); fcall m deg (4 + f) (FToGCF (gfinite h)) y).
Proof.
  intros m deg f eqf g h x p Sd G H L Lp. cbn [frame_transform_op]. destruct (eqf (gfinite g) (gfinite h)) eqn:E.
  - apply Sd in E. rewrite <- E. rewrite (proj2 (C31_arrays_with_velocity m deg f g x p G L Lp)). reflexivity.
  - cbn [f_or]. unfold ret. rewrite bind_ok. destruct (to_icrs_affine m deg f g G) as (S' & L' & LV' & _ & B & _). destruct (to_gcf_affine m deg f h H) as (_ & _ & _ & _ & A & _).
    change (fcall m deg (4 + f) (FPipe [FToICRS (gfinite g); FToGCF (gfinite h)]) (FArrs (fin x) (fin p)))
      with (do y <- fcall m deg (4 + f) (FToICRS (gfinite g)) (FArrs (fin x) (fin p)); do z <- fcall m deg (4 + f) (FToGCF (gfinite h)) y; ret z).
    rewrite B, !bind_ok, A by (auto; now apply aff_length). reflexivity.
Qed.
Print Assumptions C33_through_icrs.
(** Chaining: g to h, then h to k, is g to k; and g to g is the identity. *)
Theorem C33_chain : forall m deg f (eqf : gcf ext -> gcf ext -> bool) g h k x p,
  (forall a b, eqf a b = true -> a = b) -> good_frame g -> good_frame h -> good_frame k -> length x = 3%nat -> length p = 3%nat ->
  (do o <- frame_transform_op eqf (GCF (gfinite g)) (GCF (gfinite h)); do y <- fcall m deg (4 + f) o (FArrs (fin x) (fin p));
   do o' <- frame_transform_op eqf (GCF (gfinite h)) (GCF (gfinite k)); fcall m deg (4 + f) o' y)
  = (do o <- frame_transform_op eqf (GCF (gfinite g)) (GCF (gfinite k)); fcall m deg (4 + f) o (FArrs (fin x) (fin p))) /\
  (do o <- frame_transform_op eqf (GCF (gfinite g)) (GCF (gfinite g)); fcall m deg (4 + f) o (FArrs (fin x) (fin p))) = Ok false (FArrs (fin x) (fin p)).
Proof.
  intros m deg f eqf g h k x p Sd G H K L Lp. split.
  - rewrite <- bind_assoc. rewrite !C33_through_icrs by auto.
    destruct (to_icrs_affine m deg f g G) as (S1 & L1 & LV1 & _ & B & _). destruct (to_gcf_affine m deg f h H) as (S2 & L2 & LV2 & _ & A & _).
    rewrite !B, !bind_ok, A by (auto; now apply aff_length). rewrite bind_ok. rewrite C33_through_icrs by (auto; now apply aff_length).
    destruct (C31_arrays_with_velocity m deg f h (aff (tr (whole g)) (back g) x) (aff (tr (whole g)) (back_v g) p) H) as [E _]; try now apply aff_length.
    rewrite A in E by (now apply aff_length). rewrite bind_ok in E. rewrite E, bind_ok. reflexivity.
  - rewrite C33_through_icrs by auto. now apply C31_arrays_with_velocity.
Qed.
Print Assumptions C33_chain.
(** Vectors: the same, as Cartesian vectors (equal frames return the argument itself). *)
Theorem C33_vectors : forall m deg f (eqf : gcf ext -> gcf ext -> bool) g h q v a w p,
  (forall a b, eqf a b = true -> a = b) -> good_frame g -> good_frame h -> good_pos 3 q -> denotes q a -> length p = 3%nat ->
  vel_represent_as m deg (4 + f) nokw v WCart3 (finite q) = Ok w (vfinite (mkVel WCart3 p)) ->
  exists a' p', length a' = 3%nat /\ length p' = 3%nat /\
    (do o <- frame_transform_op eqf (GCF (gfinite g)) (GCF (gfinite h)); fcall m deg (4 + f) o (FArrs (fin a) (fin p))) = Ok false (FArrs (fin a') (fin p')) /\
    ((eqf (gfinite g) (gfinite h) = true /\ a' = a /\ p' = p /\
        (do o <- frame_transform_op eqf (GCF (gfinite g)) (GCF (gfinite h)); fcall m deg (4 + f) o (FPosVel (finite q) v)) = Ok false (FPosVel (finite q) v)) \/
     (eqf (gfinite g) (gfinite h) = false /\
        (do o <- frame_transform_op eqf (GCF (gfinite g)) (GCF (gfinite h)); fcall m deg (4 + f) o (FPosVel (finite q) v))
        = Ok w (FPosVel (finite (cart_pos a')) (vfinite (mkVel WCart3 p'))))).
Proof.
  intros m deg f eqf g h q v a w p Sd G H Gq D Lp E.
  assert (La : length a = 3%nat). { destruct Gq as (V & N & T & Dm). pose proof (denotes_length q a D T) as La. now rewrite Dm in La. }
  cbn [frame_transform_op]. destruct (eqf (gfinite g) (gfinite h)) eqn:Q.
  - exists a, p. split; [exact La|]. split; [exact Lp|]. split; [reflexivity|]. left. repeat split.
  - destruct (to_icrs_affine m deg f g G) as (S1 & L1 & LV1 & _ & B & B'). destruct (to_gcf_affine m deg f h H) as (S2 & L2 & LV2 & _ & A & A').
    exists (aff (whole h) (shift h) (aff (tr (whole g)) (back g) a)), (aff (whole h) (g_vsun h) (aff (tr (whole g)) (back_v g) p)).
    split; [now apply aff_length|]. split; [now apply aff_length|]. cbn [f_or]. unfold ret. rewrite !bind_ok. split.
    + change (fcall m deg (4 + f) (FPipe [FToICRS (gfinite g); FToGCF (gfinite h)]) (FArrs (fin a) (fin p)))
        with (do y <- fcall m deg (4 + f) (FToICRS (gfinite g)) (FArrs (fin a) (fin p)); do z <- fcall m deg (4 + f) (FToGCF (gfinite h)) y; ret z).
      rewrite B, !bind_ok, A by (auto; now apply aff_length). reflexivity.
    + right. split; auto.
      change (fcall m deg (4 + f) (FPipe [FToICRS (gfinite g); FToGCF (gfinite h)]) (FPosVel (finite q) v))
        with (do y <- fcall m deg (4 + f) (FToICRS (gfinite g)) (FPosVel (finite q) v); do z <- fcall m deg (4 + f) (FToGCF (gfinite h)) y; ret z).
      rewrite (B' q v a w p) by auto. destruct (cart3_good (aff (tr (whole g)) (back g) a)) as (Gc & Dc & _); [now apply aff_length|]. cbn [bind].
      rewrite (A' _ _ _ _ (aff (tr (whole g)) (back_v g) p) Gc Dc (aff_length _ _ _ S1 LV1) (self_vel m deg (4 + f) _ _)). cbn [bind ret]. now rewrite !orb_false_r.
Qed.
Print Assumptions C33_vectors.
(** Findings: a single position vector is accepted by neither operator, so two
    different Galactocentric frames cannot even transform a single array. *)
Theorem C33_single_position_refuted : forall m deg f g h q x y z,
  fcall m deg f (FToGCF g) (FPos q) = Raise ENotFound /\ fcall m deg f (FToICRS g) (FPos q) = Raise ENotFound /\
  fcall m deg f (FPipe [FToICRS g; FToGCF h]) (FArr [x; y; z]) = Raise ENotFound.
Proof. intros. repeat split. Qed.
Print Assumptions C33_single_position_refuted.
Example C32_case : moves (fun t => [t; 5; 0]) 0 [1; 0; 0].
Proof.
  intros i Hi. destruct i as [|[|[|]]]; try lia; cbn; [apply derivable_pt_lim_id|apply derivable_pt_lim_const|apply derivable_pt_lim_const].
Qed.
Example C33_case : let h := mkGCF 1 1 (mkDist KDistance 2) 3 1 [4; 5; 6] in let eqf := fun _ _ : gcf ext => false in
  good_frame h /\ default_gcf <> h /\ (forall a b, eqf a b = true -> a = b).
Proof.
  cbv zeta. repeat split; cbn; try lra; try discriminate; [rewrite Rabs_right; lra|]. intros H. injection H as _ _ H _ _. pose proof PC_pos. lra.
Qed.
