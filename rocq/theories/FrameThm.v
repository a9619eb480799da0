(** * The ICRS <-> Galactocentric operators compute affine isometries *)
From Coq Require Import Reals Bool List Lra Lia.
From Verif Require Import Num Vectors Spec Transform Pos3D Pos3DThm Dispatch RoundTrip Arith ArithThm ArithThm2 Vel SpecVel DualPos DualThm FourVec Operators SpecOp OpThm OpInv OpVel OpMisc OpSimp Frames SpecFrame.
Import ListNotations.
Open Scope R_scope.

Definition ex (a : R) : mat R := [[1; 0; 0]; [0; cos a; - sin a]; [0; sin a; cos a]].
Definition ey (a : R) : mat R := [[cos a; 0; sin a]; [0; 1; 0]; [- sin a; 0; cos a]].
Definition ez (a : R) : mat R := [[cos a; - sin a; 0]; [sin a; cos a; 0]; [0; 0; 1]].
Lemma sc a : sin a * sin a + cos a * cos a = 1. Proof. pose proof (sin2_cos2 a) as H. unfold Rsqr in H. exact H. Qed.
Ltac ortho := split; [split; [reflexivity|repeat constructor]|];
  intros i j Hi Hj; destruct i as [|[|[|]]]; try lia; destruct j as [|[|[|]]]; try lia;
  cbv [nth vsum vmul combine map fold_right Nat.eqb].
Lemma ex_ortho a : orthogonal (ex a). Proof. unfold ex. pose proof (sc a). ortho; lra. Qed.
Lemma ey_ortho a : orthogonal (ey a). Proof. unfold ey. pose proof (sc a). ortho; lra. Qed.
Lemma ez_ortho a : orthogonal (ez a). Proof. unfold ez. pose proof (sc a). ortho; lra. Qed.

(** ** The parts, in real numbers *)
Definition tilt (g : gcf R) : R := asin (g_zsun g / dval (g_dist g)).
Definition turn (g : gcf R) : mat R := mm (mm (ex (g_roll g - roll0)) (ey (g_lat g))) (ez (- g_lon g)).
Definition whole (g : gcf R) : mat R := mm (ey (tilt g)) (turn g).
Definition shift (g : gcf R) : list R := rot (map (map Ropp) (ey (tilt g))) [dval (g_dist g) * 1; dval (g_dist g) * 0; dval (g_dist g) * 0].
Lemma turn_ortho g : orthogonal (turn g). Proof. apply mm_orthogonal; [apply mm_orthogonal; [apply ex_ortho|apply ey_ortho]|apply ez_ortho]. Qed.
Lemma whole_ortho g : orthogonal (whole g). Proof. apply mm_orthogonal; [apply ey_ortho|apply turn_ortho]. Qed.
Lemma shift_length g : length (shift g) = 3%nat. Proof. reflexivity. Qed.

Lemma ratio g : good_frame g -> -1 <= g_zsun g / dval (g_dist g) <= 1.
Proof.
  intros (_ & D & Z & _). pose proof (Rle_abs (g_zsun g)) as A. pose proof (Rle_abs (- g_zsun g)) as B. rewrite Rabs_Ropp in B.
  assert (E : g_zsun g / dval (g_dist g) * dval (g_dist g) = g_zsun g) by (field; lra).
  split; apply Rmult_le_reg_r with (dval (g_dist g)); auto; rewrite E; lra.
Qed.
Lemma easin_ok x : -1 <= x <= 1 -> easin (Some x) = Some (asin x).
Proof.
  intros [A B]. unfold easin. replace (Rleb (-1) x) with true by (symmetry; now apply Rleb_true). now replace (Rleb x 1) with true by (symmetry; now apply Rleb_true).
Qed.
Lemma ediv_ok x y : y <> 0 -> ndiv (Some x : ext) (Some y) = Some (x / y).
Proof. intros H. cbn. destruct (Reqb y 0) eqn:E; auto. apply Reqb_true in E. contradiction. Qed.

Lemma to_gcf_parts_ok g : good_frame g ->
  to_gcf_parts (gfinite g) = Ok false (mfin (whole g), finite (cart_pos (shift g)), efin (g_vsun g)).
Proof.
  intros G. pose proof (ratio g G) as Rt. destruct G as (K & D & Z & V).
  unfold to_gcf_parts, gfinite. cbn [g_dist g_lat g_lon g_roll g_zsun g_vsun dk dist_map dval]. rewrite K.
  rewrite (ediv_ok (g_zsun g)) by lra. rewrite easin_ok by auto. fold (tilt g).
  change (euler_x (nsub (Some (g_roll g) : ext) (ncst roll0))) with (mfin (ex (g_roll g - roll0))).
  change (euler_y (Some (g_lat g) : ext)) with (mfin (ey (g_lat g))).
  change (euler_z (nneg (Some (g_lon g) : ext))) with (mfin (ez (- g_lon g))).
  change (euler_y (Some (tilt g) : ext)) with (mfin (ey (tilt g))).
  rewrite !mm_fin. fold (turn g). fold (whole g).
  reflexivity.
Qed.

Section Call.
Variables (m : mode) (deg : bool) (f : nat).
Notation F := (4 + f)%nat.

Lemma cart3_good x : length x = 3%nat -> good_pos 3 (cart_pos x) /\ denotes (cart_pos x) x /\ cls_of (cart_pos x) = CCart3.
Proof. intros L. destruct x as [|x0 [|x1 [|x2 [|]]]]; try discriminate L. repeat split; cbn; auto; discriminate. Qed.
Lemma cart3_hold x : length x = 3%nat -> can_hold CCart3 x. Proof. intros L. split; auto. Qed.
Lemma cart3_eq p x : cls_of p = CCart3 -> denotes p x -> p = cart_pos x.
Proof. destruct p; intros C D; try discriminate C. cbn in D. subst x. reflexivity. Qed.

Lemma to_icrs_parts_ok g : good_frame g ->
  to_icrs_parts m deg F (gfinite g) = Ok false (mfin (tr (whole g)), finite (cart_pos (rot (tr (whole g)) (vscale (-1) (shift g)))), efin (rot (tr (whole g)) (vscale (-1) (g_vsun g)))).
Proof.
  intros G. unfold to_icrs_parts. rewrite to_gcf_parts_ok by auto. rewrite bind_ok. cbv zeta beta iota.
  destruct (cart3_good (shift g) eq_refl) as ((V & N & T & D) & Dn & C).
  destruct (neg_ok m deg f (cart_pos (shift g)) (shift g) V N Dn) as (s & E & Cs & Vs & Ds & Ls). { rewrite C. now apply cart3_hold. }
  rewrite E, bind_ok. rewrite tr_fin. rewrite C in Cs.
  destruct (rotate_ok m deg f (tr (whole g)) s (vscale (-1) (shift g))) as (s' & E' & Cs' & Gs' & Ds'); auto.
  { apply tr_square, whole_ortho. } { apply good_result; auto; rewrite Cs; auto; discriminate. } { rewrite Cs. apply cart3_hold. reflexivity. }
  rewrite E', bind_ok. unfold ret. rewrite (cart3_eq s' _ (eq_trans Cs' Cs) Ds').
  replace (@map ext ext nneg (efin (g_vsun g))) with (efin (vscale (-1) (g_vsun g))).
  - rewrite matmul_vec_some. reflexivity.
  - unfold vscale. rewrite !map_map. apply map_ext. intros x. cbn. f_equal. ring.
Qed.

(** ** Applying the parts *)
Lemma apply_q_ok M b vs x : square3 M -> length b = 3%nat -> length x = 3%nat ->
  apply_q m deg F (mfin M, finite (cart_pos b), vs) (efin x) = Ok false (efin (vadd (rot M x) b)).
Proof.
  intros SM Lb Lx. unfold apply_q. cbv beta iota.
  assert (E1 : call m deg F (ORotation (mfin M)) (VArr (efin x)) = Ok false (VArr (efin (rot M x)))).
  { destruct x as [|x0 [|x1 [|x2 [|]]]]; try discriminate Lx. rewrite <- matmul_vec_some. reflexivity. }
  rewrite E1, bind_ok.
  assert (Lr : length (rot M x) = 3%nat) by (rewrite rot_length; apply SM).
  destruct (cart3_good _ Lr) as (Gr & Dr & Cr). destruct (cart3_good _ Lb) as (Gb & Db & Cb).
  destruct (translate_ok m deg f 3 (cart_pos (rot M x)) (cart_pos b) (rot M x) b Gr Gb Dr Db) as (s & E & Cs & Gs & Ds). { rewrite Cr. apply cart3_hold. unfold vadd. rewrite map_length, combine_length. lia. }
  assert (E2 : call m deg F (OSpatial (finite (cart_pos b))) (VArr (efin (rot M x))) = Ok false (VArr (efin (vadd (rot M x) b)))).
  { destruct Gs as (V & N & T & D). pose proof (cart_components_ok m deg f s _ V N T Ds) as CC.
    destruct (rot M x) as [|y0 [|y1 [|y2 [|]]]]; try discriminate Lr.
    cbn [call call_single]. unfold on_array. cbn [map length cart_from]. unfold ret. rewrite bind_ok. cbn [call_vec].
    change (PCart3 (Some y0) (Some y1) (Some y2)) with (finite (cart_pos [y0; y1; y2])). rewrite E, bind_ok. unfold ret. rewrite bind_ok. rewrite CC, bind_ok. reflexivity. }
  rewrite E2, bind_ok. reflexivity.
Qed.
(** ** The Jacobian *)
Lemma frame_column_ok M b vs x i : square3 M -> length b = 3%nat -> length x = 3%nat -> (i < 3)%nat ->
  frame_column m deg F (mfin M, finite (cart_pos b), vs) (efin x) i = Ok false (efin (map (fun r => nth i r 0) M)).
Proof.
  intros SM Lb Lx Hi. destruct (square3_shape M SM) as (a & a' & a'' & c & c' & c'' & e & e' & e'' & ->).
  destruct x as [|x0 [|x1 [|x2 [|]]]]; try discriminate Lx. destruct b as [|b0 [|b1 [|b2 [|]]]]; try discriminate Lb.
  unfold frame_column. cbn [map seq nth cart_pos finite pos_map].
  change (4 + f)%nat with (S (3 + f)). step. unfold ret. rewrite bind_ok. unfold pos_add, cart_add, rep. cbn [pos_map]. dstep. unfold ret. cbn [bind orb components map].
  destruct i as [|[|[|]]]; try lia; cbn; repeat f_equal; ring.
Qed.
Lemma matvec_cols M p : square3 M -> length p = 3%nat ->
  matvec 3 [efin (map (fun r => nth 0 r 0) M); efin (map (fun r => nth 1 r 0) M); efin (map (fun r => nth 2 r 0) M)] (efin p) = efin (rot M p).
Proof.
  intros SM L. destruct (square3_shape M SM) as (a & a' & a'' & c & c' & c'' & e & e' & e'' & ->).
  destruct p as [|x0 [|x1 [|x2 [|]]]]; try discriminate L. cbn. repeat f_equal; ring.
Qed.
Lemma apply_qp_ok M b vs x p : square3 M -> length b = 3%nat -> length vs = 3%nat -> length x = 3%nat -> length p = 3%nat ->
  apply_qp m deg F (mfin M, finite (cart_pos b), efin vs) (efin x) (efin p) = Ok false (efin (vadd (rot M x) b), efin (vadd (rot M p) vs)).
Proof.
  intros SM Lb Lv Lx Lp. unfold apply_qp. rewrite apply_q_ok, bind_ok by auto.
  cbn [seq mapM]. rewrite !frame_column_ok by (auto; lia). rewrite !bind_ok. unfold ret. rewrite !bind_ok. cbn [snd].
  rewrite matvec_cols by auto. rewrite vplus_some. reflexivity.
Qed.

(** ** The operators as affine maps *)
Definition aff (M : mat R) (b x : list R) : list R := vadd (rot M x) b.
Lemma vadd_length a b n : length a = n -> length b = n -> length (vadd a b) = n.
Proof. intros A B. unfold vadd. rewrite map_length, combine_length. lia. Qed.
Lemma aff_length M b x : square3 M -> length b = 3%nat -> length (aff M b x) = 3%nat.
Proof. intros SM L. apply vadd_length; auto. rewrite rot_length. apply SM. Qed.

Definition affine (o : fop ext) (M : mat R) (b vs : list R) : Prop :=
  square3 M /\ length b = 3%nat /\ length vs = 3%nat /\
  (forall x, length x = 3%nat -> fcall m deg F o (FArr (efin x)) = Ok false (FArr (efin (aff M b x)))) /\
  (forall x p, length x = 3%nat -> length p = 3%nat ->
     fcall m deg F o (FArrs (efin x) (efin p)) = Ok false (FArrs (efin (aff M b x)) (efin (aff M vs p)))) /\
  (forall q v a w p, good_pos 3 q -> denotes q a -> length p = 3%nat ->
     vel_represent_as m deg F nokw v WCart3 (finite q) = Ok w (vfinite (mkVel WCart3 p)) ->
     fcall m deg F o (FPosVel (finite q) v) = Ok w (FPosVel (finite (cart_pos (aff M b a))) (vfinite (mkVel WCart3 (aff M vs p))))).
Lemma cart_from_ok x : length x = 3%nat -> cart_from (efin x) = Ok false (finite (cart_pos x)).
Proof. intros L. destruct x as [|x0 [|x1 [|x2 [|]]]]; try discriminate L. reflexivity. Qed.
Lemma frame_affine parts M b vs : square3 M -> length b = 3%nat -> length vs = 3%nat -> parts = Ok false (mfin M, finite (cart_pos b), efin vs) ->
  (forall x, length x = 3%nat -> frame_call m deg F parts (FArr (efin x)) = Ok false (FArr (efin (aff M b x)))) /\
  (forall x p, length x = 3%nat -> length p = 3%nat ->
     frame_call m deg F parts (FArrs (efin x) (efin p)) = Ok false (FArrs (efin (aff M b x)) (efin (aff M vs p)))) /\
  (forall q v a w p, good_pos 3 q -> denotes q a -> length p = 3%nat ->
     vel_represent_as m deg F nokw v WCart3 (finite q) = Ok w (vfinite (mkVel WCart3 p)) ->
     frame_call m deg F parts (FPosVel (finite q) v) = Ok w (FPosVel (finite (cart_pos (aff M b a))) (vfinite (mkVel WCart3 (aff M vs p))))).
Proof.
  intros SM Lb Lv ->. split; [|split].
  - intros x L. unfold frame_call. pose proof (apply_q_ok M b (efin vs) x SM Lb L) as E.
    destruct x as [|x0 [|x1 [|x2 [|]]]]; try discriminate L. cbn [map] in *. rewrite bind_ok, E, bind_ok. reflexivity.
  - intros x p L Lp. unfold frame_call. pose proof (apply_qp_ok M b vs x p SM Lb Lv L Lp) as E.
    destruct x as [|x0 [|x1 [|x2 [|]]]]; try discriminate L. destruct p as [|p0 [|p1 [|p2 [|]]]]; try discriminate Lp. cbn [map] in *. rewrite bind_ok, E, bind_ok. reflexivity.
  - intros q v a w p (V & N & T & D) Da Lp E. unfold frame_call. replace (cls_of (finite q)) with (cls_of q) by (destruct q; reflexivity). rewrite D, E.
    pose proof (denotes_length q a Da T) as La. rewrite D in La.
    rewrite (cart_components_ok m deg f q a V N T Da). cbn [bind]. change (vcomps (vfinite (mkVel WCart3 p))) with (efin p).
    rewrite (apply_qp_ok M b vs a p SM Lb Lv La Lp : apply_qp m deg (4 + f) _ (@map R (option R) Some a) _ = _). cbn [bind fst]. rewrite cart_from_ok by now apply aff_length. cbn [bind snd orb ret]. rewrite !orb_false_r. reflexivity.
Qed.
Lemma to_gcf_affine g : good_frame g -> affine (FToGCF (gfinite g)) (whole g) (shift g) (g_vsun g).
Proof.
  intros G. split; [apply whole_ortho|]. split; [reflexivity|]. split; [apply G|].
  apply frame_affine; try apply whole_ortho; try apply G; auto. now apply to_gcf_parts_ok.
Qed.
Definition back (g : gcf R) : list R := rot (tr (whole g)) (vscale (-1) (shift g)).
Definition back_v (g : gcf R) : list R := rot (tr (whole g)) (vscale (-1) (g_vsun g)).
Lemma to_icrs_affine g : good_frame g -> affine (FToICRS (gfinite g)) (tr (whole g)) (back g) (back_v g).
Proof.
  intros G. pose proof (tr_square _ (proj1 (whole_ortho g))) as S. split; [apply S|]. split; [apply (proj1 S)|]. split; [apply (proj1 S)|].
  apply frame_affine; auto; try apply (proj1 S). now apply to_icrs_parts_ok.
Qed.

(** ** Inverses *)
Lemma rot_vadd M x y : square3 M -> length x = 3%nat -> length y = 3%nat -> rot M (vadd x y) = vadd (rot M x) (rot M y).
Proof.
  intros SM Lx Ly. destruct (square3_shape M SM) as (a & a' & a'' & c & c' & c'' & e & e' & e'' & ->).
  destruct x as [|x0 [|x1 [|x2 [|]]]]; try discriminate Lx. destruct y as [|y0 [|y1 [|y2 [|]]]]; try discriminate Ly. cbv [rot map vsum vmul combine fold_right vadd].
  f_equal; [ring|f_equal; [ring|f_equal; ring]].
Qed.
Lemma vscale_length k x : length (vscale k x) = length x. Proof. apply map_length. Qed.
Lemma aff_inv M b x : orthogonal M -> length b = 3%nat -> length x = 3%nat -> aff (tr M) (rot (tr M) (vscale (-1) b)) (aff M b x) = x.
Proof.
  intros O Lb Lx. pose proof (tr_square _ (proj1 O)) as S. assert (Lr : length (rot M x) = 3%nat) by (rewrite rot_length; apply O). unfold aff. rewrite <- rot_vadd; auto.
  - rewrite vadd_neg by lia. now apply rot_tr.
  - now apply vadd_length.
  - now rewrite vscale_length.
Qed.
Lemma aff_inv' M b x : orthogonal M -> length b = 3%nat -> length x = 3%nat -> aff M b (aff (tr M) (rot (tr M) (vscale (-1) b)) x) = x.
Proof.
  intros O Lb Lx. pose proof (tr_square _ (proj1 O)) as S. assert (Lr : length (rot (tr M) x) = 3%nat) by (rewrite rot_length; apply S).
  unfold aff. rewrite <- rot_vadd; auto; [|now rewrite vscale_length]. rewrite rot_tr'; auto; [|apply vadd_length; auto; now rewrite vscale_length]. rewrite vadd_neg'; auto. lia.
Qed.
End Call.
