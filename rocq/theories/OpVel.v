(** * Lemmas: operators on a position and a velocity. *)
From Coq Require Import Reals Bool List ZArith Lra Lia.
From Verif Require Import Num Vectors Spec Transform Pos3D Pos3DThm Dispatch RoundTrip PosGlue Arith ArithThm ArithThm2 Vel SpecVel VelAt DualPos DualThm VelHom VelPush VelThm VelLow FourVec Operators SpecOp OpThm OpInv.
Import ListNotations.
Open Scope R_scope.

Section V.
Variables (m : mode) (deg : bool) (f : nat).
Notation F := (4 + f)%nat.

Lemma cart_comp q a : valid q -> ~ negative_field q -> cls_of q <> CTwoSphere -> denotes q a ->
  cart_components m deg F (finite q) = Ok false (efin a).
Proof. exact (cart_components_ok m deg f q a). Qed.
(** ** Identity matrices *)
Lemma vplus_some a b : vplus (efin a) (efin b) = efin (vadd a b).
Proof. revert b. induction a as [|x a IH]; intros [|y b]; try reflexivity. unfold vplus, vadd in *. cbn. f_equal. apply IH. Qed.
Lemma id1 x : matvec 1 [[Some 1]] [Some x : ext] = [Some x].
Proof. cbn. do 2 f_equal. ring. Qed.
Lemma id2 x y : matvec 2 [[Some 1; Some 0]; [Some 0; Some 1]] [Some x : ext; Some y] = [Some x; Some y].
Proof. cbn. repeat f_equal; ring. Qed.
Lemma id3 x y z : matvec 3 [[Some 1; Some 0; Some 0]; [Some 0; Some 1; Some 0]; [Some 0; Some 0; Some 1]] [Some x : ext; Some y; Some z] = [Some x; Some y; Some z].
Proof. cbn. repeat f_equal; ring. Qed.

(** ** The Jacobian of a translation *)
Lemma tcol1 x b i : (i < 1)%nat -> forall tr, rep m deg F tr (cart_cls (cls_of tr)) = Ok false (finite (cart_pos [b])) ->
  translation_column m deg F tr (efin [x]) i = Ok false [Some (if Nat.eqb i 0 then 1 else 0)].
Proof.
  intros Hi tr H. unfold translation_column. unfold rep in H. rewrite H, bind_ok.
  cbn [cart_pos finite pos_map seed_cart length map nth]. unfold pos_add, cart_add, rep. change (4 + f)%nat with (S (3 + f)). dstep. cbn. unfold ret. rewrite Rplus_0_r. reflexivity.
Qed.
Lemma tcol2 x y b c i : (i < 2)%nat -> forall tr, rep m deg F tr (cart_cls (cls_of tr)) = Ok false (finite (cart_pos [b; c])) ->
  translation_column m deg F tr (efin [x; y]) i = Ok false [Some (if Nat.eqb i 0 then 1 else 0); Some (if Nat.eqb i 1 then 1 else 0)].
Proof.
  intros Hi tr H. unfold translation_column. unfold rep in H. rewrite H, bind_ok.
  cbn [cart_pos finite pos_map seed_cart length map nth]. unfold pos_add, cart_add, rep. change (4 + f)%nat with (S (3 + f)). dstep. cbn. unfold ret. rewrite !Rplus_0_r. reflexivity.
Qed.
Lemma tcol3 x y z b c d i : (i < 3)%nat -> forall tr, rep m deg F tr (cart_cls (cls_of tr)) = Ok false (finite (cart_pos [b; c; d])) ->
  translation_column m deg F tr (efin [x; y; z]) i = Ok false [Some (if Nat.eqb i 0 then 1 else 0); Some (if Nat.eqb i 1 then 1 else 0); Some (if Nat.eqb i 2 then 1 else 0)].
Proof.
  intros Hi tr H. unfold translation_column. unfold rep in H. rewrite H, bind_ok.
  cbn [cart_pos finite pos_map seed_cart length map nth]. unfold pos_add, cart_add, rep. change (4 + f)%nat with (S (3 + f)). dstep. cbn. unfold ret. rewrite !Rplus_0_r. reflexivity.
Qed.
Lemma translation_jac n tr b a w : good_pos n tr -> denotes tr b -> length a = n -> length w = n ->
  exists j, translation_jacobian m deg F (finite tr) (efin a) = Ok false j /\ matvec n j (efin w) = efin w.
Proof.
  intros (V & N & T & D) Db La Lw. pose proof (to_cart' m deg f tr b V N T Db) as H.
  pose proof (denotes_length _ _ Db T) as Lb. rewrite D in Lb.
  replace (cart_cls (cls_of tr)) with (cart_cls (cls_of (finite tr))) in H by (destruct tr; reflexivity).
  unfold translation_jacobian. rewrite map_length, La.
  assert (n = 1 \/ n = 2 \/ n = 3)%nat as Hn by (rewrite <- D; destruct tr; cbn; auto).
  destruct Hn as [-> | [-> | ->]].
  - destruct a as [|x [|]]; try discriminate La. destruct b as [|bx [|]]; try discriminate Lb. destruct w as [|wx [|]]; try discriminate Lw.
    cbn [seq mapM]. rewrite (tcol1 x bx 0) by (auto; lia). rewrite bind_ok. cbn [bind ret]. eexists. split; [reflexivity|]. cbn [Nat.eqb map]. apply id1.
  - destruct a as [|x [|y [|]]]; try discriminate La. destruct b as [|bx [|by_ [|]]]; try discriminate Lb. destruct w as [|wx [|wy [|]]]; try discriminate Lw.
    cbn [seq mapM]. rewrite (tcol2 x y bx by_ 0), (tcol2 x y bx by_ 1) by (auto; lia). rewrite !bind_ok. cbn [bind ret orb]. eexists. split; [reflexivity|]. cbn [Nat.eqb map]. apply id2.
  - destruct a as [|x [|y [|z [|]]]]; try discriminate La. destruct b as [|bx [|by_ [|bz [|]]]]; try discriminate Lb. destruct w as [|wx [|wy [|wz [|]]]]; try discriminate Lw.
    cbn [seq mapM]. rewrite (tcol3 x y z bx by_ bz 0), (tcol3 x y z bx by_ bz 1), (tcol3 x y z bx by_ bz 2) by (auto; lia). rewrite !bind_ok. cbn [bind ret orb]. eexists. split; [reflexivity|]. cbn [Nat.eqb map]. apply id3.
Qed.

(** ** Cartesian velocities *)
Lemma dself1 k kw (x : dual) : represent_as Traced deg (S k) kw (PCart1 x) CCart1 = Ok false (PCart1 x). Proof. dstep; reflexivity. Qed.
Lemma dself2 k kw (x y : dual) : represent_as Traced deg (S k) kw (PCart2 x y) CCart2 = Ok false (PCart2 x y). Proof. dstep; reflexivity. Qed.
Lemma dself3 k kw (x y z : dual) : represent_as Traced deg (S k) kw (PCart3 x y z) CCart3 = Ok false (PCart3 x y z). Proof. dstep; reflexivity. Qed.
Lemma generic_cart n v a : cart_vel n v -> length a = n ->
  vel_generic m deg F nokw (vfin v) (vc v) (finite (cart_pos a)) = Ok false (vfin v).
Proof.
  intros [L C] La. destruct v as [c u]; cbn in L, C.
  destruct n as [|[|[|[|]]]]; try contradiction; subst c;
  repeat (destruct u as [|? u]; cbn in L; try discriminate L); repeat (destruct a as [|? a]; cbn in La; try discriminate La);
  unfold vel_generic; cbn [vc vel_map integral_cls cart_pos vcomps map];
  change (4 + f)%nat with (S (3 + f)); step; cbn [finite pos_map cast_distance can_map]; unfold ret; cbn [bind orb];
  unfold jacobian; cbn [components length seq mapM]; unfold jac_column; cbn [components length seed basis map seq Nat.eqb nth];
  rewrite ?dself1, ?dself2, ?dself3; cbn [bind ret orb components map dd vdim dim_of integral_cls]; unfold ret; cbn [bind orb].
  - exact (f_equal (fun x => Ok false (mkVel _ x)) (id1 _)).
  - exact (f_equal (fun x => Ok false (mkVel _ x)) (id2 _ _)).
  - exact (f_equal (fun x => Ok false (mkVel _ x)) (id3 _ _ _)).
Qed.
Lemma translate_cart_vel n tr q v a b : good_pos n tr -> good_pos n q -> cart_vel n v -> denotes tr b -> denotes q a -> can_hold (cls_of q) (vadd a b) ->
  exists q', translate_vel m deg F (finite tr) (finite q) (vfin v) = Ok false (VPosVel (finite q') (vfin v)) /\
    cls_of q' = cls_of q /\ good_pos n q' /\ denotes q' (vadd a b).
Proof.
  intros Gt Gq Cv Db Da H. destruct (translate_ok m deg f n q tr a b Gq Gt Da Db H) as (s & A1 & A2 & A3 & A4).
  exists s. split; [|auto]. unfold translate_vel. rewrite A1, bind_ok.
  pose proof Gq as (V & N & T & D). rewrite (cart_comp q a V N T Da), bind_ok.
  pose proof (denotes_length _ _ Da T) as La. rewrite D in La.
  assert (Ev : vcart_cls (vc (vfin v)) = vc v /\ vdim (vc v) = n /\ vc v <> WLonCosLat).
  { destruct Cv as [_ C]. cbn. destruct n as [|[|[|[|]]]]; try contradiction; rewrite C; repeat split; discriminate. }
  destruct Ev as (Ev1 & Ev2 & Ev3). rewrite Ev1.
  assert (E : vel_represent_as_q m deg F nokw (vfin v) (vc v) (efin a) = Ok false (vfin v)).
  { unfold vel_represent_as_q. cbn [vc vel_map]. rewrite Nat.eqb_refl. cbn [negb].
    pose proof (generic_cart n v a Cv La) as G.
    assert (C2 : cart_of_array (vc v) (efin a) = Ok false (finite (cart_pos a))).
    { unfold cart_of_array. rewrite Ev2. destruct Cv as [_ C]. destruct n as [|[|[|[|]]]]; try contradiction; repeat (destruct a as [|? a]; try discriminate La); reflexivity. }
    rewrite C2. rewrite bind_ok. rewrite G. destruct (vc v); try reflexivity. congruence. }
  rewrite E, bind_ok.
  destruct (translation_jac n tr b a (vcomps v)) as (j & J1 & J2); auto. { apply Cv. }
  rewrite J1, bind_ok. rewrite map_length, La. cbn [vcomps vel_map]. rewrite J2.
  change (vc (vfin v)) with (vc v). unfold vel_represent_as. cbn [vc]. replace (vcls_eqb (vc v) (vc v)) with true by (destruct (vc v); reflexivity).
  replace (vcls_eqb (vc v) WTwoSphere) with false. 2:{ destruct Cv as [_ C]. destruct n as [|[|[|[|]]]]; try contradiction; rewrite C; reflexivity. }
  cbn [negb andb]. unfold ret. reflexivity.
Qed.

(** ** Curvilinear velocities of the five 3-D systems *)
Lemma translate_vel3 tr q v a b : good_pos 3 tr -> good_pos 3 q -> plain3 (cls_of q) -> off_axis q ->
  vplain3 (vc v) -> length (vcomps v) = 3%nat -> denotes tr b -> denotes q a -> can_hold (cls_of q) (vadd a b) ->
  (forall x y z, vadd a b = [x; y; z] -> x * x + y * y <> 0) ->
  exists q' v', translate_vel m deg F (finite tr) (finite q) (vfin v) = Ok false (VPosVel (finite q') (vfin v')) /\
    cls_of q' = cls_of q /\ good_pos 3 q' /\ denotes q' (vadd a b) /\ vc v' = vc v /\ length (vcomps v') = 3%nat /\
    forall p p', valid p -> valid p' -> denotes p a -> denotes p' (vadd a b) -> cls_of p = integral_cls (vc v) -> cls_of p' = integral_cls (vc v) ->
      vel_at p' (uncos p' v') = vel_at p (uncos p v).
Proof.
  intros Gt Gq Pq Oq Pv Lv Db Da H Oab. destruct (translate_ok m deg f 3 q tr a b Gq Gt Da Db H) as (s & A1 & A2 & A3 & A4).
  unfold translate_vel. rewrite A1, bind_ok.
  pose proof Gq as (V & N & T & D). rewrite (cart_comp q a V N T Da), bind_ok.
  pose proof (denotes_length _ _ Da T) as La. rewrite D in La.
  assert (Ev : vcart_cls (vc (vfin v)) = WCart3 /\ vdim (vc v) = 3%nat). { cbn. unfold vcart_cls, vdim, vplain3 in *. destruct (integral_cls (vc v)); cbn in Pv; try contradiction; split; reflexivity. }
  destruct Ev as (Ev1 & Ev2). rewrite Ev1.
  set (P := cart_pos a).
  assert (Dp : denotes P a /\ valid P /\ cls_of P = CCart3). { unfold P. destruct a as [|x [|y [|z [|]]]]; try discriminate La. repeat split; reflexivity. }
  destruct Dp as (Dp & Vp & Cp).
  assert (Op : off_axis P). { intros x y z Dx. apply (Oq x y z). assert (a = [x; y; z]) as E by (apply (denotes_fun P a [x; y; z]); auto). now rewrite <- E. }
  assert (RP : rep_ok m deg F P). { apply rep_ok_plain3; auto; unfold P; destruct a as [|x [|y [|z [|]]]]; try discriminate La; cbn; auto. }
  assert (C2 : cart_of_array (vc (vfin v)) (efin a) = Ok false (finite P)).
  { unfold cart_of_array, P. cbn [vc vel_map]. rewrite Ev2. destruct a as [|x [|y [|z [|]]]]; try discriminate La. reflexivity. }
  assert (W : exists w, vel_represent_as_q m deg F nokw (vfin v) WCart3 (efin a) = Ok false (vfin w) /\ vc w = WCart3 /\ length (vcomps w) = 3%nat /\
    forall p q0, valid p -> valid q0 -> denotes p a -> denotes q0 a -> cls_of p = integral_cls (vc v) -> cls_of q0 = CCart3 -> vel_at q0 (vcomps w) = vel_at p (uncos p v)).
  { unfold vel_represent_as_q. rewrite C2. cbn [vc vel_map]. rewrite Ev2. cbn [Nat.eqb negb vdim integral_cls dim_of].
    destruct (vcls_eqb (vc v) WLonCosLat) eqn:EL.
    - destruct (vel_plain3 m deg f nokw P v WCart3 a RP Dp Pv I Lv) as (w & B1 & B2 & B3 & B4).
      exists w. split; [|split; [auto|split; [auto|]]].
      2:{ intros p q0 Vp0 Vq0 Dp0 Dq0 Cp0 Cq0. rewrite <- (B4 p q0); auto. unfold uncos. now rewrite B2. }
      destruct v as [c u]; cbn [vc vcomps vel_map] in *. destruct c; try discriminate EL. rewrite bind_ok. 
      unfold vel_represent_as in B1. cbn [vc vfinite vcls_eqb andb negb vdim integral_cls dim_of Nat.eqb] in B1. 
      change (vfin w) with (vfinite w). rewrite <- B1. change (vfin (mkVel WLonCosLat u)) with (vfinite (mkVel WLonCosLat u)).
      unfold lcl_to_lonlat. cbn [vcomps vfinite map]. destruct u as [|u1 [|u2 [|u3 [|]]]]; try discriminate Lv. cbn [map].
      destruct (latitude m deg F (finite P)); [|reflexivity]. unfold ret. cbn [bind]. unfold vel_represent_as. cbn [vc vcls_eqb andb negb vdim integral_cls dim_of Nat.eqb]. reflexivity.
    - destruct (generic_means m deg f nokw P v WCart3 a RP Dp Pv I) as (w & B1 & B2 & B3 & B4); auto; try discriminate.
      { intros E; rewrite E in EL; discriminate. }
      exists w. split; [|split; [auto|split; [auto|]]].
      + rewrite bind_ok. change (vfin v) with (vfinite v). change (vfin w) with (vfinite w). rewrite B1. destruct (vc v); try discriminate EL; reflexivity.
      + intros p q0 Vp0 Vq0 Dp0 Dq0 Cp0 Cq0. rewrite (B4 p q0); auto. f_equal. unfold uncos. destruct (vc v); try discriminate EL; reflexivity. }
  destruct W as (w & W1 & W2 & W3 & W4). rewrite W1, bind_ok.
  destruct (translation_jac 3 tr b a (vcomps w)) as (j & J1 & J2); auto.
  rewrite J1, bind_ok, map_length, La. cbn [vcomps vel_map]. rewrite J2.
  pose proof A3 as (Vs & Ns & Ts & Ds).
  assert (Os : off_axis s). { intros x y z Dx. apply (Oab x y z). apply (denotes_fun s (vadd a b) [x; y; z]); auto. }
  assert (RS : rep_ok m deg F s). { apply rep_ok_plain3; auto. now rewrite A2. }
  destruct (vel_plain3 m deg f nokw s (mkVel WCart3 (vcomps w)) (vc v) (vadd a b) RS A4 I Pv W3) as (v' & B1 & B2 & B3 & B4).
  exists s, v'. split; [|split; [auto|split; [auto|split; [auto|split; [auto|split; [auto|]]]]]].
  - change (mkVel WCart3 (efin (vcomps w))) with (vfinite (mkVel WCart3 (vcomps w))). cbn [vc vel_map] in B1 |- *. rewrite B1, bind_ok. reflexivity.
  - intros p p' Vp0 Vp' Dp0 Dp' Cp0 Cp'.
    assert (Lab : length (vadd a b) = 3%nat). { rewrite <- Ds. eapply denotes_length; eauto. }
    set (P2 := cart_pos (vadd a b)). assert (D2 : denotes P2 (vadd a b) /\ valid P2 /\ cls_of P2 = CCart3). { unfold P2. destruct (vadd a b) as [|x [|y [|z [|]]]]; try discriminate Lab. repeat split; reflexivity. }
    destruct D2 as (D2 & V2 & C3). rewrite (B4 P2 p'); auto. unfold uncos at 1. cbn [vc vcomps].
    rewrite <- (W4 p P); auto. unfold P, P2. destruct a as [|x [|y [|z [|]]]]; try discriminate La. destruct (vadd [x; y; z] b) as [|x' [|y' [|z' [|]]]]; try discriminate Lab.
    destruct (vcomps w) as [|w1 [|w2 [|w3 [|]]]]; try discriminate W3. reflexivity.
Qed.
End V.
