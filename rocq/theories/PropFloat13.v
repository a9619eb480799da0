(** * Property C80: operators on velocities in floating point.

    Vocabulary: Float.v; [cartesian], [rounded_to]: PropFloat4.v; [fvel c x]: the velocity
    of class [c] whose components are the numbers [x]; [cart_vel c n]: [c] is the
    n-dimensional Cartesian velocity class (PropFloat11.v). *)
From Coq Require Import Reals Bool List ZArith Lra Lia.
From Flocq Require Import Core.
From Verif Require Import Num Vectors Transform Pos3D Pos3DThm Dispatch Arith TreeArith Vel UVel FourVec Operators SpecOp GOp GOpThm GOpVel Float FloatThm FloatConv FloatArith FloatOp FVel FOpVel PropFloat PropFloat3 PropFloat4 PropFloat5 PropFloat6 FVelArith PropFloat11.
Import ListNotations.
Open Scope R_scope.

(** the identity matrix *)
Definition unit_matrix (n : nat) : list (list ext) :=
  map (fun i => map (fun j => (Some (if Nat.eqb i j then 1 else 0) : ext)) (seq 0 n)) (seq 0 n).
Section S.
Variable f : fmt.
Variable L : libm.
Hypothesis ok : fmt_ok f.
Lemma jac_id deg n x : cartesian x -> fjacobian f L deg (S n) nokw x (cls_of x) = Ok false (unit_matrix (length (components x))).
Proof.
  destruct x; intros C; try (destruct C; fail); unfold fjacobian, fjac_column; cbn [components length seq mapM seed basis kw_map cls_of map].
  all: repeat (step; unfold ret; rewrite ?bind_ok); reflexivity.
Qed.
Lemma trans_id m deg n tr x : cartesian tr -> length x = length (components tr) ->
  ftrans_jac f L m deg (S n) tr x = Ok false (unit_matrix (length x)).
Proof.
  intros C Lx. destruct tr; try (destruct C; fail); cbn [components length] in Lx; destruct x as [|x1 [|x2 [|x3 [|]]]]; try discriminate;
  unfold ftrans_jac, ftrans_column; cbn [length seq mapM seed_cart nth Nat.eqb cls_of cart_cls dim_of].
  all: repeat (first [step | unfold pos_add, cart_add, rep]; unfold ret; rewrite ?bind_ok; cbn [pos_map]).
  all: cbn [components map dd nadd Num_fdual Num_fl flift2 dconst]; rewrite !Rplus_0_r; change (IZR (Zpos xH)) with 1; pose proof (PropFloat6.fop_id f 1 (isf1 f ok)) as Q1; pose proof (PropFloat6.fop_id f 0 (isf0 f)) as Q0; rewrite ?Q1, ?Q0; reflexivity.
Qed.
Lemma mv_id n y : length y = n -> Forall (isf f) y -> (n <= 3)%nat -> fmatvec f L n (unit_matrix n) (efin y) = efin y.
Proof.
  intros Ly F N.
  assert (J : forall k, length k = n -> Forall (isf f) k -> True) by auto. clear J.
  destruct y as [|a [|b [|c [|]]]]; cbn in Ly; subst n; try (cbn in N; lia).
  all: repeat match goal with X : Forall _ (_ :: _) |- _ => apply Forall_cons_iff in X; destruct X as [? X] end.
  all: unfold unit_matrix, fmatvec, efin, fscale; cbn [seq map combine fold_left Nat.eqb].
  - reflexivity.
  - change (Num_fl f L) with (NF f L). rewrite ?m1, ?m0, ?a0, ?ax0 by auto using isf0. reflexivity.
  - change (Num_fl f L) with (NF f L). repeat rewrite ?m1, ?m0, ?a0, ?ax0 by auto using isf0. reflexivity.
  - change (Num_fl f L) with (NF f L). repeat rewrite ?m1, ?m0, ?a0, ?ax0 by auto using isf0. reflexivity.
Qed.
End S.

(** ** Translations *)
Section T.
Variable f : fmt.
Variable L : libm.
Hypothesis ok : fmt_ok f.
Lemma cart_vel_dim c k : cart_vel c k -> vdim c = k /\ vcart_cls c = c /\ (k <= 3)%nat /\ vcls_eqb c c && negb (vcls_eqb c WTwoSphere) = true.
Proof. intros [(-> & ->)|[(-> & ->)|(-> & ->)] ]; cbn; repeat split; lia. Qed.
Lemma generic_id m deg n c k x y : cart_vel c k -> length x = k -> length y = k -> Forall (isf f) y ->
  @gvel_represent_as_q ext (Num_fl f L) m deg (S n) (fjacobian f L deg (S n)) (fmatvec f L) (fvel c y) c x = Ok false (fvel c y).
Proof.
  intros C Lx Ly F.
  assert (K : forall p, cartesian p -> cls_of p = integral_cls c -> length (components p) = k ->
    @pvel_generic ext (Num_fl f L) m deg (S n) (fjacobian f L deg (S n)) (fmatvec f L) nokw (fvel c y) c p = Ok false (fvel c y)).
  { intros p Cp Ep Lp. unfold pvel_generic. cbn [vc fvel].
    assert (E : @represent_as ext (Num_fl f L) m deg (S n) nokw p (integral_cls c) = Ok false p).
    { rewrite <- Ep. destruct p; try (destruct Cp; fail); step; reflexivity. }
    rewrite E, bind_ok. assert (E2 : @pcast_distance ext (Num_fl f L) m p = Ok false p) by (destruct p; try (destruct Cp; fail); reflexivity). rewrite E2, bind_ok.
    rewrite <- Ep. assert (E3 : can_map (cls_of p) = Ok false tt) by (destruct p; try (destruct Cp; fail); reflexivity). rewrite E3, bind_ok.
    rewrite (jac_id f L) by auto. rewrite bind_ok, Lp. destruct (cart_vel_dim c k C) as (D1 & _ & D3 & _). rewrite D1. cbn [fvel vcomps].
    rewrite (mv_id f L) by auto. reflexivity. }
  unfold gvel_represent_as_q. rewrite Nat.eqb_refl. cbn [negb].
  destruct C as [(-> & ->)|[(-> & ->)|(-> & ->)] ]; destruct x as [|x1 [|x2 [|x3 [|]]]]; try discriminate; unfold fvel in *; cbn [vc vdim]; unfold gcart_of_array; unfold vdim; cbn [integral_cls dim_of]; unfold ret; rewrite bind_ok; (rewrite K; [reflexivity|exact I|reflexivity|reflexivity]).
Qed.
End T.
(** A translation of a position of any class and its Cartesian velocity leaves the
    velocity as it is, bit for bit; the position is that of the same translation
    applied to the position alone.  The position may have coordinates that are not
    finite. *)
Theorem C80_translation_keeps_velocity : forall f L m deg n c k q tr y w w' q' x, fmt_ok f -> cart_vel c k ->
  cartesian tr -> length (coords tr) = k -> length y = k -> Forall (isf f) y ->
  fcall f L m deg (S n) (OSpatial tr) (VPos q) = Ok w (VPos q') ->
  fcart_components f L m deg (S n) q = Ok w' x -> length x = k ->
  fcallv f L m deg (S n) (OSpatial tr) (VPosVel q (fvel c y)) = Ok (w || w') (VPosVel q' (fvel c y)).
Proof.
  intros f L m deg n c k q tr y w w' q' x ok C Ct Lt Ly F E1 E2 Lx.
  unfold fcallv. cbn [gcallv gcallv_vec]. unfold gtranslate_vel. unfold fcall in E1. cbn [gcall gcall_vec] in E1.
  destruct (@tpos_add ext (Num_fl f L) _ m deg (S n) q tr) as [w1 q1|] eqn:E3; [|discriminate]. cbn [bind] in E1. unfold ret in E1. injection E1 as <- <-. rewrite orb_false_r.
  cbn [bind]. unfold fcart_components in E2. rewrite E2. cbn [bind vc fvel].
  destruct (cart_vel_dim c k C) as (D1 & D2 & D3 & D4). rewrite D2, (generic_id f L m deg n c k x y C Lx Ly F). cbn [bind vcomps fvel].
  rewrite (trans_id f L ok m deg n tr x Ct). 2:{ rewrite Lx, <- Lt. destruct tr; try (destruct Ct; fail); reflexivity. }
  cbn [bind]. rewrite Lx, (mv_id f L k y Ly F D3).
  unfold pvel_represent_as. cbn [vc]. rewrite D4. cbn. now rewrite !orb_false_r.
Qed.
Print Assumptions C80_translation_keeps_velocity.
(** For a Cartesian position every coordinate of the result is the correctly rounded
    sum. *)
Theorem C80_translation_of_cartesian : forall f L m deg n c k q tr y, fmt_ok f -> cart_vel c k ->
  cartesian q -> cls_of tr = cls_of q -> length (coords q) = k -> length y = k -> Forall (isf f) y ->
  exists s, fcallv f L m deg (S n) (OSpatial tr) (VPosVel q (fvel c y)) = Ok false (VPosVel s (fvel c y)) /\ cls_of s = cls_of q /\
    pairwise (fun a b v => forall x y, a = Some x -> b = Some y -> isf f x -> isf f y -> rounded_to f (x + y) v) (coords q) (coords tr) (coords s).
Proof.
  intros f L m deg n c k q tr y ok C Cq E Lq Ly F. exists (zipc (@nadd ext (Num_fl f L)) q tr).
  split; [|split].
  - assert (Ct : cartesian tr) by (unfold cartesian in *; now rewrite E).
    assert (Lt : length (coords tr) = k) by (destruct q, tr; cbn in *; try contradiction; try discriminate; auto).
    assert (Ex : fcart_components f L m deg (S n) q = Ok false (coords q)) by (destruct q; try (destruct Cq; fail); unfold fcart_components, cart_components, rep; cbn [cls_of cart_cls dim_of]; step; reflexivity).
    rewrite (C80_translation_keeps_velocity f L m deg n c k q tr y false false _ (coords q) ok C Ct Lt Ly F (fshift f L m deg n q tr Cq E) Ex Lq). reflexivity.
  - destruct q, tr; cbn in *; try contradiction; try discriminate; reflexivity.
  - destruct q, tr; cbn in Cq, E; try contradiction; try discriminate; cbn [zipc coords]; pw; intros ? ? -> -> ? ?; now apply sum_rounded.
Qed.
Print Assumptions C80_translation_of_cartesian.
(** Finding: a velocity component that has overflowed makes the others not finite under
    a translation (the Jacobian is multiplied out, and 0 times an infinity is not a
    number). *)
Theorem C80_finding_overflow_spreads : forall f L m deg n x y z a b c u v, fmt_ok f ->
  fcallv f L m deg (S n) (OSpatial (cart3 a b c)) (VPosVel (cart3 x y z) (mkVel WCart3 [None; u; v])) =
    Ok false (VPosVel (zipc (@nadd ext (Num_fl f L)) (cart3 x y z) (cart3 a b c)) (mkVel WCart3 [None; None; None])).
Proof.
  intros f L m deg n x y z a b c u v ok.
  pose proof (fshift f L m deg n (cart3 x y z) (cart3 a b c) I eq_refl) as E1. unfold fcall in E1. cbn [gcall gcall_vec] in E1.
  unfold fcallv. cbn [gcallv gcallv_vec]. unfold gtranslate_vel.
  destruct (@tpos_add ext (Num_fl f L) _ m deg (S n) (cart3 x y z) (cart3 a b c)) as [w1 q1|] eqn:E3; [|discriminate]. cbn [bind] in E1. unfold ret in E1. rewrite orb_false_r in E1. 
  assert (w1 = false /\ q1 = zipc (@nadd ext (Num_fl f L)) (cart3 x y z) (cart3 a b c)) as [-> ->] by (now injection E1). clear E1 E3.
  rewrite bind_ok.
  assert (Ex : @cart_components ext (Num_fl f L) m deg (S n) (cart3 x y z) = Ok false [Some x; Some y; Some z]) by (unfold cart3, cart_components, rep; cbn [cls_of cart_cls dim_of]; step; reflexivity).
  rewrite Ex, bind_ok. cbn [vc]. 
  assert (Eg : forall x1 x2 x3 : ext, @gvel_represent_as_q ext (Num_fl f L) m deg (S n) (fjacobian f L deg (S n)) (fmatvec f L) (mkVel WCart3 [None; u; v]) WCart3 [x1; x2; x3] = Ok false (mkVel WCart3 [None; None; None])).
  { intros x1 x2 x3. unfold gvel_represent_as_q. cbn [negb vc]. rewrite Nat.eqb_refl. cbn [negb]. unfold gcart_of_array, vdim. cbn [integral_cls dim_of]. unfold ret. rewrite bind_ok.
    unfold pvel_generic. cbn [vc integral_cls].
    assert (E : @represent_as ext (Num_fl f L) m deg (S n) nokw (PCart3 x1 x2 x3) CCart3 = Ok false (PCart3 x1 x2 x3)) by (step; reflexivity). rewrite E, bind_ok.
    assert (E2 : @pcast_distance ext (Num_fl f L) m (PCart3 x1 x2 x3) = Ok false (PCart3 x1 x2 x3)) by reflexivity. rewrite E2, bind_ok. cbn [can_map]. unfold ret. rewrite bind_ok.
    pose proof (jac_id f L deg n (PCart3 x1 x2 x3) I) as J. cbn [cls_of] in J. rewrite J, bind_ok. destruct u, v; reflexivity. }
  change (vcart_cls WCart3) with WCart3. rewrite Eg, bind_ok. rewrite (trans_id f L ok m deg n (cart3 a b c) [Some x; Some y; Some z] I eq_refl). rewrite bind_ok. cbn [vcomps length].
  reflexivity.
Qed.
Print Assumptions C80_finding_overflow_spreads.

(** ** Velocity boosts *)
Definition vzip {A} (g : A -> A -> A) (v w : vel A) : vel A := mkVel (vc v) (map (fun '(a, b) => g a b) (combine (vcomps v) (vcomps w))).
Lemma tvel_zip f L c k (v w : vel ext) : cart_vel c k -> vc v = c -> vc w = c -> @tvel_add ext (Num_fl f L) TreeArith.Static_ext v w = Ok false (vzip (@nadd ext (Num_fl f L)) v w).
Proof. intros C Ev Ew. unfold tvel_add. rewrite Ev, Ew, same_units_ext. unfold vzip. rewrite Ev. destruct C as [(-> & _)|[(-> & _)|(-> & _)] ]; reflexivity. Qed.
(** A velocity boost adds with one rounding per component, to a velocity alone and to
    one with a position, and leaves the position as it is. *)
Theorem C80_velocity_boost : forall f L m deg n c k q y w, fmt_ok f -> cart_vel c k ->
  length y = k -> length w = k -> Forall (isf f) y -> Forall (isf f) w ->
  exists r, Forall2 (rounded_to f) (map (fun '(a, b) => a + b) (combine y w)) r /\
    fcallv f L m deg n (OVelBoost (fvel c w)) (VVel (fvel c y)) = Ok false (VVel (mkVel c r)) /\
    fcallv f L m deg n (OVelBoost (fvel c w)) (VPosVel q (fvel c y)) = Ok false (VPosVel q (mkVel c r)).
Proof.
  intros f L m deg n c k q y w ok C Ly Lw Fy Fw. exists (map (fun '(a, b) => @nadd ext (Num_fl f L) a b) (combine (efin y) (efin w))).
  split; [apply zip_add; auto; congruence|]. unfold fcallv. cbn [gcallv gcallv_vec]. rewrite (tvel_zip f L c k) by auto. split; reflexivity.
Qed.
Print Assumptions C80_velocity_boost.
(** Undoing a boost by its inverse: exact whenever the sum is a number of the format. *)
Theorem C80_boost_round_trip : forall f L m deg n c k q y w, fmt_ok f -> cart_vel c k -> length y = k -> length w = k ->
  Forall (isf f) y -> Forall (isf f) w -> Forall (fun '(a, b) => Rabs a + Rabs b <= fmax f / 4) (combine y w) ->
  exists o' r, finverse f L m deg n (OVelBoost (fvel c w)) = Ok false o' /\
    fcallv f L m deg n (OPipe [OVelBoost (fvel c w); o']) (VPosVel q (fvel c y)) = Ok false (VPosVel q (fvel c r)) /\
    pairwise (fun x b r => isf f r /\ Rabs (r - x) <= fu f * Rabs x + fu f * (1 + fu f) * Rabs (x + b) /\ (isf f (x + b) -> r = x)) y w r.
Proof.
  intros f L m deg n c k q y w ok C Ly Lw Fy Fw B.
  assert (K : exists r, map (fun '(a, b) => @nadd ext (Num_fl f L) a b) (combine (map (fun '(a, b) => @nadd ext (Num_fl f L) a b) (combine (efin y) (efin w))) (map (@nneg ext (Num_fl f L)) (efin w))) = efin r /\
    pairwise (fun x b r => isf f r /\ Rabs (r - x) <= fu f * Rabs x + fu f * (1 + fu f) * Rabs (x + b) /\ (isf f (x + b) -> r = x)) y w r).
  { clear C. revert w k Ly Lw Fw B. induction y as [|a y IH]; intros [|b w] k Ly Lw Fw B; cbn in Ly, Lw; try congruence.
    - exists []. split; [reflexivity|]. split; [reflexivity|]. split; [reflexivity|]. intros [|i]; discriminate.
    - destruct k; try discriminate. apply Forall_cons_iff in Fy, Fw. cbn [combine] in B. apply Forall_cons_iff in B. destruct Fy as [Ia Fy], Fw as [Ib Fw], B as [B1 B].
      destruct (IH Fy w k) as (r & E & P); auto. destruct (there_and_back f a b ok Ia Ib B1) as (s & r1 & E1 & E2 & I & Er & Ex).
      exists (r1 :: r). split.
      + cbn [efin map combine]. apply (f_equal2 (@cons ext)); [|exact E]. cbn. rewrite E1. exact E2.
      + now apply pairS. }
  destruct K as (r & E & P). exists (OVelBoost (gvel_neg (fvel c w))), r. split; [reflexivity|]. split; [|exact P].
  unfold fcallv. cbn [gcallv gcallv_vec]. rewrite (tvel_zip f L c k) by auto. rewrite !bind_ok. unfold ret. rewrite !bind_ok.
  assert (G : @gvel_neg ext Num_ext (fvel c w) = @gvel_neg ext (Num_fl f L) (fvel c w)) by reflexivity. rewrite ?G.
  rewrite (tvel_zip f L c k) by auto. rewrite !bind_ok. f_equal. f_equal. unfold vzip, fvel, gvel_neg. cbn [vc vcomps]. now rewrite E.
Qed.
Print Assumptions C80_boost_round_trip.

(** ** Any interleaving of translations and boosts *)
(** A step: a translation by a vector ([inl]) or a velocity boost by one ([inr]). *)
Definition step_op (s : (R * R * R) + (R * R * R)) : op ext :=
  match s with inl b => shift3 b | inr (x, y, z) => OVelBoost (fvel WCart3 [x; y; z]) end.
Definition translations (l : list ((R * R * R) + (R * R * R))) : list (R * R * R) := flat_map (fun s => match s with inl b => [b] | inr _ => [] end) l.
Definition boosts (l : list ((R * R * R) + (R * R * R))) : list (R * R * R) := flat_map (fun s => match s with inl _ => [] | inr w => [w] end) l.

Section Run.
Variable f : fmt.
Variable L : libm.
Hypothesis ok : fmt_ok f.
Fixpoint run1 (l : list R) (s r : R) : Prop :=
  isf f s /\ match l with [] => r = s | b :: l => exists s', fop f (s + b) = Some s' /\ run1 l s' r end.
Lemma run1_fold l s r : (forall k, exists r, fold_left (@nadd ext (Num_fl f L)) (map (@Some R) (firstn k l)) (Some s) = Some r /\ isf f r) ->
  fold_left (@nadd ext (Num_fl f L)) (map (@Some R) l) (Some s) = Some r -> run1 l s r.
Proof.
  revert s. induction l as [|b l IH]; intros s K E.
  - destruct (K 0%nat) as (r0 & E0 & I0). cbn in E0, E. split; [congruence|congruence].
  - destruct (K 0%nat) as (r0 & E0 & I0). cbn in E0. split; [congruence|].
    destruct (K 1%nat) as (r1 & E1 & I1). cbn [firstn map fold_left] in E1.
    exists r1. split; [exact E1|]. cbn [map fold_left] in E. rewrite E1 in E. apply IH; auto.
    intros k. destruct (K (S k)) as (r2 & E2 & I2). cbn [firstn map fold_left] in E2. rewrite E1 in E2. eauto.
Qed.
Lemma total_abs_firstn k l : total_abs (firstn k l) <= total_abs l.
Proof.
  revert k. induction l as [|x l IH]; intros k; [destruct k; cbn; lra|]. destruct k as [|k]; [cbn [firstn]; pose proof (total_abs_pos (x :: l)); change (total_abs []) with 0; lra|].
  cbn [firstn]. change (total_abs (x :: firstn k l)) with (Rabs x + total_abs (firstn k l)). change (total_abs (x :: l)) with (Rabs x + total_abs l). specialize (IH k). lra.
Qed.
Lemma run_chain v l : Forall (isf f) (v :: l) -> total_abs (v :: l) * (1 + fu f) ^ length l <= fmax f * (1 - fu f) ->
  exists r, run1 l v r /\ Rabs (r - total (v :: l)) <= ((1 + fu f) ^ length l - 1) * total_abs (v :: l).
Proof.
  intros F B. apply Forall_cons_iff in F. destruct F as [Iv F]. pose proof (fu_pos f) as P0.
  assert (K : forall l', Forall (isf f) l' -> total_abs (v :: l') * (1 + fu f) ^ length l' <= fmax f * (1 - fu f) ->
    exists r, fold_left (@nadd ext (Num_fl f L)) (map (@Some R) l') (Some v) = Some r /\ isf f r /\ Rabs (r - total (v :: l')) <= ((1 + fu f) ^ length l' - 1) * total_abs (v :: l')).
  { intros l' F' B'. destruct (chain f L l' ok v v (Rabs v) 1) as (r & G1 & G2 & G3); auto; try lra.
    { rewrite Rminus_diag_eq, Rabs_R0 by auto. lra. }
    { rewrite Rmult_1_l. exact B'. }
    exists r. split; [auto|]. split; [auto|]. rewrite Rmult_1_l in G3. exact G3. }
  destruct (K l F B) as (r & E & _ & D). exists r. split; [|exact D]. apply run1_fold; auto.
  intros k. destruct (K (firstn k l)) as (r' & E' & I' & _); eauto.
  { apply Forall_forall. intros x Hx. apply (proj1 (Forall_forall _ _) F). rewrite <- (firstn_skipn k l). apply in_or_app. now left. }
  eapply Rle_trans; [|exact B]. apply Rmult_le_compat; [apply total_abs_pos|left; apply pow_lt; lra| |].
  - cbn. fold (total_abs l) (total_abs (firstn k l)). pose proof (total_abs_firstn k l). lra.
  - apply Rle_pow; [lra|]. rewrite firstn_length. lia.
Qed.
Lemma run_isf l s r : run1 l s r -> isf f r.
Proof. revert s. induction l as [|b l IH]; intros s [I H]; [congruence|]. destruct H as (s' & _ & H). eauto. Qed.
Lemma run_ops m deg n l : forall (p : R * R * R) (v : R * R * R) rx ry rz ux uy uz,
  run1 (xs (translations l)) (fst (fst p)) rx -> run1 (ys (translations l)) (snd (fst p)) ry -> run1 (zs (translations l)) (snd p) rz ->
  run1 (xs (boosts l)) (fst (fst v)) ux -> run1 (ys (boosts l)) (snd (fst v)) uy -> run1 (zs (boosts l)) (snd v) uz ->
  fcallv f L m deg (S n) (OPipe (map step_op l)) (VPosVel (cart3 (fst (fst p)) (snd (fst p)) (snd p)) (fvel WCart3 [fst (fst v); snd (fst v); snd v])) =
    Ok false (VPosVel (cart3 rx ry rz) (fvel WCart3 [ux; uy; uz])).
Proof.
  induction l as [|[ [[a b] c]|[[a b] c] ] l IH]; intros [[x y] z] [[u v] w] rx ry rz ux uy uz; cbn [fst snd];
    cbn [translations boosts flat_map app xs ys zs map];
    match goal with H : forall p v : R * R * R, _ |- _ => fold (translations l) (boosts l); fold (xs (translations l)) (ys (translations l)) (zs (translations l)) (xs (boosts l)) (ys (boosts l)) (zs (boosts l)) | _ => idtac end; cbn [run1].
  - intros [_ ->] [_ ->] [_ ->] [_ ->] [_ ->] [_ ->]. reflexivity.
  - intros [Ix (x' & Ex & Rx)] [Iy (y' & Ey & Ry)] [Iz (z' & Ez & Rz)] Hu Hv Hw.
    assert (Fv : Forall (isf f) [u; v; w]).
    { assert (Q : forall l s r, run1 l s r -> isf f s) by (intros [|? ?] ? ? [? _]; auto). repeat (apply Forall_cons; [eauto|]). apply Forall_nil. }
    assert (E : fcallv f L m deg (S n) (shift3 (a, b, c)) (VPosVel (cart3 x y z) (fvel WCart3 [u; v; w])) = Ok false (VPosVel (cart3 x' y' z') (fvel WCart3 [u; v; w]))).
    { assert (Ec : fcart_components f L m deg (S n) (cart3 x y z) = Ok false [Some x; Some y; Some z]) by (unfold cart3, fcart_components, cart_components, rep; cbn [cls_of cart_cls dim_of]; step; reflexivity).
      change (shift3 (a, b, c)) with (OSpatial (cart3 a b c)).
      rewrite (C80_translation_keeps_velocity f L m deg n WCart3 3 (cart3 x y z) (cart3 a b c) [u; v; w] false false _ _ ok (or_intror (or_intror (conj eq_refl eq_refl))) I eq_refl eq_refl Fv (fshift f L m deg n (cart3 x y z) (cart3 a b c) I eq_refl) Ec eq_refl).
      cbn [orb zipc cart3]. cbn [nadd Num_fl flift2]. rewrite Ex, Ey, Ez. reflexivity. }
    assert (G := IH (x', y', z') (u, v, w) rx ry rz ux uy uz Rx Ry Rz Hu Hv Hw). cbn [fst snd] in G.
    exact (eq_trans (f_equal (fun t => bind t (fun r => fcallv f L m deg (S n) (OPipe (map step_op l)) r)) E) (eq_trans (bind_ok _ _) G)).
  - intros Hx Hy Hz [Iu (u' & Eu & Ru)] [Iv (v' & Ev & Rv)] [Iw (w' & Ew & Rw)].
    assert (E : fcallv f L m deg (S n) (OVelBoost (fvel WCart3 [a; b; c])) (VPosVel (cart3 x y z) (fvel WCart3 [u; v; w])) = Ok false (VPosVel (cart3 x y z) (fvel WCart3 [u'; v'; w']))).
    { unfold fcallv. cbn [gcallv gcallv_vec]. rewrite (tvel_zip f L WCart3 3) by (auto; right; right; auto). rewrite bind_ok. unfold ret, vzip, fvel. cbn [vc vcomps efin map combine nadd Num_fl flift2]. rewrite Eu, Ev, Ew. reflexivity. }
    assert (G := IH (x, y, z) (u', v', w') rx ry rz ux uy uz Hx Hy Hz Ru Rv Rw). cbn [fst snd] in G.
    exact (eq_trans (f_equal (fun t => bind t (fun r => fcallv f L m deg (S n) (OPipe (map step_op l)) r)) E) (eq_trans (bind_ok _ _) G)).
Qed.
End Run.
(** [n] translations and [k] boosts, in any order: the errors of the position grow with
    the translations only and those of the velocity with the boosts only. *)
Definition in_range (f : fmt) (v : R) (l : list R) : Prop :=
  Forall (isf f) (v :: l) /\ total_abs (v :: l) * (1 + fu f) ^ length l <= fmax f * (1 - fu f).
Definition chain_error (f : fmt) (v : R) (l : list R) (r : R) : Prop :=
  isf f r /\ Rabs (r - total (v :: l)) <= ((1 + fu f) ^ length l - 1) * total_abs (v :: l).
Theorem C80_histories : forall f L m deg n l x y z u v w, fmt_ok f ->
  in_range f x (xs (translations l)) -> in_range f y (ys (translations l)) -> in_range f z (zs (translations l)) ->
  in_range f u (xs (boosts l)) -> in_range f v (ys (boosts l)) -> in_range f w (zs (boosts l)) ->
  exists rx ry rz ru rv rw,
    fcallv f L m deg (S n) (OPipe (map step_op l)) (VPosVel (cart3 x y z) (fvel WCart3 [u; v; w])) = Ok false (VPosVel (cart3 rx ry rz) (fvel WCart3 [ru; rv; rw])) /\
    chain_error f x (xs (translations l)) rx /\ chain_error f y (ys (translations l)) ry /\ chain_error f z (zs (translations l)) rz /\
    chain_error f u (xs (boosts l)) ru /\ chain_error f v (ys (boosts l)) rv /\ chain_error f w (zs (boosts l)) rw.
Proof.
  intros f L m deg n l x y z u v w ok [F1 B1] [F2 B2] [F3 B3] [F4 B4] [F5 B5] [F6 B6].
  destruct (run_chain f L ok x _ F1 B1) as (rx & R1 & D1). destruct (run_chain f L ok y _ F2 B2) as (ry & R2 & D2). destruct (run_chain f L ok z _ F3 B3) as (rz & R3 & D3).
  destruct (run_chain f L ok u _ F4 B4) as (ru & R4 & D4). destruct (run_chain f L ok v _ F5 B5) as (rv & R5 & D5). destruct (run_chain f L ok w _ F6 B6) as (rw & R6 & D6).
  exists rx, ry, rz, ru, rv, rw. split.
  - exact (run_ops f L ok m deg n l (x, y, z) (u, v, w) rx ry rz ru rv rw R1 R2 R3 R4 R5 R6).
  - unfold chain_error. do 5 (split; [split; [eapply run_isf; eauto|auto]|]). split; [eapply run_isf; eauto|auto].
Qed.
Print Assumptions C80_histories.
(** Only the order of the translations among themselves and of the boosts among
    themselves matters: two interleavings give the same bits. *)
Theorem C80_translations_and_boosts_commute : forall f L m m' deg deg' n n' l l' x y z u v w, fmt_ok f ->
  translations l = translations l' -> boosts l = boosts l' ->
  in_range f x (xs (translations l)) -> in_range f y (ys (translations l)) -> in_range f z (zs (translations l)) ->
  in_range f u (xs (boosts l)) -> in_range f v (ys (boosts l)) -> in_range f w (zs (boosts l)) ->
  fcallv f L m deg (S n) (OPipe (map step_op l)) (VPosVel (cart3 x y z) (fvel WCart3 [u; v; w])) =
  fcallv f L m' deg' (S n') (OPipe (map step_op l')) (VPosVel (cart3 x y z) (fvel WCart3 [u; v; w])).
Proof.
  intros f L m m' deg deg' n n' l l' x y z u v w ok ET EB [F1 B1] [F2 B2] [F3 B3] [F4 B4] [F5 B5] [F6 B6].
  destruct (run_chain f L ok x _ F1 B1) as (rx & R1 & D1). destruct (run_chain f L ok y _ F2 B2) as (ry & R2 & D2). destruct (run_chain f L ok z _ F3 B3) as (rz & R3 & D3).
  destruct (run_chain f L ok u _ F4 B4) as (ru & R4 & D4). destruct (run_chain f L ok v _ F5 B5) as (rv & R5 & D5). destruct (run_chain f L ok w _ F6 B6) as (rw & R6 & D6).
  transitivity (Ok false (VPosVel (cart3 rx ry rz) (fvel WCart3 [ru; rv; rw]))).
  - exact (run_ops f L ok m deg n l (x, y, z) (u, v, w) rx ry rz ru rv rw R1 R2 R3 R4 R5 R6).
  - symmetry. apply (run_ops f L ok m' deg' n' l' (x, y, z) (u, v, w) rx ry rz ru rv rw); rewrite <- ?ET, <- ?EB; assumption.
Qed.
Print Assumptions C80_translations_and_boosts_commute.
(** ** What raises, whatever the numbers *)
Theorem C80_other_calls_raise : forall f L m deg n M T w o o' ops q v e,
  fcallv f L m deg n (ORotation M) (VPosVel q v) = Raise ENotFound /\ fcallv f L m deg n (OGalilean M T w) (VPosVel q v) = Raise ENotFound /\
  fcallv f L m deg n (OSpatial q) (VVel v) = Raise ENotFound /\ fcallv f L m deg n (OPipe []) (VVel v) = Raise ENotFound /\
  (fcallv f L m deg n o (VVel v) = Raise e -> fcallv f L m deg n (OPipe (o :: o' :: ops)) (VVel v) = Raise e) /\
  (forall b r, fcallv f L m deg n o (VVel v) = Ok b r -> fcallv f L m deg n (OPipe (o :: o' :: ops)) (VVel v) = Raise ENotFound) /\
  fcallv f L m deg n (OPipe [o]) (VVel v) = fcallv f L m deg n o (VVel v) /\
  fcallv f L m deg n OIdentity (VVel v) = Ok false (VVel v) /\ fcallv f L m deg n OIdentity (VPosVel q v) = Ok false (VPosVel q v) /\
  fcallv f L m deg n (OPipe []) (VPosVel q v) = Ok false (VPosVel q v).
Proof.
  intros f L m deg n M T w o o' ops q v e. do 4 (split; [reflexivity|]).
  assert (Q : fcallv f L m deg n (OPipe (o :: o' :: ops)) (VVel v) = do _ <- fcallv f L m deg n o (VVel v); Raise ENotFound) by reflexivity.
  split; [intros E; rewrite Q, E; reflexivity|]. split; [intros b r E; rewrite Q, E; reflexivity|]. repeat split; reflexivity.
Qed.
Print Assumptions C80_other_calls_raise.

(** ** The hypotheses are met *)
Example C80_nonvacuous :
  fmt_ok binary32 /\ cart_vel WCart3 3 /\ cartesian (cart3 1 2 3) /\ Forall (isf binary32) [1; 2; 3] /\
  (let l := [inl (1, 2, 3); inr (2, 2, 2); inl (3, 1, 1)] in
   let l' := [inr (2, 2, 2); inl (1, 2, 3); inl (3, 1, 1)] in
   translations l = translations l' /\ boosts l = boosts l' /\
   in_range binary32 1 (xs (translations l)) /\ in_range binary32 1 (xs (boosts l))).
Proof.
  pose proof binary32_ok as ok. assert (M : 64 <= fmax binary32). { unfold fmax. change 64 with (bpow radix2 6). apply bpow_le. simpl. lia. }
  pose proof (fu_pos binary32). pose proof (fu_small binary32 ok).
  assert (U : forall k, (1 <= k <= 3)%Z -> isf binary32 (IZR k)) by (intros k Hk; apply (usable_int binary32 k); auto; lia).
  assert (U1 := U 1%Z). assert (U2 := U 2%Z). assert (U3 := U 3%Z).
  split; [exact ok|]. split; [right; right; auto|]. split; [exact I|].
  split; [repeat (apply Forall_cons; [first [apply U1|apply U2|apply U3]; lia|]); apply Forall_nil|].
  cbn [translations boosts flat_map app xs map]. split; [reflexivity|]. split; [reflexivity|].
  split; (split; [repeat (apply Forall_cons; [first [apply U1|apply U2|apply U3]; lia|]); apply Forall_nil|]).
  - unfold total_abs. cbn [map fold_right length pow]. rewrite !Rabs_pos_eq by lra. assert ((1 + fu binary32) * ((1 + fu binary32) * 1) <= 2) by nra. nra.
  - unfold total_abs. cbn [map fold_right length pow]. rewrite !Rabs_pos_eq by lra. nra.
Qed.
