(** * C76: the ICRS <-> Galactocentric operators in floating point.

    Vocabulary: Float.v, FFrame.v, SpecFFrame.v.  [aff M b x] is M x + b over the
    real numbers; [whole g], [shift g] are the rotation and the offset of the frame
    [g] (FrameThm.v, proved there to be what the operator applies in exact
    arithmetic); here the exact results are taken from the operator itself. *)
From Coq Require Import Reals Bool List ZArith Lra Lia.
From Flocq Require Import Core.
From Verif Require Import Num Vectors Spec Transform Pos3D Pos3DThm Arith Vel UVel FourVec Operators SpecOp OpThm OpInv OpMisc OpSimp
  Frames SpecFrame FrameThm PropFrame GOp GOpThm GFrame Float FloatThm FloatConv PropFloat PropFloat3 PropFloat4 PropFloat5 FVel PropFloat6 PropFloat7 DualPos FFrame SpecFFrame FFrameThm.
Import ListNotations.
Open Scope R_scope.

Section S.
Variable f : fmt.
Variable L : libm.
Hypothesis ok : fmt_ok f.
Notation u := (fu f).
Notation FN := (Num_fl f L).
Variables (m : mode) (deg : bool) (n : nat).
Local Notation cpos o := (PCart3 (Some (nth 0 o 0) : ext) (Some (nth 1 o 0)) (Some (nth 2 o 0))).
Lemma rep3 (x y z : ext) : @represent_as ext FN m deg (S n) nokw (PCart3 x y z) CCart3 = Ok false (PCart3 x y z).
Proof. step. reflexivity. Qed.
Lemma rep3d (x y z : dual) : @represent_as dual (Num_fdual f L) Traced deg (S n) nokw (PCart3 x y z) CCart3 = Ok false (PCart3 x y z).
Proof. step. reflexivity. Qed.
Lemma gapply_run M x a o y ov : @gmatmul_vec ext FN M (efin x) = efin a -> length a = 3%nat -> length o = 3%nat -> length y = 3%nat ->
  @gplus ext FN (efin a) (efin o) = efin y -> @gapply_q ext FN m deg (S n) (M, cpos o, ov) (efin x) = Ok false (efin y).
Proof.
  intros Ea La Lo Ly Ey. destruct (list3 a La) as (a1 & a2 & a3 & ->). destruct (list3 o Lo) as (o1 & o2 & o3 & ->). destruct (list3 y Ly) as (y1 & y2 & y3 & ->).
  unfold gapply_q. rewrite Ea. cbn [map gcart_from nth]. unfold ret. rewrite bind_ok. cbn [pos_add cart_add]. unfold rep. rewrite rep3. unfold ret. rewrite !bind_ok.
  unfold gplus in Ey. cbn [map combine] in Ey.
  unfold cart_components, rep. cbn [cls_of cart_cls]. rewrite rep3, bind_ok. unfold ret. now rewrite <- Ey.
Qed.
(** ** The derivative is the matrix itself *)
Notation "a *! b" := (@nmul ext FN a b) (at level 40, left associativity).
Notation "a +! b" := (@nadd ext FN a b) (at level 50, left associativity).
Lemma l0 x : (Some 0 : ext) *! Some x = Some 0. Proof. apply m0. Qed.
Lemma r0 x : (Some x : ext) *! Some 0 = Some 0. Proof. apply mx0. Qed.
Lemma r1 x : isf f x -> (Some x : ext) *! Some 1 = Some x. Proof. intros. now apply mx1. Qed.
Lemma z1 x : isf f x -> (Some x : ext) +! Some 0 = Some x. Proof. intros. now apply ax0. Qed.
Lemma z2 x : isf f x -> (Some 0 : ext) +! Some x = Some x. Proof. intros. now apply a0. Qed.
Lemma tan0 a x : (Some 0 : ext) *! Some a +! Some x *! Some 0 = Some 0.
Proof. rewrite l0, r0. apply z1. apply PropFloat5.isf0. Qed.
Lemma tan1 a x : isf f x -> (Some 0 : ext) *! Some a +! Some x *! Some 1 = Some x.
Proof. intros I. rewrite l0, r1 by exact I. now apply z2. Qed.
Lemma tangent (a b c x1 x2 x3 k1 k2 k3 w t : R) :
  ((Some 0 : ext) *! Some x1 +! Some a *! Some k1) = Some (a * k1) -> ((Some 0 : ext) *! Some x2 +! Some b *! Some k2) = Some (b * k2) -> ((Some 0 : ext) *! Some x3 +! Some c *! Some k3) = Some (c * k3) ->
  isf f t -> (a * k1 = t /\ b * k2 = 0 /\ c * k3 = 0) \/ (a * k1 = 0 /\ b * k2 = t /\ c * k3 = 0) \/ (a * k1 = 0 /\ b * k2 = 0 /\ c * k3 = t) ->
  dd (@nadd dual (Num_fdual f L) (@nadd dual (Num_fdual f L) (@nadd dual (Num_fdual f L) (@nmul dual (Num_fdual f L) (dconst (Some a)) (mkDual (Some x1) (Some k1)))
    (@nmul dual (Num_fdual f L) (dconst (Some b)) (mkDual (Some x2) (Some k2)))) (@nmul dual (Num_fdual f L) (dconst (Some c)) (mkDual (Some x3) (Some k3)))) (dconst (Some w))) = Some t.
Proof.
  intros E1 E2 E3 I H.
  change ((((Some 0 : ext) *! Some x1 +! Some a *! Some k1) +! ((Some 0 : ext) *! Some x2 +! Some b *! Some k2)) +! ((Some 0 : ext) *! Some x3 +! Some c *! Some k3) +! (Some 0 : ext) = (Some t : ext)).
  rewrite E1, E2, E3. pose proof (PropFloat5.isf0 f) as J0.
  destruct H as [(-> & -> & ->)|[(-> & -> & ->)|(-> & -> & ->)] ]; repeat first [rewrite z1 by assumption|rewrite z2 by assumption]; reflexivity.
Qed.
Lemma column_run M E Q o x i ov : near_mat f E M Q -> length o = 3%nat -> length x = 3%nat -> (i < 3)%nat ->
  fframe_column f L m deg (S n) (M, cpos o, ov) (efin x) i = Ok false (gcolumn i M).
Proof.
  intros (r1 & r2 & r3 & q1 & q2 & q3 & -> & -> & I1 & I2 & I3 & _) Lo Lx Hi.
  destruct (list3 x Lx) as (x1 & x2 & x3 & ->). 
  destruct r1 as [[a1 b1] c1], r2 as [[a2 b2] c2], r3 as [[a3 b3] c3].
  destruct I1 as (? & ? & ?), I2 as (? & ? & ?), I3 as (? & ? & ?).
  unfold fframe_column. cbv beta iota. rewrite rep3, bind_ok. cbn [map seq nth pos_map]. unfold gapply_q, gmatmul_vec. cbn [map gcart_from]. unfold ret. rewrite bind_ok.
  cbn [pos_add cart_add]. unfold rep. rewrite rep3d. unfold ret. rewrite !bind_ok. unfold cart_components, rep. cbn [cls_of cart_cls]. rewrite rep3d, bind_ok. unfold ret. rewrite bind_ok.
  f_equal. assert (T0 : forall a x, (Some 0 : ext) *! Some a +! Some x *! Some 0 = Some (x * 0)) by (intros; rewrite Rmult_0_r; apply tan0).
  assert (T1 : forall a x, isf f x -> (Some 0 : ext) *! Some a +! Some x *! Some 1 = Some (x * 1)) by (intros; rewrite Rmult_1_r; now apply tan1).
  destruct i as [|[|[|]]]; try lia; cbn [Nat.eqb gcolumn map nth frow row]; unfold gdot; cbn [combine map sum_list fold_left];
    repeat (apply (f_equal2 (@cons ext)); [apply tangent; [first [apply T0|apply T1; assumption]..|assumption|rewrite ?Rmult_0_r, ?Rmult_1_r; auto]|]); reflexivity.
Qed.
Lemma jac_run M E Q o x ov : near_mat f E M Q -> length o = 3%nat -> length x = 3%nat ->
  fframe_jac f L m deg (S n) (M, cpos o, ov) (efin x) = Ok false (gtranspose M).
Proof.
  intros H Lo Lx. unfold fframe_jac. cbn [seq mapM]. rewrite !(column_run M E Q) by (auto; lia). rewrite !bind_ok. unfold ret. rewrite !bind_ok. reflexivity.
Qed.
Lemma matvec_run M E Q (p : list ext) : near_mat f E M Q -> length p = 3%nat -> fmatvec f L 3 (gtranspose M) p = @gmatmul_vec ext FN M p.
Proof.
  intros (r1 & r2 & r3 & q1 & q2 & q3 & -> & -> & _) Lp. destruct (list3 p Lp) as (p1 & p2 & p3 & ->).
  destruct r1 as [[a1 b1] c1], r2 as [[a2 b2] c2], r3 as [[a3 b3] c3]. reflexivity.
Qed.
(** ** Applying the parts *)
Lemma qp_run E D B Dv Bv ps Q b bv x p : parts_near f E D B Dv Bv ps Q b bv -> 0 <= E <= 1 -> floats f x -> length x = 3%nat -> floats f p -> length p = 3%nat ->
  size x <= fmax f / 8 -> size x + vec_err f E (size x) + B + D <= fmax f / 2 ->
  size p <= fmax f / 8 -> size p + vec_err f E (size p) + Bv + Dv <= fmax f / 2 ->
  exists y w, @gapply_q ext FN m deg (S n) ps (efin x) = Ok false (efin y) /\
    @gapply_qp ext FN m deg (S n) (fframe_jac f L m deg (S n)) (fmatvec f L) ps (efin x) (efin p) = Ok false (efin y, efin w) /\
    length y = 3%nat /\ length w = 3%nat /\ floats f y /\ floats f w /\
    within (aff_err f E D B (size x)) y (aff Q b x) /\ within (aff_err f E Dv Bv (size p)) w (aff Q bv p).
Proof.
  intros (M & o & ov & -> & N & Fo & Lo & Lb & Wo & Bb & Fv & Lv & Lbv & Wv & Bbv) HE Fx Lx Fp Lp Sx Tx Sp Tp.
  destruct (aff_near f L ok E D B M Q o b x N HE Fo Lo Lb Wo Bb Fx Lx Sx Tx) as (a & y & Ea & La & Ly & Ey & Fy & Wy).
  destruct (aff_near f L ok E Dv Bv M Q ov bv p N HE Fv Lv Lbv Wv Bbv Fp Lp Sp Tp) as (c & w & Ec & Lc & Lw & Ew & Fw & Ww).
  exists y, w. pose proof (gapply_run M x a o y (efin ov) Ea La Lo Ly Ey) as R1. split; [exact R1|]. split; [|auto 10].
  unfold gapply_qp. refine (eq_trans (f_equal (fun t => bind t _) R1) _). rewrite bind_ok.
  refine (eq_trans (f_equal (fun t => bind t _) (jac_run M E Q o x (efin ov) N Lo Lx)) _). rewrite bind_ok. unfold ret. f_equal. f_equal. cbn [snd].
  rewrite (matvec_run M E Q) by (auto; now rewrite map_length). now rewrite Ec.
Qed.
Lemma q_run E D B Dv Bv ps Q b bv x : parts_near f E D B Dv Bv ps Q b bv -> 0 <= E <= 1 -> floats f x -> length x = 3%nat ->
  size x <= fmax f / 8 -> size x + vec_err f E (size x) + B + D <= fmax f / 2 ->
  exists y, @gapply_q ext FN m deg (S n) ps (efin x) = Ok false (efin y) /\ length y = 3%nat /\ floats f y /\ within (aff_err f E D B (size x)) y (aff Q b x).
Proof.
  intros (M & o & ov & -> & N & Fo & Lo & Lb & Wo & Bb & Fv & Lv & Lbv & Wv & Bbv) HE Fx Lx Sx Tx.
  destruct (aff_near f L ok E D B M Q o b x N HE Fo Lo Lb Wo Bb Fx Lx Sx Tx) as (a & y & Ea & La & Ly & Ey & Fy & Wy).
  exists y. pose proof (gapply_run M x a o y (efin ov) Ea La Lo Ly Ey) as R1. auto.
Qed.

(** ** The parts of the inverse operator *)
Hypothesis Lok : libm_ok f L.
Variable e : R.
Hypothesis Lacc : libm_accurate f L e.
Variable s : R -> R.
Variable ea : R.
Hypothesis sacc : asin_accurate f s ea.
Notation eps := (unit_error f e ea).
Lemma rot_diff Q x y d : (exists q1 q2 q3, Q = [rl q1; rl q2; rl q3] /\ unit_row q1 /\ unit_row q2 /\ unit_row q3) -> length x = 3%nat -> length y = 3%nat -> within d x y -> within (2 * d) (rot Q x) (rot Q y).
Proof.
  intros (q1 & q2 & q3 & -> & U1 & U2 & U3) Lx Ly. destruct (list3 x Lx) as (x1 & x2 & x3 & ->). destruct (list3 y Ly) as (y1 & y2 & y3 & ->).
  intros W. apply within3 in W. destruct W as (W1 & W2 & W3). rewrite !rot_rl. apply within3.
  assert (K : forall q, unit_row q -> Rabs (rot_row q x1 x2 x3 - rot_row q y1 y2 y3) <= 2 * d).
  { intros q U. pose proof (row_le2 q (x1 - y1) (x2 - y2) (x3 - y3) d U W1 W2 W3) as H. destruct q as [[a b] c]. cbn [rot_row] in *.
    replace (a * x1 + b * x2 + c * x3 - (a * y1 + b * y2 + c * y3)) with (a * (x1 - y1) + b * (x2 - y2) + c * (x3 - y3)) by ring. exact H. }
  auto.
Qed.
Lemma within_tri a b c d d' : within d a b -> within d' b c -> within (d + d') a c.
Proof.
  unfold within. intros H. revert c. induction H as [|x y a b H1 H2 IH]; intros c H'; inversion H' as [|? z ? c' H3 H4]; subst; constructor; auto.
  replace (x - z) with ((x - y) + (y - z)) by ring. eapply Rle_trans; [apply Rabs_triang|]. lra.
Qed.
Lemma within_w d d' a b : within d a b -> d <= d' -> within d' a b.
Proof. unfold within. intros H K. induction H; constructor; auto. lra. Qed.
Lemma within_neg d a b : within d a b -> within d (vscale (-1) a) (vscale (-1) b).
Proof. unfold within, vscale. intros H. induction H; cbn; constructor; auto. replace (-1 * x - -1 * y) with (- (x - y)) by ring. now rewrite Rabs_Ropp. Qed.
Lemma near_rows E M Q : near_mat f E M Q -> exists q1 q2 q3, Q = [rl q1; rl q2; rl q3] /\ unit_row q1 /\ unit_row q2 /\ unit_row q3.
Proof. intros (r1' & r2' & r3' & q1 & q2 & q3 & _ & -> & _ & _ & _ & _ & _ & _ & O). exists q1, q2, q3. split; auto. now apply orth_unit. Qed.
Lemma neg_opp x : -1 * x = - x. Proof. ring. Qed.
Lemma size_neg x : size (vscale (-1) x) = size x.
Proof. unfold size, vscale. induction x as [|a x IH]; cbn in *; auto. rewrite IH, neg_opp, Rabs_Ropp. auto. Qed.
Lemma floats_neg x : floats f x -> floats f (vscale (-1) x).
Proof. unfold floats, vscale. intros H. induction H; cbn; constructor; auto. rewrite neg_opp. now apply PropFloat4.isf_opp. Qed.
Lemma nneg_neg x : map (@nneg ext FN) (efin x) = efin (vscale (-1) x).
Proof. unfold vscale. rewrite !map_map. apply map_ext. intros a. cbn. f_equal. ring. Qed.
Lemma near_vec' E M Q x : near_mat f E M Q -> 0 <= E <= 1 -> floats f x -> length x = 3%nat -> size x <= fmax f / 8 ->
  exists y, @gmatmul_vec ext FN M (efin x) = efin y /\ length y = 3%nat /\ floats f y /\ within (vec_err f E (size x)) y (rot Q x).
Proof.
  intros N HE Fx Lx Sx. destruct (list3 x Lx) as (x1 & x2 & x3 & ->). apply floats3 in Fx. destruct Fx as (? & ? & ?).
  destruct (near_vec f L ok E M Q x1 x2 x3) as (a & b & c & Ey & Fy & Wy); auto. exists [a; b; c]. auto.
Qed.
Lemma size_bound x B : length x = 3%nat -> Forall (fun v => Rabs v <= B) x -> size x <= 3 * B.
Proof. intros Lx. destruct (list3 x Lx) as (a & b & c & ->). intros H. repeat (apply Forall_cons_iff in H; let K := fresh in destruct H as [K H]). rewrite size3. lra. Qed.
Lemma within_bound x y d B : within d x y -> Forall (fun v => Rabs v <= B) y -> Forall (fun v => Rabs v <= B + d) x.
Proof.
  unfold within. intros H. induction H as [|a b x y H1 H2 IH]; intros K; constructor; apply Forall_cons_iff in K; destruct K as [K1 K2]; auto.
  replace a with (b + (a - b)) by ring. eapply Rle_trans; [apply Rabs_triang|]. lra.
Qed.
Lemma rot_bound Q x B : (exists q1 q2 q3, Q = [rl q1; rl q2; rl q3] /\ unit_row q1 /\ unit_row q2 /\ unit_row q3) -> length x = 3%nat -> Forall (fun v => Rabs v <= B) x -> Forall (fun v => Rabs v <= 2 * B) (rot Q x).
Proof.
  intros (q1 & q2 & q3 & -> & U1 & U2 & U3) Lx. destruct (list3 x Lx) as (a & b & c & ->). intros H. repeat (apply Forall_cons_iff in H; let K := fresh "K" in destruct H as [K H]).
  rewrite rot_rl. repeat (apply Forall_cons; [now apply row_le2|]). apply Forall_nil.
Qed.
Lemma rot_size Q x : (exists q1 q2 q3, Q = [rl q1; rl q2; rl q3] /\ unit_row q1 /\ unit_row q2 /\ unit_row q3) -> length x = 3%nat -> Forall (fun v => Rabs v <= size x) (rot Q x).
Proof.
  intros (q1 & q2 & q3 & -> & U1 & U2 & U3) Lx. destruct (list3 x Lx) as (a & b & c & ->).
  rewrite rot_rl, size3. repeat (apply Forall_cons; [now apply row_le|]). apply Forall_nil.
Qed.
Lemma bound_neg x B : Forall (fun v => Rabs v <= B) x -> Forall (fun v => Rabs v <= B) (vscale (-1) x).
Proof. unfold vscale. intros H. induction H; cbn; constructor; auto. now rewrite neg_opp, Rabs_Ropp. Qed.
Lemma rotate_run M E Q a b c y : near_mat f E M Q -> @gmatmul_vec ext FN M (efin [a; b; c]) = efin y -> length y = 3%nat ->
  @grotate ext FN m deg (S n) M (PCart3 (Some a) (Some b) (Some c)) = Ok false (cpos y).
Proof.
  intros N Ey Ly. destruct (list3 y Ly) as (y1 & y2 & y3 & ->). unfold grotate. cbn [cls_of dim_of]. unfold rep. rewrite rep3, bind_ok.
  change ([Some a; Some b; Some c] : list ext) with (efin [a; b; c]). rewrite Ey. cbn [map nth]. now rewrite rep3.
Qed.
Lemma to_icrs_near g : float_frame f g -> eps <= / 1024 -> dval (g_dist g) <= fmax f / 64 -> size (g_vsun g) <= fmax f / 64 ->
  exists ps, @gto_icrs_parts ext FN m deg (S n) (fasin s) (froll0 f) (gfinite g) = Ok false ps /\
    parts_near f (29 * eps) (94 * eps * dval (g_dist g) + 13 * eta f) (2 * dval (g_dist g)) (30 * eps * size (g_vsun g) + 4 * eta f) (size (g_vsun g)) ps
      (tr (whole g)) (back g) (back_v g).
Proof.
  intros G He Hd Hv. destruct (to_gcf_near f L ok Lok e Lacc s ea sacc g G He Hd) as (ps & Ep & (M & o & ov & -> & N & Fo & Lo & Lb & Wo & Bb & Fv & Lv & Lbv & Wv & Bbv)).
  destruct (eps_facts f L ok Lok e Lacc s ea sacc He) as (P & U8 & E8 & E1 & Eu & Ne). destruct (eta_u f ok) as [N0 N1]. pose proof (max_big f ok) as MB.
  set (d := dval (g_dist g)) in *. assert (Pd : 0 < d) by apply G. set (b := shift g) in *. set (vs := g_vsun g) in *.
  pose proof (near_tr f L _ _ _ N) as NT. pose proof (near_rows _ _ _ NT) as RT. set (Q := tr (whole g)) in *.
  assert (ED : 0 <= eps * d <= d / 1024) by nra.
  set (D := 2 * eps * d + 4 * eta f) in *. assert (HD : D <= d / 512 + 4 * eta f) by (unfold D; lra). assert (D0 : 0 <= D) by (unfold D; lra).
  pose proof (within_bound _ _ _ _ Wo Bb) as Bo. pose proof (size_bound o _ Lo Bo) as So.
  assert (So' : size o <= fmax f / 8) by lra.
  destruct (near_vec' (29 * eps) _ Q (vscale (-1) o) NT ltac:(lra) (floats_neg o Fo) ltac:(now rewrite vscale_length) ltac:(rewrite size_neg; lra)) as (o' & Eo & Lo' & Fo' & Wo').
  assert (Wv0 : ov = vs). { unfold within in Wv. clear -Wv. induction Wv as [|x y l l' H _ IH]; auto. f_equal; auto. apply Rabs_le_inv in H. lra. }
  subst ov. destruct (near_vec' (29 * eps) _ Q (vscale (-1) vs) NT ltac:(lra) (floats_neg vs Fv) ltac:(now rewrite vscale_length) ltac:(rewrite size_neg; lra)) as (v' & Ev & Lv' & Fv' & Wv').
  rewrite size_neg in *.
  eexists. split.
  { unfold gto_icrs_parts. rewrite Ep, bind_ok. cbv beta iota. destruct (list3 o Lo) as (o1 & o2 & o3 & ->). cbn [pos_neg cart_neg nth]. unfold ret. rewrite bind_ok.
    unfold vscale in Eo. cbn [map] in Eo. rewrite !neg_opp in Eo. refine (eq_trans (f_equal (fun t => bind t _) (rotate_run _ _ _ (- o1) (- o2) (- o3) o' NT Eo Lo')) _). rewrite bind_ok. rewrite nneg_neg, Ev. reflexivity. }
  exists (@gtranspose ext FN M), o', v'. split; [reflexivity|]. split; [exact NT|]. split; [exact Fo'|]. split; [exact Lo'|]. split; [reflexivity|]. split.
  { eapply within_w; [eapply within_tri; [exact Wo'|]|].
    - apply rot_diff; [exact RT|now rewrite vscale_length|now rewrite vscale_length|apply within_neg; exact Wo].
    - pose proof (vec_bound f L ok Lok e Lacc s ea sacc (29 * eps) (size o) 29 He ltac:(lra) ltac:(lra) ltac:(apply size_pos)) as VB.
      assert (eps * size o <= eps * (3 * (d + D))) by (apply Rmult_le_compat_l; lra). assert (eps * D <= D / 1024) by nra. unfold D in *. nra. }
  split. { unfold back. apply rot_bound; [exact RT|now rewrite vscale_length|]. now apply bound_neg. }
  split; [exact Fv'|]. split; [exact Lv'|]. split; [reflexivity|]. split.
  { eapply within_w; [exact Wv'|]. pose proof (vec_bound f L ok Lok e Lacc s ea sacc (29 * eps) (size vs) 29 He ltac:(lra) ltac:(lra) ltac:(apply size_pos)) as VB. pose proof (size_pos vs). nra. }
  unfold back_v. rewrite <- (size_neg vs). apply rot_size; [exact RT|now rewrite vscale_length].
Qed.

Lemma calls_run parts ps x p y w : parts = Ok false ps -> length x = 3%nat -> length p = 3%nat -> length y = 3%nat ->
  @gapply_q ext FN m deg (S n) ps (efin x) = Ok false (efin y) ->
  @gapply_qp ext FN m deg (S n) (fframe_jac f L m deg (S n)) (fmatvec f L) ps (efin x) (efin p) = Ok false (efin y, efin w) ->
  let call := @gframe_call ext FN m deg (S n) (fframe_jac f L m deg (S n)) (fmatvec f L) (fvel_represent_as f L m deg (S n) nokw) parts in
  call (FArr (efin x)) = Ok false (FArr (efin y)) /\ call (FArrs (efin x) (efin p)) = Ok false (FArrs (efin y) (efin w)) /\
  call (FPosVel (cpos x) (mkVel WCart3 (efin p))) = Ok false (FPosVel (cpos y) (mkVel WCart3 (efin w))).
Proof.
  intros -> Lx Lp Ly R1 R2. cbv zeta. destruct (list3 x Lx) as (x1 & x2 & x3 & ->). destruct (list3 p Lp) as (p1 & p2 & p3 & ->). destruct (list3 y Ly) as (y1 & y2 & y3 & ->).
  unfold gframe_call. split; [|split].
  - refine (eq_trans (f_equal (fun t => bind t _) (eq_refl : Ok false ps = Ok false ps)) _). rewrite bind_ok. refine (eq_trans (f_equal (fun t => bind t _) R1) _). now rewrite bind_ok.
  - cbn [map] in *. rewrite bind_ok. refine (eq_trans (f_equal (fun t => bind t _) R2) _). now rewrite bind_ok.
  - cbn [cls_of dim_of]. assert (V : fvel_represent_as f L m deg (S n) nokw (mkVel WCart3 (efin [p1; p2; p3])) WCart3 (cpos [x1; x2; x3]) = Ok false (mkVel WCart3 (efin [p1; p2; p3]))) by reflexivity.
    refine (eq_trans (f_equal (fun t => bind t _) V) _). rewrite bind_ok. unfold cart_components at 1, rep. cbn [cls_of cart_cls nth]. rewrite rep3, bind_ok. unfold ret at 1. rewrite !bind_ok.
    refine (eq_trans (f_equal (fun t => bind t _) R2) _). rewrite bind_ok. reflexivity.
Qed.
End S.

(** ** C76 *)
Definition cart (x : list R) : pos ext := PCart3 (Some (nth 0 x 0)) (Some (nth 1 x 0)) (Some (nth 2 x 0)).
(** The setting: a format of the usual shape, a library of the stated accuracy, a
    frame whose data are numbers of the format, and no coordinate near overflow. *)
Definition setting (f : fmt) (L : libm) (e : R) (s : R -> R) (ea : R) (g : gcf R) : Prop :=
  fmt_ok f /\ libm_ok f L /\ libm_accurate f L e /\ asin_accurate f s ea /\ unit_error f e ea <= / 1024 /\
  float_frame f g /\ dval (g_dist g) <= fmax f / 64 /\ size (g_vsun g) <= fmax f / 64.
Definition coordinates (f : fmt) (x : list R) : Prop := floats f x /\ length x = 3%nat /\ size x <= fmax f / 64.

Lemma eps0 f L e s ea g : setting f L e s ea g -> 0 < unit_error f e ea <= / 1024 /\ 8 * fu f <= unit_error f e ea /\ 0 < eta f /\ 256 * eta f <= fu f /\ 256 <= fmax f /\ fu f <= / 256 /\ 0 < fu f.
Proof.
  intros (ok & Lok & Lacc & sacc & He & _). destruct (eps_facts f L ok Lok e Lacc s ea sacc He) as (P & U8 & E8 & E1 & Eu & Ne). destruct (eta_u f ok) as [N0 N1]. pose proof (max_big f ok) as MB. pose proof (u_small8 f ok) as US. lra.
Qed.
Lemma aff_bound f L e s ea g S B D a c : setting f L e s ea g -> 0 <= S -> 0 <= B -> 0 <= D <= a * (unit_error f e ea * B) + c * eta f -> 0 <= a <= 96 -> 0 <= c <= 20 ->
  vec_err f (29 * unit_error f e ea) S <= 30 * (unit_error f e ea * S) + 4 * eta f /\
  aff_err f (29 * unit_error f e ea) D B S <= 31 * (unit_error f e ea * S) + (a + 1) * (unit_error f e ea * B) + (c + 5) * eta f /\
  unit_error f e ea * S <= S / 1024 /\ unit_error f e ea * B <= B / 1024.
Proof.
  intros ST HS HB [D0 HD] Ha Hc. destruct (eps0 _ _ _ _ _ _ ST) as ((P & Pe) & U8 & N0 & N1 & MB & US & U0). destruct ST as (ok & Lok & Lacc & sacc & He & _).
  pose proof (vec_bound f L ok Lok e Lacc s ea sacc (29 * unit_error f e ea) S 29 He ltac:(lra) ltac:(lra) HS) as VB. set (ep := unit_error f e ea) in *.
  assert (Q1 : 0 <= ep * S <= S / 1024) by nra. assert (Q2 : 0 <= ep * B <= B / 1024) by nra.
  assert (V : vec_err f (29 * ep) S <= (29 + 9 / 16) * (ep * S) + 4 * eta f) by lra.
  assert (T : S + vec_err f (29 * ep) S + B + D <= 33 / 32 * S + 4 * eta f + 9 / 8 * B + 20 * eta f).
  { assert (a * (ep * B) <= 96 * (B / 1024)) by (apply Rmult_le_compat; lra). assert (c * eta f <= 20 * eta f) by (apply Rmult_le_compat_r; lra). lra. }
  assert (T' : fu f * (S + vec_err f (29 * ep) S + B + D) <= ep / 8 * (33 / 32 * S + 4 * eta f + 9 / 8 * B + 20 * eta f)).
  { apply Rle_trans with (fu f * (33 / 32 * S + 4 * eta f + 9 / 8 * B + 20 * eta f)); [apply Rmult_le_compat_l; lra|]. apply Rmult_le_compat_r; [|lra]. lra. }
  assert (T2 : ep * eta f <= eta f / 1024) by nra.
  split; [lra|]. split; [|lra]. unfold aff_err. lra.
Qed.
Lemma gcf_run f L e s ea g m deg n x p : setting f L e s ea g -> coordinates f x -> coordinates f p ->
  exists y w, fframe f L s m deg (S n) (FToGCF (gfinite g)) (FArr (efin x)) = Ok false (FArr (efin y)) /\
    fframe f L s m deg (S n) (FToGCF (gfinite g)) (FArrs (efin x) (efin p)) = Ok false (FArrs (efin y) (efin w)) /\
    fframe f L s m deg (S n) (FToGCF (gfinite g)) (FPosVel (cart x) (mkVel WCart3 (efin p))) = Ok false (FPosVel (cart y) (mkVel WCart3 (efin w))) /\
    length y = 3%nat /\ length w = 3%nat /\ floats f y /\ floats f w /\
    within (31 * unit_error f e ea * size x + 3 * unit_error f e ea * dval (g_dist g) + 9 * eta f) y (aff (whole g) (shift g) x) /\
    within (31 * unit_error f e ea * size p + unit_error f e ea * size (g_vsun g) + 5 * eta f) w (aff (whole g) (g_vsun g) p).
Proof.
  intros ST (Fx & Lx & Sx) (Fp & Lp & Sp). destruct (eps0 _ _ _ _ _ _ ST) as ((P & Pe) & U8 & N0 & N1 & MB & US & U0). pose proof ST as (ok & Lok & Lacc & sacc & He & G & Hd & Hv).
  destruct (to_gcf_near f L ok Lok e Lacc s ea sacc g G He Hd) as (ps & Ep & Np). pose proof (size_pos x) as Px. pose proof (size_pos p) as Pp. pose proof (size_pos (g_vsun g)) as Pv.
  assert (Pd : 0 < dval (g_dist g)) by apply G.
  destruct (aff_bound f L e s ea g (size x) (dval (g_dist g)) (2 * unit_error f e ea * dval (g_dist g) + 4 * eta f) 2 4 ST) as (A1 & A2 & A3 & A4); [lra|lra|split; [assert (0 <= unit_error f e ea * dval (g_dist g)) by nra|]; lra|lra|lra|].
  destruct (aff_bound f L e s ea g (size p) (size (g_vsun g)) 0 0 0 ST) as (B1 & B2 & B3 & B4); [lra|lra|lra|lra|lra|].
  destruct (qp_run f L ok m deg n _ _ _ _ _ _ _ _ _ x p Np ltac:(lra) Fx Lx Fp Lp ltac:(lra) ltac:(lra) ltac:(lra) ltac:(lra)) as (y & w & R1 & R2 & Ly & Lw & Fy & Fw & Wy & Ww).
  destruct (calls_run f L m deg n _ ps x p y w Ep Lx Lp Ly R1 R2) as (C1 & C2 & C3).
  exists y, w. split; [exact C1|]. split; [exact C2|]. split; [exact C3|]. do 4 (split; [assumption|]). split; (eapply within_w; [eassumption|lra]).
Qed.
Lemma icrs_run f L e s ea g m deg n x p : setting f L e s ea g -> coordinates f x -> coordinates f p ->
  exists y w, fframe f L s m deg (S n) (FToICRS (gfinite g)) (FArr (efin x)) = Ok false (FArr (efin y)) /\
    fframe f L s m deg (S n) (FToICRS (gfinite g)) (FArrs (efin x) (efin p)) = Ok false (FArrs (efin y) (efin w)) /\
    fframe f L s m deg (S n) (FToICRS (gfinite g)) (FPosVel (cart x) (mkVel WCart3 (efin p))) = Ok false (FPosVel (cart y) (mkVel WCart3 (efin w))) /\
    length y = 3%nat /\ length w = 3%nat /\ floats f y /\ floats f w /\
    within (31 * unit_error f e ea * size x + 96 * unit_error f e ea * dval (g_dist g) + 18 * eta f) y (aff (tr (whole g)) (back g) x) /\
    within (31 * unit_error f e ea * size p + 31 * unit_error f e ea * size (g_vsun g) + 9 * eta f) w (aff (tr (whole g)) (back_v g) p).
Proof.
  intros ST (Fx & Lx & Sx) (Fp & Lp & Sp). destruct (eps0 _ _ _ _ _ _ ST) as ((P & Pe) & U8 & N0 & N1 & MB & US & U0). pose proof ST as (ok & Lok & Lacc & sacc & He & G & Hd & Hv).
  destruct (to_icrs_near f L ok m deg n Lok e Lacc s ea sacc g G He Hd Hv) as (ps & Ep & Np). pose proof (size_pos x) as Px. pose proof (size_pos p) as Pp. pose proof (size_pos (g_vsun g)) as Pv.
  assert (Pd : 0 < dval (g_dist g)) by apply G.
  destruct (aff_bound f L e s ea g (size x) (2 * dval (g_dist g)) (94 * unit_error f e ea * dval (g_dist g) + 13 * eta f) 47 13 ST) as (A1 & A2 & A3 & A4); [lra|lra|split; [assert (0 <= unit_error f e ea * dval (g_dist g)) by nra|]; lra|lra|lra|].
  destruct (aff_bound f L e s ea g (size p) (size (g_vsun g)) (30 * unit_error f e ea * size (g_vsun g) + 4 * eta f) 30 4 ST) as (B1 & B2 & B3 & B4); [lra|lra|split; [assert (0 <= unit_error f e ea * size (g_vsun g)) by nra|]; lra|lra|lra|].
  destruct (qp_run f L ok m deg n _ _ _ _ _ _ _ _ _ x p Np ltac:(lra) Fx Lx Fp Lp ltac:(lra) ltac:(lra) ltac:(lra) ltac:(lra)) as (y & w & R1 & R2 & Ly & Lw & Fy & Fw & Wy & Ww).
  destruct (calls_run f L m deg n _ ps x p y w Ep Lx Lp Ly R1 R2) as (C1 & C2 & C3).
  exists y, w. split; [exact C1|]. split; [exact C2|]. split; [exact C3|]. do 4 (split; [assumption|]). split; (eapply within_w; [eassumption|lra]).
Qed.
(** Both operators on both arrays and vectors: what is computed is within the given
    distances of what is computed in exact arithmetic. *)
Theorem C76_icrs_to_galactocentric : forall f L e s ea m deg n k g x p,
  setting f L e s ea g -> coordinates f x -> coordinates f p ->
  let eps := unit_error f e ea in let op := FToGCF (gfinite g) in
  exists X P x' p',
    fcall m deg (4 + k) op (FArrs (efin x) (efin p)) = Ok false (FArrs (efin X) (efin P)) /\
    fframe f L s m deg (S n) op (FArrs (efin x) (efin p)) = Ok false (FArrs (efin x') (efin p')) /\
    fframe f L s m deg (S n) op (FArr (efin x)) = Ok false (FArr (efin x')) /\
    fframe f L s m deg (S n) op (FPosVel (cart x) (mkVel WCart3 (efin p))) = Ok false (FPosVel (cart x') (mkVel WCart3 (efin p'))) /\
    floats f x' /\ floats f p' /\
    within (32 * eps * (size x + dval (g_dist g)) + 24 * eta f) x' X /\
    within (32 * eps * (size p + size (g_vsun g)) + 24 * eta f) p' P.
Proof.
  intros f L e s ea m deg n k g x p ST Cx Cp. cbv zeta. destruct (gcf_run f L e s ea g m deg n x p ST Cx Cp) as (y & w & C1 & C2 & C3 & Ly & Lw & Fy & Fw & Wy & Ww).
  destruct (eps0 _ _ _ _ _ _ ST) as ((P & Pe) & U8 & N0 & N1 & MB & US & U0). pose proof ST as (ok & Lok & Lacc & sacc & He & G & Hd & Hv).
  assert (Pd : 0 < dval (g_dist g)) by apply G. pose proof (size_pos x) as Px. pose proof (size_pos p) as Pp. pose proof (size_pos (g_vsun g)) as Pv.
  destruct (to_gcf_affine m deg k g (proj1 G)) as (_ & _ & _ & _ & A & _).
  exists (aff (whole g) (shift g) x), (aff (whole g) (g_vsun g) p), y, w.
  split; [apply A; [apply Cx|apply Cp]|]. do 5 (split; [assumption|]). split; (eapply within_w; [eassumption|nra]).
Qed.
Print Assumptions C76_icrs_to_galactocentric.
Theorem C76_galactocentric_to_icrs : forall f L e s ea m deg n k g x p,
  setting f L e s ea g -> coordinates f x -> coordinates f p ->
  let eps := unit_error f e ea in let op := FToICRS (gfinite g) in
  exists X P x' p',
    fcall m deg (4 + k) op (FArrs (efin x) (efin p)) = Ok false (FArrs (efin X) (efin P)) /\
    fframe f L s m deg (S n) op (FArrs (efin x) (efin p)) = Ok false (FArrs (efin x') (efin p')) /\
    fframe f L s m deg (S n) op (FArr (efin x)) = Ok false (FArr (efin x')) /\
    fframe f L s m deg (S n) op (FPosVel (cart x) (mkVel WCart3 (efin p))) = Ok false (FPosVel (cart x') (mkVel WCart3 (efin p'))) /\
    floats f x' /\ floats f p' /\
    within (32 * eps * size x + 100 * eps * dval (g_dist g) + 24 * eta f) x' X /\
    within (32 * eps * (size p + size (g_vsun g)) + 24 * eta f) p' P.
Proof.
  intros f L e s ea m deg n k g x p ST Cx Cp. cbv zeta. destruct (icrs_run f L e s ea g m deg n x p ST Cx Cp) as (y & w & C1 & C2 & C3 & Ly & Lw & Fy & Fw & Wy & Ww).
  destruct (eps0 _ _ _ _ _ _ ST) as ((P & Pe) & U8 & N0 & N1 & MB & US & U0). pose proof ST as (ok & Lok & Lacc & sacc & He & G & Hd & Hv).
  assert (Pd : 0 < dval (g_dist g)) by apply G. pose proof (size_pos x) as Px. pose proof (size_pos p) as Pp. pose proof (size_pos (g_vsun g)) as Pv.
  destruct (to_icrs_affine m deg k g (proj1 G)) as (_ & _ & _ & _ & A & _).
  exists (aff (tr (whole g)) (back g) x), (aff (tr (whole g)) (back_v g) p), y, w.
  split; [apply A; [apply Cx|apply Cp]|]. do 5 (split; [assumption|]). split; (eapply within_w; [eassumption|nra]).
Qed.
Print Assumptions C76_galactocentric_to_icrs.

(** ** There and back again *)
Lemma aff_size Q b x B : (exists q1 q2 q3, Q = [rl q1; rl q2; rl q3] /\ unit_row q1 /\ unit_row q2 /\ unit_row q3) -> length x = 3%nat -> length b = 3%nat ->
  Forall (fun v => Rabs v <= B) b -> size (aff Q b x) <= 3 * size x + 3 * B.
Proof.
  intros RQ Lx Lb Bb. pose proof (rot_size Q x RQ Lx) as RS. destruct RQ as (q1 & q2 & q3 & -> & _). destruct (list3 x Lx) as (x1 & x2 & x3 & ->). destruct (list3 b Lb) as (b1 & b2 & b3 & ->).
  unfold aff. rewrite rot_rl in *. cbn [vadd combine map]. rewrite (size3 (_ + _)).
  repeat (apply Forall_cons_iff in Bb; let K := fresh "K" in destruct Bb as [K Bb]). repeat (apply Forall_cons_iff in RS; let K := fresh "M" in destruct RS as [K RS]).
  pose proof (Rabs_triang (rot_row q1 x1 x2 x3) b1). pose proof (Rabs_triang (rot_row q2 x1 x2 x3) b2). pose proof (Rabs_triang (rot_row q3 x1 x2 x3) b3). lra.
Qed.
Lemma size_within x y d : length x = 3%nat -> within d x y -> size x <= size y + 3 * d.
Proof.
  intros Lx W. destruct (list3 x Lx) as (a & b & c & ->). assert (Ly : length y = 3%nat) by (rewrite <- Lx; symmetry; clear Lx; unfold within in W; induction W; cbn; auto).
  destruct (list3 y Ly) as (a' & b' & c' & ->). apply within3 in W. destruct W as (W1 & W2 & W3). rewrite !size3.
  assert (K : forall p q, Rabs (p - q) <= d -> Rabs p <= Rabs q + d). { intros p q H. replace p with (q + (p - q)) by ring. eapply Rle_trans; [apply Rabs_triang|]. lra. }
  pose proof (K _ _ W1). pose proof (K _ _ W2). pose proof (K _ _ W3). lra.
Qed.
Lemma aff_lip Q b x y d : (exists q1 q2 q3, Q = [rl q1; rl q2; rl q3] /\ unit_row q1 /\ unit_row q2 /\ unit_row q3) -> length x = 3%nat -> length y = 3%nat -> length b = 3%nat ->
  within d x y -> within (2 * d) (aff Q b x) (aff Q b y).
Proof.
  intros RQ Lx Ly Lb W. pose proof (rot_diff Q x y d RQ Lx Ly W) as RD. destruct RQ as (q1 & q2 & q3 & -> & _). destruct (list3 x Lx) as (x1 & x2 & x3 & ->). destruct (list3 y Ly) as (y1 & y2 & y3 & ->). destruct (list3 b Lb) as (b1 & b2 & b3 & ->).
  unfold aff. rewrite !rot_rl in *. cbn [vadd combine map]. apply within3 in RD. apply within3.
  assert (K : forall p q b, p + b - (q + b) = p - q) by (intros; ring). rewrite !K. auto.
Qed.
Lemma turn_rows g : (exists q1 q2 q3, whole g = [rl q1; rl q2; rl q3] /\ unit_row q1 /\ unit_row q2 /\ unit_row q3) /\ (exists q1 q2 q3, tr (whole g) = [rl q1; rl q2; rl q3] /\ unit_row q1 /\ unit_row q2 /\ unit_row q3).
Proof.
  assert (K : forall Q, orthogonal Q -> exists q1 q2 q3, Q = [rl q1; rl q2; rl q3] /\ unit_row q1 /\ unit_row q2 /\ unit_row q3).
  { intros Q O. destruct (ortho_inv Q O) as (a & b & c & d & e' & g' & h & i & j & -> & _). exists (a, b, c), (d, e', g'), (h, i, j). split; auto. now apply orth_unit. }
  split; apply K; [apply whole_ortho|apply ortho_tr, whole_ortho].
Qed.
Lemma shift_bounds g : good_frame g -> Forall (fun v => Rabs v <= dval (g_dist g)) (shift g) /\ Forall (fun v => Rabs v <= 2 * dval (g_dist g)) (back g).
Proof.
  intros (_ & D & _). assert (S1 : Forall (fun v => Rabs v <= dval (g_dist g)) (shift g)).
  { assert (RN : exists q1 q2 q3, map (map Ropp) (ey (tilt g)) = [rl q1; rl q2; rl q3] /\ unit_row q1 /\ unit_row q2 /\ unit_row q3).
    { pose proof (ortho_neg _ (ey_ortho (tilt g))) as O. destruct (ortho_inv _ O) as (a & b & c & d & e' & g' & h & i & j & E & _). rewrite E in *. exists (a, b, c), (d, e', g'), (h, i, j). split; auto. now apply orth_unit. }
    pose proof (rot_size _ [dval (g_dist g) * 1; dval (g_dist g) * 0; dval (g_dist g) * 0] RN eq_refl) as RS. unfold shift. rewrite size3, Rmult_1_r, Rmult_0_r, Rabs_R0, (Rabs_pos_eq (dval (g_dist g))) in RS by lra.
    rewrite Rmult_1_r, Rmult_0_r. apply Forall_impl with (2 := RS). intros. lra. }
  split; auto. unfold back. apply rot_bound; [apply turn_rows|reflexivity|]. now apply bound_neg.
Qed.
Lemma vel_bounds g : length (g_vsun g) = 3%nat -> Forall (fun v => Rabs v <= size (g_vsun g)) (back_v g).
Proof. intros Lv. unfold back_v. rewrite <- (size_neg (g_vsun g)). apply rot_size; [apply turn_rows|]. now rewrite vscale_length. Qed.
Theorem C76_round_trip : forall f L e s ea m deg n g x p,
  setting f L e s ea g -> floats f x -> length x = 3%nat -> floats f p -> length p = 3%nat ->
  size x + dval (g_dist g) <= fmax f / 512 -> size p + size (g_vsun g) <= fmax f / 512 ->
  let eps := unit_error f e ea in
  let there := FToGCF (gfinite g) in let back := gfinverse there in
  exists x' p' x'' p'',
    (do y <- fframe f L s m deg (S n) there (FArrs (efin x) (efin p)); fframe f L s m deg (S n) back y) = Ok false (FArrs (efin x') (efin p')) /\
    (do y <- fframe f L s m deg (S n) back (FArrs (efin x) (efin p)); fframe f L s m deg (S n) there y) = Ok false (FArrs (efin x'') (efin p'')) /\
    within (512 * eps * (size x + dval (g_dist g)) + 64 * eta f) x' x /\ within (512 * eps * (size p + size (g_vsun g)) + 64 * eta f) p' p /\
    within (512 * eps * (size x + dval (g_dist g)) + 64 * eta f) x'' x /\ within (512 * eps * (size p + size (g_vsun g)) + 64 * eta f) p'' p.
Proof.
  intros f L e s ea m deg n g x p ST Fx Lx Fp Lp Sx Sp. cbv zeta. cbn [gfinverse].
  destruct (eps0 _ _ _ _ _ _ ST) as ((P & Pe) & U8 & N0 & N1 & MB & US & U0). pose proof ST as (ok & Lok & Lacc & sacc & He & G & Hd & Hv).
  assert (Pd : 0 < dval (g_dist g)) by apply G. pose proof (size_pos x) as Px. pose proof (size_pos p) as Pp. pose proof (size_pos (g_vsun g)) as Pv.
  assert (Lv : length (g_vsun g) = 3%nat) by apply G. destruct (shift_bounds g (proj1 G)) as [SB BB]. pose proof (vel_bounds g Lv) as VB. destruct (turn_rows g) as [RW RT]. pose proof (abs_size (g_vsun g)) as AV.
  assert (Cx : coordinates f x) by (split; [auto|split; [auto|lra] ]). assert (Cp : coordinates f p) by (split; [auto|split; [auto|lra] ]).
  destruct (gcf_run f L e s ea g m deg n x p ST Cx Cp) as (y & w & _ & C2 & _ & Ly & Lw & Fy & Fw & Wy & Ww).
  destruct (icrs_run f L e s ea g m deg n x p ST Cx Cp) as (y2 & w2 & _ & D2 & _ & Ly2 & Lw2 & Fy2 & Fw2 & Wy2 & Ww2).
  pose proof (size_within _ _ _ Ly Wy) as S1. pose proof (size_within _ _ _ Lw Ww) as S2. pose proof (size_within _ _ _ Ly2 Wy2) as S3. pose proof (size_within _ _ _ Lw2 Ww2) as S4.
  pose proof (aff_size _ _ x _ RW Lx (shift_length g) SB) as T1. pose proof (aff_size _ (g_vsun g) p _ RW Lp Lv AV) as T2. pose proof (aff_size _ (back g) x _ RT Lx eq_refl BB) as T3. pose proof (aff_size _ (back_v g) p _ RT Lp eq_refl VB) as T4.
  set (ep := unit_error f e ea) in *. set (d := dval (g_dist g)) in *. set (sv := size (g_vsun g)) in *.
  assert (Q1 : 0 <= ep * size x <= size x / 1024) by nra. assert (Q2 : 0 <= ep * size p <= size p / 1024) by nra. assert (Q3 : 0 <= ep * d <= d / 1024) by nra. assert (Q4 : 0 <= ep * sv <= sv / 1024) by nra.
  assert (Cy : coordinates f y) by (split; [auto|split; [auto|lra] ]). assert (Cw : coordinates f w) by (split; [auto|split; [auto|lra] ]).
  assert (Cy2 : coordinates f y2) by (split; [auto|split; [auto|lra] ]). assert (Cw2 : coordinates f w2) by (split; [auto|split; [auto|lra] ]).
  destruct (icrs_run f L e s ea g m deg n y w ST Cy Cw) as (x' & p' & _ & E2 & _ & Lx' & Lp' & _ & _ & Wx' & Wp').
  destruct (gcf_run f L e s ea g m deg n y2 w2 ST Cy2 Cw2) as (x'' & p'' & _ & E3 & _ & Lx'' & Lp'' & _ & _ & Wx'' & Wp'').
  fold ep d sv in Wx', Wp', Wx'', Wp''.
  exists x', p', x'', p''. split; [rewrite C2, bind_ok; exact E2|]. split; [rewrite D2, bind_ok; exact E3|].
  assert (O := whole_ortho g).
  pose proof (aff_lip _ (back g) _ _ _ RT Ly (aff_length (whole g) (shift g) x (proj1 O) eq_refl) eq_refl Wy) as K1. unfold back in K1 at 2. rewrite aff_inv in K1 by auto.
  pose proof (aff_lip _ (back_v g) _ _ _ RT Lw (aff_length (whole g) (g_vsun g) p (proj1 O) Lv) eq_refl Ww) as K2. unfold back_v in K2 at 2. rewrite aff_inv in K2 by auto.
  pose proof (aff_lip _ (shift g) _ _ _ RW Ly2 (aff_length (tr (whole g)) (back g) x (tr_square _ (proj1 O)) eq_refl) eq_refl Wy2) as K3. unfold back in K3. rewrite aff_inv' in K3 by auto.
  pose proof (aff_lip _ (g_vsun g) _ _ _ RW Lw2 (aff_length (tr (whole g)) (back_v g) p (tr_square _ (proj1 O)) eq_refl) Lv Ww2) as K4. unfold back_v in K4. rewrite aff_inv' in K4 by auto.
  assert (H1 : ep * size y <= ep * (3 * size x + 3 * d + 3 * (31 * ep * size x + 3 * ep * d + 9 * eta f))) by (apply Rmult_le_compat_l; lra).
  assert (H2 : ep * size w <= ep * (3 * size p + 3 * sv + 3 * (31 * ep * size p + ep * sv + 5 * eta f))) by (apply Rmult_le_compat_l; lra).
  assert (H3 : ep * size y2 <= ep * (3 * size x + 3 * (2 * d) + 3 * (31 * ep * size x + 96 * ep * d + 18 * eta f))) by (apply Rmult_le_compat_l; lra).
  assert (H4 : ep * size w2 <= ep * (3 * size p + 3 * sv + 3 * (31 * ep * size p + 31 * ep * sv + 9 * eta f))) by (apply Rmult_le_compat_l; lra).
  assert (Z1 : ep * (ep * size x) <= ep * size x / 1024) by nra. assert (Z2 : ep * (ep * size p) <= ep * size p / 1024) by nra. assert (Z3 : ep * (ep * d) <= ep * d / 1024) by nra. assert (Z4 : ep * (ep * sv) <= ep * sv / 1024) by nra. assert (Z5 : 0 <= ep * eta f <= eta f / 1024) by nra.
  split; [|split; [|split] ]; (eapply within_w; [eapply within_tri; eassumption|lra]).
Qed.
Print Assumptions C76_round_trip.

(** ** Finding: close to the Sun the first coordinate is lost *)
Lemma gap f g o : fmt_ok f -> generic_format radix2 (fexp_of f) g -> generic_format radix2 (fexp_of f) o -> g <> o -> fu f * Rabs o / 2 <= Rabs (g - o).
Proof.
  intros ok.
  assert (PG : Prec_gt_0 (fprec f)) by (destruct ok; unfold Prec_gt_0; lia).
  assert (UL : forall v, fu f * Rabs v <= ulp radix2 (fexp_of f) v).
  { intros v. destruct (Req_dec v 0) as [->|NZ]. { rewrite Rabs_R0, Rmult_0_r. apply ulp_ge_0. }
    rewrite ulp_neq_0 by auto. unfold cexp. apply Rle_trans with (bpow radix2 (mag radix2 v - fprec f)).
    - unfold fu. unfold Zminus. rewrite bpow_plus, Rmult_comm. apply Rmult_le_compat_r; [apply bpow_ge_0|]. apply Rlt_le, bpow_mag_gt.
    - apply bpow_le. unfold fexp_of, FLT_exp. lia. }
  assert (K : forall a b, generic_format radix2 (fexp_of f) a -> generic_format radix2 (fexp_of f) b -> 0 <= a < b -> fu f * b / 2 <= b - a).
  { intros a b Fa Fb [A0 AB]. pose proof (fu_pos f) as U0. pose proof (u_small8 f ok) as US.
    destruct (Rle_or_lt a (b / 2)) as [H|H]; [nra|].
    pose proof (succ_le_lt radix2 (fexp_of f) a b Fa Fb AB) as SL. rewrite succ_eq_pos in SL by lra. pose proof (UL a) as UA. rewrite Rabs_pos_eq in UA by lra. nra. }
  assert (W : forall a b, generic_format radix2 (fexp_of f) a -> generic_format radix2 (fexp_of f) b -> 0 < b -> a <> b -> fu f * b / 2 <= Rabs (a - b)).
  { intros a b Fa Fb B0 N. pose proof (fu_pos f) as U0. pose proof (u_small8 f ok) as US. destruct (Rtotal_order a b) as [H|[H|H] ]; [|contradiction|].
    - rewrite Rabs_left by lra. destruct (Rle_or_lt 0 a) as [A|A]; [pose proof (K a b Fa Fb (conj A H)); lra|nra].
    - rewrite Rabs_pos_eq by lra. pose proof (K b a Fb Fa (conj (Rlt_le _ _ B0) H)). nra. }
  intros Fg Fo N. destruct (Rtotal_order o 0) as [H|[H|H] ].
  - rewrite (Rabs_left o) by auto. replace (g - o) with (- (- g - - o)) by ring. rewrite Rabs_Ropp. apply W; [now apply generic_format_opp|now apply generic_format_opp|lra|lra].
  - rewrite H, Rabs_R0. pose proof (Rabs_pos (g - 0)). lra.
  - rewrite (Rabs_pos_eq o) by lra. now apply W.
Qed.
Lemma absorbed f a o : fmt_ok f -> isf f o -> Rabs a < fu f * Rabs o / 4 -> frnd f (a + o) = o.
Proof.
  intros ok [Fo Bo] H. pose proof (rn_F f ok (a + o)) as Fr. destruct (Req_dec (frnd f (a + o)) o) as [E|N]; auto. exfalso.
  pose proof (gap f _ o ok Fr Fo N) as G.
  assert (B : Rabs (frnd f (a + o) - (a + o)) <= Rabs (o - (a + o))).
  { assert (PG : Prec_gt_0 (fprec f)) by (destruct ok; unfold Prec_gt_0; lia). destruct (round_N_pt radix2 (fexp_of f) (fun x => negb (Z.even x)) (a + o)) as [_ B]. apply B. exact Fo. }
  replace (o - (a + o)) with (- a) in B by ring. rewrite Rabs_Ropp in B.
  assert (T : Rabs (frnd f (a + o) - o) <= Rabs a + Rabs a). { replace (frnd f (a + o) - o) with ((frnd f (a + o) - (a + o)) + a) by ring. eapply Rle_trans; [apply Rabs_triang|]. lra. }
  lra.
Qed.
Theorem C76_finding_positions_near_the_sun_lose_x : forall f L e s ea m deg n g,
  setting f L e s ea g -> eta f <= fu f * dval (g_dist g) / 64 ->
  exists c, forall x, floats f x -> length x = 3%nat -> size x <= fu f * dval (g_dist g) / 16 ->
    exists b d, fframe f L s m deg (S n) (FToGCF (gfinite g)) (FArr (efin x)) = Ok false (FArr (efin [c; b; d])).
Proof.
  intros f L e s ea m deg n g ST Ht. destruct (eps0 _ _ _ _ _ _ ST) as ((P & Pe) & U8 & N0 & N1 & MB & US & U0). pose proof ST as (ok & Lok & Lacc & sacc & He & G & Hd & Hv).
  destruct (to_gcf_near f L ok Lok e Lacc s ea sacc g G He Hd) as (ps & Ep & Np). pose proof Np as (M & o & ov & -> & N & Fo & Lo & _ & Wo & Bb & _).
  assert (Pd : 0 < dval (g_dist g)) by apply G. destruct (list3 o Lo) as (o1 & o2 & o3 & ->). exists o1. intros x Fx Lx Sx.
  pose proof (size_pos x) as Px. set (d := dval (g_dist g)) in *. set (ep := unit_error f e ea) in *.
  assert (UD : 0 < fu f * d <= d / 256) by nra. assert (Q : ep * d <= d / 1024) by nra. assert (Qx : 0 <= ep * size x <= size x / 1024) by nra.
  pose proof (vec_bound f L ok Lok e Lacc s ea sacc (29 * ep) (size x) 29 He ltac:(fold ep; lra) ltac:(lra) Px) as VX. fold ep in VX.
  destruct (near_vec' f L ok (29 * ep) M _ x N ltac:(lra) Fx Lx ltac:(lra)) as (a & Ea & La & Fa & Wa).
  destruct (aff_near f L ok (29 * ep) _ _ M _ [o1; o2; o3] (shift g) x N ltac:(lra) Fo eq_refl eq_refl Wo Bb Fx Lx ltac:(lra) ltac:(fold ep d; lra)) as (a' & y & Ea' & La' & Ly & Ey & Fy & Wy).
  assert (AA : a' = a). { assert (K : @map R ext (@Some R) a = @map R ext (@Some R) a') by (rewrite <- Ea; exact Ea'). clear -K. revert a K. induction a' as [|v l IH]; intros [|w l2]; cbn; intros K; try discriminate; auto. injection K as -> K. f_equal. symmetry. apply IH in K. congruence. }
  subst a'. pose proof (gapply_run f L m deg n M x a [o1; o2; o3] y (efin ov) Ea La eq_refl Ly Ey) as R1.
  assert (RB : Forall (fun v => Rabs v <= size x) (rot (whole g) x)) by (apply rot_size; [apply turn_rows|auto]).
  pose proof (within_bound _ _ _ _ Wa RB) as AB.
  destruct (list3 a La) as (a1 & a2 & a3 & ->). apply Forall_cons_iff in AB. destruct AB as [A1 _].
  assert (O1 : Rabs o1 >= 84 / 100 * d).
  { assert (W1 : Rabs (o1 - - (cos (tilt g) * d)) <= 2 * ep * d + 4 * eta f).
    { unfold within in Wo. inversion Wo as [|? ? ? ? W1 _]; subst. cbn in W1. fold d ep in W1. replace (- (cos (tilt g) * d)) with (- cos (tilt g) * (d * 1) + (- 0 * (d * 0) + (- sin (tilt g) * (d * 0) + 0))) by ring. exact W1. }
    assert (C : 866 / 1000 <= cos (tilt g)).
    { unfold tilt. fold d. destruct G as (_ & _ & _ & _ & Hz). fold d in Hz. assert (Hr : Rabs (g_zsun g / d) <= / 2). { unfold Rdiv. rewrite Rabs_mult, Rabs_inv, (Rabs_pos_eq d) by lra. apply Rmult_le_reg_r with d; [lra|]. field_simplify; lra. }
      apply Rabs_le_inv in Hr. rewrite cos_asin by lra. rewrite <- (sqrt_Rsqr (866 / 1000)) by lra. apply sqrt_le_1_alt. unfold Rsqr. nra. }
    assert (cos (tilt g) * d >= 866 / 1000 * d) by (apply Rle_ge, Rmult_le_compat_r; lra).
    apply Rabs_le_inv in W1. rewrite Rabs_left by lra. lra. }
  destruct (list3 y Ly) as (y1 & y2 & y3 & ->). assert (Y1 : y1 = o1).
  { unfold gplus in Ey. cbn [map combine] in Ey. injection Ey as E1' _ _. apply floats3 in Fo. destruct Fo as (I1 & _ & _).
    assert (AB' : frnd f (a1 + o1) = o1). { apply absorbed; auto. assert (fu f * Rabs o1 >= fu f * (84 / 100 * d)) by (apply Rle_ge, Rmult_le_compat_l; lra). lra. }
    unfold Float.fop in E1'. rewrite AB' in E1'. unfold fin in E1'. destruct (Rltb (Rabs o1) (fmax f)); [|discriminate]. now injection E1'. }
  subst y1. exists y2, y3. unfold fframe. cbn [gfcall]. unfold gframe_call. destruct (list3 x Lx) as (x1 & x2 & x3 & ->). cbn [map] in *.
  refine (eq_trans (f_equal (fun t => bind t _) Ep) _). rewrite bind_ok. refine (eq_trans (f_equal (fun t => bind t _) R1) _). now rewrite bind_ok.
Qed.
Print Assumptions C76_finding_positions_near_the_sun_lose_x.
(** The hypotheses are met: the correctly rounded library, in single and double
    precision, and a frame 8122 units from the centre. *)
Lemma cr_asin_accurate f : fmt_ok f -> asin_accurate f (fun x => frnd f (asin x)) (2 * fu f + eta f).
Proof.
  intros ok x _ Hx. pose proof (rn_err f ok (asin x)) as E. fold (eta f) in E. pose proof (asin_bound x) as B. pose proof PI_4. pose proof (fu_pos f). pose proof (max_big f ok) as MB. pose proof (u_small8 f ok). destruct (eta_u f ok).
  assert (A : Rabs (asin x) <= 2) by (apply Rabs_le; lra). split; [|nra]. split; [now apply rn_F|].
  replace (frnd f (asin x)) with ((frnd f (asin x) - asin x) + asin x) by ring. eapply Rle_lt_trans; [apply Rabs_triang|]. nra.
Qed.
Definition some_frame : gcf R := mkGCF 4 (-1) (mkDist KDistance 8122) 0 21 [13; 246; 8].
Example C76_case : forall f, f = binary32 \/ f = binary64 ->
  setting f (cr_libm f) (fu f + eta f) (fun x => frnd f (asin x)) (2 * fu f + eta f) some_frame /\
  coordinates f [1; -2; 3] /\ size [1; -2; 3] + dval (g_dist some_frame) <= fmax f / 512 /\
  size [1; -2; 3] + size (g_vsun some_frame) <= fmax f / 512 /\ eta f <= fu f * dval (g_dist some_frame) / 64 /\
  floats f [0; 0; 0] /\ size [0; 0; 0] <= fu f * dval (g_dist some_frame) / 16.
Proof.
  intros f Hf. assert (ok : fmt_ok f) by (destruct Hf as [-> | ->]; [apply binary32_ok|apply binary64_ok]).
  assert (UB : 0 < fu f <= / 65536). { split; [apply fu_pos|]. unfold fu. change (/ 65536) with (bpow radix2 (-16)). apply bpow_le. destruct Hf as [-> | ->]; cbn; lia. }
  assert (MB : 2 ^ 32 <= fmax f). { unfold fmax. replace (2 ^ 32) with (bpow radix2 32) by (rewrite bpow_powerRZ; reflexivity). apply bpow_le. destruct Hf as [-> | ->]; cbn; lia. }
  destruct (eta_u f ok) as [N0 N1].
  assert (I : forall z, (Z.abs z <= 65535)%Z -> isf f (IZR z)).
  { intros z Hz. split.
    - apply generic_format_FLT. exists (Float radix2 z 0); [unfold F2R; cbn; ring| |destruct Hf as [-> | ->]; cbn; lia].
      apply Z.le_lt_trans with (1 := Hz). destruct Hf as [-> | ->]; reflexivity.
    - apply Rle_lt_trans with 65535; [rewrite <- abs_IZR; now apply IZR_le|]. apply Rlt_le_trans with (2 := MB). cbn. lra. }
  assert (MB' : 4294967296 <= fmax f) by (eapply Rle_trans; [|exact MB]; cbn; lra).
  assert (FG : floats f [g_lon some_frame; g_lat some_frame; g_roll some_frame; g_zsun some_frame; dval (g_dist some_frame)]).
  { cbn. repeat (apply Forall_cons; [apply I; lia|]). apply Forall_nil. }
  assert (FV : floats f (g_vsun some_frame)). { cbn. repeat (apply Forall_cons; [apply I; lia|]). apply Forall_nil. }
  assert (S1 : size [1; -2; 3] = 6). { rewrite size3. rewrite (Rabs_left (-2)), !Rabs_pos_eq by lra. ring. }
  assert (S2 : size (g_vsun some_frame) = 267). { unfold some_frame; cbn [g_vsun]. rewrite size3, !Rabs_pos_eq by lra. ring. }
  split. { split; [exact ok|]. split; [now apply cr_libm_ok|]. split; [now apply cr_libm_accurate|]. split; [now apply cr_asin_accurate|]. split; [unfold unit_error; lra|].
    split. { split; [|split; [exact FG|split; [exact FV|] ] ].
      - split; [reflexivity|]. cbn [some_frame g_dist g_zsun dval]. rewrite Rabs_pos_eq by lra. split; [lra|]. split; [lra|reflexivity].
      - cbn [some_frame g_dist g_zsun g_roll dval]. rewrite Rabs_R0, Rabs_pos_eq by lra. lra. }
    rewrite S2. cbn [some_frame g_dist dval]. lra. }
  split. { split; [|split; [reflexivity|lra] ]. repeat (apply Forall_cons; [apply I; lia|]). apply Forall_nil. }
  rewrite S1, S2. cbn [some_frame g_dist dval]. split; [lra|]. split; [lra|]. split; [nra|]. split; [repeat (apply Forall_cons; [apply I; lia|]); apply Forall_nil|].
  rewrite size3, Rabs_R0. lra.
Qed.
