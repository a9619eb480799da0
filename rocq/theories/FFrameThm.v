(** * The rotation, the offset and the velocity of the ICRS <-> Galactocentric
      operators, computed in floating point: lemmas for PropFloat9.v (C76). *)
From Coq Require Import Reals Bool List ZArith Lra Lia.
From Flocq Require Import Core.
From Verif Require Import Num Vectors Spec Transform Pos3D Pos3DThm Arith Vel UVel FourVec Operators SpecOp OpThm OpInv OpMisc OpSimp
  Frames SpecFrame FrameThm PropFrame GOp GOpThm GFrame Float FloatThm FloatConv PropFloat PropFloat3 PropFloat4 PropFloat5 FVel PropFloat6 PropFloat7 FFrame SpecFFrame.
Import ListNotations.
Open Scope R_scope.

Section S.
Variable f : fmt.
Variable L : libm.
Hypothesis ok : fmt_ok f.
Notation u := (fu f).
Notation FN := (Num_fl f L).
Local Notation v3 x y z := (@cons ext (@Some R x) (@cons ext (@Some R y) (@cons ext (@Some R z) (@nil ext)))).
Lemma u_small8 : 0 < u <= / 256.
Proof. split; [apply fu_pos|]. unfold fu. change (/ 256) with (bpow radix2 (-8)). apply bpow_le. destruct ok. lia. Qed.
Lemma eta_u : 0 < eta f <= u / 256.
Proof.
  split; [apply bpow_gt_0|]. unfold eta, fu, Rdiv. change (/ 256) with (bpow radix2 (-8)). rewrite <- bpow_plus. apply bpow_le. destruct ok as (? & ? & ?). lia.
Qed.

(** ** Rows and matrices *)
Definition isrow (r : R * R * R) : Prop := let '(a, b, c) := r in isf f a /\ isf f b /\ isf f c.
Definition near_mat (E : R) (M : mat ext) (Q : mat R) : Prop :=
  exists r1 r2 r3 q1 q2 q3, M = [frow r1; frow r2; frow r3] /\ Q = [rl q1; rl q2; rl q3] /\
    isrow r1 /\ isrow r2 /\ isrow r3 /\ close_row E r1 q1 /\ close_row E r2 q2 /\ close_row E r3 q3 /\ orthogonal Q.
Lemma abs_le_sq a : Rabs a <= a * a + / 4.
Proof. apply Rabs_le. split; pose proof (Rle_0_sqr (a - / 2)); pose proof (Rle_0_sqr (a + / 2)); unfold Rsqr in *; lra. Qed.
Lemma cs1 a b c x y z : a * a + b * b + c * c = 1 -> x * x + y * y + z * z = 1 ->
  Rabs a * Rabs x + Rabs b * Rabs y + Rabs c * Rabs z <= 1.
Proof.
  intros H1 H2. assert (K : forall p q, Rabs p * Rabs q <= (p * p + q * q) / 2).
  { intros p q. pose proof (Rle_0_sqr (Rabs p - Rabs q)) as S. unfold Rsqr in S.
    assert (T : forall t, Rabs t * Rabs t = t * t) by (intros t; unfold Rabs; destruct (Rcase_abs t); ring). pose proof (T p). pose proof (T q). lra. }
  pose proof (K a x). pose proof (K b y). pose proof (K c z). lra.
Qed.
Lemma prod_err a a' x x' E F : Rabs (a - a') <= E -> Rabs (x - x') <= F ->
  Rabs (a * x - a' * x') <= E * Rabs x' + F * Rabs a' + E * F.
Proof.
  intros H1 H2. replace (a * x - a' * x') with ((a - a') * x' + a' * (x - x') + (a - a') * (x - x')) by ring.
  eapply Rle_trans; [apply Rabs_triang|]. eapply Rle_trans; [apply Rplus_le_compat_r; apply Rabs_triang|]. rewrite !Rabs_mult.
  pose proof (Rabs_pos x'). pose proof (Rabs_pos a'). pose proof (Rabs_pos (a - a')). pose proof (Rabs_pos (x - x')).
  assert (Rabs (a - a') * Rabs (x - x') <= E * F) by (apply Rmult_le_compat; auto). nra.
Qed.
Definition step_err (E F : R) : R := (2 * E + 2 * F + 3 * (E * F)) * (1 + 4 * u) + 4 * u + 4 * eta f.
Lemma gamma3 : (1 + u) ^ 3 - 1 <= 4 * u /\ 0 <= (1 + u) ^ 3 - 1 /\ 3 * (1 + u) ^ 2 <= 4.
Proof. pose proof u_small8. cbn [pow]. split; [|split]; nra. Qed.
Lemma dot_close r q v w E F : isrow r -> isrow v -> close_row E r q -> close_row F v w -> unit_row q -> unit_row w ->
  0 <= E <= / 16 -> 0 <= F <= / 16 ->
  exists t, @gdot ext FN (frow r) (frow v) = Some t /\ isf f t /\
    Rabs (t - (let '(x, y, z) := w in rot_row q x y z)) <= step_err E F.
Proof.
  destruct r as [[a b] c], q as [[a' b'] c'], v as [[x y] z], w as [[x' y'] z']. intros (Ia & Ib & Ic) (Ix & Iy & Iz) (Ha & Hb & Hc) (Hx & Hy & Hz) U W HE HF. cbn in U, W. cbn [rot_row frow].
  pose proof (cs1 _ _ _ _ _ _ U W) as CS.
  pose proof (abs_le_sq a'). pose proof (abs_le_sq b'). pose proof (abs_le_sq c'). pose proof (abs_le_sq x'). pose proof (abs_le_sq y'). pose proof (abs_le_sq z').
  pose proof (prod_err _ _ _ _ _ _ Ha Hx) as P1. pose proof (prod_err _ _ _ _ _ _ Hb Hy) as P2. pose proof (prod_err _ _ _ _ _ _ Hc Hz) as P3.
  assert (D : Rabs (a * x - a' * x') + Rabs (b * y - b' * y') + Rabs (c * z - c' * z') <= 2 * E + 2 * F + 3 * (E * F)).
  { assert (E * (Rabs x' + Rabs y' + Rabs z') <= E * 2) by (apply Rmult_le_compat_l; lra).
    assert (F * (Rabs a' + Rabs b' + Rabs c') <= F * 2) by (apply Rmult_le_compat_l; lra). lra. }
  assert (S : Rabs (a * x) + Rabs (b * y) + Rabs (c * z) <= 1 + (2 * E + 2 * F + 3 * (E * F))).
  { assert (K : forall p p', Rabs p <= Rabs p' + Rabs (p - p')).
    { intros p p'. replace p with (p' + (p - p')) at 1 by ring. apply Rabs_triang. }
    pose proof (K (a * x) (a' * x')) as K1. pose proof (K (b * y) (b' * y')) as K2. pose proof (K (c * z) (c' * z')) as K3.
    rewrite (Rabs_mult a') in K1. rewrite (Rabs_mult b') in K2. rewrite (Rabs_mult c') in K3. lra. }
  set (T := 2 * E + 2 * F + 3 * (E * F)) in *. assert (T0 : 0 <= T <= 1) by (unfold T; nra).
  pose proof (max_big f ok) as MB. pose proof gamma3 as (G1 & G2 & G3). destruct eta_u as [N0 _].
  destruct (dot_err f L a b c x y z ok Ix Iy Iz) as (t & Et & It & Dt). { lra. }
  exists t. split; [exact Et|]. split; [exact It|].
  replace (t - (a' * x' + b' * y' + c' * z')) with ((t - (a * x + b * y + c * z)) + ((a * x - a' * x') + (b * y - b' * y') + (c * z - c' * z'))) by ring.
  eapply Rle_trans; [apply Rabs_triang|].
  assert (Rabs (a * x - a' * x' + (b * y - b' * y') + (c * z - c' * z')) <= T).
  { eapply Rle_trans; [apply Rabs_triang|]. eapply Rle_trans; [apply Rplus_le_compat_r; apply Rabs_triang|]. exact D. }
  unfold step_err. fold T. change (feta f) with (eta f) in Dt.
  assert (((1 + u) ^ 3 - 1) * (Rabs (a * x) + Rabs (b * y) + Rabs (c * z)) <= 4 * u * (1 + T)).
  { apply Rmult_le_compat; auto. pose proof (Rabs_pos (a * x)). pose proof (Rabs_pos (b * y)). pose proof (Rabs_pos (c * z)). lra. }
  assert (3 * (1 + u) ^ 2 * eta f <= 4 * eta f) by (apply Rmult_le_compat_r; lra). lra.
Qed.
Lemma close_w E F r q : close_row E r q -> E <= F -> close_row F r q.
Proof. destruct r as [[a b] c], q as [[a' b'] c']. cbn. intros (? & ? & ?) ?. repeat split; lra. Qed.
Lemma near_w E F M Q : near_mat E M Q -> E <= F -> near_mat F M Q.
Proof.
  intros (r1 & r2 & r3 & q1 & q2 & q3 & -> & -> & I1 & I2 & I3 & C1 & C2 & C3 & O) H.
  exists r1, r2, r3, q1, q2, q3. pose proof (close_w _ _ _ _ C1 H). pose proof (close_w _ _ _ _ C2 H). pose proof (close_w _ _ _ _ C3 H). auto 15.
Qed.
Lemma near_tr E M Q : near_mat E M Q -> near_mat E (@gtranspose ext FN M) (tr Q).
Proof.
  intros (r1 & r2 & r3 & q1 & q2 & q3 & -> & -> & I1 & I2 & I3 & C1 & C2 & C3 & O). pose proof (ortho_tr _ O) as O'.
  destruct r1 as [[a1 b1] c1], r2 as [[a2 b2] c2], r3 as [[a3 b3] c3], q1 as [[a1' b1'] c1'], q2 as [[a2' b2'] c2'], q3 as [[a3' b3'] c3'].
  exists (a1, a2, a3), (b1, b2, b3), (c1, c2, c3), (a1', a2', a3'), (b1', b2', b3'), (c1', c2', c3').
  destruct I1 as (? & ? & ?), I2 as (? & ? & ?), I3 as (? & ? & ?), C1 as (? & ? & ?), C2 as (? & ? & ?), C3 as (? & ? & ?).
  split; [reflexivity|]. split; [reflexivity|]. cbn [isrow close_row]. auto 20.
Qed.
Lemma near_mul E F M Q N S : near_mat E M Q -> near_mat F N S -> 0 <= E <= / 16 -> 0 <= F <= / 16 ->
  near_mat (step_err E F) (@gmatmul ext FN M N) (mm Q S).
Proof.
  intros HM HN HE HF. pose proof (near_tr F N S HN) as HT.
  assert (O : orthogonal (mm Q S)).
  { destruct HM as (? & ? & ? & ? & ? & ? & _ & _ & _ & _ & _ & _ & _ & _ & O1). destruct HN as (? & ? & ? & ? & ? & ? & _ & _ & _ & _ & _ & _ & _ & _ & O2). now apply mm_orthogonal. }
  unfold gmatmul. unfold mm. unfold mm in O.
  destruct HT as (c1 & c2 & c3 & d1 & d2 & d3 & -> & ET & J1 & J2 & J3 & K1 & K2 & K3 & OT). rewrite ET in *.
  destruct HM as (r1 & r2 & r3 & q1 & q2 & q3 & -> & -> & I1 & I2 & I3 & C1 & C2 & C3 & OQ).
  destruct (orth_unit _ _ _ OQ) as (U1 & U2 & U3). destruct (orth_unit _ _ _ OT) as (W1 & W2 & W3).
  assert (D : forall r q, isrow r -> close_row E r q -> unit_row q -> exists t p,
     map (@gdot ext FN (frow r)) [frow c1; frow c2; frow c3] = frow t /\ map (fun c => vsum (vmul (rl q) c)) [rl d1; rl d2; rl d3] = rl p /\ isrow t /\ close_row (step_err E F) t p).
  { intros r q Ir Cr Uq. destruct (dot_close r q c1 d1 E F) as (t1 & E1 & T1 & X1); auto. destruct (dot_close r q c2 d2 E F) as (t2 & E2 & T2 & X2); auto. destruct (dot_close r q c3 d3 E F) as (t3 & E3 & T3 & X3); auto.
    cbn [map]. rewrite E1, E2, E3. destruct d1 as [[x1 y1] z1], d2 as [[x2 y2] z2], d3 as [[x3 y3] z3], q as [[qa qb] qc]. cbn [rot_row] in *.
    exists (t1, t2, t3), (qa * x1 + qb * y1 + qc * z1, qa * x2 + qb * y2 + qc * z2, qa * x3 + qb * y3 + qc * z3).
    split; [reflexivity|]. split; [|split; [cbn; auto|cbn; auto]].
    cbn [rl]. cbv [vsum vmul combine map fold_right]. f_equal; [ring|f_equal; [ring|f_equal; ring] ]. }
  destruct (D r1 q1 I1 C1 U1) as (t1 & p1 & A1 & B1 & G1 & H1). destruct (D r2 q2 I2 C2 U2) as (t2 & p2 & A2 & B2 & G2 & H2). destruct (D r3 q3 I3 C3 U3) as (t3 & p3 & A3 & B3 & G3 & H3).
  exists t1, t2, t3, p1, p2, p3. cbn [map] in A1, A2, A3, B1, B2, B3, O |- *. rewrite A1, A2, A3. rewrite B1, B2, B3 in *. auto 15.
Qed.

(** ** Vectors *)
Definition vec_err (E S : R) : R := (E + (1 + E) * (4 * u)) * S + 4 * eta f.
Lemma list3 {T} (l : list T) : length l = 3%nat -> exists a b c, l = [a; b; c].
Proof. destruct l as [|a [|b [|c [|]]]]; try discriminate. eauto. Qed.
Lemma size_pos l : 0 <= size l.
Proof. unfold size. induction l; cbn; [lra|]. pose proof (Rabs_pos a). lra. Qed.
Lemma floats3 a b c : floats f [a; b; c] <-> isf f a /\ isf f b /\ isf f c.
Proof. unfold floats. split; [intros H; repeat (apply Forall_cons_iff in H; destruct H as [? H]); auto|intros (? & ? & ?); repeat (apply Forall_cons; [assumption|]); apply Forall_nil]. Qed.
Lemma within3 d a b c x y z : within d [a; b; c] [x; y; z] <-> Rabs (a - x) <= d /\ Rabs (b - y) <= d /\ Rabs (c - z) <= d.
Proof. unfold within. split; [intros H; inversion H as [|? ? ? ? H1 H2]; subst; inversion H2 as [|? ? ? ? H3 H4]; subst; inversion H4; subst; auto|intros (? & ? & ?); repeat (apply Forall2_cons; [assumption|]); apply Forall2_nil]. Qed.
Lemma rot_rl q1 q2 q3 x y z : rot [rl q1; rl q2; rl q3] [x; y; z] = [rot_row q1 x y z; rot_row q2 x y z; rot_row q3 x y z].
Proof. destruct q1 as [[? ?] ?], q2 as [[? ?] ?], q3 as [[? ?] ?]. cbv [rot rl map vsum vmul combine fold_right rot_row]. f_equal; [ring|f_equal; [ring|f_equal; ring] ]. Qed.
Lemma row_le q x y z : unit_row q -> Rabs (rot_row q x y z) <= Rabs x + Rabs y + Rabs z.
Proof.
  destruct q as [[a b] c]. intros U. destruct (unit_le1 _ _ _ U) as (La & Lb & Lc). cbn.
  eapply Rle_trans; [apply Rabs_triang|]. eapply Rle_trans; [apply Rplus_le_compat_r; apply Rabs_triang|]. rewrite !Rabs_mult.
  pose proof (Rabs_pos x). pose proof (Rabs_pos y). pose proof (Rabs_pos z). nra.
Qed.
Lemma row_le2 q x y z d : unit_row q -> Rabs x <= d -> Rabs y <= d -> Rabs z <= d -> Rabs (rot_row q x y z) <= 2 * d.
Proof.
  destruct q as [[a b] c]. intros U Hx Hy Hz. cbn in U |- *. pose proof (abs_le_sq a). pose proof (abs_le_sq b). pose proof (abs_le_sq c).
  eapply Rle_trans; [apply Rabs_triang|]. eapply Rle_trans; [apply Rplus_le_compat_r; apply Rabs_triang|]. rewrite !Rabs_mult.
  pose proof (Rabs_pos a). pose proof (Rabs_pos b). pose proof (Rabs_pos c). pose proof (Rabs_pos x). nra.
Qed.
Lemma near_vec E M Q x y z : near_mat E M Q -> 0 <= E <= 1 -> isf f x -> isf f y -> isf f z -> size [x; y; z] <= fmax f / 8 ->
  exists a b c, @gmatmul_vec ext FN M (v3 x y z) = v3 a b c /\ floats f [a; b; c] /\
    within (vec_err E (size [x; y; z])) [a; b; c] (rot Q [x; y; z]).
Proof.
  intros (r1 & r2 & r3 & q1 & q2 & q3 & -> & -> & I1 & I2 & I3 & C1 & C2 & C3 & O) HE Ix Iy Iz HS.
  destruct (orth_unit _ _ _ O) as (U1 & U2 & U3). rewrite rot_rl. destruct eta_u as [N0 _]. pose proof gamma3 as (G1 & G2 & G3). pose proof u_small8 as U8.
  cbn [size map fold_right] in HS. pose proof (Rabs_pos x). pose proof (Rabs_pos y). pose proof (Rabs_pos z).
  assert (K : forall r q, close_row E r q -> unit_row q -> exists t, @gdot ext FN (frow r) (v3 x y z) = Some t /\ isf f t /\ Rabs (t - rot_row q x y z) <= vec_err E (size [x; y; z])).
  { intros r q Cr Uq. destruct (row_close f E r q x y z (fu_pos f) (proj1 HE) Cr Uq) as [B1 B2]. destruct r as [[a b] c]. cbn [rot_abs] in B1.
    destruct (dot_err f L a b c x y z ok Ix Iy Iz) as (t & Et & It & Dt). { nra. }
    exists t. split; [exact Et|]. split; [exact It|]. cbn [rot_row] in B2. unfold vec_err. cbn [size map fold_right]. change (feta f) with (eta f) in Dt. set (W := Rabs x + Rabs y + Rabs z) in *.
    replace (Rabs x + (Rabs y + (Rabs z + 0))) with W by (unfold W; ring).
    replace (t - rot_row q x y z) with ((t - (a * x + b * y + c * z)) + ((a * x + b * y + c * z) - rot_row q x y z)) by ring.
    eapply Rle_trans; [apply Rabs_triang|].
    assert (((1 + u) ^ 3 - 1) * (Rabs (a * x) + Rabs (b * y) + Rabs (c * z)) <= 4 * u * ((1 + E) * W)).
    { apply Rmult_le_compat; auto. pose proof (Rabs_pos (a * x)). pose proof (Rabs_pos (b * y)). pose proof (Rabs_pos (c * z)). lra. }
    assert (3 * (1 + u) ^ 2 * eta f <= 4 * eta f) by (apply Rmult_le_compat_r; lra). lra. }
  destruct (K r1 q1 C1 U1) as (a & Ea & Ia & Da). destruct (K r2 q2 C2 U2) as (b & Eb & Ib & Db). destruct (K r3 q3 C3 U3) as (c & Ec & Ic & Dc).
  exists a, b, c. split; [unfold gmatmul_vec; cbn [map]; now rewrite Ea, Eb, Ec|]. split; [now apply floats3|]. now apply within3.
Qed.
Lemma add_near a o a' o' d D A B : isf f a -> isf f o -> Rabs (a - a') <= d -> Rabs (o - o') <= D -> Rabs a' <= A -> Rabs o' <= B ->
  A + d + B + D <= fmax f / 2 ->
  exists r, @nadd ext FN (Some a) (Some o) = Some r /\ isf f r /\ Rabs (r - (a' + o')) <= d + D + u * (A + d + B + D).
Proof.
  intros Ia Io H1 H2 H3 H4 H5. pose proof u_small8 as U8. pose proof (fmax_pos f) as PM.
  assert (S : Rabs (a + o) <= A + d + B + D).
  { replace (a + o) with ((a - a') + a' + ((o - o') + o')) by ring. eapply Rle_trans; [apply Rabs_triang|].
    pose proof (Rabs_triang (a - a') a'). pose proof (Rabs_triang (o - o') o'). lra. }
  destruct (PropFloat5.fop_ok f (a + o) ok) as (r & E & I & Er). { nra. }
  pose proof (rnd_add_err f a o ok Ia Io) as D1. rewrite <- Er in D1.
  exists r. split; [exact E|]. split; [exact I|]. replace (r - (a' + o')) with ((r - (a + o)) + ((a - a') + (o - o'))) by ring.
  eapply Rle_trans; [apply Rabs_triang|]. pose proof (Rabs_triang (a - a') (o - o')).
  assert (u * Rabs (a + o) <= u * (A + d + B + D)) by (apply Rmult_le_compat_l; lra). lra.
Qed.
(** rotate, then add a vector known to within [D] *)
Definition aff_err (E D B S : R) : R := vec_err E S + D + u * (S + vec_err E S + B + D).
Lemma aff_near E D B M Q o b x : near_mat E M Q -> 0 <= E <= 1 -> floats f o -> length o = 3%nat -> length b = 3%nat -> within D o b -> Forall (fun v => Rabs v <= B) b ->
  floats f x -> length x = 3%nat -> size x <= fmax f / 8 -> size x + vec_err E (size x) + B + D <= fmax f / 2 ->
  exists a y, @gmatmul_vec ext FN M (@map R ext (@Some R) x) = @map R ext (@Some R) a /\ length a = 3%nat /\ length y = 3%nat /\
    @gplus ext FN (@map R ext (@Some R) a) (@map R ext (@Some R) o) = @map R ext (@Some R) y /\ floats f y /\ within (aff_err E D B (size x)) y (aff Q b x).
Proof.
  intros HM HE Fo Lo Lb Wo Bb Fx Lx Sx Tot.
  destruct (list3 o Lo) as (o1 & o2 & o3 & ->). destruct (list3 b Lb) as (b1 & b2 & b3 & ->). destruct (list3 x Lx) as (x1 & x2 & x3 & ->).
  apply floats3 in Fo, Fx. destruct Fo as (Io1 & Io2 & Io3), Fx as (Ix1 & Ix2 & Ix3). apply within3 in Wo. destruct Wo as (W1 & W2 & W3).
  repeat (apply Forall_cons_iff in Bb; let H := fresh "B" in destruct Bb as [H Bb]).
  destruct (near_vec E M Q x1 x2 x3 HM HE Ix1 Ix2 Ix3 Sx) as (a1 & a2 & a3 & E1 & Fa & Wa). apply floats3 in Fa. destruct Fa as (Ia1 & Ia2 & Ia3).
  destruct HM as (r1 & r2 & r3 & q1 & q2 & q3 & _ & -> & _ & _ & _ & _ & _ & _ & O). destruct (orth_unit _ _ _ O) as (U1 & U2 & U3).
  unfold aff. rewrite rot_rl in *. apply within3 in Wa. destruct Wa as (Wa1 & Wa2 & Wa3). cbn [vadd combine map].
  assert (T : forall q, unit_row q -> Rabs (rot_row q x1 x2 x3) <= size [x1; x2; x3]).
  { intros q U. pose proof (row_le q x1 x2 x3 U). cbn [size map fold_right]. unfold size; cbn. lra. }
  destruct (add_near a1 o1 _ b1 _ D (size [x1; x2; x3]) B Ia1 Io1 Wa1 W1 (T q1 U1) ltac:(assumption) ltac:(lra)) as (y1 & Y1 & J1 & Z1).
  destruct (add_near a2 o2 _ b2 _ D (size [x1; x2; x3]) B Ia2 Io2 Wa2 W2 (T q2 U2) ltac:(assumption) ltac:(lra)) as (y2 & Y2 & J2 & Z2).
  destruct (add_near a3 o3 _ b3 _ D (size [x1; x2; x3]) B Ia3 Io3 Wa3 W3 (T q3 U3) ltac:(assumption) ltac:(lra)) as (y3 & Y3 & J3 & Z3).
  exists [a1; a2; a3], [y1; y2; y3]. split; [exact E1|]. split; [reflexivity|]. split; [reflexivity|]. split.
  { cbn [gplus map combine]. unfold gplus. cbn [map combine]. now rewrite Y1, Y2, Y3. }
  split; [now apply floats3|]. apply within3. auto.
Qed.

(** ** The rotations about the axes *)
Lemma c0 : @ncst ext FN 0 = Some 0. Proof. exact (PropFloat5.fop_id f 0 ok (PropFloat5.isf0 f)). Qed.
Lemma c1 : @ncst ext FN 1 = Some 1. Proof. exact (PropFloat5.fop_id f 1 ok (isf1 f ok)). Qed.
Lemma dif0 x E : 0 <= E -> Rabs (x - x) <= E.
Proof. intros. unfold Rminus. rewrite Rplus_opp_r, Rabs_R0. auto. Qed.
Lemma dif_opp x y E : Rabs (x - y) <= E -> Rabs (- x - - y) <= E.
Proof. intros. replace (- x - - y) with (- (x - y)) by ring. now rewrite Rabs_Ropp. Qed.
Definition trig (E a' a : R) : Prop :=
  isf f (m_cos L a') /\ isf f (m_sin L a') /\ Rabs (m_cos L a' - cos a) <= E /\ Rabs (m_sin L a' - sin a) <= E.
Lemma near_ex E a' a : 0 <= E -> trig E a' a -> near_mat E (@geuler_x ext FN (Some a')) (ex a).
Proof.
  intros HE (Ic & Is & Hc & Hs). pose proof (PropFloat5.isf0 f) as I0. pose proof (isf1 f ok) as I1. pose proof (PropFloat4.isf_opp f _ Is) as In.
  exists (1, 0, 0), (0, m_cos L a', - m_sin L a'), (0, m_sin L a', m_cos L a'), (1, 0, 0), (0, cos a, - sin a), (0, sin a, cos a).
  split. { unfold geuler_x. rewrite c0, c1. reflexivity. }
  split; [reflexivity|]. cbn [isrow close_row]. pose proof (dif0 0 E HE). pose proof (dif0 1 E HE). pose proof (dif_opp _ _ _ Hs).
  do 6 (split; [auto 10|]). apply ex_ortho.
Qed.
Lemma near_ey E a' a : 0 <= E -> trig E a' a -> near_mat E (@geuler_y ext FN (Some a')) (ey a).
Proof.
  intros HE (Ic & Is & Hc & Hs). pose proof (PropFloat5.isf0 f) as I0. pose proof (isf1 f ok) as I1. pose proof (PropFloat4.isf_opp f _ Is) as In.
  exists (m_cos L a', 0, m_sin L a'), (0, 1, 0), (- m_sin L a', 0, m_cos L a'), (cos a, 0, sin a), (0, 1, 0), (- sin a, 0, cos a).
  split. { unfold geuler_y. rewrite c0, c1. reflexivity. }
  split; [reflexivity|]. cbn [isrow close_row]. pose proof (dif0 0 E HE). pose proof (dif0 1 E HE). pose proof (dif_opp _ _ _ Hs).
  do 6 (split; [auto 10|]). apply ey_ortho.
Qed.
Lemma near_ez E a' a : 0 <= E -> trig E a' a -> near_mat E (@geuler_z ext FN (Some a')) (ez a).
Proof.
  intros HE (Ic & Is & Hc & Hs). pose proof (PropFloat5.isf0 f) as I0. pose proof (isf1 f ok) as I1. pose proof (PropFloat4.isf_opp f _ Is) as In.
  exists (m_cos L a', - m_sin L a', 0), (m_sin L a', m_cos L a', 0), (0, 0, 1), (cos a, - sin a, 0), (sin a, cos a, 0), (0, 0, 1).
  split. { unfold geuler_z. rewrite c0, c1. reflexivity. }
  split; [reflexivity|]. cbn [isrow close_row]. pose proof (dif0 0 E HE). pose proof (dif0 1 E HE). pose proof (dif_opp _ _ _ Hs).
  do 6 (split; [auto 10|]). apply ez_ortho.
Qed.

(** ** The frame's angles *)
Hypothesis Lok : libm_ok f L.
Variable e : R.
Hypothesis Lacc : libm_accurate f L e.
Variable s : R -> R.
Variable ea : R.
Hypothesis sacc : asin_accurate f s ea.
Notation eps := (unit_error f e ea).
Lemma e0 : 0 <= e. Proof. eapply e_pos; eauto. Qed.
Lemma ea0 : 0 <= ea.
Proof. destruct (sacc 0 (PropFloat5.isf0 f)) as [_ H]; [lra|]. eapply Rle_trans; [apply Rabs_pos|exact H]. Qed.
Lemma trig_near a' a d : isf f a' -> Rabs (a' - a) <= d -> trig (e + d) a' a.
Proof.
  intros I H. destruct (sin_fl f L Lok e Lacc a' I) as (Is & _ & As). destruct (cos_fl f L Lok e Lacc a' I) as (Ic & _ & Ac).
  split; [auto|]. split; [auto|]. pose proof (cos_lip a' a) as C1. pose proof (sin_lip a' a) as S1. split.
  - replace (m_cos L a' - cos a) with ((m_cos L a' - cos a') + (cos a' - cos a)) by ring. eapply Rle_trans; [apply Rabs_triang|]. lra.
  - replace (m_sin L a' - sin a) with ((m_sin L a' - sin a') + (sin a' - sin a)) by ring. eapply Rle_trans; [apply Rabs_triang|]. lra.
Qed.
Lemma trig_w E F a' a : trig E a' a -> E <= F -> trig F a' a.
Proof. intros (? & ? & ? & ?) ?. repeat (split; [assumption|]). split; lra. Qed.
Lemma roll_angle roll : isf f roll -> Rabs roll <= 4 -> exists a', @nsub ext FN (Some roll) (froll0 f) = Some a' /\ isf f a' /\ Rabs (a' - (roll - roll0)) <= 8 * u.
Proof.
  intros Ir Hr. pose proof u_small8 as U8. destruct eta_u as [N0 N1]. pose proof (max_big f ok) as MB. pose proof (fmax_pos f) as PM.
  assert (P0 : 0 <= roll0 <= 2). { unfold roll0. pose proof PI_bounds. split; nra. }
  unfold froll0. destruct (PropFloat5.fop_ok f roll0 ok) as (r0 & E0 & I0 & R0). { rewrite Rabs_pos_eq by lra. nra. }
  pose proof (rn_err f ok roll0) as D0. fold (eta f) in D0. rewrite <- R0 in D0. rewrite (Rabs_pos_eq roll0) in D0 by lra.
  assert (D0' : Rabs (r0 - roll0) <= 3 / 2 * u). { assert (roll0 <= 4 / 3) by (unfold roll0; pose proof PI_4; nra). nra. }
  assert (T : Rabs (roll - r0) <= 6). { replace (roll - r0) with (roll + (- (r0 - roll0) + - roll0)) by ring. eapply Rle_trans; [apply Rabs_triang|]. pose proof (Rabs_triang (- (r0 - roll0)) (- roll0)) as T. rewrite !Rabs_Ropp in T. rewrite (Rabs_pos_eq roll0) in T by lra. assert (roll0 <= 4 / 3) by (unfold roll0; pose proof PI_4; nra). lra. }
  rewrite E0. cbn [nsub Num_fl flift2]. destruct (PropFloat5.fop_ok f (roll - r0) ok) as (a' & E1 & I1 & R1). { nra. }
  exists a'. split; [exact E1|]. split; [exact I1|].
  pose proof (rnd_add_err f roll (- r0) ok Ir (PropFloat4.isf_opp f _ I0)) as D1. replace (roll + - r0) with (roll - r0) in D1 by ring. rewrite <- R1 in D1.
  replace (a' - (roll - roll0)) with ((a' - (roll - r0)) + - (r0 - roll0)) by ring. eapply Rle_trans; [apply Rabs_triang|]. rewrite Rabs_Ropp.
  assert (u * Rabs (roll - r0) <= u * 6) by (apply Rmult_le_compat_l; lra). lra.
Qed.
Lemma sqrt_close p q : Rabs p <= / 2 -> Rabs q <= / 2 -> Rabs (sqrt (1 - p * p) - sqrt (1 - q * q)) <= Rabs (p - q).
Proof.
  intros Hp Hq. apply Rabs_le_inv in Hp, Hq. assert (P : / 2 <= 1 - p * p) by nra. assert (Q : / 2 <= 1 - q * q) by nra.
  assert (S : forall v, / 2 <= v -> / 2 <= sqrt v). { intros v H. rewrite <- (sqrt_Rsqr (/ 2)) by lra. apply sqrt_le_1_alt. unfold Rsqr. lra. }
  pose proof (S _ P) as SP. pose proof (S _ Q) as SQ. pose proof (sqrt_sqrt (1 - p * p) ltac:(lra)) as EP. pose proof (sqrt_sqrt (1 - q * q) ltac:(lra)) as EQ.
  set (a := sqrt (1 - p * p)) in *. set (b := sqrt (1 - q * q)) in *.
  assert (K : (a - b) * (a + b) = (q - p) * (q + p)) by nra.
  assert (K' : Rabs (a - b) * (a + b) = Rabs (p - q) * Rabs (q + p)).
  { rewrite <- (Rabs_pos_eq (a + b)) by lra. rewrite <- Rabs_mult, K, Rabs_mult. f_equal. apply Rabs_minus_sym. }
  assert (Rabs (q + p) <= 1) by (apply Rabs_le; lra). pose proof (Rabs_pos (a - b)). pose proof (Rabs_pos (p - q)). nra.
Qed.
Lemma tilt_angle z d : isf f z -> isf f d -> 0 < d -> Rabs z <= d / 2 ->
  exists q b', @ndiv ext FN (Some z) (Some d) = Some q /\ fasin s (Some q) = Some b' /\ isf f b' /\ trig (e + ea + u) b' (asin (z / d)).
Proof.
  intros Iz Id Pd Hz. pose proof u_small8 as U8. destruct eta_u as [N0 N1]. pose proof (max_big f ok) as MB.
  assert (Hr : Rabs (z / d) <= / 2). { unfold Rdiv. rewrite Rabs_mult, Rabs_inv, (Rabs_pos_eq d) by lra. apply Rmult_le_reg_r with d; [lra|]. field_simplify; lra. }
  assert (Fh : generic_format radix2 (fexp_of f) (/ 2)). { replace (/ 2) with (1 / 2) by field. apply (half_ok f ok). }
  pose proof (rn_abs_le f ok (z / d) (/ 2) Fh Hr) as Hq.
  assert (E1 : Float.fop f (z / d) = Some (frnd f (z / d))) by (apply fop_small; auto; lra).
  set (q := frnd f (z / d)) in *. assert (Iq : isf f q) by (apply small_isf; auto; [now apply rn_F|lra]).
  assert (Bq : -1 <= q <= 1) by (apply Rabs_le_inv in Hq; lra).
  destruct (sacc q Iq Bq) as [Is As]. exists q, (s q). split.
  { cbn [ndiv Num_fl flift2]. unfold Reqb. destruct (Req_EM_T d 0); [lra|]. exact E1. }
  split. { unfold fasin. rewrite (proj2 (Rleb_true _ _)), (proj2 (Rleb_true _ _)) by lra. reflexivity. }
  split; [exact Is|].
  pose proof (rn_err f ok (z / d)) as D. fold q (eta f) in D. assert (D' : Rabs (q - z / d) <= u) by nra.
  destruct (trig_near (s q) (asin q) ea Is As) as (T1 & T2 & T3 & T4).
  assert (Bz : -1 <= z / d <= 1) by (apply Rabs_le_inv in Hr; lra).
  assert (Q1 : Rabs (cos (asin q) - cos (asin (z / d))) <= u).
  { rewrite !cos_asin by auto. unfold Rsqr. eapply Rle_trans; [apply sqrt_close; auto|]. exact D'. }
  assert (Q2 : Rabs (sin (asin q) - sin (asin (z / d))) <= u) by (rewrite !sin_asin by auto; exact D').
  split; [exact T1|]. split; [exact T2|]. split.
  - replace (m_cos L (s q) - cos (asin (z / d))) with ((m_cos L (s q) - cos (asin q)) + (cos (asin q) - cos (asin (z / d)))) by ring. eapply Rle_trans; [apply Rabs_triang|]. lra.
  - replace (m_sin L (s q) - sin (asin (z / d))) with ((m_sin L (s q) - sin (asin q)) + (sin (asin q) - sin (asin (z / d)))) by ring. eapply Rle_trans; [apply Rabs_triang|]. lra.
Qed.
Lemma eps_facts : eps <= / 1024 -> 0 < eps /\ 8 * u <= eps /\ e + 8 * u <= eps /\ e <= eps /\ e + ea + u <= eps /\ 256 * eta f <= u.
Proof. intros H. pose proof e0. pose proof ea0. pose proof u_small8. destruct eta_u. unfold unit_error in *. repeat split; lra. Qed.
(** The matrix and the offset of the transformation *)
Definition parts_near (E D B Dv Bv : R) (ps : gparts (A := ext)) (Q : mat R) (b bv : list R) : Prop :=
  exists M o ov, ps = (M, PCart3 (Some (nth 0 o 0)) (Some (nth 1 o 0)) (Some (nth 2 o 0)), @map R ext (@Some R) ov) /\
    near_mat E M Q /\ floats f o /\ length o = 3%nat /\ length b = 3%nat /\ within D o b /\ Forall (fun v => Rabs v <= B) b /\
    floats f ov /\ length ov = 3%nat /\ length bv = 3%nat /\ within Dv ov bv /\ Forall (fun v => Rabs v <= Bv) bv.
Lemma size3 a b c : size [a; b; c] = Rabs a + Rabs b + Rabs c.
Proof. unfold size. cbn. ring. Qed.
Lemma ortho_neg Q : orthogonal Q -> orthogonal (map (map Ropp) Q).
Proof.
  intros O. destruct (ortho_inv Q O) as (a & b & c & d & e' & g & h & i & j & -> & (H1 & H2 & H3 & H4 & H5 & H6) & _). clear O.
  split; [split; [reflexivity|repeat constructor]|]. intros k l Hk Hl.
  destruct k as [|[|[|]]]; try lia; destruct l as [|[|[|]]]; try lia; cbn; lra.
Qed.
Lemma near_neg E M Q : near_mat E M Q -> near_mat E (map (map (@nneg ext FN)) M) (map (map Ropp) Q).
Proof.
  intros (r1 & r2 & r3 & q1 & q2 & q3 & -> & -> & I1 & I2 & I3 & C1 & C2 & C3 & O). pose proof (ortho_neg _ O) as O'.
  destruct r1 as [[a1 b1] c1'], r2 as [[a2 b2] c2], r3 as [[a3 b3] c3], q1 as [[a1' b1'] c1''], q2 as [[a2' b2'] c2'], q3 as [[a3' b3'] c3'].
  destruct I1 as (? & ? & ?), I2 as (? & ? & ?), I3 as (? & ? & ?), C1 as (? & ? & ?), C2 as (? & ? & ?), C3 as (? & ? & ?).
  exists (-a1, -b1, -c1'), (-a2, -b2, -c2), (-a3, -b3, -c3), (-a1', -b1', -c1''), (-a2', -b2', -c2'), (-a3', -b3', -c3').
  split; [reflexivity|]. split; [reflexivity|]. cbn [isrow close_row].
  do 6 (split; [repeat split; try apply PropFloat4.isf_opp; try apply dif_opp; try assumption; now apply PropFloat4.isf_opp|]). exact O'.
Qed.
Lemma step_bound E F : eps <= / 1024 -> 0 <= E -> 0 <= F -> step_err E F <= (2 * E + 2 * F + 3 * (E * F)) * (2049 / 2048) + 33 / 64 * eps.
Proof.
  intros H HE HF. destruct (eps_facts H) as (P & U8 & _ & _ & _ & Ne). unfold step_err.
  assert (0 <= E * F) by nra. assert ((2 * E + 2 * F + 3 * (E * F)) * (1 + 4 * u) <= (2 * E + 2 * F + 3 * (E * F)) * (2049 / 2048)) by (apply Rmult_le_compat_l; lra).
  lra.
Qed.
Lemma vec_bound E S k : eps <= / 1024 -> 0 <= E <= k * eps -> 0 <= k <= 32 -> 0 <= S -> vec_err E S <= (k + 9 / 16) * eps * S + 4 * eta f.
Proof.
  intros H HE Hk HS. destruct (eps_facts H) as (P & U8 & _ & _ & _ & Ne). unfold vec_err. pose proof u_small8 as UU.
  assert (E <= 1 / 32) by nra. assert ((1 + E) * (4 * u) <= 33 / 32 * (eps / 2)) by (apply Rmult_le_compat; lra).
  assert ((E + (1 + E) * (4 * u)) * S <= ((k + 9 / 16) * eps) * S) by (apply Rmult_le_compat_r; lra). lra.
Qed.
Lemma step_nonneg E F : 0 <= E -> 0 <= F -> 0 <= step_err E F.
Proof. intros. pose proof u_small8. destruct eta_u. unfold step_err. assert (0 <= E * F) by nra. assert (0 <= (2 * E + 2 * F + 3 * (E * F)) * (1 + 4 * u)) by (apply Rmult_le_pos; lra). lra. Qed.
Lemma abs_size l : Forall (fun v => Rabs v <= size l) l.
Proof.
  induction l as [|a l IH]; constructor.
  - unfold size. cbn. pose proof (size_pos l) as P. unfold size in P. lra.
  - apply Forall_impl with (2 := IH). intros v Hv. unfold size in *. cbn. pose proof (Rabs_pos a). lra.
Qed.
Lemma within_refl l : within 0 l l.
Proof. induction l; constructor; auto. apply dif0. lra. Qed.
Lemma to_gcf_near g : float_frame f g -> eps <= / 1024 -> dval (g_dist g) <= fmax f / 64 ->
  exists ps, @gto_gcf_parts ext FN (fasin s) (froll0 f) (gfinite g) = Ok false ps /\
    parts_near (29 * eps) (2 * eps * dval (g_dist g) + 4 * eta f) (dval (g_dist g)) 0 (size (g_vsun g)) ps (whole g) (shift g) (g_vsun g).
Proof.
  intros (G & Fl & Fv & Hr & Hz) He Hd. destruct (eps_facts He) as (P & U8 & E8 & E1 & Eu & Ne). pose proof e0 as PE.
  unfold floats in Fl. repeat (apply Forall_cons_iff in Fl; let H := fresh "I" in destruct Fl as [H Fl]).
  destruct G as (K & D & Z & V). destruct g as [lon lat [dk' d] roll zs vs]. cbn [g_lon g_lat g_dist g_roll g_zsun g_vsun dval dk] in *. subst dk'.
  destruct (roll_angle roll ltac:(assumption) Hr) as (a' & Ea & Ia & Da).
  destruct (tilt_angle zs d ltac:(assumption) ltac:(assumption) D Hz) as (q & b' & Eq & Eb & Ib & Tb).
  assert (Tx : trig eps a' (roll - roll0)) by (eapply trig_w; [apply trig_near; eauto|lra]).
  assert (Ty : trig eps lat lat) by (eapply trig_w; [apply trig_near with (d := 0); [assumption|apply dif0; lra]|lra]).
  assert (Tz : trig eps (- lon) (- lon)) by (eapply trig_w; [apply trig_near with (d := 0); [now apply PropFloat4.isf_opp|apply dif0; lra]|lra]).
  assert (Th : trig eps b' (asin (zs / d))) by (eapply trig_w; [exact Tb|lra]).
  assert (P0 : 0 <= eps) by lra. assert (P1 : 0 <= eps <= / 16) by lra. assert (P5 : 0 <= 5 * eps <= / 16) by lra. assert (P13 : 0 <= 13 * eps <= / 16) by lra.
  pose proof (near_ex _ _ _ P0 Tx) as N1. pose proof (near_ey _ _ _ P0 Ty) as N2. pose proof (near_ez _ _ _ P0 Tz) as N3. pose proof (near_ey _ _ _ P0 Th) as N4.
  pose proof (near_mul _ _ _ _ _ _ N1 N2 P1 P1) as N12. pose proof (step_bound eps eps He P0 P0) as B1.
  pose proof (step_nonneg eps eps ltac:(lra) ltac:(lra)) as Q1. assert (B1' : step_err eps eps <= 5 * eps) by nra.
  pose proof (near_mul _ _ _ _ _ _ (near_w _ _ _ _ N12 B1') N3 P5 P1) as N123. pose proof (step_bound (5 * eps) eps He ltac:(lra) ltac:(lra)) as B2.
  assert (B2' : step_err (5 * eps) eps <= 13 * eps) by nra.
  pose proof (near_mul _ _ _ _ _ _ N4 (near_w _ _ _ _ N123 B2') P1 P13) as N. pose proof (step_bound eps (13 * eps) He ltac:(lra) ltac:(lra)) as B3.
  assert (B3' : step_err eps (13 * eps) <= 29 * eps) by nra. apply (near_w _ _ _ _ N) in B3'. clear N.
  pose proof (near_neg _ _ _ N4) as NN. pose proof (PropFloat5.isf0 f) as F0z. pose proof (fmax_pos f) as PM.
  assert (Sd : size [d; 0; 0] = d) by (rewrite size3, Rabs_R0, Rabs_pos_eq by lra; ring).
  destruct (near_vec eps _ _ d 0 0 NN ltac:(lra) ltac:(assumption) F0z F0z) as (o1 & o2 & o3 & Eo & Fo & Wo). { rewrite Sd. lra. }
  rewrite Sd in Wo. pose proof (vec_bound eps d 1 He ltac:(lra) ltac:(lra) ltac:(lra)) as VB.
  assert (Sh : shift (mkGCF lon lat (mkDist KDistance d) roll zs vs) = rot (map (map Ropp) (ey (asin (zs / d)))) [d; 0; 0]).
  { unfold shift, tilt. cbn [g_dist g_zsun dval]. now rewrite Rmult_1_r, Rmult_0_r. }
  assert (D1 : @nmul ext FN (Some d) (Some 1) = Some d) by (apply mx1; assumption). assert (D0 : @nmul ext FN (Some d) (Some 0) = Some 0) by (apply mx0; assumption).
  eexists. split.
  { unfold gto_gcf_parts, gfinite. cbn [g_lon g_lat g_dist g_roll g_zsun g_vsun dist_map dk dval]. cbv zeta. rewrite Ea, Eq, Eb. rewrite c0, c1.
    rewrite D1, D0, Eo. cbn [gcart_from]. unfold ret. rewrite bind_ok. reflexivity. }
  eexists _, [o1; o2; o3], vs. split; [reflexivity|]. split; [exact B3'|]. split; [exact Fo|]. split; [reflexivity|]. split; [reflexivity|]. split.
  { rewrite Sh. destruct NN as (? & ? & ? & k1 & k2 & k3 & _ & EQ & _). rewrite EQ in *. rewrite rot_rl in *. apply within3 in Wo. apply within3.
    assert (W' : forall t, t <= vec_err eps d -> t <= 2 * eps * d + 4 * eta f). { intros. assert (0 <= eps * d) by nra. lra. } destruct Wo as (? & ? & ?). auto. }
  split.
  { rewrite Sh. destruct NN as (? & ? & ? & k1 & k2 & k3 & _ & EQ & _ & _ & _ & _ & _ & _ & O). rewrite EQ in *. rewrite rot_rl. destruct (orth_unit _ _ _ O) as (V1 & V2 & V3).
    assert (R0' : Rabs d + Rabs 0 + Rabs 0 = d) by (rewrite <- size3; exact Sd).
    pose proof (row_le k1 d 0 0 V1). pose proof (row_le k2 d 0 0 V2). pose proof (row_le k3 d 0 0 V3). repeat (apply Forall_cons; [lra|]). apply Forall_nil. }
  split; [exact Fv|]. split; [exact V|]. split; [exact V|]. split; [apply within_refl|apply abs_size].
Qed.
End S.
