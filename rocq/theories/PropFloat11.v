(** * Property C78: arithmetic of velocities and accelerations in floating point.

    Vocabulary: Float.v, FVelArith.v; [rounded_to], [pairwise]: PropFloat4.v.  A vector is
    given by its class and the list [x] of its numbers. *)
From Coq Require Import Reals Bool List ZArith Lra Lia.
From Flocq Require Import Core.
From Verif Require Import Num Vectors Transform Pos3D Pos3DThm Dispatch Arith TreeArith Vel UVel VelArith GOp GVelArith Float FloatThm FloatConv FloatArith FVel PropFloat PropFloat4 FVelArith.
Import ListNotations.
Open Scope R_scope.

Definition efin (x : list R) : list ext := map (@Some R) x.
Definition fvel (c : vcls) (x : list R) : vel ext := mkVel c (efin x).
Definition facc (c : xcls) (x : list R) : acc ext := mkAcc c (efin x).
(** The product of a number with a coordinate: correctly rounded, with relative error u
    unless it underflows; not finite only if it overflows. *)
Definition product_to (f : fmt) (exact : R) (v : ext) : Prop :=
  match v with
  | Some r => isf f r /\ Rabs (r - exact) <= fu f * Rabs exact + bpow radix2 (femin f)
  | None => fmax f * (1 - fu f) < Rabs exact
  end.
Definition cart_vel (c : vcls) (n : nat) : Prop := (c = WCart1 /\ n = 1%nat) \/ (c = WCart2 /\ n = 2%nat) \/ (c = WCart3 /\ n = 3%nat).
Definition cart_acc (c : xcls) (n : nat) : Prop := (c = XCart1 /\ n = 1%nat) \/ (c = XCart2 /\ n = 2%nat) \/ (c = XCart3 /\ n = 3%nat).
(** The exception raised when there is no rule (RuntimeError). *)
Definition no_rule {A} (r : res A) : Prop := r = Raise ERuntime.

Section S.
Variable f : fmt.
Variable L : libm.
Hypothesis ok : fmt_ok f.
Lemma product_ok a b : product_to f (a * b) (fop f (a * b)).
Proof.
  destruct (fop f (a * b)) as [r|] eqn:E; cbn; [|now apply fop_overflow].
  destruct (fop_isf f ok _ _ E) as [I ->]. split; auto. now apply rn_err.
Qed.
Definition ewise (R : R -> ext -> Prop) (exact : list Rdefinitions.R) (v : list ext) : Prop := Forall2 R exact v.
Lemma same_units_ext (a b : list ext) : forallb (fun '(x, y) => @same_unit ext TreeArith.Static_ext x y) (combine a b) = true.
Proof. revert b. induction a as [|x a IH]; intros [|y b]; cbn; auto. Qed.
Lemma zip_add x y : length x = length y -> Forall (isf f) x -> Forall (isf f) y ->
  Forall2 (rounded_to f) (map (fun '(a, b) => a + b) (combine x y)) (map (fun '(a, b) => @nadd ext (Num_fl f L) a b) (combine (efin x) (efin y))).
Proof.
  revert y. induction x as [|a x IH]; intros [|b y] H Hx Hy; try discriminate; cbn; [constructor|].
  apply Forall_cons_iff in Hx, Hy. destruct Hx, Hy. constructor; [now apply sum_rounded|]. apply IH; auto.
Qed.
Lemma zip_sub x y : length x = length y -> Forall (isf f) x -> Forall (isf f) y ->
  Forall2 (rounded_to f) (map (fun '(a, b) => a - b) (combine x y)) (map (fun '(a, b) => @nsub ext (Num_fl f L) a b) (combine (efin x) (efin y))).
Proof.
  revert y. induction x as [|a x IH]; intros [|b y] H Hx Hy; try discriminate; cbn; [constructor|].
  apply Forall_cons_iff in Hx, Hy. destruct Hx, Hy. constructor; [apply sum_rounded; auto using isf_opp|]. apply IH; auto.
Qed.
Lemma times_ok (g : R -> R -> R) (h : ext -> ext -> ext) k x : (forall a, h (Some k) (Some a) = fop f (g k a)) -> (forall a, product_to f (g k a) (fop f (g k a))) ->
  Forall2 (product_to f) (map (g k) x) (map (fun a => h (Some k) a) (efin x)).
Proof. intros H K. induction x as [|a x IH]; cbn; constructor; auto. rewrite H. apply K. Qed.
End S.

(** ** Sums and differences *)
(** They exist for the same classes as in exact arithmetic (C51), and every component is
    the correctly rounded one. *)
Theorem C78_velocity_sum : forall f L c n x y, fmt_ok f -> cart_vel c n -> length x = n -> length y = n -> Forall (isf f) x -> Forall (isf f) y ->
  exists r, fvel_add f L (fvel c x) (fvel c y) = Ok false (mkVel c r) /\
    Forall2 (rounded_to f) (map (fun '(a, b) => a + b) (combine x y)) r /\
    fvel_add f L (fvel c y) (fvel c x) = Ok false (mkVel c r).
Proof.
  intros f L c n x y ok C Lx Ly Fx Fy. exists (map (fun '(a, b) => @nadd ext (Num_fl f L) a b) (combine (efin x) (efin y))).
  assert (Cm : map (fun '(a, b) => @nadd ext (Num_fl f L) a b) (combine (efin y) (efin x)) = map (fun '(a, b) => @nadd ext (Num_fl f L) a b) (combine (efin x) (efin y))).
  { clear - Lx Ly. revert y n Lx Ly. induction x as [|a x IH]; intros [|b y] n Lx Ly; cbn in *; try congruence. rewrite (Rplus_comm b a). f_equal. destruct n; try discriminate. apply (IH y n); congruence. }
  assert (E : forall p q, fvel_add f L (fvel c p) (fvel c q) = Ok false (mkVel c (map (fun '(a, b) => @nadd ext (Num_fl f L) a b) (combine (efin p) (efin q))))).
  { intros p q. unfold fvel_add, tvel_add, fvel. cbn [vc vcomps]. rewrite same_units_ext. destruct C as [(-> & _)|[(-> & _)|(-> & _)] ]; reflexivity. }
  rewrite !E, Cm. split; [reflexivity|]. split; [|reflexivity]. apply zip_add; auto. congruence.
Qed.
Print Assumptions C78_velocity_sum.
Theorem C78_acceleration_sum : forall f L c n x y, fmt_ok f -> cart_acc c n -> length x = n -> length y = n -> Forall (isf f) x -> Forall (isf f) y ->
  exists r, facc_add f L (facc c x) (facc c y) = Ok false (mkAcc c r) /\
    Forall2 (rounded_to f) (map (fun '(a, b) => a + b) (combine x y)) r.
Proof.
  intros f L c n x y ok C Lx Ly Fx Fy. exists (map (fun '(a, b) => @nadd ext (Num_fl f L) a b) (combine (efin x) (efin y))). split; [|apply zip_add; auto; congruence].
  unfold facc_add, tacc_add, facc, tzip. cbn [xc xcomps]. rewrite same_units_ext. destruct C as [(-> & _)|[(-> & _)|(-> & _)] ]; reflexivity.
Qed.
Print Assumptions C78_acceleration_sum.
Theorem C78_differences : forall f L x y, fmt_ok f -> length x = length y -> Forall (isf f) x -> Forall (isf f) y ->
  (exists r, fvel_sub f L (fvel WCart3 x) (fvel WCart3 y) = Ok false (mkVel WCart3 r) /\ Forall2 (rounded_to f) (map (fun '(a, b) => a - b) (combine x y)) r) /\
  (forall c, c = XCart1 \/ c = XCart3 -> exists r, facc_sub f L (facc c x) (facc c y) = Ok false (mkAcc c r) /\ Forall2 (rounded_to f) (map (fun '(a, b) => a - b) (combine x y)) r) /\
  (fvel_sub f L (fvel WCart3 x) (fvel WCart3 y) = Ok false (fvel WCart3 (map (fun _ => 0) x)) <-> x = y).
Proof.
  intros f L x y ok Lxy Fx Fy.
  assert (E : fvel_sub f L (fvel WCart3 x) (fvel WCart3 y) = Ok false (mkVel WCart3 (map (fun '(a, b) => @nsub ext (Num_fl f L) a b) (combine (efin x) (efin y))))).
  { unfold fvel_sub, tvel_sub, fvel, tzip. cbn [vc vcomps]. now rewrite same_units_ext. }
  split; [|split].
  - eexists. split; [exact E|]. now apply zip_sub.
  - intros c C. exists (map (fun '(a, b) => @nsub ext (Num_fl f L) a b) (combine (efin x) (efin y))). split; [|now apply zip_sub].
    unfold facc_sub, tacc_sub, facc, tzip. cbn [xc xcomps]. rewrite same_units_ext. destruct C as [-> | ->]; reflexivity.
  - rewrite E. unfold fvel, efin. transitivity (map (fun '(a, b) => @nsub ext (Num_fl f L) a b) (combine (map (@Some R) x) (map (@Some R) y)) = map (@Some R) (map (fun _ => 0) x)).
    { split; [intros H; now injection H|intros H; exact (f_equal (fun r : list ext => Ok false (mkVel WCart3 r)) H)]. }
    clear E. revert y Lxy Fy. induction x as [|a x IH]; intros [|b y] Lxy Fy; try discriminate; cbn [combine map]; [tauto|].
    apply Forall_cons_iff in Fx, Fy. destruct Fx as [Ia Fx], Fy as [Ib Fy]. injection Lxy as Lxy. specialize (IH Fx y Lxy Fy).
    assert (Z : @nsub ext (Num_fl f L) (Some a) (Some b) = Some 0 <-> a = b) by (cbn; now apply fsub_0).
    split.
    + intros H. pose proof (f_equal (hd None) H) as H1. pose proof (f_equal (@tl _) H) as H2. cbn [hd tl] in H1, H2. apply Z in H1. apply IH in H2. congruence.
    + intros H. injection H as -> ->. f_equal; [now apply Z|now apply IH].
Qed.
Print Assumptions C78_differences.
(** No rule for the other combinations: RuntimeError, whatever the numbers. *)
Theorem C78_no_other_rules : forall f L v w a b k s,
  (~ (vc v = vc w /\ In (vc v) [WCart1; WCart2; WCart3]) -> no_rule (fvel_add f L v w)) /\
  (~ (vc v = WCart3 /\ vc w = WCart3) -> no_rule (fvel_sub f L v w)) /\
  (~ (xc a = xc b /\ In (xc a) [XCart1; XCart2; XCart3]) -> no_rule (facc_add f L a b)) /\
  (~ (xc a = xc b /\ In (xc a) [XCart1; XCart3]) -> no_rule (facc_sub f L a b)) /\
  (~ In (vc v) [WCart1; WCart2] -> no_rule (fvel_scale f L s k v)) /\
  (~ In (xc a) [XCart1; XCart2] -> no_rule (facc_scale f L s k a)).
Proof.
  intros f L v w a b k s. unfold no_rule, fvel_add, fvel_sub, facc_add, facc_sub, fvel_scale, facc_scale, tvel_add, tvel_sub, tacc_add, tacc_sub, gvel_scale, gacc_scale.
  split; [|split; [|split; [|split; [|split] ] ] ].
  - destruct (vc v), (vc w); try (intros _; reflexivity); intros H; exfalso; apply H; cbn; auto.
  - destruct (vc v), (vc w); try (intros _; reflexivity); intros H; exfalso; apply H; auto.
  - destruct (xc a), (xc b); try (intros _; reflexivity); intros H; exfalso; apply H; cbn; auto.
  - destruct (xc a), (xc b); try (intros _; reflexivity); intros H; exfalso; apply H; cbn; auto.
  - destruct (vc v); try (intros _; reflexivity); intros H; exfalso; apply H; cbn; auto.
  - destruct (xc a); try (intros _; reflexivity); intros H; exfalso; apply H; cbn; auto.
Qed.
Print Assumptions C78_no_other_rules.

(** ** Negation *)
Theorem C78_negation_exact : forall f L c x d y,
  fvel_neg f L (fvel c x) = fvel c (map Ropp x) /\ fvel_neg f L (fvel_neg f L (fvel c x)) = fvel c x /\
  facc_neg f L (facc d y) = facc d (map Ropp y) /\ facc_neg f L (facc_neg f L (facc d y)) = facc d y.
Proof.
  intros f L c x d y. unfold fvel_neg, facc_neg, gvel_neg, gacc_neg, fvel, facc, efin. cbn [vc vcomps xc xcomps].
  assert (K : forall l, map (@nneg ext (Num_fl f L)) (map (@Some R) l) = map (@Some R) (map Ropp l)) by (intros; now rewrite !map_map).
  assert (K2 : forall l, map Ropp (map Ropp l) = l) by (intros l; rewrite map_map; rewrite <- (map_id l) at 2; apply map_ext; intros; apply Ropp_involutive).
  rewrite !K, !K2. auto.
Qed.
Print Assumptions C78_negation_exact.

(** ** Multiples, products with times *)
Theorem C78_multiples : forall f L k c x d y, fmt_ok f -> In c [WCart1; WCart2] -> In d [XCart1; XCart2] ->
  (exists r, fvel_scale f L [] (Some k) (fvel c x) = Ok false (mkVel c r) /\ Forall2 (product_to f) (map (Rmult k) x) r) /\
  (exists r, facc_scale f L [] (Some k) (facc d y) = Ok false (mkAcc d r) /\ Forall2 (product_to f) (map (Rmult k) y) r).
Proof.
  intros f L k c x d y ok Hc Hd. split.
  - exists (map (fun a => @nmul ext (Num_fl f L) (Some k) a) (efin x)). split; [|apply (times_ok f Rmult); [reflexivity|intros; now apply product_ok]].
    unfold fvel_scale, gvel_scale, fvel. cbn [vc vcomps any_axis]. cbn in Hc. destruct Hc as [<-|[<-|[] ] ]; reflexivity.
  - exists (map (fun a => @nmul ext (Num_fl f L) (Some k) a) (efin y)). split; [|apply (times_ok f Rmult); [reflexivity|intros; now apply product_ok]].
    unfold facc_scale, gacc_scale, facc. cbn [xc xcomps any_axis]. cbn in Hd. destruct Hd as [<-|[<-|[] ] ]; reflexivity.
Qed.
Print Assumptions C78_multiples.
(** The displacement of a Cartesian velocity in a time, the velocity gained by an
    acceleration of any class, the displacement gained in a squared time. *)
Theorem C78_times : forall f L m t c d n x, fmt_ok f -> length x = n ->
  (cart_vel c n -> exists q, fvel_mul_time f L m (fvel c x) (Some t) = Ok false q /\ cls_of q = integral_cls c /\ Forall2 (product_to f) (map (fun a => a * t) x) (coords q)) /\
  (exists v, facc_mul_time f L (facc d x) (Some t) = v /\ vc v = acc_integral_cls d /\ Forall2 (product_to f) (map (fun a => a * t) x) (vcomps v)) /\
  (cart_acc d n -> exists q, facc_mul_time2 f L m (facc d x) (Some t) = Ok false q /\ cls_of q = integral_cls (acc_integral_cls d) /\ Forall2 (product_to f) (map (fun a => a * t) x) (coords q)).
Proof.
  intros f L m t c d n x ok Lx. pose proof (fun a => product_ok f ok a t) as K.
  split; [|split].
  - intros [(-> & ->)|[(-> & ->)|(-> & ->)] ]; destruct x as [|x1 [|x2 [|x3 [|]]]]; try discriminate; (eexists; split; [reflexivity|]; split; [reflexivity|]; cbn [coords map]; repeat (apply Forall2_cons; [apply K|]); apply Forall2_nil).
  - eexists. split; [reflexivity|]. split; [reflexivity|]. cbn. clear Lx. induction x as [|a x IH]; cbn; constructor; auto.
  - intros [(-> & ->)|[(-> & ->)|(-> & ->)] ]; destruct x as [|x1 [|x2 [|x3 [|]]]]; try discriminate; (eexists; split; [reflexivity|]; split; [reflexivity|]; cbn [coords map]; repeat (apply Forall2_cons; [apply K|]); apply Forall2_nil).
Qed.
Print Assumptions C78_times.

(** ** Norms *)
(** The speed of a 3-D Cartesian velocity and the norm of a 3-D Cartesian acceleration are
    the norm of the position with the same coordinates (C65), bit for bit; hence the
    speed has three rounding errors. *)
Theorem C78_norm_is_the_norm_of_the_position : forall f L deg n x y z p,
  (exists r, fpos_norm f L deg (S n) (cart3 x y z) = Ok false (mkDist KDistance r) /\
     fvel_norm f L deg n (fvel WCart3 [x; y; z]) p = Ok false r /\ facc_norm0 f L (facc XCart3 [x; y; z]) = Ok false r) /\
  fvel_norm f L deg n (fvel WCart1 [x]) p = Ok false (Some (Rabs x)) /\ facc_norm0 f L (facc XCart1 [x]) = Ok false (Some (Rabs x)).
Proof.
  intros f L deg n x y z p. split; [|split; reflexivity].
  eexists. rewrite norm3_is. split; [reflexivity|]. split; reflexivity.
Qed.
Print Assumptions C78_norm_is_the_norm_of_the_position.
Theorem C78_speed_accuracy : forall f L deg n x y z p,
    fmt_ok f -> libm_ok f L -> usable f x -> usable f y -> usable f z ->
    no_underflow f x -> no_underflow f y -> no_underflow f z -> x <> 0 \/ y <> 0 \/ z <> 0 ->
    exists r, fvel_norm f L deg n (fvel WCart3 [x; y; z]) p = Ok false (Some r) /\ isf f r /\
      sqrt (x * x + y * y + z * z) * (1 - fu f) ^ 3 <= r <= sqrt (x * x + y * y + z * z) * (1 + fu f) ^ 3.
Proof.
  intros f L deg n x y z p ok Lok Ux Uy Uz Nx Ny Nz N.
  destruct (C65_norm_accuracy f L deg n x y z ok Lok Ux Uy Uz Nx Ny Nz N) as (r & E & I & B). exists r. split; auto.
  destruct (C78_norm_is_the_norm_of_the_position f L deg n x y z p) as [(r' & E1 & E2 & _) _]. rewrite E in E1. injection E1 as <-. exact E2.
Qed.
Print Assumptions C78_speed_accuracy.
(** Finding: a representable speed whose square overflows is not finite. *)
Theorem C78_finding_speed_overflows : forall f L deg n x p, fmt_ok f -> isf f x -> fmax f <= x * x ->
  fvel_norm f L deg n (fvel WCart3 [x; 0; 0]) p = Ok false None.
Proof.
  intros f L deg n x p ok Ix Hx.
  assert (E : @nmul ext (Num_fl f L) (Some x) (Some x) = None).
  { cbn. unfold fop, fin. assert (K : fmax f <= frnd f (x * x)). { apply rn_ge_F; auto. apply F_bpow; auto. pose proof (emax_big f ok). pose proof (emin_neg f ok). lia. }
    rewrite (proj2 (Rltb_false _ _)); auto. rewrite Rabs_pos_eq; auto. assert (0 < fmax f) by apply bpow_gt_0. lra. }
  assert (Ev : fvel_norm f L deg n (fvel WCart3 [x; 0; 0]) p = @gcart_norm ext (Num_fl f L) [Some x; Some 0; Some 0]) by reflexivity.
  rewrite Ev. unfold gcart_norm, ret. rewrite E. reflexivity.
Qed.
Print Assumptions C78_finding_speed_overflows.

(** ** Equality *)
Theorem C78_equality : forall f L c c' x y, length x = length y ->
  (exists b, fvel_eq f L (fvel c x) (fvel c' y) = Ok false b /\ (b = true <-> c = c' /\ x = y)).
Proof.
  intros f L c c' x y Lxy. unfold fvel_eq, tvel_eq, fvel. cbn [vc vcomps]. rewrite same_units_ext.
  assert (Vc : vcls_eqb c c' = true <-> c = c') by (destruct c, c'; cbn; split; intros; congruence).
  destruct (vcls_eqb c c') eqn:E.
  - eexists. split; [reflexivity|]. assert (c = c') by tauto. subst c'.
    assert (K : @gall_eqb ext (Num_fl f L) (efin x) (efin y) = true <-> x = y).
    { clear - Lxy. revert y Lxy. induction x as [|a x IH]; intros [|b y] Lxy; try discriminate; cbn; [tauto|]. injection Lxy as Lxy. rewrite andb_true_iff, Reqb_true. rewrite (IH y Lxy). split; [intros []; congruence|intros H; injection H; auto]. }
    rewrite K. tauto.
  - eexists. split; [reflexivity|]. split; [discriminate|]. intros [H _]. apply Vc in H. discriminate.
Qed.
Print Assumptions C78_equality.

Theorem C78_acceleration_equality : forall f L c c' x y, length x = length y ->
  (exists b, facc_eq f L (facc c x) (facc c' y) = Ok false b /\ (b = true <-> c = c' /\ x = y)).
Proof.
  intros f L c c' x y Lxy. unfold facc_eq, tacc_eq, facc. cbn [xc xcomps]. rewrite same_units_ext.
  assert (Vc : xcls_eqb c c' = true <-> c = c') by (destruct c, c'; cbn; split; intros; congruence).
  destruct (xcls_eqb c c') eqn:E.
  - eexists. split; [reflexivity|]. assert (c = c') by tauto. subst c'.
    assert (K : @gall_eqb ext (Num_fl f L) (efin x) (efin y) = true <-> x = y).
    { clear - Lxy. revert y Lxy. induction x as [|a x IH]; intros [|b y] Lxy; try discriminate; cbn; [tauto|]. injection Lxy as Lxy. rewrite andb_true_iff, Reqb_true. rewrite (IH y Lxy). split; [intros []; congruence|intros H; injection H; auto]. }
    rewrite K. tauto.
  - eexists. split; [reflexivity|]. split; [discriminate|]. intros [H _]. apply Vc in H. discriminate.
Qed.
Print Assumptions C78_acceleration_equality.
Example C78_equality_case : exists b, facc_eq binary32 (cr_libm binary32) (facc XCart2 [1; 2]) (facc XCart2 [1; 2]) = Ok false b /\ b = true.
Proof.
  destruct (C78_acceleration_equality binary32 (cr_libm binary32) XCart2 XCart2 [1; 2] [1; 2] eq_refl) as (b & E & K).
  exists b. split; auto. now apply K.
Qed.

(** ** A case *)
Example C78_case : exists r, fvel_norm binary32 (cr_libm binary32) false 0 (fvel WCart3 [3; 4; 0]) (cart3 1 1 1) = Ok false (Some r) /\ Rabs (r - 5) <= / 1000.
Proof.
  pose proof binary32_ok as ok.
  assert (MS : 0 < fmin_normal binary32 <= / 16) by (split; [apply bpow_gt_0|now apply min_normal_small]).
  assert (U : 0 < fu binary32 <= / 1000000). { split; [apply fu_pos|]. unfold fu. change (bpow radix2 (- fprec binary32)) with (/ 16777216). lra. }
  destruct (C78_speed_accuracy binary32 (cr_libm binary32) false 0 3 4 0 (cart3 1 1 1)) as (r & E & I & B); auto; try (apply (usable_int binary32); auto; lia); try (unfold no_underflow, not_tiny; first [left; reflexivity|right; lra]).
  all: try (now apply cr_libm_ok).
  - exists r. split; [exact E|]. replace (3 * 3 + 4 * 4 + 0 * 0) with (5 * 5) in B by ring. rewrite sqrt_square in B by lra. apply Rabs_le. cbn [pow] in B. split; nra.
Qed.
Print Assumptions C78_case.
