(** * Property C71: arithmetic of velocities and accelerations in every choice of units.

    C51 and C24 are about SI values.  Here the operations (GVelArith.v) run on numbers
    that carry units; the operands may use different units, and each component its own.
    Sums, differences and comparisons are right when the operands have the same units
    component by component, and raise ValueError otherwise; multiples, products with
    times and norms are always right.  Vocabulary as for C58: [vel_units v] = every
    component of [v] has its declared dimension, in some unit; [si_vel v] = the SI
    values; [vunits v] = the units themselves. *)
From Coq Require Import Reals Bool List ZArith Lra Lia.
From Verif Require UnitsThm.
From Verif Require Import Num Vectors Spec Transform Pos3D Pos3DThm RoundTrip Dispatch Vel SpecVel Units UQ Scale Rel UQThm UVel UVelThm Arith TreeArith VelArith PropVel PropVelArith GOp GOpThm PropUQ PropUVel PropUnitArith UOpThm PropUnitOp GVelArith.
Import ListNotations.
Open Scope R_scope.

Definition vunits (v : vel (uq ext)) := map unit_of (vcomps v).
Definition aunits (a : acc (uq ext)) := map unit_of (xcomps a).
Definition same_vel (v : vel (uq ext)) (V : vel ext) : Prop := vel_units v /\ si_vel v = V.
Definition same_acc (a : acc (uq ext)) (X : acc ext) : Prop := acc_units a /\ si_acc a = X.
(** The result on SI values if that is an exception, and ValueError if it is not *)
Definition or_ValueError {T U} (r : res T) : res U := match r with Raise e => Raise e | Ok _ _ => Raise EValue end.

(** ** Components *)
Lemma check_spec (a : list (uq ext)) : forall b, length a = length b ->
  (forallb (fun '(x, y) => same_unit x y) (combine a b) = true <-> map unit_of a = map unit_of b).
Proof.
  induction a as [|x a IH]; intros [|y b] L; try discriminate L; [cbn; tauto|]. injection L as L.
  cbn [combine forallb map]. rewrite andb_true_iff, same_unit_spec, (IH b L). split; [intros [-> ->]; reflexivity|]. intros E. injection E as E1 E2 E3. split; [unfold unit_of; congruence|exact E3].
Qed.
Lemma du_sub d (x y : uq ext) X Y : du d x X -> du d y Y -> du d (nsub x y) (nsub X Y).
Proof.
  intros (D1 & P1 & ->) (D2 & P2 & ->). split; [cbn [nsub Num_uq uqd]; rewrite D1, D2; apply sum_refl|]. split; [exact P1|].
  unfold uphys at 1. rewrite <- (inunit_sc scal_ext x y), (s_sub scal_ext) by auto. reflexivity.
Qed.
Definition du_op (f : uq ext -> uq ext -> uq ext) (F : ext -> ext -> ext) : Prop :=
  (forall d x X y Y, du d x X -> du d y Y -> du d (f x y) (F X Y)) /\
  (forall d x y, is_a d x -> is_a d y -> unit_of (f x y) = unit_of x).
Lemma op_add : du_op nadd nadd.
Proof. split; [intros; now apply du_add|]. intros d x y [D _] [D' _]. unfold unit_of. cbn. rewrite D, D', sum_refl. reflexivity. Qed.
Lemma op_sub : du_op nsub nsub.
Proof. split; [intros; now apply du_sub|]. intros d x y [D _] [D' _]. unfold unit_of. cbn. rewrite D, D', sum_refl. reflexivity. Qed.
Lemma zip_rel f F j c u x u' x' : du_op f F -> comps_rel j c u x -> comps_rel j c u' x' ->
  comps_rel j c (map (fun '(a, b) => f a b) (combine u u')) (map (fun '(a, b) => F a b) (combine x x')) /\
  map unit_of (map (fun '(a, b) => f a b) (combine u u')) = map unit_of u.
Proof.
  intros [H1 H2]. unfold comps_rel. revert u x u' x'. induction (kinds c) as [|k ks IH]; intros [|a u] [|b x] [|a' u'] [|b' x']; cbn [all3 map combine]; try tauto.
  intros [A B] [A' B']. destruct (IH _ _ _ _ B B') as [I1 I2]. split; [split; [now apply H1|exact I1]|]. rewrite I2. f_equal.
  eapply H2; [destruct A as (? & ? & _)|destruct A' as (? & ? & _)]; split; eassumption.
Qed.
Lemma comps_len j c u x : comps_rel j c u x -> length u = dim_of c /\ length x = dim_of c.
Proof. intros H. destruct (all3_len _ _ _ _ H) as [A B]. rewrite kinds_len in A, B. auto. Qed.
Lemma tzip_rel f F j c u x u' x' : du_op f F -> comps_rel j c u x -> comps_rel j c u' x' ->
  (map unit_of u = map unit_of u' -> exists r, tzip f u u' = Ok false r /\ comps_rel j c r (map (fun '(a, b) => F a b) (combine x x')) /\ map unit_of r = map unit_of u) /\
  (map unit_of u <> map unit_of u' -> tzip f u u' = Raise EValue).
Proof.
  intros HF C C'. pose proof (check_spec u u' ltac:(now rewrite (proj1 (comps_len _ _ _ _ C)), (proj1 (comps_len _ _ _ _ C')))) as S.
  unfold tzip. destruct (forallb _ (combine u u')) eqn:E.
  - split; [|intros N; destruct N; now apply S]. intros _. destruct (zip_rel f F _ _ _ _ _ _ HF C C') as [I1 I2]. eexists. split; [reflexivity|]. auto.
  - split; [intros K; apply S in K; discriminate K|reflexivity].
Qed.
Lemma tvel_add_zip (v w : vel (uq ext)) : tvel_add v w = match vc v, vc w with
  | WCart1, WCart1 | WCart2, WCart2 | WCart3, WCart3 => do c <- tzip nadd (vcomps v) (vcomps w); ret (mkVel (vc v) c)
  | _, _ => Raise ERuntime end.
Proof. unfold tvel_add, tzip. destruct (vc v), (vc w); try reflexivity; destruct (forallb _ _); reflexivity. Qed.
Lemma vcls_cases (v w : vcls) : {v = w} + {v <> w}. Proof. decide equality. Qed.

(** ** Sums and differences *)
Lemma vzip_thm f F c (v w : vel (uq ext)) : du_op f F -> vel_units v -> vel_units w -> vc v = c -> vc w = c ->
  (vunits v = vunits w -> exists s, (do l <- tzip f (vcomps v) (vcomps w); ret (mkVel c l)) = Ok false s /\
     same_vel s (mkVel c (map (fun '(a, b) => F a b) (combine (vcomps (si_vel v)) (vcomps (si_vel w))))) /\ vunits s = vunits v) /\
  (vunits v <> vunits w -> (do l <- tzip f (vcomps v) (vcomps w); ret (mkVel c l)) = Raise EValue).
Proof.
  intros HF U V Ev Ew. apply vrel_fwd in U. apply vrel_fwd in V. destruct U as [_ U], V as [_ V].
  cbn [vc si_vel] in U, V. rewrite Ev in U. rewrite Ew in V. destruct (tzip_rel f F _ _ _ _ _ _ HF U V) as [A B]. unfold vunits. split.
  - intros E. destruct (A E) as (r & -> & C & Ur). eexists. split; [reflexivity|].
    destruct (vrel_bwd (mkVel c r) (mkVel c (map (fun '(a, b) => F a b) (combine (vcomps (si_vel v)) (vcomps (si_vel w)))))) as [X1 X2]; [split; [reflexivity|exact C]|].
    split; [split; [exact X1|now symmetry]|exact Ur].
  - intros N. now rewrite (B N).
Qed.
Lemma azip_thm f F c (a b : acc (uq ext)) : du_op f F -> acc_units a -> acc_units b -> xc a = c -> xc b = c ->
  (aunits a = aunits b -> exists s, (do l <- tzip f (xcomps a) (xcomps b); ret (mkAcc c l)) = Ok false s /\
     same_acc s (mkAcc c (map (fun '(a, b) => F a b) (combine (xcomps (si_acc a)) (xcomps (si_acc b))))) /\ aunits s = aunits a) /\
  (aunits a <> aunits b -> (do l <- tzip f (xcomps a) (xcomps b); ret (mkAcc c l)) = Raise EValue).
Proof.
  intros HF U V Ev Ew. apply xrel_fwd in U. apply xrel_fwd in V. destruct U as [_ U], V as [_ V].
  cbn [xc si_acc] in U, V. rewrite Ev in U. rewrite Ew in V. destruct (tzip_rel f F _ _ _ _ _ _ HF U V) as [A B]. unfold aunits. split.
  - intros E. destruct (A E) as (r & -> & C & Ur). eexists. split; [reflexivity|].
    destruct (xrel_bwd (mkAcc c r) (mkAcc c (map (fun '(a, b) => F a b) (combine (xcomps (si_acc a)) (xcomps (si_acc b)))))) as [X1 X2]; [split; [reflexivity|exact C]|].
    split; [split; [exact X1|now symmetry]|exact Ur].
  - intros N. now rewrite (B N).
Qed.
(** [v + w] and [v - w]: with the same units as on SI values, and in those units; with
    different units the exception of the SI run if there is one, and ValueError if not. *)
Theorem C71_velocity_sum : forall v w, vel_units v -> vel_units w ->
  (vunits v = vunits w -> agree (fun s S => same_vel s S /\ vunits s = vunits v) (tvel_add v w) (vadd_op (si_vel v) (si_vel w))) /\
  (vunits v <> vunits w -> tvel_add v w = or_ValueError (vadd_op (si_vel v) (si_vel w))).
Proof.
  intros v w U V. rewrite tvel_add_zip. unfold vadd_op. cbn [vc si_vel].
  pose proof (fun c E E' => vzip_thm nadd nadd c v w op_add U V E E') as Z.
  destruct (vc v) eqn:Ev, (vc w) eqn:Ew; try (split; intros _; reflexivity);
  (destruct (Z _ eq_refl eq_refl) as [A B]; split; [intros E; destruct (A E) as (s & -> & S & Us); split; [reflexivity|]; split; [exact S|exact Us]|exact B]).
Qed.
Print Assumptions C71_velocity_sum.
Theorem C71_velocity_difference : forall v w, vel_units v -> vel_units w ->
  (vunits v = vunits w -> agree (fun s S => same_vel s S /\ vunits s = vunits v) (tvel_sub v w) (vsub_op (si_vel v) (si_vel w))) /\
  (vunits v <> vunits w -> tvel_sub v w = or_ValueError (vsub_op (si_vel v) (si_vel w))).
Proof.
  intros v w U V. unfold tvel_sub, vsub_op. cbn [vc si_vel].
  pose proof (fun c E E' => vzip_thm nsub nsub c v w op_sub U V E E') as Z.
  destruct (vc v) eqn:Ev, (vc w) eqn:Ew; try (split; intros _; reflexivity);
  (destruct (Z _ eq_refl eq_refl) as [A B]; split; [intros E; destruct (A E) as (s & -> & S & Us); split; [reflexivity|]; split; [exact S|exact Us]|exact B]).
Qed.
Print Assumptions C71_velocity_difference.
Theorem C71_acceleration_sum : forall a b, acc_units a -> acc_units b ->
  (aunits a = aunits b -> agree (fun s S => same_acc s S /\ aunits s = aunits a) (tacc_add a b) (aadd_op (si_acc a) (si_acc b))) /\
  (aunits a <> aunits b -> tacc_add a b = or_ValueError (aadd_op (si_acc a) (si_acc b))).
Proof.
  intros v w U V. unfold tacc_add, aadd_op. cbn [xc si_acc].
  pose proof (fun c E E' => azip_thm nadd nadd c v w op_add U V E E') as Z.
  destruct (xc v) eqn:Ev, (xc w) eqn:Ew; try (split; intros _; reflexivity);
  (destruct (Z _ eq_refl eq_refl) as [A B]; split; [intros E; destruct (A E) as (s & -> & S & Us); split; [reflexivity|]; split; [exact S|exact Us]|exact B]).
Qed.
Print Assumptions C71_acceleration_sum.
Theorem C71_acceleration_difference : forall a b, acc_units a -> acc_units b ->
  (aunits a = aunits b -> agree (fun s S => same_acc s S /\ aunits s = aunits a) (tacc_sub a b) (asub_op (si_acc a) (si_acc b))) /\
  (aunits a <> aunits b -> tacc_sub a b = or_ValueError (asub_op (si_acc a) (si_acc b))).
Proof.
  intros v w U V. unfold tacc_sub, asub_op. cbn [xc si_acc].
  pose proof (fun c E E' => azip_thm nsub nsub c v w op_sub U V E E') as Z.
  destruct (xc v) eqn:Ev, (xc w) eqn:Ew; try (split; intros _; reflexivity);
  (destruct (Z _ eq_refl eq_refl) as [A B]; split; [intros E; destruct (A E) as (s & -> & S & Us); split; [reflexivity|]; split; [exact S|exact Us]|exact B]).
Qed.
Print Assumptions C71_acceleration_difference.

(** ** Negation and multiples: any units, kept *)
Definition du_fun (f : uq ext -> uq ext) (F : ext -> ext) : Prop :=
  (forall d x X, du d x X -> du d (f x) (F X)) /\ (forall x, unit_of (f x) = unit_of x).
Lemma fun_neg : du_fun nneg nneg.
Proof. split; [|reflexivity]. intros d x X (D & P & ->). split; [exact D|]. split; [exact P|]. symmetry. symmetry. apply (s_neg scal_ext). Qed.
Lemma fun_scale k : du_fun (fun x => nmul (number k) x) (fun X => nmul k X).
Proof.
  split.
  - intros d x X D. assert (K : du one_d_ (number k) k) by (destruct (relu_number k) as (K1 & K2 & K3); split; [exact K1|]; split; [exact K2|exact K3]).
    pose proof (du_mul _ _ _ _ _ _ K D) as M. replace (dim_mul one_d_ d) with d in M by (destruct d; reflexivity). exact M.
  - intros x. unfold unit_of. cbn. rewrite Rmult_1_l. f_equal. destruct (uqd x) as [[]|]; reflexivity.
Qed.
Lemma map_rel f F j c u x : du_fun f F -> comps_rel j c u x -> comps_rel j c (map f u) (map F x) /\ map unit_of (map f u) = map unit_of u.
Proof.
  intros [H1 H2]. unfold comps_rel. revert u x. induction (kinds c) as [|k ks IH]; intros [|a u] [|b x]; cbn [all3 map]; try tauto.
  intros [A B]. destruct (IH _ _ B) as [I1 I2]. rewrite I2, H2. split; [split; [now apply H1|exact I1]|reflexivity].
Qed.
Lemma vmap_rel f F v : du_fun f F -> vel_units v ->
  same_vel (mkVel (vc v) (map f (vcomps v))) (mkVel (vc v) (map F (vcomps (si_vel v)))) /\ vunits (mkVel (vc v) (map f (vcomps v))) = vunits v.
Proof.
  intros HF U. apply vrel_fwd in U. destruct U as [_ U]. destruct (map_rel f F _ _ _ _ HF U) as [A B]. split; [|exact B].
  destruct (vrel_bwd (mkVel (vc v) (map f (vcomps v))) (mkVel (vc v) (map F (vcomps (si_vel v))))) as [X1 X2]; [split; [reflexivity|exact A]|]. split; [exact X1|now symmetry].
Qed.
Lemma amap_rel f F v : du_fun f F -> acc_units v ->
  same_acc (mkAcc (xc v) (map f (xcomps v))) (mkAcc (xc v) (map F (xcomps (si_acc v)))) /\ aunits (mkAcc (xc v) (map f (xcomps v))) = aunits v.
Proof.
  intros HF U. apply xrel_fwd in U. destruct U as [_ U]. destruct (map_rel f F _ _ _ _ HF U) as [A B]. split; [|exact B].
  destruct (xrel_bwd (mkAcc (xc v) (map f (xcomps v))) (mkAcc (xc v) (map F (xcomps (si_acc v))))) as [X1 X2]; [split; [reflexivity|exact A]|]. split; [exact X1|now symmetry].
Qed.
Theorem C71_multiples_and_negation : forall s k v a, vel_units v -> acc_units a ->
  agree (fun r R => same_vel r R /\ vunits r = vunits v) (gvel_scale s (number k) v) (vscale_op (mkScalar s k) (si_vel v)) /\
  agree (fun r R => same_acc r R /\ aunits r = aunits a) (gacc_scale s (number k) a) (ascale_op (mkScalar s k) (si_acc a)) /\
  (same_vel (gvel_neg v) (vel_neg (si_vel v)) /\ vunits (gvel_neg v) = vunits v) /\
  (same_acc (gacc_neg a) (acc_neg (si_acc a)) /\ aunits (gacc_neg a) = aunits a).
Proof.
  intros s k v a U V. refine (conj _ (conj _ (conj _ _))).
  - unfold gvel_scale, vscale_op. cbn [vc si_vel sshape sval]. pose proof (vmap_rel _ _ v (fun_scale k) U) as Z.
    destruct (vc v); try reflexivity; (destruct (any_axis s); [reflexivity|]; split; [reflexivity|exact Z]).
  - unfold gacc_scale, ascale_op. cbn [xc si_acc sshape sval]. pose proof (amap_rel _ _ a (fun_scale k) V) as Z.
    destruct (xc a); try reflexivity; (destruct (any_axis s); [reflexivity|]; split; [reflexivity|exact Z]).
  - exact (vmap_rel _ _ v fun_neg U).
  - exact (amap_rel _ _ a fun_neg V).
Qed.
Print Assumptions C71_multiples_and_negation.

(** ** Products with times *)
Lemma has_dim_spec d q : has_dim d q = true <-> uqd q = Some d.
Proof.
  unfold has_dim. destruct (uqd q) as [d'|]; split; intros E; try discriminate E.
  - f_equal. symmetry. now apply UnitsThm.dim_eqb_true.
  - injection E as ->. now apply UnitsThm.dim_eqb_true.
Qed.
Lemma has_not d q : uqd q <> Some d -> has_dim d q = false.
Proof. intros N. destruct (has_dim d q) eqn:E; [|reflexivity]. apply has_dim_spec in E. contradiction. Qed.
(** A time: the position of the SI run.  Any other quantity, and a time on the left:
    RuntimeError. *)
Theorem C71_velocity_times : forall m v t, vel_units v -> 0 < uqs t ->
  (uqd t = Some time_d -> agree same_position (vel_times m v t) (vel_mul_time m (si_vel v) (uphys t))) /\
  (uqd t <> Some time_d -> vel_times m v t = Raise ERuntime) /\
  times_vel m t v = Raise ERuntime.
Proof.
  intros m v t U P. unfold vel_times. refine (conj _ (conj _ eq_refl)).
  - intros D. rewrite (proj2 (has_dim_spec time_dim t) D). exact (u_vel_mul m v (si_vel v) t (vrel_fwd _ U) (conj D P)).
  - intros D. now rewrite (has_not time_dim t D).
Qed.
Print Assumptions C71_velocity_times.
Lemma per2_time k : dim_mul (per 2 (dim_kind k)) time_dim = per 1 (dim_kind k).
Proof. destruct k; cbn; unfold dim_mul, per, dim_div, time_dim; cbn; f_equal; first [lia|reflexivity]. Qed.
Lemma per2_time2 k : dim_mul (per 2 (dim_kind k)) time2_dim = dim_kind k.
Proof. destruct k; cbn; unfold dim_mul, per, dim_div, time2_dim; cbn; f_equal; first [lia|reflexivity]. Qed.
Lemma times_rel c u x t : comps_rel 2 c u x -> is_a time_dim t -> comps_rel 1 c (map (fun q => nmul q t) u) (map (fun q => nmul q (uphys t)) x).
Proof.
  intros H T. unfold comps_rel in *. revert u x H. induction (kinds c) as [|k ks IH]; intros [|a u] [|b x]; cbn [all3 map]; try tauto.
  intros [A B]. split; [|now apply IH]. rewrite <- per2_time. apply du_mul; [exact A|now apply du_is_a].
Qed.
Lemma u_times2 k x X t : du (per 2 (dim_kind k)) x X -> is_a time2_dim t -> relu k (nmul x t) (nmul X (uphys t)).
Proof.
  intros D T. destruct (du_mul _ _ x t X (uphys t) D (proj2 (du_is_a _ _) T)) as (D' & P & E). rewrite per2_time2 in D'. now repeat split.
Qed.
Lemma acc2_rel m a X t : xrel a X -> is_a time2_dim t -> agree same_position (gacc_mul_time2 m a t) (acc_mul_time2 m X (uphys t)).
Proof.
  intros [E C] T. unfold gacc_mul_time2, acc_mul_time2. apply agree_rres. destruct a as [c u], X as [c' x]. cbn [xc xcomps] in *. subst c'. unfold comps_rel in C.
  change (pos_from_components m) with (gpos_from_components (A := ext) m).
  destruct c; cbn [acc_integral_cls integral_cls kinds all3 gpos_from_components] in *; try reflexivity;
  repeat match type of C with match ?l with _ => _ end => destruct l; try contradiction | _ /\ _ => destruct C as [? C] end;
  repeat match goal with X : du _ _ _ |- _ => apply (fun d => u_times2 _ _ _ _ d T) in X end;
  cbn [map]; unfold mk_Cart1, mk_Cart2, mk_Cart3;
  first [ apply (r_Radial _ _ (relu_preserved scal_ext)) | apply (r_Polar _ _ (relu_preserved scal_ext)) | apply (r_TwoSphere _ _ (relu_preserved scal_ext))
        | apply (r_Cyl _ _ (relu_preserved scal_ext)) | apply (r_Sph _ _ (relu_preserved scal_ext)) | apply (r_MSph _ _ (relu_preserved scal_ext)) | apply (r_LonLat _ _ (relu_preserved scal_ext)) | apply Rel.rr_ret; cbn [rpos] ];
  cbn [rrarg rang kind_of]; auto.
Qed.
(** An acceleration times a time is a velocity, times a squared time a position, on either
    side; any other quantity raises RuntimeError. *)
Definition same_moved (x : moved) (X : vel ext + pos ext) : Prop :=
  match x, X with MVel v, inl V => same_vel v V | MPos p, inr P => same_position p P | _, _ => False end.
Theorem C71_acceleration_times : forall m a t, acc_units a -> 0 < uqs t ->
  times_acc m t a = acc_times m a t /\
  (uqd t = Some time_d -> agree same_moved (acc_times m a t) (ret (inl (acc_mul_time (si_acc a) (uphys t))))) /\
  (uqd t = Some (mkDim 0 0 2 0 0) -> agree same_moved (acc_times m a t) (do p <- acc_mul_time2 m (si_acc a) (uphys t); ret (inr p))) /\
  (uqd t <> Some time_d -> uqd t <> Some (mkDim 0 0 2 0 0) -> acc_times m a t = Raise ERuntime).
Proof.
  intros m a t U P. apply xrel_fwd in U. unfold acc_times. refine (conj eq_refl (conj _ (conj _ _))).
  - intros D. rewrite (proj2 (has_dim_spec time_dim t) D). split; [reflexivity|]. cbn [same_moved].
    destruct (vrel_bwd (gacc_mul_time a t) (acc_mul_time (si_acc a) (uphys t))) as [X1 X2].
    { split; [reflexivity|]. cbn [gacc_mul_time acc_mul_time vc vcomps]. apply times_rel; [exact (proj2 U)|split; [exact D|exact P]]. }
    split; [exact X1|now symmetry].
  - intros D. rewrite (has_not time_dim t) by (rewrite D; discriminate). rewrite (proj2 (has_dim_spec time2_dim t) D).
    pose proof (acc2_rel m a (si_acc a) t U (conj D P)) as A. eapply ag_bind; [exact A|]. intros x y S. apply ag_ret. exact S.
  - intros N1 N2. now rewrite (has_not time_dim _ N1), (has_not time2_dim _ N2).
Qed.
Print Assumptions C71_acceleration_times.

(** ** Norms *)
Definition same_scalar (d : dim) (x : uq ext) (X : ext) : Prop := is_a d x /\ uphys x = X.
Lemma sqrt_sq d : dim_sqrt (dim_mul d d) = Some d.
Proof.
  unfold dim_sqrt, dim_mul, half. destruct d as [a b c e g]. cbn [d_len d_mass d_time d_ang d_mag].
  assert (E : forall z : Z, (if Z.even (z + z)%Z then Some ((z + z) / 2)%Z else None) = Some z).
  { intros z. replace (z + z)%Z with (2 * z)%Z by lia. rewrite Z.even_mul. cbn [Z.even orb]. rewrite Z.mul_comm, Z.div_mul by lia. reflexivity. }
  now rewrite !E.
Qed.
Lemma du_sqrt d (x : uq ext) X : du (dim_mul d d) x X -> du d (nsqrt x) (nsqrt X).
Proof.
  intros (D1 & P1 & ->). split; [cbn [nsqrt Num_uq uqd]; rewrite D1; apply sqrt_sq|]. split; [cbn; now apply sqrt_lt_R0|].
  pose proof (s_sqrt scal_ext (sqrt (uqs x)) (uqv x) (sqrt_lt_R0 _ P1)) as E. rewrite sqrt_sqrt in E by lra. exact E.
Qed.
Lemma du_abs d (x : uq ext) X : du d x X -> du d (nabs x) (nabs X).
Proof. intros (D & P & ->). split; [exact D|]. split; [exact P|]. now apply (s_abs scal_ext). Qed.
Lemma speed2_fold (a b : ext) : nsqrt (nadd (nmul a a) (nmul b b)) = cart_speed [a; b].
Proof. unfold cart_speed. cbn [fold_right]. f_equal. destruct a as [a|], b as [b|]; cbn; try reflexivity. f_equal. ring. Qed.
Lemma speed3_fold (a b c : ext) : nsqrt (nadd (nadd (nmul a a) (nmul b b)) (nmul c c)) = cart_speed [a; b; c].
Proof. unfold cart_speed. cbn [fold_right]. f_equal. destruct a as [a|], b as [b|], c as [c|]; cbn; try reflexivity. f_equal. ring. Qed.
Lemma cart_norm_rel j c u x : c = CCart1 \/ c = CCart2 \/ c = CCart3 -> comps_rel j c u x ->
  agree (same_scalar (per j length_d)) (gcart_norm u) (ret (cart_speed x)).
Proof.
  assert (K : forall d (q : uq ext) X, du d q X -> same_scalar d q X) by (intros d q X (A & B & ->); repeat split; auto).
  assert (L : dim_kind (Len 1) = length_d) by reflexivity.
  unfold comps_rel. intros [-> | [-> | ->] ]; cbn [kinds all3]; rewrite L;
  repeat match goal with |- match ?l with _ => _ end -> _ => destruct l; try contradiction | |- _ /\ _ -> _ => intros [? C]; revert C end; intros _; cbn [gcart_norm].
  - apply ag_ret, K, du_abs. assumption.
  - rewrite <- speed2_fold. apply ag_ret, K, du_sqrt. apply du_add; now apply du_mul.
  - rewrite <- speed3_fold. apply ag_ret, K, du_sqrt. repeat apply du_add; now apply du_mul.
Qed.
Lemma icart_cls c : integral_cls (vcart_cls c) = CCart1 \/ integral_cls (vcart_cls c) = CCart2 \/ integral_cls (vcart_cls c) = CCart3.
Proof. destruct c; cbn; auto. Qed.
Lemma generic_vc' m deg fuel kw (V : vel ext) t P w q : vel_represent_as m deg fuel kw V t P = Ok w q -> vc q = t.
Proof.
  rewrite vel_represent_as_is_poly. unfold pvel_represent_as. destruct (vcls_eqb (vc V) t && negb (vcls_eqb t WTwoSphere)) eqn:E.
  { intros K. apply ok_inv in K. subst q. apply andb_true_iff in E. now apply vcls_eqb_iff. }
  destruct (negb (Nat.eqb (vdim (vc V)) (vdim t))); [discriminate|].
  assert (G : forall v kw w q, pvel_generic m deg fuel (jacobian deg fuel) matvec kw v t P = Ok w q -> vc q = t) by (intros; eapply generic_vc; eauto).
  assert (T1 : forall v w q, plonlat_to_lcl m deg fuel v P = Ok w q -> vc q = WLonCosLat).
  { intros v w0 q0. unfold plonlat_to_lcl. destruct (vcomps v) as [|? [|? [|? [|]]]]; try discriminate. destruct (platitude m deg fuel P); cbn; [|discriminate]. intros K. apply ok_inv in K. now subst q0. }
  assert (T2 : forall v w q, plcl_to_lonlat m deg fuel v P = Ok w q -> vc q = WLonLat).
  { intros v w0 q0. unfold plcl_to_lonlat. destruct (vcomps v) as [|? [|? [|? [|]]]]; try discriminate. destruct (platitude m deg fuel P); cbn; [|discriminate]. intros K. apply ok_inv in K. now subst q0. }
  intros K. destruct (vc V), t; try (eapply G; eassumption); try (eapply T1; eassumption); try (eapply T2; eassumption);
  (apply Dispatch.bind_inv in K; destruct K as (? & ? & ? & ? & K & _); first [eapply G; eassumption|eapply T1; eassumption]).
Qed.
(** [v.norm(q)]: the speed of the SI run; in two dimensions TypeError (C20). *)
Theorem C71_speed : forall deg f v q, vel_units v -> pos_units q ->
  agree (same_scalar speed_d) (gvel_norm deg f (ujacobian deg f) umatvec v q) (vel_norm deg f (si_vel v) (si q)).
Proof.
  intros deg f v q U Q. unfold gvel_norm, vel_norm. change (vc (si_vel v)) with (vc v).
  pose proof (vel_rel Traced deg f nokw nokw v (si_vel v) (vcart_cls (vc v)) q (si q) nokw_rel (vrel_fwd _ U) (relu_si _ Q)) as A. unfold uvel_represent_as in A.
  pose proof (fun w y => generic_vc' Traced deg f nokw (si_vel v) (vcart_cls (vc v)) (si q) w y) as GV.
  destruct (pvel_represent_as Traced deg f (ujacobian deg f) umatvec nokw v (vcart_cls (vc v)) q) as [w c|e], (vel_represent_as Traced deg f nokw (si_vel v) (vcart_cls (vc v)) (si q)) as [w' c'|e']; cbn [rres] in A; try contradiction; cbn [bind]; [|exact A].
  destruct A as [-> [Ec C]]. specialize (GV _ _ eq_refl). rewrite GV in C.
  pose proof (cart_norm_rel 1 _ _ _ (icart_cls (vc v)) C) as N. change (per 1 length_d) with speed_d in N.
  destruct (vcart_cls (vc v)); try reflexivity; (destruct (gcart_norm (vcomps c)) as [wn s|e]; cbn in N; [|contradiction]; destruct N as [-> N]; split; [reflexivity|exact N]).
Qed.
Print Assumptions C71_speed.
(** The norms of accelerations *)
Theorem C71_acceleration_norm : forall deg f a v q, acc_units a -> vel_units v -> pos_units q ->
  agree (same_scalar acc_d) (gacc_norm deg f (ujacobian deg f) umatvec a v q) (acc_norm deg f (si_acc a) (si_vel v) (si q)) /\
  agree (same_scalar acc_d) (gacc_norm0 a) (acc_norm0 (si_acc a)).
Proof.
  intros deg f a v q Ua U Q. split.
  - unfold gacc_norm, acc_norm. change (xc (si_acc a)) with (xc a).
    pose proof (acc_rel Traced deg f nokw nokw a (si_acc a) (xcart_cls (xc a)) v (si_vel v) q (si q) nokw_rel (xrel_fwd _ Ua) (vrel_fwd _ U) (relu_si _ Q)) as A. unfold uacc_represent_as in A.
    assert (GV : forall w y, acc_represent_as Traced deg f nokw (si_acc a) (xcart_cls (xc a)) (si_vel v) (si q) = Ok w y -> xc y = xcart_cls (xc a)).
    { intros w y. unfold acc_represent_as. cbv zeta. change (xc (si_acc a)) with (xc a).
      destruct (negb _); [discriminate|]. destruct (xcls_eqb (xc a) (xcart_cls (xc a)) && _) eqn:E.
      { intros K. apply ok_inv in K. subst y. apply andb_true_iff in E. destruct E as [E _]. change (xc (si_acc a)) with (xc a). destruct (xc a); try discriminate E; reflexivity. }
      intros K. repeat (apply Dispatch.bind_inv in K; destruct K as (? & ? & ? & ? & K & _)).
      destruct (acc_integral_cls (xcart_cls (xc a))); try discriminate K; apply ok_inv in K; now subst y. }
    assert (IC : forall c, integral_cls (acc_integral_cls (xcart_cls c)) = CCart1 \/ integral_cls (acc_integral_cls (xcart_cls c)) = CCart2 \/ integral_cls (acc_integral_cls (xcart_cls c)) = CCart3) by (intros []; cbn; auto).
    destruct (pacc_represent_as Traced deg f (ujacobian deg f) umatvec nokw a (xcart_cls (xc a)) v q) as [w c|e], (acc_represent_as Traced deg f nokw (si_acc a) (xcart_cls (xc a)) (si_vel v) (si q)) as [w' c'|e']; cbn [rres] in A; try contradiction; cbn [bind];
      [|destruct (xc a); try reflexivity; exact A].
    destruct A as [-> [Ec C]]. specialize (GV _ _ eq_refl). rewrite GV in C.
    pose proof (cart_norm_rel 2 _ _ _ (IC (xc a)) C) as N. change (per 2 length_d) with acc_d in N.
    destruct (xc a); try reflexivity; (destruct (gcart_norm (xcomps c)) as [wn s|e]; cbn in N; [|contradiction]; destruct N as [-> N]; split; [reflexivity|exact N]).
  - unfold gacc_norm0, acc_norm0. change (xc (si_acc a)) with (xc a). apply xrel_fwd in Ua. destruct Ua as [_ C]. cbn [xc si_acc] in C.
    destruct (xc a); try reflexivity; refine (cart_norm_rel 2 _ _ _ _ C); cbn; auto.
Qed.
Print Assumptions C71_acceleration_norm.
(** The speed comes in the unit of the first component of a Cartesian velocity. *)
Theorem C71_speed_unit : forall deg f x y z s1 s2 s3 q, 0 < s1 -> 0 < s2 -> 0 < s3 ->
  exists s, gvel_norm deg f (ujacobian deg f) umatvec (mkVel WCart3 [q_ speed_d x s1; q_ speed_d y s2; q_ speed_d z s3]) q = Ok false s /\ unit_of s = (Some speed_d, s1).
Proof.
  intros. eexists. split; [reflexivity|]. unfold unit_of. cbn. f_equal. apply sqrt_square. lra.
Qed.
Print Assumptions C71_speed_unit.

(** ** Equality *)
Lemma eqb_rel d (x y : uq ext) X Y : du d x X -> du d y Y -> neqb x y = neqb X Y.
Proof.
  intros (D1 & P1 & ->) (D2 & P2 & ->). unfold uphys at 1. rewrite <- (inunit_sc scal_ext x y) by auto. rewrite (s_eqb scal_ext) by auto. reflexivity.
Qed.
Lemma all_eqb_rel j c u x u' x' : comps_rel j c u x -> comps_rel j c u' x' -> gall_eqb u u' = all_eqb x x'.
Proof.
  unfold comps_rel. revert u x u' x'. induction (kinds c) as [|k ks IH]; intros [|a u] [|b x] [|a' u'] [|b' x']; cbn [all3]; try tauto.
  intros [A B] [A' B']. cbn [gall_eqb all_eqb]. rewrite (eqb_rel _ _ _ _ _ A A'). f_equal. now apply IH.
Qed.
(** Different classes: False.  The same class and units: the SI values decide.  The
    same class and different units: ValueError. *)
Theorem C71_equality : forall v w a b, vel_units v -> vel_units w -> acc_units a -> acc_units b ->
  (vc v <> vc w -> tvel_eq v w = Ok false false) /\
  (vc v = vc w -> vunits v = vunits w -> tvel_eq v w = Ok false (vel_eq (si_vel v) (si_vel w))) /\
  (vc v = vc w -> vunits v <> vunits w -> tvel_eq v w = Raise EValue) /\
  (xc a <> xc b -> tacc_eq a b = Ok false false) /\
  (xc a = xc b -> aunits a = aunits b -> tacc_eq a b = Ok false (acc_eq (si_acc a) (si_acc b))) /\
  (xc a = xc b -> aunits a <> aunits b -> tacc_eq a b = Raise EValue).
Proof.
  intros v w a b U V Ua Ub. apply vrel_fwd in U. apply vrel_fwd in V. apply xrel_fwd in Ua. apply xrel_fwd in Ub.
  destruct U as [_ U], V as [_ V], Ua as [_ Ua], Ub as [_ Ub]. cbn [vc xc si_vel si_acc] in U, V, Ua, Ub.
  unfold tvel_eq, tacc_eq, vel_eq, acc_eq. cbn [vc xc si_vel si_acc].
  assert (XE : xcls_eqb (xc a) (xc b) = true <-> xc a = xc b) by (destruct (xc a), (xc b); cbn; split; intros; try reflexivity; discriminate).
  refine (conj _ (conj _ (conj _ (conj _ (conj _ _))))).
  - intros N. destruct (vcls_eqb (vc v) (vc w)) eqn:E; [apply vcls_eqb_iff in E; contradiction|reflexivity].
  - intros E Eu. rewrite (proj2 (vcls_eqb_iff _ _) E). rewrite <- E in V. pose proof (comps_len _ _ _ _ U) as [L1 _]. pose proof (comps_len _ _ _ _ V) as [L2 _].
    rewrite (proj2 (check_spec (vcomps v) (vcomps w) ltac:(congruence)) Eu). unfold ret. f_equal. exact (all_eqb_rel _ _ _ _ _ _ U V).
  - intros E Eu. rewrite (proj2 (vcls_eqb_iff _ _) E). rewrite <- E in V. pose proof (comps_len _ _ _ _ U) as [L1 _]. pose proof (comps_len _ _ _ _ V) as [L2 _].
    destruct (forallb _ (combine (vcomps v) (vcomps w))) eqn:F; [|reflexivity]. apply check_spec in F; [contradiction|congruence].
  - intros N. destruct (xcls_eqb (xc a) (xc b)) eqn:E; [destruct N; now apply XE|reflexivity].
  - intros E Eu. rewrite (proj2 XE E). rewrite <- E in Ub. pose proof (comps_len _ _ _ _ Ua) as [L1 _]. pose proof (comps_len _ _ _ _ Ub) as [L2 _].
    rewrite (proj2 (check_spec (xcomps a) (xcomps b) ltac:(congruence)) Eu). unfold ret. f_equal. exact (all_eqb_rel _ _ _ _ _ _ Ua Ub).
  - intros E Eu. rewrite (proj2 XE E). rewrite <- E in Ub. pose proof (comps_len _ _ _ _ Ua) as [L1 _]. pose proof (comps_len _ _ _ _ Ub) as [L2 _].
    destruct (forallb _ (combine (xcomps a) (xcomps b))) eqn:F; [|reflexivity]. apply check_spec in F; [contradiction|congruence].
Qed.
Print Assumptions C71_equality.

(** ** Displacements add in every choice of units (compare C51) *)
Lemma agree_inv {T U} (R : T -> U -> Prop) r w y : agree R r (Ok w y) -> exists x, r = Ok w x /\ R x y.
Proof. destruct r as [w' x|e]; cbn; [|contradiction]. intros [-> H]. eauto. Qed.
Theorem C71_displacements_add : forall m deg f v w V W t T q1 q2,
  vel_units v -> vel_units w -> vunits v = vunits w -> si_vel v = vfinite V -> si_vel w = vfinite W ->
  vc V = vc W -> vc V = WCart3 -> is_a time_d t -> uphys t = Some T ->
  vel_times m v t = Ok false q1 -> vel_times m w t = Ok false q2 ->
  exists s p p', tvel_add v w = Ok false s /\ vel_times m s t = Ok false p /\ tpos_add m deg (S f) q1 q2 = Ok false p' /\ si p = si p'.
Proof.
  intros m deg f v w V W t T q1 q2 U U' Eu EV EW EC E3 Ht ET Q1 Q2.
  assert (LV : length (vcomps V) = 3%nat /\ length (vcomps W) = 3%nat).
  { apply vrel_fwd in U. apply vrel_fwd in U'. rewrite EV in U. rewrite EW in U'. destruct U as [_ U], U' as [_ U'].
    change (vc (vfinite V)) with (vc V) in U. change (vc (vfinite W)) with (vc W) in U'. rewrite <- EC, E3 in U'. rewrite E3 in U.
    destruct (comps_len _ _ _ _ U) as [_ L1], (comps_len _ _ _ _ U') as [_ L2]. cbn [vcomps vfinite] in L1, L2. rewrite map_length in L1, L2. auto. }
  destruct LV as [LV LW].
  pose proof (proj1 (C71_velocity_times m v t U (proj2 Ht)) (proj1 Ht)) as A1. pose proof (proj1 (C71_velocity_times m w t U' (proj2 Ht)) (proj1 Ht)) as A2.
  rewrite Q1, EV, ET in A1. rewrite Q2, EW, ET in A2.
  destruct (vel_mul_time m (vfinite V) (Some T)) as [w1 y1|e1] eqn:B1; cbn in A1; [|contradiction]. destruct A1 as [<- [S1 S1']].
  destruct (vel_mul_time m (vfinite W) (Some T)) as [w2 y2|e2] eqn:B2; cbn in A2; [|contradiction]. destruct A2 as [<- [S2 S2']].
  assert (AO : exists S0, vadd_op (vfinite V) (vfinite W) = Ok false S0).
  { unfold vadd_op. cbn [vc vfinite]. rewrite <- EC, E3. eexists. reflexivity. }
  destruct AO as [S0 AO].
  pose proof (C51_displacements_add m deg f V W T y1 y2 false false S0 false AO ltac:(rewrite E3; exact LV) ltac:(rewrite <- EC, E3; exact LW) B1 B2) as D.
  pose proof (proj1 (C71_velocity_sum v w U U') Eu) as AS. rewrite EV, EW, AO in AS. apply agree_inv in AS. destruct AS as (s & Es & [Us Ss] & _).
  pose proof (proj1 (C71_velocity_times m s t Us (proj2 Ht)) (proj1 Ht)) as A3. rewrite Ss, ET, D in A3.
  assert (C1 : dim_of (cls_of q1) = 3%nat).
  { revert B1. unfold vel_mul_time. cbn [vc vfinite vcomps]. rewrite E3. destruct V as [cV [|a1 [|a2 [|a3 [|]]]]]; try discriminate LV. cbn. unfold mk_Cart3. intros K. apply ok_inv in K. rewrite <- (cls_si q1), S1', <- K. reflexivity. }
  pose proof (C64_add_in_any_units m deg (S f) q1 q2 S1 S2 C1) as A4. rewrite S1', S2' in A4.
  destruct (pos_add m deg (S f) y1 y2) as [w3 y3|e3] eqn:B3.
  - assert (w3 = false) as ->.
    { revert D. unfold vel_mul_time. revert AO. unfold vadd_op. cbn [vc vfinite]. rewrite <- EC, E3. intros AO. apply ok_inv in AO. rewrite <- AO. cbn [vc vcomps].
      destruct V as [cV [|a1 [|a2 [|a3 [|]]]]]; try discriminate LV. destruct W as [cW [|b1 [|b2 [|b3 [|]]]]]; try discriminate LW. cbn. unfold mk_Cart3, ret. intros K. now injection K. }
    apply agree_inv in A3. destruct A3 as (p & Ep & _ & P1). apply agree_inv in A4. destruct A4 as (p' & Ep' & _ & P2). exists s, p, p'. repeat split; auto. congruence.
  - exfalso. revert D. unfold vel_mul_time. revert AO. unfold vadd_op. cbn [vc vfinite]. rewrite <- EC, E3. intros AO. apply ok_inv in AO. rewrite <- AO. cbn [vc vcomps].
    destruct V as [cV [|a1 [|a2 [|a3 [|]]]]]; try discriminate LV. destruct W as [cW [|b1 [|b2 [|b3 [|]]]]]; try discriminate LW. cbn. unfold mk_Cart3, ret. discriminate.
Qed.
Print Assumptions C71_displacements_add.

(** Finding: 1 km/s + 1 m/s raises, and so does comparing them. *)
Theorem C71_finding_unlike_speeds : forall x y, 
  let v := mkVel WCart1 [q_ speed_d x 1000] in let w := mkVel WCart1 [q_ speed_d y 1] in
  vel_units v /\ vel_units w /\ tvel_add v w = Raise EValue /\ tvel_eq v w = Raise EValue.
Proof.
  intros x y v w. assert (U : forall z s, 0 < s -> vel_units (mkVel WCart1 [q_ speed_d z s])).
  { intros z s P. apply Forall2_cons; [split; [reflexivity|exact P]|constructor]. }
  assert (Uv : vel_units v) by (apply U; lra). assert (Uw : vel_units w) by (apply U; lra).
  assert (N : vunits v <> vunits w) by (intros K; injection K; lra).
  refine (conj Uv (conj Uw (conj _ _))).
  - rewrite (proj2 (C71_velocity_sum v w Uv Uw) N). reflexivity.
  - unfold tvel_eq, v, w. cbn [vc vcomps vcls_eqb combine forallb]. rewrite unit_dec. destruct (Req_EM_T 1000 1); [lra|reflexivity].
Qed.
Print Assumptions C71_finding_unlike_speeds.
(** Not vacuous: two velocities in km/s, pc/Myr, m/s. *)
Example C71_case : exists v w, vel_units v /\ vel_units w /\ vunits v = vunits w /\ vc v = WCart3 /\
  si_vel v = vfinite (mkVel WCart3 [3000; 978; 5]).
Proof.
  exists (mkVel WCart3 [q_ speed_d 3 1000; q_ speed_d 1 978; q_ speed_d 5 1]), (mkVel WCart3 [q_ speed_d 1 1000; q_ speed_d 1 978; q_ speed_d 1 1]).
  refine (conj _ (conj _ (conj eq_refl (conj eq_refl _)))).
  1,2: repeat (apply Forall2_cons; [split; [reflexivity|cbn; lra]|]); constructor.
  unfold si_vel, vfinite. cbn. repeat first [lra | progress f_equal].
Qed.
