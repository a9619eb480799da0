(** * Property C70: FourVectors in any units, and their inherited operations.

    C30 is about SI values.  Here the operations run on numbers that carry units: the
    time, the coordinates and the speed of light may each use a unit of their own.
    Vocabulary as for C57, C64, C66: [fv_units v] = the time is a time, the speed of light
    a speed, the position's components are of the right dimensions, each in some unit;
    [si_fv v] = the SI values.  Positions are subtracted through [jax.tree.map], which
    raises ValueError for unequal units (TreeArith.v); added in space they are not. *)
From Coq Require Import Reals Bool List ZArith Lra Lia.
From Verif Require UnitsThm.
From Verif Require Import Num Vectors Spec Transform Pos3D Pos3DThm RoundTrip Vel Units UQ Scale Rel UQThm UVel UVelThm Arith TreeArith ArithThm ArithThm2 RelArith FourVec Operators SpecOp GOp GOpThm PropPos PropArith PropUQ PropUVel PropUnitArith UOpThm PropOp PropOp3 PropUnitOp GFour.
Import ListNotations.
Open Scope R_scope.

Section C70.
Variables (m : mode) (deg : bool) (f : nat).

Lemma u_div1 d a k : is_a d a -> is_a d (ndiv a (number k)) /\ uphys (ndiv a (number k)) = ndiv (uphys a) k.
Proof.
  intros [D P]. split.
  - split; [cbn; rewrite D; cbn; f_equal; destruct d; unfold dim_div; cbn; now rewrite !Z.sub_0_r|cbn; lra].
  - unfold uphys at 1. cbn [ndiv Num_uq uqs uqv number].
    pose proof (s_div scal_ext (uqs a) 1 (uqv a) k Rlt_0_1) as E. rewrite (s_one scal_ext), Rmult_1_r in E.
    unfold uphys. replace (uqs a / 1) with (uqs a) by field. symmetry. exact E.
Qed.
Lemma u_time_sub a b : is_a time_d a -> is_a time_d b -> is_a time_d (nsub a b) /\ uphys (nsub a b) = nsub (uphys a) (uphys b).
Proof.
  intros [D P] [D' P']. split; [split; [cbn; rewrite D, D'; reflexivity|exact P]|].
  unfold uphys at 1. rewrite <- (inunit_sc scal_ext a b) by auto. unfold uphys. rewrite (s_sub scal_ext). reflexivity.
Qed.
Lemma u_ct c t : is_a speed_d c -> is_a time_d t -> relu (Len 1) (nmul c t) (nmul (uphys c) (uphys t)).
Proof.
  intros [D P] [D' P']. split; [cbn; now rewrite D, D'|]. split; [cbn; now apply Rmult_lt_0_compat|]. apply (s_mul scal_ext).
Qed.
Lemma ok_inv {T} w w' (x y : T) : Ok w x = Ok w' y -> x = y. Proof. intros E. now injection E. Qed.
Lemma rel_refl q : pos_units q -> same_position q (si q). Proof. now split. Qed.

(** ** Arithmetic *)
Theorem C70_add_in_any_units : forall v w, fv_units v -> fv_units w -> dim_of (cls_of (fq v)) = 3%nat ->
  agree same_fv (gfv_add m deg f v w) (fv_add m deg f (si_fv v) (si_fv w)).
Proof.
  intros v w (U1 & U2 & U3) (V1 & V2 & V3) D. unfold gfv_add, fv_add, si_fv at 1 2 3 4 5, fv_map. cbn [ft fq fc].
  eapply ag_bind; [apply C64_add_in_any_units; auto|]. intros y Y [U <-]. apply ag_ret.
  destruct (u_time_add _ _ U1 V1) as [T1 T2]. split; [split; auto|]. unfold si_fv, fv_map. cbn [ft fq fc]. now rewrite T2.
Qed.
Theorem C70_sub_right_or_ValueError : forall v w, fv_units v -> fv_units w ->
  agree same_fv (gfv_sub m deg f v w) (fv_sub m deg f (si_fv v) (si_fv w)) \/ gfv_sub m deg f v w = Raise EValue.
Proof.
  intros v w (U1 & U2 & U3) (V1 & V2 & V3). unfold gfv_sub, fv_sub, si_fv at 1 2 3 4 5, fv_map. cbn [ft fq fc].
  destruct (C64_sub_right_or_ValueError m deg f (fq v) (fq w) U2 V2) as [A|A]; [left|right; now rewrite A].
  eapply ag_bind; [exact A|]. intros y Y [U <-]. apply ag_ret.
  destruct (u_time_sub _ _ U1 V1) as [T1 T2]. split; [split; auto|]. unfold si_fv, fv_map. cbn [ft fq fc]. now rewrite T2.
Qed.
Theorem C70_neg_in_any_units : forall v, fv_units v -> agree same_fv (gfv_neg m deg f v) (fv_neg m deg f (si_fv v)).
Proof. intros v U. apply (u_fv_neg m deg f v U). Qed.
Theorem C70_quotient_in_any_units : forall b v k, fv_units v ->
  agree same_fv (gfv_div m b v (number k)) (gfv_div m b (si_fv v) k).
Proof.
  intros b v k (U1 & U2 & U3). unfold gfv_div, si_fv at 1 2 3, fv_map. cbn [ft fq fc].
  eapply ag_bind; [apply C64_quotient_in_any_units; auto|]. intros y Y [U <-]. apply ag_ret.
  destruct (u_div1 _ _ k U1) as [T1 T2]. split; [split; auto|]. unfold si_fv, fv_map. cbn [ft fq fc]. now rewrite T2.
Qed.

(** ** The interval *)
Theorem C70_interval_in_any_units : forall v, fv_units v -> agree same_area (gfv_norm2 deg f v) (fv_norm2 deg f (si_fv v)).
Proof.
  intros v (U1 & U2 & U3). unfold gfv_norm2, fv_norm2, si_fv at 1 2 3, fv_map. cbn [ft fq fc].
  eapply ag_bind; [apply C64_norm_in_any_units; auto|]. intros d D [R <-]. destruct d as [k x]. destruct k; cbn [dk dist_map dval]; try reflexivity.
  apply ag_ret. unfold is_radial in R. cbn in R. apply l1 in R. pose proof (u_ct _ _ U3 U1) as C.
  assert (Q : relu (Len 2) (nadd (nneg (nsq x)) (nsq (nmul (fc v) (ft v)))) (nadd (nneg (nsq (uphys x))) (nsq (nmul (uphys (fc v)) (uphys (ft v)))))).
  { apply (r_add _ H1); [apply (r_neg _ H1)|]; unfold nsq; eapply (r_mul _ H1); eauto. }
  destruct Q as (Q1 & Q2 & Q3). split; [split; auto|symmetry; exact Q3].
Qed.
End C70.
Print Assumptions C70_add_in_any_units.
Print Assumptions C70_sub_right_or_ValueError.
Print Assumptions C70_neg_in_any_units.
Print Assumptions C70_quotient_in_any_units.
Print Assumptions C70_interval_in_any_units.

(** ** What this means for events *)
Lemma si_parts v V : si_fv v = fvfinite V -> si (fq v) = finite (fq V) /\ uphys (ft v) = Some (ft V) /\ uphys (fc v) = Some (fc V).
Proof. destruct v as [a1 a2 a3], V as [b1 b2 b3]. unfold si_fv, fvfinite, fv_map. cbn [ft fq fc]. intros E. injection E as ? ? ?. auto. Qed.
Lemma fv_agree_ok r r' S : agree same_fv r r' -> r' = Ok false (fvfinite S) ->
  exists s, r = Ok false s /\ fv_units s /\ si_fv s = fvfinite S /\ cls_of (fq s) = cls_of (fq S).
Proof.
  intros A E. rewrite E in A. destruct r as [w s|e]; cbn in A; [|contradiction]. destruct A as (-> & U & E').
  exists s. repeat split; auto; try apply U. destruct (si_parts _ _ E') as [K _]. now apply si_cls.
Qed.
Theorem C70_sum_of_events : forall m deg f v w V W a b, fv_units v -> fv_units w -> si_fv v = fvfinite V -> si_fv w = fvfinite W ->
  good_pos 3 (fq V) -> good_pos 3 (fq W) -> denotes (fq V) a -> denotes (fq W) b -> can_hold (cls_of (fq V)) (vadd a b) ->
  exists s S, gfv_add m deg (4 + f) v w = Ok false s /\ fv_units s /\ cls_of (fq s) = cls_of (fq v) /\ si_fv s = fvfinite S /\
    ft S = ft V + ft W /\ fc S = fc V /\ denotes (fq S) (vadd a b).
Proof.
  intros m deg f v w V W a b U U' E E' G G' D D' H.
  destruct (C30_add m deg f V W a b G G' D D' H) as (S & ES & T & C & CL & _ & DS).
  pose proof (C70_add_in_any_units m deg (4 + f) v w U U' ltac:(rewrite (si_cls _ _ (proj1 (si_parts _ _ E))); apply G)) as A. rewrite E, E' in A.
  destruct (fv_agree_ok _ _ _ A ES) as (s & Es & Us & Ss & K). exists s, S. destruct (si_parts _ _ E) as [K' _].
  refine (conj Es (conj Us (conj _ (conj Ss (conj T (conj C DS)))))). rewrite K, CL. symmetry. now apply si_cls.
Qed.
Print Assumptions C70_sum_of_events.
(** The difference, if the Cartesian coordinates of both use the same units
    ([cart_units], PropUnitArith.v); otherwise ValueError.  The units of the two times are free. *)
Theorem C70_difference_of_events : forall m deg f v w V W a b l l', fv_units v -> fv_units w -> si_fv v = fvfinite V -> si_fv w = fvfinite W ->
  good_pos 3 (fq V) -> good_pos 3 (fq W) -> denotes (fq V) a -> denotes (fq W) b -> cart_units (fq v) = Some l -> cart_units (fq w) = Some l' ->
  (l = l' -> can_hold (cls_of (fq V)) (vsub a b) ->
    exists s S, gfv_sub m deg (4 + f) v w = Ok false s /\ fv_units s /\ cls_of (fq s) = cls_of (fq v) /\ si_fv s = fvfinite S /\
      ft S = ft V - ft W /\ fc S = fc V /\ denotes (fq S) (vsub a b)) /\
  (l <> l' -> gfv_sub m deg (4 + f) v w = Raise EValue).
Proof.
  intros m deg f v w V W a b l l' U U' E E' G G' D D' L L'.
  destruct (si_parts _ _ E) as [K _], (si_parts _ _ E') as [K' _].
  assert (DIM : dim_of (cls_of (fq W)) = dim_of (cls_of (fq V))) by (transitivity 3%nat; [apply G'|symmetry; apply G]). split.
  - intros <- H.
    destruct (C30_sub m deg f V W a b G G' D D' H) as (S & ES & T & C & CL & _ & DS).
    destruct (C70_sub_right_or_ValueError m deg (4 + f) v w U U') as [A|A].
    + rewrite E, E' in A. destruct (fv_agree_ok _ _ _ A ES) as (s & Es & Us & Ss & KK). exists s, S.
      refine (conj Es (conj Us (conj _ (conj Ss (conj T (conj C DS)))))). rewrite KK, CL. symmetry. now apply si_cls.
    + exfalso.
      destruct (C64_difference_is_the_vector_difference m deg f (fq v) (fq w) (fq V) (fq W) a b l) as (s & S' & X & _); auto; try apply U; try apply U'; try apply G; try apply G'.
      unfold gfv_sub in A. rewrite X in A. discriminate A.
  - intros N. unfold gfv_sub.
    rewrite (C64_finding_difference_of_unlike_units_raises m deg f (fq v) (fq w) (fq V) (fq W) a b l l'); auto; try apply U; try apply U'; try apply G; try apply G'.
Qed.
Print Assumptions C70_difference_of_events.
(** The interval is (c t)^2 - |x|^2, whatever the units of c, t and x. *)
Theorem C70_interval_is_physical : forall deg f v V a, fv_units v -> si_fv v = fvfinite V ->
  good_pos 3 (fq V) -> length_radial (fq V) -> denotes (fq V) a ->
  exists n, gfv_norm2 deg (4 + f) v = Ok false n /\ is_a area_d n /\
    uphys n = Some ((fc V * ft V) * (fc V * ft V) - norm_of a * norm_of a).
Proof.
  intros deg f v V a U E G L D. pose proof (C30_norm2 deg f V a G L D) as N.
  pose proof (C70_interval_in_any_units deg (4 + f) v U) as A. rewrite E, N in A.
  destruct (gfv_norm2 deg (4 + f) v) as [w n|e]; [|contradiction]. destruct A as (-> & [Un En]). exists n. split; [reflexivity|]. split; [exact Un|].
  rewrite En. reflexivity.
Qed.
Print Assumptions C70_interval_is_physical.
Theorem C70_interval_units_do_not_matter : forall deg f v v' w n, fv_units v -> fv_units v' -> si_fv v = si_fv v' ->
  gfv_norm2 deg f v = Ok w n -> exists n', gfv_norm2 deg f v' = Ok w n' /\ uphys n' = uphys n.
Proof.
  intros deg f v v' w n U U' E N. pose proof (C70_interval_in_any_units deg f v U) as A. pose proof (C70_interval_in_any_units deg f v' U') as A'.
  rewrite N, E in A. destruct (fv_norm2 deg f (si_fv v')) as [w1 x|e]; [|contradiction]. destruct A as (-> & [_ En]).
  destruct (gfv_norm2 deg f v') as [w2 n'|e]; [|contradiction]. destruct A' as (-> & [_ En']). exists n'. split; congruence.
Qed.
Print Assumptions C70_interval_units_do_not_matter.

(** The norm is the complex square root of the interval: real and imaginary part are
    lengths in one unit, and at most one of them is not zero. *)
Theorem C70_norm_is_physical : forall deg f v V a, fv_units v -> si_fv v = fvfinite V ->
  good_pos 3 (fq V) -> length_radial (fq V) -> denotes (fq V) a ->
  exists re im x y, ufv_norm deg (4 + f) v = Ok false (re, im) /\ is_a length_d re /\ is_a length_d im /\ unit_of re = unit_of im /\
    uphys re = Some x /\ uphys im = Some y /\
    x * x - y * y = (fc V * ft V) * (fc V * ft V) - norm_of a * norm_of a /\ x * y = 0 /\ 0 <= x /\ 0 <= y.
Proof.
  intros deg f v V a U E G L D. destruct (C70_interval_is_physical deg f v V a U E G L D) as (n & N & [Dn Pn] & En).
  unfold uphys in En. cbn [scl Scal_ext] in En. destruct n as [[x|] d s]; cbn [uqv uqd uqs] in *; [|discriminate En]. subst d.
  injection En as En. destruct (OpMisc.csqrt_ok x) as (re & im & Ec & K1 & K2 & K3 & K4).
  exists (mkUq (A := ext) (Some re) (Some length_d) (sqrt s)), (mkUq (A := ext) (Some im) (Some length_d) (sqrt s)), (sqrt s * re), (sqrt s * im).
  assert (S0 : 0 < sqrt s) by now apply sqrt_lt_R0. assert (SS : sqrt s * sqrt s = s) by (apply sqrt_sqrt; lra).
  split. { unfold ufv_norm. rewrite N, bind_ok. cbn [uqv uqd uqs]. rewrite Ec. reflexivity. }
  refine (conj (conj eq_refl S0) (conj (conj eq_refl S0) (conj eq_refl (conj eq_refl (conj eq_refl (conj _ (conj _ (conj _ _)))))))).
  - rewrite <- En, <- K1. rewrite <- SS at 5. ring.
  - transitivity (sqrt s * sqrt s * (re * im)); [ring|rewrite K2; ring].
  - apply Rmult_le_pos; lra.
  - apply Rmult_le_pos; lra.
Qed.
Print Assumptions C70_norm_is_physical.

(** ** Arrays *)
Lemma ua_stack_rel x l Xs : Forall2 (relu (Len 1)) (x :: l) Xs ->
  Forall2 (relu (A := ext) (Len 1)) (map (ua_entry (ua_stack x l)) (uav (ua_stack x l))) Xs.
Proof.
  intros R. assert (P : uqd x = Some length_d /\ 0 < uqs x) by (inversion R as [|? ? ? ? (D & P & _)]; subst; auto). destruct P as [D P].
  unfold ua_stack. cbn [uav]. rewrite map_map. unfold ua_entry. cbn [uad uas].
  change (Forall2 (relu (A := ext) (Len 1)) (map (fun y => mkUq (scl (uqs y / uqs x) (uqv y)) (uqd x) (uqs x)) (x :: l)) Xs).
  induction R as [|y Y M L (Dy & Py & ->) R IH]; constructor; auto. split; [exact D|]. split; [exact P|].
  unfold uphys. cbn [uqs uqv]. rewrite (s_comp scal_ext). f_equal. field. lra.
Qed.
Lemma phys_list l Xs : Forall2 (relu (A := ext) (Len 1)) l Xs -> map uphys l = Xs.
Proof. induction 1 as [|x X l L (_ & _ & ->) R IH]; [reflexivity|]. cbn [map]. now rewrite IH. Qed.
(** The array of a four-vector: c t and the Cartesian coordinates, all in the unit of c
    times that of t. *)
Theorem C70_to_array : forall m deg f v V a, fv_units v -> si_fv v = fvfinite V -> good_pos 3 (fq V) -> denotes (fq V) a ->
  exists A, ufv_to_array m deg (4 + f) v = Ok false A /\ uad A = Some length_d /\ uas A = uqs (fc v) * uqs (ft v) /\
    map (fun x => uphys (ua_entry A x)) (uav A) = @map R ext (@Some R) (fc V * ft V :: a).
Proof.
  intros m deg f v V a U E G D. destruct (si_parts _ _ E) as (E1 & E2 & E3). destruct U as (U1 & U2 & U3).
  pose proof (r_comps _ _ H1 m deg (4 + f) (fq v) (si (fq v)) (relu_si _ U2)) as R.
  destruct G as (GV & GN & GT & GD). rewrite E1 in R.
  pose proof (cart_components_ok m deg f (fq V) a GV GN GT D) as CC.
  destruct (cart_components m deg (4 + f) (fq v)) as [w l|e] eqn:El; rewrite CC in R; [|contradiction]. destruct R as [-> R].
  destruct l as [|x0 l]. { destruct a; [|inversion R]. pose proof (denotes_length _ _ D GT) as Ln. rewrite GD in Ln. discriminate Ln. }
  pose proof (u_ct _ _ U3 U1) as T. rewrite E2, E3 in T. cbn [nmul Num_ext lift2] in T.
  pose proof (ua_stack_rel _ _ _ R) as R1. pose proof (ua_stack_rel _ _ _ (@Forall2_cons _ _ _ _ _ _ _ T R1)) as R2.
  unfold ufv_to_array, upos_to_array. rewrite El, bind_ok. unfold ret. rewrite !bind_ok. eexists. split; [reflexivity|].
  split; [apply T|]. split; [reflexivity|]. rewrite <- map_map. now apply phys_list.
Qed.
Print Assumptions C70_to_array.
(** A four-vector built from an array of lengths in any unit. *)
Theorem C70_from_array : forall ct x y z s, 0 < s ->
  exists v, ufv_from_array (mkUA [Some ct; Some x; Some y; Some z] (Some length_d) s) = Ok false v /\ fv_units v /\
    si_fv v = fvfinite (mkFV (s * ct / c_light) (PCart3 (s * x) (s * y) (s * z)) c_light).
Proof.
  intros ct x y z s P. unfold ufv_from_array. cbn [uav map ua_entry uad uas]. 
  assert (K : Reqb 299792.458 0 = false) by (apply Reqb_false; lra).
  cbv zeta. match goal with |- context [if ?b then _ else _] => change b with true end. cbv iota.
  eexists. split; [reflexivity|]. split.
  - destruct c_kms_ok as [C _]. repeat split; auto; try (cbn; lra); try apply C.
  - unfold si_fv, fvfinite, fv_map. cbn [ft fq fc pos_map]. destruct c_kms_ok as [_ ->]. f_equal.
    unfold uphys. cbn. unfold ediv. rewrite K. f_equal. unfold c_light. replace 299792458 with (1000 * 299792.458) by lra. assert (C0 : 299792.458 <> 0) by lra. revert C0. generalize 299792.458. intros c C0. field. exact C0.
Qed.
Print Assumptions C70_from_array.
(** Anything but lengths is rejected. *)
Theorem C70_from_array_needs_lengths : forall l d s, length l = 4%nat -> d <> Some length_d ->
  ufv_from_array (mkUA l d s) = Raise EUnit.
Proof.
  intros l d s Ln Hd. destruct l as [|a [|b [|c [|e [|]]]]]; try discriminate Ln. unfold ufv_from_array. cbn [uav map ua_entry uad uas].
  assert (K : has_dim length_d (mkUq b d s) = false).
  { unfold has_dim. cbn [uqd]. destruct d as [d'|]; auto. destruct (dim_eqb length_d d') eqn:Q; auto. exfalso. apply Hd. f_equal. symmetry. now apply UnitsThm.dim_eqb_true. }
  cbn zeta. unfold ua_entry at 2. cbn [uad uas]. rewrite K, andb_false_r. reflexivity.
Qed.
Print Assumptions C70_from_array_needs_lengths.
(** An array survives the trip through a four-vector exactly, unit included. *)
Theorem C70_array_round_trip : forall m deg f ct x y z s, 0 < s ->
  let a := mkUA [Some ct; Some x; Some y; Some z] (Some length_d) s in
  (do v <- ufv_from_array a; ufv_to_array m deg (S f) v) = Ok false a.
Proof.
  intros m deg f ct x y z s P a. subst a. unfold ufv_from_array. cbn [uav map ua_entry uad uas].
  assert (K : Reqb 299792.458 0 = false) by (apply Reqb_false; lra).
  cbv zeta. match goal with |- context [if ?b then _ else _] => change b with true end. cbv iota. unfold ret. rewrite bind_ok.
  unfold ufv_to_array, upos_to_array. cbn [fq].
  match goal with |- context [cart_components m deg (S f) ?q] => assert (CC : cart_components m deg (S f) q = Ok false (components q)) end.
  { unfold cart_components, rep. cbn [cls_of cart_cls]. step. reflexivity. }
  rewrite CC, bind_ok. cbn [components]. unfold ret. rewrite !bind_ok. f_equal. unfold ua_stack, ua_entry. cbn [fc ft map uav uad uas uqs uqv uqd].
  assert (C0 : 299792.458 <> 0) by lra.
  f_equal.
  - f_equal; [|f_equal; [|f_equal; [|f_equal] ] ].
    + cbn. unfold ediv. rewrite K. cbn. f_equal. clear K. revert C0. generalize 299792.458. intros c C0. field. lra.
    + cbn. f_equal. field. lra.
    + cbn. f_equal. field. lra.
    + cbn. f_equal. field. lra.
  - cbn. field.
Qed.
Print Assumptions C70_array_round_trip.
(** A four-vector with the default speed of light survives the trip through an array, up
    to the choice of units and of the position's class. *)
Theorem C70_from_to_array : forall m deg f v V a, fv_units v -> si_fv v = fvfinite V -> good_pos 3 (fq V) -> denotes (fq V) a -> fc V = c_light ->
  exists v' V', (do x <- ufv_to_array m deg (4 + f) v; ufv_from_array x) = Ok false v' /\ fv_units v' /\ si_fv v' = fvfinite V' /\
    ft V' = ft V /\ fc V' = fc V /\ denotes (fq V') a.
Proof.
  intros m deg f v V a U E G D C. destruct (C70_to_array m deg f v V a U E G D) as (A & EA & DA & SA & PA).
  assert (PS : 0 < uas A) by (rewrite SA; apply Rmult_lt_0_compat; apply U).
  assert (LA : length a = 3%nat) by (rewrite (denotes_length _ _ D); apply G).
  destruct a as [|x [|y [|z [|]]]]; try discriminate LA.
  destruct A as [l d s]. cbn [uad uas uav] in *. subst d.
  destruct l as [|l0 [|l1 [|l2 [|l3 [|]]]]]; try discriminate PA.
  injection PA as P0 P1 P2 P3. unfold uphys, ua_entry in *. cbn in P0, P1, P2, P3.
  destruct l0 as [l0|]; [|discriminate P0]. destruct l1 as [l1|]; [|discriminate P1]. destruct l2 as [l2|]; [|discriminate P2]. destruct l3 as [l3|]; [|discriminate P3].
  injection P0 as P0. injection P1 as P1. injection P2 as P2. injection P3 as P3.
  destruct (C70_from_array l0 l1 l2 l3 s PS) as (v' & Ev & Uv & Sv). eexists v', _. rewrite EA, bind_ok.
  refine (conj Ev (conj Uv (conj Sv (conj _ (conj (eq_sym C) _))))).
  - cbn [ft]. rewrite P0, C. field. unfold c_light. lra.
  - cbn [fq denotes]. rewrite P1, P2, P3. reflexivity.
Qed.
Print Assumptions C70_from_to_array.

(** ** Units of the interval *)
(** For Cartesian coordinates the interval comes in the square of the unit of x. *)
Theorem C70_interval_unit : forall deg f t st c sc x y z s1 s2 s3 w n, 0 < s1 ->
  gfv_norm2 deg (4 + f) (mkFV (q_ time_d t st) (PCart3 (q_ length_d x s1) (q_ length_d y s2) (q_ length_d z s3)) (q_ speed_d c sc)) = Ok w n ->
  uqs n = s1 * s1.
Proof.
  intros deg f t st c sc x y z s1 s2 s3 w n P. unfold gfv_norm2, pos_norm, pos_mul_pos. cbn [fq].
  match goal with |- context [cart_components Traced deg (4 + f) ?q] => assert (CC : cart_components Traced deg (4 + f) q = Ok false (components q)) end.
  { unfold cart_components, rep. cbn [cls_of cart_cls]. change (4 + f)%nat with (S (3 + f)). step. reflexivity. }
  rewrite CC. unfold ret. rewrite !bind_ok. cbn [dk dval]. intros E. apply ok_inv in E. rewrite <- E.
  cbn [components map combine sum_list fold_left]. unfold q_. cbn. apply f_equal2; apply sqrt_square; lra.
Qed.
Print Assumptions C70_interval_unit.

(** ** Inherited operations *)
(** Division by a number divides the time and, for Cartesian coordinates, the point, so
    the interval is divided by the square of the number. *)
Theorem C70_division : forall m b deg f v a k, k <> 0 -> cls_of (fq v) = CCart3 -> denotes (fq v) a ->
  exists s, gfv_div m b (fvfinite v) (Some k : ext) = Ok false (fvfinite s) /\ ft s = ft v / k /\ fc s = fc v /\
    cls_of (fq s) = CCart3 /\ denotes (fq s) (vscale (/ k) a) /\
    fv_norm2 deg (4 + f) (fvfinite s) = Ok false (Some (((fc v * ft v) * (fc v * ft v) - norm_of a * norm_of a) / (k * k))).
Proof.
  intros m b deg f [t q c] a k K C D. cbn [fq ft fc] in *. destruct q; try discriminate C. cbn in D.
  exists (mkFV (t / k) (PCart3 (x / k) (y / k) (z / k)) c). cbn [ft fc fq].
  assert (K' : Reqb k 0 = false) by now apply Reqb_false.
  assert (E1 : gfv_div m b (fvfinite (mkFV t (PCart3 x y z) c)) (Some k : ext) = Ok false (fvfinite (mkFV (t / k) (PCart3 (x / k) (y / k) (z / k)) c))).
  { unfold gfv_div, fvfinite, fv_map. cbn [fq ft fc pos_map]. unfold pos_div. cbn [div_components pos_map build]. unfold mk_Cart3, ret. rewrite bind_ok.
    cbn. unfold ediv. rewrite K'. reflexivity. }
  assert (E2 : denotes (PCart3 (x / k) (y / k) (z / k)) (vscale (/ k) a)).
  { rewrite D. cbn. f_equal; [|f_equal; [|f_equal]]; unfold Rdiv; ring. }
  refine (conj E1 (conj eq_refl (conj eq_refl (conj eq_refl (conj E2 _))))).
  pose proof (C30_norm2 deg f (mkFV (t / k) (PCart3 (x / k) (y / k) (z / k)) c) (vscale (/ k) a)) as N. rewrite N; cbn [fq ft fc]; auto.
  - unfold interval2. do 2 f_equal.
    assert (NK : norm_of (vscale (/ k) a) * norm_of (vscale (/ k) a) = norm_of a * norm_of a / (k * k)).
    { rewrite D. unfold norm_of, vscale. cbn [map fold_right]. rewrite !sqrt_sqrt; [field; auto| |];
      repeat apply Rplus_le_le_0_compat; try apply Rle_refl; try apply Rle_0_sqr. }
    rewrite NK. field. auto.
  - repeat split; cbn; auto; discriminate.
  - exact I.
Qed.
Print Assumptions C70_division.
(** Findings: although [v / k] works, [k * v] raises NotImplementedError; two
    FourVectors cannot be compared; a FourVector and a position cannot be added. *)
Theorem C70_finding_multiplication_raises : forall (k : ext) v, exists e, gfv_mul k v = Raise e.
Proof. intros. eexists. reflexivity. Qed.
Print Assumptions C70_finding_multiplication_raises.
Theorem C70_finding_equality_raises : forall (v w : fourvec ext), exists e, gfv_eq v w = Raise e.
Proof. intros. eexists. reflexivity. Qed.
Print Assumptions C70_finding_equality_raises.
Theorem C70_finding_adding_a_position_raises : forall m deg f (v : fourvec ext) q,
  (exists e, gfv_add_pos v q = Raise e) /\ (exists e, gpos_add_fv m deg f q v = Raise e).
Proof.
  intros. split; [eexists; reflexivity|]. unfold gpos_add_fv. destruct (represent_as m deg f nokw q (cart_cls (cls_of q))); eexists; reflexivity.
Qed.
Print Assumptions C70_finding_adding_a_position_raises.

(** ** A concrete case: t in a unit of 30 s, x in units of 30 m, 3 m and 1 m, c in km/s. *)
Definition ex_four : fourvec (uq ext) :=
  mkFV (q_ time_d 2 30) (PCart3 (q_ length_d 8 30) (q_ length_d 1 3) (q_ length_d 0 1)) (q_ speed_d 299792.458 1000).
Example C70_nonvacuous : fv_units ex_four /\ cart_units (fq ex_four) = Some [30; 3; 1] /\ exists V, si_fv ex_four = fvfinite V /\ good_pos 3 (fq V) /\ length_radial (fq V) /\ denotes (fq V) [240; 3; 0] /\
  can_hold (cls_of (fq V)) (vadd [240; 3; 0] [240; 3; 0]) /\ 0 < (fc V * ft V) * (fc V * ft V) - norm_of [240; 3; 0] * norm_of [240; 3; 0].
Proof.
  split; [|split; [reflexivity|] ].
  - unfold fv_units, ex_four, is_a, q_. cbn [ft fq fc pos_units uqd uqs]. repeat split; cbn; lra.
  - exists (mkFV 60 (PCart3 240 3 0) c_light).
    refine (conj _ (conj _ (conj _ (conj _ (conj _ _))))).
    + unfold si_fv, fvfinite, fv_map, ex_four, uphys, q_, c_light. cbn. repeat first [lra | progress f_equal].
    + repeat split; cbn; auto; discriminate.
    + exact I.
    + reflexivity.
    + cbn. split; auto; reflexivity.
    + cbn [ft fc]. assert (Q : norm_of [240; 3; 0] * norm_of [240; 3; 0] = 57609). { unfold norm_of. cbn [fold_right]. rewrite sqrt_sqrt; lra. } rewrite Q. unfold c_light. lra.
Qed.
