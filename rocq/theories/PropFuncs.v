(** * C49: functions of Angle and Distance objects. *)
From Coq Require Import Reals Bool List ZArith QArith Qreals Lra Lia.
From Verif Require Import Num Vectors Distances Units UnitsThm Funcs.
Import ListNotations.
Open Scope R_scope.

(** ** Specification *)
(** An existing Angle, Distance, Parallax or DistanceModulus: its constructor accepted
    it; units are positive multiples of SI. *)
Definition exists_q (x : qty) : Prop := cls_check (qc x) (qunit x) = true /\ 0 < uscale (qunit x).
(** the same physical quantity, possibly in another unit *)
Definition same_q (x y : qty) : Prop := qc x = qc y /\ qdim x = qdim y /\ phys x = phys y.
(** physically the same result *)
Definition same_f (x y : fqty) : Prop :=
  fq_cls x = fq_cls y /\ fdim_eqb (fu_dim (fq_unit x)) (fu_dim (fq_unit y)) = true /\ fphys x = fphys y.
(** [r] is a plain Quantity whose dimension is that of [x] to the power [p] *)
Definition power_dim (x : qty) (p : Q) (r : fqty) : Prop :=
  fq_cls r = QQuantity /\
  (f_len (fu_dim (fq_unit r)) == inject_Z (d_len (qdim x)) * p)%Q /\
  (f_mass (fu_dim (fq_unit r)) == inject_Z (d_mass (qdim x)) * p)%Q /\
  (f_time (fu_dim (fq_unit r)) == inject_Z (d_time (qdim x)) * p)%Q /\
  (f_ang (fu_dim (fq_unit r)) == inject_Z (d_ang (qdim x)) * p)%Q /\
  (f_mag (fu_dim (fq_unit r)) == inject_Z (d_mag (qdim x)) * p)%Q.
Definition dimensionless (r : fqty) : Prop := fq_cls r = QQuantity /\ fu_dim (fq_unit r) = mkFDim 0 0 0 0 0 /\ fu_scale (fq_unit r) = 1.

(** ** Helpers *)
Lemma pd x v p : power_dim x p (mkFQty QQuantity v (unit_pow (qunit x) p)).
Proof. unfold power_dim; cbn. repeat split; reflexivity. Qed.
Lemma phys_inv x P : phys x = Some P -> exists a, qval x = Some a /\ P = a * uscale (qunit x).
Proof. unfold phys. destruct (qval x) as [a|]; cbn; [|discriminate]. intros H. injection H as <-. eauto. Qed.
Lemma Q2R_half : Q2R (1 # 2) = / 2. Proof. unfold Q2R; cbn. lra. Qed.
Lemma Q2R_third : Q2R (1 # 3) = 1 / 3. Proof. unfold Q2R; cbn. lra. Qed.
Lemma Q2R_Z n : Q2R (inject_Z n) = IZR n. Proof. unfold Q2R; cbn. field. Qed.
Lemma Rpower_Z s n : 0 < s -> Rpower s (IZR n) = powerRZ s n.
Proof. intros H. rewrite powerRZ_Rpower by auto. reflexivity. Qed.
Lemma powerRZ_mult_pos a s n : 0 < s -> powerRZ (a * s) n = powerRZ a n * powerRZ s n.
Proof. intros _. apply powerRZ_mult. Qed.
Lemma Rpower_pos x y : 0 < Rpower x y. Proof. unfold Rpower. apply exp_pos. Qed.
Lemma fphys_mk c v u : fphys (mkFQty c v u) = lift1 (fun x => x * fu_scale u) v.
Proof. reflexivity. Qed.
Lemma Rcbrt_mult a s : 0 < s -> Rcbrt (a * s) = Rcbrt a * Rpower s (1 / 3).
Proof.
  intros Hs. unfold Rcbrt.
  destruct (Rltb 0 a) eqn:E1.
  - apply Rltb_true in E1. rewrite (proj2 (Rltb_true 0 (a * s))) by (now apply Rmult_lt_0_compat).
    symmetry. rewrite Rpower_mult_distr by auto. reflexivity.
  - apply Rltb_false in E1. destruct (Rltb a 0) eqn:E2.
    + apply Rltb_true in E2. rewrite (proj2 (Rltb_false 0 (a * s))) by nra. rewrite (proj2 (Rltb_true (a * s) 0)) by nra.
      replace (- (a * s)) with ((- a) * s) by ring. rewrite <- (Rpower_mult_distr (- a) s (1 / 3)) by lra. ring.
    + apply Rltb_false in E2. replace a with 0 by lra. rewrite !Rmult_0_l.
      rewrite (proj2 (Rltb_false 0 0)) by lra. reflexivity.
Qed.
Lemma Rcbrt_cube a : Rcbrt a * Rcbrt a * Rcbrt a = a.
Proof.
  assert (H : forall b, 0 < b -> Rpower b (1 / 3) * Rpower b (1 / 3) * Rpower b (1 / 3) = b).
  { intros b Hb. rewrite <- !Rpower_plus. replace (1 / 3 + 1 / 3 + 1 / 3) with 1 by field. now apply Rpower_1. }
  unfold Rcbrt. destruct (Rltb 0 a) eqn:E1; [apply Rltb_true in E1; auto|apply Rltb_false in E1].
  destruct (Rltb a 0) eqn:E2; [apply Rltb_true in E2|apply Rltb_false in E2; lra].
  assert (H' := H (- a) ltac:(lra)). set (t := Rpower (- a) (1 / 3)) in *. transitivity (- (t * t * t)); [ring|]. rewrite H'. ring.
Qed.

(** ** C49: roots and powers *)

(** [jnp.sqrt]: the physical square root, in a plain Quantity of half the dimension. *)
Theorem C49_sqrt x P : exists_q x -> phys x = Some P -> 0 <= P ->
  exists r s, q_sqrt x = ret r /\ power_dim x (1 # 2) r /\ fphys r = Some s /\ 0 <= s /\ s * s = P.
Proof.
  intros [_ Hs] Hp HP. apply phys_inv in Hp as (a & Ha & ->). assert (0 <= a) by nra.
  eexists; exists (sqrt (a * uscale (qunit x))). split; [reflexivity|]. split; [apply pd|].
  rewrite fphys_mk, Ha. cbn [nsqrt Num_ext esqrt fu_scale unit_pow].
  rewrite (proj2 (Rleb_true 0 a)) by auto. cbn [lift1]. split; [|split].
  - f_equal. rewrite Q2R_half, Rpower_sqrt by auto. symmetry. apply sqrt_mult_alt. auto.
  - apply sqrt_pos.
  - now apply sqrt_sqrt.
Qed.
(** Negative quantities have no square root: NaN, no exception. *)
Theorem C49_sqrt_negative x P : exists_q x -> phys x = Some P -> P < 0 ->
  exists r, q_sqrt x = ret r /\ fphys r = None.
Proof.
  intros [_ Hs] Hp HP. apply phys_inv in Hp as (a & Ha & ->). eexists. split; [reflexivity|].
  rewrite fphys_mk, Ha. cbn [nsqrt Num_ext esqrt]. rewrite (proj2 (Rleb_false 0 a)) by nra. reflexivity.
Qed.
Theorem C49_cbrt x P : exists_q x -> phys x = Some P ->
  exists r s, q_cbrt x = ret r /\ power_dim x (1 # 3) r /\ fphys r = Some s /\ s * s * s = P.
Proof.
  intros [_ Hs] Hp. apply phys_inv in Hp as (a & Ha & ->).
  eexists; exists (Rcbrt (a * uscale (qunit x))). split; [reflexivity|]. split; [apply pd|].
  rewrite fphys_mk, Ha. cbn [lift1 fu_scale unit_pow]. split.
  - f_equal. rewrite Q2R_third. symmetry. now apply Rcbrt_mult.
  - apply Rcbrt_cube.
Qed.
(** [x ** n] for an integer [n] (negative exponents of a non-zero quantity included). *)
Theorem C49_integer_pow x P n : exists_q x -> phys x = Some P -> P <> 0 \/ (0 <= n)%Z ->
  exists r, q_integer_pow x n = ret r /\ power_dim x (inject_Z n) r /\ fphys r = Some (powerRZ P n).
Proof.
  intros [_ Hs] Hp Hd. apply phys_inv in Hp as (a & Ha & ->).
  eexists. split; [reflexivity|]. split; [apply pd|].
  rewrite fphys_mk, Ha. cbn [eipow fu_scale unit_pow].
  assert (E : Reqb a 0 && (n <? 0)%Z = false).
  { apply andb_false_iff. destruct Hd as [Hd|Hd].
    - left. apply Reqb_false. intros ->. apply Hd. ring.
    - right. apply Z.ltb_ge. auto. }
  rewrite E. cbn [lift1]. f_equal. rewrite Q2R_Z, Rpower_Z by auto. symmetry. now apply powerRZ_mult_pos.
Qed.
(** [x ** y] for a non-integer (floating-point, hence rational) exponent. *)
Theorem C49_pow x P y : exists_q x -> phys x = Some P -> 0 < P ->
  exists r, q_pow x y = ret r /\ power_dim x y r /\ fphys r = Some (Rpower P (Q2R y)).
Proof.
  intros [_ Hs] Hp HP. apply phys_inv in Hp as (a & Ha & ->). assert (0 < a) by nra.
  eexists. split; [reflexivity|]. split; [apply pd|].
  rewrite fphys_mk, Ha. cbn [epow fu_scale unit_pow]. rewrite (proj2 (Rltb_true 0 a)) by auto. cbn [lift1].
  f_equal. now apply Rpower_mult_distr.
Qed.
(** A negative quantity: integer-valued exponents work, others give NaN. *)
Theorem C49_pow_negative_base x P y : exists_q x -> phys x = Some P -> P < 0 ->
  (forall n, (y == inject_Z n)%Q -> exists r, q_pow x y = ret r /\ fphys r = Some (powerRZ P n)) /\
  ((forall n, ~ (y == inject_Z n)%Q) -> exists r, q_pow x y = ret r /\ fphys r = None).
Proof.
  intros [_ Hs] Hp HP. apply phys_inv in Hp as (a & Ha & ->). assert (a < 0) by nra.
  split.
  - intros n Hn. eexists. split; [reflexivity|]. rewrite fphys_mk, Ha. cbn [epow fu_scale unit_pow].
    rewrite (proj2 (Rltb_false 0 a)) by lra.
    assert (Hr : Qred y = Qred (inject_Z n)) by now apply Qred_complete.
    assert (Hz : Qred (inject_Z n) = inject_Z n).
    { unfold Qred, inject_Z. pose proof (Z.ggcd_gcd n 1) as Hg. pose proof (Z.ggcd_correct_divisors n 1) as Hd.
      destruct (Z.ggcd n 1) as [g [aa bb]]. cbn in Hg. rewrite Z.gcd_1_r in Hg. subst g. destruct Hd as [D1 D2].
      cbn [snd fst]. rewrite Z.mul_1_l in D1, D2. subst. reflexivity. }
    rewrite Hr, Hz. cbn [Qden inject_Z Qnum].
    unfold eipow. rewrite (proj2 (Reqb_false a 0)) by lra. cbn [andb lift1]. f_equal.
    rewrite (Qeq_eqR y (inject_Z n)) by auto. rewrite Q2R_Z, Rpower_Z by auto. symmetry. now apply powerRZ_mult_pos.
  - intros Hn. eexists. split; [reflexivity|]. rewrite fphys_mk, Ha. cbn [epow fu_scale unit_pow].
    rewrite (proj2 (Rltb_false 0 a)) by lra.
    destruct (Qden (Qred y)) eqn:E; try (rewrite (proj2 (Reqb_false a 0)) by lra; reflexivity).
    exfalso. apply (Hn (Qnum (Qred y))). rewrite <- (Qred_correct y) at 1.
    destruct (Qred y) as [n d]. cbn in *. subst d. reflexivity.
Qed.

(** ** trigonometric functions *)
Theorem C49_trig x P : exists_q x -> qc x = QAngle -> phys x = Some P ->
  exists c s, q_cos x = ret c /\ q_sin x = ret s /\ dimensionless c /\ dimensionless s /\
    fphys c = Some (cos P) /\ fphys s = Some (sin P).
Proof.
  intros [Hc Hs] Hq Hp. unfold cls_check in Hc. rewrite Hq in Hc.
  assert (E : strip_rad x = ret (Some P : ext)) by (unfold strip_rad, qdim; now rewrite Hc, Hp).
  exists (mkFQty QQuantity (Some (cos P)) fone), (mkFQty QQuantity (Some (sin P)) fone).
  unfold q_cos, q_sin. rewrite E. split; [reflexivity|]. split; [reflexivity|].
  split; [repeat split|]. split; [repeat split|]. rewrite !fphys_mk. cbn. split; f_equal; ring.
Qed.
(** cos and sin of an Angle do not change when a full turn is added. *)
Theorem C49_trig_periodic x y P k : exists_q x -> exists_q y -> qc x = QAngle -> qc y = QAngle ->
  phys x = Some P -> phys y = Some (P + 2 * PI * IZR k) ->
  exists c s c' s', q_cos x = ret c /\ q_sin x = ret s /\ q_cos y = ret c' /\ q_sin y = ret s' /\
    fphys c' = fphys c /\ fphys s' = fphys s.
Proof.
  intros Hx Hy Cx Cy Px Py. destruct (C49_trig x P Hx Cx Px) as (c & s & H1 & H2 & _ & _ & H3 & H4).
  destruct (C49_trig y _ Hy Cy Py) as (c' & s' & H5 & H6 & _ & _ & H7 & H8).
  exists c, s, c', s'. repeat split; auto; rewrite ?H7, ?H8, ?H3, ?H4; f_equal.
  - replace (2 * PI * IZR k) with (2 * IZR k * PI) by ring. destruct (Z_le_gt_dec 0 k) as [Hk|Hk].
    + apply IZN in Hk as [n ->]. rewrite <- INR_IZR_INZ. apply cos_period.
    + assert (exists n, k = (- Z.of_nat n)%Z) as [n ->] by (exists (Z.to_nat (- k)); lia).
      rewrite opp_IZR, <- INR_IZR_INZ. rewrite <- (cos_period (P + 2 * - INR n * PI) n). f_equal. ring.
  - replace (2 * PI * IZR k) with (2 * IZR k * PI) by ring. destruct (Z_le_gt_dec 0 k) as [Hk|Hk].
    + apply IZN in Hk as [n ->]. rewrite <- INR_IZR_INZ. apply sin_period.
    + assert (exists n, k = (- Z.of_nat n)%Z) as [n ->] by (exists (Z.to_nat (- k)); lia).
      rewrite opp_IZR, <- INR_IZR_INZ. rewrite <- (sin_period (P + 2 * - INR n * PI) n). f_equal. ring.
Qed.
(** [jnp.tan] of a Parallax is the tangent of the angle, whatever its unit; of a
    Distance or a DistanceModulus it raises.  [Parallax.distance] is 1 AU over it. *)
Theorem C49_tan x : exists_q x ->
  (qc x = QParallax -> forall P, phys x = Some P -> cos P <> 0 ->
     exists r, q_tan x = ret r /\ dimensionless r /\ fphys r = Some (tan P) /\
       to_distance (mkDist KParallax (Some P)) = ret (mkDist KDistance (ndiv (Some AU) (fphys r)))) /\
  (qc x = QDistance \/ qc x = QDistMod -> q_tan x = Raise EUnit).
Proof.
  intros [Hc Hs]. unfold cls_check in Hc. split.
  - intros Hq P Hp Hn. rewrite Hq in Hc. exists (mkFQty QQuantity (Some (tan P)) fone).
    unfold q_tan, strip_rad, qdim. rewrite Hc, Hp. cbn [bind ret ntan Num_ext etan]. rewrite (proj2 (Reqb_false (cos P) 0)) by auto.
    split; [reflexivity|]. split; [repeat split|]. rewrite fphys_mk. cbn [lift1 fu_scale fone]. rewrite Rmult_1_r. split; [reflexivity|].
    unfold to_distance. cbn [dk dval ntan Num_ext etan mk_Distance ncst]. rewrite (proj2 (Reqb_false (cos P) 0)) by auto. reflexivity.
  - unfold q_tan, strip_rad, qdim. intros [Hq|Hq]; rewrite Hq in Hc.
    + apply dim_eqb_true in Hc. rewrite Hc. reflexivity.
    + apply unit_eqb_true in Hc. rewrite Hc. reflexivity.
Qed.

(** ** dot products *)
Fixpoint real_dot (x y : list R) : R := match x, y with a :: x, b :: y => a * b + real_dot x y | _, _ => 0 end.
Definition in_unit (u : unit_) (x : list R) : list ext := map (fun p => Some (p / uscale u)) x.
(** [xs], [ys]: the SI magnitudes of the elements. *)
Theorem C49_dot c c' u u' xs ys : 0 < uscale u -> 0 < uscale u' -> length xs = length ys ->
  exists r, q_dot (mkQArr c (in_unit u xs) u) (mkQArr c' (in_unit u' ys) u') = ret r /\
    fq_cls r = QQuantity /\ fphys r = Some (real_dot xs ys).
Proof.
  intros Hu Hu' Hl. eexists. unfold q_dot. cbn [qa_vals qa_unit]. unfold in_unit at 1 2. rewrite !map_length, Hl, Nat.eqb_refl.
  split; [reflexivity|]. split; [reflexivity|]. rewrite fphys_mk. cbn [unit_mul fu_scale].
  assert (E : edot (in_unit u xs) (in_unit u' ys) = Some (real_dot xs ys / (uscale u * uscale u'))).
  { clear Hl. revert ys. induction xs as [|x xs IH]; intros [|y ys]; try (cbn; f_equal; unfold Rdiv; ring).
    unfold edot, in_unit in *. cbn [map combine fold_right real_dot]. rewrite IH. cbn. f_equal. field. split; lra. }
  rewrite E. cbn [lift1]. f_equal. field. split; lra.
Qed.
Theorem C49_dot_lengths x y : length (qa_vals x) <> length (qa_vals y) -> exists e, q_dot x y = Raise e.
Proof. intros H. unfold q_dot. apply Nat.eqb_neq in H. rewrite H. eauto. Qed.

(** ** unit independence: the same physical input gives the same physical output *)
Theorem C49_unit_independent x y : exists_q x -> exists_q y -> same_q x y ->
  (forall rx ry, q_sqrt x = ret rx -> q_sqrt y = ret ry -> same_f rx ry) /\
  (forall rx ry, q_cbrt x = ret rx -> q_cbrt y = ret ry -> same_f rx ry) /\
  (forall n rx ry, q_integer_pow x n = ret rx -> q_integer_pow y n = ret ry -> phys x <> Some 0 -> phys x <> None -> same_f rx ry) /\
  (q_cos x = q_cos y /\ q_sin x = q_sin y /\ q_tan x = q_tan y).
Proof.
  intros Hx Hy (Hc & Hd & Hp). destruct Hx as [Hx Sx], Hy as [Hy Sy].
  assert (Hdim : forall p v w, fdim_eqb (fu_dim (fq_unit (mkFQty QQuantity v (unit_pow (qunit x) p)))) (fu_dim (fq_unit (mkFQty QQuantity w (unit_pow (qunit y) p)))) = true).
  { intros p v w. cbn. unfold qdim in Hd. rewrite Hd. unfold fdim_eqb. now rewrite !(proj2 (Qeq_bool_iff _ _) (Qeq_refl _)). }
  split; [|split; [|split]].
  - intros rx ry Ex Ey. injection Ex as <-. injection Ey as <-. split; [reflexivity|]. split; [apply Hdim|].
    destruct (phys x) as [P|] eqn:Px.
    + symmetry in Hp. destruct (Rle_lt_dec 0 P) as [HP|HP].
      * destruct (C49_sqrt x P (conj Hx Sx) Px HP) as (r & s & E & _ & F & G1 & G2).
        destruct (C49_sqrt y P (conj Hy Sy) Hp HP) as (r' & s' & E' & _ & F' & G1' & G2').
        injection E as <-. injection E' as <-. rewrite F, F'. f_equal. nra.
      * destruct (C49_sqrt_negative x P (conj Hx Sx) Px HP) as (r & E & F).
        destruct (C49_sqrt_negative y P (conj Hy Sy) Hp HP) as (r' & E' & F').
        injection E as <-. injection E' as <-. now rewrite F, F'.
    + assert (qval x = None) by (unfold phys in Px; destruct (qval x); [discriminate|auto]).
      assert (qval y = None) by (unfold phys in Hp; destruct (qval y); [discriminate|auto]).
      rewrite !fphys_mk, H, H0. reflexivity.
  - intros rx ry Ex Ey. injection Ex as <-. injection Ey as <-. split; [reflexivity|]. split; [apply Hdim|].
    rewrite !fphys_mk. cbn [fu_scale unit_pow]. rewrite Q2R_third. unfold phys in Hp.
    destruct (qval x) as [a|], (qval y) as [b|]; cbn [lift1] in *; try discriminate; auto.
    f_equal. rewrite <- !Rcbrt_mult by auto. congruence.
  - intros n rx ry Ex Ey H0 HN. destruct (phys x) as [P|] eqn:Px; [|congruence]. symmetry in Hp.
    assert (P <> 0) by (intros ->; congruence).
    destruct (C49_integer_pow x P n (conj Hx Sx) Px (or_introl H)) as (r & E & _ & F).
    destruct (C49_integer_pow y P n (conj Hy Sy) Hp (or_introl H)) as (r' & E' & _ & F').
    injection Ex as <-. injection Ey as <-. injection E as <-. injection E' as <-.
    split; [reflexivity|]. split; [apply Hdim|]. now rewrite F, F'.
  - unfold q_cos, q_sin, q_tan, strip_rad. rewrite Hd, Hp. auto.
Qed.

(** ** conversion and promotion *)
(** An Angle can be made from exactly the angular units. *)
Theorem C49_angle_constructor v u :
  (udim u = angle_d -> mk_Qty QAngle v u = ret (mkQty QAngle v u)) /\
  (udim u <> angle_d -> mk_Qty QAngle v u = Raise EValue).
Proof.
  unfold mk_Qty, cls_check. split; intros H.
  - now rewrite (proj2 (dim_eqb_true _ _) H).
  - now rewrite dim_eqb_neq.
Qed.
(** [convert] never changes value or unit: it relabels or refuses, and an object
    already of the class is returned as it is. *)
Theorem C49_convert x c :
  (forall y, q_convert x c = ret y -> qc y = c /\ qval y = qval x /\ qunit y = qunit x) /\
  (qc x = c -> q_convert x c = ret x) /\
  (q_convert x QQuantity = ret (mkQty QQuantity (qval x) (qunit x))) /\
  (qdim x = angle_d -> q_convert x QAngle = ret (mkQty QAngle (qval x) (qunit x))) /\
  (qdim x <> angle_d -> qc x <> QAngle -> q_convert x QAngle = Raise EValue).
Proof.
  split; [|split; [|split; [|split]]].
  - intros y. unfold q_convert. destruct (qcls_eqb (qc x) c) eqn:E.
    + intros H. injection H as <-. apply qcls_eqb_true in E. auto.
    + unfold mk_Qty. destruct (cls_check c (qunit x)); [|discriminate]. intros H. injection H as <-. auto.
  - intros H. unfold q_convert. now rewrite (proj2 (qcls_eqb_true _ _) H).
  - unfold q_convert. destruct (qcls_eqb (qc x) QQuantity) eqn:E; [|reflexivity]. apply qcls_eqb_true in E.
    destruct x as [k v u]; cbn in *. now subst.
  - intros H. unfold q_convert. destruct (qcls_eqb (qc x) QAngle) eqn:E.
    + apply qcls_eqb_true in E. destruct x as [k v u]; cbn in *. now subst.
    + unfold mk_Qty, cls_check. unfold qdim in H. now rewrite (proj2 (dim_eqb_true _ _) H).
  - intros H1 H2. unfold q_convert. destruct (qcls_eqb (qc x) QAngle) eqn:E; [apply qcls_eqb_true in E; contradiction|].
    unfold mk_Qty, cls_check. unfold qdim in H1. now rewrite dim_eqb_neq.
Qed.
(** An Angle or distance combined with a Quantity becomes a Quantity of the same
    physical value, in either order. *)
Theorem C49_promote x y : qc y = QQuantity ->
  q_promote x y = ret (mkQty QQuantity (qval x) (qunit x), y) /\
  q_promote y x = ret (y, mkQty QQuantity (qval x) (qunit x)).
Proof.
  intros Hy. pose proof (C49_convert x QQuantity) as (_ & _ & Hx & _). unfold q_promote. rewrite Hy.
  destruct x as [[] v u]; cbn [qc qcls_eqb qval qunit] in *; rewrite ?Hx; split; try reflexivity.
Qed.

(** Example: sqrt of Distance(9, km) is 3 km^(1/2), cos(Angle(180, deg)) = -1,
    Distance([1,2,3] m) @ Distance([4,5,6] km) = 32000 m^2. *)
Definition km' := mkUnit length_d 1000.
Definition m' := mkUnit length_d 1.
Definition deg' := mkUnit angle_d (PI / 180).
Example C49_example :
  (exists r s, q_sqrt (mkQty QDistance (Some 9) km') = ret r /\ fphys r = Some s /\ s * s = 9000) /\
  (exists c, q_cos (mkQty QAngle (Some 180) deg') = ret c /\ fphys c = Some (-1)) /\
  (exists r, q_dot (mkQArr QDistance [Some 1; Some 2; Some 3] m') (mkQArr QDistance [Some 4; Some 5; Some 6] km') = ret r
             /\ fphys r = Some 32000).
Proof.
  split; [|split].
  - destruct (C49_sqrt (mkQty QDistance (Some 9) km') 9000) as (r & s & H1 & _ & H2 & _ & H3).
    + split; [reflexivity|cbn; lra].
    + unfold phys; cbn. f_equal. ring.
    + lra.
    + exists r, s. auto.
  - destruct (C49_trig (mkQty QAngle (Some 180) deg') PI) as (c & s & H1 & _ & _ & _ & H2 & _).
    + split; [reflexivity|]. cbn. pose proof PI_pos. lra.
    + reflexivity.
    + unfold phys; cbn. f_equal. field.
    + exists c. rewrite cos_PI in H2. auto.
  - eexists. split; [reflexivity|]. rewrite fphys_mk. unfold edot. cbn. f_equal. ring.
Qed.
