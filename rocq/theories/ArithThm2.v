(** * Arithmetic of positions: failures, norm, division, equality. *)
From Coq Require Import Reals Bool List ZArith Lra Lia.
From Verif Require Import Num Vectors Spec Transform Pos3D Pos3DThm FromThm PosLow Prolate Dispatch Range RoundTrip Embed ProlateThm PosGlue Arith ArithThm.
Import ListNotations.
Open Scope R_scope.

Lemma bind_raise_l {T U} e (g : T -> res U) : bind (Raise e) g = Raise e. Proof. reflexivity. Qed.

Section S.
Variables (m : mode) (deg : bool) (f : nat).
Notation F := (4 + f)%nat.

(** ** What happens when the class cannot hold the result *)
Lemma cart_to_nan c : c = CSph \/ c = CMSph \/ c = CLonLat ->
  exists s, rep m deg F (finite (PCart3 0 0 0)) c = Ok false s /\ has_nan s /\ cls_of s = c.
Proof.
  intros H. unfold rep. cbn [plus].
  assert (E : forall g (kw : kwargs ext), represent_as m deg (S g) kw (finite (PCart3 0 0 0)) CSph
     = Ok false (PSph (mkDist KDistance (Some 0)) None (Some (Rwrap (Ratan2 0 0))))).
  { intros. apply rep_Cart3_Sph_origin. ring. }
  destruct H as [H|[H|H]]; subst c.
  - rewrite E. eexists. split; [reflexivity|]. split; [apply has_nan_Sph|reflexivity].
  - rewrite (rep_redispatch m deg _ _ _ _ CSph) by reflexivity. rewrite E, bind_ok, rep_SphNaN_MSph by lra.
    eexists. split; [reflexivity|]. split; [apply has_nan_MSph|reflexivity].
  - rewrite (rep_redispatch m deg _ _ _ _ CSph) by reflexivity. rewrite E, bind_ok, rep_SphNaN_LonLat by lra.
    eexists. split; [reflexivity|]. split; [apply has_nan_LonLat|reflexivity].
Qed.

Lemma sub_unfold (p q : pos ext) : is_cart (cls_of p) = false -> pos_sub m deg F p q =
   (do x <- rep m deg F p (cart_cls (cls_of p)); do y <- rep m deg F q (cart_cls (cls_of p));
    do s' <- cart_sub m deg F x y; rep m deg F s' (cls_of p)).
Proof. destruct p; try discriminate; reflexivity. Qed.
Lemma add_unfold (p q : pos ext) : is_cart (cls_of p) = false -> pos_add m deg F p q =
   (do x <- rep m deg F p (cart_cls (cls_of p)); do y <- rep m deg F q (cart_cls (cls_of p));
    do s' <- cart_add m deg F x y; rep m deg F s' (cls_of p)).
Proof. destruct p; try discriminate; reflexivity. Qed.
Lemma neg_unfold (p : pos ext) : is_cart (cls_of p) = false -> pos_neg m deg F p =
   (do x <- rep m deg F p (cart_cls (cls_of p)); do s' <- cart_neg x; rep m deg F s' (cls_of p)).
Proof. destruct p; try discriminate; reflexivity. Qed.
Lemma mul_unfold k (p : pos ext) : is_cart (cls_of p) = false -> radial_scaled (cls_of p) = false ->
  pos_mul m deg F k p =
   (do x <- rep m deg F p (cart_cls (cls_of p)); do s' <- cart_mul k x; rep m deg F s' (cls_of p)).
Proof. destruct p; try discriminate; reflexivity. Qed.

(** The general form of the intermediate result. *)
Lemma sub_mid p q a b :
  valid p -> ~ negative_field p -> valid q -> ~ negative_field q -> cls_of p <> CTwoSphere ->
  cls_of q <> CTwoSphere -> dim_of (cls_of q) = dim_of (cls_of p) -> denotes p a -> denotes q b ->
  is_cart (cls_of p) = false ->
  pos_sub m deg F (finite p) (finite q) = rep m deg F (finite (cart_pos (vsub a b))) (cls_of p).
Proof.
  intros V N V' N' T T' Q D D' IC.
  pose proof (denotes_length p a D T) as La. pose proof (denotes_length q b D' T') as Lb.
  pose proof (to_cart' m deg f p a V N T D) as E1.
  pose proof (to_cart' m deg f q b V' N' T' D') as E2. unfold cart_cls in E2. rewrite Q in E2. fold (cart_cls (cls_of p)) in E2.
  destruct (cart_pos_denotes b (cls_of q) Lb) as (D4 & V4 & C4 & L4 & N4).
  assert (CA' : cart_sub m deg F (finite (cart_pos a)) (finite (cart_pos b)) = Ok false (finite (cart_pos (vsub a b)))).
  { apply (cart_sub_ok m deg f a (cart_pos b) b (cls_of p) La); auto.
    - rewrite C4, cart_cls_dim. exact Q.
    - rewrite C4. destruct (cls_of q); discriminate. }
  rewrite sub_unfold by (destruct p; auto).
  replace (cls_of (finite p)) with (cls_of p) by (destruct p; reflexivity).
  rewrite E1, bind_ok. cbn beta. rewrite E2, bind_ok, CA', bind_ok. reflexivity.
Qed.
Lemma add_mid p q a b :
  valid p -> ~ negative_field p -> valid q -> ~ negative_field q -> cls_of p <> CTwoSphere ->
  cls_of q <> CTwoSphere -> dim_of (cls_of q) = dim_of (cls_of p) -> denotes p a -> denotes q b ->
  is_cart (cls_of p) = false ->
  pos_add m deg F (finite p) (finite q) = rep m deg F (finite (cart_pos (vadd a b))) (cls_of p).
Proof.
  intros V N V' N' T T' Q D D' IC.
  pose proof (denotes_length p a D T) as La. pose proof (denotes_length q b D' T') as Lb.
  pose proof (to_cart' m deg f p a V N T D) as E1.
  pose proof (to_cart' m deg f q b V' N' T' D') as E2. unfold cart_cls in E2. rewrite Q in E2. fold (cart_cls (cls_of p)) in E2.
  destruct (cart_pos_denotes b (cls_of q) Lb) as (D4 & V4 & C4 & L4 & N4).
  assert (CA' : cart_add m deg F (finite (cart_pos a)) (finite (cart_pos b)) = Ok false (finite (cart_pos (vadd a b)))).
  { apply (cart_add_ok m deg f a (cart_pos b) b (cls_of p) La); auto.
    - rewrite C4, cart_cls_dim. exact Q.
    - rewrite C4. destruct (cls_of q); discriminate. }
  rewrite add_unfold by (destruct p; auto).
  replace (cls_of (finite p)) with (cls_of p) by (destruct p; reflexivity).
  rewrite E1, bind_ok. cbn beta. rewrite E2, bind_ok, CA', bind_ok. reflexivity.
Qed.
Lemma neg_mid p a :
  valid p -> ~ negative_field p -> cls_of p <> CTwoSphere -> denotes p a -> is_cart (cls_of p) = false ->
  pos_neg m deg F (finite p) = rep m deg F (finite (cart_pos (vscale (-1) a))) (cls_of p).
Proof.
  intros V N T D IC. pose proof (denotes_length p a D T) as La.
  rewrite neg_unfold by (destruct p; auto).
  replace (cls_of (finite p)) with (cls_of p) by (destruct p; reflexivity).
  rewrite (to_cart' m deg f p a V N T D), bind_ok. cbn beta.
  rewrite (cart_neg_ok a (cls_of p) La), bind_ok. reflexivity.
Qed.
Lemma mul_mid k p a :
  valid p -> ~ negative_field p -> cls_of p <> CTwoSphere -> denotes p a -> is_cart (cls_of p) = false ->
  radial_scaled (cls_of p) = false ->
  pos_mul m deg F (Some k : ext) (finite p) = rep m deg F (finite (cart_pos (vscale k a))) (cls_of p).
Proof.
  intros V N T D IC RS. pose proof (denotes_length p a D T) as La.
  rewrite mul_unfold by (destruct p; auto).
  replace (cls_of (finite p)) with (cls_of p) by (destruct p; reflexivity).
  rewrite (to_cart' m deg f p a V N T D), bind_ok. cbn beta.
  rewrite (cart_mul_ok k a (cls_of p) La), bind_ok. reflexivity.
Qed.

(** Finding: the difference of equal points (or 0 times a point) is NaN in the
    spherical classes. *)
Lemma sub_self_nan p q a :
  valid p -> ~ negative_field p -> valid q -> ~ negative_field q -> cls_of q <> CTwoSphere ->
  cls_of p = CSph \/ cls_of p = CMSph \/ cls_of p = CLonLat -> dim_of (cls_of q) = 3%nat ->
  denotes p a -> denotes q a ->
  exists s, pos_sub m deg F (finite p) (finite q) = Ok false s /\ has_nan s /\ cls_of s = cls_of p.
Proof.
  intros V N V' N' T' C Q D D'.
  assert (T : cls_of p <> CTwoSphere) by (destruct C as [E|[E|E]]; rewrite E; discriminate).
  assert (Q' : dim_of (cls_of q) = dim_of (cls_of p)) by (destruct C as [E|[E|E]]; rewrite E; exact Q).
  assert (IC : is_cart (cls_of p) = false) by (destruct C as [E|[E|E]]; rewrite E; reflexivity).
  rewrite (sub_mid p q a a) by auto.
  pose proof (denotes_length q a D' T') as L. rewrite Q in L.
  destruct a as [|x [|y [|z [|]]]]; try discriminate. cbn. rewrite !Rminus_diag_eq by auto.
  apply cart_to_nan. exact C.
Qed.

(** Finding: prolate positions support no arithmetic. *)
Lemma prolate_arith mu nu phi Delta k q : valid (PProlate mu nu phi Delta) ->
  valid q -> ~ negative_field q -> cls_of q <> CTwoSphere -> dim_of (cls_of q) = 3%nat ->
  pos_add m deg F (finite (PProlate mu nu phi Delta)) (finite q) = Raise EMissingDelta /\
  pos_sub m deg F (finite (PProlate mu nu phi Delta)) (finite q) = Raise EMissingDelta /\
  pos_neg m deg F (finite (PProlate mu nu phi Delta)) = Raise EMissingDelta /\
  pos_mul m deg F (Some k : ext) (finite (PProlate mu nu phi Delta)) = Raise EMissingDelta.
Proof.
  intros V V' N' T' Q. destruct (denotes_total _ V) as [a D]. destruct (denotes_total _ V') as [b D'].
  assert (N : ~ negative_field (PProlate mu nu phi Delta)) by (cbn; tauto).
  assert (T : cls_of (PProlate mu nu phi Delta) <> CTwoSphere) by discriminate.
  pose proof (denotes_length _ _ D T) as L. pose proof (denotes_length _ _ D' T') as L'. rewrite Q in L'. cbn in L.
  rewrite (add_mid _ q a b), (sub_mid _ q a b), (neg_mid _ a), (mul_mid k _ a); auto.
  destruct a as [|x [|y [|z [|]]]]; try discriminate. destruct b as [|x' [|y' [|z' [|]]]]; try discriminate.
  unfold rep. cbn [plus]. repeat split; apply prolate_needs_Delta; (reflexivity || discriminate).
Qed.

(** TwoSpherePos: no arithmetic at all. *)
Lemma twosphere_arith theta phi (q : pos ext) k :
  pos_add m deg F (PTwoSphere theta phi) q = Raise ERecursion /\
  pos_sub m deg F (PTwoSphere theta phi) q = Raise ERecursion /\
  pos_neg m deg F (PTwoSphere theta phi) = Raise ERecursion /\
  pos_mul m deg F k (PTwoSphere theta phi) = Raise ERecursion.
Proof.
  assert (E : rep m deg F (PTwoSphere theta phi) CCart2 = Raise ERecursion) by (apply rep_diverges; reflexivity).
  cbn [pos_add pos_sub pos_neg pos_mul cls_of cart_cls dim_of]. rewrite !E. repeat split.
Qed.

End S.
(** RadialPos, PolarPos, MathSphericalPos refuse results with negative radius. *)
Lemma radial_neg deg f r : valid_dist r -> 0 < dval r ->
  pos_neg Eager deg (4+f) (finite (PRadial r)) = Raise ENegative.
Proof.
  intros V P. assert (0 < len r).
  { destruct r as [[] v]; cbn in *; auto.
    - unfold len, valid_dist in *; cbn in *. apply Rdiv_lt_0_compat; [unfold AU; lra|]. apply tan_gt_0; lra.
    - unfold len; cbn. apply Rmult_lt_0_compat; [|apply exp_pos]. unfold PC, AU. pose proof PI_RGT_0.
      apply Rmult_lt_0_compat; [lra|]. apply Rmult_lt_0_compat; [|lra]. apply Rdiv_lt_0_compat; lra. }
  rewrite (neg_mid Eager deg f (PRadial r) [len r]); cbn; auto; try discriminate; try lra.
  unfold rep. cbn [plus]. change (PCart1 (Some (-1 * len r) : ext)) with (finite (PCart1 (-1 * len r))).
  rewrite rep_Cart1_Radial, nonneg_neg by lra. reflexivity.
Qed.
Lemma mul_negative deg f k r : k < 0 -> 0 < dval r -> forall a b,
  pos_mul Eager deg (4+f) (Some k : ext) (finite (PPolar r a)) = Raise ENegative /\
  pos_mul Eager deg (4+f) (Some k : ext) (finite (PMSph r a b)) = Raise ENegative /\
  (dk r = KDistance -> pos_mul Eager deg (4+f) (Some k : ext) (finite (PRadial r)) = Raise ENegative).
Proof.
  intros K P a b. assert (k * dval r < 0) by nra. split; [|split].
  - cbn [pos_mul finite pos_map]. unfold mk_Polar, scale_dist, dist_map, conv_r. cbn [dk dval].
    change (Some k * Some (dval r))%num with (Some (k * dval r) : ext). rewrite nonneg_neg by auto. reflexivity.
  - cbn [pos_mul finite pos_map]. unfold mk_MSph, scale_dist, dist_map, conv_r. cbn [dk dval].
    change (Some k * Some (dval r))%num with (Some (k * dval r) : ext). rewrite nonneg_neg by auto. reflexivity.
  - intros KD. destruct r as [kd v]. cbn in KD, H, P. subst kd.
    set (r := mkDist KDistance v). rewrite (mul_mid Eager deg f k (PRadial r) [v]); cbn; auto; try discriminate; try lra.
    unfold rep. cbn [plus]. change (PCart1 (Some (k * v) : ext)) with (finite (PCart1 (k * v))).
    rewrite rep_Cart1_Radial, nonneg_neg by lra. reflexivity.
Qed.

(** ** Norm *)
Lemma cart_components_ok m deg f p a :
  valid p -> ~ negative_field p -> cls_of p <> CTwoSphere -> denotes p a ->
  cart_components m deg (4 + f) (finite p) = Ok false (map (@Some R) a : list ext).
Proof.
  intros V N T D. pose proof (denotes_length p a D T) as La. unfold cart_components.
  replace (cls_of (finite p)) with (cls_of p) by (destruct p; reflexivity).
  rewrite (to_cart' m deg f p a V N T D), bind_ok. clear - La.
  destruct (cls_of p); cbn [dim_of] in La; list_n La; reflexivity.
Qed.

Lemma pos_mul_pos_ok m deg f p q a b :
  valid p -> ~ negative_field p -> cls_of p <> CTwoSphere -> denotes p a ->
  valid q -> ~ negative_field q -> cls_of q <> CTwoSphere -> denotes q b ->
  pos_mul_pos m deg (4 + f) (finite p) (finite q)
  = Ok false (map (@Some R) (map (fun '(x, y) => x * y) (combine a b)) : list ext).
Proof.
  intros V N T D V' N' T' D'. unfold pos_mul_pos.
  rewrite (cart_components_ok m deg f p a V N T D), bind_ok.
  rewrite (cart_components_ok m deg f q b V' N' T' D'), bind_ok. unfold ret. f_equal.
  clear. revert b. induction a as [|x a IH]; intros [|y b]; cbn; auto. f_equal. apply IH.
Qed.

Lemma fold_acc xs (x : R) : fold_left nadd (map (@Some R) xs) (Some x : ext) = Some (fold_right Rplus x xs).
Proof.
  revert x. induction xs as [|y xs IH]; intros x; cbn [map fold_left fold_right]; [reflexivity|].
  change (nadd (Some x : ext) (Some y)) with (Some (x + y) : ext). rewrite IH. f_equal. clear IH. induction xs as [|z xs IH]; cbn [fold_right]; [ring|]. rewrite IH. ring.
Qed.
Lemma sum_sq a : sum_list (map (@Some R) (map (fun '(x, y) => x * y) (combine a a)) : list ext)
  = Some (fold_right (fun x s => x * x + s) 0 a).
Proof.
  destruct a as [|x a]; cbn [combine map sum_list]; [reflexivity|]. rewrite fold_acc. f_equal. cbn [fold_right].
  induction a as [|y a IH]; cbn [combine map fold_right]; [ring|]. rewrite IH. ring.
Qed.
Lemma sum_sq_nonneg a : 0 <= fold_right (fun x s => x * x + s) 0 a.
Proof. induction a; cbn; nra. Qed.

Lemma cyl_norm_pt rho phi z : norm_of [rho * cos phi; rho * sin phi; z] = sqrt (rho*rho + z*z).
Proof.
  rewrite norm3. f_equal. pose proof (sin2_cos2 phi) as S. unfold Rsqr in S.
  replace (rho * cos phi * (rho * cos phi) + rho * sin phi * (rho * sin phi)) with (rho * rho * (sin phi * sin phi + cos phi * cos phi)) by ring.
  rewrite S. ring.
Qed.

Lemma norm_ok deg f p a : valid p -> ~ negative_field p -> cls_of p <> CTwoSphere -> denotes p a ->
  exists d, pos_norm deg (4 + f) (finite p) = Ok false (@dist_map R ext (@Some R) d) /\
    valid_dist d /\ len d = norm_of a /\ (length_radial p -> dk d = KDistance).
Proof.
  intros V N T D.
  assert (G : forall p', p = p' -> (match p' with PCyl _ _ _ | PMSph _ _ _ | PLonLat _ _ _ => False | _ => True end) ->
     exists d, pos_norm deg (4 + f) (finite p) = Ok false (@dist_map R ext (@Some R) d) /\
    valid_dist d /\ len d = norm_of a /\ (length_radial p -> dk d = KDistance)).
  { intros p' <- H. exists (mkDist KDistance (norm_of a)). split; [|split; [|split]]; auto.
    - replace (pos_norm deg (4 + f) (finite p)) with
        (do sq <- pos_mul_pos Traced deg (4 + f) (finite p) (finite p);
         ret (mkDist KDistance (nsqrt (sum_list sq)))) by (destruct p; try contradiction; reflexivity).
      rewrite (pos_mul_pos_ok Traced deg f p p a a), bind_ok, sum_sq by auto.
      cbn [nsqrt Num_ext]. rewrite esqrt_some by apply sum_sq_nonneg. reflexivity.
    - unfold valid_dist; cbn. apply sqrt_pos. }
  destruct p; try (eapply G; [reflexivity|exact I]); cbn in V, N, D; subst a.
  - exists (mkDist KDistance (sqrt (rho*rho + z*z))). split; [|split; [|split]]; auto.
    + cbn [pos_norm finite pos_map]. unfold nsq. cbn [nsqrt nadd nmul Num_ext lift2]. rewrite esqrt_some by nra. reflexivity.
    + unfold valid_dist; cbn. apply sqrt_pos.
    + unfold len; cbn. now rewrite cyl_norm_pt.
  - exists r. split; [reflexivity|]. destruct V as [V1 V2]. split; auto. split; [|auto].
    rewrite norm_sph; auto using len_nonneg.
  - exists d. split; [reflexivity|]. destruct V as [V1 V2]. split; auto. split; [|auto].
    rewrite norm_lonlat; auto using len_nonneg.
Qed.

(** ** Division *)
Lemma div_cart m b p a k : k <> 0 -> is_cart (cls_of p) = true -> denotes p a ->
  pos_div m b (finite p) (Some k : ext) = Ok false (finite (cart_pos (vscale (/ k) a))).
Proof.
  intros K IC D. destruct p; try discriminate; cbn in D; subst a; cbn; rewrite ?(proj2 (Reqb_false k 0) K);
  unfold Rdiv; rewrite ?(Rmult_comm _ (/ k)); reflexivity.
Qed.
Lemma div_zero m b x y z :
  pos_div m b (finite (PCart3 x y z)) (Some 0 : ext) = Ok false (PCart3 None None None).
Proof. cbn. rewrite (proj2 (Reqb_true 0 0) eq_refl). reflexivity. Qed.

(** curvilinear: angles are divided as well *)
Lemma div_cyl m b rho phi z k : 0 < k -> 0 <= rho -> exists phi',
  pos_div m b (finite (PCyl rho phi z)) (Some k : ext) = Ok false (finite (PCyl (rho / k) phi' (z / k))) /\
  cos phi' = cos (phi / k) /\ sin phi' = sin (phi / k).
Proof.
  intros K R0. assert (H : 0 <= rho / k) by (apply Rmult_le_pos; [auto|left; now apply Rinv_0_lt_compat]).
  assert (K' : Reqb k 0 = false) by (apply Reqb_false; lra).
  exists (if b then Rwrap (phi / k) else phi / k). split.
  - unfold pos_div, div_components, build, mk_Cyl. cbn [finite pos_map]. cbn [ndiv Num_ext ediv]. rewrite K'.
    rewrite nonneg_ok by auto. destruct b; reflexivity.
  - destruct b; auto. split; [apply cos_Rwrap|apply sin_Rwrap].
Qed.
Lemma div_cyl_refuted m b rho phi z k : 1 < k -> 0 < rho -> 0 < phi < 2 * PI ->
  exists q, pos_div m b (finite (PCyl rho phi z)) (Some k : ext) = Ok false (finite q) /\ cls_of q = CCyl /\
    forall pt, denotes (PCyl rho phi z) pt -> ~ denotes q (vscale (/ k) pt).
Proof.
  intros K R0 [P1 P2]. destruct (div_cyl m b rho phi z k ltac:(lra) ltac:(lra)) as (phi' & E & C & S).
  eexists. split; [exact E|]. split; [reflexivity|]. intros pt -> H. cbn in H.
  apply list3_inj in H. destruct H as (H1 & H2 & _). rewrite C in H1. rewrite S in H2.
  assert (P3 : 0 < phi / k) by (apply Rdiv_lt_0_compat; lra).
  assert (P4 : phi / k < phi).
  { apply (Rmult_lt_reg_r k); [lra|]. unfold Rdiv. rewrite Rmult_assoc, Rinv_l by lra. nra. }
  destruct (plane_unique (rho / k) (phi / k) (rho / k) phi) as [_ Q]; try lra.
  - apply Rdiv_lt_0_compat; lra.
  - left. apply Rdiv_lt_0_compat; lra.
Qed.

(** ** Equality *)
Lemma rep_to_self m deg f p : cls_of p <> CTwoSphere ->
  rep m deg (4 + f) p (cls_of p) = Ok false (p : pos ext).
Proof.
  intros T. unfold rep. cbn [plus]. destruct p; cbn in T; try congruence;
  try (match goal with |- represent_as _ _ _ _ ?q _ = _ => apply (rep_1D_self m deg _ _ q I) end);
  try (match goal with |- represent_as _ _ _ _ ?q _ = _ => apply (rep_self m deg _ _ q); cbn; (lia || discriminate) end).
  match goal with |- represent_as _ _ _ _ ?q _ = _ => apply (prolate_prolate_same m deg _ _ q); reflexivity end.
Qed.
Lemma Reqb_refl x : Reqb x x = true. Proof. now apply Reqb_true. Qed.
Lemma eq_components_refl p : eq_components (finite p) (finite p) = Ok false true.
Proof.
  destruct p; cbn; try (destruct r as [[] v]); try (destruct d as [[] v]); cbn; rewrite ?Reqb_refl; reflexivity.
Qed.
Lemma eq_refl_ok m deg f p : cls_of p <> CTwoSphere -> pos_eq m deg (4 + f) (finite p) (finite p) = Ok false true.
Proof.
  intros T. unfold pos_eq. rewrite rep_to_self by (destruct p; cbn in *; congruence). rewrite bind_ok.
  apply eq_components_refl.
Qed.
(** component comparison decides equality of finite positions with length-valued radial parts *)
Lemma eq_components_iff p q : cls_of p = cls_of q -> length_radial p -> length_radial q ->
  exists b, eq_components (finite p) (finite q) = Ok false b /\ (b = true <-> p = q).
Proof.
  intros C L L'. destruct p, q; try discriminate C; cbn in L, L';
  repeat match goal with r : dist R |- _ => destruct r as [? ?]; cbn in * ; subst end; cbn;
  eexists; (split; [reflexivity|]); rewrite ?Bool.andb_true_iff, ?Reqb_true;
  (split; [intros; repeat match goal with H : _ /\ _ |- _ => destruct H end; congruence|intros H; inversion H; auto]).
Qed.

Lemma eq_cart m deg f p q a b :
  is_cart (cls_of p) = true -> valid q -> ~ negative_field q -> cls_of q <> CTwoSphere ->
  dim_of (cls_of q) = dim_of (cls_of p) -> denotes p a -> denotes q b ->
  exists e, pos_eq m deg (4 + f) (finite p) (finite q) = Ok false e /\ (e = true <-> a = b).
Proof.
  intros IC V N T Q D D'. pose proof (denotes_length q b D' T) as Lb. rewrite Q in Lb.
  pose proof (to_cart' m deg f q b V N T D') as E. unfold cart_cls in E. rewrite Q in E. fold (cart_cls (cls_of p)) in E.
  rewrite cart_cls_cart in E by auto. unfold pos_eq.
  replace (cls_of (finite p)) with (cls_of p) by (destruct p; reflexivity). rewrite E, bind_ok.
  destruct (cart_pos_denotes _ _ Lb) as (D1 & V1 & C1 & L1 & _).
  destruct (eq_components_iff p (cart_pos b)) as (e & E1 & E2); auto.
  - rewrite C1, cart_cls_cart; auto.
  - destruct p; try discriminate; exact I.
  - exists e. split; auto. rewrite E2. split; intros H.
    + rewrite H in D. now apply (denotes_fun (cart_pos b)).
    + subst b. apply cart_is; auto. destruct p; try discriminate; exact I.
Qed.

Lemma eq_curv3 m deg f p q a b :
  plain3 (cls_of p) -> plain3 (cls_of q) -> valid p -> valid q -> length_radial p -> length_radial q ->
  azimuth_in_range p -> azimuth_in_range q -> off_axis p -> ~ at_origin q -> denotes p a -> denotes q b ->
  exists e, pos_eq m deg (4 + f) (finite p) (finite q) = Ok false e /\ (e = true <-> a = b).
Proof.
  intros P P' V V' L L' Z Z' OA O D D'.
  destruct (rep3_total m deg f nokw q (cls_of p) V' P' P L' O) as (q' & E & C & V1 & D1 & Z1 & L1).
  unfold pos_eq, rep. replace (cls_of (finite p)) with (cls_of p) by (destruct p; reflexivity).
  rewrite E, bind_ok. destruct (eq_components_iff p q') as (e & E1 & E2); auto.
  exists e. split; auto. rewrite E2. apply D1 in D'. split; intros H.
  - rewrite H in D. eapply denotes_fun; eauto.
  - subst b. eapply (coords_unique p q'); eauto.
Qed.

Lemma eq_polar m deg f r phi q a b :
  plain2 (cls_of q) -> valid_dist r -> dk r = KDistance -> dval r <> 0 -> 0 <= phi < 2 * PI ->
  valid q -> length_radial q -> azimuth_in_range q -> denotes (PPolar r phi) a -> denotes q b ->
  exists e, pos_eq m deg (4 + f) (finite (PPolar r phi)) (finite q) = Ok false e /\ (e = true <-> a = b).
Proof.
  intros P V L NZ Z V' L' Z' D D'.
  destruct (represent_as_plain2 m deg (3+f) nokw q CPolar V' P I) as (q' & E & C & V1 & D1 & Z1 & L1).
  specialize (Z1 Z'). specialize (L1 L').
  unfold pos_eq, rep. cbn [finite pos_map cls_of]. fold (finite q). change (4 + f)%nat with (S (3 + f))%nat.
  rewrite E, bind_ok.
  destruct (eq_components_iff (PPolar r phi) q') as (e & E1 & E2); auto.
  exists e. split; [exact E1|]. rewrite E2. apply D1 in D'. split; intros H.
  - rewrite H in D. eapply denotes_fun; eauto.
  - subst b. destruct q'; try discriminate. destruct r as [kd v]. destruct r0 as [kd' v']. cbn in *. subst kd kd' a.
    unfold valid_dist in *. cbn in *. unfold len in D'. cbn in D'.
    assert (F : v * cos phi = v' * cos phi0 /\ v * sin phi = v' * sin phi0).
    { change ([v * cos phi; v * sin phi] = [v' * cos phi0; v' * sin phi0]) in D'. split; congruence. }
    destruct (plane_unique v phi v' phi0) as [-> ->]; auto; try tauto; try lra.
Qed.

Lemma eq_asym m deg f : exists p q,
  pos_eq m deg (4 + f) (finite p) (finite q) = Ok false false /\
  pos_eq m deg (4 + f) (finite q) (finite p) = Ok true true.
Proof.
  exists (PCart3 1 2 3), (PCart1 1). unfold pos_eq, rep. cbn [finite pos_map cls_of plus]. split.
  - step. cbn. rewrite Reqb_refl. rewrite (proj2 (Reqb_false 2 0)) by lra. reflexivity.
  - step. cbn. rewrite Reqb_refl. reflexivity.
Qed.

(** Prolate positions of the same point but different focal length are unequal,
    and a non-prolate right operand cannot be compared. *)
Lemma eq_prolate_missing m deg f (p q : pos ext) : cls_of p = CProlate -> cls_of q <> CProlate ->
  dim_of (cls_of q) = 3%nat -> pos_eq m deg (4 + f) p q = Raise EMissingDelta.
Proof. intros C N D. unfold pos_eq, rep. rewrite C. cbn [plus]. rewrite prolate_needs_Delta; auto. Qed.

(** 2 * v with a parallax as radial part doubles the parallax: a different point. *)
Lemma mul_parallax m deg f : exists p, valid p /\ exists q,
  pos_mul m deg (4 + f) (Some 2 : ext) (finite p) = Ok false (finite q) /\ cls_of q = CMSph /\
  forall pt, denotes p pt -> ~ denotes q (vscale 2 pt).
Proof.
  pose proof PI_RGT_0 as HP. pose proof PI2_3_2.
  exists (PMSph (mkDist KParallax (PI/6)) 0 0). split.
  { cbn. unfold valid_dist; cbn. lra. }
  exists (PMSph (mkDist KParallax (2 * (PI/6))) 0 0). split; [|split; [reflexivity|]].
  - cbn [pos_mul finite pos_map]. unfold mk_MSph, scale_dist, dist_map, conv_r. cbn [dk dval].
    change (nmul (Some 2) (Some (PI/6)) : ext) with (Some (2 * (PI/6)) : ext).
    rewrite nonneg_ok by lra. rewrite bind_ret_l. change (nang 0 : ext) with (Some 0). change (nang PI : ext) with (Some PI).
    rewrite polar_ok by lra. reflexivity.
  - intros pt -> H1. cbn in H1. apply list3_inj in H1. destruct H1 as (_ & _ & H1).
    rewrite cos_0 in H1. unfold len in H1. cbn in H1.
    replace (2 * (PI/6)) with (PI/3) in H1 by field. rewrite tan_PI6, tan_PI3 in H1.
    assert (S3 : sqrt 3 * sqrt 3 = 3) by (apply sqrt_sqrt; lra). assert (0 < sqrt 3) by (apply sqrt_lt_R0; lra).
    assert (E1 : AU / (1 / sqrt 3) = AU * sqrt 3) by (field; lra).
    assert (E2 : AU / sqrt 3 * sqrt 3 = AU) by (field; lra).
    rewrite E1 in H1. assert (0 < AU) by (unfold AU; lra). nra.
Qed.

Lemma vsub_vadd a b : length a = length b -> vsub (vadd a b) b = a.
Proof.
  revert b. induction a as [|x a IH]; intros [|y b] H; try discriminate; cbn in *; auto.
  injection H as H. unfold vsub, vadd in IH. rewrite IH by auto. f_equal. ring.
Qed.
Lemma vadd_comm a b : vadd a b = vadd b a.
Proof.
  revert b. induction a as [|x a IH]; intros [|y b]; cbn in *; auto. unfold vadd in IH. rewrite IH. f_equal. ring.
Qed.
Lemma add_sub m deg f p q a b :
  valid p -> ~ negative_field p -> valid q -> ~ negative_field q ->
  cls_of q <> CTwoSphere -> dim_of (cls_of q) = dim_of (cls_of p) -> denotes p a -> denotes q b ->
  can_hold (cls_of p) (vadd a b) -> can_hold (cls_of p) a ->
  exists s s', pos_add m deg (4 + f) (finite p) (finite q) = Ok false (finite s) /\
    pos_sub m deg (4 + f) (finite s) (finite q) = Ok false (finite s') /\
    cls_of s' = cls_of p /\ (forall pt, denotes p pt <-> denotes s' pt).
Proof.
  intros V N V' N' T' Q D D' H H'.
  destruct (add_ok m deg f p q a b V N V' N' T' Q D D' H) as (s & E & C & Vs & Ds & Ls).
  assert (T : cls_of p <> CTwoSphere) by (destruct H as [_ H]; destruct (cls_of p); discriminate || contradiction).
  pose proof (denotes_length p a D T) as La. pose proof (denotes_length q b D' T') as Lb.
  assert (VS : vsub (vadd a b) b = a) by (apply vsub_vadd; congruence).
  assert (Ns : ~ negative_field s) by (apply valid_length_nonneg; auto).
  destruct (sub_ok m deg f s q (vadd a b) b Vs Ns V' N' T') as (s' & E' & C' & V2 & D2 & L2); auto.
  - now rewrite C.
  - rewrite VS, C. exact H'.
  - exists s, s'. rewrite VS in D2. rewrite C in C'. repeat split; auto.
    + intros P. rewrite (denotes_fun p pt a) by auto. exact D2.
    + intros P. rewrite (denotes_fun s' pt a) by auto. exact D.
Qed.
Lemma add_comm m deg f p q a b :
  valid p -> ~ negative_field p -> valid q -> ~ negative_field q ->
  dim_of (cls_of q) = dim_of (cls_of p) -> denotes p a -> denotes q b ->
  can_hold (cls_of p) (vadd a b) -> can_hold (cls_of q) (vadd a b) ->
  exists s t, pos_add m deg (4 + f) (finite p) (finite q) = Ok false (finite s) /\
    pos_add m deg (4 + f) (finite q) (finite p) = Ok false (finite t) /\
    (forall pt, denotes s pt <-> denotes t pt).
Proof.
  intros V N V' N' Q D D' H H'.
  assert (T : cls_of p <> CTwoSphere) by (destruct H as [_ H]; destruct (cls_of p); discriminate || contradiction).
  assert (T' : cls_of q <> CTwoSphere) by (destruct H' as [_ H']; destruct (cls_of q); discriminate || contradiction).
  destruct (add_ok m deg f p q a b V N V' N' T' Q D D' H) as (s & E & C & Vs & Ds & Ls).
  rewrite vadd_comm in H'.
  destruct (add_ok m deg f q p b a V' N' V N T (eq_sym Q) D' D H') as (t & E' & C' & Vt & Dt & Lt).
  exists s, t. repeat split; auto; intros P.
  - rewrite (denotes_fun s pt (vadd a b)), vadd_comm by auto. exact Dt.
  - rewrite (denotes_fun t pt (vadd b a)), vadd_comm by auto. exact Ds.
Qed.
Lemma norm_rep m deg deg' f f' kw p t : valid p -> plain3 (cls_of p) -> plain3 t -> length_radial p -> ~ at_origin p ->
  exists q n, represent_as m deg (4 + f) kw (finite p) t = Ok false (finite q) /\
    pos_norm deg' (4 + f') (finite p) = Ok false (mkDist KDistance (Some n)) /\
    pos_norm deg' (4 + f') (finite q) = Ok false (mkDist KDistance (Some n)).
Proof.
  intros V P T L O. destruct (rep3_total m deg f kw p t V P T L O) as (q & E & C & Vq & D & _ & Lq).
  destruct (denotes_total p V) as [a Da].
  assert (T1 : cls_of p <> CTwoSphere) by (destruct (cls_of p); discriminate || contradiction).
  assert (T2 : cls_of q <> CTwoSphere) by (rewrite C; destruct t; discriminate || contradiction).
  destruct (norm_ok deg' f' p a V (valid_length_nonneg p V L) T1 Da) as (d & E1 & _ & N1 & K1).
  destruct (norm_ok deg' f' q a Vq (valid_length_nonneg q Vq Lq) T2 (proj1 (D a) Da)) as (d' & E2 & _ & N2 & K2).
  specialize (K1 L). specialize (K2 Lq). exists q, (dval d). rewrite E1, E2.
  assert (EE : d = d') by (apply sph_len; auto; congruence). subst d'.
  split; auto. destruct d as [k v]. cbn in *. subst k. auto.
Qed.
Lemma norm_mul m deg f p a : valid p -> ~ negative_field p -> cls_of p <> CTwoSphere -> denotes p a ->
  pos_mul_pos m deg (4 + f) (finite p) (finite p) = Ok false (map (@Some R) (vmul a a)) /\
  vsum (vmul a a) = norm_of a * norm_of a.
Proof.
  intros V N T D. split; [now apply pos_mul_pos_ok|]. unfold norm_of. rewrite sqrt_sqrt by apply sum_sq_nonneg.
  clear. induction a as [|x a IH]; cbn; auto. unfold vsum, vmul in IH. now rewrite IH.
Qed.
