(** * Theorems about arithmetic of positions. *)
From Coq Require Import Reals Bool List ZArith Lra Lia.
From Verif Require Import Num Vectors Spec Transform Pos3D Pos3DThm FromThm PosLow Prolate Dispatch RoundTrip Embed ProlateThm PosGlue Arith.
Import ListNotations.
Open Scope R_scope.

Lemma denotes_fun p a b : valid p -> denotes p a -> denotes p b -> a = b.
Proof.
  destruct p; cbn; intros V H H'; try congruence.
  destruct V as (V1 & _). destruct H as (R1 & z1 & P1 & ->). destruct H' as (R2 & z2 & P2 & ->).
  destruct (prolate_point_unique mu nu Delta R1 z1 R2 z2 V1 P1 P2) as [-> ->]. reflexivity.
Qed.
Lemma denotes_length p pt : denotes p pt -> cls_of p <> CTwoSphere -> length pt = dim_of (cls_of p).
Proof.
  destruct p; cbn; intros H N; try (subst; reflexivity); try congruence.
  destruct H as (R1 & z1 & P1 & ->). reflexivity.
Qed.

(** Every position converts to the Cartesian class of its dimension. *)
Lemma to_cart m deg f kw p : valid p -> ~ negative_field p -> cls_of p <> CTwoSphere ->
  exists pt, denotes p pt /\ length pt = dim_of (cls_of p) /\
    represent_as m deg (4 + f) kw (finite p) (cart_cls (cls_of p)) = Ok false (finite (cart_pos pt)).
Proof.
  intros V N T. cbn [plus].
  destruct p; cbn [cls_of cart_cls dim_of]; cbn in V, N.
  - exists [x]. split; [reflexivity|]. split; [reflexivity|]. apply (rep_1D_self m deg _ kw (finite (PCart1 x)) I).
  - exists [len r]. split; [reflexivity|]. split; [reflexivity|]. now apply rep_Radial_Cart1.
  - exists [x; y]. split; [reflexivity|]. split; [reflexivity|].
    apply (rep_self m deg _ kw (finite (PCart2 x y))); cbn; (lia || discriminate).
  - exists [len r * cos phi; len r * sin phi]. split; [reflexivity|]. split; [reflexivity|].
    destruct (mlen_valid r V) as [E _]. unfold mlen in E. step. unfold mk_Cart2. rewrite E. reflexivity.
  - exfalso; apply T; reflexivity.
  - exists [x; y; z]. split; [reflexivity|]. split; [reflexivity|].
    apply (rep_self m deg _ kw (finite (PCart3 x y z))); cbn; (lia || discriminate).
  - exists [rho * cos phi; rho * sin phi; z]. split; [reflexivity|]. split; [reflexivity|]. apply rep_Cyl_Cart3.
  - exists [len r * sin theta * cos phi; len r * sin theta * sin phi; len r * cos theta].
    split; [reflexivity|]. split; [reflexivity|]. now apply rep_Sph_Cart3.
  - exists [len r * sin phi * cos theta; len r * sin phi * sin theta; len r * cos phi].
    split; [reflexivity|]. split; [reflexivity|]. now apply rep_MSph_Cart3.
  - exists [len d * cos lat * cos lon; len d * cos lat * sin lon; len d * sin lat].
    split; [reflexivity|]. split; [reflexivity|].
    destruct V as [V1 V2]. rewrite (rep_redispatch m deg _ _ _ _ CSph) by reflexivity.
    rewrite rep_LonLat_Sph by auto. rewrite nonneg_ok by lra.
    rewrite bind_ret_l. unfold ret. rewrite bind_ok. rewrite rep_Sph_Cart3 by auto.
    rewrite shift_sin, shift_cos. reflexivity.
  - destruct V as (V1 & V2 & V3).
    exists [prolate_R mu nu Delta * cos phi; prolate_R mu nu Delta * sin phi; prolate_z mu nu Delta].
    split; [do 2 eexists; split; [apply (prolate_Rz_point mu nu Delta); auto|reflexivity]|].
    split; [reflexivity|]. now apply rep_Prolate_Cart3.
Qed.

Lemma from_cart m deg f kw c pt : can_hold c pt ->
  exists q, represent_as m deg (4 + f) kw (finite (cart_pos pt)) c = Ok false (finite q) /\ cls_of q = c /\
    valid q /\ denotes q pt /\ length_radial q /\ azimuth_in_range q.
Proof.
  intros [L H]. destruct c; cbn in L; try contradiction;
    (destruct pt as [|x [|y [|z [|]]]]; try discriminate); cbn [cart_pos].
  - exists (PCart1 x). split; [apply (rep_1D_self m deg _ kw (finite (PCart1 x)) I)|]. cbn; auto 10.
  - exists (PRadial (mkDist KDistance x)). specialize (H x eq_refl). cbn [plus]. rewrite rep_Cart1_Radial, nonneg_ok by auto.
    rewrite bind_ret_l. repeat split; auto.
  - destruct (represent_as_plain2 m deg (3 + f) kw (PCart2 x y) CCart2 I I I) as (q & E & C & V & D & Z & LL).
    exists q. cbn [plus] in *. rewrite E. repeat split; auto; first [apply D; reflexivity | apply Z; exact I | apply LL; exact I | idtac].
  - destruct (represent_as_plain2 m deg (3 + f) kw (PCart2 x y) CPolar I I I) as (q & E & C & V & D & Z & LL).
    exists q. cbn [plus] in *. rewrite E. repeat split; auto; first [apply D; reflexivity | apply Z; exact I | apply LL; exact I | idtac].
  - destruct (rep3_total' m deg f kw (PCart3 x y z) CCart3 I I (or_introl eq_refl) I) as (q & E & C & V & D & Z & LL).
    exists q. rewrite E. repeat split; auto; first [apply D; reflexivity | apply Z; exact I | idtac].
  - destruct (rep3_total' m deg f kw (PCart3 x y z) CCyl I I (or_intror eq_refl) I) as (q & E & C & V & D & Z & LL).
    exists q. rewrite E. repeat split; auto; first [apply D; reflexivity | apply Z; exact I | idtac].
  - assert (O : ~ at_origin (PCart3 x y z)) by (intros O; apply H; symmetry; exact O).
    destruct (rep3_total m deg f kw (PCart3 x y z) CSph I I I I O) as (q & E & C & V & D & Z & LL).
    exists q. rewrite E. repeat split; auto; first [apply D; reflexivity | apply Z; exact I | idtac].
  - assert (O : ~ at_origin (PCart3 x y z)) by (intros O; apply H; symmetry; exact O).
    destruct (rep3_total m deg f kw (PCart3 x y z) CMSph I I I I O) as (q & E & C & V & D & Z & LL).
    exists q. rewrite E. repeat split; auto; first [apply D; reflexivity | apply Z; exact I | idtac].
  - assert (O : ~ at_origin (PCart3 x y z)) by (intros O; apply H; symmetry; exact O).
    destruct (rep3_total m deg f kw (PCart3 x y z) CLonLat I I I I O) as (q & E & C & V & D & Z & LL).
    exists q. rewrite E. repeat split; auto; first [apply D; reflexivity | apply Z; exact I | idtac].
Qed.

(** Operations on Cartesian operands *)
Lemma vadd_length a b : length (vadd a b) = Nat.min (length a) (length b).
Proof. unfold vadd. now rewrite map_length, combine_length. Qed.
Lemma vsub_length a b : length (vsub a b) = Nat.min (length a) (length b).
Proof. unfold vsub. now rewrite map_length, combine_length. Qed.
Lemma vscale_length k a : length (vscale k a) = length a.
Proof. unfold vscale. now rewrite map_length. Qed.

Ltac list_n L := match type of L with length ?l = _ =>
  repeat (destruct l as [|? l]; try discriminate) end.

Section Ops.
Variables (m : mode) (deg : bool) (f : nat).
Notation F := (4 + f)%nat.

Lemma to_cart' p a : valid p -> ~ negative_field p -> cls_of p <> CTwoSphere -> denotes p a ->
  rep m deg F (finite p) (cart_cls (cls_of p)) = Ok false (finite (cart_pos a)).
Proof.
  intros V N T D. destruct (to_cart m deg f nokw p V N T) as (pt & D' & L & E).
  rewrite (denotes_fun p a pt V D D'). exact E.
Qed.

Lemma cart_add_ok a q b c : length a = dim_of c -> dim_of (cls_of q) = dim_of c ->
  valid q -> ~ negative_field q -> cls_of q <> CTwoSphere -> denotes q b ->
  cart_add m deg F (finite (cart_pos a)) (finite q) = Ok false (finite (cart_pos (vadd a b))).
Proof.
  intros La Lq V N T D. pose proof (to_cart' q b V N T D) as E.
  pose proof (denotes_length q b D T) as Lb. unfold cart_cls in E. rewrite Lq in *.
  destruct c; cbn [dim_of] in *; list_n La; list_n Lb; cbn [cart_pos finite pos_map cart_add vadd map combine];
    unfold finite in *; rewrite E; reflexivity.
Qed.
Lemma cart_sub_ok a q b c : length a = dim_of c -> dim_of (cls_of q) = dim_of c ->
  valid q -> ~ negative_field q -> cls_of q <> CTwoSphere -> denotes q b ->
  cart_sub m deg F (finite (cart_pos a)) (finite q) = Ok false (finite (cart_pos (vsub a b))).
Proof.
  intros La Lq V N T D. pose proof (to_cart' q b V N T D) as E.
  pose proof (denotes_length q b D T) as Lb. unfold cart_cls in E. rewrite Lq in *.
  destruct c; cbn [dim_of] in *; list_n La; list_n Lb; cbn [cart_pos finite pos_map cart_sub vsub map combine];
    unfold finite in *; rewrite E; reflexivity.
Qed.
Lemma cart_neg_ok a c : length a = dim_of c ->
  cart_neg (finite (cart_pos a)) = Ok false (finite (cart_pos (vscale (-1) a))).
Proof.
  intros La. destruct c; cbn [dim_of] in *; list_n La; cbn [cart_pos finite pos_map cart_neg vscale map]; unfold ret;
    cbn; do 2 f_equal; f_equal; ring.
Qed.
Lemma cart_mul_ok k a c : length a = dim_of c ->
  cart_mul (Some k : ext) (finite (cart_pos a)) = Ok false (finite (cart_pos (vscale k a))).
Proof. intros La. destruct c; cbn [dim_of] in *; list_n La; reflexivity. Qed.

(** The shape of every binary/unary rule: Cartesian, operate, convert back. *)
Lemma cart_pos_denotes a c : length a = dim_of c -> denotes (cart_pos a) a /\ valid (cart_pos a) /\
  cls_of (cart_pos a) = cart_cls c /\ length_radial (cart_pos a) /\ ~ negative_field (cart_pos a).
Proof. intros La. destruct c; cbn [dim_of] in *; list_n La; cbn; tauto. Qed.
Lemma cart_is p a : valid p -> is_cart (cls_of p) = true -> denotes p a -> p = cart_pos a.
Proof. destruct p; cbn; intros V C D; try discriminate; subst; reflexivity. Qed.
Lemma cart_cls_dim c : dim_of (cart_cls c) = dim_of c. Proof. destruct c; reflexivity. Qed.
Lemma cart_cls_cart c : is_cart c = true -> cart_cls c = c. Proof. destruct c; (discriminate || reflexivity). Qed.

Lemma add_ok p q a b :
  valid p -> ~ negative_field p -> valid q -> ~ negative_field q ->
  cls_of q <> CTwoSphere -> dim_of (cls_of q) = dim_of (cls_of p) -> denotes p a -> denotes q b ->
  can_hold (cls_of p) (vadd a b) ->
  exists s, pos_add m deg F (finite p) (finite q) = Ok false (finite s) /\ cls_of s = cls_of p /\ valid s /\
    denotes s (vadd a b) /\ length_radial s.
Proof.
  intros V N V' N' T' Q D D' H.
  assert (T : cls_of p <> CTwoSphere) by (destruct H as [_ H]; destruct (cls_of p); discriminate || contradiction).
  pose proof (denotes_length p a D T) as La. pose proof (denotes_length q b D' T') as Lb.
  assert (Ls : length (vadd a b) = dim_of (cls_of p)) by (rewrite vadd_length, La, Lb, Q; apply Nat.min_id).
  pose proof (cart_add_ok a q b (cls_of p) La Q V' N' T' D') as CA.
  destruct (cart_pos_denotes _ _ Ls) as (D1 & V1 & C1 & L1 & _).
  destruct (is_cart (cls_of p)) eqn:IC.
  - exists (cart_pos (vadd a b)). split.
    + rewrite <- CA. rewrite (cart_is p a V IC D). clear -La. destruct (cls_of p); cbn [dim_of] in La; list_n La; reflexivity.
    + rewrite C1, cart_cls_cart by auto. auto.
  - pose proof (to_cart' p a V N T D) as E1.
    pose proof (to_cart' q b V' N' T' D') as E2. unfold cart_cls in E2. rewrite Q in E2. fold (cart_cls (cls_of p)) in E2.
    destruct (from_cart m deg f nokw (cls_of p) _ H) as (s & E3 & C3 & V3 & D3 & L3 & _).
    exists s. split; auto.
    destruct (cart_pos_denotes b (cls_of q) Lb) as (D4 & V4 & C4 & L4 & N4).
    assert (CA' : cart_add m deg F (finite (cart_pos a)) (finite (cart_pos b)) = Ok false (finite (cart_pos (vadd a b)))).
    { apply (cart_add_ok a (cart_pos b) b (cls_of p) La); auto.
      - rewrite C4, cart_cls_dim. exact Q.
      - rewrite C4. destruct (cls_of q); discriminate. }
    replace (pos_add m deg F (finite p) (finite q)) with
      (do x <- rep m deg F (finite p) (cart_cls (cls_of p)); do y <- rep m deg F (finite q) (cart_cls (cls_of p));
       do s' <- cart_add m deg F x y; rep m deg F s' (cls_of p)).
    2:{ destruct p; try discriminate; reflexivity. }
    rewrite E1, bind_ok. cbn beta. rewrite E2, bind_ok, CA', bind_ok. exact E3.
Qed.

Lemma sub_ok p q a b :
  valid p -> ~ negative_field p -> valid q -> ~ negative_field q ->
  cls_of q <> CTwoSphere -> dim_of (cls_of q) = dim_of (cls_of p) -> denotes p a -> denotes q b ->
  can_hold (cls_of p) (vsub a b) ->
  exists s, pos_sub m deg F (finite p) (finite q) = Ok false (finite s) /\ cls_of s = cls_of p /\ valid s /\
    denotes s (vsub a b) /\ length_radial s.
Proof.
  intros V N V' N' T' Q D D' H.
  assert (T : cls_of p <> CTwoSphere) by (destruct H as [_ H]; destruct (cls_of p); discriminate || contradiction).
  pose proof (denotes_length p a D T) as La. pose proof (denotes_length q b D' T') as Lb.
  assert (Ls : length (vsub a b) = dim_of (cls_of p)) by (rewrite vsub_length, La, Lb, Q; apply Nat.min_id).
  pose proof (cart_sub_ok a q b (cls_of p) La Q V' N' T' D') as CA.
  destruct (cart_pos_denotes _ _ Ls) as (D1 & V1 & C1 & L1 & _).
  destruct (is_cart (cls_of p)) eqn:IC.
  - exists (cart_pos (vsub a b)). split.
    + rewrite <- CA. rewrite (cart_is p a V IC D). clear -La. destruct (cls_of p); cbn [dim_of] in La; list_n La; reflexivity.
    + rewrite C1, cart_cls_cart by auto. auto.
  - pose proof (to_cart' p a V N T D) as E1.
    pose proof (to_cart' q b V' N' T' D') as E2. unfold cart_cls in E2. rewrite Q in E2. fold (cart_cls (cls_of p)) in E2.
    destruct (from_cart m deg f nokw (cls_of p) _ H) as (s & E3 & C3 & V3 & D3 & L3 & _).
    exists s. split; auto.
    destruct (cart_pos_denotes b (cls_of q) Lb) as (D4 & V4 & C4 & L4 & N4).
    assert (CA' : cart_sub m deg F (finite (cart_pos a)) (finite (cart_pos b)) = Ok false (finite (cart_pos (vsub a b)))).
    { apply (cart_sub_ok a (cart_pos b) b (cls_of p) La); auto.
      - rewrite C4, cart_cls_dim. exact Q.
      - rewrite C4. destruct (cls_of q); discriminate. }
    replace (pos_sub m deg F (finite p) (finite q)) with
      (do x <- rep m deg F (finite p) (cart_cls (cls_of p)); do y <- rep m deg F (finite q) (cart_cls (cls_of p));
       do s' <- cart_sub m deg F x y; rep m deg F s' (cls_of p)).
    2:{ destruct p; try discriminate; reflexivity. }
    rewrite E1, bind_ok. cbn beta. rewrite E2, bind_ok, CA', bind_ok. exact E3.
Qed.

Lemma neg_ok p a :
  valid p -> ~ negative_field p -> denotes p a -> can_hold (cls_of p) (vscale (-1) a) ->
  exists s, pos_neg m deg F (finite p) = Ok false (finite s) /\ cls_of s = cls_of p /\ valid s /\
    denotes s (vscale (-1) a) /\ length_radial s.
Proof.
  intros V N D H.
  assert (T : cls_of p <> CTwoSphere) by (destruct H as [_ H]; destruct (cls_of p); discriminate || contradiction).
  pose proof (denotes_length p a D T) as La.
  assert (Ls : length (vscale (-1) a) = dim_of (cls_of p)) by (rewrite vscale_length; auto).
  pose proof (cart_neg_ok a (cls_of p) La) as CA.
  destruct (cart_pos_denotes _ _ Ls) as (D1 & V1 & C1 & L1 & _).
  destruct (is_cart (cls_of p)) eqn:IC.
  - exists (cart_pos (vscale (-1) a)). split.
    + rewrite <- CA. rewrite (cart_is p a V IC D). clear -La. destruct (cls_of p); cbn [dim_of] in La; list_n La; reflexivity.
    + rewrite C1, cart_cls_cart by auto. auto.
  - pose proof (to_cart' p a V N T D) as E1.
    destruct (from_cart m deg f nokw (cls_of p) _ H) as (s & E3 & C3 & V3 & D3 & L3 & _).
    exists s. split; auto.
    replace (pos_neg m deg F (finite p)) with
      (do x <- rep m deg F (finite p) (cart_cls (cls_of p)); do s' <- cart_neg x; rep m deg F s' (cls_of p)).
    2:{ destruct p; try discriminate; reflexivity. }
    rewrite E1, bind_ok. cbn beta. rewrite CA, bind_ok. exact E3.
Qed.

Lemma mul_ok k p a :
  valid p -> ~ negative_field p -> denotes p a -> can_hold (cls_of p) (vscale k a) ->
  radial_scaled (cls_of p) = false ->
  exists s, pos_mul m deg F (Some k : ext) (finite p) = Ok false (finite s) /\ cls_of s = cls_of p /\ valid s /\
    denotes s (vscale k a) /\ length_radial s.
Proof.
  intros V N D H RS.
  assert (T : cls_of p <> CTwoSphere) by (destruct H as [_ H]; destruct (cls_of p); discriminate || contradiction).
  pose proof (denotes_length p a D T) as La.
  assert (Ls : length (vscale k a) = dim_of (cls_of p)) by (rewrite vscale_length; auto).
  pose proof (cart_mul_ok k a (cls_of p) La) as CA.
  destruct (cart_pos_denotes _ _ Ls) as (D1 & V1 & C1 & L1 & _).
  destruct (is_cart (cls_of p)) eqn:IC.
  - exists (cart_pos (vscale k a)). split.
    + rewrite <- CA. rewrite (cart_is p a V IC D). clear -La. destruct (cls_of p); cbn [dim_of] in La; list_n La; reflexivity.
    + rewrite C1, cart_cls_cart by auto. auto.
  - pose proof (to_cart' p a V N T D) as E1.
    destruct (from_cart m deg f nokw (cls_of p) _ H) as (s & E3 & C3 & V3 & D3 & L3 & _).
    exists s. split; auto.
    replace (pos_mul m deg F (Some k : ext) (finite p)) with
      (do x <- rep m deg F (finite p) (cart_cls (cls_of p)); do s' <- cart_mul (Some k : ext) x; rep m deg F s' (cls_of p)).
    2:{ destruct p; try discriminate; reflexivity. }
    rewrite E1, bind_ok. cbn beta. rewrite CA, bind_ok. exact E3.
Qed.
(** PolarPos, MathSphericalPos: the radial field is scaled. *)
Lemma mul_radial_ok k p a : 0 <= k ->
  valid p -> length_radial p -> denotes p a -> radial_scaled (cls_of p) = true ->
  exists s, pos_mul m deg F (Some k : ext) (finite p) = Ok false (finite s) /\ cls_of s = cls_of p /\ valid s /\
    denotes s (vscale k a) /\ length_radial s.
Proof.
  intros K V L D RS. destruct p; try discriminate; cbn in V, L, D; destruct r as [kd v]; cbn in L; subst kd a.
  - exists (PPolar (mkDist KDistance (k * v)) phi). unfold valid_dist in V; cbn in V.
    assert (0 <= k * v) by (apply Rmult_le_pos; auto).
    split; [|cbn; unfold valid_dist, len; cbn; repeat split; auto; f_equal; [ring|f_equal; ring]].
    cbn [pos_mul finite pos_map]. unfold mk_Polar, scale_dist, dist_map, conv_r. cbn [dk dval]. change (Some k * Some v)%num with (Some (k * v) : ext).
    rewrite nonneg_ok by auto. reflexivity.
  - exists (PMSph (mkDist KDistance (k * v)) theta phi). unfold valid_dist in V; cbn in V. destruct V as [V1 V2].
    assert (0 <= k * v) by (apply Rmult_le_pos; auto).
    split; [|cbn; unfold valid_dist, len; cbn; repeat split; auto; try lra; f_equal; [ring|f_equal; [ring|f_equal; ring]]].
    cbn [pos_mul finite pos_map]. unfold mk_MSph, scale_dist, dist_map, conv_r. cbn [dk dval]. change (Some k * Some v)%num with (Some (k * v) : ext).
    rewrite nonneg_ok by auto. rewrite bind_ret_l. change (nang 0 : ext) with (Some 0). change (nang PI : ext) with (Some PI).
    rewrite polar_ok by auto. reflexivity.
Qed.
End Ops.
