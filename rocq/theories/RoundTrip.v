(** * Coordinates are determined by the point; round trips. *)
From Coq Require Import Reals Bool List ZArith Lra Lia.
From Verif Require Import Num Vectors Spec Transform Pos3D Pos3DThm FromThm PosLow Prolate.
Import ListNotations.
Open Scope R_scope.

Lemma list3_inj (a b c a' b' c' : R) : [a;b;c] = [a';b';c'] -> a = a' /\ b = b' /\ c = c'.
Proof. intros H. inversion H. auto. Qed.

(** polar coordinates in the plane *)
Lemma plane_unique a phi a' phi' : 0 < a -> 0 <= a' -> 0 <= phi < 2*PI -> 0 <= phi' < 2*PI ->
  a * cos phi = a' * cos phi' -> a * sin phi = a' * sin phi' -> a = a' /\ phi = phi'.
Proof.
  intros H1 H2 H3 H4 E1 E2.
  pose proof (sin2_cos2 phi) as S1. pose proof (sin2_cos2 phi') as S2. unfold Rsqr in S1, S2.
  assert (E : a*a = a'*a').
  { assert (a*a*(sin phi*sin phi + cos phi * cos phi) = a'*a'*(sin phi'*sin phi' + cos phi' * cos phi')).
    { transitivity ((a*sin phi)*(a*sin phi) + (a*cos phi)*(a*cos phi)). ring. rewrite E1, E2. ring. }
    rewrite S1, S2 in H. lra. }
  assert (a = a') by nra. subst a'. split; auto.
  apply angle_unique; auto; nra.
Qed.

Lemma polar_unique r th r' th' : 0 < r * sin th -> 0 <= th <= PI -> 0 <= th' <= PI -> 0 <= r -> 0 <= r' ->
  r * sin th = r' * sin th' -> r * cos th = r' * cos th' -> r = r' /\ th = th'.
Proof.
  intros H0 H1 H2 H3 H4 E1 E2. pose proof PI_pos.
  assert (0 < r) by (destruct (Req_EM_T r 0); [subst; lra|lra]).
  destruct (plane_unique r th r' th'); auto; lra.
Qed.

Lemma sph_len (r r' : dist R) : dk r = KDistance -> dk r' = KDistance -> len r = len r' -> r = r'.
Proof. destruct r as [k v], r' as [k' v']; cbn; intros -> ->. unfold len; cbn. now intros ->. Qed.
Lemma len_nonneg r : valid_dist r -> 0 <= len r.
Proof. intros H. now destruct (mlen_valid r H). Qed.

Lemma sph_unique r th ph r' th' ph' :
  0 <= r -> 0 <= r' -> 0 <= th <= PI -> 0 <= th' <= PI -> 0 <= ph < 2*PI -> 0 <= ph' < 2*PI ->
  r * sin th <> 0 ->
  r * sin th * cos ph = r' * sin th' * cos ph' ->
  r * sin th * sin ph = r' * sin th' * sin ph' ->
  r * cos th = r' * cos th' -> r = r' /\ th = th' /\ ph = ph'.
Proof.
  intros H1 H2 H3 H4 H5 H6 N E1 E2 E3.
  assert (0 <= sin th) by (apply sin_ge_0; lra). assert (0 <= sin th') by (apply sin_ge_0; lra).
  assert (0 <= r * sin th) by (apply Rmult_le_pos; auto). assert (0 <= r' * sin th') by (apply Rmult_le_pos; auto).
  destruct (plane_unique (r * sin th) ph (r' * sin th') ph') as [A B]; auto; try lra.
  destruct (polar_unique r th r' th') as [C D]; auto; lra.
Qed.

Lemma coords_unique p q pt :
  plain3 (cls_of p) -> cls_of q = cls_of p -> valid p -> valid q ->
  length_radial p -> length_radial q -> azimuth_in_range p -> azimuth_in_range q ->
  off_axis p -> denotes p pt -> denotes q pt -> p = q.
Proof.
  intros P C V V' L L' Az Az' OA D D'.
  destruct p; cbn in P; try contradiction; destruct q; cbn in C; try discriminate C; cbn in *; subst pt;
  try (apply list3_inj in D'; destruct D' as (E1 & E2 & E3)).
  - subst; reflexivity.
  - specialize (OA _ _ _ eq_refl). subst z0.
    destruct (plane_unique rho phi rho0 phi0) as [-> ->]; auto.
    destruct (Req_EM_T rho 0); [subst; exfalso; apply OA; ring | lra].
  - specialize (OA _ _ _ eq_refl). destruct V as [V1 V2], V' as [V1' V2'].
    destruct (sph_unique (len r) theta phi (len r0) theta0 phi0) as (A & -> & ->); auto using len_nonneg.
    { intros Z. apply OA. rewrite Z. ring. }
    f_equal. apply sph_len; auto.
  - specialize (OA _ _ _ eq_refl). destruct V as [V1 V2], V' as [V1' V2'].
    destruct (sph_unique (len r) phi theta (len r0) phi0 theta0) as (A & -> & ->); auto using len_nonneg.
    { intros Z. apply OA. rewrite Z. ring. }
    f_equal. apply sph_len; auto.
  - specialize (OA _ _ _ eq_refl). destruct V as [V1 V2], V' as [V1' V2'].
    destruct (sph_unique (len d) (PI/2-lat) lon (len d0) (PI/2-lat0) lon0) as (A & B & ->);
      rewrite ?shift_sin, ?shift_cos; auto using len_nonneg; try lra.
    { intros Z. apply OA. rewrite Z. ring. }
    replace lat0 with lat by lra. f_equal. apply sph_len; auto.
Qed.

(** ** Round trips *)
Lemma valid_length_nonneg p : valid p -> length_radial p -> ~ negative_field p.
Proof.
  destruct p; cbn; auto; intros V L N; try (destruct V as [V _]); unfold valid_dist in V; rewrite L in V; lra.
Qed.

Lemma denotes_total p : valid p -> exists pt, denotes p pt.
Proof.
  destruct p; cbn; intros V; eauto. destruct V as (V1 & V2 & V3).
  do 3 eexists. split; [|reflexivity]. apply (prolate_Rz_point mu nu Delta); auto.
Qed.

Lemma rep3_total m deg f kw p t :
  valid p -> plain3 (cls_of p) -> plain3 t -> length_radial p -> ~ at_origin p ->
  exists q, represent_as m deg (4 + f) kw (finite p) t = Ok false (finite q) /\ cls_of q = t /\ valid q /\
            (forall pt, denotes p pt <-> denotes q pt) /\
            (azimuth_in_range p -> azimuth_in_range q) /\ length_radial q.
Proof.
  intros V P T L O. destruct (represent_as_plain3 m deg f kw p t V P T) as [(q&H1&H2&H3&H4&H5&H6)|[(_&_&N)|(N&_)]].
  - exists q. auto 10.
  - exfalso. eapply valid_length_nonneg; eauto.
  - contradiction.
Qed.

Lemma round_trip m deg f kw kw' p t :
  valid p -> plain3 (cls_of p) -> plain3 t -> length_radial p -> ~ at_origin p ->
  exists q p', represent_as m deg (4 + f) kw (finite p) t = Ok false (finite q) /\
    represent_as m deg (4 + f) kw' (finite q) (cls_of p) = Ok false (finite p') /\
    cls_of p' = cls_of p /\ (forall pt, denotes p pt <-> denotes p' pt) /\
    (azimuth_in_range p -> off_axis p -> p' = p).
Proof.
  intros V P T L O.
  destruct (rep3_total m deg f kw p t V P T L O) as (q & H1 & H2 & H3 & H4 & H5 & H6).
  assert (Oq : ~ at_origin q). { unfold at_origin. rewrite <- H4. exact O. }
  assert (Pq : plain3 (cls_of q)) by now rewrite H2.
  destruct (rep3_total m deg f kw' q (cls_of p) H3 Pq P H6 Oq) as (p' & K1 & K2 & K3 & K4 & K5 & K6).
  exists q, p'. split; auto. split; auto. split; auto.
  assert (E : forall pt, denotes p pt <-> denotes p' pt) by (intros pt; rewrite H4; auto).
  split; auto. intros Az OA. symmetry. destruct (denotes_total p V) as [pt D].
  eapply coords_unique with (pt := pt); eauto. now apply E.
Qed.

(** Round trips that start from Cartesian coordinates are exact everywhere
    except at the origin. *)
Lemma round_trip_cart m deg f kw kw' x y z t : plain3 t -> x*x+y*y+z*z <> 0 ->
  exists q, represent_as m deg (4 + f) kw (finite (PCart3 x y z)) t = Ok false (finite q) /\
    represent_as m deg (4 + f) kw' (finite q) CCart3 = Ok false (finite (PCart3 x y z)).
Proof.
  intros T N.
  destruct (round_trip m deg f kw kw' (PCart3 x y z) t) as (q & p' & H1 & H2 & H3 & H4 & _); cbn; auto.
  { intros E. inversion E. subst. apply N. ring. }
  exists q. split; auto. change CCart3 with (cls_of (PCart3 x y z)) at 1. etransitivity; [exact H2|]. clear H2. destruct p'; try discriminate H3.
  specialize (H4 [x;y;z]). cbn in H4. destruct H4 as [H4 _]. specialize (H4 eq_refl).
  apply list3_inj in H4. destruct H4 as (-> & -> & ->). reflexivity.
Qed.
