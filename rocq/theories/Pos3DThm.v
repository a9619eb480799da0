(** * Representation changes among the five Delta-free 3-D classes. *)
From Coq Require Import Reals Bool List ZArith Lra Lia.
From Verif Require Import Num Vectors Spec Transform Pos3D.
Import ListNotations.
Open Scope R_scope.

Definition good (m : mode) (p : pos R) (t : pcls) (r : res (pos ext)) : Prop :=
  (exists q, r = Ok false (finite q) /\ cls_of q = t /\ valid q /\
             (forall pt, denotes p pt <-> denotes q pt) /\
             (azimuth_in_range p -> azimuth_in_range q) /\
             (length_radial p -> length_radial q))
  \/ (r = Raise ENegative /\ m = Eager /\ negative_field p)
  \/ (at_origin p /\ exists q, r = Ok false q /\ has_nan q /\ cls_of q = t).

Ltac lists := f_equal; [ | f_equal; [ | f_equal ] ].

Lemma sqrt_ne0 a : 0 <= a -> a <> 0 -> sqrt a <> 0.
Proof. intros H1 H2 E. apply sqrt_eq_0 in E; auto. Qed.

Lemma shift_sin x : sin (PI/2 - x) = cos x. Proof. rewrite cos_sin. rewrite <- (sin_PI_x (PI/2 + x)). f_equal. field. Qed.
Lemma shift_cos x : cos (PI/2 - x) = sin x. Proof. rewrite sin_cos. rewrite <- (cos_neg (PI/2 - x)).
  rewrite <- (Ropp_involutive (cos (- (PI/2 - x)))). f_equal. rewrite <- neg_cos. f_equal. field. Qed.

Lemma cart_sph_point x y z : x*x+y*y+z*z <> 0 ->
  let r := sqrt (x*x+y*y+z*z) in
  let th := acos (z/r) in let ph := Rwrap (Ratan2 y x) in
  r * sin th * cos ph = x /\ r * sin th * sin ph = y /\ r * cos th = z /\ 0 <= th <= PI /\ 0 < r.
Proof.
  intros H r th ph.
  assert (Hr : r <> 0) by (apply sqrt_ne0; auto using hyp3_nonneg).
  destruct (acos_ratio x y z Hr) as (B & Hp & Hc & Hs & Hb). fold r in B, Hp, Hc, Hs, Hb. fold th in Hc, Hs, Hb.
  unfold ph. rewrite cos_Rwrap, sin_Rwrap. rewrite Hs.
  destruct (Ratan2_polar x y) as [E1 E2]. auto.
Qed.

(** A position whose polar angle is NaN stays NaN. *)
Lemma rep_SphNaN_LonLat m deg f kw v phi : 0 <= v ->
  represent_as m deg (S f) kw (PSph (mkDist KDistance (Some v)) None (Some phi)) CLonLat
  = Ok false (PLonLat (Some phi) None (mkDist KDistance (Some v))).
Proof.
  intros H. step. unfold mk_LonLat. ered. rewrite polar_none, nonneg_ok by auto. reflexivity.
Qed.
Lemma rep_SphNaN_MSph m deg f kw v phi : 0 <= v ->
  represent_as m deg (S f) kw (PSph (mkDist KDistance (Some v)) None (Some phi)) CMSph
  = Ok false (PMSph (mkDist KDistance (Some v)) (Some phi) None).
Proof.
  intros H. step. unfold mk_MSph. ered. rewrite polar_none, nonneg_ok by auto. reflexivity.
Qed.
(** same for source classes, through the conversion table *)
Lemma has_nan_LonLat a d : has_nan (PLonLat a None d).
Proof. intros q E. destruct q; cbn in E; congruence. Qed.
Lemma has_nan_MSph a d : has_nan (PMSph d a None).
Proof. intros q E. destruct q; cbn in E; congruence. Qed.
Lemma has_nan_Sph a d : has_nan (PSph d None a).
Proof. intros q E. destruct q; cbn in E; congruence. Qed.

Lemma bind_ret_l {T U} (v : T) (g : T -> res U) : bind (ret v) g = g v.
Proof. unfold bind, ret. destruct (g v); reflexivity. Qed.

Lemma origin3 x y z : x*x+y*y+z*z = 0 -> x = 0 /\ y = 0 /\ z = 0.
Proof.
  intros H. pose proof (sq_nonneg x). pose proof (sq_nonneg y). pose proof (sq_nonneg z).
  assert (x*x = 0) by lra. assert (y*y=0) by lra. assert (z*z=0) by lra.
  repeat split; nra.
Qed.

(** Overloads that re-dispatch through another class. *)
Lemma rep_redispatch m deg f kw (p : pos ext) t mid :
  match cls_of p, t with
  | CCart3, CMSph | CCart3, CLonLat | CCyl, CMSph | CCyl, CLonLat | CLonLat, CCart3 | CLonLat, CCyl => mid = CSph
  | CMSph, CLonLat | CLonLat, CMSph => mid = CCart3
  | _, _ => False
  end ->
  represent_as m deg (S f) kw p t
  = (do q <- represent_as m deg f nokw p mid; represent_as m deg f nokw q t).
Proof. destruct p; cbn [cls_of]; try contradiction; destruct t; try contradiction; intros ->; step; reflexivity. Qed.

Lemma good_Cart3 m deg f kw x y z t : plain3 t ->
  good m (PCart3 x y z) t (represent_as m deg (S (S (S f))) kw (finite (PCart3 x y z)) t).
Proof.
  intros Ht. destruct t; try contradiction; clear Ht.
  - (* Cart3 *) left. exists (PCart3 x y z). split; [step; reflexivity|]. cbn. tauto.
  - (* Cyl *) left. rewrite rep_Cart3_Cyl. eexists; split; [reflexivity|].
    split; [reflexivity|]. split; [apply sqrt_pos|]. split.
    + intros pt. cbn [denotes]. rewrite cos_Rwrap, sin_Rwrap. destruct (Ratan2_polar x y) as [-> ->]. tauto.
    + split; [intros _; apply Rwrap_range | intros _; exact I].
  - (* Sph *) destruct (Req_EM_T (x*x+y*y+z*z) 0) as [E|N].
    + right; right. rewrite rep_Cart3_Sph_origin by auto. destruct (origin3 _ _ _ E) as (-> & -> & ->).
      split; [reflexivity|]. eexists; split; [reflexivity|]. split. apply has_nan_Sph. reflexivity.
    + left. destruct (cart_sph_point x y z N) as (E1 & E2 & E3 & E4 & E5).
      rewrite rep_Cart3_Sph by auto. eexists; split; [reflexivity|].
      split; [reflexivity|]. split; [|split].
      * cbn; split; [apply sqrt_pos|auto].
      * intros pt. cbn [denotes]. unfold len; cbn [dk dval]. rewrite E1, E2, E3. tauto.
      * split; [intros _; apply Rwrap_range | intros _; reflexivity].
  - (* MSph *)
    rewrite (rep_redispatch m deg _ _ _ _ CSph) by reflexivity.
    destruct (Req_EM_T (x*x+y*y+z*z) 0) as [E|N].
    + right; right. rewrite rep_Cart3_Sph_origin by auto. cbn [bind]. rewrite rep_SphNaN_MSph by lra.
      destruct (origin3 _ _ _ E) as (-> & -> & ->).
      split; [reflexivity|]. eexists; split; [reflexivity|]. split. apply has_nan_MSph. reflexivity.
    + left. destruct (cart_sph_point x y z N) as (E1 & E2 & E3 & E4 & E5).
      rewrite rep_Cart3_Sph by auto. cbn [bind].
      rewrite rep_Sph_MSph by auto. cbn [dval]. rewrite nonneg_ok by apply sqrt_pos.
      eexists; split; [reflexivity|].
      split; [reflexivity|]. split; [|split].
      * cbn; split; [apply sqrt_pos|auto].
      * intros pt. cbn [denotes]. unfold len; cbn [dk dval]. rewrite E1, E2, E3. tauto.
      * split; [intros _; apply Rwrap_range | intros _; reflexivity].
  - (* LonLat *)
    rewrite (rep_redispatch m deg _ _ _ _ CSph) by reflexivity.
    destruct (Req_EM_T (x*x+y*y+z*z) 0) as [E|N].
    + right; right. rewrite rep_Cart3_Sph_origin by auto. cbn [bind]. rewrite rep_SphNaN_LonLat by lra.
      destruct (origin3 _ _ _ E) as (-> & -> & ->).
      split; [reflexivity|]. eexists; split; [reflexivity|]. split. apply has_nan_LonLat. reflexivity.
    + left. destruct (cart_sph_point x y z N) as (E1 & E2 & E3 & E4 & E5).
      rewrite rep_Cart3_Sph by auto. cbn [bind].
      rewrite rep_Sph_LonLat by auto. cbn [dval]. rewrite nonneg_ok by apply sqrt_pos.
      eexists; split; [reflexivity|].
      split; [reflexivity|]. split; [|split].
      * cbn; split; [apply sqrt_pos|lra].
      * intros pt. cbn [denotes]. unfold len; cbn [dk dval]. rewrite shift_sin, shift_cos, E1, E2, E3. tauto.
      * split; [intros _; apply Rwrap_range | intros _; reflexivity].
Qed.

Lemma cyl_sph_point rho z : 0 <= rho -> rho*rho+z*z <> 0 ->
  let r := sqrt (rho*rho+z*z) in let th := acos (z/r) in
  r * sin th = rho /\ r * cos th = z /\ 0 <= th <= PI /\ 0 < r.
Proof.
  intros H0 H r th.
  assert (Hr : r <> 0) by (apply sqrt_ne0; auto using hyp2_nonneg).
  destruct (acos_ratio2 rho z H0 Hr) as (B & Hp & Hc & Hs & Hb). fold r in B, Hp, Hc, Hs, Hb. auto.
Qed.

Lemma good_Cyl m deg f kw rho phi z t : 0 <= rho -> plain3 t ->
  good m (PCyl rho phi z) t (represent_as m deg (S (S (S f))) kw (finite (PCyl rho phi z)) t).
Proof.
  intros Hrho Ht.
  assert (Org : rho*rho+z*z = 0 -> at_origin (PCyl rho phi z)).
  { intros E. pose proof (sq_nonneg rho). pose proof (sq_nonneg z).
    assert (rho = 0) by nra. assert (z = 0) by nra. subst. unfold at_origin; cbn. now rewrite !Rmult_0_l. }
  destruct t; try contradiction; clear Ht.
  - (* Cart3 *) left. rewrite rep_Cyl_Cart3. eexists; split; [reflexivity|]. cbn. tauto.
  - (* Cyl *) left. exists (PCyl rho phi z). split; [step; reflexivity|]. cbn. tauto.
  - (* Sph *) destruct (Req_EM_T (rho*rho+z*z) 0) as [E|N].
    + right; right. rewrite rep_Cyl_Sph_origin by auto. 
      split; [auto|]. eexists; split; [reflexivity|]. split. apply has_nan_Sph. reflexivity.
    + left. destruct (cyl_sph_point rho z Hrho N) as (E1 & E3 & E4 & E5).
      rewrite rep_Cyl_Sph by auto. eexists; split; [reflexivity|].
      split; [reflexivity|]. split; [|split].
      * cbn; split; [apply sqrt_pos|auto].
      * intros pt. cbn [denotes]. unfold len; cbn [dk dval]. rewrite E1, E3. tauto.
      * split; [auto | intros _; reflexivity].
  - (* MSph *)
    rewrite (rep_redispatch m deg _ _ _ _ CSph) by reflexivity.
    destruct (Req_EM_T (rho*rho+z*z) 0) as [E|N].
    + right; right. rewrite rep_Cyl_Sph_origin by auto. cbn [bind]. rewrite rep_SphNaN_MSph by lra.
      split; [auto|]. eexists; split; [reflexivity|]. split. apply has_nan_MSph. reflexivity.
    + left. destruct (cyl_sph_point rho z Hrho N) as (E1 & E3 & E4 & E5).
      rewrite rep_Cyl_Sph by auto. cbn [bind].
      rewrite rep_Sph_MSph by auto. cbn [dval]. rewrite nonneg_ok by apply sqrt_pos.
      eexists; split; [reflexivity|].
      split; [reflexivity|]. split; [|split].
      * cbn; split; [apply sqrt_pos|auto].
      * intros pt. cbn [denotes]. unfold len; cbn [dk dval]. rewrite E1, E3. tauto.
      * split; [auto | intros _; reflexivity].
  - (* LonLat *)
    rewrite (rep_redispatch m deg _ _ _ _ CSph) by reflexivity.
    destruct (Req_EM_T (rho*rho+z*z) 0) as [E|N].
    + right; right. rewrite rep_Cyl_Sph_origin by auto. cbn [bind]. rewrite rep_SphNaN_LonLat by lra.
      split; [auto|]. eexists; split; [reflexivity|]. split. apply has_nan_LonLat. reflexivity.
    + left. destruct (cyl_sph_point rho z Hrho N) as (E1 & E3 & E4 & E5).
      rewrite rep_Cyl_Sph by auto. cbn [bind].
      rewrite rep_Sph_LonLat by auto. cbn [dval]. rewrite nonneg_ok by apply sqrt_pos.
      eexists; split; [reflexivity|].
      split; [reflexivity|]. split; [|split].
      * cbn; split; [apply sqrt_pos|lra].
      * intros pt. cbn [denotes]. unfold len; cbn [dk dval]. rewrite shift_sin, shift_cos, E1, E3. tauto.
      * split; [auto | intros _; reflexivity].
Qed.

Lemma good_Sph m deg f kw r theta phi t : valid_dist r -> 0 <= theta <= PI -> plain3 t ->
  good m (PSph r theta phi) t (represent_as m deg (S f) kw (finite (PSph r theta phi)) t).
Proof.
  intros Hr Hth Ht. destruct (mlen_valid r Hr) as [_ Hl].
  destruct t; try contradiction; clear Ht.
  - left. rewrite rep_Sph_Cart3 by auto. eexists; split; [reflexivity|]. cbn. tauto.
  - left. rewrite rep_Sph_Cyl by auto. eexists; split; [reflexivity|]. split; [reflexivity|].
    split. cbn. apply Rmult_le_pos; auto. apply sin_ge_0; lra. cbn. tauto.
  - left. exists (PSph r theta phi). split; [step; reflexivity|]. cbn. tauto.
  - rewrite rep_Sph_MSph by auto. destruct (nonneg_cases m (dval r)) as [E|(Em&N&E)]; rewrite E.
    + left. eexists; split; [reflexivity|]. cbn. tauto.
    + right; left. cbn. auto.
  - rewrite rep_Sph_LonLat by auto. destruct (nonneg_cases m (dval r)) as [E|(Em&N&E)]; rewrite E.
    + left. eexists; split; [reflexivity|]. cbn. rewrite shift_sin, shift_cos.
      repeat split; try tauto; lra.
    + right; left. cbn. auto.
Qed.

(** Composition of a finite, point-preserving step with a [good] step. *)
Lemma good_compose m p q t r :
  (forall pt, denotes p pt <-> denotes q pt) ->
  (azimuth_in_range p -> azimuth_in_range q) ->
  (negative_field q -> negative_field p) ->
  (length_radial p -> length_radial q) ->
  good m q t r -> good m p t r.
Proof.
  intros E A Ng Lr [ (q' & H1 & H2 & H3 & H4 & H5 & H6) | [ (H1 & H2 & H3) | (H1 & q' & H2 & H3 & H4) ]].
  - left. exists q'. repeat split; auto; intros.
    + apply H4, E. auto.
    + apply E, H4. auto.
  - right; left. auto.
  - right; right. split. apply E. exact H1. exists q'; auto.
Qed.

Lemma bind_ok {T U} (v : T) (g : T -> res U) : bind (Ok false v) g = g v.
Proof. unfold bind. destruct (g v); reflexivity. Qed.

Lemma good_MSph m deg f kw r theta phi t : valid_dist r -> 0 <= phi <= PI -> plain3 t ->
  good m (PMSph r theta phi) t (represent_as m deg (S (S (S (S f)))) kw (finite (PMSph r theta phi)) t).
Proof.
  intros Hr Hth Ht. destruct (mlen_valid r Hr) as [_ Hl].
  destruct t; try contradiction; clear Ht.
  - left. rewrite rep_MSph_Cart3 by auto. eexists; split; [reflexivity|]. cbn. tauto.
  - left. rewrite rep_MSph_Cyl by auto. eexists; split; [reflexivity|]. split; [reflexivity|].
    split. cbn. apply Rmult_le_pos; auto. apply sin_ge_0; lra. cbn. tauto.
  - rewrite rep_MSph_Sph by auto. destruct (nonneg_cases m (dval r)) as [E|(Em&N&E)]; rewrite E.
    + left. eexists; split; [reflexivity|]. cbn. tauto.
    + right; left. cbn. auto.
  - left. exists (PMSph r theta phi). split; [step; reflexivity|]. cbn. tauto.
  - rewrite (rep_redispatch m deg _ _ _ _ CCart3) by reflexivity.
    rewrite rep_MSph_Cart3 by auto. rewrite bind_ok.
    eapply good_compose; [ | | | | apply good_Cart3; exact I ].
    + intros pt. cbn. tauto.
    + intros _. exact I.
    + cbn; contradiction.
    + intros _; exact I.
Qed.

Lemma good_LonLat m deg f kw lon lat d t : valid_dist d -> - (PI/2) <= lat <= PI/2 -> plain3 t ->
  good m (PLonLat lon lat d) t (represent_as m deg (S (S (S (S f)))) kw (finite (PLonLat lon lat d)) t).
Proof.
  intros Hr Hth Ht. destruct (mlen_valid d Hr) as [_ Hl].
  assert (SP : forall pt, denotes (PLonLat lon lat d) pt <-> denotes (PSph d (PI/2-lat) lon) pt).
  { intros pt. cbn. rewrite shift_sin, shift_cos. tauto. }
  assert (Via : forall f' kw' t', plain3 t' ->
     good m (PLonLat lon lat d) t'
       (do q <- represent_as m deg (S f') kw' (finite (PLonLat lon lat d)) CSph;
        represent_as m deg (S f') nokw q t')).
  { intros f' kw' t' Ht'. rewrite rep_LonLat_Sph by auto.
    destruct (nonneg_cases m (dval d)) as [E|(Em&N&E)]; rewrite E.
    - rewrite bind_ret_l. unfold ret at 1. rewrite bind_ok. eapply good_compose; [exact SP | cbn; auto | cbn; auto | cbn; auto | ].
      apply good_Sph; auto. lra.
    - right; left. cbn. auto. }
  destruct t; try contradiction; clear Ht.
  - rewrite (rep_redispatch m deg _ _ _ _ CSph) by reflexivity. apply (Via (S (S f)) nokw CCart3 I).
  - rewrite (rep_redispatch m deg _ _ _ _ CSph) by reflexivity. apply (Via (S (S f)) nokw CCyl I).
  - rewrite rep_LonLat_Sph by auto. destruct (nonneg_cases m (dval d)) as [E|(Em&N&E)]; rewrite E.
    + left. eexists; split; [reflexivity|]. split; [reflexivity|].
      split. cbn; split; auto; lra. split; auto.
    + right; left. cbn. auto.
  - rewrite (rep_redispatch m deg _ _ _ _ CCart3) by reflexivity.
    rewrite (rep_redispatch m deg _ nokw (finite (PLonLat lon lat d)) CCart3 CSph) by reflexivity.
    rewrite rep_LonLat_Sph by auto.
    destruct (nonneg_cases m (dval d)) as [E|(Em&N&E)]; rewrite E.
    + rewrite bind_ret_l. unfold ret at 1. rewrite bind_ok. rewrite rep_Sph_Cart3 by auto. rewrite bind_ok.
      rewrite shift_sin, shift_cos.
      eapply good_compose; [ | | | | apply good_Cart3; exact I ].
      * intros pt. cbn. tauto.
      * intros _. exact I.
      * cbn; contradiction.
      * intros _; exact I.
    + right; left. cbn. auto.
  - left. exists (PLonLat lon lat d). split; [step; reflexivity|]. cbn. tauto.
Qed.

(** ** Main trichotomy *)
Theorem represent_as_plain3 m deg f kw p t :
  valid p -> plain3 (cls_of p) -> plain3 t ->
  good m p t (represent_as m deg (4 + f) kw (finite p) t).
Proof.
  intros V Hp Ht. destruct p; cbn in Hp; try contradiction; cbn in V.
  - apply good_Cart3; auto.
  - apply good_Cyl; auto.
  - apply good_Sph; tauto.
  - apply good_MSph; tauto.
  - apply good_LonLat; tauto.
Qed.
