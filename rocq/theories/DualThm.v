(** * The derivative of a conversion maps the moving point to itself. *)
From Coq Require Import Reals Bool List ZArith Lra Lia.
From Verif Require Import Num Vectors Spec Transform Pos3D Pos3DThm RoundTrip Vel SpecVel VelAt DualPos.
Import ListNotations.
Open Scope R_scope.

(** ** Algebra *)
Lemma cs1 t : cos t * cos t + sin t * sin t = 1.
Proof. pose proof (sin2_cos2 t) as H. unfold Rsqr in H. lra. Qed.

Lemma azim_tangent rho C S a b : rho <> 0 -> C*C + S*S = 1 ->
  let x := rho * C in let y := rho * S in
  let drho := (a*x + x*a + (b*y + y*b)) * ((1/2) / rho) in
  let dphi := b * (x/(y*y+x*x)) - a * (y/(y*y+x*x)) in
  drho * C - rho * S * dphi = a /\ drho * S + rho * C * dphi = b.
Proof.
  intros H H1 x y drho dphi.
  assert (E : y*y + x*x = rho*rho).
  { unfold x, y. transitivity (rho*rho*(C*C+S*S)). ring. rewrite H1; ring. }
  unfold drho, dphi. rewrite E. unfold x, y.
  split.
  - transitivity (a * (C*C+S*S)). field; auto. rewrite H1; ring.
  - transitivity (b * (C*C+S*S)). field; auto. rewrite H1; ring.
Qed.

Lemma polar_tangent r C S D dz : 0 < r -> 0 < S -> C*C + S*S = 1 ->
  let rho := r * S in let z := r * C in
  let dr := (D + (dz*z + z*dz)) * ((1/2) / r) in
  let dth := dacos z r dz dr in
  dr * S + r * C * dth = D / (2 * rho) /\ dr * C - r * S * dth = dz.
Proof.
  intros Hr HS H1 rho z dr dth.
  assert (Hr' : r <> 0) by (apply Rgt_not_eq; lra).
  assert (HS' : S <> 0) by (apply Rgt_not_eq; lra).
  assert (Q : sqrt (1 - z/r*(z/r)) = S).
  { replace (1 - z/r*(z/r)) with (S*S). apply sqrt_square; lra.
    unfold z. transitivity (1 - C*C). lra. field. auto. }
  set (G := D / (2*rho)).
  assert (EG : D = G * (2 * (r * S))). { unfold G, rho. field. auto. }
  assert (E' : dr = S * G + C * dz).
  { unfold dr. rewrite EG. unfold z. field. auto. }
  assert (E : dth = (C * G - S * dz) / r).
  { unfold dth, dacos. rewrite Q, E'. unfold z. 
    apply Rmult_eq_reg_r with (r * S); [|nra].
    match goal with |- ?L = ?R => ring_simplify; transitivity (C * S * G - (1 - C*C) * dz) end.
    - field. auto.
    - replace (1 - C*C) with (S*S) by lra. field. auto. }
  rewrite E, E'. split.
  - transitivity (G * (C*C+S*S)). field. auto. rewrite H1. ring.
  - transitivity (dz * (C*C+S*S)). field. auto. rewrite H1. ring.
Qed.

Definition dgood (p : pos R) (u : list R) (t : pcls) (r : res (pos dual)) : Prop :=
  exists q u', r = Ok false (dpos q u') /\ cls_of q = t /\ valid q /\ length_radial q /\ length u' = 3%nat /\
    cart_at q = cart_at p /\ vel_at q u' = vel_at p u.

Lemma dgood_trans p u mid q u' t r :
  cart_at q = cart_at p -> vel_at q u' = vel_at p u -> cls_of q = mid ->
  dgood q u' t r -> dgood p u t r.
Proof.
  intros E1 E2 _ (q' & u'' & H1 & H2 & H3 & H4 & H5 & H6 & H7).
  exists q', u''. repeat split; auto; congruence.
Qed.

Lemma atan2_CS x y : x*x+y*y <> 0 ->
  let ph := Rwrap (Ratan2 y x) in let rho := sqrt (x*x+y*y) in
  0 < rho /\ rho * cos ph = x /\ rho * sin ph = y /\ rho * rho = x*x+y*y.
Proof.
  intros H ph rho. unfold ph. rewrite cos_Rwrap, sin_Rwrap.
  destruct (Ratan2_polar x y) as [E1 E2].
  pose proof (hyp2_nonneg x y). split; [apply sqrt_lt_R0; lra|]. split; [exact E1|]. split; [exact E2|].
  apply sqrt_sqrt; auto.
Qed.

Lemma list3_eq (a b c a' b' c' : R) : a = a' -> b = b' -> c = c' -> [a;b;c] = [a';b';c'].
Proof. congruence. Qed.

Ltac l3 := apply list3_eq.

(** sin of the polar angle is positive off the axis *)
Definition rho_of (p : pos R) : R :=
  match p with
  | PCart3 x y _ => sqrt (x*x+y*y) | PCyl rho _ _ => rho
  | PSph r th _ => len r * sin th | PMSph r _ ph => len r * sin ph
  | PLonLat _ lat d => len d * cos lat | _ => 0
  end.
Lemma off_axis_rho p : valid p -> plain3 (cls_of p) -> off_axis p -> 0 < rho_of p.
Proof.
  intros V P O. destruct p; cbn in P; try contradiction; cbn [rho_of]; cbn in V.
  - apply sqrt_lt_R0. specialize (O x y z eq_refl). pose proof (hyp2_nonneg x y). lra.
  - specialize (O _ _ _ eq_refl). destruct (Req_EM_T rho 0) as [->|]; [|lra]. exfalso. apply O. ring.
  - specialize (O _ _ _ eq_refl). destruct V as [V1 V2]. pose proof (len_nonneg _ V1).
    assert (0 <= sin theta) by (apply sin_ge_0; lra).
    destruct (Req_EM_T (len r * sin theta) 0) as [E|]; [|nra]. exfalso. apply O. rewrite E. ring.
  - specialize (O _ _ _ eq_refl). destruct V as [V1 V2]. pose proof (len_nonneg _ V1).
    assert (0 <= sin phi) by (apply sin_ge_0; lra).
    destruct (Req_EM_T (len r * sin phi) 0) as [E|]; [|nra]. exfalso. apply O. rewrite E. ring.
  - specialize (O _ _ _ eq_refl). destruct V as [V1 V2]. pose proof (len_nonneg _ V1).
    assert (0 <= cos lat) by (apply cos_ge_0; lra).
    destruct (Req_EM_T (len d * cos lat) 0) as [E|]; [|nra]. exfalso. apply O. rewrite E. ring.
Qed.
Lemma off_axis_cart p q : cls_of p <> CProlate -> cls_of q <> CProlate -> cart_at q = cart_at p -> off_axis p -> off_axis q.
Proof.
  intros Hp Hq E O x y z D. apply (O x y z). apply denotes_cart_at; auto. rewrite <- E. now apply denotes_cart_at.
Qed.

Lemma Rsign_pos' x : 0 < x -> Rsign x = 1.
Proof. intros H. unfold Rsign. apply Rltb_true in H. now rewrite H. Qed.

Section D.
Variables (deg : bool).

Lemma dg_Cart3_Cyl f kw x y z a b c : x*x+y*y <> 0 ->
  dgood (PCart3 x y z) [a;b;c] CCyl (represent_as Traced deg (S f) kw (dpos (PCart3 x y z) [a;b;c]) CCyl).
Proof.
  intros H. rewrite d_Cart3_Cyl by auto.
  destruct (atan2_CS x y H) as (R0 & R1 & R2 & R3).
  do 2 eexists. split; [reflexivity|]. split; [reflexivity|]. split; [apply sqrt_pos|]. split; [exact I|].
  split; [reflexivity|]. set (ph := Rwrap (Ratan2 y x)) in *. set (rho := sqrt (x*x+y*y)) in *.
  cbn [cart_at vel_at]. rewrite R1, R2. split; auto.
  destruct (azim_tangent rho (cos ph) (sin ph) a b) as [T1 T2]; [lra|apply cs1|].
  cbv zeta in T1, T2. rewrite R1, R2 in T1, T2. l3.
  - exact T1.
  - exact T2.
  - reflexivity.
Qed.

Lemma dg_Cyl_Sph f kw rho phi z a b c : 0 < rho ->
  dgood (PCyl rho phi z) [a;b;c] CSph (represent_as Traced deg (S f) kw (dpos (PCyl rho phi z) [a;b;c]) CSph).
Proof.
  intros H. rewrite d_Cyl_Sph by auto.
  destruct (cyl_sph_point rho z) as (E1 & E3 & E4 & E5); [lra|nra|].
  set (r := sqrt (rho*rho+z*z)) in *. set (th := acos (z/r)) in *.
  assert (HS : 0 < sin th) by (destruct (Rle_or_lt (sin th) 0); [nra|auto]).
  do 2 eexists. split; [reflexivity|]. split; [reflexivity|]. split; [cbn; lra|]. split; [reflexivity|].
  split; [reflexivity|]. cbn [cart_at vel_at]. unfold Dist, len; cbn [dk dval]. rewrite E1, E3. split; auto.
  destruct (polar_tangent r (cos th) (sin th) (a*rho+rho*a) c) as [T1 T2]; auto using cs1.
  cbv zeta in T1, T2. rewrite E1, E3 in T1, T2.
  set (dr := (a*rho+rho*a+(c*z+z*c)) * (1/2/r)) in *.
  set (dth := dacos z r c dr) in *.
  replace ((a * rho + rho * a) / (2 * rho)) with a in T1 by (field; lra).
  l3.
  - transitivity ((dr * sin th + z * dth) * cos phi - rho * sin phi * b).
    rewrite <- E1, <- E3. ring. rewrite T1. ring.
  - transitivity ((dr * sin th + z * dth) * sin phi + rho * cos phi * b).
    rewrite <- E1, <- E3. ring. rewrite T1. ring.
  - exact T2.
Qed.

Lemma dg_Cart3_Sph f kw x y z a b c : x*x+y*y <> 0 ->
  dgood (PCart3 x y z) [a;b;c] CSph (represent_as Traced deg (S f) kw (dpos (PCart3 x y z) [a;b;c]) CSph).
Proof.
  intros H. rewrite d_Cart3_Sph by auto.
  destruct (atan2_CS x y H) as (R0 & R1 & R2 & R3).
  set (ph := Rwrap (Ratan2 y x)) in *. set (rho := sqrt (x*x+y*y)) in *.
  assert (Q : x*x+y*y+z*z = rho*rho+z*z) by (rewrite R3; ring). rewrite Q.
  destruct (cyl_sph_point rho z) as (E1 & E3 & E4 & E5); [lra|nra|].
  set (r := sqrt (rho*rho+z*z)) in *. set (th := acos (z/r)) in *.
  assert (HS : 0 < sin th) by (destruct (Rle_or_lt (sin th) 0); [nra|auto]).
  do 2 eexists. split; [reflexivity|]. split; [reflexivity|]. split; [cbn; lra|]. split; [reflexivity|].
  split; [reflexivity|]. cbn [cart_at vel_at]. unfold Dist, len; cbn [dk dval]. rewrite E1, E3, R1, R2. split; auto.
  destruct (polar_tangent r (cos th) (sin th) (a*x+x*a+(b*y+y*b)) c) as [T1 T2]; auto using cs1.
  cbv zeta in T1, T2. rewrite E1, E3 in T1, T2.
  set (dr := (a*x+x*a+(b*y+y*b)+(c*z+z*c)) * (1/2/r)) in *.
  set (dth := dacos z r c dr) in *.
  destruct (azim_tangent rho (cos ph) (sin ph) a b) as [A1 A2]; [lra|apply cs1|].
  cbv zeta in A1, A2. rewrite R1, R2 in A1, A2.
  set (dphi := b*(x/(y*y+x*x)) - a*(y/(y*y+x*x))) in *.
  set (P := a*x+x*a+(b*y+y*b)) in *.
  replace (P * (1/2/rho)) with (P / (2*rho)) in A1, A2 by (field; lra).
  l3.
  - transitivity ((dr * sin th + z * dth) * cos ph - y * dphi).
    rewrite <- E3; ring. rewrite T1. exact A1.
  - transitivity ((dr * sin th + z * dth) * sin ph + x * dphi).
    rewrite <- E3; ring. rewrite T1. exact A2.
  - exact T2.
Qed.

Lemma dg_Cyl_Cart3 f kw rho phi z a b c :
  dgood (PCyl rho phi z) [a;b;c] CCart3 (represent_as Traced deg (S f) kw (dpos (PCyl rho phi z) [a;b;c]) CCart3).
Proof.
  rewrite d_Cyl_Cart3. do 2 eexists. split; [reflexivity|].
  split; [reflexivity|]. split; [exact I|]. split; [exact I|]. split; [reflexivity|]. split; [reflexivity|].
  cbn [vel_at]. l3; ring.
Qed.
Lemma dg_Sph_Cart3 f kw r th ph a b c :
  dgood (PSph (Dist r) th ph) [a;b;c] CCart3
    (represent_as Traced deg (S f) kw (dpos (PSph (Dist r) th ph) [a;b;c]) CCart3).
Proof.
  rewrite d_Sph_Cart3. do 2 eexists. split; [reflexivity|].
  split; [reflexivity|]. split; [exact I|]. split; [exact I|]. split; [reflexivity|]. split; [reflexivity|].
  cbn [vel_at]. unfold Dist, len; cbn [dk dval]. l3; ring.
Qed.
Lemma dg_MSph_Cart3 f kw r th ph a b c :
  dgood (PMSph (Dist r) th ph) [a;b;c] CCart3
    (represent_as Traced deg (S f) kw (dpos (PMSph (Dist r) th ph) [a;b;c]) CCart3).
Proof.
  rewrite d_MSph_Cart3. do 2 eexists. split; [reflexivity|].
  split; [reflexivity|]. split; [exact I|]. split; [exact I|]. split; [reflexivity|]. split; [reflexivity|].
  cbn [vel_at]. unfold Dist, len; cbn [dk dval]. l3; ring.
Qed.
Lemma dg_Sph_Cyl f kw r th ph a b c : 0 < r * sin th ->
  dgood (PSph (Dist r) th ph) [a;b;c] CCyl
    (represent_as Traced deg (S f) kw (dpos (PSph (Dist r) th ph) [a;b;c]) CCyl).
Proof.
  intros H. rewrite d_Sph_Cyl, Rsign_pos', Rabs_pos_eq by lra. do 2 eexists. split; [reflexivity|].
  split; [reflexivity|]. split; [cbn; lra|]. split; [exact I|]. split; [reflexivity|]. split; [reflexivity|].
  cbn [vel_at]. unfold Dist, len; cbn [dk dval]. l3; ring.
Qed.
Lemma dg_MSph_Cyl f kw r th ph a b c : 0 < r * sin ph ->
  dgood (PMSph (Dist r) th ph) [a;b;c] CCyl
    (represent_as Traced deg (S f) kw (dpos (PMSph (Dist r) th ph) [a;b;c]) CCyl).
Proof.
  intros H. rewrite d_MSph_Cyl, Rsign_pos', Rabs_pos_eq by lra. do 2 eexists. split; [reflexivity|].
  split; [reflexivity|]. split; [cbn; lra|]. split; [exact I|]. split; [reflexivity|]. split; [reflexivity|].
  cbn [vel_at]. unfold Dist, len; cbn [dk dval]. l3; ring.
Qed.
Lemma dg_Sph_LonLat f kw r th ph a b c : 0 <= r -> 0 <= th <= PI ->
  dgood (PSph (Dist r) th ph) [a;b;c] CLonLat
    (represent_as Traced deg (S f) kw (dpos (PSph (Dist r) th ph) [a;b;c]) CLonLat).
Proof.
  intros Hr H. rewrite d_Sph_LonLat. do 2 eexists. split; [reflexivity|].
  split; [reflexivity|]. split; [cbn; unfold valid_dist; cbn; lra|]. split; [reflexivity|]. split; [reflexivity|].
  cbn [cart_at vel_at]. rewrite shift_sin, shift_cos. split; [reflexivity|].
  l3; ring.
Qed.
Lemma dg_LonLat_Sph f kw r lon lat a b c : 0 <= r -> - (PI/2) <= lat <= PI/2 ->
  dgood (PLonLat lon lat (Dist r)) [a;b;c] CSph
    (represent_as Traced deg (S f) kw (dpos (PLonLat lon lat (Dist r)) [a;b;c]) CSph).
Proof.
  intros Hr H. rewrite d_LonLat_Sph. do 2 eexists. split; [reflexivity|].
  split; [reflexivity|]. split; [cbn; unfold valid_dist; cbn; lra|]. split; [reflexivity|]. split; [reflexivity|].
  cbn [cart_at vel_at]. rewrite shift_sin, shift_cos. split; [reflexivity|].
  l3; ring.
Qed.
Lemma dg_Sph_MSph f kw r th ph a b c : 0 <= r -> 0 <= th <= PI ->
  dgood (PSph (Dist r) th ph) [a;b;c] CMSph
    (represent_as Traced deg (S f) kw (dpos (PSph (Dist r) th ph) [a;b;c]) CMSph).
Proof.
  intros Hr H. rewrite d_Sph_MSph. do 2 eexists. split; [reflexivity|].
  split; [reflexivity|]. split; [cbn; unfold valid_dist; cbn; lra|]. split; [reflexivity|]. split; [reflexivity|].
  split; [reflexivity|]. cbn [vel_at]. l3; ring.
Qed.
Lemma dg_MSph_Sph f kw r th ph a b c : 0 <= r -> 0 <= ph <= PI ->
  dgood (PMSph (Dist r) th ph) [a;b;c] CSph
    (represent_as Traced deg (S f) kw (dpos (PMSph (Dist r) th ph) [a;b;c]) CSph).
Proof.
  intros Hr H. rewrite d_MSph_Sph. do 2 eexists. split; [reflexivity|].
  split; [reflexivity|]. split; [cbn; unfold valid_dist; cbn; lra|]. split; [reflexivity|]. split; [reflexivity|].
  split; [reflexivity|]. cbn [vel_at]. l3; ring.
Qed.

(** Re-dispatching conversions in the dual instance. *)
Lemma rep_redispatch_d m f kw (p : pos dual) t mid :
  match cls_of p, t with
  | CCart3, CMSph | CCart3, CLonLat | CCyl, CMSph | CCyl, CLonLat | CLonLat, CCart3 | CLonLat, CCyl => mid = CSph
  | CMSph, CLonLat | CLonLat, CMSph => mid = CCart3
  | _, _ => False
  end ->
  represent_as m deg (S f) kw p t
  = (do q <- represent_as m deg f nokw p mid; represent_as m deg f nokw q t).
Proof. destruct p; cbn [cls_of]; try contradiction; destruct t; try contradiction; intros ->; step; reflexivity. Qed.

Lemma dgood_bind p u mid t r g :
  dgood p u mid r ->
  (forall q u', cls_of q = mid -> valid q -> length_radial q -> length u' = 3%nat ->
     cart_at q = cart_at p -> dgood q u' t (g (dpos q u'))) ->
  dgood p u t (bind r g).
Proof.
  intros (q & u' & -> & H2 & H3 & H4 & H5 & H6 & H7) G. rewrite bind_ok.
  eapply dgood_trans; eauto.
Qed.

Lemma cls_dpos p u : cls_of (dpos p u) = cls_of p. Proof. destruct p; reflexivity. Qed.

(** The conversions with a direct overload (fuel 1). *)
Definition direct3 (c t : pcls) : Prop :=
  match c, t with
  | CCart3, (CCart3 | CCyl | CSph) | CCyl, (CCart3 | CCyl | CSph)
  | CSph, (CCart3 | CCyl | CSph | CMSph | CLonLat) | CMSph, (CCart3 | CCyl | CSph | CMSph)
  | CLonLat, (CSph | CLonLat) => True
  | _, _ => False
  end.
Lemma length_radial_dist (r : dist R) : dk r = KDistance -> r = Dist (dval r).
Proof. destruct r as [k v]; cbn. now intros ->. Qed.
Lemma direct_dgood f kw p u t : valid p -> length_radial p -> off_axis p -> length u = 3%nat ->
  direct3 (cls_of p) t -> dgood p u t (represent_as Traced deg (S f) kw (dpos p u) t).
Proof.
  intros V L O Hu D.
  assert (P : plain3 (cls_of p)) by (destruct p; cbn in D; try contradiction; exact I).
  pose proof (off_axis_rho p V P O) as Hrho.
  destruct (pcls_eqb (cls_of p) t) eqn:Et.
  { assert (cls_of p = t) as <- by (destruct (cls_of p), t; try discriminate; reflexivity).
    rewrite d_self by auto. exists p, u. repeat split; auto. }
  destruct u as [|a [|b [|c [|]]]]; try discriminate.
  destruct p; cbn in P; try contradiction; cbn in L, V;
    try (rewrite (length_radial_dist r L) in *); try (rewrite (length_radial_dist d L) in *);
    unfold valid_dist in V; cbn [dk dval Dist] in V;
    destruct t; cbn in D; try contradiction; try discriminate Et; clear Et D; cbn [rho_of] in Hrho;
    unfold Dist, len in Hrho; cbn [dk dval] in Hrho.
  - apply dg_Cart3_Cyl. intros E. rewrite E, sqrt_0 in Hrho. lra.
  - apply dg_Cart3_Sph. intros E. rewrite E, sqrt_0 in Hrho. lra.
  - apply dg_Cyl_Cart3.
  - apply dg_Cyl_Sph; auto.
  - apply dg_Sph_Cart3.
  - apply dg_Sph_Cyl; auto.
  - apply dg_Sph_MSph; tauto.
  - apply dg_Sph_LonLat; tauto.
  - apply dg_MSph_Cart3.
  - apply dg_MSph_Cyl; auto.
  - apply dg_MSph_Sph; tauto.
  - apply dg_LonLat_Sph; tauto.
Qed.

Lemma plain3_not_prolate c : plain3 c -> c <> CProlate. Proof. destruct c; cbn; congruence. Qed.

Lemma via_dgood f kw p u mid t :
  valid p -> length_radial p -> off_axis p -> length u = 3%nat -> plain3 (cls_of p) -> plain3 mid ->
  dgood p u mid (represent_as Traced deg f nokw (dpos p u) mid) ->
  (forall q u', cls_of q = mid -> valid q -> length_radial q -> length u' = 3%nat -> off_axis q ->
     dgood q u' t (represent_as Traced deg f nokw (dpos q u') t)) ->
  match cls_of p, t with
  | CCart3, CMSph | CCart3, CLonLat | CCyl, CMSph | CCyl, CLonLat | CLonLat, CCart3 | CLonLat, CCyl => mid = CSph
  | CMSph, CLonLat | CLonLat, CMSph => mid = CCart3
  | _, _ => False
  end ->
  dgood p u t (represent_as Traced deg (S f) kw (dpos p u) t).
Proof.
  intros V L O Hu P Pm H1 H2 M. rewrite (rep_redispatch_d _ _ _ _ _ mid) by (now rewrite cls_dpos).
  eapply dgood_bind; [exact H1|]. intros q u' Hq Vq Lq Hu' E. apply H2; auto.
  eapply off_axis_cart; [| |exact E|exact O]; apply plain3_not_prolate; auto. now rewrite Hq.
Qed.

Theorem represent_as_dual f kw p u t : valid p -> length_radial p -> off_axis p -> length u = 3%nat ->
  plain3 (cls_of p) -> plain3 t ->
  dgood p u t (represent_as Traced deg (4 + f) kw (dpos p u) t).
Proof.
  intros V L O Hu P Pt.
  assert (Two : forall f' kw' p' u' mid t', valid p' -> length_radial p' -> off_axis p' -> length u' = 3%nat ->
    direct3 (cls_of p') mid -> direct3 mid t' ->
    match cls_of p', t' with
    | CCart3, CMSph | CCart3, CLonLat | CCyl, CMSph | CCyl, CLonLat | CLonLat, CCart3 | CLonLat, CCyl => mid = CSph
    | CMSph, CLonLat | CLonLat, CMSph => mid = CCart3
    | _, _ => False
    end -> dgood p' u' t' (represent_as Traced deg (S (S f')) kw' (dpos p' u') t')).
  { intros f' kw' p' u' mid t' V' L' O' H' D1 D2 M.
    apply (via_dgood _ _ _ _ mid); auto.
    - destruct p'; cbn in D1; try contradiction; exact I.
    - destruct mid; cbn in D2; try contradiction; exact I.
    - apply direct_dgood; auto.
    - intros q w Hq Vq Lq Hw Oq. apply direct_dgood; auto. now rewrite Hq. }
  destruct (cls_of p) eqn:Ep; cbn in P; try contradiction;
  destruct t; cbn in Pt; try contradiction; cbn [Nat.add];
  try (apply direct_dgood; auto; rewrite Ep; exact I);
  try (apply (Two _ _ _ _ CSph); auto; rewrite Ep; try exact I; reflexivity).
  - (* MSph -> LonLat *)
    apply (via_dgood _ _ _ _ CCart3); auto; rewrite ?Ep; try exact I; try reflexivity.
    + apply direct_dgood; auto. rewrite Ep; exact I.
    + intros q w Hq Vq Lq Hw Oq. apply (Two _ _ _ _ CSph); auto; rewrite Hq; try exact I; reflexivity.
  - (* LonLat -> MSph *)
    apply (via_dgood _ _ _ _ CCart3); auto; rewrite ?Ep; try exact I; try reflexivity.
    + apply (Two _ _ _ _ CSph); auto; rewrite Ep; try exact I; reflexivity.
    + intros q w Hq Vq Lq Hw Oq. apply (Two _ _ _ _ CSph); auto; rewrite Hq; try exact I; reflexivity.
Qed.
End D.
