(** * C39, continued: [represent_as] and negation of a space of positions, velocities and
      accelerations. *)
From Coq Require Import List Bool ZArith Arith String Lia Reals Lra.
From Verif Require Import Shapes ShapesThm Num Vectors Transform Space SpaceThm PropSpace Spec Pos3DThm PosGlue RoundTrip Vel SpecVel VelAt VelThm VelRound PropVel PropPos Arith ArithThm2 PropArith.
Import ListNotations.
Open Scope R_scope.

Lemma sval_quiet : quiet sval_shape.
Proof. intros v w s H. now injection H. Qed.
Lemma dstr : String.eqb "length" "speed" = false. Proof. reflexivity. Qed.

Section Rep.
Context (L : dimlib) (HL : dimlib_ok L) (m : mode) (deg : bool) (fuel : nat).
Notation get := (space_get L).

(** The represented space has the same keys in the same order; each position is
    converted to the target class, each velocity to its velocity class at the
    position stored under "length", each acceleration to its acceleration class with
    the velocity under "speed" and the position under "length" - all of the original
    space. *)
Theorem C39_represent_as : forall s t w s', built L sval_shape s ->
  space_represent_as L m deg fuel s t = Ok w s' ->
  Forall2 (fun '(n, v) '(n', v') => n' = n /\
    match v with
    | SP p => exists w q, represent_as m deg fuel nokw p t = Ok w q /\ v' = SP q
    | SV u => exists p w u', get s (KStr "length") = ret (SP p) /\
                vel_represent_as m deg fuel nokw u (differential_cls t) p = Ok w u' /\ v' = SV u'
    | SA a => exists p u w a', get s (KStr "length") = ret (SP p) /\ get s (KStr "speed") = ret (SV u) /\
                acc_represent_as m deg fuel nokw a (vel_differential_cls (differential_cls t)) u p = Ok w a' /\ v' = SA a'
    end) s s'.
Proof.
  intros s t w s' Hb H.
  apply (C39_entrywise L HL sval_shape sval_quiet (fun v => temp_represent_as L m deg fuel v t s) s w s' Hb) in H.
  assert (G : forall s0 : space sval, Forall2 (fun '(n, v) '(n', v') => n' = n /\ exists w', temp_represent_as L m deg fuel v t s = Ok w' v') s0 s' ->
    Forall2 (fun '(n, v) '(n', v') => n' = n /\
    match v with
    | SP p => exists w q, represent_as m deg fuel nokw p t = Ok w q /\ v' = SP q
    | SV u => exists p w u', get s (KStr "length") = ret (SP p) /\
                vel_represent_as m deg fuel nokw u (differential_cls t) p = Ok w u' /\ v' = SV u'
    | SA a => exists p u w a', get s (KStr "length") = ret (SP p) /\ get s (KStr "speed") = ret (SV u) /\
                acc_represent_as m deg fuel nokw a (vel_differential_cls (differential_cls t)) u p = Ok w a' /\ v' = SA a'
    end) s0 s'); [|now apply G].
  assert (gret : forall k w0 x, get s k = Ok w0 x -> get s k = ret x).
  { intros k w0 x. unfold space_get. destruct (dget _ _ _); unfold ret; intros E; [now injection E as _ ->|discriminate]. }
  clear H. intros s0 H. induction H as [|(n, v) (n', v') s0 s1 [-> (w' & H0)] H IH]; constructor; auto. split; auto. clear IH H.
  destruct v as [p|u|a]; cbn [temp_represent_as] in H0.
  - apply bind_Ok in H0 as (w1 & q & w2 & A & B & _). injection B as _ <-. eauto.
  - apply bind_Ok in H0 as (w1 & l & w2 & A & B & _). destruct l as [p| |]; try discriminate.
    apply bind_Ok in B as (w3 & u' & w4 & B & C & _). injection C as _ <-. apply gret in A. exists p, w3, u'. auto.
  - apply bind_Ok in H0 as (w1 & sp & w2 & A & B & _). apply bind_Ok in B as (w3 & l & w4 & B & C & _).
    destruct sp as [|u|]; try discriminate. destruct l as [p| |]; try discriminate.
    apply bind_Ok in C as (w5 & a' & w6 & C & E & _). injection E as _ <-. apply gret in A. apply gret in B.
    exists p, u, w5, a'. auto.
Qed.

(** A velocity without a position raises. *)
Theorem C39_velocity_needs_length : forall n u t, space_represent_as L m deg fuel [(n, SV u)] t = 
  (if String.eqb n "length" then Raise ENotFound else Raise EKey).
Proof.
  intros n u t. unfold space_represent_as, map_items. cbn [mapM temp_represent_as]. unfold space_get. cbn [dget].
  destruct (String.eqb n "length"); reflexivity.
Qed.
End Rep.

(** ** Physical content: a point and a velocity *)
Section Phys.
Context (L : dimlib) (HL : dimlib_ok L).
Context (dl ds : D L) (Hl : dim_name L dl = "length"%string) (Hs : dim_name L ds = "speed"%string).
Definition phase (P : pos R) (v : vel R) : space sval := [("length"%string, SP (finite P)); ("speed"%string, SV (vfinite v))].
Lemma phase_mk p v : mk_space L sval_shape [(KStr "length"%string, p); (KStr "speed"%string, v)] = ret [("length"%string, p); ("speed"%string, v)].
Proof.
  change [(@KStr L "length"%string, p); (KStr "speed"%string, v)] with (map (fun '(k, v) => (@KStr L k, v)) [("length"%string, p); ("speed"%string, v)]).
  apply (rebuild L HL sval_shape _ [[]; []]).
  - cbn. constructor; [intros [E|[]]; discriminate|]. constructor; [intros []|constructor].
  - cbn. intros n [<-|[<-|[]]]; unfold named; cbn.
    + rewrite <- Hl, (proj2 HL). reflexivity.
    + rewrite <- Hs, (proj2 HL). reflexivity.
  - cbn. auto.
  - reflexivity.
Qed.
Lemma phase_rep m deg f P v t q u : 
  represent_as m deg f nokw (finite P) t = Ok false (finite q) ->
  vel_represent_as m deg f nokw (vfinite v) (differential_cls t) (finite P) = Ok false (vfinite u) ->
  space_represent_as L m deg f (phase P v) t = ret (phase q u).
Proof.
  intros E1 E2. unfold space_represent_as, map_items, phase. cbn [mapM temp_represent_as].
  rewrite E1. unfold space_get. cbn [dget]. rewrite String.eqb_refl. rewrite !bret. rewrite E2.
  exact (eq_trans (bret _ _) (phase_mk _ _)).
Qed.
Lemma integral_differential t : plain3 t -> integral_cls (differential_cls t) = t.
Proof. destruct t; cbn; tauto. Qed.

Theorem C39_represent_as_keeps_meaning : forall m deg f P v t pt,
  valid P -> plain3 (cls_of P) -> plain3 t -> ~ negative_field P -> off_axis P -> denotes P pt ->
  integral_cls (vc v) = cls_of P -> List.length (vcomps v) = 3%nat ->
  exists Q u, space_represent_as L m deg (4 + f) (phase P v) t = ret (phase Q u) /\
    cls_of Q = t /\ vc u = differential_cls t /\ denotes Q pt /\ (forall w, vel_means P v w <-> vel_means Q u w).
Proof.
  intros m deg f P v t pt VP PP Pt NN O D Cv Lv.
  destruct (proj2 (rep_ok_plain3 m deg f P VP PP NN O) nokw t Pt) as (Q & E1 & CQ & VQ & DQ).
  assert (Pv : vplain3 (vc v)) by (unfold vplain3; now rewrite Cv).
  assert (Pw : vplain3 (differential_cls t)) by (unfold vplain3; now rewrite integral_differential).
  destruct (C19_velocity_keeps_meaning_3d m deg f nokw P v (differential_cls t) pt VP PP NN O D Pv Pw Lv) as (u & E2 & Cu & Mu).
  exists Q, u. split; [now apply phase_rep|]. split; auto. split; auto. split; [now apply DQ|].
  intros w. apply Mu; auto. now apply DQ. now rewrite integral_differential.
Qed.

(** Converting a space to another class and back restores it. *)
Theorem C39_round_trip : forall m deg f P v t pt,
  valid P -> plain3 (cls_of P) -> plain3 t -> length_radial P -> azimuth_in_range P -> off_axis P -> denotes P pt ->
  vc v = differential_cls (cls_of P) -> List.length (vcomps v) = 3%nat ->
  exists s, space_represent_as L m deg (4 + f) (phase P v) t = ret s /\
    space_represent_as L m deg (4 + f) s (cls_of P) = ret (phase P v).
Proof.
  intros m deg f P v t pt VP PP Pt LR AZ O D Cv Lv.
  assert (NO : ~ at_origin P) by (intros H; specialize (O 0 0 0 H); lra).
  destruct (C04_round_trip m deg f nokw nokw P t VP PP Pt LR NO) as (Q & P' & E1 & E2 & _ & _ & E3).
  specialize (E3 AZ O). subst P'.
  destruct (C01_represent_as_3d_total m deg f nokw P t VP PP Pt LR NO) as (Q' & F1 & CQ & VQ & DQ & _ & LQ).
  assert (Q' = Q) as ->. { rewrite E1 in F1. injection F1 as F1. symmetry. now apply finite_inj. }
  assert (NN : forall p, valid p -> length_radial p -> ~ negative_field p).
  { intros p Vp Lp. destruct p; cbn in *; auto; unfold valid_dist in Vp; try rewrite Lp in Vp; lra. }
  assert (OQ : off_axis Q) by (eapply off_axis_pt; eauto).
  assert (Pv : vplain3 (vc v)) by (unfold vplain3; rewrite Cv, integral_differential; auto).
  assert (Pw : vplain3 (differential_cls t)) by (unfold vplain3; now rewrite integral_differential).
  assert (RP := rep_ok_plain3 m deg f P VP PP (NN P VP LR) O).
  assert (RQ := rep_ok_plain3 m deg f Q VQ (eq_rect_r plain3 Pt CQ) (NN Q VQ LQ) OQ).
  assert (DQ' : denotes Q pt) by now apply DQ.
  destruct (vel_plain3 m deg f nokw P v (differential_cls t) pt RP D Pv Pw Lv) as (u & A1 & A2 & A3 & A4).
  assert (Pu : vplain3 (vc u)) by now rewrite A2.
  destruct (vel_plain3 m deg f nokw Q u (vc v) pt RQ DQ' Pu Pv A3) as (v2 & B1 & B2 & B3 & B4).
  assert (IP : cls_of P = integral_cls (vc v)) by (rewrite Cv, integral_differential; auto).
  assert (IQ : cls_of Q = integral_cls (differential_cls t)) by (rewrite integral_differential; auto).
  assert (IQ' : cls_of Q = integral_cls (vc u)) by now rewrite A2.
  specialize (A4 P Q VP VQ D DQ' IP IQ). specialize (B4 Q P VQ VP DQ' D IQ' IP).
  assert (v2 = v) as ->.
  { symmetry. apply (uncos_inj P); auto. apply (vel_at_inj P); auto using uncos_length. congruence. }
  exists (phase Q u). split; [now apply phase_rep|]. apply phase_rep; auto. rewrite <- Cv. exact B1.
Qed.
End Phys.

(** The constructor accepts such a space, in either order of keywords. *)
Example C39_case_phase : let P := PSph (mkDist KDistance 2) 1 1 in let v := mkVel WSph [1; 2; 3] in
  mk_space astropy sval_shape [(KStr "length"%string, SP (finite P)); (KStr "velocity"%string, SV (vfinite v))] = ret (phase P v) /\
  valid P /\ plain3 (cls_of P) /\ length_radial P /\ azimuth_in_range P /\ off_axis P /\
  vc v = differential_cls (cls_of P) /\ List.length (vcomps v) = 3%nat.
Proof.
  split; [reflexivity|]. cbn. unfold valid_dist; cbn. pose proof PI2_3_2. pose proof PI_4.
  repeat split; try lra; auto.
  intros x y z H2. injection H2 as Hx Hy Hz. cbn in *.
    assert (S1 : 0 < sin 1) by (apply sin_gt_0; lra).
    pose proof (sin2_cos2 1) as C2. unfold Rsqr in C2. subst x y. unfold len; cbn.
    intros E0. assert (4 * (sin 1 * sin 1) = 0); [|nra].
    rewrite <- E0. transitivity (4 * (sin 1 * sin 1) * (sin 1 * sin 1 + cos 1 * cos 1)); [rewrite C2; ring|ring].
Qed.

(** ** Negation: entry by entry *)
Theorem C39_neg : forall L, dimlib_ok L -> forall m deg f s w s', built L sval_shape s ->
  space_neg L m deg f s = Ok w s' ->
  Forall2 (fun '(n, v) '(n', v') => n' = n /\
    match v with
    | SP p => exists w q, pos_neg m deg f p = Ok w q /\ v' = SP q
    | SV u => v' = SV (mkVel (vc u) (map (fun x => - x)%num (vcomps u)))
    | SA a => v' = SA (mkAcc (xc a) (map (fun x => - x)%num (xcomps a)))
    end) s s'.
Proof.
  intros L HL m deg f s w s' Hb H. apply (C39_entrywise L HL sval_shape sval_quiet (sval_neg m deg f) s w s' Hb) in H.
  clear Hb. induction H as [|(n, v) (n', v') s s1 [-> (w' & H0)] H IH]; constructor; auto. split; auto.
  destruct v as [p|u|a]; cbn [sval_neg] in H0.
  - apply bind_Ok in H0 as (w1 & q & w2 & A & B & _). injection B as _ <-. eauto.
  - injection H0 as _ <-. reflexivity.
  - injection H0 as _ <-. reflexivity.
Qed.
(** Refuted: negating a non-Cartesian space is not the physical negation.  A particle
    at polar coordinates (r, phi) moving outwards at unit speed: the position goes to
    the antipode, the component [d_r] changes sign, so the negated space describes a
    particle with the same velocity vector as before, not the opposite one. *)
Theorem C39_neg_polar_refuted : forall L, dimlib_ok L -> forall dl ds : D L,
  dim_name L dl = "length"%string -> dim_name L ds = "speed"%string -> forall m deg f r phi, 0 < r ->
  let P := PPolar (mkDist KDistance r) phi in let v := mkVel WPolar [1; 0] in
  exists Q v', space_neg L m deg (4 + f) (phase P v) = ret (phase Q v') /\
    denotes Q [- (r * cos phi); - (r * sin phi)] /\
    vel_means P v [cos phi; sin phi] /\ vel_means Q v' [cos phi; sin phi].
Proof.
  intros L HL dl ds Hl Hs m deg f r phi Hr P v.
  assert (VP : valid P) by (cbn; unfold valid_dist; cbn; lra).
  destruct (C13_neg m deg f P [r * cos phi; r * sin phi]) as (Q & E & CQ & VQ & DQ & LQ); auto.
  { cbn. lra. } { cbn. reflexivity. } { cbn. split; auto. }
  exists Q, (mkVel WPolar [- 1; - 0]). split; [|split; [|split]].
  - unfold space_neg, space_map, map_items, phase. cbn [mapM sval_neg]. rewrite E. change (Ok false (finite Q)) with (ret (finite Q)). rewrite !bret.
    change (vel_neg (vfinite v)) with (vfinite (mkVel WPolar [- 1; - 0])).
    apply (phase_mk L HL dl ds Hl Hs).
  - cbn [vscale map] in DQ. replace (- (r * cos phi)) with (-1 * (r * cos phi)) by ring.
    replace (- (r * sin phi)) with (-1 * (r * sin phi)) by ring. exact DQ.
  - split; [reflexivity|]. split; [reflexivity|]. cbn. apply moves_iff; cbn; try discriminate; auto. f_equal; [ring|f_equal; ring].
  - destruct Q as [| | |r' a| | | | | | |]; try discriminate CQ. split; [reflexivity|]. split; [reflexivity|]. cbn.
    apply moves_iff; cbn; try discriminate; auto.
    cbn in DQ, VQ, LQ. unfold valid_dist in VQ. destruct r' as [k x]; cbn in *. subst k. unfold len in *; cbn in *.
    injection DQ as D1 D2.
    assert (Ex : x = r).
    { assert (x * x = r * r).
      { pose proof (sin2_cos2 a) as T1. pose proof (sin2_cos2 phi) as T2. unfold Rsqr in *.
        transitivity ((x * cos a) * (x * cos a) + (x * sin a) * (x * sin a)); [|rewrite <- D1, <- D2].
        - transitivity (x * x * (sin a * sin a + cos a * cos a)); [rewrite T1; ring|ring].
        - transitivity (r * r * (sin phi * sin phi + cos phi * cos phi)); [ring|rewrite T2; ring]. }
      nra. }
    subst x. f_equal; [|f_equal].
    + apply (Rmult_eq_reg_l r); [|lra]. transitivity (- (r * cos a)); [rewrite <- D1; ring|ring].
    + apply (Rmult_eq_reg_l r); [|lra]. transitivity (- (r * sin a)); [rewrite <- D2; ring|ring].
Qed.
Print Assumptions C39_represent_as.
Print Assumptions C39_represent_as_keeps_meaning.
Print Assumptions C39_round_trip.
Print Assumptions C39_neg.
Print Assumptions C39_neg_polar_refuted.
