(** * Lemmas assembled for the property files on positions. *)
From Coq Require Import Reals Bool List ZArith Lra Lia.
From Verif Require Import Num Vectors Spec Transform Pos3D Pos3DThm FromThm PosLow Prolate Dispatch Range RoundTrip Embed ProlateThm.
Import ListNotations.
Open Scope R_scope.

Lemma Some_inj {T} (a b : T) : Some a = Some b -> a = b. Proof. congruence. Qed.
Lemma dist_map_inj (d d' : dist R) : @dist_map R ext (@Some R) d = dist_map (@Some R) d' -> d = d'.
Proof. destruct d, d'; cbn. intros H. inversion H. reflexivity. Qed.
Lemma finite_inj p q : finite p = finite q -> p = q.
Proof.
  destruct p, q; cbn; intros H; try discriminate H; injection H; intros; subst;
  repeat match goal with r : dist R |- _ => destruct r end; cbn in *; subst; try reflexivity.
Qed.

Lemma C01_finite m deg f kw p t w q :
  valid p -> plain3 (cls_of p) -> plain3 t ->
  represent_as m deg (4 + f) kw (finite p) t = Ok w (finite q) ->
  w = false /\ cls_of q = t /\ valid q /\ (forall pt, denotes p pt <-> denotes q pt).
Proof.
  intros V P T H. destruct (represent_as_plain3 m deg f kw p t V P T) as [(q'&H1&H2&H3&H4&H5&H6)|[(E&_)|(O&q'&H1&H2&H3)]].
  - rewrite H in H1. injection H1 as -> E. apply finite_inj in E. subst. auto.
  - congruence.
  - rewrite H in H1. injection H1 as -> E. subst q'. exfalso. eapply H2. reflexivity.
Qed.

Lemma rep_1d m deg f kw x :
  (0 <= x -> represent_as m deg (S f) kw (finite (PCart1 x)) CRadial = Ok false (finite (PRadial (mkDist KDistance x)))) /\
  (x < 0 -> represent_as Eager deg (S f) kw (finite (PCart1 x)) CRadial = Raise ENegative).
Proof.
  split; intros H; rewrite rep_Cart1_Radial.
  - now rewrite nonneg_ok.
  - now rewrite nonneg_neg.
Qed.

(** constructors *)
Lemma check_nonneg_iff (x : ext) :
  (num_or_nan (fun v => 0 <= v) x /\ check_nonneg Eager x = Ok false tt) \/
  (~ num_or_nan (fun v => 0 <= v) x /\ exists e, check_nonneg Eager x = Raise e).
Proof.
  destruct x as [a|]; cbn; auto. destruct (Rltb a 0) eqn:E.
  - right. apply Rltb_true in E. split; [lra|eauto].
  - left. apply Rltb_false in E. auto.
Qed.
Lemma check_polar_iff l u (x : ext) :
  (num_or_nan (fun v => l <= v <= u) x /\ check_polar Eager (Some l : ext) (Some u) x = Ok false tt) \/
  (~ num_or_nan (fun v => l <= v <= u) x /\ exists e, check_polar Eager (Some l : ext) (Some u) x = Raise e).
Proof.
  destruct x as [a|]; cbn; auto. destruct (Rltb a l) eqn:E; [|destruct (Rltb u a) eqn:E2]; cbn.
  - right. apply Rltb_true in E. split; [lra|eauto].
  - right. apply Rltb_true in E2. split; [lra|eauto].
  - left. apply Rltb_false in E, E2. auto.
Qed.
Lemma check_prolate_iff (mu nu D : ext) :
  (in_range (PProlate mu nu None D) /\ check_prolate Eager mu nu D = Ok false tt) \/
  (~ in_range (PProlate mu nu None D) /\ exists e, check_prolate Eager mu nu D = Raise e).
Proof.
  destruct (check_prolate Eager mu nu D) as [w []|e] eqn:E.
  - left. pose proof (prolate_inv _ _ _ _ _ E). pose proof (check_prolate_w _ _ _ _ _ _ E). subst. auto.
  - right. split; eauto. cbn. destruct D as [D|]; cbn in E; [|destruct mu, nu; discriminate E].
    destruct (Rleb D 0) eqn:E0; [apply Rleb_true in E0; cbn; lra|].
    destruct mu as [a|]; cbn in E.
    + destruct (Rltb a (D*D)) eqn:E1; [apply Rltb_true in E1; cbn; lra|].
      destruct nu as [b|]; cbn in E; [|discriminate E].
      destruct (Rltb (D*D) (Rabs b)) eqn:E2; [|discriminate E]. apply Rltb_true in E2; cbn; lra.
    + destruct nu as [b|]; cbn in E; [|discriminate E].
      destruct (Rltb (D*D) (Rabs b)) eqn:E2; [|discriminate E]. apply Rltb_true in E2; cbn; lra.
Qed.

Lemma mpi2 : (- (nang (PI/2)) : ext)%num = Some (-(PI/2)). Proof. reflexivity. Qed.

Lemma build_iff b p :
  (in_range p /\ exists q, build Eager b p = Ok false q /\ in_range q /\ cls_of q = cls_of p) \/
  (~ in_range p /\ exists e, build Eager b p = Raise e).
Proof.
  destruct p; cbn [build in_range]; unfold mk_Cart1, mk_Cart2, mk_Cart3, mk_Radial, mk_Polar, mk_TwoSphere, mk_Cyl, mk_Sph, mk_MSph, mk_LonLat, mk_Prolate;
    cbn [conv_r]; cbn [ncst nang Num_ext nneg lift1].
  - left. split; auto. eexists. split; [reflexivity|]. cbn; auto.
  - destruct (check_nonneg_iff (dval r)) as [(A & ->)|(A & e & ->)]; [left|right; split; [auto|cbn; eauto]].
    split; auto. eexists; split; [reflexivity|]; cbn; auto.
  - left. split; auto. eexists. split; [reflexivity|]. cbn; auto.
  - destruct (check_nonneg_iff (dval r)) as [(A & ->)|(A & e & ->)]; [left|right; split; [auto|cbn; eauto]].
    split; auto. eexists; split; [reflexivity|]; cbn; auto.
  - destruct (check_polar_iff 0 PI theta) as [(A & ->)|(A & e & ->)]; [left|right; split; [auto|cbn; eauto]].
    split; auto. eexists; split; [reflexivity|]; cbn; auto.
  - left. split; auto. eexists. split; [reflexivity|]. cbn; auto.
  - destruct (check_nonneg_iff rho) as [(A & ->)|(A & e & ->)]; [left|right; split; [auto|cbn; eauto]].
    split; auto. eexists; split; [reflexivity|]; cbn; auto.
  - destruct (check_nonneg_iff (dval r)) as [(A & ->)|(A & e & ->)]; [|right; split; [tauto|cbn; eauto]].
    destruct (check_polar_iff 0 PI theta) as [(B & ->)|(B & e & ->)]; [|right; split; [tauto|cbn; eauto]].
    left. split; auto. eexists; split; [reflexivity|]. cbn; auto.
  - destruct (check_nonneg_iff (dval r)) as [(A & ->)|(A & e & ->)]; [|right; split; [tauto|cbn; eauto]].
    destruct (check_polar_iff 0 PI phi) as [(B & ->)|(B & e & ->)]; [|right; split; [tauto|cbn; eauto]].
    left. split; auto. eexists; split; [reflexivity|]. cbn; auto.
  - destruct (check_polar_iff (-(PI/2)) (PI/2) lat) as [(B & ->)|(B & e & ->)]; [|right; split; [tauto|cbn; eauto]].
    destruct (check_nonneg_iff (dval d)) as [(A & ->)|(A & e & ->)]; [|right; split; [tauto|cbn; eauto]].
    left. split; auto. eexists; split; [reflexivity|]. cbn; auto.
  - destruct (check_prolate_iff mu nu Delta) as [(A & ->)|(A & e & ->)]; [left|right; split; [exact A|cbn; eauto]].
    split; [exact A|]. eexists; split; [reflexivity|]. split; [exact A|reflexivity].
Qed.

(** azimuth wrapping *)
Definition with_azimuth (p : pos R) (a : R) : pos R :=
  match p with
  | PPolar r _ => PPolar r a
  | PTwoSphere t _ => PTwoSphere t a
  | PCyl r _ z => PCyl r a z
  | PSph r t _ => PSph r t a
  | PProlate m n _ D => PProlate m n a D
  | PMSph r _ p => PMSph r a p
  | PLonLat _ b d => PLonLat a b d
  | _ => p
  end.
Lemma build_in_range m b p : in_range (finite p) ->
  build m b (finite p) = Ok false (finite (match azimuth p with
     | Some a => with_azimuth p (if b then Rwrap a else a) | None => p end)).
Proof.
  intros H. destruct m.
  - destruct (build_iff b (finite p)) as [(_ & q & E & _)|(N & _)]; [|contradiction].
    rewrite E. revert E. destruct p; cbn [build finite pos_map azimuth with_azimuth];
    unfold mk_Cart1, mk_Cart2, mk_Cart3, mk_Radial, mk_Polar, mk_TwoSphere, mk_Cyl, mk_Sph, mk_MSph, mk_LonLat, mk_Prolate;
    cbn [conv_r]; intros E;
    repeat match goal with
    | H : bind _ _ = Ok _ _ |- _ =>
      let w1 := fresh "w" in let w2 := fresh "w" in let v := fresh "v" in let E := fresh "E" in let F := fresh "F" in
      apply bind_inv in H; destruct H as (w1 & v & w2 & E & F & ?)
    end;
    repeat match goal with H : ret _ = _ |- _ => unfold ret in H; inversion H; subst; clear H end;
    destruct b; reflexivity.
  - destruct p, b; reflexivity.
Qed.

(** from_ for lon-lat *)
Lemma from_LonLat_spec deg (v : R) lat (lon : ang R) :
  let ok := - (5 * PI / 2) <= (if Rltb v 0 then - lat else lat) <= 3 * PI / 2 in
  (ok -> forall m, exists q, from_LonLat m deg (fang lon) (Some lat : ext) (RQty KDistance (Some v)) = Ok false (finite q) /\
     cls_of q = CLonLat /\ valid q /\
     denotes q [v * cos lat * cos (angR lon); v * cos lat * sin (angR lon); v * sin lat]) /\
  (~ ok -> from_LonLat Eager deg (fang lon) (Some lat : ext) (RQty KDistance (Some v)) = Raise EPolarRange).
Proof.
  intros ok.
  assert (F : forall m, from_LonLat m deg (fang lon) (Some lat : ext) (RQty KDistance (Some v))
     = from_LonLat m deg (fang lon) (Some lat : ext) (RKeep (@dist_map R ext (@Some R) (mkDist KDistance v)))) by reflexivity.
  pose proof (fun m => from_LonLat_eq m deg (mkDist KDistance v) lat lon) as E.
  pose proof (fold_lat_spec v (azR lon) lat) as S. cbn [dval dk] in E.
  destruct (fold_lat v (azR lon) lat) as [[r' lo'] la']. destruct S as (S1 & S2 & S3 & S4 & S5).
  split.
  - intros O m. rewrite F, E. apply S5 in O. rewrite polar_ok by auto. eexists. split; [reflexivity|]. split; [reflexivity|].
    split. { cbn. split; auto. unfold valid_dist; cbn. rewrite S1. apply Rabs_pos. }
    cbn. unfold len; cbn. rewrite cos_redec, sin_redec, S2, S3, S4, cos_azR, sin_azR. reflexivity.
  - intros O. rewrite F, E. assert (O2 : ~ (- (PI/2) <= la' <= PI/2)) by (unfold ok in O; tauto). rewrite polar_out; [reflexivity|]. lra.
Qed.
