(** * Properties C34 and C35: distances. *)
From Coq Require Import Reals Bool List Lra Lia.
From Verif Require Import Num Vectors Pos3D Pos3DThm Distances.
Import ListNotations.
Open Scope R_scope.

(** ** Lemmas about the arc tangent *)
Lemma at2_pos d : 0 < d -> Ratan2 AU d = atan (AU / d).
Proof. intros H. unfold Ratan2. replace (Rltb 0 d) with true; auto. symmetry. now apply Rltb_true. Qed.
Lemma at2_neg d : d < 0 -> Ratan2 AU d = atan (AU / d) + PI.
Proof.
  intros H. pose proof AU_pos. unfold Ratan2. replace (Rltb 0 d) with false by (symmetry; apply Rltb_false; lra).
  replace (Rltb d 0) with true by (symmetry; now apply Rltb_true). replace (Rleb 0 AU) with true; auto. symmetry. apply Rleb_true. lra.
Qed.
Lemma at2_zero : Ratan2 AU 0 = PI / 2.
Proof.
  pose proof AU_pos. unfold Ratan2. replace (Rltb 0 0) with false by (symmetry; apply Rltb_false; lra).
  replace (Rltb 0 AU) with true; auto. symmetry. now apply Rltb_true.
Qed.
Lemma AUd_pos d : 0 < d -> 0 < AU / d. Proof. intros. pose proof AU_pos. apply Rdiv_lt_0_compat; lra. Qed.
Lemma AUd_neg d : d < 0 -> AU / d < 0.
Proof. intros. pose proof AU_pos. unfold Rdiv. pose proof (Rinv_lt_0_compat d H). nra. Qed.
Lemma atan_sign x : (0 < x -> 0 < atan x) /\ (x < 0 -> atan x < 0).
Proof. split; intros H; apply atan_increasing in H; rewrite atan_0 in H; auto. Qed.
Lemma at2_range d : (0 < d -> 0 < Ratan2 AU d < PI / 2) /\ (d < 0 -> PI / 2 < Ratan2 AU d < PI).
Proof.
  split; intros H.
  - rewrite at2_pos by auto. pose proof (atan_bound (AU / d)). pose proof (proj1 (atan_sign (AU / d)) (AUd_pos d H)). lra.
  - rewrite at2_neg by auto. pose proof (atan_bound (AU / d)). pose proof (proj2 (atan_sign (AU / d)) (AUd_neg d H)). lra.
Qed.
Lemma at2_gt d : 0 < Ratan2 AU d.
Proof. pose proof PI_RGT_0. destruct (Rtotal_order d 0) as [H'|[-> |H']]; [apply at2_range in H'; lra|rewrite at2_zero; lra|apply at2_range in H'; lra]. Qed.
Lemma cos_atan_pos x : 0 < cos (atan x). Proof. pose proof (atan_bound x). apply cos_gt_0; lra. Qed.
Lemma tan_at2 d : d <> 0 -> cos (Ratan2 AU d) <> 0 /\ tan (Ratan2 AU d) = AU / d.
Proof.
  intros H. destruct (Rtotal_order d 0) as [N|[N|N]]; [|contradiction|].
  - rewrite at2_neg by auto. pose proof (cos_atan_pos (AU / d)). rewrite neg_cos. split; [lra|]. unfold tan. rewrite neg_sin, neg_cos.
    rewrite <- (tan_atan (AU / d)) at 3. unfold tan. field. lra.
  - rewrite at2_pos by auto. pose proof (cos_atan_pos (AU / d)). split; [lra|]. apply tan_atan.
Qed.
Lemma atan_tan' p : - (PI / 2) < p < PI / 2 -> atan (tan p) = p. Proof. apply atan_tan. Qed.
Lemma sin_cos_tan p : sin p <> 0 -> cos p <> 0 -> tan p <> 0.
Proof. intros S C. unfold tan, Rdiv. intros H. apply Rmult_integral in H. destruct H as [H|H]; auto. apply Rinv_neq_0_compat in C. auto. Qed.
Lemma tan_shift p : cos p <> 0 -> tan (p - PI) = tan p.
Proof.
  intros C. replace p with (p - PI + PI) at 2 by ring. unfold tan. rewrite neg_sin, neg_cos. field. intros K. apply C. replace p with (p - PI + PI) by ring. rewrite neg_cos, K. ring.
Qed.
Lemma at2_tan p : 0 < p < PI -> p <> PI / 2 -> cos p <> 0 /\ tan p <> 0 /\ Ratan2 AU (AU / tan p) = p.
Proof.
  intros [A B] N. pose proof AU_pos as AP.
  assert (Cp : cos p <> 0). { destruct (Rtotal_order p (PI / 2)) as [H|[H|H]]; [|contradiction|]. apply Rgt_not_eq, cos_gt_0; lra. apply Rlt_not_eq, cos_lt_0; lra. }
  assert (Sp : sin p <> 0) by (apply Rgt_not_eq, sin_gt_0; lra). pose proof (sin_cos_tan p Sp Cp) as T. split; auto. split; auto.
  destruct (Rtotal_order p (PI / 2)) as [H|[H|H]]; [|contradiction|].
  - assert (0 < tan p) by (apply tan_gt_0; lra). rewrite at2_pos by (apply AUd_pos; auto). replace (AU / (AU / tan p)) with (tan p) by (field; lra). apply atan_tan'. lra.
  - assert (tan p < 0). { rewrite <- tan_shift by auto. apply tan_lt_0; lra. } rewrite at2_neg by (apply AUd_neg; auto).
    replace (AU / (AU / tan p)) with (tan p) by (field; lra). rewrite <- tan_shift by auto. rewrite atan_tan' by lra. ring.
Qed.
Lemma fin_tan p : cos p <> 0 -> tan p <> 0 -> ndiv (ncst AU : ext) (ntan (Some p)) = Some (AU / tan p).
Proof. intros C T. cbn [ntan Num_ext]. rewrite etan_some by auto. cbn. destruct (Reqb (tan p) 0) eqn:E; auto. apply Reqb_true in E. contradiction. Qed.
Lemma mk_Parallax_ok m p : 0 <= p -> mk_Parallax m true KParallax (Some p) = Ok false (mkDist KParallax (Some p)).
Proof. intros H. unfold mk_Parallax. destruct m; auto. cbn. replace (Rltb p 0) with false; auto. symmetry. apply Rltb_false. lra. Qed.
Lemma ln10 : 0 < ln 10. Proof. rewrite <- ln_1. apply ln_increasing; lra. Qed.
Lemma elog10_ok x : 0 < x -> elog10 (Some x) = Some (ln x / ln 10).
Proof. intros H. unfold elog10. replace (Rltb 0 x) with true; auto. symmetry. now apply Rltb_true. Qed.
Lemma div10 d : ndiv (Some d : ext) (nmul (ncst 10) (ncst PC)) = Some (d / (10 * PC)).
Proof. pose proof PC_pos. cbn. destruct (Reqb (10 * PC) 0) eqn:E; auto. apply Reqb_true in E. lra. Qed.
Lemma div5 v : ndiv (Some v : ext) (ncst 5) = Some (v / 5).
Proof. cbn. destruct (Reqb 5 0) eqn:E; auto. apply Reqb_true in E. lra. Qed.

Notation D x := (mkDist KDistance (Some (x : R) : ext)).
Notation P x := (mkDist KParallax (Some (x : R) : ext)).
Notation M x := (mkDist KDistMod (Some (x : R) : ext)).

(** ** C34: what each conversion computes *)
(** Parallax of a length [d]: the angle with tangent 1 AU / d. *)
Theorem C34_parallax_of_distance : forall m d, 0 < d ->
  exists p, to_parallax m (D d) = Ok false (P p) /\ 0 < p < PI / 2 /\ d * tan p = AU.
Proof.
  intros m d H. exists (Ratan2 AU d). cbn [to_parallax dk dval]. pose proof (proj1 (at2_range d) H). destruct (tan_at2 d) as [C T]; [lra|].
  split; [apply (mk_Parallax_ok m (Ratan2 AU d)); lra|]. split; auto. rewrite T. field. lra.
Qed.
Print Assumptions C34_parallax_of_distance.
Theorem C34_distance_of_parallax : forall p, 0 < p < PI / 2 ->
  exists d, to_distance (P p) = Ok false (D d) /\ 0 < d /\ d * tan p = AU.
Proof.
  intros p H. pose proof AU_pos. destruct (at2_tan p) as (C & T & _); try lra. exists (AU / tan p). unfold to_distance. cbn [dk dval]. rewrite fin_tan by auto.
  split; auto. assert (0 < tan p) by (apply tan_gt_0; lra). split; [apply Rdiv_lt_0_compat; lra|]. field. lra.
Qed.
Print Assumptions C34_distance_of_parallax.
(** Modulus: 5 log10 (d / 10 pc). *)
Theorem C34_modulus_of_distance : forall d, 0 < d -> exists mu, to_distmod (D d) = Ok false (M mu) /\ Rpower 10 (mu / 5) = d / (10 * PC).
Proof.
  intros d H. pose proof PC_pos. pose proof ln10. exists (5 * (ln (d / (10 * PC)) / ln 10)). unfold to_distmod. cbn [dk dval]. rewrite div10, elog10_ok by (apply Rdiv_lt_0_compat; lra). split; auto.
  unfold Rpower. replace (5 * (ln (d / (10 * PC)) / ln 10) / 5 * ln 10) with (ln (d / (10 * PC))) by (field; lra). apply exp_ln. apply Rdiv_lt_0_compat; lra.
Qed.
Print Assumptions C34_modulus_of_distance.
Lemma exp10_1 v : Rpower 10 (v / 5 + 1) = 10 * Rpower 10 (v / 5).
Proof. rewrite Rpower_plus, Rpower_1 by lra. ring. Qed.
Theorem C34_distance_of_modulus : forall mu, exists d, to_distance (M mu) = Ok false (D d) /\ 0 < d /\ d / (10 * PC) = Rpower 10 (mu / 5).
Proof.
  intros mu. pose proof PC_pos. exists (Rpower 10 (mu / 5 + 1) * PC). unfold to_distance. cbn [dk dval]. rewrite div5. split; [reflexivity|]. rewrite exp10_1.
  assert (0 < Rpower 10 (mu / 5)) by apply exp_pos. split; [nra|]. field. lra.
Qed.
Print Assumptions C34_distance_of_modulus.

(** ** Round trips *)
(** Distance - parallax - distance: every length but zero. *)
Theorem C34_distance_parallax_distance : forall m d, d <> 0 -> (do p <- to_parallax m (D d); to_distance p) = Ok false (D d).
Proof.
  intros m d H. pose proof AU_pos. destruct (tan_at2 d H) as [C T]. pose proof (at2_gt d). unfold to_parallax. cbn [dk dval natan2 ncst Num_ext lift2]. rewrite mk_Parallax_ok, bind_ok by lra.
  unfold to_distance. cbn [dk dval]. rewrite fin_tan; auto; rewrite T.
  - unfold mk_Distance, ret. do 3 f_equal. field. lra.
  - unfold Rdiv. apply Rmult_integral_contrapositive. split; [lra|now apply Rinv_neq_0_compat].
Qed.
Print Assumptions C34_distance_parallax_distance.
(** Parallax - distance - parallax: every angle in (0, pi) but the right angle. *)
Theorem C34_parallax_distance_parallax : forall m p, 0 < p < PI -> p <> PI / 2 -> (do d <- to_distance (P p); to_parallax m d) = Ok false (P p).
Proof.
  intros m p H N. destruct (at2_tan p H N) as (C & T & E). unfold to_distance. cbn [dk dval]. rewrite fin_tan by auto. unfold mk_Distance, ret. rewrite bind_ok.
  unfold to_parallax. cbn [dk dval natan2 ncst Num_ext lift2]. rewrite E. apply mk_Parallax_ok. lra.
Qed.
Print Assumptions C34_parallax_distance_parallax.
Theorem C34_distance_modulus_distance : forall d, 0 < d -> (do p <- to_distmod (D d); to_distance p) = Ok false (D d).
Proof.
  intros d H. pose proof PC_pos. destruct (C34_modulus_of_distance d H) as (mu & E & K). rewrite E, bind_ok. unfold to_distance. cbn [dk dval]. rewrite div5.
  cbn [nadd ncst Num_ext lift2 nexp10 lift1 nmul]. rewrite exp10_1, K. unfold mk_Distance, ret. do 3 f_equal. field. lra.
Qed.
Print Assumptions C34_distance_modulus_distance.
Theorem C34_modulus_distance_modulus : forall mu, (do d <- to_distance (M mu); to_distmod d) = Ok false (M mu).
Proof.
  intros mu. pose proof PC_pos. pose proof ln10. destruct (C34_distance_of_modulus mu) as (d & E & Hd & K). rewrite E, bind_ok. unfold to_distmod. cbn [dk dval]. rewrite div10, elog10_ok by (apply Rdiv_lt_0_compat; lra).
  cbn [nmul ncst Num_ext lift2]. unfold mk_DistMod, ret. do 3 f_equal. rewrite K. unfold Rpower. rewrite ln_exp. field. lra.
Qed.
Print Assumptions C34_modulus_distance_modulus.
(** Parallax - modulus - parallax and modulus - parallax - modulus. *)
Theorem C34_parallax_modulus_parallax : forall m p, 0 < p < PI / 2 -> (do x <- to_distmod (P p); to_parallax m x) = Ok false (P p).
Proof.
  intros m p H. destruct (C34_distance_of_parallax p H) as (d & E & Hd & K). unfold to_distmod. cbn [dk]. rewrite E, bind_ok. cbn [dval].
  pose proof (C34_distance_modulus_distance d Hd) as R1. unfold to_distmod in R1 at 1. cbn [dk dval] in R1.
  destruct (mk_DistMod KDistMod _) as [w x|e] eqn:Q; [|discriminate R1]. cbn [bind] in R1 |- *. assert (X : dk x = KDistMod) by (cbn in Q; injection Q as _ <-; reflexivity).
  unfold to_parallax. rewrite X. destruct (to_distance x) as [w' y|e]; [|discriminate R1]. injection R1 as W ->. cbn [bind dval]. pose proof (C34_parallax_distance_parallax m p) as R2. rewrite E, bind_ok in R2. unfold to_parallax in R2. cbn [dk dval] in R2.
  assert (PI / 2 < PI) by (pose proof PI_RGT_0; lra). rewrite R2 by lra. apply orb_false_elim in W. destruct W as [-> ->]. reflexivity.
Qed.
Print Assumptions C34_parallax_modulus_parallax.
Theorem C34_modulus_parallax_modulus : forall m mu, (do x <- to_parallax m (M mu); to_distmod x) = Ok false (M mu).
Proof.
  intros m mu. destruct (C34_distance_of_modulus mu) as (d & E & Hd & K). unfold to_parallax. cbn [dk]. rewrite E, bind_ok. cbn [dval].
  pose proof (C34_distance_parallax_distance m d) as R1. unfold to_parallax in R1 at 1. cbn [dk dval] in R1.
  pose proof (at2_gt d). change (natan2 (ncst AU) (Some d : ext)) with (Some (Ratan2 AU d) : ext) in *. rewrite mk_Parallax_ok, bind_ok in R1 |- * by lra.
  unfold to_distmod. cbn [dk]. rewrite R1, bind_ok by lra. cbn [dval]. pose proof (C34_modulus_distance_modulus mu) as R2. rewrite E, bind_ok in R2. exact R2.
Qed.
Print Assumptions C34_modulus_parallax_modulus.
(** The two ways around the triangle agree. *)
Theorem C34_consistent : forall m p mu,
  (do d <- to_distance (P p); to_distmod d) = to_distmod (P p) /\ (do d <- to_distance (M mu); to_parallax m d) = to_parallax m (M mu).
Proof. intros. split; reflexivity. Qed.
Print Assumptions C34_consistent.
(** The length a vector with a parallax or modulus as its radial component
    works with is the one [.distance] gives. *)
Theorem C34_vectors_use_the_distance : forall (d l : dist ext), to_distance d = Ok false l -> dk l = KDistance /\ dval l = distance d.
Proof.
  intros [k v] l. destruct k; unfold to_distance, distance; cbn [dk dval]; intros E; unfold mk_Distance, ret in E; injection E as <-; auto.
Qed.
Example C34_vectors_use_the_distance_ex : exists l, to_distance (M 0) = Ok false l /\ distance (M 0) = Some (10 * PC).
Proof.
  destruct (C34_distance_of_modulus 0) as (d & E & Hd & K). exists (D d). split; [exact E|].
  destruct (C34_vectors_use_the_distance _ _ E) as (_ & <-). cbn [dval]. f_equal. pose proof PC_pos.
  replace (0 / 5) with 0 in K by field. rewrite Rpower_O in K by lra. apply (f_equal (fun t => t * (10 * PC))) in K. field_simplify in K; lra.
Qed.
Print Assumptions C34_vectors_use_the_distance.

(** ** Monotonicity: nearer means a larger parallax and a smaller modulus. *)
Theorem C34_monotone : forall m d d', 0 < d -> d < d' ->
  exists p p' mu mu', to_parallax m (D d) = Ok false (P p) /\ to_parallax m (D d') = Ok false (P p') /\ p' < p /\
    to_distmod (D d) = Ok false (M mu) /\ to_distmod (D d') = Ok false (M mu') /\ mu < mu'.
Proof.
  intros m d d' H H'. pose proof AU_pos. pose proof PC_pos. pose proof ln10.
  exists (Ratan2 AU d), (Ratan2 AU d'), (5 * (ln (d / (10 * PC)) / ln 10)), (5 * (ln (d' / (10 * PC)) / ln 10)).
  split; [apply (mk_Parallax_ok m (Ratan2 AU d)); pose proof (at2_gt d); lra|]. split; [apply (mk_Parallax_ok m (Ratan2 AU d')); pose proof (at2_gt d'); lra|].
  split. { rewrite !at2_pos by lra. apply atan_increasing. unfold Rdiv. apply Rmult_lt_compat_l; auto. apply Rinv_lt_contravar; nra. }
  unfold to_distmod. cbn [dk dval]. rewrite !div10, !elog10_ok by (apply Rdiv_lt_0_compat; lra). split; auto. split; auto.
  apply Rmult_lt_compat_l; [lra|]. apply Rmult_lt_compat_r; [now apply Rinv_0_lt_compat|]. apply ln_increasing; [apply Rdiv_lt_0_compat; lra|]. apply Rmult_lt_compat_r; [apply Rinv_0_lt_compat; lra|lra].
Qed.
Print Assumptions C34_monotone.
(** The exact formula against the small-angle one (1 arcsec - 1 pc): the distance
    of a parallax is below 1 AU / p. *)
Lemma tan_gt p : 0 < p < PI / 2 -> p < tan p.
Proof.
  intros [A B].
  assert (Hd : forall x, - (PI / 2) < x < PI / 2 -> derivable_pt_lim (fun y => tan y - y) x (tan x * tan x)).
  { intros x Hx. assert (Hx' : - PI / 2 < x < PI / 2) by lra. replace (tan x * tan x) with ((1 + tan x ^ 2) - 1) by ring. apply (derivable_pt_lim_minus tan (fun y => y)); [exact (derive_pt_eq_1 _ _ _ _ (derive_pt_tan x Hx'))|apply derivable_pt_lim_id]. }
  assert (cos p <> 0) by (apply Rgt_not_eq, cos_gt_0; lra).
  destruct (MVT_cor2 (fun y => tan y - y) (fun x => tan x * tan x) 0 p A) as (c & E & [C1 C2]).
  { intros c [C1 C2]. apply Hd. lra. }
  rewrite tan_0 in E. assert (0 < tan c) by (apply tan_gt_0; lra).
  assert (0 < tan c * tan c * (p - 0)) by (apply Rmult_lt_0_compat; [now apply Rmult_lt_0_compat|lra]). lra.
Qed.
Theorem C34_small_angle : forall p, 0 < p < PI / 2 -> exists d, to_distance (P p) = Ok false (D d) /\ d < AU / p.
Proof.
  intros p H. pose proof AU_pos. pose proof (tan_gt p H) as T. destruct (C34_distance_of_parallax p H) as (d & E & Hd & K). exists d. split; auto.
  apply Rmult_lt_reg_r with p; [lra|]. replace (AU / p * p) with AU by (field; lra). nra.
Qed.
Print Assumptions C34_small_angle.
(** ** [from_] computes the same; the unsupported combinations raise. *)
Theorem C34_from : forall m k v, to_distance (mkDist k v) = Distance_from k v /\
  (k <> KParallax -> k <> KDistMod -> to_parallax m (mkDist k v) = Parallax_from m k v) /\
  Parallax_from m KDistMod v = Raise EValue /\ DistMod_from KDistance v = Raise EValue /\ DistMod_from KParallax v = Raise EValue /\
  DistMod_from KDistMod v = Ok false (mkDist KDistMod v).
Proof. intros m k v. split; [destruct k; reflexivity|]. repeat split. destruct k; intros; try contradiction; reflexivity. Qed.
Print Assumptions C34_from.
(** Finding: [plum.convert] to another distance class raises, where [from_] and the
    properties convert. *)
Theorem C34_convert_refuted : forall m d, (dk d <> KDistance -> convert_Distance d = Raise EValue) /\
  (dk d <> KParallax -> convert_Parallax m d = Raise EValue) /\ (dk d <> KDistMod -> convert_DistMod d = Raise EValue) /\
  convert_Quantity d = (dk d, dval d).
Proof. intros m d. unfold convert_Distance, convert_Parallax, convert_DistMod. destruct (dk d) eqn:E; repeat split; intros; try contradiction; try reflexivity. all: unfold convert_Quantity; now rewrite E. Qed.
Print Assumptions C34_convert_refuted.
Example C34_case : 0 < PC /\ 0 < PI / 8 < PI / 2. Proof. pose proof PC_pos. pose proof PI_RGT_0. lra. Qed.

(** ** C35 *)
(** The constructor rejects exactly the negative values, unless switched off (or
    traced). *)
Theorem C35_check : forall p,
  (mk_Parallax Eager true KParallax (Some p) = Raise ENegative <-> p < 0) /\
  (0 <= p -> mk_Parallax Eager true KParallax (Some p) = Ok false (P p)) /\
  mk_Parallax Eager false KParallax (Some p) = Ok false (P p) /\ mk_Parallax Traced true KParallax (Some p) = Ok false (P p).
Proof.
  intros p. split; [|split; [apply mk_Parallax_ok|split; reflexivity]]. unfold mk_Parallax. cbn. destruct (Rltb p 0) eqn:E; split; intros H; auto; try discriminate H.
  - now apply Rltb_true. - apply Rltb_false in E. lra.
Qed.
Print Assumptions C35_check.
(** Conversions never trip the check: they produce positive parallaxes. *)
Theorem C35_conversions_pass : forall m d, exists p, to_parallax m (D d) = Ok false (P p) /\ 0 < p < PI.
Proof.
  intros m d. exists (Ratan2 AU d). pose proof (at2_gt d) as G. pose proof PI_RGT_0. split; [apply (mk_Parallax_ok m (Ratan2 AU d)); lra|]. split; auto.
  destruct (Rtotal_order d 0) as [H'|[-> |H']]; [apply at2_range in H'; lra|rewrite at2_zero; lra|apply at2_range in H'; lra].
Qed.
Print Assumptions C35_conversions_pass.
(** The same check runs in [Parallax.from_] of an angle; a parallax is converted to
    itself unchecked (no new object). *)
Theorem C35_from_checks : forall p,
  (Parallax_from Eager KParallax (Some p) = Raise ENegative <-> p < 0) /\
  (0 <= p -> Parallax_from Eager KParallax (Some p) = Ok false (P p)) /\
  (forall m, convert_Parallax m (P p) = Ok false (P p)).
Proof. intros p. destruct (C35_check p) as (A & B & _). split; [exact A|]. split; [exact B|]. reflexivity. Qed.
Print Assumptions C35_from_checks.
(** Small negative parallaxes become negative distances; the way back gives the
    angle half a turn away, never the original. *)
Theorem C35_negative_parallax : forall m p, - (PI / 2) < p < 0 ->
  exists d, to_distance (P p) = Ok false (D d) /\ d < 0 /\ d * tan p = AU /\ to_parallax m (D d) = Ok false (P (p + PI)) /\ p + PI <> p.
Proof.
  intros m p H. pose proof AU_pos. pose proof PI_RGT_0. assert (C : cos p <> 0) by (apply Rgt_not_eq, cos_gt_0; lra). assert (T : tan p < 0) by (apply tan_lt_0; lra).
  exists (AU / tan p). unfold to_distance. cbn [dk dval]. rewrite fin_tan by lra. split; auto. split; [now apply AUd_neg|]. split; [field; lra|]. split; [|lra].
  unfold to_parallax. cbn [dk dval natan2 ncst Num_ext lift2]. rewrite at2_neg by now apply AUd_neg. replace (AU / (AU / tan p)) with (tan p) by (field; lra). rewrite atan_tan' by lra. apply mk_Parallax_ok. lra.
Qed.
Print Assumptions C35_negative_parallax.
(** The same for every negative parallax with a distance. *)
Theorem C35_never_returns : forall m p d q, p < 0 -> to_distance (P p) = Ok false (D d) -> to_parallax m (D d) = Ok false (P q) -> q <> p.
Proof. intros m p d q H E E'. destruct (C35_conversions_pass m d) as (r & R1 & R2). rewrite R1 in E'. injection E' as ->. lra. Qed.
Print Assumptions C35_never_returns.
(** Moduli of any sign are accepted and give positive distances; a distance that
    is not positive has no (finite) modulus. *)
Theorem C35_modulus : (forall mu, mk_DistMod KDistMod (Some mu) = Ok false (M mu)) /\
  (forall d, d <= 0 -> to_distmod (D d) = Ok false (mkDist KDistMod None)) /\ (forall d, mk_Distance KDistance (Some d) = Ok false (D d)).
Proof.
  split; [reflexivity|]. split; [|reflexivity]. intros d H. pose proof PC_pos. unfold to_distmod. cbn [dk dval]. rewrite div10.
  unfold elog10. replace (Rltb 0 (d / (10 * PC))) with false; [reflexivity|]. symmetry. apply Rltb_false. apply Rmult_le_reg_r with (10 * PC); [lra|]. unfold Rdiv. rewrite Rmult_assoc, Rinv_l by lra. lra.
Qed.
Print Assumptions C35_modulus.
Example C35_case : - (PI / 2) < - (1 / 10) < 0. Proof. pose proof PI2_1. lra. Qed.
