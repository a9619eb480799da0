(** * C79: distances, parallaxes and distance moduli in floating point. *)
From Coq Require Import Reals Bool List ZArith Lra Lia.
From Flocq Require Import Core.
From Verif Require Import Num Vectors Transform Float FloatThm FDist FDistThm.
Open Scope R_scope.

(** ** Specification *)
(** [a] is within the relative error [e] of [b] *)
Definition rel_close (e a b : R) : Prop := Rabs (a - b) <= e * Rabs b.
(** [log10] of real numbers *)
Definition decimal_log (x : R) : R := ln x / ln 10.
(** The mathematical library: relative error [e] where the result is a normal number. *)
Definition distance_libm (f : fmt) (L : libm) (lg : R -> R) (e : R) : Prop :=
  0 <= e /\
  (forall p, isf f p -> 0 < p < PI / 2 -> fmin_normal f <= tan p <= fmax f / 8 ->
     isf f (m_tan L p) /\ Rabs (m_tan L p - tan p) <= e * tan p) /\
  (forall x, isf f x -> 0 < x -> fmin_normal f <= atan (/ x) ->
     isf f (m_atan2 L 1 x) /\ Rabs (m_atan2 L 1 x - atan (/ x)) <= e * atan (/ x)) /\
  (forall x, isf f x -> fmin_normal f <= Rpower 10 x <= fmax f / 8 ->
     isf f (m_exp10 L x) /\ Rabs (m_exp10 L x - Rpower 10 x) <= e * Rpower 10 x) /\
  (forall x, isf f x -> 0 < x -> Rabs (decimal_log x) <= fmax f / 8 ->
     isf f (lg x) /\ Rabs (lg x - decimal_log x) <= e * (1 + Rabs (decimal_log x))).
(** well inside the range of normal numbers *)
Definition mid (f : fmt) (x : R) : Prop := 4 * fmin_normal f <= x <= fmax f / 16.
(** library error plus rounding error *)
Definition herr (f : fmt) (e : R) : R := e + fu f.
Definition length_in (s x : R) : fdistance := mkFD KDistance (Some x) s.
Definition parallax_rad (p : R) : fdistance := mkFD KParallax (Some p) 1.
Definition modulus (mu : R) : fdistance := mkFD KDistMod (Some mu) 1.

(** The correctly rounded library qualifies. *)
Section CR.
Variable f : fmt.
Hypothesis ok : fmt_ok f.
Lemma big : 256 <= fmax f.
Proof. unfold fmax. change 256 with (bpow radix2 8). apply bpow_le. destruct ok as (A & B & C). lia. Qed.
Lemma tiny_u : bpow radix2 (femin f) <= fu f / 4096.
Proof.
  unfold fu. replace (bpow radix2 (- fprec f) / 4096) with (bpow radix2 (- fprec f - 12)). apply bpow_le. destruct ok as (A & B & C). lia.
  unfold Zminus. rewrite bpow_plus. change (bpow radix2 (-12)) with (/ 4096). reflexivity.
Qed.
Lemma fu_256 : 0 < fu f <= / 256.
Proof. split. apply bpow_gt_0. unfold fu. change (/ 256) with (bpow radix2 (-8)). apply bpow_le. destruct ok as (A & B & C). lia. Qed.
Lemma normal_pos : 0 < fmin_normal f. Proof. apply bpow_gt_0. Qed.
Lemma rn_normal x : fmin_normal f <= x -> FDistThm.rel (fu f) (frnd f x) x.
Proof.
  intros H. pose proof normal_pos. destruct (rn_rel f ok x) as (d & D & E). right. rewrite Rabs_pos_eq; lra.
  rewrite E. apply Rabs_le_inv in D. split; nra.
Qed.
Lemma fop_normal x : fmin_normal f <= x <= fmax f / 2 -> exists y, fop f x = Some y /\ isf f y /\ FDistThm.rel (fu f) y x.
Proof.
  intros [H1 H2]. pose proof normal_pos. pose proof fu_256. assert (R1 := rn_normal x H1). exists (frnd f x).
  assert (B : Rabs (frnd f x) < fmax f) by (destruct R1; rewrite Rabs_pos_eq; nra).
  split. now apply fin_some. split; auto. split; auto. now apply rn_F.
Qed.
End CR.
Lemma cr_distance_libm f : fmt_ok f -> distance_libm f (cr_libm f) (fun x => frnd f (decimal_log x)) (fu f).
Proof.
  intros ok. pose proof (fu_256 f ok) as U. pose proof (big f ok) as B. pose proof (normal_pos f) as N. pose proof (tiny_u f ok) as T.
  assert (K : forall v, fmin_normal f <= v <= fmax f / 8 -> isf f (frnd f v) /\ Rabs (frnd f v - v) <= fu f * v).
  { intros v [V1 V2]. destruct (fop_normal f ok v) as (y & E & I & R). lra. apply fop_isf in E; auto. destruct E as [_ ->]. split; auto. now apply rel_abs. }
  split; [lra|]. repeat apply conj; unfold cr_libm; cbn [m_tan m_atan2 m_exp10].
  - intros p _ _ H. now apply K.
  - intros x _ X H. rewrite Ratan2_one by auto. apply K. split; auto. pose proof (atan_bound (/ x)). pose proof PI_bounds. lra.
  - intros x _ H. now apply K.
  - intros x _ X H. pose proof (rn_err f ok (decimal_log x)) as E. split.
    + split. now apply rn_F. pose proof (Rabs_triang_inv (frnd f (decimal_log x)) (decimal_log x)). pose proof (Rabs_pos (decimal_log x)). nra.
    + nra.
Qed.

(** ** Proofs: the pieces *)
Section Pieces.
Variables (f : fmt) (L : libm) (lg : R -> R) (e : R).
Hypothesis ok : fmt_ok f.
Hypothesis Hlib : distance_libm f L lg e.
Hypothesis small : herr f e <= 1 / 100.
Notation u := (fu f).
Notation FN := (Num_fl f L).
Lemma one_ok : fone f L = Some 1.
Proof. unfold fone. cbn [ncst Num_fl]. rewrite fop_small by (auto; rewrite Rabs_pos_eq; lra). f_equal. apply rn_id. apply F1; auto. Qed.
Lemma e_bounds : 0 <= e /\ e + u <= 1 / 100 /\ 0 < u.
Proof. destruct Hlib as [E _]. unfold herr in small. pose proof (fu_256 f ok). lra. Qed.
Lemma mul_normal a b : fmin_normal f <= a * b <= fmax f / 2 -> exists y, @nmul ext FN (Some a) (Some b) = Some y /\ isf f y /\ FDistThm.rel u y (a * b).
Proof. intros H. now apply fop_normal. Qed.
(** conversion to another unit *)
Lemma conv_ok s t x : mid f (s / t) -> mid f (s / t * x) -> 0 < x ->
  exists y, fconv f L s t (Some x) = Some y /\ isf f y /\ FDistThm.rel (3 * u) y (s / t * x).
Proof.
  intros [M1 M2] [M3 M4] X. pose proof e_bounds as (E0 & E1 & U). pose proof (normal_pos f) as N.
  destruct (fop_normal f ok (s / t)) as (k & Ek & Ik & Rk). lra. set (K := s / t) in *.
  assert (Q : FDistThm.rel u (k * x) (K * x)) by (destruct Rk; split; nra).
  destruct (mul_normal k x) as (y & Ey & Iy & Ry). destruct Q; split; nra.
  exists y. split. unfold fconv. fold K. now rewrite Ek. split; auto.
  eapply rel_weak. 3: eapply (rel_trans u u y (k * x) (K * x)); eauto; try lra. lra. nra.
Qed.
Lemma conv_same s x : s <> 0 -> isf f x -> fconv f L s s (Some x) = Some x.
Proof.
  intros S [F B]. unfold fconv. replace (s / s) with 1 by (field; auto). rewrite fop_small by (auto; rewrite Rabs_pos_eq; lra).
  rewrite (rn_id f 1) by (apply F1; auto). cbn [nmul Num_fl flift2]. rewrite Rmult_1_l. unfold fop. rewrite rn_id by auto. now apply fin_some.
Qed.
(** arctan2(1 AU, x) of a converted length [c] *)
Lemma atan_ok c t d : isf f c -> 0 < t -> 0 <= d <= 1/4 -> FDistThm.rel d (/ c) t -> 0 < c -> 2 * fmin_normal f <= atan t ->
  exists p, @natan2 ext FN (Some 1) (Some c) = Some p /\ isf f p /\ FDistThm.rel (d + e + e * d) p (atan t).
Proof.
  intros I T D R C N. pose proof e_bounds as (E0 & E1 & U). pose proof (normal_pos f) as N0. destruct Hlib as (_ & _ & HA & _).
  assert (AT := atan_pos t T). assert (A := rel_atan d t (/ c) T ltac:(lra) R). destruct (HA c I C) as [I' B]. destruct A; nra.
  exists (m_atan2 L 1 c). split; auto. split; auto.
  eapply rel_weak. 3: eapply (rel_trans e d); eauto; try lra; try (apply rel_of_abs; exact B).
  lra. lra.
Qed.
(** 1 AU / tan(p) *)
Lemma cot_ok p : isf f p -> 0 < p < PI / 2 -> fmin_normal f <= tan p <= fmax f / 8 -> 2 * fmin_normal f <= / tan p <= fmax f / 8 ->
  exists c, @ndiv ext FN (Some 1) (@ntan ext FN (Some p)) = Some c /\ isf f c /\ FDistThm.rel (2 * e + 2 * u) c (/ tan p).
Proof.
  intros I P T [M1 M2]. pose proof e_bounds as (E0 & E1 & U). pose proof (normal_pos f) as N0. pose proof (big f ok) as B. destruct Hlib as (_ & HT & _).
  destruct (HT p I P T) as [[It Bt] R]. apply rel_of_abs in R. assert (T0 : 0 < tan p) by lra. assert (Tp := rel_pos e _ _ T0 ltac:(lra) R).
  cbn [ntan ndiv Num_fl flift1]. rewrite fin_some by auto. cbn [flift2]. destruct (Reqb (m_tan L p) 0) eqn:Z. apply Reqb_true in Z; lra.
  assert (RI := rel_inv e _ _ T0 ltac:(lra) R). assert (Q : e / (1 - e) <= 1.02 * e). { apply Rmult_le_reg_r with (1 - e). lra. unfold Rdiv. rewrite Rmult_assoc, Rinv_l by lra. nra. }
  assert (RI' : FDistThm.rel (1.02 * e) (/ m_tan L p) (/ tan p)). { eapply rel_weak. 3: exact RI. left. now apply Rinv_0_lt_compat. exact Q. }
  assert (V : 0 < / tan p) by now apply Rinv_0_lt_compat.
  destruct (fop_normal f ok (1 / m_tan L p)) as (c & Ec & Ic & Rc). unfold Rdiv; rewrite Rmult_1_l. destruct RI'; split; nra.
  exists c. split; auto. split; auto. unfold Rdiv in Rc; rewrite Rmult_1_l in Rc.
  eapply rel_weak. 3: eapply (rel_trans u (1.02 * e)); eauto; try lra. lra. nra.
Qed.
End Pieces.

(** ** Theorems *)
Section Thm.
Variables (f : fmt) (L : libm) (lg : R -> R) (e : R) (m : mode).
Hypothesis ok : fmt_ok f.
Hypothesis Hlib : distance_libm f L lg e.
Hypothesis small : herr f e <= 1 / 100.
Notation u := (fu f).
Lemma bnd : 0 <= e /\ e + u <= 1 / 100 /\ 0 < u.
Proof. exact (e_bounds f L lg e ok Hlib small). Qed.

(** A length [s * x] metres (any unit, of [s] metres) becomes its parallax
    atan(1 AU / length), within four errors; the check for negative parallaxes passes. *)
Lemma parallax_of_length s x : isf f x -> 0 < x -> mid f (s / AU) -> mid f (s / AU * x) -> 4 * fmin_normal f <= atan (AU / (s * x)) ->
  exists p, fd_parallax f L m (length_in s x) = Ok false (parallax_rad p) /\ isf f p /\ 0 < p /\ FDistThm.rel (4 * herr f e) p (atan (AU / (s * x))).
Proof.
  intros I X M1 M2 P. pose proof bnd as (E0 & E1 & U). pose proof (normal_pos f) as N. pose proof AU_pos as PA.
  destruct (conv_ok f L lg e ok Hlib small s AU x M1 M2 X) as (c & Ec & Ic & Rc).
  assert (S : 0 < s / AU) by (destruct M1; lra). assert (S0 : s <> 0) by (intros ->; unfold Rdiv in S; rewrite Rmult_0_l in S; lra).
  assert (K0 : 0 < s / AU * x) by (apply Rmult_lt_0_compat; auto). set (K := s / AU * x) in *. assert (Cp := rel_pos (3 * u) _ _ K0 ltac:(lra) Rc).
  assert (RI := rel_inv (3 * u) _ _ K0 ltac:(lra) Rc).
  assert (EK : / K = AU / (s * x)). { unfold K. field. split; [|split]; lra. }
  assert (Q : 3 * u / (1 - 3 * u) <= 3.1 * u). { apply Rmult_le_reg_r with (1 - 3 * u). lra. unfold Rdiv. rewrite Rmult_assoc, Rinv_l by lra. nra. }
  assert (V : 0 < / K) by now apply Rinv_0_lt_compat. rewrite <- EK in *.
  assert (RI' : FDistThm.rel (3.1 * u) (/ c) (/ K)) by (eapply rel_weak; [left; exact V|exact Q|exact RI]).
  destruct (atan_ok f L lg e ok Hlib small c (/ K) (3.1 * u) Ic V ltac:(lra) RI' Cp ltac:(lra)) as (p & Ep & Ip & Rp).
  pose proof (atan_pos _ V) as AT.
  assert (Rp' : FDistThm.rel (4 * herr f e) p (atan (/ K))). { eapply rel_weak. 3: exact Rp. lra. unfold herr. nra. }
  exists p. assert (Pp : 0 < p) by (apply (rel_pos _ _ _ (proj1 AT)) in Rp'; auto; unfold herr; lra).
  split; [|split; auto]. unfold fd_parallax, length_in. cbn [fdcls fdval fdscale]. unfold fatan_au. rewrite Ec, (one_ok f L ok). rewrite Ep.
  unfold fparallax. destruct m; auto. cbn [nltb ncst Num_fl lift2b]. rewrite fop_small by (auto; rewrite Rabs_R0; lra). rewrite rn0. cbn [lift2b].
  destruct (Rltb p 0) eqn:Z; auto. apply Rltb_true in Z; lra.
Qed.

(** A parallax in radians becomes 1 AU / tan(p), in astronomical units. *)
Lemma length_of_parallax p : isf f p -> 0 < p < PI / 2 -> fmin_normal f <= tan p <= fmax f / 8 -> 2 * fmin_normal f <= / tan p <= fmax f / 8 ->
  exists d, fd_distance f L (parallax_rad p) = length_in AU d /\ isf f d /\ 0 < d /\ FDistThm.rel (2 * herr f e) d (/ tan p).
Proof.
  intros I P T M. pose proof bnd as (E0 & E1 & U). pose proof (normal_pos f) as N.
  destruct (cot_ok f L lg e ok Hlib small p I P T M) as (d & Ed & Id & Rd). assert (V : 0 < / tan p) by (apply Rinv_0_lt_compat; lra).
  exists d. split; [|split; [auto|split]].
  - unfold fd_distance, parallax_rad, length_in. cbn [fdcls fdval fdscale]. unfold fau_over_tan. rewrite (conv_same f L ok) by (auto; lra). rewrite (one_ok f L ok), Ed. reflexivity.
  - apply (rel_pos _ _ _ V) in Rd; auto; lra.
  - unfold herr. eapply rel_weak. 3: exact Rd. lra. lra.
Qed.

End Thm.

Theorem C79_parallax_of_length : forall f L lg e m s x, fmt_ok f -> distance_libm f L lg e -> herr f e <= 1 / 100 ->
  isf f x -> 0 < x -> mid f (s / AU) -> mid f (s / AU * x) -> 4 * fmin_normal f <= atan (AU / (s * x)) ->
  exists p, fd_parallax f L m (length_in s x) = Ok false (parallax_rad p) /\ isf f p /\ 0 < p /\
    rel_close (4 * herr f e) p (atan (AU / (s * x))).
Proof.
  intros f L lg e m s x ok HL small I X M1 M2 P. destruct (parallax_of_length f L lg e m ok HL small s x I X M1 M2 P) as (p & E & Ip & Pp & R).
  exists p. do 3 (split; auto). unfold rel_close. pose proof (normal_pos f). rewrite (Rabs_pos_eq (atan _)) by lra. now apply rel_abs.
Qed.
Theorem C79_length_of_parallax : forall f L lg e p, fmt_ok f -> distance_libm f L lg e -> herr f e <= 1 / 100 ->
  isf f p -> 0 < p < PI / 2 -> fmin_normal f <= tan p <= fmax f / 8 -> mid f (/ tan p) ->
  exists d, fd_distance f L (parallax_rad p) = length_in AU d /\ isf f d /\ 0 < d /\ rel_close (2 * herr f e) d (/ tan p).
Proof.
  intros f L lg e p ok HL small I P T M. destruct (length_of_parallax f L lg e ok HL small p I P T ltac:(destruct M; pose proof (normal_pos f); pose proof (big f ok); lra)) as (d & E & Id & Pd & R).
  exists d. do 3 (split; auto). unfold rel_close. assert (0 < / tan p) by (apply Rinv_0_lt_compat; pose proof (normal_pos f); lra). rewrite (Rabs_pos_eq (/ _)) by lra. now apply rel_abs.
Qed.

(** *** Round trips *)
(** Lengths of at least one AU come back (in AU) within 28 errors. *)
Theorem C79_length_parallax_length : forall f L lg e m s x, fmt_ok f -> distance_libm f L lg e -> herr f e <= 1 / 100 ->
  isf f x -> 0 < x -> mid f (s / AU) -> mid f (s / AU * x) -> 4 * fmin_normal f <= atan (AU / (s * x)) -> AU <= s * x ->
  exists p d, fd_parallax f L m (length_in s x) = Ok false (parallax_rad p) /\ fd_distance f L (parallax_rad p) = length_in AU d /\
    isf f d /\ rel_close (28 * herr f e) d (s * x / AU).
Proof.
  intros f L lg e m s x ok HL small I X M1 M2 P D. destruct (parallax_of_length f L lg e m ok HL small s x I X M1 M2 ltac:(pose proof (normal_pos f); lra)) as (p & E & Ip & Pp & R).
  pose proof (bnd f L lg e ok HL small) as (E0 & E1 & U). pose proof (normal_pos f) as N. pose proof AU_pos as PA. pose proof PI_bounds as PB. pose proof (big f ok) as B.
  set (t := AU / (s * x)) in *. assert (SX : 0 < s * x) by lra.
  assert (T : 0 < t <= 1). { unfold t. split. now apply Rdiv_lt_0_compat. apply Rmult_le_reg_r with (s * x); auto. unfold Rdiv. rewrite Rmult_assoc, Rinv_l by lra. lra. }
  assert (A : 0 < atan t <= PI / 4). { split. now apply atan_pos. rewrite <- atan_1. apply atan_le; lra. }
  assert (HB : 0 < herr f e <= 1 / 100) by (unfold herr in *; lra). set (h := herr f e) in *.
  assert (P3 : p <= PI / 3). { destruct R as [_ R]. nra. }
  assert (RT := rel_tan (4 * h) (atan t) p ltac:(lra) ltac:(lra) ltac:(lra) P3 R). rewrite tan_atan in RT.
  assert (S0 : s <> 0) by (intros ->; lra). assert (ET : / t = s * x / AU). { unfold t. field. repeat split; lra. }
  assert (V1 : 1 <= / t). { rewrite <- Rinv_1. apply Rinv_le_contravar; lra. }
  assert (TS : 4 * fmin_normal f <= t). { pose proof (tan_ge (atan t)) as G. rewrite tan_atan in G. lra. }
  assert (TP : 0 < tan p) by (apply (rel_pos _ _ _ (proj1 T)) in RT; auto; lra).
  assert (IT : mid f (/ t)). { rewrite ET. unfold mid in M2. replace (s * x / AU) with (s / AU * x) by (field; lra). exact M2. }
  assert (RI := rel_inv (5 * (4 * h)) _ _ (proj1 T) ltac:(lra) RT).
  set (q := 5 * (4 * h) / (1 - 5 * (4 * h))) in *.
  assert (Q : q <= 25 * h). { unfold q. apply Rmult_le_reg_r with (1 - 5 * (4 * h)). lra. unfold Rdiv. rewrite Rmult_assoc, Rinv_l by lra. nra. }
  assert (Q0 : 0 <= q). { unfold q. apply Rmult_le_pos. lra. left. apply Rinv_0_lt_compat. lra. }
  destruct (length_of_parallax f L lg e ok HL small p Ip) as (d & Ed & Id & Pd & Rd).
  - lra.
  - destruct RT. split; nra.
  - destruct IT, RI. split; nra.
  - exists p, d. do 3 (split; auto). unfold rel_close. rewrite <- ET. rewrite (Rabs_pos_eq (/ t)) by lra. apply rel_abs.
    eapply rel_weak. 3: eapply (rel_trans (2 * h) q); eauto; try lra. lra. nra.
Qed.
(** Parallaxes come back within four errors, for every parallax in (0, pi/2). *)
Theorem C79_parallax_length_parallax : forall f L lg e m p, fmt_ok f -> distance_libm f L lg e -> herr f e <= 1 / 100 ->
  isf f p -> 0 < p < PI / 2 -> fmin_normal f <= tan p <= fmax f / 8 -> mid f (/ tan p) -> 4 * fmin_normal f <= p ->
  exists d p', fd_distance f L (parallax_rad p) = length_in AU d /\ fd_parallax f L m (length_in AU d) = Ok false (parallax_rad p') /\
    isf f p' /\ rel_close (4 * herr f e) p' p.
Proof.
  intros f L lg e m p ok HL small I P T M N4. destruct (length_of_parallax f L lg e ok HL small p I P T ltac:(destruct M; pose proof (normal_pos f); pose proof (big f ok); lra)) as (d & Ed & Id & Pd & Rd).
  pose proof (bnd f L lg e ok HL small) as (E0 & E1 & U). pose proof (normal_pos f) as N. pose proof AU_pos as PA.
  assert (T0 : 0 < tan p) by lra. assert (V : 0 < / tan p) by now apply Rinv_0_lt_compat.
  assert (HB : 0 < herr f e <= 1 / 100) by (unfold herr in *; lra). set (h := herr f e) in *.
  assert (Hd : rel (2 * h / (1 - 2 * h)) (/ d) (tan p)).
  { replace (tan p) with (/ / tan p) by (field; lra). apply rel_inv; auto. lra. }
  assert (Q : 2 * h / (1 - 2 * h) <= 2.1 * h). { apply Rmult_le_reg_r with (1 - 2 * h). lra. unfold Rdiv. rewrite Rmult_assoc, Rinv_l by lra. nra. }
  assert (Hd' : rel (2.1 * h) (/ d) (tan p)). { eapply rel_weak. 3: exact Hd. lra. exact Q. }
  assert (AT : atan (tan p) = p) by (apply atan_tan; pose proof PI_pos; lra).
  destruct (atan_ok f L lg e ok HL small d (tan p) (2.1 * h) Id T0 ltac:(lra) Hd' Pd ltac:(rewrite AT; lra)) as (p' & Ep & Ip & Rp). rewrite AT in Rp.
  assert (Eh : e <= h) by (unfold h, herr; lra).
  assert (Rp' : rel (4 * h) p' p). { eapply rel_weak. 3: exact Rp. lra. nra. }
  exists d, p'. split; auto. split; [|split; auto].
  - unfold fd_parallax, length_in. cbn [fdcls fdval fdscale]. unfold fatan_au. rewrite (conv_same f L ok) by (auto; lra). rewrite (one_ok f L ok), Ep.
    assert (0 < p') by (apply (rel_pos (4 * h)) in Rp'; lra).
    unfold fparallax. destruct m; auto. cbn [nltb ncst Num_fl lift2b]. rewrite fop_small by (auto; rewrite Rabs_R0; lra). rewrite rn0. cbn [lift2b].
    destruct (Rltb p' 0) eqn:Z; auto. apply Rltb_true in Z; lra.
  - unfold rel_close. rewrite (Rabs_pos_eq p) by lra. now apply rel_abs.
Qed.

(** *** Distance moduli *)
Section Mod.
Variables (f : fmt) (L : libm) (lg : R -> R) (e : R) (m : mode).
Hypothesis ok : fmt_ok f.
Hypothesis Hlib : distance_libm f L lg e.
Hypothesis small : herr f e <= 1 / 100.
Notation u := (fu f).
Notation FN := (Num_fl f L).
Lemma cst_ok n : (Z.abs n <= 16)%Z -> @ncst ext FN (IZR n) = Some (IZR n).
Proof.
  intros H. cbn [ncst Num_fl]. assert (Q : Rabs (IZR n) <= 16) by (rewrite <- abs_IZR; now apply IZR_le).
  rewrite fop_small by auto. f_equal. apply rn_id. now apply F_small_int.
Qed.
Lemma div_normal a b : b <> 0 -> fmin_normal f <= a / b <= fmax f / 2 -> exists y, @ndiv ext FN (Some a) (Some b) = Some y /\ isf f y /\ rel u y (a / b).
Proof.
  intros B H. cbn [ndiv Num_fl flift2]. destruct (Reqb b 0) eqn:Z. apply Reqb_true in Z; lra. now apply fop_normal.
Qed.
Lemma modulus_of_length s x : isf f x -> mid f (x / 10) -> mid f (s / PC) -> 8 * fmin_normal f <= s / PC * (x / 10) <= fmax f / 32 ->
  Rabs (decimal_log (s * x / (10 * PC))) <= fmax f / 64 ->
  exists mu, fd_modulus f L lg (length_in s x) = modulus mu /\ isf f mu /\
    Rabs (mu - 5 * decimal_log (s * x / (10 * PC))) <= herr f e * (13 + 2 * Rabs (5 * decimal_log (s * x / (10 * PC)))).
Proof.
  intros I [M1 M1'] M2 M3 ML. pose proof (bnd f L lg e ok Hlib small) as (E0 & E1 & U). pose proof (normal_pos f) as N. pose proof PC_pos as PP. pose proof (big f ok) as B. pose proof (tiny_u f ok) as TU.
  destruct (div_normal x 10) as (a & Ea & Ia & Ra). lra. lra.
  assert (A0 : 0 < a) by (apply (rel_pos u) in Ra; auto; lra).
  assert (K0 : 0 < s / PC) by (destruct M2; lra). set (k := s / PC) in *.
  assert (Rk : rel u (k * a) (k * (x / 10))) by (destruct Ra; split; nra).
  assert (M4 : mid f (k * a)) by (destruct Rk; split; nra).
  destruct (conv_ok f L lg e ok Hlib small s PC a M2 M4 A0) as (y & Ey & Iy & Ry). fold k in Ry.
  set (Y := k * (x / 10)) in *. assert (Y0 : 0 < Y) by lra.
  assert (EY : s * x / (10 * PC) = Y). { unfold Y, k. field. lra. } rewrite EY in *.
  assert (Ry' : rel (4.1 * u) y Y). { eapply rel_weak. 3: eapply (rel_trans (3 * u) u); eauto; try lra. lra. nra. }
  assert (y0 : 0 < y) by (apply (rel_pos (4.1 * u)) in Ry'; lra).
  assert (LG := rel_log (4.1 * u) y Y Y0 ltac:(lra) Ry'). change (log10 y) with (decimal_log y) in LG. change (log10 Y) with (decimal_log Y) in LG.
  assert (Q : 4.1 * u / (1 - 4.1 * u) / 2 <= 2.2 * u). { assert (G : forall w, 0 < w <= 41 / 1000 -> w / (1 - w) / 2 <= 22 / 41 * w). { intros w W. apply Rmult_le_reg_r with (1 - w). lra. replace (w / (1 - w) / 2 * (1 - w)) with (w / 2) by (field; lra). nra. } pose proof (G (4.1 * u)). lra. }
  set (l := decimal_log Y) in *. set (l1 := decimal_log y) in *.
  assert (D1 : Rabs (l1 - l) <= 2.2 * u) by lra. assert (A1 : Rabs l1 <= Rabs l + 2.2 * u). { replace l1 with (l + (l1 - l)) by ring. eapply Rle_trans. apply Rabs_triang. lra. }
  destruct Hlib as (_ & _ & _ & _ & HL). destruct (HL y Iy y0) as [[FL BL] D2]. fold l1. lra. fold l1 in D2. set (l2 := lg y) in *.
  assert (D3 : Rabs (l2 - l) <= 2.2 * u + e * (1.1 + Rabs l)).
  { replace (l2 - l) with ((l2 - l1) + (l1 - l)) by ring. eapply Rle_trans. apply Rabs_triang. assert (e * (1 + Rabs l1) <= e * (1.1 + Rabs l)) by (apply Rmult_le_compat_l; lra). lra. }
  pose proof (Rabs_pos l) as Pl. assert (A2 : Rabs l2 <= 1.01 * Rabs l + 0.1).
  { replace l2 with (l + (l2 - l)) by ring. eapply Rle_trans. apply Rabs_triang. assert (e * (1.1 + Rabs l) <= 1/100 * (1.1 + Rabs l)) by (apply Rmult_le_compat_r; lra). lra. }
  pose proof (rn_err f ok (5 * l2)) as D4. rewrite Rabs_mult in D4. rewrite (Rabs_pos_eq 5) in D4 by lra. set (tn := bpow radix2 (femin f)) in *. set (mu := frnd f (5 * l2)) in *.
  assert (D5 : Rabs (mu - 5 * l) <= 11 * u + e * (5.5 + 5 * Rabs l) + u * (5 * Rabs l2) + tn).
  { replace (mu - 5 * l) with ((mu - 5 * l2) + 5 * (l2 - l)) by ring. eapply Rle_trans. apply Rabs_triang. rewrite (Rabs_mult 5), (Rabs_pos_eq 5) by lra. lra. }
  assert (Em : fop f (5 * l2) = Some mu).
  { unfold fop. fold mu. apply fin_some. replace mu with (5 * l2 + (mu - 5 * l2)) by ring. eapply Rle_lt_trans. apply Rabs_triang. rewrite Rabs_mult, (Rabs_pos_eq 5) by lra. nra. }
  exists mu. split; [|split].
  - unfold fd_modulus, length_in. cbn [fdcls fdval fdscale]. unfold ffive_log. rewrite (cst_ok 10), (cst_ok 5) by lia. rewrite Ea, Ey. unfold flog10.
    assert (Ty := y0). apply Rltb_true in Ty. rewrite Ty. fold l2. rewrite fin_some by auto. cbn [nmul Num_fl flift2]. now rewrite Em.
  - apply fop_isf in Em; auto. tauto.
  - rewrite (Rabs_mult 5), (Rabs_pos_eq 5) by lra. eapply Rle_trans. exact D5. unfold herr.
    assert (u * (5 * Rabs l2) <= u * (5.05 * Rabs l + 0.5)) by (apply Rmult_le_compat_l; lra). assert (0 <= u * Rabs l) by (apply Rmult_le_pos; lra). assert (0 <= e * Rabs l) by (apply Rmult_le_pos; lra). nra.
Qed.
Lemma length_of_modulus mu : isf f mu -> herr f e * (3 + Rabs mu / 2) <= 1 / 16 -> fmin_normal f <= Rpower 10 (mu / 5 + 1) / 2 -> Rpower 10 (mu / 5 + 1) <= fmax f / 16 ->
  exists d, fd_distance f L (modulus mu) = length_in PC d /\ isf f d /\ 0 < d /\ rel (herr f e * (15 + 3 * Rabs mu)) d (Rpower 10 (mu / 5 + 1)).
Proof.
  intros I H N1 N2. pose proof (bnd f L lg e ok Hlib small) as (E0 & E1 & U). pose proof (normal_pos f) as N. pose proof (big f ok) as B. pose proof (tiny_u f ok) as TU. pose proof (Rabs_pos mu) as P.
  set (tn := bpow radix2 (femin f)) in *. set (A := mu / 5 + 1) in *.
  assert (S5 : Rabs (mu / 5) = Rabs mu / 5). { unfold Rdiv. rewrite Rabs_mult, (Rabs_pos_eq (/ 5)) by lra. reflexivity. }
  pose proof (rn_err f ok (mu / 5)) as D1. fold tn in D1. rewrite S5 in D1. set (a1 := frnd f (mu / 5)) in *.
  assert (Hu : u * (3 + Rabs mu / 2) <= 1 / 16). { eapply Rle_trans. 2: exact H. unfold herr. apply Rmult_le_compat_r; lra. }
  destruct I as [Fm Bm].
  assert (B1 : Rabs a1 <= Rabs mu / 4 + 0.1). { replace a1 with (mu / 5 + (a1 - mu / 5)) by ring. eapply Rle_trans. apply Rabs_triang. rewrite S5. assert (u * (Rabs mu / 5) <= 1/100 * (Rabs mu / 5)) by (apply Rmult_le_compat_r; lra). lra. }
  assert (E_1 : fop f (mu / 5) = Some a1) by (unfold fop; fold a1; apply fin_some; lra).
  pose proof (rn_err f ok (a1 + 1)) as D2. fold tn in D2. set (a2 := frnd f (a1 + 1)) in *.
  assert (B2 : Rabs (a1 + 1) <= Rabs mu / 4 + 1.1). { eapply Rle_trans. apply Rabs_triang. rewrite Rabs_R1. lra. }
  assert (B3 : u * Rabs (a1 + 1) <= u * (Rabs mu / 4 + 1.1)) by (apply Rmult_le_compat_l; lra).
  assert (D3 : Rabs (a2 - A) <= u * (2 + Rabs mu / 2)).
  { replace (a2 - A) with ((a2 - (a1 + 1)) + (a1 - mu / 5)) by (unfold A; ring). eapply Rle_trans. apply Rabs_triang. assert (0 <= u * Rabs mu) by (apply Rmult_le_pos; lra). lra. }
  assert (E_2 : fop f (a1 + 1) = Some a2).
  { unfold fop; fold a2; apply fin_some. replace a2 with ((a1 + 1) + (a2 - (a1 + 1))) by ring. eapply Rle_lt_trans. apply Rabs_triang. assert (u * (Rabs mu / 4 + 1.1) <= 1/100 * (Rabs mu / 4 + 1.1)) by (apply Rmult_le_compat_r; lra). lra. }
  assert (RP := rel_pow10 (u * (2 + Rabs mu / 2)) a2 A D3 ltac:(lra)). set (D := Rpower 10 A) in *. assert (D0 : 0 < D) by apply exp_pos.
  set (w := 6 * (u * (2 + Rabs mu / 2))) in *. assert (W : 0 <= w <= 3/8) by (unfold w; split; [assert (0 <= u * (2 + Rabs mu / 2)) by (apply Rmult_le_pos; lra); lra|lra]).
  assert (D1' : 0 <= D * w) by (apply Rmult_le_pos; lra).
  assert (Rg : fmin_normal f <= Rpower 10 a2 <= fmax f / 8). { destruct RP as [R1 R2]. assert (D * w <= D * (3/8)) by (apply Rmult_le_compat_l; lra). split; lra. }
  apply fop_isf in E_2; auto. destruct E_2 as [I2 _]. assert (Hl := Hlib). destruct Hl as (_ & _ & _ & HE & _). destruct (HE a2 I2 Rg) as [[Fd Bd] Rd]. apply rel_of_abs in Rd.
  assert (RT : rel (e + w + e * w) (m_exp10 L a2) D) by (eapply (rel_trans e w); eauto; lra).
  assert (RT' : rel (herr f e * (15 + 3 * Rabs mu)) (m_exp10 L a2) D).
  { eapply rel_weak. 3: exact RT. lra. unfold herr, w. assert (e * w <= e * (3/8)) by (apply Rmult_le_compat_l; lra). fold w. assert (0 <= e * Rabs mu) by (apply Rmult_le_pos; lra). unfold w. fold w in H0. nra. }
  assert (Q : 0 < m_exp10 L a2). { apply (rel_pos e _ (Rpower 10 a2)); auto. apply exp_pos. lra. }
  exists (m_exp10 L a2). split; [|split; [split; auto|split; auto]].
  unfold fd_distance, modulus, length_in. cbn [fdcls fdval fdscale]. unfold ften_pow. rewrite (cst_ok 5) by lia. rewrite (one_ok f L ok).
  cbn [ndiv nadd nexp10 Num_fl flift1 flift2]. destruct (Reqb 5 0) eqn:Z. apply Reqb_true in Z; lra. rewrite E_1. cbn [flift2].
  assert (E2' : fop f (a1 + 1) = Some a2). { unfold fop; fold a2; apply fin_some. apply I2. }
  rewrite E2'. cbn [flift1]. now rewrite fin_some.
Qed.
End Mod.

(** A length of [s * x] metres has the modulus 5 log10(length / 10 pc), to
    (e + u) (13 + 2 |modulus|). *)
Theorem C79_modulus_of_length : forall f L lg e s x, fmt_ok f -> distance_libm f L lg e -> herr f e <= 1 / 100 ->
  isf f x -> mid f (x / 10) -> mid f (s / PC) -> 8 * fmin_normal f <= s / PC * (x / 10) <= fmax f / 32 ->
  Rabs (decimal_log (s * x / (10 * PC))) <= fmax f / 64 ->
  exists mu, fd_modulus f L lg (length_in s x) = modulus mu /\ isf f mu /\
    Rabs (mu - 5 * decimal_log (s * x / (10 * PC))) <= herr f e * (13 + 2 * Rabs (5 * decimal_log (s * x / (10 * PC)))).
Proof. intros f L lg e s x ok HL small. exact (modulus_of_length f L lg e ok HL small s x). Qed.
(** A modulus becomes 10^(mu/5 + 1) parsecs. *)
Theorem C79_length_of_modulus : forall f L lg e mu, fmt_ok f -> distance_libm f L lg e -> herr f e <= 1 / 100 ->
  isf f mu -> herr f e * (3 + Rabs mu / 2) <= 1 / 16 -> 2 * fmin_normal f <= Rpower 10 (mu / 5 + 1) <= fmax f / 16 ->
  exists d, fd_distance f L (modulus mu) = length_in PC d /\ isf f d /\ 0 < d /\ rel_close (herr f e * (15 + 3 * Rabs mu)) d (Rpower 10 (mu / 5 + 1)).
Proof.
  intros f L lg e mu ok HL small I H [N1 N2]. destruct (length_of_modulus f L lg e ok HL small mu I H ltac:(lra) N2) as (d & E & Id & Pd & R).
  exists d. do 3 (split; auto). unfold rel_close. rewrite (Rabs_pos_eq (Rpower _ _)) by (left; apply exp_pos). now apply rel_abs.
Qed.
(** Length to modulus and back, in parsecs. *)
Theorem C79_length_modulus_length : forall f L lg e s x, fmt_ok f -> distance_libm f L lg e -> herr f e <= 1 / 100 ->
  isf f x -> mid f (x / 10) -> mid f (s / PC) -> 8 * fmin_normal f <= s / PC * (x / 10) <= fmax f / 200 ->
  let M := 5 * decimal_log (s * x / (10 * PC)) in
  herr f e * (16 + 2 * Rabs M) <= 1 / 16 ->
  exists mu d, fd_modulus f L lg (length_in s x) = modulus mu /\ fd_distance f L (modulus mu) = length_in PC d /\ isf f d /\
    rel_close (herr f e * (34 + 6 * Rabs M)) d (s * x / PC).
Proof.
  intros f L lg e s x ok HL small I M1 M2 M3 M HM. pose proof (normal_pos f) as N. pose proof (big f ok) as B. pose proof PC_pos as PP. pose proof (bnd f L lg e ok HL small) as (E0 & E1 & U).
  set (Y := s / PC * (x / 10)) in *. assert (EY : s * x / (10 * PC) = Y) by (unfold Y; field; lra).
  assert (Y0 : 0 < Y) by lra. assert (HB : 0 < herr f e <= 1 / 100) by (unfold herr in *; lra). set (h := herr f e) in *. pose proof (Rabs_pos M) as PM.
  assert (ML : Rabs (decimal_log (s * x / (10 * PC))) <= fmax f / 64).
  { assert (G : Rabs M = 5 * Rabs (decimal_log (s * x / (10 * PC)))) by (unfold M; rewrite Rabs_mult, (Rabs_pos_eq 5) by lra; reflexivity).
    set (q := Rabs (decimal_log _)) in *. assert (PQ : 0 <= q) by apply Rabs_pos. assert (HU : fu f <= h) by (unfold h, herr; lra).
    assert (fu f * q <= 1/160) by nra.
    assert (FU : 1 <= fu f * (fmax f / 64 * 160)). 
    { unfold fu, fmax. replace (bpow radix2 (- fprec f) * (bpow radix2 (femax f) / 64 * 160)) with (bpow radix2 (- fprec f) * bpow radix2 (femax f) * (5/2)) by field. rewrite <- bpow_plus.
      assert (1 <= bpow radix2 (- fprec f + femax f)). { change 1 with (bpow radix2 0). apply bpow_le. destruct ok as (A1 & A2 & A3). lia. } lra. }
    destruct (Rle_dec q (fmax f / 64)); auto. exfalso. nra. }
  destruct (modulus_of_length f L lg e ok HL small s x I M1 M2 ltac:(fold Y; lra) ML) as (mu & Emu & Imu & Rmu). fold M h in Rmu.
  assert (HM2 : h * (13 + 2 * Rabs M) <= 1/16) by nra.
  assert (BM : Rabs mu <= Rabs M + 1/16). { replace mu with (M + (mu - M)) by ring. eapply Rle_trans. apply Rabs_triang. lra. }
  assert (ED : Rpower 10 (M / 5 + 1) = 10 * Y).
  { unfold M. rewrite EY. replace (5 * decimal_log Y / 5 + 1) with (decimal_log Y + 1) by field. rewrite Rpower_plus, Rpower_1 by lra. unfold decimal_log, Rpower. pose proof ln10_bounds.
    replace (ln Y / ln 10 * ln 10) with (ln Y) by (field; lra). rewrite exp_ln by auto. ring. }
  assert (DM : Rabs (mu / 5 + 1 - (M / 5 + 1)) <= h * (13 + 2 * Rabs M) / 5).
  { replace (mu / 5 + 1 - (M / 5 + 1)) with ((mu - M) * / 5) by field. rewrite Rabs_mult, (Rabs_pos_eq (/ 5)) by lra. lra. }
  assert (RP := rel_pow10 _ _ _ DM ltac:(lra)). rewrite ED in RP. set (w := 6 * (h * (13 + 2 * Rabs M) / 5)) in *. assert (W : 0 <= w <= 1/10). { unfold w. assert (0 <= h * (13 + 2 * Rabs M)) by (apply Rmult_le_pos; lra). lra. }
  destruct (length_of_modulus f L lg e ok HL small mu Imu) as (d & Ed & Id & Pd & Rd).
  - fold h. nra.
  - destruct RP. nra.
  - destruct RP. nra.
  - exists mu, d. do 3 (split; auto). unfold rel_close. replace (s * x / PC) with (10 * Y) by (unfold Y; field; lra). rewrite (Rabs_pos_eq (10 * Y)) by lra. apply rel_abs. fold h in Rd.
    assert (Q : h * (15 + 3 * Rabs mu) <= h * (15.2 + 3 * Rabs M)) by (apply Rmult_le_compat_l; lra).
    assert (Q0 : 0 <= h * (15 + 3 * Rabs mu)) by (apply Rmult_le_pos; pose proof (Rabs_pos mu); lra).
    eapply rel_weak. 3: eapply (rel_trans _ w); [| | |exact Rd|exact RP]; try lra. lra.
    assert (h * (15 + 3 * Rabs mu) * w <= h * (15 + 3 * Rabs mu) * (1/10)) by (apply Rmult_le_compat_l; lra). assert (0 <= h * Rabs M) by (apply Rmult_le_pos; lra). unfold w in *. nra.
Qed.

(** *** The check for negative parallaxes; [from_] *)
Theorem C79_negative_parallax : forall f L m p s, fmt_ok f -> p < 0 ->
  fParallax_from f L m (mkFD KParallax (Some p) s) = match m with Eager => Raise ENegative | Traced => Ok false (mkFD KParallax (Some p) s) end.
Proof.
  intros f L m p s ok P. cbn [fParallax_from fdcls fdval fdscale]. unfold fparallax. destruct m; auto. cbn [nltb ncst Num_fl lift2b]. rewrite fop_small by (auto; rewrite Rabs_R0; lra). rewrite rn0. cbn [lift2b].
  apply Rltb_true in P. now rewrite P.
Qed.
Theorem C79_from : forall f L m d, fDistance_from f L d = fd_distance f L d /\
  (fdcls d = KDistance -> fParallax_from f L m d = fd_parallax f L m d) /\ (fdcls d = KDistMod -> fParallax_from f L m d = Raise EValue).
Proof. intros f L m [[] v s]; cbn; repeat split; auto; discriminate. Qed.

(** *** Finding: in single precision every length up to 1.5e-8 AU (2.2 km) has the parallax
    13176795 / 2^23 > pi/2, and comes back as one and the same negative distance. *)
Definition p_near : R := 13176795 / 8388608.
Lemma PI_tight : 3.141592653 < PI < 3.141592654.
Proof.
  pose proof (Machin.PI_2_3_7_ineq 5) as [A B]. unfold sum_f_R0, tg_alt, Machin.PI_2_3_7_tg, Ratan_seq in A, B. simpl in A, B. lra.
Qed.
Lemma round_near v : 1.5707963112 <= v <= 1.5707963271 -> frnd binary32 v = p_near.
Proof.
  intros V. unfold frnd, round.
  assert (C : cexp radix2 (fexp_of binary32) v = (-23)%Z).
  { unfold cexp. rewrite (mag_unique_pos radix2 v 1). reflexivity. change (bpow radix2 (1 - 1)) with 1. change (bpow radix2 1) with 2. lra. }
  unfold scaled_mantissa. rewrite C. change (- -23)%Z with 23%Z. change (bpow radix2 23) with 8388608.
  rewrite (Znearest_imp _ _ 13176795). unfold F2R. simpl Fnum. simpl Fexp. change (bpow radix2 (-23)) with (/ 8388608). reflexivity.
  apply Rabs_lt. lra.
Qed.
Lemma atan_le_id y : 0 <= y -> atan y <= y.
Proof. intros H. destruct (Req_dec y 0) as [->|N]. rewrite atan_0; lra. pose proof (tan_ge (atan y)) as G. rewrite tan_atan in G. apply G. split. left; apply atan_pos; lra. apply atan_bound. Qed.
Lemma m32_one : (fone binary32 (cr_libm binary32)) = Some 1.
Proof. unfold fone. cbn [ncst Num_fl]. rewrite fop_small by (try exact binary32_ok; rewrite Rabs_pos_eq; lra). f_equal. apply rn_id. apply F1. exact binary32_ok. Qed.
Theorem C79_finding_short_distances_come_back_negative :
  (forall m x, isf binary32 x -> 0 < x <= 15 / 1000000000 ->
     fd_parallax binary32 (cr_libm binary32) m (length_in AU x) = Ok false (parallax_rad p_near)) /\
  exists d, fd_distance binary32 (cr_libm binary32) (parallax_rad p_near) = length_in AU d /\ d < 0.
Proof.
  assert (ok := binary32_ok). pose proof PI_tight as PT. pose proof AU_pos as PA. split.
  - intros m x I X. unfold fd_parallax, length_in. cbn [fdcls fdval fdscale]. unfold fatan_au. rewrite conv_same by (auto; lra). rewrite m32_one. cbn [natan2 Num_fl lift2 cr_libm m_atan2].
    rewrite Ratan2_one by lra. pose proof (atan_inv x ltac:(lra)) as AI. pose proof (atan_le_id x ltac:(lra)) as AX. pose proof (atan_pos x ltac:(lra)) as AP.
    rewrite round_near by lra. unfold fparallax. destruct m; auto. cbn [nltb ncst Num_fl lift2b]. rewrite fop_small by (auto; rewrite Rabs_R0; lra). rewrite rn0. cbn [lift2b].
    destruct (Rltb p_near 0) eqn:Z; auto. apply Rltb_true in Z. unfold p_near in Z. lra.
  - set (c := p_near) in *. assert (C : 4e-8 < c - PI / 2 < 5e-8) by (unfold c, p_near; lra). set (y := c - PI / 2) in *.
    assert (Fc : isf binary32 c).
    { apply small_isf; auto. 2: unfold c, p_near; rewrite Rabs_pos_eq; lra. unfold c. rewrite <- (round_near 1.57079632) by lra. apply rn_F; auto. }
    assert (TY : 0 < tan y <= 1). { split. pose proof (tan_ge y). lra. rewrite <- tan_PI4. apply tan_le; lra. }
    assert (TC : tan c = - / tan y).
    { replace c with (PI / 2 + y) by (unfold y; ring). unfold tan. rewrite sin_plus, cos_plus, sin_PI2, cos_PI2. unfold tan in TY.
      assert (cos y <> 0) by (intros Z; rewrite Z in TY; unfold Rdiv in TY; rewrite Rinv_0 in TY; lra). assert (sin y <> 0) by (intros Z; rewrite Z in TY; unfold Rdiv in TY; lra). field. repeat split; lra. }
    assert (TB : -25000000 <= tan c <= -1).
    { rewrite TC. assert (1 <= / tan y) by (rewrite <- Rinv_1 at 1; apply Rinv_le_contravar; lra).
      assert (/ tan y <= / 4e-8). { apply Rinv_le_contravar. lra. pose proof (tan_ge y). lra. } lra. }
    set (t := frnd binary32 (tan c)). assert (T1 : t <= -1). { unfold t. apply rn_le_F; auto. apply (F_small_int binary32 ok (-1)). lia. lra. }
    assert (T2 : - 33554432 <= t). { unfold t. apply rn_ge_F; auto. change (-33554432) with (- bpow radix2 25). apply F_opp, F_bpow; auto. simpl; lia. lra. }
    assert (T3 : Rabs t < fmax binary32). { apply Rle_lt_trans with 33554432. apply Rabs_le; lra. change 33554432 with (bpow radix2 25). apply bpow_lt. simpl; lia. }
    assert (Q : -1 <= 1 / t <= - / 33554432). { assert (I1 : / - t <= 1) by (rewrite <- Rinv_1; apply Rinv_le_contravar; lra). assert (I2 : / 33554432 <= / - t) by (apply Rinv_le_contravar; lra). replace (1 / t) with (- / - t) by (field; lra). lra. }
    set (d := frnd binary32 (1 / t)). assert (D : d <= - / 33554432). { unfold d. apply rn_le_F; auto. change (/ 33554432) with (bpow radix2 (-25)). apply F_opp, F_bpow; auto. simpl; lia. lra. }
    exists d. split; [|lra]. unfold fd_distance, parallax_rad, length_in. cbn [fdcls fdval fdscale]. unfold fau_over_tan. rewrite conv_same by (auto; lra). rewrite m32_one.
    cbn [ntan ndiv Num_fl flift1 cr_libm m_tan]. fold t. rewrite fin_some by auto. cbn [flift2]. destruct (Reqb t 0) eqn:Z. apply Reqb_true in Z; lra.
    rewrite fop_small by (auto; apply Rabs_le; lra). reflexivity.
Qed.

(** ** The hypotheses are met *)
Lemma bits32 : fmin_normal binary32 <= / 1000000 /\ 1000000 <= fmax binary32 / 16 /\ fu binary32 <= / 10000000.
Proof.
  unfold fmin_normal, fmax, fu. split; [|split].
  - apply Rle_trans with (bpow radix2 (-20)). apply bpow_le. simpl; lia. change (bpow radix2 (-20)) with (/ 1048576). lra.
  - replace 1000000 with (16000000 / 16) by field. apply Rmult_le_compat_r. lra. apply Rle_trans with (bpow radix2 24). change (bpow radix2 24) with 16777216. lra. apply bpow_le. simpl; lia.
  - simpl fprec. apply Rle_trans with (bpow radix2 (-24)). apply bpow_le; lia. change (bpow radix2 (-24)) with (/ 16777216). lra.
Qed.
(** 2 AU in single precision *)
Example C79_length_parallax_length_ex : exists p d,
  fd_parallax binary32 (cr_libm binary32) Eager (length_in AU 2) = Ok false (parallax_rad p) /\ fd_distance binary32 (cr_libm binary32) (parallax_rad p) = length_in AU d /\
  Rabs (d - 2) <= 56 * (2 * fu binary32).
Proof.
  assert (ok := binary32_ok). destruct bits32 as (B1 & B2 & B3). pose proof AU_pos as PA. pose proof (normal_pos binary32) as N. pose proof (fu_256 binary32 ok) as U.
  assert (ET : AU / (AU * 2) = / 2) by (field; lra). assert (A2 : / 4 <= atan (/ 2)).
  { pose proof (atan_concave (/ 2) 1 ltac:(lra) ltac:(lra)) as G. rewrite atan_1, Rmult_1_r in G. pose proof PI_bounds. lra. }
  destruct (C79_length_parallax_length binary32 (cr_libm binary32) (fun x => frnd binary32 (decimal_log x)) (fu binary32) Eager AU 2 ok (cr_distance_libm _ ok)) as (p & d & E1 & E2 & _ & R); auto.
  - unfold herr; lra.
  - apply small_isf; auto. apply (F_small_int binary32 ok 2). lia. rewrite Rabs_pos_eq; lra.
  - lra.
  - unfold Rdiv. rewrite Rinv_r by lra. split; lra.
  - replace (AU / AU * 2) with 2 by (field; lra). split; lra.
  - rewrite ET. lra.
  - lra.
  - exists p, d. do 2 (split; auto). unfold rel_close in R. replace (AU * 2 / AU) with 2 in R by (field; lra). rewrite (Rabs_pos_eq 2) in R by lra. unfold herr in R. lra.
Qed.
(** the modulus 5, i.e. 100 pc *)
Example C79_length_of_modulus_ex : exists d,
  fd_distance binary32 (cr_libm binary32) (modulus 5) = length_in PC d /\ Rabs (d - 100) <= 30 * (2 * fu binary32) * 100.
Proof.
  assert (ok := binary32_ok). destruct bits32 as (B1 & B2 & B3). pose proof (normal_pos binary32) as N. pose proof (fu_256 binary32 ok) as U.
  assert (EP : Rpower 10 (5 / 5 + 1) = 100). { replace (5 / 5 + 1) with (1 + 1) by field. rewrite Rpower_plus, Rpower_1 by lra. ring. }
  destruct (C79_length_of_modulus binary32 (cr_libm binary32) (fun x => frnd binary32 (decimal_log x)) (fu binary32) 5 ok (cr_distance_libm _ ok)) as (d & E & _ & _ & R).
  - unfold herr; lra.
  - apply small_isf; auto. apply (F_small_int binary32 ok 5). lia. rewrite Rabs_pos_eq; lra.
  - unfold herr. rewrite Rabs_pos_eq by lra. lra.
  - rewrite EP. lra.
  - exists d. split; auto. unfold rel_close in R. rewrite EP in R. rewrite (Rabs_pos_eq 100), (Rabs_pos_eq 5) in R by lra. unfold herr in R. lra.
Qed.
(** 50 pc and its modulus *)
Example C79_length_modulus_length_ex : exists mu d,
  fd_modulus binary32 (cr_libm binary32) (fun x => frnd binary32 (decimal_log x)) (length_in PC 15) = modulus mu /\
  fd_distance binary32 (cr_libm binary32) (modulus mu) = length_in PC d /\ Rabs (d - 15) <= 94 * (2 * fu binary32) * 15.
Proof.
  assert (ok := binary32_ok). destruct bits32 as (B1 & B2 & B3). pose proof (normal_pos binary32) as N. pose proof (fu_256 binary32 ok) as U. pose proof PC_pos as PP.
  assert (EP : PC * 15 / (10 * PC) = 3 / 2) by (field; lra). assert (EQ : PC / PC = 1) by (field; lra).
  assert (DL : Rabs (5 * decimal_log (3 / 2)) <= 10). { unfold decimal_log. pose proof ln10_bounds as LB. pose proof (ln_le' (3/2) ltac:(lra)) as LL. assert (0 < ln (3/2)) by (rewrite <- ln_1; apply ln_increasing; lra).
    assert (I : 0 < / ln 10 <= / 2). { split. apply Rinv_0_lt_compat; lra. apply Rinv_le_contravar; lra. } rewrite Rabs_pos_eq. unfold Rdiv at 1. nra. apply Rmult_le_pos. lra. apply Rmult_le_pos; lra. }
  pose proof (Rabs_pos (5 * decimal_log (3 / 2))) as DP.
  destruct (C79_length_modulus_length binary32 (cr_libm binary32) (fun x => frnd binary32 (decimal_log x)) (fu binary32) PC 15 ok (cr_distance_libm _ ok)) as (mu & d & E1 & E2 & _ & R).
  - unfold herr; lra.
  - apply small_isf; auto. apply (F_small_int binary32 ok 15). lia. rewrite Rabs_pos_eq; lra.
  - split; lra.
  - rewrite EQ. split; lra.
  - rewrite EQ. lra.
  - rewrite EP. unfold herr. nra.
  - exists mu, d. do 2 (split; auto). unfold rel_close in R. rewrite EP in R. replace (PC * 15 / PC) with 15 in R by (field; lra). rewrite (Rabs_pos_eq 15) in R by lra. unfold herr in R. nra.
Qed.
Print Assumptions C79_length_parallax_length.
Print Assumptions C79_parallax_length_parallax.
Print Assumptions C79_length_modulus_length.
Print Assumptions C79_finding_short_distances_come_back_negative.
