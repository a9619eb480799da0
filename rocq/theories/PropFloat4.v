(** * Property C65: the arithmetic of Cartesian positions and norms in floating point.

    Vocabulary: Float.v.  [isf f x]: [x] is a finite number of the format [f]
    (binary32, binary64, ...); [frnd f]: rounding; [fu f]: the relative rounding
    error 2^-precision; [None]: infinity or NaN.  Nothing is assumed about the
    mathematical library [L]. *)
From Coq Require Import Reals Bool List ZArith Lra Lia.
From Flocq Require Import Core Plus_error.
From Verif Require Import Num Vectors Transform Pos3D Pos3DThm Arith Float FloatThm FloatConv FloatArith PropFloat.
Import ListNotations.
Open Scope R_scope.

(** A Cartesian position (1, 2 or 3 dimensions) and its coordinates. *)
Definition cartesian {A} (p : pos A) : Prop := match cls_of p with CCart1 | CCart2 | CCart3 => True | _ => False end.
Definition coords {A} (p : pos A) : list A :=
  match p with PCart1 x => [x] | PCart2 x y => [x; y] | PCart3 x y z => [x; y; z] | _ => [] end.
Lemma coords_inj {A} (p q : pos A) : cartesian p -> cartesian q -> coords p = coords q -> p = q.
Proof. destruct p, q; cbn; try tauto; intros _ _ E; try discriminate; congruence. Qed.

Section F.
Variable f : fmt.
Variable L : libm.
Notation F := (generic_format radix2 (fexp_of f)).
Notation rn := (frnd f).

Lemma rn_0_iff x y : fmt_ok f -> F x -> F y -> rn (x - y) = 0 -> x = y.
Proof.
  intros ok Fx Fy E. destruct (Req_dec (x - y) 0) as [|N]; [lra|]. exfalso. revert E. unfold Rminus, frnd in *.
  assert (Prec_gt_0 (fprec f)) by (destruct ok; red; lia).
  apply round_plus_neq_0; auto; unfold fexp_of; try typeclasses eauto. now apply generic_format_opp.
Qed.
(** the largest finite number *)
Lemma F_max : fmt_ok f -> F (fmax f * (1 - fu f)).
Proof.
  intros (P & E1 & E2). apply generic_format_FLT.
  exists (Float radix2 (2 ^ fprec f - 1) (femax f - fprec f)); cbn [Fnum Fexp].
  - unfold F2R, fmax, fu. cbn [Fnum Fexp]. rewrite minus_IZR. change 2%Z with (radix_val radix2). rewrite IZR_Zpower by lia.
    rewrite Rmult_minus_distr_r, <- bpow_plus. rewrite Rmult_minus_distr_l, <- bpow_plus.
    replace (fprec f + (femax f - fprec f))%Z with (femax f) by lia. unfold Zminus. ring.
  - change (Z.pow_pos 2) with (Z.pow_pos 2). pose proof (Z.pow_pos_nonneg 2 (fprec f)). change (radix_val radix2) with 2%Z. lia.
  - lia.
Qed.
Lemma fop_overflow x : fmt_ok f -> fop f x = None -> fmax f * (1 - fu f) < Rabs x.
Proof.
  intros ok E. apply Rnot_le_lt. intros H. pose proof (fu_pos f). pose proof (fu_small f ok).
  assert (P : 0 < fmax f) by apply bpow_gt_0.
  pose proof (rn_abs_le f ok x _ (F_max ok) H) as B. unfold fop in E. rewrite fin_some in E; [discriminate|]. nra.
Qed.
End F.

(** ** C65 *)
(** The sum of two finite coordinates: correctly rounded, relative error at most
    u (also where the result underflows); not finite only if it overflows. *)
Definition rounded_to (f : fmt) (exact : R) (v : ext) : Prop :=
  match v with
  | Some r => isf f r /\ Rabs (r - exact) <= fu f * Rabs exact
  | None => fmax f * (1 - fu f) < Rabs exact
  end.
Definition pairwise {A B C} (R : A -> B -> C -> Prop) (a : list A) (b : list B) (c : list C) : Prop :=
  length a = length c /\ length b = length c /\
  forall i x y z, nth_error a i = Some x -> nth_error b i = Some y -> nth_error c i = Some z -> R x y z.

Lemma sum_rounded f x y : fmt_ok f -> isf f x -> isf f y -> rounded_to f (x + y) (fop f (x + y)).
Proof.
  intros ok [Fx _] [Fy _]. destruct (fop f (x + y)) as [r|] eqn:E; cbn.
  - destruct (fop_isf f ok _ _ E) as [I ->]. split; auto.
    destruct (rn_add_rel f ok x y Fx Fy) as (e & He & ->). replace ((x + y) * (1 + e) - (x + y)) with (e * (x + y)) by ring.
    rewrite Rabs_mult. apply Rmult_le_compat_r; auto. apply Rabs_pos.
  - now apply fop_overflow.
Qed.
Lemma isf_opp f x : isf f x -> isf f (- x).
Proof. intros [A B]. split; [now apply F_opp|]. now rewrite Rabs_Ropp. Qed.
Lemma pair1 {A B C} (R : A -> B -> C -> Prop) x y z : R x y z -> pairwise R [x] [y] [z].
Proof. intros H. split; [reflexivity|]. split; [reflexivity|]. intros [|[]] ? ? ? H1 H2 H3; cbn in *; try discriminate; congruence. Qed.
Lemma pairS {A B C} (R : A -> B -> C -> Prop) x y z a b c : R x y z -> pairwise R a b c -> pairwise R (x :: a) (y :: b) (z :: c).
Proof.
  intros H (L1 & L2 & K). split; [cbn; congruence|]. split; [cbn; congruence|].
  intros [|i] ? ? ? H1 H2 H3; cbn in *; [congruence|]. eapply K; eauto.
Qed.
Ltac pw := repeat (first [apply pair1 | apply pairS]).

Theorem C65_sum_accuracy : forall f L m deg n p q, fmt_ok f -> cartesian p -> cls_of q = cls_of p ->
  exists s, fpos_add f L m deg (S n) p q = Ok false s /\ cls_of s = cls_of p /\
    pairwise (fun a b c => forall x y, a = Some x -> b = Some y -> isf f x -> isf f y -> rounded_to f (x + y) c)
      (coords p) (coords q) (coords s).
Proof.
  intros f L m deg n p q ok C E.
  destruct p, q; cbn in C, E; try contradiction; try discriminate; unfold fpos_add; cbn [pos_add cart_add]; unfold rep; step;
  (eexists; split; [reflexivity|]; split; [reflexivity|]; cbn [coords]; pw; intros ? ? -> -> ? ?; now apply sum_rounded).
Qed.
Print Assumptions C65_sum_accuracy.
Theorem C65_difference_accuracy : forall f L m deg n p q, fmt_ok f -> cartesian p -> cls_of q = cls_of p ->
  exists s, fpos_sub f L m deg (S n) p q = Ok false s /\ cls_of s = cls_of p /\
    pairwise (fun a b c => forall x y, a = Some x -> b = Some y -> isf f x -> isf f y -> rounded_to f (x - y) c)
      (coords p) (coords q) (coords s).
Proof.
  intros f L m deg n p q ok C E.
  destruct p, q; cbn in C, E; try contradiction; try discriminate; unfold fpos_sub; cbn [pos_sub cart_sub]; unfold rep; step;
  (eexists; split; [reflexivity|]; split; [reflexivity|]; cbn [coords]; pw; intros ? ? -> -> ? ?; apply sum_rounded; auto using isf_opp).
Qed.
Print Assumptions C65_difference_accuracy.

(** Addition is commutative bit by bit, negation is exact and an involution, and
    subtraction is the addition of the negative, also for infinities and NaN. *)
Theorem C65_sum_commutes_exactly : forall f L m deg n p q, cartesian p -> cls_of q = cls_of p ->
  fpos_add f L m deg (S n) p q = fpos_add f L m deg (S n) q p.
Proof.
  intros f L m deg n p q C E.
  assert (K : forall x y : ext, @nadd ext (Num_fl f L) x y = @nadd ext (Num_fl f L) y x).
  { intros [x|] [y|]; auto. cbn. now rewrite Rplus_comm. }
  destruct p, q; cbn in C, E; try contradiction; try discriminate; unfold fpos_add; cbn [pos_add cart_add]; unfold rep; step;
  unfold ret; rewrite !bind_ok; rewrite (K x x0), ?(K y y0), ?(K z z0); reflexivity.
Qed.
Print Assumptions C65_sum_commutes_exactly.
Theorem C65_negation_exact : forall f L m deg n p, cartesian p ->
  exists s, fpos_neg f L m deg n p = Ok false s /\ cls_of s = cls_of p /\
    coords s = map (fun v => match v with Some x => Some (- x) | None => None end) (coords p) /\
    fpos_neg f L m deg n s = Ok false p.
Proof.
  intros f L m deg n p C.
  assert (K : forall x : ext, @nneg ext (Num_fl f L) (@nneg ext (Num_fl f L) x) = x).
  { intros [x|]; auto. cbn. now rewrite Ropp_involutive. }
  destruct p; cbn in C; try contradiction; unfold fpos_neg; cbn [pos_neg cart_neg];
  (eexists; split; [reflexivity|]; split; [reflexivity|]; split; [reflexivity|]; cbn [pos_neg cart_neg]; rewrite ?K; reflexivity).
Qed.
Print Assumptions C65_negation_exact.
Theorem C65_difference_is_sum_with_negative : forall f L m deg n p q s, cartesian p -> cls_of q = cls_of p ->
  fpos_neg f L m deg (S n) q = Ok false s ->
  fpos_sub f L m deg (S n) p q = fpos_add f L m deg (S n) p s.
Proof.
  intros f L m deg n p q s C E.
  assert (K : forall x y : ext, @nsub ext (Num_fl f L) x y = @nadd ext (Num_fl f L) x (@nneg ext (Num_fl f L) y)).
  { intros [x|] [y|]; reflexivity. }
  destruct p, q; cbn in C, E; try contradiction; try discriminate; unfold fpos_neg; cbn [pos_neg cart_neg ret]; intros N; injection N as <-;
  unfold fpos_add, fpos_sub; cbn [pos_add cart_add pos_sub cart_sub]; unfold rep; step; unfold ret; rewrite !bind_ok, !K; reflexivity.
Qed.
Print Assumptions C65_difference_is_sum_with_negative.

(** The difference of finite positions vanishes exactly when they are equal (gradual
    underflow), and [==] says so. *)
Lemma fsub_0 f x y : fmt_ok f -> isf f x -> isf f y -> fop f (x - y) = Some 0 <-> x = y.
Proof.
  intros ok [Fx Bx] [Fy By]. split.
  - intros E. destruct (fop_isf f ok _ _ E) as [_ K]. now apply (rn_0_iff f x y ok).
  - intros ->. rewrite Rminus_diag_eq by auto. rewrite fop_small by (auto; rewrite Rabs_R0; lra). now rewrite rn0.
Qed.
Theorem C65_difference_zero_iff_equal : forall f L m deg n p q, fmt_ok f -> cartesian p -> cls_of q = cls_of p ->
  Forall (fun v => exists x, v = Some x /\ isf f x) (coords p) ->
  Forall (fun v => exists x, v = Some x /\ isf f x) (coords q) ->
  exists s e, fpos_sub f L m deg (S n) p q = Ok false s /\ fpos_eq f L m deg (S n) p q = Ok false e /\
    (Forall (fun v => v = Some 0) (coords s) <-> p = q) /\ (e = true <-> p = q).
Proof.
  intros f L m deg n p q ok C E Fp Fq.
  destruct p, q; cbn in C, E; try contradiction; try discriminate; unfold fpos_sub, fpos_eq, pos_eq; cbn [pos_sub cart_sub cls_of]; unfold rep; step;
  cbn [coords] in *;
  repeat match goal with X : Forall _ (_ :: _) |- _ => apply Forall_cons_iff in X; destruct X as [(? & -> & ?) X] end;
  (eexists _, _; split; [reflexivity|]; split; [reflexivity|]; cbn [coords]);
  cbn [nsub neqb Num_fl flift2 lift2b]; split.
  all: try (rewrite !Forall_cons_iff, ?fsub_0 by auto; split; [intros; repeat match goal with X : _ /\ _ |- _ => destruct X end; congruence | intros X; injection X; auto]).
  all: rewrite ?andb_true_iff, ?Reqb_true; split; [intros; repeat match goal with X : _ /\ _ |- _ => destruct X end; congruence | intros X; injection X; auto].
Qed.
Print Assumptions C65_difference_zero_iff_equal.

(** Finding: addition is not associative in any format, and [(v + w) - w] need not be
    [v]: a small displacement is absorbed. *)
Section Absorb.
Variable f : fmt.
Hypothesis ok : fmt_ok f.
Notation F := (generic_format radix2 (fexp_of f)).
Notation u := (fu f).
Lemma ulp1 : succ radix2 (fexp_of f) 1 = 1 + 2 * u.
Proof.
  destruct ok as (P & E1 & E2). rewrite succ_eq_pos by lra. f_equal. rewrite ulp_neq_0 by lra. unfold cexp.
  replace (mag radix2 1 : Z) with 1%Z by (symmetry; apply mag_unique; rewrite Rabs_R1; change (bpow radix2 (1 - 1)) with 1; change (bpow radix2 1) with 2; lra).
  unfold fexp_of, FLT_exp. rewrite Z.max_l by lia. unfold fu. replace (1 - fprec f)%Z with (1 + - fprec f)%Z by lia.
  rewrite bpow_plus. reflexivity.
Qed.
Lemma rn_absorb w : 0 <= w < u -> frnd f (1 + w) = 1.
Proof.
  intros H. apply Rle_antisym.
  - assert (Pg : Prec_gt_0 (fprec f)) by (destruct ok; red; lia).
    apply round_N_le_midp; [unfold fexp_of; typeclasses eauto|now apply F1|]. rewrite ulp1. lra.
  - apply rn_ge_F; auto. now apply F1. lra.
Qed.
Lemma rn_next w : u < w <= 2 * u -> frnd f (1 + w) = 1 + 2 * u.
Proof.
  intros H. assert (Pg : Prec_gt_0 (fprec f)) by (destruct ok; red; lia).
  assert (F2 : F (1 + 2 * u)) by (rewrite <- ulp1; apply generic_format_succ; [unfold fexp_of; typeclasses eauto|now apply F1]).
  apply Rle_antisym.
  - apply rn_le_F; auto. lra.
  - apply round_N_ge_midp; [unfold fexp_of; typeclasses eauto|exact F2|]. rewrite <- ulp1, pred_succ; [|unfold fexp_of; typeclasses eauto|now apply F1].
    rewrite ulp1. lra.
Qed.
Lemma F_small3 k : (femin f <= k)%Z -> F (3 * bpow radix2 k).
Proof.
  intros H. apply generic_format_FLT. exists (Float radix2 3 k); cbn [Fnum Fexp]; auto.
  destruct ok as (P & _). apply Z.lt_le_trans with (2 ^ 8)%Z; [reflexivity|]. change (radix_val radix2) with 2%Z. apply Z.pow_le_mono_r; lia.
Qed.
(** three quarters of u *)
Definition w34 : R := 3 * bpow radix2 (- fprec f - 2).
Lemma w34_eq : w34 = 3 / 4 * u.
Proof. unfold w34, fu. unfold Zminus. rewrite bpow_plus. change (bpow radix2 (- (2))) with (/ 4). field. Qed.
Lemma w34_isf : isf f w34.
Proof.
  pose proof (fu_pos f). pose proof (fu_small f ok). apply small_isf; auto.
  - apply F_small3. destruct ok as (P & E & _). lia.
  - rewrite Rabs_pos_eq; rewrite w34_eq; lra.
Qed.
Lemma w34_double : frnd f (w34 + w34) = w34 + w34.
Proof.
  apply rn_id. replace (w34 + w34) with (3 * bpow radix2 (- fprec f - 1)).
  apply F_small3. destruct ok as (P & E & _). lia.
  unfold w34. replace (- fprec f - 1)%Z with (1 + (- fprec f - 2))%Z by lia. rewrite bpow_plus. change (bpow radix2 1) with 2. ring.
Qed.
End Absorb.
Lemma fadd1 f L x y : fmt_ok f -> Rabs (x + y) <= 16 -> @nadd ext (Num_fl f L) (Some x) (Some y) = Some (frnd f (x + y)).
Proof. intros. cbn. now apply fop_small. Qed.
Lemma fsub1 f L x y : fmt_ok f -> Rabs (x - y) <= 16 -> @nsub ext (Num_fl f L) (Some x) (Some y) = Some (frnd f (x - y)).
Proof. intros. cbn. now apply fop_small. Qed.
Theorem C65_finding_not_associative : forall f L m deg n, fmt_ok f -> exists p q r pq qr s t : pos ext,
  Forall (fun v => exists x, v = Some x /\ isf f x) (coords p ++ coords q ++ coords r) /\ cartesian p /\
  fpos_add f L m deg (S n) p q = Ok false pq /\ fpos_add f L m deg (S n) pq r = Ok false s /\
  fpos_add f L m deg (S n) q r = Ok false qr /\ fpos_add f L m deg (S n) p qr = Ok false t /\
  fpos_eq f L m deg (S n) s t = Ok false false.
Proof.
  intros f L m deg n ok. pose proof (fu_pos f) as Pu. pose proof (fu_small f ok) as Su. pose proof (w34_eq f) as W.
  assert (I1 : isf f 1) by (apply small_isf; auto; [now apply F1|rewrite Rabs_R1; lra]).
  exists (PCart1 (Some 1)), (PCart1 (Some (w34 f))), (PCart1 (Some (w34 f))), (PCart1 (Some 1)), (PCart1 (Some (w34 f + w34 f))),
    (PCart1 (Some 1)), (PCart1 (Some (1 + 2 * fu f))).
  split; [cbn; repeat constructor; eauto using w34_isf|]. split; [exact I|].
  unfold fpos_add, fpos_eq, pos_eq; cbn [pos_add cart_add cls_of]; unfold rep.
  repeat match goal with |- _ /\ _ => split end; step; unfold ret; rewrite bind_ok.
  1-4: rewrite !fadd1 by (auto; rewrite Rabs_pos_eq; lra).
  - now rewrite (rn_absorb f ok (w34 f)) by lra.
  - now rewrite (rn_absorb f ok (w34 f)) by lra.
  - now rewrite w34_double by auto.
  - now rewrite (rn_next f ok (w34 f + w34 f)) by lra.
  - cbn. unfold ret. f_equal. apply Reqb_false. lra.
Qed.
Print Assumptions C65_finding_not_associative.
Theorem C65_finding_absorption : forall f L m deg n w, fmt_ok f -> isf f w -> 0 < w < fu f ->
  exists s t : pos ext, fpos_add f L m deg (S n) (PCart1 (Some w)) (PCart1 (Some 1)) = Ok false s /\
    fpos_sub f L m deg (S n) s (PCart1 (Some 1)) = Ok false t /\ coords t = [Some 0].
Proof.
  intros f L m deg n w ok Iw Hw. pose proof (fu_small f ok) as Su.
  exists (PCart1 (Some 1)), (PCart1 (Some 0)). unfold fpos_add, fpos_sub; cbn [pos_add cart_add pos_sub cart_sub]; unfold rep; step; unfold ret; rewrite !bind_ok.
  rewrite fadd1, fsub1 by (auto; rewrite Rabs_pos_eq; lra). rewrite (Rplus_comm w 1), rn_absorb by (auto; lra).
  replace (1 - 1) with 0 by ring. rewrite rn0. repeat split.
Qed.
Print Assumptions C65_finding_absorption.

(** ** The norm *)
(** It is the radius that the conversion to spherical coordinates computes, bit for
    bit, and has the same accuracy: (1 + u)^3. *)
Lemma norm3_is f L deg n x y z : fpos_norm f L deg (S n) (cart3 x y z) =
  Ok false (mkDist KDistance (@nsqrt ext (NF f L) (@nadd ext (NF f L) (@nadd ext (NF f L) (@nsq ext (NF f L) (Some x)) (@nsq ext (NF f L) (Some y)))
                                         (@nsq ext (NF f L) (Some z))))).
Proof.
  unfold fpos_norm, cart3. cbn [pos_norm]. unfold pos_mul_pos, cart_components, rep. step. unfold ret. rewrite ?bind_ok. reflexivity.
Qed.
Theorem C65_norm_is_the_spherical_radius : forall f L m deg n x y z,
    fmt_ok f -> libm_ok f L -> usable f x -> usable f y -> usable f z ->
    not_tiny f x \/ not_tiny f y \/ not_tiny f z ->
    exists r th ph,
      frepresent_as f L m deg (S n) nokw (cart3 x y z) CSph = Ok false (PSph (fdist r) (Some th) (Some ph)) /\
      fpos_norm f L deg (S n) (cart3 x y z) = Ok false (fdist r) /\ 0 < r.
Proof.
  intros f L m deg n x y z ok Lok Ux Uy Uz N.
  destruct (C59_cartesian_to_spherical f L m deg n x y z ok Lok Ux Uy Uz N) as (r & th & ph & E & I & P & _).
  exists r, th, ph. split; auto. split; auto. rewrite norm3_is.
  destruct Ux as [[Fx Ox] Rx], Uy as [[Fy Oy] Ry], Uz as [[Fz Oz] Rz].
  destruct (fl_norm3 f L ok x y z Fx Fy Fz Rx Ry Rz) as (r' & Er & Vr & Ir & Pr & _). rewrite Er.
  assert (r = r'); [|now subst].
  unfold frepresent_as, cart3 in E. revert E. step. change (Num_fl f L) with (NF f L). cbv zeta. rewrite Er.
    unfold mk_Sph. cbn [conv_r length_of_kind dval]. rewrite fl_check_nonneg by auto.
    unfold ret at 1. unfold bind at 1. destruct (check_polar _ _ _ _) as [w []|]; [| discriminate].
    unfold bind, ret. unfold fdist. intros H. injection H. auto.
Qed.
Print Assumptions C65_norm_is_the_spherical_radius.
Theorem C65_norm_accuracy : forall f L deg n x y z,
    fmt_ok f -> libm_ok f L -> usable f x -> usable f y -> usable f z ->
    no_underflow f x -> no_underflow f y -> no_underflow f z -> x <> 0 \/ y <> 0 \/ z <> 0 ->
    exists r, fpos_norm f L deg (S n) (cart3 x y z) = Ok false (fdist r) /\ isf f r /\
      sqrt (x * x + y * y + z * z) * (1 - fu f) ^ 3 <= r <= sqrt (x * x + y * y + z * z) * (1 + fu f) ^ 3.
Proof.
  intros f L deg n x y z ok Lok Ux Uy Uz Nx Ny Nz N.
  assert (T : not_tiny f x \/ not_tiny f y \/ not_tiny f z).
  { destruct Nx as [-> | ?]; [|now left]. destruct Ny as [-> | ?]; [|now right; left]. destruct Nz as [-> | ?]; [|now right; right]. lra. }
  destruct (C65_norm_is_the_spherical_radius f L Traced deg n x y z ok Lok Ux Uy Uz T) as (r & th & ph & E & En & P).
  exists r. split; auto. split.
  - destruct (C59_cartesian_to_spherical f L Traced deg n x y z ok Lok Ux Uy Uz T) as (r' & th' & ph' & E' & I & _).
    rewrite E' in E. injection E as <- _ _. exact I.
  - eapply C59_radius_accuracy; eauto.
Qed.
Print Assumptions C65_norm_accuracy.
(** Negation keeps the norm exactly. *)
Theorem C65_norm_of_negative : forall f L m deg n x y z s,
  fpos_neg f L m deg n (cart3 x y z) = Ok false s -> fpos_norm f L deg (S n) s = fpos_norm f L deg (S n) (cart3 x y z).
Proof.
  intros f L m deg n x y z s. unfold fpos_neg, cart3. cbn [pos_neg cart_neg ret]. intros E. injection E as <-.
  cbn [nneg Num_fl lift1]. change (PCart3 (Some (- x)) (Some (- y)) (Some (- z)) : pos ext) with (cart3 (- x) (- y) (- z)).
  change (PCart3 (Some x) (Some y) (Some z) : pos ext) with (cart3 x y z). rewrite !norm3_is. unfold nsq. cbn [nmul NF Num_fl flift2].
  unfold NF. cbn [nmul Num_fl flift2]. now rewrite !Rmult_opp_opp.
Qed.
Print Assumptions C65_norm_of_negative.
(** Finding: the norm of a short non-zero vector is zero (its square underflows). *)
Theorem C65_finding_norm_of_short_vector_is_zero : forall f L deg n x y z,
  fmt_ok f -> isf f x -> isf f y -> isf f z ->
  x * x < bpow radix2 (femin f - 1) -> y * y < bpow radix2 (femin f - 1) -> z * z < bpow radix2 (femin f - 1) ->
  fpos_norm f L deg (S n) (cart3 x y z) = Ok false (fdist 0).
Proof.
  intros f L deg n x y z ok Ix Iy Iz Hx Hy Hz. rewrite norm3_is.
  assert (Pg : Prec_gt_0 (fprec f)) by (destruct ok; red; lia).
  assert (K : forall v, v * v < bpow radix2 (femin f - 1) -> @nsq ext (NF f L) (Some v) = Some 0).
  { intros v Hv. unfold nsq. cbn.
    assert (E : frnd f (v * v) = 0).
    { apply Rle_antisym; [| apply rn_ge_F; auto; [apply F0 | nra]].
      apply round_N_le_midp; [unfold fexp_of; typeclasses eauto|apply F0|].
      rewrite succ_0. unfold fexp_of. rewrite ulp_FLT_0 by auto.
      replace (femin f) with (femin f - 1 + 1)%Z by lia. rewrite bpow_plus. change (bpow radix2 1) with 2. lra. }
    unfold fop. rewrite E. apply fin_some. rewrite Rabs_R0. apply bpow_gt_0. }
  rewrite !K by auto.
  assert (A : @nadd ext (NF f L) (Some 0) (Some 0) = Some 0).
  { cbn. unfold fop. rewrite Rplus_0_l, rn0. apply fin_some. rewrite Rabs_R0. apply bpow_gt_0. }
  rewrite !A. cbn. assert (Q : Rleb 0 0 = true) by (apply Rleb_true; lra). rewrite Q, sqrt_0. unfold fop. rewrite rn0.
  rewrite fin_some by (rewrite Rabs_R0; apply bpow_gt_0). reflexivity.
Qed.
Print Assumptions C65_finding_norm_of_short_vector_is_zero.
(** so a position can differ from the origin although its norm is zero *)
Theorem C65_finding_zero_norm_not_zero : forall L m deg n, exists p : pos ext,
  fpos_norm binary32 L deg (S n) p = Ok false (fdist 0) /\
  fpos_eq binary32 L m deg (S n) p (cart3 0 0 0) = Ok false false.
Proof.
  intros L m deg n. exists (cart3 (bpow radix2 (-76)) 0 0). pose proof binary32_ok as ok. split.
  - apply C65_finding_norm_of_short_vector_is_zero; auto; try (apply (usable_int binary32 0); auto; lia).
    + split. apply F_bpow; auto. simpl; lia. rewrite Rabs_pos_eq by apply bpow_ge_0. apply bpow_lt. simpl; lia.
    + rewrite <- bpow_plus. apply bpow_lt. simpl; lia.
    + rewrite Rmult_0_l. apply bpow_gt_0.
    + rewrite Rmult_0_l. apply bpow_gt_0.
  - unfold fpos_eq, pos_eq, cart3. cbn [cls_of]. unfold rep. step. unfold ret. rewrite bind_ok. cbn [eq_components neqb Num_fl lift2b].
    rewrite (proj2 (Reqb_false _ _)); [reflexivity|]. apply Rgt_not_eq, bpow_gt_0.
Qed.
Print Assumptions C65_finding_zero_norm_not_zero.

(** ** Multiples *)
(** A product is rounded once; a power of two scales exactly unless a coordinate
    underflows or overflows. *)
Theorem C65_multiple_accuracy : forall f L m deg n k p, fmt_ok f -> cartesian p -> isf f k ->
  exists s, fpos_mul f L m deg n (Some k) p = Ok false s /\ cls_of s = cls_of p /\
    pairwise (fun a b c => forall x, a = Some x -> isf f x ->
       match c with
       | Some r => isf f r /\ Rabs (r - k * x) <= fu f * Rabs (k * x) + bpow radix2 (femin f)
       | None => fmax f * (1 - fu f) < Rabs (k * x)
       end) (coords p) (coords p) (coords s).
Proof.
  intros f L m deg n k p ok C Ik.
  assert (K : forall x, match fop f (k * x) with
       | Some r => isf f r /\ Rabs (r - k * x) <= fu f * Rabs (k * x) + bpow radix2 (femin f)
       | None => fmax f * (1 - fu f) < Rabs (k * x)
       end).
  { intros x. destruct (fop f (k * x)) as [r|] eqn:E; [|now apply fop_overflow].
    destruct (fop_isf f ok _ _ E) as [I ->]. split; auto. now apply rn_err. }
  destruct p; cbn in C; try contradiction; unfold fpos_mul; cbn [pos_mul cart_mul]; unfold mk_Cart1, mk_Cart2, mk_Cart3;
  (eexists; split; [reflexivity|]; split; [reflexivity|]; cbn [coords]; pw; intros ? -> ?; apply K).
Qed.
Print Assumptions C65_multiple_accuracy.
Lemma F_scale f x k : fmt_ok f -> generic_format radix2 (fexp_of f) x -> fmin_normal f <= Rabs (x * bpow radix2 k) ->
  generic_format radix2 (fexp_of f) (x * bpow radix2 k).
Proof.
  intros ok Fx N. assert (Pg : Prec_gt_0 (fprec f)) by (destruct ok; red; lia).
  destruct (Req_dec x 0) as [->|X0]. { rewrite Rmult_0_l. apply generic_format_0. }
  assert (Fx' : FLX_format radix2 (fprec f) x). { eapply FLX_format_generic; auto. eapply generic_format_FLX_FLT. exact Fx. }
  destruct Fx' as [g Eg Bg]. apply generic_format_FLX_FLT || idtac.
  apply generic_format_FLT_FLX; [exact N|]. apply generic_format_FLX. exists (Float radix2 (Fnum g) (Fexp g + k)); auto.
  rewrite Eg. unfold F2R. cbn [Fnum Fexp]. rewrite bpow_plus. ring.
Qed.
Theorem C65_power_of_two_exact : forall f L m deg n e x y z, fmt_ok f ->
  (femin f <= e < femax f)%Z -> isf f x -> isf f y -> isf f z ->
  (forall v, v = x \/ v = y \/ v = z -> v = 0 \/ fmin_normal f <= Rabs (v * bpow radix2 e) < fmax f) ->
  fpos_mul f L m deg n (Some (bpow radix2 e)) (cart3 x y z) =
    Ok false (cart3 (x * bpow radix2 e) (y * bpow radix2 e) (z * bpow radix2 e)).
Proof.
  intros f L m deg n e x y z ok He Ix Iy Iz H.
  assert (K : forall v, isf f v -> v = x \/ v = y \/ v = z -> @nmul ext (Num_fl f L) (Some (bpow radix2 e)) (Some v) = Some (v * bpow radix2 e)).
  { intros v [Fv Bv] Iv. cbn. rewrite Rmult_comm. specialize (H v Iv). unfold fop. rewrite rn_id.
    - apply fin_some. destruct H as [-> | H]; [rewrite Rmult_0_l, Rabs_R0; apply bpow_gt_0|apply H].
    - destruct H as [-> | H]; [rewrite Rmult_0_l; apply F0|]. apply F_scale; auto. apply H. }
  unfold fpos_mul, cart3. cbn [pos_mul cart_mul]. unfold mk_Cart3. rewrite !K by auto. reflexivity.
Qed.
Print Assumptions C65_power_of_two_exact.

(** Not vacuous. *)
Example C65_case : fmt_ok binary32 /\ cartesian (cart3 1 2 3) /\
  Forall (fun v => exists x, v = Some x /\ isf binary32 x) (coords (cart3 1 2 3)) /\
  (usable binary32 1 /\ no_underflow binary32 1).
Proof.
  pose proof binary32_ok as ok. split; auto. split; [exact I|]. split.
  - unfold cart3. cbn [coords]. repeat constructor; eexists; (split; [reflexivity|]).
    + apply (usable_int binary32 1); auto; lia.
    + apply (usable_int binary32 2); auto; lia.
    + apply (usable_int binary32 3); auto; lia.
  - split; [apply (usable_int binary32 1); auto; lia|]. right. unfold not_tiny. pose proof (min_normal_small _ ok). lra.
Qed.
