(** * Error bounds for the functions used by distances. *)
From Coq Require Import Reals Bool List ZArith Lra Lia.
From Flocq Require Import Core.
From Verif Require Import Num Vectors Float FloatThm.
Open Scope R_scope.

(** [a] is within a relative error [e] of the positive number [b] *)
Definition rel (e a b : R) : Prop := b * (1 - e) <= a <= b * (1 + e).
Lemma rel_of_abs e a b : Rabs (a - b) <= e * b -> rel e a b.
Proof. intros H. apply Rabs_le_inv in H. split; nra. Qed.
Lemma rel_abs e a b : rel e a b -> Rabs (a - b) <= e * b.
Proof. intros [H1 H2]. apply Rabs_le. split; nra. Qed.
Lemma rel_pos e a b : 0 < b -> e < 1 -> rel e a b -> 0 < a.
Proof. intros B E [H1 H2]. nra. Qed.
Lemma rel_weak e e' a b : 0 <= b -> e <= e' -> rel e a b -> rel e' a b.
Proof. intros B E [H1 H2]. split; nra. Qed.
Lemma rel_trans e d a b c : 0 < c -> 0 <= e -> 0 <= d <= 1 -> rel e a b -> rel d b c -> rel (e + d + e * d) a c.
Proof.
  intros C E [D D1] [H1 H2] [H3 H4]. split.
  - destruct (Rle_dec e 1).
    + assert (c * (1 - d) * (1 - e) <= b * (1 - e)) by (apply Rmult_le_compat_r; lra). assert (0 <= c * (e * d)) by (apply Rmult_le_pos; [lra|apply Rmult_le_pos; lra]). nra.
    + assert (b * (1 - e) >= c * (1 + d) * (1 - e)) by nra. nra.
  - assert (b * (1 + e) <= c * (1 + d) * (1 + e)) by (apply Rmult_le_compat_r; lra). nra.
Qed.
Lemma rel_inv e a b : 0 < b -> 0 <= e < 1 -> rel e a b -> rel (e / (1 - e)) (/ a) (/ b).
Proof.
  intros B [E E1] H. assert (A : 0 < a) by (apply (rel_pos e a b); auto). destruct H as [H1 H2].
  assert (I : 0 < / (1 - e)) by (apply Rinv_0_lt_compat; lra). split.
  - apply Rmult_le_reg_r with a; auto. rewrite Rinv_l by lra. apply Rmult_le_reg_r with (b * (1 - e)). apply Rmult_lt_0_compat; lra.
    replace (/ b * (1 - e / (1 - e)) * a * (b * (1 - e))) with ((1 - e - e) * a) by (field; lra).
    assert ((1 - 2 * e) * a <= b * (1 - e)). { destruct (Rle_dec 0 (1 - 2 * e)). assert ((1 - 2 * e) * a <= (1 - 2 * e) * (b * (1 + e))) by (apply Rmult_le_compat_l; lra). nra. nra. }
    lra.
  - apply Rmult_le_reg_r with a; auto. rewrite Rinv_l by lra. apply Rmult_le_reg_r with (b * (1 - e)). apply Rmult_lt_0_compat; lra.
    replace (/ b * (1 + e / (1 - e)) * a * (b * (1 - e))) with a by (field; lra). lra.
Qed.

(** ** arctangent *)
Lemma atan_concave k t : 0 <= k <= 1 -> 0 <= t -> k * atan t <= atan (k * t).
Proof.
  intros K T. destruct (Rle_lt_or_eq_dec _ _ T) as [T'|<-]; [|rewrite Rmult_0_r, atan_0; lra].
  destruct (Rle_lt_or_eq_dec 0 k) as [K'|<-]; [lra| |rewrite !Rmult_0_l, atan_0; lra].
  assert (D : forall c, 0 <= c <= t -> derivable_pt_lim (fun x => atan (k * x) - k * atan x) c (k / (1 + (k * c) * (k * c)) - k / (1 + c * c))).
  { intros c _. apply derivable_pt_lim_minus.
    - replace (k / (1 + k * c * (k * c))) with (/ (1 + (k * c) ^ 2) * k) by (field; assert (0 <= (k*c)*(k*c)) by apply Rle_0_sqr; nra).
      assert (G : derivable_pt_lim (fun x => k * x) c k) by (pose proof (derivable_pt_lim_scal id k c 1 (derivable_pt_lim_id c)) as G; rewrite Rmult_1_r in G; exact G).
      exact (derivable_pt_lim_comp (fun x => k * x) atan c _ _ G (derivable_pt_lim_atan (k * c))).
    - replace (k / (1 + c * c)) with (k * / (1 + c ^ 2)) by (field; assert (0 <= c*c) by apply Rle_0_sqr; nra). exact (derivable_pt_lim_scal atan k c _ (derivable_pt_lim_atan c)). }
  destruct (MVT_cor2 (fun x => atan (k * x) - k * atan x) _ 0 t T' D) as (c & E & C1 & C2). rewrite Rmult_0_r, atan_0 in E.
  assert (0 <= k / (1 + k * c * (k * c)) - k / (1 + c * c)).
  { assert (Q : 0 <= c * c) by apply Rle_0_sqr. assert (Q' : (k * c) * (k * c) <= c * c). { replace (k*c*(k*c)) with ((k*k)*(c*c)) by ring. assert (k*k <= 1) by nra. nra. } assert (Q2 : 0 <= k * c * (k * c)) by apply Rle_0_sqr.
    assert (/ (1 + c * c) <= / (1 + k * c * (k * c))) by (apply Rinv_le_contravar; lra). unfold Rdiv. nra. }
  nra.
Qed.
Lemma atan_le a b : a <= b -> atan a <= atan b.
Proof. intros [H|<-]; [left; now apply atan_increasing|right; reflexivity]. Qed.
Lemma atan_pos t : 0 < t -> 0 < atan t < PI / 2.
Proof. intros T. rewrite <- atan_0. split. now apply atan_increasing. apply atan_bound. Qed.
Lemma rel_atan e t t' : 0 < t -> 0 <= e < 1 -> rel e t' t -> rel e (atan t') (atan t).
Proof.
  intros T [E E1] [H1 H2]. split.
  - rewrite Rmult_comm. eapply Rle_trans. apply atan_concave; lra. apply atan_le. lra.
  - assert (J : 0 < / (1 + e)) by (apply Rinv_0_lt_compat; lra). pose proof (atan_concave (/ (1 + e)) (t * (1 + e))) as A.
    replace (/ (1 + e) * (t * (1 + e))) with t in A by (field; lra).
    assert (I : / (1 + e) <= 1) by (rewrite <- Rinv_1; apply Rinv_le_contravar; lra).
    assert (B : / (1 + e) * atan (t * (1 + e)) <= atan t) by (apply A; nra).
    apply Rle_trans with (atan (t * (1 + e))). apply atan_le; lra.
    apply Rmult_le_reg_l with (/ (1 + e)); auto. replace (/ (1 + e) * (atan t * (1 + e))) with (atan t) by (field; lra). exact B.
Qed.
Lemma Ratan2_one x : 0 < x -> Ratan2 1 x = atan (/ x).
Proof. intros H. unfold Ratan2. apply Rltb_true in H. rewrite H. unfold Rdiv. now rewrite Rmult_1_l. Qed.

(** ** tangent *)
Lemma tan_PI3_le : tan (PI / 3) <= 1.74.
Proof. rewrite tan_PI3. apply Rsqr_incr_0_var; [|lra]. rewrite Rsqr_sqrt by lra. unfold Rsqr; lra. Qed.
Lemma tan_le a b : - (PI / 2) < a -> a <= b -> b < PI / 2 -> tan a <= tan b.
Proof. intros A [H|<-] B; [left; apply tan_increasing; pose proof PI_pos; lra|right; reflexivity]. Qed.
Lemma tan_ge p : 0 <= p < PI / 2 -> p <= tan p.
Proof.
  intros [H1 H2]. destruct (Rle_lt_or_eq_dec _ _ H1) as [P|<-]; [|rewrite tan_0; lra].
  assert (D : forall c, 0 <= c <= p -> derivable_pt_lim tan c (1 + tan c ^ 2)).
  { intros c Hc. assert (J : - PI / 2 < c < PI / 2) by (pose proof PI_pos; lra). pose proof (derive_pt_tan c J) as G. now apply derive_pt_eq in G. }
  destruct (MVT_cor2 tan (fun c => 1 + tan c ^ 2) 0 p P D) as (c & E & _). rewrite tan_0 in E. pose proof (pow2_ge_0 (tan c)). nra.
Qed.
(** up to pi/3 the tangent amplifies relative errors at most fivefold *)
Lemma rel_tan e p p' : 0 < p -> 0 <= e < 1 -> p <= PI / 3 -> p' <= PI / 3 -> rel e p' p -> rel (5 * e) (tan p') (tan p).
Proof.
  intros P [E E1] B B' [H1 H2]. pose proof PI_bounds. assert (P' : 0 < p') by nra. pose proof (tan_ge p).
  assert (D : forall c, 0 <= c <= PI / 3 -> derivable_pt_lim tan c (1 + tan c ^ 2)).
  { intros c Hc. assert (J : - PI / 2 < c < PI / 2) by (pose proof PI_pos; lra). pose proof (derive_pt_tan c J) as G. now apply derive_pt_eq in G. }
  assert (S : forall c, 0 <= c <= PI / 3 -> 0 <= tan c ^ 2 <= 4).
  { intros c Hc. assert (0 <= tan c). rewrite <- tan_0. apply tan_le; lra. assert (tan c <= 1.74). eapply Rle_trans. 2: apply tan_PI3_le. apply tan_le; lra. split; nra. }
  apply rel_of_abs. assert (Q : Rabs (tan p' - tan p) <= 5 * Rabs (p' - p)).
  { destruct (Rtotal_order p p') as [L|[<-|L]].
    - destruct (MVT_cor2 tan (fun c => 1 + tan c ^ 2) p p' L) as (c & F & C1 & C2). intros; apply D; lra. rewrite F. rewrite Rabs_mult. apply Rmult_le_compat_r. apply Rabs_pos. pose proof (S c). apply Rabs_le; lra.
    - rewrite !Rminus_diag_eq by reflexivity. rewrite Rabs_R0. lra.
    - destruct (MVT_cor2 tan (fun c => 1 + tan c ^ 2) p' p L) as (c & F & C1 & C2). intros; apply D; lra. rewrite Rabs_minus_sym, F. rewrite (Rabs_minus_sym p' p). rewrite Rabs_mult. apply Rmult_le_compat_r. apply Rabs_pos. pose proof (S c). apply Rabs_le; lra. }
  eapply Rle_trans. exact Q. assert (Rabs (p' - p) <= e * p) by (apply Rabs_le; split; nra). assert (p <= tan p) by (apply H0; lra). nra.
Qed.

(** ** logarithm and power *)
Definition log10 (x : R) : R := ln x / ln 10.
Lemma ln10_bounds : 2 <= ln 10 <= 3.
Proof.
  split.
  - rewrite <- (ln_exp 2). assert (exp 2 < 10). { replace 2 with (1 + 1) by ring. rewrite exp_plus. pose proof exp_le_3. pose proof (exp_pos 1). nra. } left. apply ln_increasing. apply exp_pos. lra.
  - rewrite <- (ln_exp 3) at 1. left. apply ln_increasing. lra. pose proof (exp_ineq1 (1/2) ltac:(lra)). replace 3 with (1/2+1/2+(1/2+1/2)+(1/2+1/2)) by field. rewrite !exp_plus. set (a := exp (1/2)) in *. assert (2.25 < a * a) by nra. set (b := a * a) in *. assert (b * b > 5.06) by nra. nra.
Qed.
Lemma ln_le' x : 0 < x -> ln x <= x - 1.
Proof. intros H. rewrite <- (ln_exp (x - 1)). destruct (Req_dec x 1) as [->|N]. rewrite Rminus_diag_eq by auto. rewrite exp_0, ln_1. lra.
  left. apply ln_increasing; auto. pose proof (exp_ineq1 (x - 1)). lra. Qed.
Lemma rel_log e a b : 0 < b -> 0 <= e <= 1/2 -> rel e a b -> Rabs (log10 a - log10 b) <= e / (1 - e) / 2.
Proof.
  intros B E H. assert (A : 0 < a) by (apply (rel_pos e a b); auto; lra). unfold log10.
  assert (Q : forall x y, 0 < x -> 0 < y -> ln x - ln y <= x / y - 1). { intros x y X Y. replace (ln x - ln y) with (ln (x / y)). apply ln_le'. now apply Rdiv_lt_0_compat. unfold Rdiv. rewrite ln_mult, ln_Rinv by auto using Rinv_0_lt_compat. ring. }
  assert (L1 : ln a - ln b <= e). { eapply Rle_trans. apply Q; auto. destruct H as [_ H]. apply Rmult_le_reg_r with b; auto. replace ((a / b - 1) * b) with (a - b) by (field; lra). lra. }
  assert (L2 : ln b - ln a <= e / (1 - e)). { eapply Rle_trans. apply Q; auto. destruct (rel_inv e a b B) as [_ H']; auto. lra. apply Rmult_le_compat_l with (r := b) in H'; [|lra]. replace (b * (/ b * (1 + e / (1 - e)))) with (1 + e / (1 - e)) in H' by (field; lra). unfold Rdiv at 1. lra. }
  assert (L3 : e <= e / (1 - e)). { apply Rmult_le_reg_r with (1 - e). lra. replace (e / (1 - e) * (1 - e)) with e by (field; lra). nra. }
  pose proof ln10_bounds. set (q := e / (1 - e)) in *. replace (ln a / ln 10 - ln b / ln 10) with ((ln a - ln b) * / ln 10) by (field; lra).
  assert (0 < / ln 10 <= / 2). { split. apply Rinv_0_lt_compat; lra. apply Rinv_le_contravar; lra. }
  rewrite Rabs_mult. rewrite (Rabs_pos_eq (/ ln 10)) by lra. assert (Rabs (ln a - ln b) <= q) by (apply Rabs_le; lra). pose proof (Rabs_pos (ln a - ln b)). unfold Rdiv. nra.
Qed.
Lemma rel_pow10 d x y : Rabs (x - y) <= d -> d <= 1/6 -> rel (6 * d) (Rpower 10 x) (Rpower 10 y).
Proof.
  intros H D. replace x with (y + (x - y)) by ring. rewrite Rpower_plus. set (z := x - y) in *. assert (P : 0 < Rpower 10 y) by apply exp_pos.
  assert (Z : rel (6 * d) (Rpower 10 z) 1); [|destruct Z; split; nra].
  unfold Rpower. pose proof ln10_bounds. set (w := z * ln 10). apply Rabs_le_inv in H.
  assert (W : Rabs w <= 3 * d). { unfold w. apply Rabs_le. split; nra. } apply Rabs_le_inv in W.
  assert (X1 : 1 + w <= exp w) by (destruct (Req_dec w 0) as [->|N]; [rewrite exp_0; lra|left; now apply exp_ineq1]).
  assert (X2 : 1 - w <= exp (- w)) by (destruct (Req_dec w 0) as [->|N]; [rewrite Ropp_0, exp_0; lra|replace (1 - w) with (1 + - w) by ring; left; apply exp_ineq1; lra]).
  assert (X3 : exp w * exp (- w) = 1) by (rewrite <- exp_plus, Rplus_opp_r; apply exp_0). pose proof (exp_pos w). pose proof (exp_pos (- w)).
  split. lra. rewrite Rmult_1_l. assert (exp w * (1 - w) <= 1) by nra. nra.
Qed.
