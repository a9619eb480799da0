(** * C74, second part: Cartesian velocities to polar and cylindrical ones,
      LonLat <-> LonCosLat, and accelerations, in floating point. *)
From Coq Require Import Reals Bool List ZArith Lra Lia.
From Flocq Require Import Core.
From Verif Require Dispatch OpThm SpaceThm.
From Verif Require Import Num Vectors Transform Pos3D Pos3DThm Vel UVel Float FloatThm FloatConv PropFloat PropFloat3 FVel PropFloat6.
Import ListNotations.
Open Scope R_scope.

(** The inverse of a number whose square is a normal number is a normal number
    (true of binary32, binary64 and bfloat16). *)
Definition balanced (f : fmt) : Prop := (2 * (femin f + fprec f) + femax f <= 0 /\ 8 <= femin f + fprec f + 2 * femax f)%Z.
Lemma balanced_all : balanced binary32 /\ balanced binary64 /\ balanced bfloat16.
Proof. unfold balanced. cbn. lia. Qed.

Section Ops.
Variable f : fmt.
Variable L : libm.
Hypothesis ok : fmt_ok f.
Hypothesis Lok : libm_ok f L.
Hypothesis bal : balanced f.
Notation "a *! b" := (@nmul ext (NF f L) a b) (at level 40, left associativity).
Notation "a +! b" := (@nadd ext (NF f L) a b) (at level 50, left associativity).
Notation "a /! b" := (@ndiv ext (NF f L) a b) (at level 40, left associativity).
Notation u := (fu f).
Notation rn := (frnd f).

Lemma s0 x : isf f x -> @nsub ext (NF f L) (Some 0) (Some x) = Some (- x).
Proof. intros I. cbn. rewrite Rminus_0_l. apply fop_id; auto. now apply isf_opp. Qed.
Lemma sx0 x : isf f x -> @nsub ext (NF f L) (Some x) (Some 0) = Some x.
Proof. intros I. cbn. rewrite Rminus_0_r. now apply fop_id. Qed.
Lemma F_double x : generic_format radix2 (fexp_of f) x -> generic_format radix2 (fexp_of f) (x + x).
Proof.
  intros F. assert (0 < fprec f)%Z by (destruct ok; lia).
  apply FLT_format_generic in F; [|exact H]. destruct F as [g E1 E2 E3].
  apply generic_format_FLT. exists (Float radix2 (Fnum g) (Fexp g + 1)).
  - rewrite E1. unfold F2R. cbn. rewrite bpow_plus. change (bpow radix2 1) with 2. ring.
  - exact E2.
  - cbn. lia.
Qed.
Lemma double x : usable f x -> Some x +! Some x = Some (2 * x) /\ isf f (2 * x).
Proof.
  intros [[F B] Rm]. assert (F2 : isf f (2 * x)).
  { replace (2 * x) with (x + x) by ring. split; [now apply F_double|].
    unfold room in Rm. pose proof (max_big f ok). 
    assert (E : bpow radix2 (femax f - 3) = fmax f / 8).
    { unfold fmax. replace (femax f) with (femax f - 3 + 3)%Z at 2 by lia. rewrite bpow_plus. change (bpow radix2 3) with 8. field. }
    rewrite E in Rm.
    assert (Q : Rabs x * Rabs x <= fmax f / 8) by (rewrite <- Rabs_mult, Rabs_pos_eq by nra; auto).
    replace (x + x) with (2 * x) by ring. rewrite Rabs_mult, (Rabs_pos_eq 2) by lra.
    pose proof (Rabs_pos x). destruct (Rlt_or_le (2 * Rabs x) (fmax f)); auto. nra. }
  split; auto. cbn. replace (x + x) with (2 * x) by ring. now apply fop_id.
Qed.
(** the rounded squared length, and length *)
Lemma norm_facts x y : usable f x -> usable f y -> no_underflow f x -> no_underflow f y -> 0 < x * x + y * y ->
  exists s r, Some x *! Some x +! Some y *! Some y = Some s /\ Some y *! Some y +! Some x *! Some x = Some s /\
    @nsqrt ext (NF f L) (Some s) = Some r /\ isf f s /\ isf f r /\ 0 < r /\ Rabs x <= r /\ Rabs y <= r /\
    (x * x + y * y) * (1 - u) ^ 2 <= s <= (x * x + y * y) * (1 + u) ^ 2 /\
    sqrt (x * x + y * y) * (1 - u) ^ 3 <= r <= sqrt (x * x + y * y) * (1 + u) ^ 3 /\
    fmin_normal f <= x * x + y * y <= fmax f / 4.
Proof.
  intros [[Fx Bx] Rx] [[Fy By] Ry] Nx Ny P. pose proof (emax_big f ok).
  destruct (fl_sq f L ok x Rx) as (E1 & B1 & G1). destruct (fl_sq f L ok y Ry) as (E2 & B2 & G2).
  destruct (fl_add f L ok _ _ (femax f - 3) G1 G2 B1 B2 ltac:(lia)) as (E3 & B3 & B4 & B5 & G3).
  destruct (fl_norm2 f L ok x y Fx Fy Rx Ry) as (r & Er & Vr & Ir & Pr & Hr).
  unfold nsq in E1, E2, Er. rewrite E1, E2, E3 in *.
  assert (D : forall v, no_underflow f v -> v * v = 0 \/ fmin_normal f <= v * v).
  { intros v [-> | K]. left; ring. right; exact K. }
  assert (Nt : fmin_normal f <= x * x \/ fmin_normal f <= y * y).
  { destruct (D x Nx); destruct (D y Ny); auto. lra. }
  destruct (Hr Nt) as (R0 & Rx' & Ry').
  pose proof (sq_rel f x ok Nx) as Hx. pose proof (sq_rel f y ok Ny) as Hy.
  pose proof (fu_pos f) as Pu. pose proof (fu_small f ok) as Su.
  assert (X0 : 0 <= x * x) by nra. assert (Y0 : 0 <= y * y) by nra.
  pose proof (add_rel f _ _ ok G1 G2 ltac:(lra) ltac:(lra)) as H1.
  assert (S1 : (x * x + y * y) * (1 - u) ^ 2 <= rn (rn (x * x) + rn (y * y)) <= (x * x + y * y) * (1 + u) ^ 2).
  { split; [apply Rle_trans with ((rn (x * x) + rn (y * y)) * (1 - u)); [|apply H1]
           |apply Rle_trans with ((rn (x * x) + rn (y * y)) * (1 + u)); [apply H1|]].
    - replace ((x * x + y * y) * (1 - u) ^ 2) with ((x * x * (1 - u) + y * y * (1 - u)) * (1 - u)) by ring.
      apply Rmult_le_compat_r; lra.
    - replace ((x * x + y * y) * (1 + u) ^ 2) with ((x * x * (1 + u) + y * y * (1 + u)) * (1 + u)) by ring.
      apply Rmult_le_compat_r; lra. }
  assert (E8 : bpow radix2 (femax f - 3) = fmax f / 8).
  { unfold fmax. replace (femax f) with (femax f - 3 + 3)%Z at 2 by lia. rewrite bpow_plus. change (bpow radix2 3) with 8. field. }
  assert (Sb : fmin_normal f <= x * x + y * y <= fmax f / 4).
  { unfold room in Rx, Ry. rewrite E8 in Rx, Ry. split; [|lra]. destruct Nt; lra. }
  exists (rn (rn (x * x) + rn (y * y))), r. split; auto.
  split. { rewrite <- E3. cbn. now rewrite Rplus_comm. }
  split; auto. 
  split. { apply (fop_isf f ok) in E3. apply E3. }
  split; auto. split; auto. split; auto. split; auto. split; auto. split; auto.
  subst r. apply sqrt_rel; auto; [lra|right; lra|].
  pose proof (proj1 S1) as S1a. pose proof (proj2 S1) as S1b.
  split.
  - eapply Rle_trans; [|exact S1a]. apply Rmult_le_compat_l; [lra|].
    replace ((1 - u) ^ 3) with ((1 - u) ^ 2 * (1 - u)) by ring. assert (0 <= (1 - u) ^ 2) by (apply pow_le; lra). nra.
  - eapply Rle_trans; [exact S1b|]. apply Rmult_le_compat_l; [lra|].
    replace ((1 + u) ^ 3) with ((1 + u) ^ 2 * (1 + u)) by ring. assert (0 <= (1 + u) ^ 2) by (apply pow_le; lra). nra.
Qed.

Lemma rho_pos x y : 0 < x * x + y * y -> 0 < sqrt (x * x + y * y) /\ sqrt (x * x + y * y) * sqrt (x * x + y * y) = x * x + y * y.
Proof. intros P. split. now apply sqrt_lt_R0. apply sqrt_sqrt. lra. Qed.
Lemma le_rho x y : 0 < x * x + y * y -> Rabs x <= sqrt (x * x + y * y).
Proof.
  intros P. destruct (rho_pos x y P) as [Q E]. apply Rsqr_incr_0_var; [|lra]. unfold Rsqr. rewrite E.
  rewrite <- Rabs_mult, Rabs_pos_eq by nra. nra.
Qed.
Lemma half_ok : isf f (1 / 2).
Proof.
  replace (1 / 2) with (bpow radix2 (-1)) by (cbn; lra). split. apply F_bpow; auto. pose proof (emin_neg f ok). lia.
  rewrite Rabs_pos_eq by apply bpow_ge_0. apply bpow_lt. pose proof (emax_big f ok). lia.
Qed.
(** [0.5 / r] rounded *)
Lemma half_over x y r : 0 < r -> fmin_normal f <= x * x + y * y <= fmax f / 4 ->
  sqrt (x * x + y * y) * (1 - u) ^ 3 <= r <= sqrt (x * x + y * y) * (1 + u) ^ 3 ->
  exists h d, Some (1 / 2) /! Some r = Some h /\ isf f h /\ Rabs d <= u /\ h = 1 / 2 / r * (1 + d).
Proof.
  intros R0 Hs Hr. pose proof (u_pos f ok) as U. pose proof (max_big f ok) as M.
  assert (Pn : 0 < fmin_normal f) by apply bpow_gt_0.
  assert (P : 0 < x * x + y * y) by lra. destruct (rho_pos x y P) as [Q0 Q]. set (rho := sqrt (x * x + y * y)) in *.
  assert (U3 : (1 + u) ^ 3 <= 3 / 2) by (replace ((1 + u) ^ 3) with (1 + u * (3 + 3 * u + u * u)) by ring; nra).
  assert (L3 : / 2 <= (1 - u) ^ 3) by (replace ((1 - u) ^ 3) with (1 - u * (3 - 3 * u + u * u)) by ring; nra).
  assert (R1 : r <= 3 / 2 * rho) by (eapply Rle_trans; [apply Hr|]; rewrite Rmult_comm; apply Rmult_le_compat_r; lra).
  assert (R2 : / 2 * rho <= r) by (eapply Rle_trans; [|apply Hr]; rewrite Rmult_comm; apply Rmult_le_compat_l; lra).
  (* no underflow *)
  assert (E1 : fmin_normal f * 2 * (fmin_normal f * 2) * fmax f <= 1).
  { unfold fmin_normal, fmax. change 2 with (bpow radix2 1). rewrite <- !bpow_plus. change 1 with (bpow radix2 0). apply bpow_le.
    unfold balanced in bal. lia. }
  assert (Rr : r * r <= fmax f).
  { assert (r * r <= (3 / 2 * rho) * (3 / 2 * rho)) by (apply Rmult_le_compat; lra). nra. }
  assert (N : fmin_normal f <= 1 / 2 / r).
  { apply Rmult_le_reg_r with (2 * r); [lra|]. replace (1 / 2 / r * (2 * r)) with 1 by (field; lra).
    apply Rsqr_incr_0_var; [|lra]. unfold Rsqr.
    replace (fmin_normal f * (2 * r) * (fmin_normal f * (2 * r))) with (fmin_normal f * 2 * (fmin_normal f * 2) * (r * r)) by ring.
    assert (fmin_normal f * 2 * (fmin_normal f * 2) * (r * r) <= fmin_normal f * 2 * (fmin_normal f * 2) * fmax f) by (apply Rmult_le_compat_l; nra).
    lra. }
  (* no overflow *)
  assert (O : 1 / 2 / r <= fmax f / 2).
  { apply Rmult_le_reg_r with r; [lra|]. replace (1 / 2 / r * r) with (1 / 2) by (field; lra).
    assert (E2 : 4 <= fmax f * fmax f * fmin_normal f).
    { unfold fmin_normal, fmax. rewrite <- !bpow_plus. change 4 with (bpow radix2 2). apply bpow_le. unfold balanced in bal. lia. }
    apply Rsqr_incr_0_var; [|nra]. unfold Rsqr.
    assert (fmin_normal f / 4 <= r * r).
    { assert (/ 2 * rho * (/ 2 * rho) <= r * r) by (apply Rmult_le_compat; lra). lra. }
    assert (fmax f * fmax f * (fmin_normal f / 4) <= fmax f * fmax f * (r * r)) by (apply Rmult_le_compat_l; nra). lra. }
  assert (A0 : 0 < 1 / 2 / r) by lra.
  destruct (rn_rel f ok (1 / 2 / r)) as (d & Hd & Ed). { right. rewrite Rabs_pos_eq; lra. }
  pose proof Hd as Hd'. apply Rabs_le_inv in Hd'.
  assert (B : Rabs (rn (1 / 2 / r)) < fmax f).
  { rewrite Ed, Rabs_mult, (Rabs_pos_eq (1 / 2 / r)) by lra. rewrite (Rabs_pos_eq (1 + d)) by lra. nra. }
  exists (rn (1 / 2 / r)), d. split.
  { cbn. rewrite (proj2 (Reqb_false r 0)) by lra. unfold fop. now apply fin_some. }
  split. { split; auto. now apply rn_F. }
  auto.
Qed.
(** the rounded direction cosine, as the derivative of the radius *)
Lemma ap_dir x y r h d : usable f x -> 0 < x * x + y * y -> 0 < r -> Rabs x <= r ->
  sqrt (x * x + y * y) * (1 - u) ^ 3 <= r <= sqrt (x * x + y * y) * (1 + u) ^ 3 ->
  isf f h -> Rabs d <= u -> h = 1 / 2 / r * (1 + d) ->
  ap f (x / sqrt (x * x + y * y)) (7 * u + eta f) 2 (Some (2 * x) *! Some h).
Proof.
  intros Ux P R0 Rx Hr Ih Hd ->. pose proof (u_pos f ok) as U. pose proof (max_big f ok) as M. pose proof (eta_bnd f ok) as H.
  destruct (rho_pos x y P) as [Q0 Q]. pose proof (le_rho x y P) as Lx. set (rho := sqrt (x * x + y * y)) in *.
  set (h := 1 / 2 / r * (1 + d)) in *. pose proof Hd as Hd'. apply Rabs_le_inv in Hd'.
  assert (Ea : 2 * x * h = x / r * (1 + d)) by (unfold h; field; lra).
  assert (X1 : Rabs (x / r) <= 1).
  { unfold Rdiv. rewrite Rabs_mult, (Rabs_pos_eq (/ r)) by (left; now apply Rinv_0_lt_compat).
    apply Rmult_le_reg_r with r; [lra|]. rewrite Rmult_assoc, Rinv_l by lra. lra. }
  assert (X2 : Rabs (x / rho) <= 1).
  { unfold Rdiv. rewrite Rabs_mult, (Rabs_pos_eq (/ rho)) by (left; now apply Rinv_0_lt_compat).
    apply Rmult_le_reg_r with rho; [lra|]. rewrite Rmult_assoc, Rinv_l by lra. lra. }
  (* x / r against x / rho *)
  assert (K : Rabs (x / r - x / rho) <= 4 * u).
  { replace (x / r - x / rho) with (x / rho * (rho / r - 1)) by (field; lra). rewrite Rabs_mult.
    assert (Rabs (rho / r - 1) <= 4 * u).
    { assert (B1 : rho <= (1 + 4 * u) * r).
      { eapply Rle_trans; [|apply Rmult_le_compat_l; [lra|apply Hr]].
        replace ((1 + 4 * u) * (rho * (1 - u) ^ 3)) with (rho * ((1 + 4 * u) * (1 - u) ^ 3)) by ring.
        rewrite <- (Rmult_1_r rho) at 1. apply Rmult_le_compat_l; [lra|].
        replace ((1 + 4 * u) * (1 - u) ^ 3) with (1 + u * (1 - 9 * u + u * u * (11 - 4 * u))) by ring.
        assert (0 <= u * u * (11 - 4 * u)) by (apply Rmult_le_pos; nra). nra. }
      assert (B2 : (1 - 4 * u) * r <= rho).
      { eapply Rle_trans; [apply Rmult_le_compat_l; [lra|apply Hr]|].
        replace ((1 - 4 * u) * (rho * (1 + u) ^ 3)) with (rho * ((1 - 4 * u) * (1 + u) ^ 3)) by ring.
        rewrite <- (Rmult_1_r rho) at 2. apply Rmult_le_compat_l; [lra|].
        replace ((1 - 4 * u) * (1 + u) ^ 3) with (1 - u * (1 + 9 * u + u * u * (11 + 4 * u))) by ring.
        assert (0 <= u * u * (11 + 4 * u)) by (apply Rmult_le_pos; nra). nra. }
      apply Rabs_le. split; apply Rmult_le_reg_r with r; try lra.
      - replace ((rho / r - 1) * r) with (rho - r) by (field; lra). lra.
      - replace ((rho / r - 1) * r) with (rho - r) by (field; lra). lra. }
    pose proof (Rabs_pos (x / rho)). pose proof (Rabs_pos (rho / r - 1)). nra. }
  assert (A1 : Rabs (x / r * (1 + d) - x / rho) <= 5 * u).
  { replace (x / r * (1 + d) - x / rho) with ((x / r - x / rho) + x / r * d) by ring.
    eapply Rle_trans; [apply Rabs_triang|]. rewrite Rabs_mult. pose proof (Rabs_pos (x / r)). pose proof (Rabs_pos d). nra. }
  assert (A2 : Rabs (x / r * (1 + d)) <= 1 + u).
  { rewrite Rabs_mult, (Rabs_pos_eq (1 + d)) by lra. pose proof (Rabs_pos (x / r)). nra. }
  pose proof (rn_err f ok (2 * x * h)) as Er. fold (eta f) in Er. rewrite Ea in Er.
  assert (Er' : Rabs (rn (x / r * (1 + d)) - x / r * (1 + d)) <= 2 * u + eta f) by nra.
  assert (Bd : Rabs (rn (x / r * (1 + d))) <= 2).
  { replace (rn (x / r * (1 + d))) with ((rn (x / r * (1 + d)) - x / r * (1 + d)) + x / r * (1 + d)) by ring.
    eapply Rle_trans; [apply Rabs_triang|]. lra. }
  exists (rn (x / r * (1 + d))). split. { cbn. rewrite Ea. unfold fop. apply fin_some. lra. }
  split. { split. now apply rn_F. lra. }
  split; auto.
  replace (rn (x / r * (1 + d)) - x / rho) with ((rn (x / r * (1 + d)) - x / r * (1 + d)) + (x / r * (1 + d) - x / rho)) by ring.
  eapply Rle_trans; [apply Rabs_triang|]. lra.
Qed.
(** [x / s] rounded, where [s] is the computed squared length *)
Lemma ap_rate x y s : usable f x -> no_underflow f x -> 0 < x * x + y * y -> fmin_normal f <= x * x + y * y ->
  (x * x + y * y) * (1 - u) ^ 2 <= s <= (x * x + y * y) * (1 + u) ^ 2 ->
  ap f (x / (x * x + y * y)) (5 * u * (Rabs x / (x * x + y * y)) + eta f) (2 * (Rabs x / (x * x + y * y)) + eta f) (Some x /! Some s).
Proof.
  intros Ux Nx P Hn Hs. pose proof (u_pos f ok) as U. pose proof (max_big f ok) as M. pose proof (eta_bnd f ok) as H.
  set (S := x * x + y * y) in *. assert (Pn : 0 < fmin_normal f) by apply bpow_gt_0.
  assert (L2 : 7 / 8 <= (1 - u) ^ 2) by nra. assert (U2 : (1 + u) ^ 2 <= 5 / 4) by nra.
  assert (S0 : 0 < s) by nra.
  set (X := Rabs x / S). assert (X0 : 0 <= X) by (apply Rmult_le_pos; [apply Rabs_pos|left; now apply Rinv_0_lt_compat]).
  assert (EX : Rabs (x / S) = X) by (unfold X, Rdiv; rewrite Rabs_mult, (Rabs_pos_eq (/ S)); auto; left; now apply Rinv_0_lt_compat).
  assert (K : Rabs (x / s - x / S) <= 3 * u * X).
  { replace (x / s - x / S) with (x / S * (S / s - 1)) by (field; lra). rewrite Rabs_mult, EX, (Rmult_comm (3 * u)).
    apply Rmult_le_compat_l; auto.
    assert (B1 : S <= (1 + 3 * u) * s).
    { eapply Rle_trans; [|apply Rmult_le_compat_l; [lra|apply Hs]].
      replace ((1 + 3 * u) * (S * (1 - u) ^ 2)) with (S * (1 + u * (1 - 5 * u + 3 * (u * u)))) by ring.
      rewrite <- (Rmult_1_r S) at 1. apply Rmult_le_compat_l; [lra|]. nra. }
    assert (B2 : (1 - 3 * u) * s <= S).
    { eapply Rle_trans; [apply Rmult_le_compat_l; [lra|apply Hs]|].
      replace ((1 - 3 * u) * (S * (1 + u) ^ 2)) with (S * (1 - u * (1 + 5 * u + 3 * (u * u)))) by ring.
      rewrite <- (Rmult_1_r S) at 2. apply Rmult_le_compat_l; [lra|]. nra. }
    apply Rabs_le. split; apply Rmult_le_reg_r with s; try lra.
    - replace ((S / s - 1) * s) with (S - s) by (field; lra). lra.
    - replace ((S / s - 1) * s) with (S - s) by (field; lra). lra. }
  assert (Xs : Rabs (x / s) <= (1 + 3 * u) * X).
  { replace (x / s) with ((x / s - x / S) + x / S) by ring. eapply Rle_trans; [apply Rabs_triang|]. lra. }
  (* no overflow *)
  assert (O : X <= fmax f / 4).
  { destruct Nx as [-> | Nt]. { unfold X. rewrite Rabs_R0. unfold Rdiv. rewrite Rmult_0_l. lra. }
    unfold not_tiny in Nt. assert (E2 : 16 <= fmax f * fmax f * fmin_normal f).
    { unfold fmin_normal, fmax. rewrite <- !bpow_plus. change 16 with (bpow radix2 4). apply bpow_le. unfold balanced in bal. lia. }
    assert (Ax : Rabs x * Rabs x = x * x) by (rewrite <- Rabs_mult; apply Rabs_pos_eq; nra).
    pose proof (Rabs_pos x) as Px.
    assert (Xx : Rabs x * X <= 1).
    { unfold X. replace (Rabs x * (Rabs x / S)) with (x * x / S) by (rewrite <- Ax; field; lra).
      apply Rmult_le_reg_r with S; [lra|]. replace (x * x / S * S) with (x * x) by (field; lra). unfold S. nra. }
    destruct (Rle_or_lt X (fmax f / 4)) as [|Gt]; auto. exfalso.
    assert (C1 : fmax f / 4 * Rabs x <= 1) by nra.
    assert (C0 : 0 <= fmax f / 4 * Rabs x) by (apply Rmult_le_pos; lra).
    assert (C2 : fmax f / 4 * Rabs x * (fmax f / 4 * Rabs x) <= 1 * 1) by (apply Rmult_le_compat; auto).
    assert (C3 : fmax f * fmax f * fmin_normal f <= fmax f * fmax f * (Rabs x * Rabs x)) by (apply Rmult_le_compat_l; [nra|lra]).
    assert (C4 : fmax f * fmax f * (Rabs x * Rabs x) <= 16) by lra.
    (* equality is excluded by the strict inequality *)
    assert (Px' : 0 < Rabs x) by (destruct Px as [Px|Z]; auto; exfalso; rewrite <- Z in Ax; lra).
    assert (C5 : fmax f / 4 * Rabs x < X * Rabs x) by (apply Rmult_lt_compat_r; auto).
    assert (C6 : 0 <= fmax f / 4 * Rabs x) by (apply Rmult_le_pos; lra). nra. }
  pose proof (rn_err f ok (x / s)) as Er. fold (eta f) in Er.
  assert (uX : 0 <= u * X <= / 16 * X) by (split; [apply Rmult_le_pos; lra|apply Rmult_le_compat_r; lra]).
  assert (uuX : u * (u * X) <= / 16 * (u * X)) by (apply Rmult_le_compat_r; lra).
  assert (Er' : Rabs (rn (x / s) - x / s) <= 2 * (u * X) + eta f).
  { eapply Rle_trans; [exact Er|]. assert (u * Rabs (x / s) <= u * ((1 + 3 * u) * X)) by (apply Rmult_le_compat_l; lra). lra. }
  assert (Bd : Rabs (rn (x / s)) <= 2 * X + eta f).
  { replace (rn (x / s)) with ((rn (x / s) - x / s) + x / s) by ring. eapply Rle_trans; [apply Rabs_triang|]. lra. }
  exists (rn (x / s)). split.
  { cbn. rewrite (proj2 (Reqb_false s 0)) by lra. unfold fop. apply fin_some. lra. }
  split. { split. now apply rn_F. lra. }
  split; auto.
  replace (rn (x / s) - x / S) with ((rn (x / s) - x / s) + (x / s - x / S)) by ring. eapply Rle_trans; [apply Rabs_triang|]. lra.
Qed.

(** a row [a dx + b dy] *)
Lemma row_ab a b E E' B B' J K vx vy X Y : ap f a E B J -> ap f b E' B' K -> Rabs a <= X -> Rabs b <= Y ->
  isf f vx -> isf f vy -> B * Rabs vx + B' * Rabs vy <= fmax f / 16 ->
  ap f (a * vx + b * vy)
     ((E + 3 * u * B) * Rabs vx + (E' + 3 * u * B') * Rabs vy + 3 * eta f) (fmax f / 4)
     (J *! Some vx +! K *! Some vy).
Proof.
  intros A1 A2 HX HY Ix Iy O. pose proof (u_pos f ok) as U. pose proof (max_big f ok) as M. pose proof (eta_bnd f ok) as H.
  assert (B0 : 0 <= B) by (destruct A1 as (w & _ & _ & _ & K1); eapply Rle_trans; [apply Rabs_pos|exact K1]).
  assert (B0' : 0 <= B') by (destruct A2 as (w & _ & _ & _ & K1); eapply Rle_trans; [apply Rabs_pos|exact K1]).
  pose proof (Rabs_pos vx) as Px. pose proof (Rabs_pos vy) as Py.
  assert (P0 : 0 <= B * Rabs vx) by (apply Rmult_le_pos; auto). assert (Q0 : 0 <= B' * Rabs vy) by (apply Rmult_le_pos; auto).
  pose proof (ap_mul f L ok _ _ _ _ _ _ _ _ X A1 (ap_exact f _ Ix) HX ltac:(lra)) as T1.
  pose proof (ap_mul f L ok _ _ _ _ _ _ _ _ Y A2 (ap_exact f _ Iy) HY ltac:(lra)) as T2.
  set (P := B * Rabs vx) in *. set (Q := B' * Rabs vy) in *.
  assert (uP : 0 <= u * P <= / 16 * P) by (split; [apply Rmult_le_pos; lra|apply Rmult_le_compat_r; lra]).
  assert (uQ : 0 <= u * Q <= / 16 * Q) by (split; [apply Rmult_le_pos; lra|apply Rmult_le_compat_r; lra]).
  assert (uh : 0 <= u * eta f <= / 16 * eta f) by (split; [apply Rmult_le_pos; lra|apply Rmult_le_compat_r; lra]).
  assert (uuP : u * (u * P) <= / 16 * (u * P)) by (apply Rmult_le_compat_r; lra).
  assert (uuQ : u * (u * Q) <= / 16 * (u * Q)) by (apply Rmult_le_compat_r; lra).
  pose proof (ap_add f L ok _ _ _ _ _ _ _ _ T1 T2 ltac:(lra)) as T.
  set (W := (1 + u) * P + eta f + ((1 + u) * Q + eta f)) in *.
  assert (W0 : 0 <= W <= 17 / 16 * (P + Q) + 2 * eta f) by (unfold W; lra).
  assert (uW : 0 <= u * W <= / 16 * W) by (split; [apply Rmult_le_pos; lra|apply Rmult_le_compat_r; lra]).
  assert (EW : u * W = u * P + u * (u * P) + u * Q + u * (u * Q) + 2 * (u * eta f)) by (unfold W; ring).
  eapply ap_w; [exact T| |lra]. rewrite EW.
  replace ((E + 3 * u * B) * Rabs vx) with (E * Rabs vx + 3 * (u * P)) by (unfold P; ring).
  replace ((E' + 3 * u * B') * Rabs vy) with (E' * Rabs vy + 3 * (u * Q)) by (unfold Q; ring). lra.
Qed.

Lemma jac_cart2 deg n x y s r h : usable f x -> usable f y -> isf f h ->
  Some x *! Some x +! Some y *! Some y = Some s -> Some y *! Some y +! Some x *! Some x = Some s ->
  @nsqrt ext (NF f L) (Some s) = Some r -> Some (1 / 2) /! Some r = Some h ->
  (exists a, Some x /! Some s = Some a /\ isf f a) -> (exists b, Some y /! Some s = Some b /\ isf f b) ->
  fjacobian f L deg (S n) nokw (PCart2 (Some x) (Some y)) CPolar =
  Ok false [[Some (2 * x) *! Some h; @nneg ext (NF f L) (Some y /! Some s)]; [Some (2 * y) *! Some h; Some x /! Some s]].
Proof.
  intros Ux Uy Ih E1 E2 E3 E4 (a & Ea & Ia) (b & Eb & Ib). destruct (double x Ux) as [D1 I1]. destruct (double y Uy) as [D2 I2].
  assert (Ix : isf f x) by apply Ux. assert (Iy : isf f y) by apply Uy.
  unfold fjacobian, fjac_column. cbn [components length seq mapM map]. unfold seed, basis. cbn [seq map nth Nat.eqb].
  step. unfold mk_Polar. cbn [conv_r conv_az length_of_kind check_nonneg]. unfold ret. rewrite ?bind_ok.
  step. unfold mk_Polar. cbn [conv_r conv_az length_of_kind check_nonneg]. unfold ret. rewrite ?bind_ok.
  cbn [components map dd dval]. unfold nsq. cbn [nmul nadd nsqrt natan2 nwrap Num_fdual dd dv].
  change (Num_fl f L) with (NF f L).
  rewrite E1, E2, !m1, !m0, !mx1, !mx0, D1, D2 by auto. rewrite a00, a0, ax0 by auto. rewrite E3, E4, Ea, Eb.
  rewrite !m1, !m0 by auto. rewrite s0, sx0 by auto. reflexivity.
Qed.
Lemma jac_cart3 deg n x y z s r h : usable f x -> usable f y -> isf f h ->
  Some x *! Some x +! Some y *! Some y = Some s -> Some y *! Some y +! Some x *! Some x = Some s ->
  @nsqrt ext (NF f L) (Some s) = Some r -> Some (1 / 2) /! Some r = Some h ->
  (exists a, Some x /! Some s = Some a /\ isf f a) -> (exists b, Some y /! Some s = Some b /\ isf f b) ->
  fjacobian f L deg (S n) nokw (cart3 x y z) CCyl =
  Ok false [[Some (2 * x) *! Some h; @nneg ext (NF f L) (Some y /! Some s); Some 0]; [Some (2 * y) *! Some h; Some x /! Some s; Some 0];
            [Some 0; Some 0; Some 1]].
Proof.
  intros Ux Uy Ih E1 E2 E3 E4 (a & Ea & Ia) (b & Eb & Ib). destruct (double x Ux) as [D1 I1]. destruct (double y Uy) as [D2 I2].
  assert (Ix : isf f x) by apply Ux. assert (Iy : isf f y) by apply Uy.
  unfold fjacobian, fjac_column, cart3. cbn [components length seq mapM map]. unfold seed, basis. cbn [seq map nth Nat.eqb].
  step. unfold mk_Cyl. cbn [conv_r conv_az length_of_kind check_nonneg]. unfold ret. rewrite ?bind_ok.
  step. unfold mk_Cyl. cbn [conv_r conv_az length_of_kind check_nonneg]. unfold ret. rewrite ?bind_ok.
  step. unfold mk_Cyl. cbn [conv_r conv_az length_of_kind check_nonneg]. unfold ret. rewrite ?bind_ok.
  cbn [components map dd dval]. unfold nsq. cbn [nmul nadd nsqrt natan2 nwrap Num_fdual dd dv].
  change (Num_fl f L) with (NF f L).
  rewrite E1, E2, !m1, !m0, !mx1, !mx0, D1, D2 by auto. rewrite !a00, a0, ax0 by auto. rewrite E3, E4, Ea, Eb.
  rewrite !m1, !m0 by auto. rewrite !s0, !sx0 by (auto using isf0). rewrite Ropp_0. reflexivity.
Qed.

Lemma div_opp_abs x S : 0 < S -> Rabs (x / S) = Rabs x / S.
Proof. intros P. unfold Rdiv. rewrite Rabs_mult, (Rabs_pos_eq (/ S)); auto. left. now apply Rinv_0_lt_compat. Qed.
Lemma dir_le1 x y : 0 < x * x + y * y -> Rabs (x / sqrt (x * x + y * y)) <= 1.
Proof.
  intros P. destruct (rho_pos x y P) as [Q _]. rewrite div_opp_abs by auto. pose proof (le_rho x y P).
  apply Rmult_le_reg_r with (sqrt (x * x + y * y)); auto. unfold Rdiv. rewrite Rmult_assoc, Rinv_l by lra. lra.
Qed.
(** The four entries of the Jacobian and the two rows. *)
Lemma cart_rows x y vx vy : usable f x -> usable f y -> no_underflow f x -> no_underflow f y -> 0 < x * x + y * y ->
  isf f vx -> isf f vy ->
  let S := x * x + y * y in
  2 * (Rabs vx + Rabs vy) <= fmax f / 16 ->
  (2 * (Rabs y / S) + eta f) * Rabs vx + (2 * (Rabs x / S) + eta f) * Rabs vy <= fmax f / 16 ->
  exists s r h vr vp,
    Some x *! Some x +! Some y *! Some y = Some s /\ Some y *! Some y +! Some x *! Some x = Some s /\
    @nsqrt ext (NF f L) (Some s) = Some r /\ Some (1 / 2) /! Some r = Some h /\ isf f h /\
    (exists a, Some x /! Some s = Some a /\ isf f a) /\ (exists b, Some y /! Some s = Some b /\ isf f b) /\
    Some (2 * x) *! Some h *! Some vx +! Some (2 * y) *! Some h *! Some vy = Some vr /\
    @nneg ext (NF f L) (Some y /! Some s) *! Some vx +! Some x /! Some s *! Some vy = Some vp /\
    isf f vr /\ isf f vp /\
    Rabs (vr - (x * vx + y * vy) / sqrt S) <= 13 * u * (Rabs vx + Rabs vy) + eta f * (3 + Rabs vx + Rabs vy) /\
    Rabs (vp - (x * vy - y * vx) / S) <= 11 * u * ((Rabs y * Rabs vx + Rabs x * Rabs vy) / S) + 2 * eta f * (2 + Rabs vx + Rabs vy).
Proof.
  intros Ux Uy Nx Ny P Ix Iy S O1 O2. pose proof (u_pos f ok) as U. pose proof (eta_bnd f ok) as H.
  destruct (norm_facts x y Ux Uy Nx Ny P) as (s & r & E1 & E2 & E3 & Is & Ir & R0 & Rx & Ry & Hs & Hr & Hn).
  destruct (half_over x y r R0 Hn Hr) as (h & d & Eh & Ih & Hd & Vh).
  pose proof (ap_dir x y r h d Ux P R0 Rx Hr Ih Hd Vh) as A1.
  assert (P' : 0 < y * y + x * x) by lra.
  assert (C : y * y + x * x = x * x + y * y) by ring.
  pose proof (ap_dir y x r h d Uy P' R0 Ry) as A2. rewrite C in A2. specialize (A2 Hr Ih Hd Vh).
  pose proof (ap_rate x y s Ux Nx P (proj1 Hn) Hs) as A3.
  pose proof (ap_rate y x s Uy Ny P') as A4. rewrite C in A4. specialize (A4 (proj1 Hn) Hs).
  pose proof (dir_le1 x y P) as D1. pose proof (dir_le1 y x P') as D2. rewrite C in D2.
  fold S in A1, A2, A3, A4, P, D1, D2.
  destruct (row_ab _ _ _ _ _ _ _ _ vx vy _ _ A1 A2 D1 D2 Ix Iy ltac:(lra)) as (vr & Er & Ivr & Avr & _).
  pose proof (ap_opp f L _ _ _ _ A4) as A5.
  destruct (row_ab _ _ _ _ _ _ _ _ vx vy _ _ A5 A3 (Rle_refl _) (Rle_refl _) Ix Iy O2) as (vp & Ep & Ivp & Avp & _).
  exists s, r, h, vr, vp. split; auto. split; auto. split; auto. split; auto. split; auto.
  split. { destruct A3 as (a & Ea & Ia & _). eauto. }
  split. { destruct A4 as (b & Eb & Ib & _). eauto. }
  split; auto. split; auto. split; auto. split; auto.
  destruct (rho_pos x y P) as [Q0 Q]. fold S in Q0, Q.
  pose proof (Rabs_pos vx). pose proof (Rabs_pos vy).
  split.
  - replace ((x * vx + y * vy) / sqrt S) with (x / sqrt S * vx + y / sqrt S * vy) by (field; lra).
    eapply Rle_trans; [exact Avr|]. lra.
  - replace ((x * vy - y * vx) / S) with (- (y / S) * vx + x / S * vy) by (field; lra).
    eapply Rle_trans; [exact Avp|].
    replace ((Rabs y * Rabs vx + Rabs x * Rabs vy) / S) with (Rabs y / S * Rabs vx + Rabs x / S * Rabs vy) by (field; lra).
    assert (uh : u * eta f <= / 16 * eta f) by (apply Rmult_le_compat_r; lra).
    assert (3 * u * eta f * Rabs vx <= eta f * Rabs vx) by (apply Rmult_le_compat_r; lra).
    assert (3 * u * eta f * Rabs vy <= eta f * Rabs vy) by (apply Rmult_le_compat_r; lra). lra.
Qed.

Lemma F_ge_eta c : generic_format radix2 (fexp_of f) c -> c <> 0 -> eta f <= Rabs c.
Proof.
  intros F N. assert (0 < fprec f)%Z by (destruct ok; lia).
  apply FLT_format_generic in F; [|exact H]. destruct F as [g E1 E2 E3].
  rewrite E1. unfold F2R. rewrite Rabs_mult, (Rabs_pos_eq (bpow _ _)) by apply bpow_ge_0.
  assert (Fnum g <> 0)%Z. { intros Z. apply N. rewrite E1. unfold F2R. rewrite Z. ring. }
  assert (1 <= Rabs (IZR (Fnum g))) by (rewrite <- abs_IZR; apply IZR_le; lia).
  assert (eta f <= bpow radix2 (Fexp g)) by (unfold eta; apply bpow_le; exact E3).
  pose proof (bpow_ge_0 radix2 (Fexp g)). nra.
Qed.
(** times the cosine and divided by it again *)
Lemma there_back a c : isf f a -> isf f c -> -1 <= c <= 1 -> c <> 0 -> Rabs a <= fmax f / 4 ->
  ap f a (3 * u * Rabs a + 3 * (eta f / Rabs c)) (fmax f / 2) (Some a *! Some c /! Some c).
Proof.
  intros Ia Ic Bc N O. pose proof (u_pos f ok) as U. pose proof (eta_bnd f ok) as H. pose proof (max_big f ok) as M.
  destruct (fl_mul f L ok a c Ia Bc) as (E & I & B & A). rewrite E.
  assert (C0 : 0 < Rabs c) by now apply Rabs_pos_lt. pose proof (F_ge_eta c (proj1 Ic) N) as Ce.
  assert (C1 : Rabs c <= 1) by (apply Rabs_le; lra).
  set (t := eta f / Rabs c). assert (T : eta f <= t <= 1).
  { unfold t. split; apply Rmult_le_reg_r with (Rabs c); auto; unfold Rdiv; rewrite Rmult_assoc, Rinv_l by lra; nra. }
  pose proof (rn_err f ok (a * c)) as Er. fold (eta f) in Er.
  assert (K : Rabs (rn (a * c) / c - a) <= u * Rabs a + t).
  { replace (rn (a * c) / c - a) with ((rn (a * c) - a * c) / c) by (field; auto). unfold Rdiv. rewrite Rabs_mult, Rabs_inv.
    apply Rmult_le_reg_r with (Rabs c); auto. rewrite Rmult_assoc, Rinv_l, Rmult_1_r by lra.
    eapply Rle_trans; [exact Er|]. rewrite Rabs_mult. unfold t.
    replace ((u * Rabs a + eta f / Rabs c) * Rabs c) with (u * (Rabs a * Rabs c) + eta f) by (field; lra). lra. }
  pose proof (Rabs_pos a) as Pa.
  assert (ua : 0 <= u * Rabs a <= / 16 * Rabs a) by (split; [apply Rmult_le_pos; lra|apply Rmult_le_compat_r; lra]).
  assert (uua : u * (u * Rabs a) <= / 16 * (u * Rabs a)) by (apply Rmult_le_compat_r; lra).
  assert (ut : 0 <= u * t <= / 16 * t) by (split; [apply Rmult_le_pos; lra|apply Rmult_le_compat_r; lra]).
  assert (B' : Rabs (rn (a * c) / c) <= Rabs a + u * Rabs a + t).
  { replace (rn (a * c) / c) with ((rn (a * c) / c - a) + a) by ring. eapply Rle_trans; [apply Rabs_triang|]. lra. }
  pose proof (rn_err f ok (rn (a * c) / c)) as Er2. fold (eta f) in Er2.
  assert (Er3 : Rabs (rn (rn (a * c) / c) - rn (a * c) / c) <= u * Rabs a + u * (u * Rabs a) + u * t + eta f).
  { eapply Rle_trans; [exact Er2|].
    assert (u * Rabs (rn (a * c) / c) <= u * (Rabs a + u * Rabs a + t)) by (apply Rmult_le_compat_l; lra). lra. }
  assert (Bd : Rabs (rn (rn (a * c) / c)) <= fmax f / 2).
  { replace (rn (rn (a * c) / c)) with ((rn (rn (a * c) / c) - rn (a * c) / c) + rn (a * c) / c) by ring.
    eapply Rle_trans; [apply Rabs_triang|]. lra. }
  exists (rn (rn (a * c) / c)). split.
  { cbn. rewrite (proj2 (Reqb_false c 0)) by auto. unfold fop. apply fin_some. lra. }
  split. { split. now apply rn_F. lra. }
  split; auto.
  replace (rn (rn (a * c) / c) - a) with ((rn (rn (a * c) / c) - rn (a * c) / c) + (rn (a * c) / c - a)) by ring.
  eapply Rle_trans; [apply Rabs_triang|]. lra.
Qed.
End Ops.

(** ** Cartesian velocities to polar and cylindrical velocities *)
(** The velocities must not overflow: the speed times 2 and the angular rates. *)
Definition rates_fit (f : fmt) (x y vx vy : R) : Prop :=
  2 * (Rabs vx + Rabs vy) <= fmax f / 16 /\
  (2 * (Rabs y / (x * x + y * y)) + eta f) * Rabs vx + (2 * (Rabs x / (x * x + y * y)) + eta f) * Rabs vy <= fmax f / 16.
Definition radial_bound (f : fmt) (vx vy : R) : R := 13 * fu f * (Rabs vx + Rabs vy) + eta f * (3 + Rabs vx + Rabs vy).
Definition azimuthal_bound (f : fmt) (x y vx vy : R) : R :=
  11 * fu f * ((Rabs y * Rabs vx + Rabs x * Rabs vy) / (x * x + y * y)) + 2 * eta f * (2 + Rabs vx + Rabs vy).

Theorem C74_cartesian_to_polar_accuracy : forall f L m deg n x y vx vy,
  fmt_ok f -> balanced f -> usable f x -> usable f y -> no_underflow f x -> no_underflow f y -> x <> 0 \/ y <> 0 ->
  isf f vx -> isf f vy -> rates_fit f x y vx vy ->
  exists vr vphi,
    fvel_represent_as f L m deg (S n) nokw (mkVel WCart2 [Some vx; Some vy]) WPolar (PCart2 (Some x) (Some y))
      = Ok false (mkVel WPolar [Some vr; Some vphi]) /\ isf f vr /\ isf f vphi /\
    Rabs (vr - (x * vx + y * vy) / sqrt (x * x + y * y)) <= radial_bound f vx vy /\
    Rabs (vphi - (x * vy - y * vx) / (x * x + y * y)) <= azimuthal_bound f x y vx vy.
Proof.
  intros f L m deg n x y vx vy ok bal Ux Uy Nx Ny NZ Ix Iy [O1 O2].
  assert (P : 0 < x * x + y * y).
  { destruct NZ as [Z|Z]; [assert (0 < x * x) by nra|assert (0 < y * y) by nra]; nra. }
  destruct (cart_rows f L ok bal x y vx vy Ux Uy Nx Ny P Ix Iy O1 O2)
    as (s & r & h & vr & vp & E1 & E2 & E3 & E4 & Ih & Ha & Hb & Er & Ep & Ir & Ip & Ar & Ap).
  exists vr, vp. split; [|exact (conj Ir (conj Ip (conj Ar Ap)))].
  unfold fvel_represent_as, pvel_represent_as. cbn [vc vcls_eqb andb negb vdim integral_cls dim_of Nat.eqb].
  unfold pvel_generic. cbn [vc integral_cls]. step. unfold ret. rewrite bind_ok. unfold pcast_distance.
  unfold ret, can_map. rewrite !bind_ok. unfold ret. rewrite bind_ok.
  rewrite (jac_cart2 f L ok deg n x y s r h) by auto. rewrite bind_ok. f_equal. unfold fmatvec.
  cbn [combine fold_left fscale map vcomps vdim integral_cls dim_of]. change (Num_fl f L) with (NF f L).
  rewrite Er, Ep. reflexivity.
Qed.
Print Assumptions C74_cartesian_to_polar_accuracy.

Theorem C74_cartesian_to_cylindrical_accuracy : forall f L m deg n x y z vx vy vz,
  fmt_ok f -> balanced f -> usable f x -> usable f y -> no_underflow f x -> no_underflow f y -> x <> 0 \/ y <> 0 ->
  isf f vx -> isf f vy -> isf f vz -> rates_fit f x y vx vy ->
  exists vr vphi,
    fvel_represent_as f L m deg (S n) nokw (mkVel WCart3 [Some vx; Some vy; Some vz]) WCyl (cart3 x y z)
      = Ok false (mkVel WCyl [Some vr; Some vphi; Some vz]) /\ isf f vr /\ isf f vphi /\
    Rabs (vr - (x * vx + y * vy) / sqrt (x * x + y * y)) <= radial_bound f vx vy /\
    Rabs (vphi - (x * vy - y * vx) / (x * x + y * y)) <= azimuthal_bound f x y vx vy.
Proof.
  intros f L m deg n x y z vx vy vz ok bal Ux Uy Nx Ny NZ Ix Iy Iz [O1 O2].
  assert (P : 0 < x * x + y * y).
  { destruct NZ as [Z|Z]; [assert (0 < x * x) by nra|assert (0 < y * y) by nra]; nra. }
  destruct (cart_rows f L ok bal x y vx vy Ux Uy Nx Ny P Ix Iy O1 O2)
    as (s & r & h & vr & vp & E1 & E2 & E3 & E4 & Ih & Ha & Hb & Er & Ep & Ir & Ip & Ar & Ap).
  exists vr, vp. split; [|exact (conj Ir (conj Ip (conj Ar Ap)))].
  unfold fvel_represent_as, pvel_represent_as. cbn [vc vcls_eqb andb negb vdim integral_cls dim_of Nat.eqb].
  unfold pvel_generic. cbn [vc integral_cls]. unfold cart3. step. unfold ret. rewrite bind_ok. unfold pcast_distance.
  unfold ret, can_map. rewrite !bind_ok. unfold ret. rewrite bind_ok. change (PCart3 (Some x) (Some y) (Some z)) with (cart3 x y z).
  rewrite (jac_cart3 f L ok deg n x y z s r h) by auto. rewrite bind_ok. f_equal. unfold fmatvec.
  cbn [combine fold_left fscale map vcomps vdim integral_cls dim_of]. change (Num_fl f L) with (NF f L).
  rewrite !m0, m1 by auto. rewrite a00, a0 by auto. rewrite Er, Ep, !ax0 by auto. reflexivity.
Qed.
Print Assumptions C74_cartesian_to_cylindrical_accuracy.

(** Finding: near the origin, where the squares of both coordinates underflow, both
    polar velocity components are not numbers, although the exact ones are finite
    and the position is not the origin; nothing is raised. *)
Theorem C74_finding_no_velocity_near_the_axis : forall f L m deg n x y vx vy,
  fmt_ok f -> isf f x -> isf f y -> isf f vx -> isf f vy ->
  x * x < bpow radix2 (femin f - 1) -> y * y < bpow radix2 (femin f - 1) ->
  fvel_represent_as f L m deg (S n) nokw (mkVel WCart2 [Some vx; Some vy]) WPolar (PCart2 (Some x) (Some y))
    = Ok false (mkVel WPolar [None; None]).
Proof.
  intros f L m deg n x y vx vy ok Ix Iy Ivx Ivy Hx Hy.
  assert (K : forall v, v * v < bpow radix2 (femin f - 1) -> @nmul ext (NF f L) (Some v) (Some v) = Some 0).
  { intros v Hv. cbn.
    assert (E : frnd f (v * v) = 0).
    { apply Rle_antisym; [| apply rn_ge_F; auto; [apply F0 | nra]].
      apply round_N_le_midp. apply FLT_exp_valid. destruct ok; unfold Prec_gt_0; lia. apply F0.
      rewrite succ_0. unfold fexp_of. rewrite ulp_FLT_0 by (destruct ok; unfold Prec_gt_0; lia).
      replace (femin f) with (femin f - 1 + 1)%Z by lia. rewrite bpow_plus. change (bpow radix2 1) with 2. lra. }
    unfold fop. rewrite E. apply fin_some. rewrite Rabs_R0. apply bpow_gt_0. }
  assert (SQ : @nsqrt ext (NF f L) (Some 0) = Some 0).
  { cbn. assert (Q : Rleb 0 0 = true) by (apply Rleb_true; lra). rewrite Q, sqrt_0. unfold fop. rewrite rn0.
    apply fin_some. rewrite Rabs_R0. apply bpow_gt_0. }
  assert (D : forall z, @ndiv ext (NF f L) (Some z) (Some 0) = None).
  { intros z. cbn. assert (Q : Reqb 0 0 = true) by (now apply Reqb_true). now rewrite Q. }
  assert (J : exists a b c d, fjacobian f L deg (S n) nokw (PCart2 (Some x) (Some y)) CPolar = Ok false [[a; b]; [c; d]] /\
    a = None /\ b = None /\ c = None /\ d = None).
  { unfold fjacobian, fjac_column. cbn [components length seq mapM map]. unfold seed, basis. cbn [seq map nth Nat.eqb].
    step. unfold mk_Polar. cbn [conv_r conv_az length_of_kind check_nonneg]. unfold ret. rewrite ?bind_ok.
    step. unfold mk_Polar. cbn [conv_r conv_az length_of_kind check_nonneg]. unfold ret. rewrite ?bind_ok.
    cbn [components map dd dval]. unfold nsq. cbn [nmul nadd nsqrt natan2 nwrap Num_fdual dd dv].
    change (Num_fl f L) with (NF f L).
    rewrite !K by auto. rewrite !a00 by auto. rewrite SQ, !D.
    do 4 eexists. split; [reflexivity|].
    assert (MN : forall v : ext, @nmul ext (NF f L) v None = None) by (intros [|]; reflexivity).
    assert (SN : forall v : ext, @nsub ext (NF f L) v None = None) by (intros [|]; reflexivity).
    rewrite !MN, !SN. auto. }
  destruct J as (a & b & c & d & EJ & -> & -> & -> & ->).
  unfold fvel_represent_as, pvel_represent_as. cbn [vc vcls_eqb andb negb vdim integral_cls dim_of Nat.eqb].
  unfold pvel_generic. cbn [vc integral_cls]. step. unfold ret. rewrite bind_ok. unfold pcast_distance.
  unfold ret, can_map. rewrite !bind_ok. unfold ret. rewrite bind_ok, EJ, bind_ok. reflexivity.
Qed.
Print Assumptions C74_finding_no_velocity_near_the_axis.

(** ** Velocities in longitude, with and without the cosine of the latitude *)
Definition lonlat (lon lat d : R) : pos ext := PLonLat (Some lon) (Some lat) (fdist d).
Theorem C74_times_cosine_of_latitude : forall f L e m deg n lon lat d a b c,
  fmt_ok f -> libm_ok f L -> libm_accurate f L e -> isf f lat -> isf f a ->
  exists a', fvel_represent_as f L m deg (S n) nokw (mkVel WLonLat [Some a; Some b; Some c]) WLonCosLat (lonlat lon lat d)
      = Ok false (mkVel WLonCosLat [Some a'; Some b; Some c]) /\ isf f a' /\ Rabs a' <= Rabs a /\
    Rabs (a' - a * cos lat) <= (fu f + e) * Rabs a + eta f.
Proof.
  intros f L e m deg n lon lat d a b c ok Lok Lacc Il Ia.
  destruct (cos_fl f L Lok e Lacc lat Il) as (Ic & Bc & Ac).
  destruct (fl_mul f L ok a _ Ia Bc) as (E & I & B & A).
  exists (frnd f (a * m_cos L lat)). split.
  { unfold fvel_represent_as, pvel_represent_as. cbn [vc vcls_eqb andb negb vdim integral_cls dim_of Nat.eqb].
    unfold plonlat_to_lcl, platitude, lonlat. cbn [vcomps]. step. unfold ret. rewrite !bind_ok.
    change (Num_fl f L) with (NF f L). change (@ncos ext (NF f L) (Some lat)) with (Some (m_cos L lat) : ext). now rewrite E. }
  split; auto. split; auto.
  replace (frnd f (a * m_cos L lat) - a * cos lat) with ((frnd f (a * m_cos L lat) - a * m_cos L lat) + a * (m_cos L lat - cos lat)) by ring.
  eapply Rle_trans; [apply Rabs_triang|]. rewrite Rabs_mult. pose proof (Rabs_pos a). nra.
Qed.
Print Assumptions C74_times_cosine_of_latitude.
(** LonLat -> LonCosLat -> LonLat returns the velocity, except where the computed
    cosine is 0; there the way back gives no number. *)
Theorem C74_loncoslat_round_trip : forall f L m deg n lon lat d a b c,
  fmt_ok f -> libm_ok f L -> isf f lat -> isf f a -> Rabs a <= fmax f / 4 ->
  exists v w, fvel_represent_as f L m deg (S n) nokw (mkVel WLonLat [Some a; Some b; Some c]) WLonCosLat (lonlat lon lat d) = Ok false v /\
    fvel_represent_as f L m deg (S n) nokw v WLonLat (lonlat lon lat d) = Ok false (mkVel WLonLat [w; Some b; Some c]) /\
    (m_cos L lat = 0 -> w = None) /\
    (m_cos L lat <> 0 -> exists a', w = Some a' /\ isf f a' /\ Rabs (a' - a) <= 3 * fu f * Rabs a + 3 * (eta f / Rabs (m_cos L lat))).
Proof.
  intros f L m deg n lon lat d a b c ok Lok Il Ia O.
  destruct Lok as (_ & Hc & _). destruct (Hc _ Il) as [Ic Bc].
  exists (mkVel WLonCosLat [@nmul ext (NF f L) (Some a) (Some (m_cos L lat)); Some b; Some c]).
  exists (@ndiv ext (NF f L) (@nmul ext (NF f L) (Some a) (Some (m_cos L lat))) (Some (m_cos L lat))). split.
  { unfold fvel_represent_as, pvel_represent_as. cbn [vc vcls_eqb andb negb vdim integral_cls dim_of Nat.eqb].
    unfold plonlat_to_lcl, platitude, lonlat. cbn [vcomps]. step. unfold ret. rewrite !bind_ok. reflexivity. }
  split.
  { unfold fvel_represent_as, pvel_represent_as. cbn [vc vcls_eqb andb negb vdim integral_cls dim_of Nat.eqb].
    unfold plcl_to_lonlat, platitude, lonlat. cbn [vcomps]. step. unfold ret. rewrite !bind_ok. reflexivity. }
  split.
  - intros ->. destruct (@nmul ext (NF f L) (Some a) (Some 0)); cbn; auto. now rewrite (proj2 (Reqb_true 0 0)).
  - intros N. destruct (there_back f L ok a _ Ia Ic Bc N O) as (a' & E & I & A & _). exists a'. auto.
Qed.
Print Assumptions C74_loncoslat_round_trip.

(** ** Accelerations *)
Lemma bret' {T U} (x : T) (g : T -> res U) : bind (ret x) g = g x.
Proof. cbn. destruct (g x); reflexivity. Qed.
(** The components of a converted acceleration are computed exactly like those of
    a velocity with the same numbers at the same position (so every bound above
    holds for accelerations too); the velocity given does not matter. *)
Theorem C74_accelerations_like_velocities : forall f L m deg n c t a w p,
  vdim (acc_integral_cls c) = vdim (acc_integral_cls t) -> c <> t ->
  acc_integral_cls c <> WTwoSphere -> acc_integral_cls t <> WProlate ->
  facc_represent_as f L m deg n nokw (mkAcc c a) t (mkVel (acc_integral_cls c) w) p =
  do v <- fvel_represent_as f L m deg n nokw (mkVel (acc_integral_cls c) a) (acc_integral_cls t) p; ret (mkAcc t (vcomps v)).
Proof.
  intros f L m deg n c t a w p Dm NE N1 N2.
  unfold facc_represent_as, pacc_represent_as, fvel_represent_as, pvel_represent_as, pvel_generic. cbn [xc vc xcomps vcomps].
  destruct c, t; try (now contradiction NE); try (now contradiction N1); try (now contradiction N2); try discriminate Dm;
    cbn [acc_integral_cls vcls_eqb xcls_eqb andb negb vdim integral_cls dim_of Nat.eqb xc];
    rewrite ?bret'; repeat first [reflexivity | rewrite OpThm.bind_assoc | rewrite bret' | apply Dispatch.bind_ext; [reflexivity|intros]].
Qed.
Print Assumptions C74_accelerations_like_velocities.

Example C74_from_cartesian_ex : let f := binary64 in
  balanced f /\ usable f 3 /\ usable f (-4) /\ no_underflow f 3 /\ no_underflow f (-4) /\ rates_fit f 3 (-4) 1 2.
Proof.
  intros f. assert (ok := binary64_ok). split; [apply balanced_all|].
  split; [apply (usable_int f 3); auto; lia|]. split; [apply (usable_int f (-4)); auto; lia|].
  pose proof (min_normal_small f ok). split; [right; unfold not_tiny; lra|]. split; [right; unfold not_tiny; lra|].
  pose proof (max_big f ok). pose proof (eta_bnd f ok). unfold rates_fit.
  assert (M : 65536 <= fmax f) by (unfold fmax, f; apply Rle_trans with (bpow radix2 16); [cbn; lra|apply bpow_le; cbn; lia]).
  rewrite (Rabs_left (-4)) by lra. rewrite (Rabs_pos_eq 3), (Rabs_pos_eq 2), (Rabs_pos_eq 1) by lra. lra.
Qed.
(** ... and so is that of the finding: a point 2^-76 from the axis in binary32. *)
Example C74_finding_ex : let f := binary32 in
  isf f (bpow radix2 (-76)) /\ bpow radix2 (-76) * bpow radix2 (-76) < bpow radix2 (femin f - 1).
Proof.
  intros f. split; [split|].
  - apply F_bpow. apply binary32_ok. simpl; lia.
  - rewrite Rabs_pos_eq by apply bpow_ge_0. apply bpow_lt. simpl; lia.
  - rewrite <- bpow_plus. apply bpow_lt. simpl; lia.
Qed.
