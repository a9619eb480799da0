(** * Prolate spheroidal coordinates. *)
From Coq Require Import Reals Bool List ZArith Lra Lia.
From Verif Require Import Num Vectors Spec Transform Pos3D Pos3DThm FromThm PosLow.
Import ListNotations.
Open Scope R_scope.

Lemma Rsign_sq x : x <> 0 -> Rsign x * Rsign x = 1.
Proof.
  intros H. unfold Rsign. destruct (Rltb 0 x) eqn:E; [lra|].
  destruct (Rltb x 0) eqn:E2; [lra|]. apply Rltb_false in E, E2. lra.
Qed.
Lemma Rsign_pos x : 0 < x -> Rsign x = 1.
Proof. intros H. unfold Rsign. apply Rltb_true in H. now rewrite H. Qed.
Lemma Rsign_neg x : x < 0 -> Rsign x = -1.
Proof. intros H. unfold Rsign. rewrite (proj2 (Rltb_false 0 x)) by lra. apply Rltb_true in H. now rewrite H. Qed.
Lemma Rsign_0 : Rsign 0 = 0.
Proof. unfold Rsign. rewrite !(proj2 (Rltb_false 0 0)) by lra. reflexivity. Qed.
Lemma Rsign_cases x : (0 < x /\ Rsign x = 1) \/ (x = 0 /\ Rsign x = 0) \/ (x < 0 /\ Rsign x = -1).
Proof.
  destruct (Rtotal_order x 0) as [H|[H|H]].
  - right; right. split; auto using Rsign_neg.
  - right; left. subst. auto using Rsign_0.
  - left. split; auto using Rsign_pos.
Qed.

Lemma Rabs_le_iff a b : Rabs a <= b -> - b <= a <= b.
Proof. intros H. pose proof (Rle_abs a). pose proof (Rle_abs (- a)) as H1. rewrite Rabs_Ropp in H1. lra. Qed.

(** *** The specification determines the point. *)
Lemma prolate_point_R2 mu nu Delta R z :
  0 < Delta -> prolate_point mu nu Delta R z ->
  R * R = (Delta*Delta - Rabs nu) * (mu - Delta*Delta) / (Delta*Delta).
Proof.
  intros HD (_ & H1 & _ & H3 & _). unfold on_confocal in *.
  assert (0 < Delta * Delta) by nra. set (D2 := Delta*Delta) in *.
  assert (z*z = mu + Rabs nu - D2 - R*R) by lra. rewrite H0 in H1.
  field_simplify_eq; nra.
Qed.
Lemma prolate_point_unique mu nu Delta R z R' z' :
  0 < Delta -> prolate_point mu nu Delta R z -> prolate_point mu nu Delta R' z' -> R = R' /\ z = z'.
Proof.
  intros HD H H'.
  pose proof (prolate_point_R2 _ _ _ _ _ HD H) as E. pose proof (prolate_point_R2 _ _ _ _ _ HD H') as E'.
  destruct H as (P1 & _ & _ & S1 & G1). destruct H' as (P2 & _ & _ & S2 & G2).
  assert (RR : R = R') by (assert (R*R=R'*R') by lra; nra). split; auto. subst R'.
  assert (Z : z * z = z' * z') by lra.
  rewrite <- G2 in G1.
  destruct (Rsign_cases z) as [[? ?]|[[? ?]|[? ?]]], (Rsign_cases z') as [[? ?]|[[? ?]|[? ?]]]; try lra; nra.
Qed.

(** *** prolate -> cylindrical, d3/transform.py:601-629 *)
Definition prolate_R (mu nu Delta : R) : R :=
  sqrt ((mu - Delta*Delta) * (1 - Rabs nu / (Delta*Delta))).
Definition prolate_z (mu nu Delta : R) : R := sqrt (mu * (Rabs nu / (Delta*Delta))) * Rsign nu.

Lemma prolate_ratio nu Delta : 0 < Delta -> Rabs nu <= Delta*Delta -> 0 <= Rabs nu / (Delta*Delta) <= 1.
Proof.
  intros HD H. assert (0 < Delta*Delta) by nra. pose proof (Rabs_pos nu). split.
  - apply Rmult_le_pos; auto. apply Rlt_le, Rinv_0_lt_compat; auto.
  - apply Rmult_le_reg_r with (Delta*Delta); auto. unfold Rdiv. rewrite Rmult_assoc, Rinv_l by lra. lra.
Qed.

Lemma rep_Prolate_Cyl m deg f kw mu nu phi Delta :
  0 < Delta -> Delta*Delta <= mu -> Rabs nu <= Delta*Delta ->
  represent_as m deg (S f) kw (finite (PProlate mu nu phi Delta)) CCyl
  = Ok false (finite (PCyl (prolate_R mu nu Delta) phi (prolate_z mu nu Delta))).
Proof.
  intros HD Hmu Hnu. pose proof (prolate_ratio nu Delta HD Hnu) as [B1 B2].
  assert (0 < Delta*Delta) by nra. pose proof (Rabs_pos nu).
  step. cbv zeta. ered. rewrite ediv_some by lra. ered.
  rewrite !esqrt_some. 2: nra. 2: nra.
  ered. unfold mk_Cyl. rewrite nonneg_ok by apply sqrt_pos. reflexivity.
Qed.

Lemma prolate_Rz_point mu nu Delta :
  0 < Delta -> Delta*Delta <= mu -> Rabs nu <= Delta*Delta ->
  prolate_point mu nu Delta (prolate_R mu nu Delta) (prolate_z mu nu Delta).
Proof.
  intros HD Hmu Hnu. pose proof (prolate_ratio nu Delta HD Hnu) as [B1 B2].
  assert (0 < Delta*Delta) by nra. pose proof (Rabs_pos nu).
  assert (R2 : prolate_R mu nu Delta * prolate_R mu nu Delta = (mu - Delta*Delta) * (1 - Rabs nu / (Delta*Delta))).
  { apply sqrt_sqrt. nra. }
  assert (Z2 : prolate_z mu nu Delta * prolate_z mu nu Delta = mu * (Rabs nu / (Delta*Delta))).
  { unfold prolate_z. destruct (Req_EM_T nu 0) as [->|N].
    - rewrite Rabs_R0. unfold Rdiv. rewrite Rmult_0_l, Rmult_0_r, sqrt_0. ring.
    - transitivity (sqrt (mu * (Rabs nu / (Delta * Delta))) * sqrt (mu * (Rabs nu / (Delta * Delta))) * (Rsign nu * Rsign nu)).
      ring. rewrite Rsign_sq, sqrt_sqrt by (auto; nra). ring. }
  repeat split.
  - apply sqrt_pos.
  - unfold on_confocal. rewrite R2, Z2. field. lra.
  - unfold on_confocal. rewrite R2, Z2. field. lra.
  - rewrite R2, Z2. field. lra.
  - unfold prolate_z. destruct (Rsign_cases nu) as [[P E]|[[P E]|[P E]]]; rewrite E.
    + rewrite Rmult_1_r. apply Rsign_pos. apply sqrt_lt_R0. rewrite Rabs_pos_eq by lra.
      apply Rmult_lt_0_compat; [lra|]. apply Rdiv_lt_0_compat; lra.
    + rewrite Rmult_0_r. apply Rsign_0.
    + apply Rsign_neg. assert (0 < sqrt (mu * (Rabs nu / (Delta * Delta)))); [|lra].
      apply sqrt_lt_R0. rewrite Rabs_left by lra.
      apply Rmult_lt_0_compat; [lra|]. apply Rdiv_lt_0_compat; lra.
Qed.

(** *** cylindrical -> prolate, d3/transform.py:632-705 *)
Definition pro_D (rho z Delta : R) : R :=
  sqrt ((rho*rho + z*z - Delta*Delta) * (rho*rho + z*z - Delta*Delta) + 4 * (rho*rho) * (Delta*Delta)).
Definition pro_mu (rho z Delta : R) : R := (rho*rho + z*z + Delta*Delta + pro_D rho z Delta) / 2.
Definition pro_absnu (rho z Delta : R) : R := (rho*rho + z*z + Delta*Delta - pro_D rho z Delta) / 2.
Definition at_focus (rho z Delta : R) : Prop := rho = 0 /\ z*z = Delta*Delta.

Section Pro.
Variables rho z Delta : R.
Hypothesis Hrho : 0 <= rho.
Hypothesis HD : 0 < Delta.
Let D := pro_D rho z Delta.
Let s := rho*rho + z*z + Delta*Delta.
Let d := rho*rho + z*z - Delta*Delta.

Lemma pro_arg : 0 <= d*d + 4 * (rho*rho) * (Delta*Delta).
Proof. assert (0 <= d*d) by nra. assert (0 <= (rho*rho)*(Delta*Delta)) by (apply Rmult_le_pos; nra). lra. Qed.
Lemma pro_D2 : D * D = d*d + 4 * (rho*rho) * (Delta*Delta).
Proof. apply sqrt_sqrt. apply pro_arg. Qed.
Lemma pro_D_nonneg : 0 <= D. Proof. apply sqrt_pos. Qed.
Lemma pro_D_abs : Rabs d <= D.
Proof.
  apply Rabs_le. pose proof pro_D2. pose proof pro_D_nonneg.
  assert (0 <= (rho*rho)*(Delta*Delta)) by (apply Rmult_le_pos; nra).
  split; nra.
Qed.
Lemma pro_D_pos : ~ at_focus rho z Delta -> 0 < D.
Proof.
  intros NF. pose proof pro_D2. pose proof pro_D_nonneg.
  destruct (Req_EM_T D 0) as [E|N]; [|lra]. exfalso. apply NF. rewrite E in H.
  assert (0 <= d*d) by nra. assert (0 <= (rho*rho)*(Delta*Delta)) by (apply Rmult_le_pos; nra).
  assert (E1 : d*d = 0) by lra. assert (E2 : (rho*rho)*(Delta*Delta) = 0) by lra.
  assert (d = 0) by nra. assert (0 < Delta*Delta) by nra.
  assert (rho*rho = 0) by (apply Rmult_integral in E2; destruct E2; lra).
  assert (rho = 0) by nra. split; auto. unfold d in *. nra.
Qed.
(** the special-cased square roots agree with the general formula *)
Lemma pro_D_z0 : z = 0 -> D = s.
Proof.
  intros ->. unfold D, pro_D, s. replace (_ + 4 * (rho*rho) * (Delta*Delta)) with
   ((rho*rho + 0*0 + Delta*Delta)*(rho*rho + 0*0 + Delta*Delta)) by ring.
  apply sqrt_square. nra.
Qed.
Lemma pro_D_rho0 : rho = 0 -> D = Rabs d.
Proof.
  intros E. unfold D, pro_D, d. rewrite E.
  replace (_ + 4 * (0*0) * (Delta*Delta)) with (Rsqr (0*0+z*z-Delta*Delta)) by (unfold Rsqr; ring).
  apply sqrt_Rsqr_abs.
Qed.
Lemma pro_s_D : s * s - D * D = 4 * (Delta*Delta) * (z*z).
Proof. rewrite pro_D2. unfold s, d. ring. Qed.
Lemma pro_s_pos : 0 < s. Proof. unfold s. nra. Qed.
Lemma pro_absnu_eq : 2 * (Delta*Delta) / (s + D) * (z*z) = (s - D) / 2.
Proof.
  pose proof pro_s_pos. pose proof pro_D_nonneg. pose proof pro_s_D. field_simplify_eq; lra.
Qed.

Lemma prolate_coords_finite : ~ at_focus rho z Delta ->
  prolate_coords (A:=ext) (Some rho) (Some z) (Some Delta)
  = (Some (pro_mu rho z Delta), Some (pro_absnu rho z Delta * Rsign z)).
Proof.
  intros NF. pose proof (pro_D_pos NF) as DP. pose proof pro_D_abs as DA.
  pose proof pro_s_pos as SP. pose proof pro_D2 as D2.
  apply Rabs_le_iff in DA.
  unfold prolate_coords. ered. cbv zeta.
  fold d s. rewrite esqrt_some by apply pro_arg. fold (pro_D rho z Delta). 
  change (sqrt (d * d + 4 * (rho * rho) * (Delta * Delta))) with D.
  assert (E1 : (if Reqb z 0 return ext then Some s else Some D) = Some D).
  { destruct (Reqb z 0) eqn:E; auto. apply Reqb_true in E. now rewrite (pro_D_z0 E). }
  rewrite E1.
  assert (E2 : (if Reqb rho 0 return ext then Some (Rabs d) else Some D) = Some D).
  { destruct (Reqb rho 0) eqn:E; auto. apply Reqb_true in E. now rewrite (pro_D_rho0 E). }
  rewrite E2. ered.
  rewrite (ediv_some _ (s + D)) by lra. ered.
  rewrite pro_absnu_eq.
  destruct (Rleb 0 d) eqn:E.
  - apply Rleb_true in E. rewrite !ediv_some by lra. ered. f_equal.
    + f_equal. unfold pro_mu. fold D s. unfold s, d. field.
    + assert (NU : (if Rltb (Delta*Delta) ((s-D)/2*2) return ext then Some (Delta*Delta - Delta*Delta*(rho*rho)/(1/2*(D+d))) else Some ((s-D)/2))
             = Some (pro_absnu rho z Delta)).
      { destruct (Rltb _ _); [|reflexivity]. f_equal. unfold pro_absnu. fold D.
        unfold d in *. field_simplify_eq; nra. }
      rewrite NU. reflexivity.
  - apply Rleb_false in E. rewrite !ediv_some by lra. ered. f_equal.
    + f_equal. unfold pro_mu. fold D. unfold d in *. field_simplify_eq; nra.
    + assert (NU : (if Rltb (Delta*Delta) ((s-D)/2*2) return ext then Some (Delta*Delta - 1/2*(D-d)) else Some ((s-D)/2))
             = Some (pro_absnu rho z Delta)).
      { destruct (Rltb _ _); [|reflexivity]. f_equal. unfold pro_absnu. fold D. unfold d. field. }
      rewrite NU. reflexivity.
Qed.

Lemma pro_absnu_range : 0 <= pro_absnu rho z Delta <= Delta*Delta.
Proof.
  pose proof pro_D_abs as DA. apply Rabs_le_iff in DA. pose proof pro_s_D. pose proof pro_D_nonneg.
  pose proof pro_s_pos. unfold pro_absnu. fold D s. unfold d in *. split; [|unfold s in *; lra].
  assert (0 <= (Delta*Delta)*(z*z)) by (apply Rmult_le_pos; nra). nra.
Qed.
Lemma pro_mu_range : Delta*Delta <= pro_mu rho z Delta.
Proof.
  pose proof pro_D_abs as DA. apply Rabs_le_iff in DA. unfold pro_mu. fold D. unfold d in *. lra.
Qed.
Lemma pro_nu_abs : Rabs (pro_absnu rho z Delta * Rsign z) = pro_absnu rho z Delta.
Proof.
  pose proof pro_absnu_range. rewrite Rabs_mult, (Rabs_pos_eq (pro_absnu _ _ _)) by lra.
  destruct (Rsign_cases z) as [[? ->]|[[E ->]|[? ->]]].
  - rewrite Rabs_R1. ring.
  - rewrite Rabs_R0. unfold pro_absnu. fold D s. rewrite (pro_D_z0 E). field.
  - rewrite Rabs_left by lra. ring.
Qed.
Lemma pro_point :
  prolate_point (pro_mu rho z Delta) (pro_absnu rho z Delta * Rsign z) Delta rho z.
Proof.
  pose proof pro_D2 as D2. pose proof pro_s_D as SD. pose proof pro_absnu_range as NR.
  unfold prolate_point. rewrite pro_nu_abs. unfold on_confocal. repeat split; auto.
  - unfold pro_mu. fold D. unfold d in D2. field_simplify_eq. nra.
  - unfold pro_absnu. fold D. unfold d in D2. field_simplify_eq. nra.
  - unfold pro_mu, pro_absnu. field.
  - assert (z <> 0 -> 0 < pro_absnu rho z Delta).
    { intros N. unfold pro_absnu. fold D s. pose proof pro_D_nonneg. pose proof pro_s_pos.
      assert (0 < (Delta*Delta)*(z*z)) by (apply Rmult_lt_0_compat; nra). nra. }
    destruct (Rsign_cases z) as [[? E]|[[Z E]|[? E]]]; rewrite E.
    + rewrite Rsign_pos; auto. rewrite Rmult_1_r. apply H. lra.
    + rewrite Rmult_0_r. now rewrite Rsign_0.
    + rewrite Rsign_neg; auto. assert (0 < pro_absnu rho z Delta) by (apply H; lra). lra.
Qed.
End Pro.

Lemma prolate_coords_focus z Delta : 0 < Delta -> z*z = Delta*Delta ->
  prolate_coords (A:=ext) (Some 0) (Some z) (Some Delta) = (Some (Delta*Delta), None).
Proof.
  intros HD E. unfold prolate_coords. ered. cbv zeta. rewrite E.
  assert (z <> 0) by nra.
  replace (0*0 + Delta*Delta - Delta*Delta) with 0 by ring.
  rewrite (proj2 (Reqb_false z 0)) by auto. rewrite (proj2 (Reqb_true 0 0)) by auto.
  rewrite Rabs_R0. rewrite (proj2 (Rleb_true 0 0)) by lra. ered.
  rewrite !(ediv_some _ (0*0+Delta*Delta+Delta*Delta+0)) by nra. cbn [lift2 lift2b].
  assert (H2 : 2 * (Delta * Delta) / (0 * 0 + Delta * Delta + Delta * Delta + 0) * (Delta * Delta) = Delta*Delta).
  { field. nra. }
  rewrite H2. rewrite (proj2 (Rltb_true (Delta*Delta) (Delta*Delta*2))) by nra.
  replace (1/2*(0+0)) with 0 by field. rewrite ediv_none. cbn. f_equal. f_equal. ring.
Qed.

Lemma prolate_check_ok m mu nu Delta : 0 < Delta -> Delta*Delta <= mu -> Rabs nu <= Delta*Delta ->
  check_prolate (A:=ext) m (Some mu) (Some nu) (Some Delta) = ret tt.
Proof.
  intros H1 H2 H3. destruct m; ered; auto.
  rewrite (proj2 (Rleb_false Delta 0)) by lra. rewrite !ltb_ge by lra. reflexivity.
Qed.

Lemma rep_Cyl_Prolate m deg f (kw : kwargs ext) rho phi z Delta :
  0 <= rho -> 0 < Delta -> ~ at_focus rho z Delta -> kw_Delta kw = Some (Some Delta) ->
  represent_as m deg (S f) kw (finite (PCyl rho phi z)) CProlate
  = Ok false (finite (PProlate (pro_mu rho z Delta) (pro_absnu rho z Delta * Rsign z) phi Delta)).
Proof.
  intros H1 H2 H3 H4. step. rewrite H4. cbv iota beta zeta.
  rewrite (prolate_coords_finite rho z Delta H1 H2 H3). cbn [fst snd]. unfold mk_Prolate.
  rewrite prolate_check_ok; auto.
  - apply pro_mu_range; auto.
  - rewrite pro_nu_abs by auto. apply pro_absnu_range; auto.
Qed.
Lemma rep_Cyl_Prolate_focus m deg f (kw : kwargs ext) phi z Delta :
  0 < Delta -> z*z = Delta*Delta -> kw_Delta kw = Some (Some Delta) ->
  represent_as m deg (S f) kw (finite (PCyl 0 phi z)) CProlate
  = Ok false (PProlate (Some (Delta*Delta)) None (Some phi) (Some Delta)).
Proof.
  intros H2 H3 H4. step. rewrite H4. cbv iota beta zeta.
  rewrite (prolate_coords_focus z Delta H2 H3). cbn [fst snd]. unfold mk_Prolate.
  destruct m; ered; auto.
  rewrite (proj2 (Rleb_false Delta 0)) by lra. rewrite !ltb_ge by lra. reflexivity.
Qed.
