(** * Velocities in prolate spheroidal coordinates. *)
From Coq Require Import Reals Bool List ZArith Lra Lia.
From Coquelicot Require Import Coquelicot.
From Verif Require Import Num Vectors Spec Transform Pos3D Pos3DThm RoundTrip PosGlue Prolate ProlateThm Vel SpecVel VelAt DualPos DualThm VelHom VelPush VelThm.
Import ListNotations.
Open Scope R_scope.

Definition pro_in (mu nu D : R) : Prop := 0 < D /\ D*D < mu /\ 0 < Rabs nu < D*D.
Definition pro_tan (mu nu D : R) (u : list R) : list R :=
  let s := Rsign nu in let A := Rabs nu / (D*D) in
  match u with
  | [a;b;c] => [ (a*(1-A) - (mu-D*D)*(b*s/(D*D))) / (2 * prolate_R mu nu D); c;
                 (a*A + mu*(b*s/(D*D))) / (2 * sqrt (mu*A)) * s ]
  | _ => []
  end.

Lemma pro_in_facts mu nu D : pro_in mu nu D ->
  let A := Rabs nu / (D*D) in 0 < A < 1 /\ 0 < D*D /\ 0 < (mu-D*D)*(1-A) /\ 0 < mu*A /\
  0 < prolate_R mu nu D /\ 0 < sqrt (mu*A).
Proof.
  intros (H1 & H2 & H3 & H4) A. assert (0 < D*D) by nra.
  assert (HA : 0 < A) by (apply Rdiv_lt_0_compat; auto).
  assert (HB : A < 1).
  { unfold A. apply Rmult_lt_reg_r with (D*D); auto. unfold Rdiv. rewrite Rmult_assoc, Rinv_l by lra. lra. }
  assert (P1 : 0 < (mu-D*D)*(1-A)) by (apply Rmult_lt_0_compat; lra).
  assert (P2 : 0 < mu*A) by (apply Rmult_lt_0_compat; lra).
  repeat split; auto. apply sqrt_lt_R0; auto. apply sqrt_lt_R0; auto.
Qed.

Lemma d_Prolate_Cyl deg f kw mu nu phi D u : pro_in mu nu D -> length u = 3%nat ->
  represent_as Traced deg (S f) kw (dpos (PProlate mu nu phi D) u) CCyl
  = Ok false (dpos (PCyl (prolate_R mu nu D) phi (prolate_z mu nu D)) (pro_tan mu nu D u)).
Proof.
  intros H L. destruct u as [|a [|b [|c [|]]]]; try discriminate L.
  destruct (pro_in_facts mu nu D H) as (HA & HD & P1 & P2 & P3 & P4).
  unfold prolate_R in P3.
  dstep. cbv zeta. unfold dconst. unfold mk_Cyl. dred.
  rewrite !ediv_some by nra. dred.
  rewrite !esqrt_some by lra. dred.
  rewrite !ediv_some by lra. dred.
  unfold dpos. cbn [pro_tan seed finite pos_map map nth].
  unfold prolate_R, prolate_z.
  match goal with |- Ok false (PCyl (mkDual ?r (Some ?a0)) _ (mkDual ?z (Some ?b0))) = Ok false (PCyl (mkDual _ (Some ?a1)) _ (mkDual _ (Some ?b1))) =>
    assert (Ea : a0 = a1); [|assert (Eb : b0 = b1); [|rewrite Ea, Eb; reflexivity]] end.
  - field. repeat split; try lra; nra.
  - field. repeat split; try lra; nra.
Qed.

(** ** Meaning of a prolate velocity *)
Lemma sign_const x y : Rabs y < Rabs x -> Rsign (x + y) = Rsign x /\ Rabs (x + y) = Rabs x + y * Rsign x /\ Rsign x * Rsign x = 1.
Proof.
  intros H. destruct (Rsign_cases x) as [[P E]|[[P E]|[P E]]].
  - rewrite (Rabs_pos_eq x) in * by lra. apply Rabs_def2 in H. rewrite Rsign_pos, E by lra.
    rewrite Rabs_pos_eq by lra. lra.
  - subst. rewrite Rabs_R0 in H. pose proof (Rabs_pos y). lra.
  - rewrite (Rabs_left x) in * by lra. apply Rabs_def2 in H. rewrite Rsign_neg, E by lra.
    rewrite Rabs_left by lra. lra.
Qed.

Definition pro_cyl (mu nu phi D : R) : pos R := PCyl (prolate_R mu nu D) phi (prolate_z mu nu D).
Lemma pro_cyl_pt mu nu phi D pt : valid (PProlate mu nu phi D) ->
  (denotes (PProlate mu nu phi D) pt <-> denotes (pro_cyl mu nu phi D) pt).
Proof.
  intros (V1 & V2 & V3). pose proof (prolate_Rz_point mu nu D V1 V2 V3) as PP.
  unfold pro_cyl. cbn [denotes]. split.
  - intros (a & b & P0 & ->). destruct (prolate_point_unique _ _ _ _ _ _ _ V1 PP P0) as [-> ->]. reflexivity.
  - intros ->. eauto.
Qed.
Lemma pro_in_valid mu nu phi D : pro_in mu nu D -> valid (PProlate mu nu phi D).
Proof. intros (H1 & H2 & H3 & H4). cbn. lra. Qed.

(** the curve, in smooth form *)
Definition pcurve mu nu phi D a b c (i : nat) (t : R) : R :=
  let s := Rsign nu in
  let R0 := sqrt ((mu + t*a - D*D) * (1 - (Rabs nu + t*b*s)/(D*D))) in
  match i with
  | 0%nat => R0 * cos (phi + t*c)
  | 1%nat => R0 * sin (phi + t*c)
  | _ => sqrt ((mu + t*a) * ((Rabs nu + t*b*s)/(D*D))) * s
  end.
Lemma pcurve_derive mu nu phi D a b c i : pro_in mu nu D -> (i < 3)%nat ->
  is_derive (pcurve mu nu phi D a b c i) 0 (nth i (vel_at (pro_cyl mu nu phi D) (pro_tan mu nu D [a;b;c])) 0).
Proof.
  intros H Hi. destruct (pro_in_facts mu nu D H) as (HA & HD & P1 & P2 & P3 & P4). unfold prolate_R in P3.
  unfold pcurve.
  destruct i as [|[|[|i]]]; [| | |lia]; cbn -[Rabs Rsign]; unfold prolate_R;
  (auto_derive; [rewrite ?Rmult_0_l, ?Rplus_0_r; repeat split; auto; unfold Rminus, Rdiv in *; lra
   | rewrite ?Rmult_0_l, ?Rplus_0_r; 
     change (mu + - (D*D)) with (mu - D*D); change (1 + - (Rabs nu * / (D*D))) with (1 - Rabs nu / (D*D));
     change (Rabs nu * / (D*D)) with (Rabs nu / (D*D)); field; repeat split; try lra; nra]).
Qed.

Lemma pro_shift mu nu phi D a b c : pro_in mu nu D -> exists eps, 0 < eps /\
  forall t, Rabs t < eps -> 
    denotes (shift (PProlate mu nu phi D) [a;b;c] t) (map (fun i => pcurve mu nu phi D a b c i t) (seq 0 3)) /\
    (forall pt, denotes (shift (PProlate mu nu phi D) [a;b;c] t) pt -> pt = map (fun i => pcurve mu nu phi D a b c i t) (seq 0 3)).
Proof.
  intros (H1 & H2 & H3 & H4).
  set (g := Rmin (Rabs nu) (Rmin (D*D - Rabs nu) (mu - D*D))).
  assert (Hg : 0 < g) by (unfold g; repeat apply Rmin_pos; lra).
  set (M := 1 + Rabs a + Rabs b). assert (HM : 0 < M) by (unfold M; pose proof (Rabs_pos a); pose proof (Rabs_pos b); lra).
  exists (g / M). split. { apply Rdiv_lt_0_compat; auto. }
  intros t Ht.
  assert (Hb : forall x, Rabs x <= M -> Rabs (t * x) < g).
  { intros x Hx. rewrite Rabs_mult. apply Rle_lt_trans with (Rabs t * M).
    apply Rmult_le_compat_l; auto using Rabs_pos.
    apply Rlt_le_trans with (g / M * M). apply Rmult_lt_compat_r; auto. right. field. lra. }
  assert (Ga : Rabs (t*a) < g) by (apply Hb; unfold M; pose proof (Rabs_pos b); lra).
  assert (Gb : Rabs (t*b) < g) by (apply Hb; unfold M; pose proof (Rabs_pos a); lra).
  assert (g <= Rabs nu) by apply Rmin_l.
  assert (g <= D*D - Rabs nu) by (eapply Rle_trans; [apply Rmin_r|apply Rmin_l]).
  assert (g <= mu - D*D) by (eapply Rle_trans; [apply Rmin_r|apply Rmin_r]).
  destruct (sign_const nu (t*b)) as (S1 & S2 & S3). lra.
  assert (Sg : Rabs (t*b*Rsign nu) < g).
  { rewrite Rabs_mult. destruct (Rsign_cases nu) as [[_ ->]|[[_ ->]|[_ ->]]];
    rewrite ?Rabs_R1, ?Rabs_R0, ?(Rabs_left (-1)) by lra; lra. }
  apply Rabs_def2 in Ga. apply Rabs_def2 in Sg.
  assert (V : valid (PProlate (mu + t*a) (nu + t*b) (phi + t*c) D)).
  { cbn. rewrite S2. lra. }
  assert (E : cart_at (pro_cyl (mu + t*a) (nu + t*b) (phi + t*c) D) = map (fun i => pcurve mu nu phi D a b c i t) (seq 0 3)).
  { unfold pro_cyl, prolate_R, prolate_z. cbn -[Rabs Rsign]. rewrite S1, S2. reflexivity. }
  cbn [shift nth]. split.
  - apply pro_cyl_pt; auto. rewrite <- E. reflexivity.
  - intros pt Dn. apply pro_cyl_pt in Dn; auto. rewrite <- E. exact Dn.
Qed.

Theorem moves_prolate mu nu phi D u w : pro_in mu nu D -> length u = 3%nat ->
  (moves (PProlate mu nu phi D) u w <-> w = vel_at (pro_cyl mu nu phi D) (pro_tan mu nu D u)).
Proof.
  intros H L. destruct u as [|a [|b [|c [|]]]]; try discriminate L.
  destruct (pro_shift mu nu phi D a b c H) as (e0 & He0 & Hs).
  split.
  - intros (cv & eps & He & Hc & Hd).
    assert (Lw : length w = 3%nat).
    { assert (R0 : Rabs 0 < eps) by (rewrite Rabs_R0; lra). assert (R1 : Rabs 0 < e0) by (rewrite Rabs_R0; lra).
      pose proof (proj2 (Hs 0 R1) _ (Hc 0 R0)) as E. apply (f_equal (@length R)) in E.
      rewrite !map_length, !seq_length in E. auto. }
    apply list_nth_eq. { rewrite Lw. reflexivity. }
    intros i Hi. specialize (Hd i Hi). apply is_derive_Reals in Hd.
    assert (Hl : is_derive (pcurve mu nu phi D a b c i) 0 (nth i w 0)).
    { eapply is_derive_ext_loc; [|exact Hd].
      assert (Hm : 0 < Rmin eps e0) by (apply Rmin_pos; auto).
      exists (mkposreal _ Hm). intros t Ht.
      unfold ball in Ht; cbn in Ht. unfold AbsRing_ball, abs, minus, plus, opp in Ht; cbn in Ht.
      rewrite Ropp_0, Rplus_0_r in Ht.
      assert (Ht1 : Rabs t < eps) by (eapply Rlt_le_trans; [exact Ht|apply Rmin_l]).
      assert (Ht2 : Rabs t < e0) by (eapply Rlt_le_trans; [exact Ht|apply Rmin_r]).
      pose proof (proj2 (Hs t Ht2) _ (Hc t Ht1)) as E. rewrite Lw in E, Hi.
      rewrite <- (map_seq_nth (fun i => cv i t) 3 i Hi), E, map_seq_nth; auto. }
    rewrite Lw in Hi. pose proof (pcurve_derive mu nu phi D a b c i H Hi) as Hl'.
    apply is_derive_unique in Hl. apply is_derive_unique in Hl'. congruence.
  - intros ->. exists (pcurve mu nu phi D a b c), e0. split; auto. split.
    + intros t Ht. apply (Hs t Ht).
    + intros i Hi. apply is_derive_Reals. apply pcurve_derive; auto.
Qed.

(** ** cylindrical -> prolate *)
Section CP.
Variables rho z D a b c : R.
Hypothesis Hr : 0 < rho.
Hypothesis Hz : z <> 0.
Hypothesis HD : 0 < D.
Let s := rho*rho + z*z + D*D.
Let d := rho*rho + z*z - D*D.
Let Q := pro_D rho z D.
Let ds := 2*rho*a + 2*z*c.
Let dQ := (d*ds + 4*(D*D)*rho*a) / Q.

Lemma cp_Q : 0 < Q /\ Q*Q = d*d + 4*(rho*rho)*(D*D) /\ s*s - Q*Q = 4*(D*D)*(z*z) /\ - Q < d < Q /\ Q < s.
Proof.
  assert (NF : ~ at_focus rho z D) by (intros [E _]; lra).
  pose proof (pro_D_pos rho z D ltac:(lra) HD NF) as P. fold Q in P.
  pose proof (pro_D2 rho z D) as E. pose proof (pro_s_D rho z D) as E'.
  fold Q d in E. fold Q s in E'.
  assert (0 < (rho*rho)*(D*D)) by (apply Rmult_lt_0_compat; nra).
  assert (0 < (D*D)*(z*z)) by (apply Rmult_lt_0_compat; nra).
  assert (0 < s) by (unfold s; nra).
  repeat split; auto; nra.
Qed.


Notation mkd x dx := (mkDual (Some x) (Some dx)).
Lemma md_add x dx y dy : (mkd x dx + mkd y dy)%num = mkd (x+y) (dx+dy). Proof. reflexivity. Qed.
Lemma md_sub x dx y dy : (mkd x dx - mkd y dy)%num = mkd (x-y) (dx-dy). Proof. reflexivity. Qed.
Lemma md_mul x dx y dy : (mkd x dx * mkd y dy)%num = mkd (x*y) (dx*y+x*dy). Proof. reflexivity. Qed.
Lemma md_div x dx y dy : y <> 0 -> (mkd x dx / mkd y dy)%num = mkd (x/y) (dx/y - dy*x/(y*y)).
Proof. intros H. dred. rewrite !ediv_some by nra. reflexivity. Qed.
Lemma md_sqrt x dx : 0 < x -> nsqrt (mkd x dx) = mkd (sqrt x) (dx * (1/2/sqrt x)).
Proof.
  intros H. pose proof (sqrt_lt_R0 x H). dred. rewrite !esqrt_some by lra. rewrite !ediv_some by lra. reflexivity.
Qed.
Lemma md_ltb x dx y dy : nltb (mkd x dx) (mkd y dy) = Rltb x y. Proof. reflexivity. Qed.
Lemma mkd_eq x x' y y' : x = x' -> y = y' -> mkd x y = mkd x' y'. Proof. congruence. Qed.

Lemma d_prolate_coords :
  prolate_coords (A:=dual) (mkd rho a) (mkd z c) (mkd D 0)
  = (mkd (pro_mu rho z D) ((ds + dQ)/2), mkd (pro_absnu rho z D * Rsign z) ((ds - dQ)/2 * Rsign z)).
Proof.
  destruct cp_Q as (Q0 & Q2 & SQ & Qd & Qs).
  pose proof (pro_arg rho z D) as PA. fold d in PA.
  unfold prolate_coords. cbv zeta.
  assert (R2 : nsq (mkd rho a) = mkd (rho*rho) (2*rho*a)) by (apply mkd_eq; ring).
  assert (Z2 : nsq (mkd z c) = mkd (z*z) (2*z*c)) by (apply mkd_eq; ring).
  assert (D2 : nsq (mkd D 0) = mkd (D*D) 0) by (apply mkd_eq; ring).
  rewrite R2, Z2, D2. rewrite !md_add, !md_sub.
  assert (ES : mkd (rho*rho+z*z+D*D) (2*rho*a+2*z*c+0) = mkd s ds) by (apply mkd_eq; unfold s, ds; ring).
  assert (Ed : mkd (rho*rho+z*z-D*D) (2*rho*a+2*z*c-0) = mkd d ds) by (apply mkd_eq; unfold d, ds; ring).
  rewrite ES, Ed.
  assert (EQ : nsqrt (nsq (mkd d ds) + ncst 4 * mkd (rho*rho)%R (2*rho*a)%R * mkd (D*D)%R 0)%num = mkd Q dQ).
  { change (ncst 4 : dual) with (mkd 4 0). unfold nsq. rewrite !md_mul, md_add.
    rewrite md_sqrt by nra. change (sqrt (d*d + 4*(rho*rho)*(D*D))) with Q.
    apply mkd_eq; auto. unfold dQ. field. lra. }
  rewrite EQ.
  change (mkd z c =? ncst 0)%num with (Reqb z 0). change (mkd rho a =? ncst 0)%num with (Reqb rho 0).
  rewrite (proj2 (Reqb_false z 0)) by auto. rewrite (proj2 (Reqb_false rho 0)) by lra.
  change (ncst (1/2) : dual) with (mkd (1/2) 0). change (ncst 2 : dual) with (mkd 2 0).
  rewrite !md_add, !md_sub, !md_mul.
  change (ncst 0 <=? mkd d ds)%num with (Rleb 0 d).
  assert (QQ : dQ * Q = d*ds + 4*(D*D)*rho*a) by (unfold dQ; field; lra).
  assert (Emu : (if Rleb 0 d then mkd (1/2*(Q+d)) (0*(Q+d)+1/2*(dQ+ds))
     else ndiv (mkd (D*D*(rho*rho)) (0*(rho*rho)+D*D*(2*rho*a))) (mkd (1/2*(Q-d)) (0*(Q-d)+1/2*(dQ-ds))))
     = mkd ((Q+d)/2) ((dQ+ds)/2)).
  { destruct (Rleb 0 d). apply mkd_eq; field. rewrite md_div by lra.
    assert (E1 : D*D*(rho*rho) = (Q-d)*(Q+d)/4) by (unfold d in *; nra).
    apply mkd_eq.
    - rewrite E1. field. lra.
    - rewrite E1. field_simplify_eq; [|lra]. unfold d in *. nra. }
  assert (Enu : (if Rleb 0 d then ndiv (mkd (D*D*(rho*rho)) (0*(rho*rho)+D*D*(2*rho*a))) (mkd (1/2*(Q+d)) (0*(Q+d)+1/2*(dQ+ds)))
     else mkd (1/2*(Q-d)) (0*(Q-d)+1/2*(dQ-ds))) = mkd ((Q-d)/2) ((dQ-ds)/2)).
  { destruct (Rleb 0 d). 2: apply mkd_eq; field. rewrite md_div by lra.
    assert (E1 : D*D*(rho*rho) = (Q-d)*(Q+d)/4) by (unfold d in *; nra).
    apply mkd_eq.
    - rewrite E1. field. lra.
    - rewrite E1. field_simplify_eq; [|lra]. unfold d in *. nra. }
  rewrite Emu, Enu. clear Emu Enu.
  rewrite md_add, md_div by lra. rewrite !md_mul, md_sub.
  rewrite md_ltb.
  assert (Ean : mkd (2*(D*D)/(s+Q)*(z*z)) (((0*(D*D)+2*0)/(s+Q) - (ds+dQ)*(2*(D*D))/((s+Q)*(s+Q)))*(z*z) + 2*(D*D)/(s+Q)*(2*z*c))
    = mkd ((s-Q)/2) ((ds-dQ)/2)).
  { apply mkd_eq. field_simplify_eq; [|lra]. nra.
    assert (E1 : D*D*(z*z) = (s-Q)*(s+Q)/4) by nra.
    assert (E2 : 2*(D*D)*(z*c) = (s*ds - Q*dQ)/2).
    { unfold s, d, ds in *. nra. }
    transitivity ((2 * (2*(D*D)*(z*c)) - (ds+dQ) * 2 * (D*D*(z*z)) / (s+Q)) / (s+Q)).
    field. lra. rewrite E1, E2. field. lra. }
  rewrite Ean. f_equal.
  { apply mkd_eq. unfold pro_mu. fold Q. unfold d. field. field. }
  assert (Eab : (if Rltb (D*D) (2*(D*D)/(s+Q)*(z*z)*2) then mkd (D*D - (Q-d)/2) (0-(dQ-ds)/2) else mkd ((s-Q)/2) ((ds-dQ)/2))
     = mkd ((s-Q)/2) ((ds-dQ)/2)).
  { destruct (Rltb _ _); auto. apply mkd_eq. unfold s, d. field. field. }
  rewrite Eab. change (nsign (mkd z c)) with (mkd (Rsign z) 0). rewrite md_mul.
  apply mkd_eq. unfold pro_absnu. fold Q s. reflexivity. ring.
Qed.
End CP.
