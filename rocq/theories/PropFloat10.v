(** * Property C77: FourVectors and their interval in floating point.

    Vocabulary: Float.v, FFour.v, PropFloat.v.  [event f c t x y z]: the position is in
    range and the speed of light [c] times the time [t] neither overflows nor
    underflows when squared. *)
From Coq Require Import Reals Bool List ZArith Lra Lia.
From Flocq Require Import Core.
From Verif Require Import Num Vectors Transform Pos3D Pos3DThm Dispatch Arith TreeArith TreeArith FourVec GOp GFour Float FloatThm FloatConv PropFloat FloatArith PropFloat4 FFour.
Import ListNotations.
Open Scope R_scope.

Definition lightpath (f : fmt) (c t : R) : Prop :=
  isf f c /\ isf f t /\ (c * t = 0 \/ 2 * fmin_normal f <= c * t * (c * t)) /\ c * t * (c * t) <= bpow radix2 (femax f - 4).
Definition place (f : fmt) (x y z : R) : Prop :=
  (usable f x /\ usable f y /\ usable f z) /\ (no_underflow f x /\ no_underflow f y /\ no_underflow f z).
(** The event at time [t] and position (x, y, z), with speed of light [c]. *)
Definition event (t x y z c : R) : fourvec ext := mkFV (Some t) (cart3 x y z) (Some c).
(** The interval and the sum of its terms. *)
Definition interval (t x y z c : R) : R := (c * t) * (c * t) - (x * x + y * y + z * z).
Definition terms (t x y z c : R) : R := (c * t) * (c * t) + (x * x + y * y + z * z).

Section S.
Variable f : fmt.
Variable L : libm.
Hypothesis ok : fmt_ok f.
Notation u := (fu f).
Notation F := (generic_format radix2 (fexp_of f)).
Notation rn := (frnd f).
Lemma u256 : 0 < u <= / 256.
Proof. split; [apply fu_pos|]. unfold fu. change (/ 256) with (bpow radix2 (-8)). apply bpow_le. destruct ok. lia. Qed.
Lemma sq_bound S b k : (k <= 7)%nat -> 0 <= S -> S * (1 - u) ^ k <= b <= S * (1 + u) ^ k -> Rabs (b - S) <= 8 * u * S.
Proof.
  intros Hk HS H. pose proof u256 as [P Q].
  assert (U7 : (1 + u) ^ k <= 1 + 8 * u).
  { apply Rle_trans with ((1 + u) ^ 7). apply Rle_pow; auto; lra.
    replace ((1 + u) ^ 7) with (1 + u * (7 + u * (21 + u * (35 + u * (35 + u * (21 + u * (7 + u))))))) by ring.
    assert (u * (21 + u * (35 + u * (35 + u * (21 + u * (7 + u))))) <= 1).
    { assert (u * (7 + u) <= 1) by nra. assert (u * (21 + u * (7 + u)) <= 1) by nra.
      assert (u * (35 + u * (21 + u * (7 + u))) <= 1) by nra. assert (u * (35 + u * (35 + u * (21 + u * (7 + u)))) <= 1) by nra. nra. }
    nra. }
  assert (D7 : 1 - 8 * u <= (1 - u) ^ k).
  { assert (K : forall j, (j <= 7)%nat -> 1 - INR j * u <= (1 - u) ^ j /\ 0 <= (1 - u) ^ j <= 1).
    { induction j as [|j IH]; intros Hj. { cbn. lra. }
      destruct IH as (I1 & I2 & I3); [lia|]. rewrite S_INR. cbn [pow]. split; [nra|split; nra]. }
    destruct (K k Hk) as (K1 & _). assert (INR k <= 7) by (apply le_INR in Hk; cbn in Hk; lra). nra. }
  apply Rabs_le. split; nra.
Qed.
Lemma sq_of_close S r k : 0 <= r -> 0 <= S -> sqrt S * (1 - u) ^ k <= r <= sqrt S * (1 + u) ^ k -> S * (1 - u) ^ (2 * k) <= r * r <= S * (1 + u) ^ (2 * k).
Proof.
  intros Hr HS [H1 H2]. pose proof u256 as [P Q]. pose proof (sqrt_pos S) as P0. rewrite !pow_mult. 
  replace (((1 - u) ^ 2) ^ k) with ((1 - u) ^ k * (1 - u) ^ k) by (rewrite <- Rpow_mult_distr; f_equal; ring).
  replace (((1 + u) ^ 2) ^ k) with ((1 + u) ^ k * (1 + u) ^ k) by (rewrite <- Rpow_mult_distr; f_equal; ring).
  assert (0 <= (1 - u) ^ k) by (apply pow_le; lra). assert (0 <= (1 + u) ^ k) by (apply pow_le; lra).
  pose proof (sqrt_sqrt S HS) as E. remember (sqrt S) as q. clear Heqq. subst S.
  split.
  - replace (q * q * ((1 - u) ^ k * (1 - u) ^ k)) with ((q * (1 - u) ^ k) * (q * (1 - u) ^ k)) by ring.
    assert (0 <= q * (1 - u) ^ k) by (apply Rmult_le_pos; auto). apply Rmult_le_compat; auto.
  - replace (q * q * ((1 + u) ^ k * (1 + u) ^ k)) with ((q * (1 + u) ^ k) * (q * (1 + u) ^ k)) by ring. apply Rmult_le_compat; auto.
Qed.
(** the square of a float whose square is normal or zero *)
Lemma sq_step S v k : (k <= 6)%nat -> 0 <= S -> (v * v = 0 \/ fmin_normal f <= v * v) -> S * (1 - u) ^ k <= v * v <= S * (1 + u) ^ k ->
  S * (1 - u) ^ (k + 1) <= rn (v * v) <= S * (1 + u) ^ (k + 1).
Proof.
  intros Hk HS N [H1 H2]. pose proof u256 as [P Q]. rewrite !pow_add, !pow_1, <- !Rmult_assoc.
  destruct (rn_rel f ok (v * v)) as (e & He & ->). { destruct N as [->|N]; auto. right. rewrite Rabs_pos_eq by nra. auto. }
  apply Rabs_le_inv in He. assert (0 <= v * v) by nra. split.
  - apply Rle_trans with (v * v * (1 - u)). apply Rmult_le_compat_r; lra. apply Rmult_le_compat_l; lra.
  - apply Rle_trans with (v * v * (1 + u)). apply Rmult_le_compat_l; lra. apply Rmult_le_compat_r; lra.
Qed.
Lemma nmul_rn a b e : (femin f <= e < femax f)%Z -> Rabs (a * b) <= bpow radix2 e -> @nmul ext (Num_fl f L) (Some a) (Some b) = Some (rn (a * b)).
Proof. intros. now apply (fop_some f ok _ e). Qed.
Lemma sq_le_abs a b : 0 <= b -> a * a <= b * b -> Rabs a <= b.
Proof. intros Hb H. apply Rsqr_incr_0_var; auto. unfold Rsqr. rewrite <- Rabs_mult, Rabs_pos_eq by nra. exact H. Qed.
Lemma ct_run c t : lightpath f c t -> exists T, @nsq ext (Num_fl f L) (@nmul ext (Num_fl f L) (Some c) (Some t)) = Some T /\
   F T /\ 0 <= T <= bpow radix2 (femax f - 3) /\ Rabs (T - c * t * (c * t)) <= 8 * u * (c * t * (c * t)).
Proof.
  intros (Ic & It & N & R). pose proof u256 as [P Q]. pose proof ok as (O1 & O2 & O3).
  assert (B : Rabs (c * t) <= bpow radix2 (femax f - 4)).
  { apply sq_le_abs. apply bpow_ge_0. eapply Rle_trans; [exact R|]. pose proof (bpow_gt_0 radix2 (femax f - 4)). assert (1 <= bpow radix2 (femax f - 4)). { change 1 with (bpow radix2 0). apply bpow_le. lia. } nra. }
  rewrite (nmul_rn c t (femax f - 4)) by (auto; lia). set (v := rn (c * t)).
  assert (V : c * t * (c * t) * (1 - u) ^ 2 <= v * v <= c * t * (c * t) * (1 + u) ^ 2).
  { destruct (rn_rel f ok (c * t)) as (e & He & Ev).
    { destruct N as [N|N]; [left; exact N|]. right. assert (0 < fmin_normal f <= / 16) by (split; [apply bpow_gt_0|apply min_normal_small; auto]).
      apply Rnot_lt_le. intros K. pose proof (Rabs_pos (c * t)). assert (Rabs (c * t) * Rabs (c * t) = c * t * (c * t)) by (rewrite <- Rabs_mult; apply Rabs_pos_eq; nra). nra. }
    unfold v. rewrite Ev. apply Rabs_le_inv in He. replace (c * t * (1 + e) * (c * t * (1 + e))) with (c * t * (c * t) * ((1 + e) * (1 + e))) by ring.
    assert (0 <= c * t * (c * t)) by nra. split; apply Rmult_le_compat_l; auto; nra. }
  assert (U2 : (1 + u) ^ 2 <= 17 / 16) by (cbn; nra). assert (D2 : / 2 <= (1 - u) ^ 2) by (cbn; nra).
  assert (N2 : v * v = 0 \/ fmin_normal f <= v * v).
  { destruct N as [E|N]. left. unfold v. rewrite E, rn0 by auto. ring. right. assert (0 < fmin_normal f) by apply bpow_gt_0. nra. }
  assert (R2 : v * v <= bpow radix2 (femax f - 3)).
  { replace (femax f - 3)%Z with (femax f - 4 + 1)%Z by lia. rewrite bpow_plus. change (bpow radix2 1) with 2. assert (0 <= c * t * (c * t)) by nra. nra. }
  exists (rn (v * v)). unfold nsq. rewrite (nmul_rn v v (femax f - 3)) by (first [lia|rewrite Rabs_pos_eq by nra; auto]).
  assert (K : F (bpow radix2 (femax f - 3))) by (apply F_bpow; [auto|lia]).
  split; [reflexivity|]. split; [now apply rn_F|]. split; [split|].
  - apply rn_ge_F; [auto|apply F0|nra].
  - now apply rn_le_F.
  - apply (sq_bound _ _ (2 + 1)); [lia|nra|]. apply sq_step; auto; solve [lia|nra].
Qed.
Lemma r2_run x y z : place f x y z -> exists r S, @nsqrt ext (NF f L) (@nadd ext (NF f L) (@nadd ext (NF f L) (@nsq ext (NF f L) (Some x)) (@nsq ext (NF f L) (Some y))) (@nsq ext (NF f L) (Some z))) = Some r /\
   @nsq ext (NF f L) (Some r) = Some S /\ F S /\ 0 <= S <= bpow radix2 (femax f - 1) /\ Rabs (S - (x * x + y * y + z * z)) <= 8 * u * (x * x + y * y + z * z).
Proof.
  intros [(((Fx & Ox) & Rx) & ((Fy & Oy) & Ry) & ((Fz & Oz) & Rz)) (Nx & Ny & Nz)]. pose proof u256 as [P Q].
  destruct (fl_norm3 f L ok x y z Fx Fy Fz Rx Ry Rz) as (r & Er & Vr & Ir & Pr & Mr).
  destruct (Req_dec (x * x + y * y + z * z) 0) as [E0|E0].
  - assert (r = 0).
    { subst r. assert (x = 0 /\ y = 0 /\ z = 0) as (-> & -> & ->) by (repeat split; nra). rewrite !Rmult_0_l, !rn0, !Rplus_0_l, !rn0, !Rplus_0_l, !rn0, sqrt_0, rn0 by auto. reflexivity. }
    clear Vr. subst r. exists 0, 0. split; [exact Er|]. split.
    { unfold nsq, NF. rewrite (nmul_rn 0 0 0); [now rewrite Rmult_0_l, rn0|pose proof (emax_big f ok); pose proof (emin_neg f ok); lia|]. rewrite Rmult_0_l, Rabs_R0. apply bpow_ge_0. }
    split; [apply F0|]. split; [split; [lra|apply bpow_ge_0]|]. rewrite E0, Rminus_0_r, Rabs_R0. lra.
  - assert (T : not_tiny f x \/ not_tiny f y \/ not_tiny f z).
    { destruct Nx as [-> | ?]; [|now left]. destruct Ny as [-> | ?]; [|now right; left]. destruct Nz as [-> | ?]; [|now right; right]. lra. }
    destruct (Mr T) as (Pr' & Mx & My & Mz).
    set (S := x * x + y * y + z * z) in *. assert (S0 : 0 <= S) by (unfold S; nra).
    assert (D : sqrt S * (1 - u) ^ 3 <= r <= sqrt S * (1 + u) ^ 3).
    { rewrite Vr. apply sqrt_rel; auto.
      - right. unfold S, not_tiny in *. nra.
      - pose proof (sq_rel f x ok Nx). pose proof (sq_rel f y ok Ny). pose proof (sq_rel f z ok Nz).
        assert (P2 : forall v, no_underflow f v -> 0 <= rn (v * v)) by (intros; apply rn_ge_F; auto; [apply F0|nra]).
        pose proof (P2 x Nx). pose proof (P2 y Ny). pose proof (P2 z Nz).
        assert (FF : forall a, F (rn a)) by (intros; apply rn_F; auto).
        pose proof (add_rel f (rn (x * x)) (rn (y * y)) ok (FF _) (FF _) ltac:(auto) ltac:(auto)) as A1.
        assert (P3 : 0 <= rn (rn (x * x) + rn (y * y))) by (apply rn_ge_F; auto; [apply F0|lra]).
        pose proof (add_rel f _ (rn (z * z)) ok (FF (rn (x * x) + rn (y * y))) (FF (z * z)) P3 ltac:(auto)) as A2.
        set (a := rn (x * x)) in *. set (b := rn (y * y)) in *. set (c := rn (z * z)) in *. set (d := rn (a + b)) in *. set (g := rn (d + c)) in *.
        assert (0 <= x * x) by nra. assert (0 <= y * y) by nra. assert (0 <= z * z) by nra.
        assert (L1 : (x * x + y * y) * (1 - u) ^ 2 <= d <= (x * x + y * y) * (1 + u) ^ 2) by (cbn [pow]; split; nra).
        assert (L2 : S * (1 - u) ^ 2 <= d + c <= S * (1 + u) ^ 2) by (unfold S; cbn [pow] in *; split; nra).
        replace ((1 - u) ^ 3) with ((1 - u) ^ 2 * (1 - u)) by ring. replace ((1 + u) ^ 3) with ((1 + u) ^ 2 * (1 + u)) by ring. split; nra. }
    pose proof (sq_of_close S r 3 Pr S0 D) as D2. change (2 * 3)%nat with 6%nat in D2.
    assert (R2 : r * r <= bpow radix2 (femax f - 1)).
    { eapply Rle_trans; [apply D2|]. assert (S <= 3 * bpow radix2 (femax f - 3)) by (unfold S, room in *; lra).
      replace (femax f - 1)%Z with (2 + (femax f - 3))%Z by lia. rewrite bpow_plus. change (bpow radix2 2) with 4.
      assert ((1 + u) ^ 6 <= 4 / 3).
      { assert ((1 + u) ^ 2 <= 1 + 3 * u) by (cbn [pow]; nra). replace ((1 + u) ^ 6) with ((1 + u) ^ 2 * ((1 + u) ^ 2 * (1 + u) ^ 2)) by ring.
        assert (0 <= (1 + u) ^ 2) by nra. assert ((1 + u) ^ 2 <= 1 + 1 / 64) by lra. assert ((1 + u) ^ 2 * (1 + u) ^ 2 <= 1.04) by nra. nra. }
      assert (0 <= (1 + u) ^ 6) by (apply pow_le; lra). pose proof (bpow_gt_0 radix2 (femax f - 3)). nra. }
    assert (N2 : fmin_normal f <= r * r).
    { unfold not_tiny in T. assert (Sx : forall v, Rabs v <= r -> v * v <= r * r).
      { intros v Hv. rewrite <- (Rabs_pos_eq (v * v)) by nra. rewrite Rabs_mult. apply Rmult_le_compat; auto; apply Rabs_pos. }
      pose proof (Sx x Mx). pose proof (Sx y My). pose proof (Sx z Mz). destruct T as [?|[?|?] ]; lra. }
    exists r, (rn (r * r)). split; [exact Er|]. split.
    { unfold nsq, NF. apply (nmul_rn r r (femax f - 1)). pose proof (emax_big f ok); pose proof (emin_neg f ok); lia. rewrite Rabs_pos_eq by nra. auto. }
    split; [now apply rn_F|]. split; [split|].
    + apply rn_ge_F; auto; [apply F0|nra].
    + apply rn_le_F; auto. apply F_bpow; auto. pose proof (emax_big f ok); pose proof (emin_neg f ok); lia.
    + apply (sq_bound _ _ 7); auto. apply (sq_step S r 6); auto.
Qed.
End S.

(** ** The interval *)
(** It is computed to within ten rounding errors of the sum of its terms. *)
Theorem C77_interval_accuracy : forall f L deg n t x y z c, fmt_ok f -> place f x y z -> lightpath f c t ->
  exists N, ffv_norm2 f L deg (S n) (event t x y z c) = Ok false (Some N) /\ isf f N /\
    Rabs (N - interval t x y z c) <= 10 * fu f * terms t x y z c.
Proof.
  intros f L deg n t x y z c ok Pl Lp. pose proof (u256 f ok) as [P Q].
  destruct (r2_run f L ok x y z Pl) as (r & S & Er & ES & FS & BS & DS).
  destruct (ct_run f L ok c t Lp) as (T & ET & FT & BT & DT).
  assert (BT' : T <= bpow radix2 (femax f - 1)) by (eapply Rle_trans; [apply BT|]; apply bpow_le; lia).
  assert (BN : Rabs (- S + T) <= bpow radix2 (femax f - 1)) by (apply Rabs_le; lra).
  assert (EX : (femin f <= femax f - 1 < femax f)%Z) by (pose proof (emax_big f ok); pose proof (emin_neg f ok); lia).
  exists (frnd f (- S + T)). split; [|split].
  - unfold ffv_norm2, gfv_norm2, event. cbn [fq fc ft]. fold (fpos_norm f L deg (Datatypes.S n) (cart3 x y z)).
    rewrite norm3_is. unfold ret. change (Num_fl f L) with (NF f L). rewrite Er, bind_ok. cbn [dk dval]. f_equal.
    rewrite ES. change (NF f L) with (Num_fl f L). refine (eq_trans (f_equal (fun w => @nadd ext (Num_fl f L) (@nneg ext (Num_fl f L) (Some S)) w) ET) _).
    cbn. now apply (fop_some f ok _ (femax f - 1)).
  - apply (isf_bnd f _ (femax f - 1)); auto. now apply rn_F. apply rn_abs_le; auto. apply F_bpow; auto. lia.
  - destruct (rn_add_rel f ok (- S) T) as (e & He & ->); auto. { now apply F_opp. }
    unfold interval, terms. apply Rabs_le_inv in DS, DT, He. set (A := c * t * (c * t)) in *. set (B := x * x + y * y + z * z) in *.
    assert (0 <= A) by (unfold A; nra). assert (0 <= B) by (unfold B; nra).
    assert (K : Rabs (e * (T - S)) <= 2 * fu f * (A + B)).
    { rewrite Rabs_mult. apply Rle_trans with (fu f * (2 * (A + B))); [|lra]. apply Rmult_le_compat; try apply Rabs_pos. apply Rabs_le; lra.
      assert (8 * fu f * A <= A) by nra. assert (8 * fu f * B <= B) by nra. apply Rabs_le; lra. }
    apply Rabs_le_inv in K. apply Rabs_le. replace ((- S + T) * (1 + e) - (A - B)) with ((T - A) - (S - B) + e * (T - S)) by ring. lra.
Qed.
Print Assumptions C77_interval_accuracy.

Section C.
Variable f : fmt.
Variable L : libm.
Hypothesis ok : fmt_ok f.
Lemma sqrt_step N : isf f N -> 0 < N -> exists r, @nsqrt ext (Num_fl f L) (Some N) = Some r /\ 0 < r /\ Rabs (r * r - N) <= 3 * fu f * N.
Proof.
  intros [FN BN] PN. pose proof (u256 f ok) as [P Q]. pose proof ok as (O1 & O2 & O3).
  assert (M : fmin_normal f <= sqrt N).
  { assert (B : bpow radix2 (femin f) <= N). { eapply (generic_format_ge_bpow radix2 (fexp_of f)); auto. intros e. unfold fexp_of, FLT_exp. lia. }
    assert (0 < fmin_normal f) by apply bpow_gt_0. apply Rsqr_incr_0_var; [|apply sqrt_pos]. unfold Rsqr. rewrite sqrt_sqrt by lra.
    eapply Rle_trans; [|exact B]. unfold fmin_normal. rewrite <- bpow_plus. apply bpow_le. lia. }
  assert (U : sqrt N <= bpow radix2 (femax f - 1)).
  { rewrite Rabs_pos_eq in BN by lra. apply Rsqr_incr_0_var; [|apply bpow_ge_0]. unfold Rsqr. rewrite sqrt_sqrt by lra. rewrite <- bpow_plus.
    apply Rle_trans with (bpow radix2 (femax f)). unfold fmax in BN. lra. apply bpow_le. lia. }
  exists (frnd f (sqrt N)). pose proof (sqrt_pos N) as Ps. split; [|].
  - cbn [nsqrt Num_fl flift1]. rewrite (proj2 (Rleb_true _ _)) by lra. apply (fop_some f ok _ (femax f - 1)). lia. rewrite Rabs_pos_eq; auto.
  - destruct (rn_rel f ok (sqrt N)) as (e & He & ->). { right. rewrite Rabs_pos_eq; auto. }
    assert (0 < fmin_normal f) by apply bpow_gt_0. apply Rabs_le_inv in He. split. { apply Rmult_lt_0_compat; lra. }
    replace (sqrt N * (1 + e) * (sqrt N * (1 + e)) - N) with ((sqrt N * sqrt N) * ((1 + e) * (1 + e)) - N) by ring. rewrite sqrt_sqrt by lra.
    replace (N * ((1 + e) * (1 + e)) - N) with (N * (e * (2 + e))) by ring. rewrite Rabs_mult, Rabs_pos_eq by lra. rewrite (Rmult_comm _ N). apply Rmult_le_compat_l; [lra|].
    apply Rabs_le. split; nra.
Qed.
End C.
(** An event whose interval exceeds that error is reported as what it is: the norm of a
    time-like event is real, that of a space-like event is imaginary. *)
Theorem C77_causal_character : forall f L deg n t x y z c, fmt_ok f -> place f x y z -> lightpath f c t ->
  10 * fu f * terms t x y z c < Rabs (interval t x y z c) ->
  exists r, 0 < r /\ Rabs (r * r - Rabs (interval t x y z c)) <= 14 * fu f * terms t x y z c /\
    (0 < interval t x y z c -> ffv_norm f L deg (S n) (event t x y z c) = Ok false (Some r, Some 0)) /\
    (interval t x y z c < 0 -> ffv_norm f L deg (S n) (event t x y z c) = Ok false (Some 0, Some r)).
Proof.
  intros f L deg n t x y z c ok Pl Lp H. pose proof (u256 f ok) as [P Q].
  destruct (C77_interval_accuracy f L deg n t x y z c ok Pl Lp) as (N & EN & IN & DN).
  assert (C0 : @ncst ext (Num_fl f L) 0 = Some 0) by exact (fl_cst0 f L ok).
  assert (T0 : Rabs (interval t x y z c) <= terms t x y z c).
  { unfold interval, terms. set (a := c * t * (c * t)). assert (0 <= a) by (unfold a; nra). apply Rabs_le. split; nra. }
  set (I := interval t x y z c) in *. set (T := terms t x y z c) in *. pose proof (Rabs_pos I) as PI0.
  assert (TT : 3 * fu f * (T * (1 + 10 * fu f)) <= 4 * fu f * T).
  { assert (0 <= fu f * T) by (apply Rmult_le_pos; lra). replace (3 * fu f * (T * (1 + 10 * fu f))) with (fu f * T * (3 + 30 * fu f)) by ring. replace (4 * fu f * T) with (fu f * T * 4) by ring. apply Rmult_le_compat_l; lra. }
  unfold ffv_norm. rewrite EN, bind_ok. unfold fcsqrt. rewrite C0. cbn [nltb Num_fl lift2b nneg lift1]. unfold ret.
  destruct (Rlt_le_dec 0 I) as [HI|HI].
  - rewrite (Rabs_pos_eq I) in * by lra. apply Rabs_le_inv in DN. destruct (sqrt_step f L ok N IN) as (r & Er & Pr & Dr). lra.
    exists r. split; [exact Pr|]. split. { apply Rabs_le_inv in Dr. assert (3 * fu f * N <= 3 * fu f * (T * (1 + 10 * fu f))) by (apply Rmult_le_compat_l; lra). apply Rabs_le. lra. }
    split; [|lra]. intros _. rewrite (proj2 (Rltb_false _ _)) by lra. rewrite Er. reflexivity.
  - rewrite (Rabs_left1 I) in * by lra. apply Rabs_le_inv in DN. assert (IN' : isf f (- N)) by now apply isf_opp. destruct (sqrt_step f L ok (- N) IN') as (r & Er & Pr & Dr). lra.
    exists r. split; [exact Pr|]. split. { apply Rabs_le_inv in Dr. assert (3 * fu f * - N <= 3 * fu f * (T * (1 + 10 * fu f))) by (apply Rmult_le_compat_l; lra). apply Rabs_le. lra. }
    split; [lra|]. intros _. rewrite (proj2 (Rltb_true _ _)) by lra. rewrite Er. reflexivity.
Qed.
Print Assumptions C77_causal_character.
(** Finding: below that error the answer can be wrong: a space-like event reported as null. *)
Theorem C77_finding_spacelike_reported_as_null : forall f L deg n, fmt_ok f ->
  place f 1 (fu f) 0 /\ lightpath f 1 1 /\ interval 1 1 (fu f) 0 1 < 0 /\
  ffv_norm f L deg (S n) (event 1 1 (fu f) 0 1) = Ok false (Some 0, Some 0).
Proof.
  intros f L deg n ok. pose proof (u256 f ok) as [P Q]. pose proof ok as (O1 & O2 & O3).
  assert (Fu : generic_format radix2 (fexp_of f) (fu f)) by (apply F_bpow; auto; lia).
  assert (Fuu : generic_format radix2 (fexp_of f) (fu f * fu f)) by (unfold fu; rewrite <- bpow_plus; apply F_bpow; auto; lia).
  assert (MS : 0 < fmin_normal f <= / 16) by (split; [apply bpow_gt_0|now apply min_normal_small]).
  assert (B8 : 1 <= bpow radix2 (femax f - 4)). { change 1 with (bpow radix2 0). apply bpow_le. lia. }
  split; [|split; [|split] ].
  - split; [split; [apply (usable_int f 1); auto; lia|split; [|apply (usable_int f 0); auto; lia] ]|].
    + split; [split; [exact Fu|]|]. rewrite Rabs_pos_eq by lra. unfold fu, fmax. apply bpow_lt. lia.
      unfold room, fu. rewrite <- bpow_plus. apply bpow_le. lia.
    + split; [right; unfold not_tiny; lra|split; [|left; reflexivity] ]. right. unfold not_tiny, fmin_normal, fu. rewrite <- bpow_plus. apply bpow_le. lia.
  - split; [apply (usable_int f 1); auto; lia|]. split; [apply (usable_int f 1); auto; lia|]. split; [right|]; lra.
  - unfold interval. nra.
  - assert (F1' : generic_format radix2 (fexp_of f) 1) by now apply F1.
    assert (E1 : fop f (1 * 1) = Some 1). { rewrite Rmult_1_l, fop_small, rn_id; auto. rewrite Rabs_R1. lra. }
    assert (Es : fop f (sqrt 1) = Some 1) by (rewrite sqrt_1; rewrite Rmult_1_l in E1; exact E1).
    assert (E0 : fop f 0 = Some 0). { rewrite fop_small, rn0; auto. rewrite Rabs_R0. lra. }
    unfold ffv_norm, ffv_norm2, gfv_norm2, event. cbn [fq fc ft]. fold (fpos_norm f L deg (S n) (cart3 1 (fu f) 0)). rewrite norm3_is. unfold ret.
    assert (EN : @nsqrt ext (NF f L) (@nadd ext (NF f L) (@nadd ext (NF f L) (@nsq ext (NF f L) (Some 1)) (@nsq ext (NF f L) (Some (fu f)))) (@nsq ext (NF f L) (Some 0))) = Some 1).
    { unfold nsq, NF. cbn [nmul nadd nsqrt Num_fl flift2 flift1]. rewrite E1, Rmult_0_l, E0. rewrite (fop_small f ok (fu f * fu f)) by (rewrite Rabs_pos_eq; nra). rewrite rn_id by auto.
      cbn [flift2]. rewrite fop_small by (auto; rewrite Rabs_pos_eq; nra). rewrite rn_absorb by (auto; nra). cbn [flift2 flift1]. rewrite Rplus_0_r, fop_small by (auto; rewrite Rabs_R1; lra). rewrite rn_id by auto. cbn [flift1].
      rewrite (proj2 (Rleb_true _ _)) by lra. exact Es. }
    rewrite EN, !bind_ok. cbn [dk dval]. rewrite bind_ok. unfold nsq, fcsqrt. cbn [ncst nmul nneg nadd nltb nsqrt Num_fl flift2 flift1 lift1 lift2b]. rewrite !E1. cbn [flift2 lift1]. rewrite E1. cbn [flift2].
    replace (- (1) + 1) with 0 by ring. rewrite !E0. cbn [lift2b flift1]. rewrite (proj2 (Rltb_false _ _)) by lra. rewrite (proj2 (Rleb_true _ _)) by lra. rewrite sqrt_0, E0. reflexivity.
Qed.
Print Assumptions C77_finding_spacelike_reported_as_null.

(** ** Sums, differences, negatives *)
Theorem C77_sum_and_difference : forall f L m deg n t x y z c t' x' y' z' c', fmt_ok f -> Forall (isf f) [t; x; y; z; t'; x'; y'; z'] ->
  (exists a b d e, ffv_add f L m deg (S n) (event t x y z c) (event t' x' y' z' c') = Ok false (mkFV a (PCart3 b d e) (Some c)) /\
    rounded_to f (t + t') a /\ rounded_to f (x + x') b /\ rounded_to f (y + y') d /\ rounded_to f (z + z') e) /\
  (exists a b d e, ffv_sub f L m deg (S n) (event t x y z c) (event t' x' y' z' c') = Ok false (mkFV a (PCart3 b d e) (Some c)) /\
    rounded_to f (t - t') a /\ rounded_to f (x - x') b /\ rounded_to f (y - y') d /\ rounded_to f (z - z') e).
Proof.
  intros f L m deg n t x y z c t' x' y' z' c' ok H. repeat (apply Forall_cons_iff in H; let K := fresh in destruct H as [K H]).
  split; (do 4 eexists; split; [unfold ffv_add, ffv_sub, gfv_add, gfv_sub, event; cbn [fq ft fc]; unfold tpos_add, tpos_sub, cart3; cbn [tcart_add tcart_sub cart_add cart_sub]; unfold rep; step; reflexivity|]);
  repeat split; cbn [nadd nsub Num_fl flift2]; apply sum_rounded; auto using isf_opp.
Qed.
Print Assumptions C77_sum_and_difference.
Theorem C77_negative : forall f L m deg n t x y z c,
  ffv_neg f L m deg n (event t x y z c) = Ok false (event (- t) (- x) (- y) (- z) c) /\
  ffv_norm f L deg (S n) (event (- t) (- x) (- y) (- z) c) = ffv_norm f L deg (S n) (event t x y z c).
Proof.
  intros f L m deg n t x y z c. split; [reflexivity|]. unfold ffv_norm, ffv_norm2, gfv_norm2, event. cbn [fq fc ft].
  fold (fpos_norm f L deg (S n) (cart3 x y z)). fold (fpos_norm f L deg (S n) (cart3 (- x) (- y) (- z))). rewrite !norm3_is.
  unfold nsq, NF. cbn [nmul Num_fl flift2]. rewrite !Rmult_opp_opp. unfold ret. rewrite !bind_ok. cbn [dk dval]. rewrite !bind_ok.
  assert (E : forall a, flift2 (fun a b => fop f (a * b)) (fop f (c * - a)) (fop f (c * - a)) = flift2 (fun a b => fop f (a * b)) (fop f (c * a)) (fop f (c * a))).
  { intros a. assert (O : fop f (c * - a) = match fop f (c * a) with Some w => Some (- w) | None => None end).
    { replace (c * - a) with (- (c * a)) by ring. unfold fop. rewrite rn_opp. unfold fin. rewrite Rabs_Ropp. now destruct (Rltb (Rabs (frnd f (c * a))) (fmax f)). }
    rewrite O. destruct (fop f (c * a)); cbn; auto. now rewrite Rmult_opp_opp. }
  rewrite E. reflexivity.
Qed.
Print Assumptions C77_negative.

(** ** Arrays *)
(** With the default speed of light, an event written to an array and read back keeps its
    position exactly and its time up to three rounding errors. *)
Theorem C77_array_round_trip : forall f L m deg n t x y z, fmt_ok f -> (30 <= femax f)%Z ->
  let c := frnd f c_light in lightpath f c t -> t = 0 \/ 2 * fmin_normal f <= Rabs t ->
  exists t', (do a <- ffv_to_array f L m deg (S n) (event t x y z c); ffv_from_array f L a) = Ok false (event t' x y z c) /\
    Rabs (t' - t) <= 3 * fu f * Rabs t.
Proof.
  intros f L m deg n t x y z ok E30 c Lp Nt. pose proof (u256 f ok) as [P Q]. pose proof ok as (O1 & O2 & O3).
  assert (MS : 0 < fmin_normal f <= / 16) by (split; [apply bpow_gt_0|now apply min_normal_small]).
  assert (C1 : 1 <= c /\ fop f c_light = Some c).
  { assert (B : Rabs c_light <= bpow radix2 29). { unfold c_light. rewrite Rabs_pos_eq by lra. change (bpow radix2 29) with 536870912. lra. }
    split. apply rn_ge_F; auto. now apply F1. unfold c_light; lra. apply (fop_some f ok _ 29); auto. lia. }
  destruct C1 as [C1 Ec]. pose proof Lp as (Ic & It & N & R).
  assert (B : Rabs (c * t) <= bpow radix2 (femax f - 4)).
  { apply sq_le_abs. apply bpow_ge_0. eapply Rle_trans; [exact R|]. pose proof (bpow_gt_0 radix2 (femax f - 4)). assert (1 <= bpow radix2 (femax f - 4)). { change 1 with (bpow radix2 0). apply bpow_le. lia. } nra. }
  set (v := frnd f (c * t)).
  assert (Ev : exists e, Rabs e <= fu f /\ v = c * t * (1 + e)).
  { apply rn_rel; auto. destruct Nt as [->|Nt]; [left; ring|]. right. rewrite Rabs_mult, (Rabs_pos_eq c) by lra. pose proof (Rabs_pos t). nra. }
  assert (BV : Rabs v <= bpow radix2 (femax f - 4)) by (apply rn_abs_le; auto; apply F_bpow; auto; lia).
  destruct Ev as (e & He & Ev). assert (Ew : v / c = t * (1 + e)) by (rewrite Ev; field; lra). apply Rabs_le_inv in He.
  assert (Ed : exists d, Rabs d <= fu f /\ frnd f (v / c) = v / c * (1 + d)).
  { apply rn_rel; auto. rewrite Ew. destruct Nt as [->|Nt]; [left; ring|]. right. rewrite Rabs_mult, (Rabs_pos_eq (1 + e)) by lra. pose proof (Rabs_pos t). nra. }
  assert (BW : Rabs (v / c) <= bpow radix2 (femax f - 4)).
  { eapply Rle_trans; [|exact BV]. unfold Rdiv. rewrite Rabs_mult. rewrite <- (Rmult_1_r (Rabs v)) at 2. apply Rmult_le_compat_l; [apply Rabs_pos|]. rewrite Rabs_pos_eq.
    - rewrite <- Rinv_1. apply Rinv_le_contravar; lra. - left. apply Rinv_0_lt_compat. lra. }
  destruct Ed as (d & Hd & Ed). apply Rabs_le_inv in Hd.
  exists (frnd f (v / c)). split.
  - unfold ffv_to_array, event. cbn [fq fc ft]. unfold cart3, cart_components, rep. cbn [cls_of cart_cls]. step. unfold ret. rewrite !bind_ok. 
    unfold ffv_from_array. cbn [nmul ndiv ncst Num_fl flift2]. rewrite Ec, (fop_some f ok (c * t) (femax f - 4)) by (auto; lia). cbn [flift2]. fold v.
    rewrite (proj2 (Reqb_false _ _)) by lra. rewrite (fop_some f ok (v / c) (femax f - 4)) by (auto; lia). reflexivity.
  - rewrite Ed, Ew. replace (t * (1 + e) * (1 + d) - t) with (t * (e + d + e * d)) by ring. rewrite Rabs_mult, Rmult_comm. apply Rmult_le_compat_r; [apply Rabs_pos|]. apply Rabs_le. split; nra.
Qed.
Print Assumptions C77_array_round_trip.

(** A concrete instance, binary32 with the correctly rounded library: the event at time 5 and
    position (1, 2, 2), with speed of light 1, is time-like with interval 16. *)
Example C77_case : exists r, ffv_norm binary32 (cr_libm binary32) false 1 (event 5 1 2 2 1) = Ok false (Some r, Some 0) /\ 0 < r /\ Rabs (r * r - 16) <= / 1000.
Proof.
  pose proof binary32_ok as ok.
  assert (MS : 0 < fmin_normal binary32 <= / 16) by (split; [apply bpow_gt_0|now apply min_normal_small]).
  assert (U : 0 < fu binary32 <= / 1000000). { split; [apply fu_pos|]. unfold fu. change (bpow radix2 (- fprec binary32)) with (/ 16777216). lra. }
  assert (P : place binary32 1 2 2).
  { split; [repeat (split; [apply (usable_int binary32); auto; lia|]); apply (usable_int binary32); auto; lia|]. unfold no_underflow, not_tiny. split; [right; lra|split; right; lra]. }
  assert (B : 100 <= bpow radix2 (femax binary32 - 4)). { apply Rle_trans with (bpow radix2 7). change (bpow radix2 7) with 128. lra. apply bpow_le. cbn. lia. }
  assert (Lp : lightpath binary32 1 5).
  { split; [apply (usable_int binary32 1); auto; lia|]. split; [apply (usable_int binary32 5); auto; lia|]. split; [right|]; lra. }
  destruct (C77_causal_character binary32 (cr_libm binary32) false 0 5 1 2 2 1 ok P Lp) as (r & Pr & Dr & H1 & _); unfold interval, terms in *.
  - rewrite Rabs_pos_eq by lra. lra.
  - exists r. split; [apply H1; lra|]. split; auto. revert Dr. rewrite (Rabs_pos_eq (1 * 5 * (1 * 5) - _)) by lra. intros Dr.
    replace 16 with (1 * 5 * (1 * 5) - (1 * 1 + 2 * 2 + 2 * 2)) by lra. eapply Rle_trans; [exact Dr|]. lra.
Qed.
Print Assumptions C77_case.
