(** * C85: normalize_vector in floating point, for every order of summation. *)
From Coq Require Import Reals Bool List ZArith Lra Lia Permutation.
From Flocq Require Import Core.
From Verif Require Import Num Vectors Transform Pos3D Float FloatThm FloatConv PropFloat PropFloat3 PropFloat17 FNorm.
From Verif Require Normalize PropNormalize.
Import ListNotations.
Open Scope R_scope.

(** Specification: the sum of squares, the length *)
Definition ssq (x : list R) : R := fold_right (fun a s => a * a + s) 0 x.
Definition length_of (x : list R) : R := sqrt (ssq x).
(** the numbers of the format as floats *)
Definition floats (x : list R) : list ext := @map R ext (@Some R) x.
Definition float_order (o : order R) : order ext := order_map (@Some R : R -> ext) o.
(** [o] adds up the entries of [x], each once, in some order *)
Definition sums (o : order R) (x : list R) : Prop := Permutation (entries o) x.
Definition fnormalize (f : fmt) (L : libm) : order ext -> list ext -> list ext :=
  @normalize_in_order ext (Num_fl f L).

Lemma ssq_app a b : ssq (a ++ b) = ssq a + ssq b.
Proof.
  induction a as [|x a IH].
  - change (ssq b = 0 + ssq b). ring.
  - change (x * x + ssq (a ++ b) = x * x + ssq a + ssq b). rewrite IH. ring.
Qed.
Lemma ssq_pos x : 0 <= ssq x.
Proof. induction x as [|a x IH]; [cbn; lra|]. change (0 <= a * a + ssq x). nra. Qed.
Lemma ssq_perm x y : Permutation x y -> ssq x = ssq y.
Proof.
  induction 1 as [|a l l' P IH|a b l|l l' l'' P IH P' IH'].
  - reflexivity.
  - change (a * a + ssq l = a * a + ssq l'). lra.
  - change (b * b + (a * a + ssq l) = a * a + (b * b + ssq l)). lra.
  - lra.
Qed.
Lemma ssq_map_scale c x : ssq (map (fun a => a * c) x) = ssq x * (c * c).
Proof.
  induction x as [|a x IH].
  - change (0 = 0 * (c * c)). ring.
  - change (a * c * (a * c) + ssq (map (fun a => a * c) x) = (a * a + ssq x) * (c * c)). rewrite IH. ring.
Qed.
Lemma entries_len (o : order R) : (1 <= length (entries o))%nat.
Proof. induction o as [a|l IHl r IHr]; cbn; auto. rewrite app_length. lia. Qed.
Lemma entries_map {B C} (g : B -> C) o : entries (order_map g o) = map g (entries o).
Proof. induction o; cbn; auto. now rewrite map_app, IHo1, IHo2. Qed.
Lemma sums_map (g : R -> R) o x : sums o x -> sums (order_map g o) (map g x).
Proof. unfold sums. intros H. rewrite entries_map. now apply Permutation_map. Qed.

(** ** Over the real numbers the order does not matter: this is C52's function *)
Theorem C85_exact_in_every_order : forall (o : order R) (x : list R), sums o x ->
  @normalize_in_order ext Num_ext (float_order o) (floats x) = Normalize.normalize_row (floats x).
Proof.
  intros o x S. unfold normalize_in_order, Normalize.normalize_row.
  assert (E : @norm_in_order ext Num_ext (float_order o) = Normalize.vector_norm (floats x)).
  { pose proof (PropNormalize.norm_fin x) as K. unfold PropNormalize.fin in K. unfold floats.
    etransitivity; [| symmetry; exact K].
    unfold norm_in_order.
    assert (Q : forall o, @sum_sq ext Num_ext (float_order o) = Some (ssq (entries o))).
    { intros o0. induction o0 as [a|l IHl r IHr].
      - cbn. f_equal. ring.
      - change (@nadd ext Num_ext (@sum_sq ext Num_ext (float_order l)) (@sum_sq ext Num_ext (float_order r))
                = Some (ssq (entries l ++ entries r))).
        rewrite IHl, IHr, ssq_app. reflexivity. }
    rewrite Q, (ssq_perm _ _ S).
    change (PropNormalize.ssq x) with (ssq x).
    cbn. pose proof (ssq_pos x) as P. apply Rleb_true in P. first [rewrite P; reflexivity | reflexivity]. }
  rewrite E. reflexivity.
Qed.

Section S.
Variable f : fmt.
Variable L : libm.
Hypothesis ok : fmt_ok f.
Notation rn := (frnd f).
Notation F := (generic_format radix2 (fexp_of f)).
Notation u := (fu f).

(** the sum of squares with all its roundings cannot overflow *)
Definition no_overflow (x : list R) : Prop := ssq x * (1 + u) ^ length x < fmax f.
Definition entry (a : R) : Prop := isf f a /\ no_underflow f a.

Lemma pow_ge1 n : 1 <= (1 + u) ^ n.
Proof. apply pow_R1_Rle. pose proof (fu_pos f). lra. Qed.
Lemma pow_le1 n : 0 < (1 - u) ^ n <= 1.
Proof.
  pose proof (fu_pos f). pose proof (fu_small f ok). split. apply pow_lt; lra.
  apply Rle_trans with (1 ^ n). apply pow_incr; lra. rewrite pow1. lra.
Qed.
Lemma fop_lt x : Rabs (rn x) < fmax f -> fop f x = Some (rn x).
Proof. intros K. unfold fop. now apply fin_some. Qed.

Lemma sum_acc o : Forall entry (entries o) -> no_overflow (entries o) ->
  exists s, @sum_sq ext (Num_fl f L) (float_order o) = Some s /\ isf f s /\ 0 <= s /\
    ssq (entries o) * (1 - u) ^ length (entries o) <= s <= ssq (entries o) * (1 + u) ^ length (entries o) /\
    (forall a, In a (entries o) -> rn (a * a) <= s).
Proof.
  pose proof (fu_pos f) as Pu. pose proof (fu_small f ok) as Su.
  induction o as [a|l IHl r IHr]; intros E O.
  - cbn [entries float_order order_map sum_sq] in *. apply Forall_inv in E. destruct E as [Ia Na].
    pose proof (sq_rel f a ok Na) as Q. unfold no_overflow in O. cbn [length ssq fold_right pow] in *.
    assert (P : 0 <= a * a) by nra. assert (P' : 0 <= rn (a * a)) by nra.
    assert (B : Rabs (rn (a * a)) < fmax f) by (rewrite Rabs_pos_eq; lra).
    exists (rn (a * a)). split. { cbn. now apply fop_lt. }
    split. { split; auto. apply rn_F; auto. }
    split; auto. split. split; lra. intros b [<- | [] ]. lra.
  - cbn [entries] in *. apply Forall_app in E as [El Er].
    unfold no_overflow in *. rewrite ssq_app, app_length in O. 
    pose proof (ssq_pos (entries l)) as Pl. pose proof (ssq_pos (entries r)) as Pr.
    pose proof (entries_len l) as Nl. pose proof (entries_len r) as Nr.
    set (n1 := length (entries l)) in *. set (n2 := length (entries r)) in *.
    set (S1 := ssq (entries l)) in *. set (S2 := ssq (entries r)) in *.
    assert (M1 : (1 + u) ^ n1 * (1 + u) <= (1 + u) ^ (n1 + n2)).
    { replace ((1 + u) ^ n1 * (1 + u)) with ((1 + u) ^ (S n1)) by (cbn; ring). apply Rle_pow; [lra | lia]. }
    assert (M2 : (1 + u) ^ n2 * (1 + u) <= (1 + u) ^ (n1 + n2)).
    { replace ((1 + u) ^ n2 * (1 + u)) with ((1 + u) ^ (S n2)) by (cbn; ring). apply Rle_pow; [lra | lia]. }
    assert (W : forall a b : nat, (1 - u) ^ (a + S b) <= (1 - u) ^ a * (1 - u)).
    { intros a b. rewrite pow_add. cbn [pow]. pose proof (pow_le1 a). pose proof (pow_le1 b).
      rewrite <- Rmult_assoc. rewrite <- (Rmult_1_r ((1 - u) ^ a * (1 - u))) at 2.
      apply Rmult_le_compat_l; [| lra]. apply Rmult_le_pos; lra. }
    assert (M3 : (1 - u) ^ (n1 + n2) <= (1 - u) ^ n1 * (1 - u)) by (destruct n2; [lia | apply W]).
    assert (M4 : (1 - u) ^ (n1 + n2) <= (1 - u) ^ n2 * (1 - u)).
    { rewrite Nat.add_comm. destruct n1; [lia | apply W]. }
    pose proof (pow_ge1 n1) as G1. pose proof (pow_ge1 n2) as G2.
    assert (G3 : (1 + u) ^ n1 <= (1 + u) ^ (n1 + n2)) by nra.
    assert (G4 : (1 + u) ^ n2 <= (1 + u) ^ (n1 + n2)) by nra.
    assert (O1 : S1 * (1 + u) ^ n1 < fmax f).
    { apply Rle_lt_trans with ((S1 + S2) * (1 + u) ^ (n1 + n2)); auto. apply Rmult_le_compat; lra. }
    assert (O2 : S2 * (1 + u) ^ n2 < fmax f).
    { apply Rle_lt_trans with ((S1 + S2) * (1 + u) ^ (n1 + n2)); auto. apply Rmult_le_compat; lra. }
    destruct (IHl El O1) as (s1 & E1 & [F1 _] & P1 & [L1 U1] & K1).
    destruct (IHr Er O2) as (s2 & E2 & [F2 _] & P2 & [L2 U2] & K2).
    pose proof (add_rel f s1 s2 ok F1 F2 P1 P2) as [LA UA].
    assert (UB : rn (s1 + s2) <= (S1 + S2) * (1 + u) ^ (n1 + n2)).
    { eapply Rle_trans. exact UA.
      assert (s1 * (1 + u) <= S1 * ((1 + u) ^ n1 * (1 + u))).
      { rewrite <- Rmult_assoc. apply Rmult_le_compat_r; lra. }
      assert (s2 * (1 + u) <= S2 * ((1 + u) ^ n2 * (1 + u))).
      { rewrite <- Rmult_assoc. apply Rmult_le_compat_r; lra. }
      assert (S1 * ((1 + u) ^ n1 * (1 + u)) <= S1 * (1 + u) ^ (n1 + n2)) by (apply Rmult_le_compat_l; auto).
      assert (S2 * ((1 + u) ^ n2 * (1 + u)) <= S2 * (1 + u) ^ (n1 + n2)) by (apply Rmult_le_compat_l; auto).
      lra. }
    assert (LB : (S1 + S2) * (1 - u) ^ (n1 + n2) <= rn (s1 + s2)).
    { eapply Rle_trans; [| exact LA].
      assert (S1 * ((1 - u) ^ n1 * (1 - u)) <= s1 * (1 - u)).
      { rewrite <- Rmult_assoc. apply Rmult_le_compat_r; lra. }
      assert (S2 * ((1 - u) ^ n2 * (1 - u)) <= s2 * (1 - u)).
      { rewrite <- Rmult_assoc. apply Rmult_le_compat_r; lra. }
      assert (S1 * (1 - u) ^ (n1 + n2) <= S1 * ((1 - u) ^ n1 * (1 - u))) by (apply Rmult_le_compat_l; auto).
      assert (S2 * (1 - u) ^ (n1 + n2) <= S2 * ((1 - u) ^ n2 * (1 - u))) by (apply Rmult_le_compat_l; auto).
      lra. }
    assert (Q1 : s1 <= rn (s1 + s2)) by (apply rn_ge_F; auto; lra).
    assert (Q2 : s2 <= rn (s1 + s2)) by (apply rn_ge_F; auto; lra).
    exists (rn (s1 + s2)). split.
    { change (@nadd ext (Num_fl f L) (@sum_sq ext (Num_fl f L) (float_order l)) (@sum_sq ext (Num_fl f L) (float_order r))
              = Some (rn (s1 + s2))).
      rewrite E1, E2. cbn [nadd Num_fl flift2]. apply fop_lt. rewrite Rabs_pos_eq; lra. }
    split. { split. apply rn_F; auto. rewrite Rabs_pos_eq; lra. }
    split. lra. rewrite ssq_app, app_length. split. split; assumption.
    intros a I. apply in_app_or in I as [I|I]. specialize (K1 a I). lra. specialize (K2 a I). lra.
Qed.

(** the computed length *)
Lemma norm_acc o : Forall entry (entries o) -> no_overflow (entries o) -> Exists (not_tiny f) (entries o) ->
  exists r, @norm_in_order ext (Num_fl f L) (float_order o) = Some r /\ isf f r /\ 0 < r /\
    length_of (entries o) * (1 - u) ^ S (length (entries o)) <= r <= length_of (entries o) * (1 + u) ^ S (length (entries o)) /\
    Forall (fun a => Rabs a <= r) (entries o).
Proof.
  intros E O N. pose proof (fu_pos f) as Pu. pose proof (fu_small f ok) as Su.
  destruct (sum_acc o E O) as (s & Es & Is & Ps & [Ls Us] & Ks).
  apply Exists_exists in N as (b & Ib & Nb).
  pose proof (fmin_pos f) as Pm. pose proof (min_normal_small f ok) as Sm.
  assert (Hs : fmin_normal f <= s).
  { eapply Rle_trans; [| apply (Ks b Ib)]. apply rn_ge_F; auto. now apply F_fmin. }
  assert (Hq : fmin_normal f <= sqrt s).
  { apply Rsqr_incr_0_var; [| apply sqrt_pos]. unfold Rsqr. rewrite sqrt_sqrt by lra. nra. }
  assert (A : forall a, In a (entries o) -> Rabs a <= rn (sqrt s)).
  { intros a Ia. pose proof (proj1 (Forall_forall _ _) E a Ia) as [ [Fa Oa] [-> | Na] ].
    - rewrite Rabs_R0. apply rn_ge_F; [exact ok | exact Fa | apply sqrt_pos].
    - apply sqrt_sq_ge; auto. }
  assert (Pr : fmin_normal f <= rn (sqrt s)) by (apply rn_ge_F; auto using F_fmin).
  assert (M : 1 < fmax f).
  { unfold fmax. change 1 with (bpow radix2 0). apply bpow_lt. destruct ok as (H1 & H2 & H3). lia. }
  assert (B : rn (sqrt s) < fmax f).
  { destruct Is as [Fs Os]. rewrite Rabs_pos_eq in Os by auto. destruct (Rle_or_lt s 1) as [G|G].
    - apply Rle_lt_trans with 1; auto. apply rn_le_F; auto. now apply F1.
      rewrite <- sqrt_1. now apply sqrt_le_1_alt.
    - apply Rle_lt_trans with s; auto. apply rn_le_F; auto.
      rewrite <- (sqrt_square s) at 2 by auto. apply sqrt_le_1_alt. nra. }
  exists (rn (sqrt s)). split.
  { unfold norm_in_order. rewrite Es. cbn. apply Rleb_true in Ps. rewrite Ps. apply fop_lt. rewrite Rabs_pos_eq; lra. }
  split. { split. apply rn_F; auto. rewrite Rabs_pos_eq; lra. }
  split. lra. split; [| now apply Forall_forall].
  set (S0 := ssq (entries o)) in *. set (n := length (entries o)) in *.
  assert (P0 : 0 <= S0) by apply ssq_pos.
  unfold length_of. fold S0. set (d := sqrt S0).
  assert (Pd : 0 <= d) by apply sqrt_pos.
  assert (U1 : sqrt s <= d * (1 + u) ^ n).
  { pose proof (pow_ge1 n) as G. rewrite <- (sqrt_square ((1 + u) ^ n)) by lra. unfold d. rewrite <- sqrt_mult by nra.
    apply sqrt_le_1_alt. eapply Rle_trans. exact Us. apply Rmult_le_compat_l; auto. nra. }
  assert (L1 : d * (1 - u) ^ n <= sqrt s).
  { pose proof (pow_le1 n) as G. rewrite <- (sqrt_square ((1 - u) ^ n)) by lra. unfold d. rewrite <- sqrt_mult by nra.
    apply sqrt_le_1_alt. eapply Rle_trans; [| exact Ls]. apply Rmult_le_compat_l; auto. nra. }
  destruct (rn_rel f ok (sqrt s)) as (e & He & ->). { right. rewrite Rabs_pos_eq; lra. }
  apply Rabs_le_inv in He. pose proof (sqrt_pos s) as Pq.
  cbn [pow]. split.
  - replace (d * ((1 - u) * (1 - u) ^ n)) with (d * (1 - u) ^ n * (1 - u)) by ring.
    apply Rmult_le_compat; try lra. apply Rmult_le_pos; auto. apply Rlt_le, pow_le1.
  - replace (d * ((1 + u) * (1 + u) ^ n)) with (d * (1 + u) ^ n * (1 + u)) by ring.
    apply Rmult_le_compat; lra.
Qed.

Lemma bern_up n : 1 + INR n * u <= (1 + u) ^ n.
Proof.
  pose proof (fu_pos f). induction n as [|n IH]. cbn; lra. rewrite S_INR. cbn [pow]. pose proof (pos_INR n). nra.
Qed.
Lemma bern_down n : 1 - INR n * u <= (1 - u) ^ n.
Proof.
  pose proof (fu_pos f). pose proof (fu_small f ok). induction n as [|n IH]. cbn; lra.
  rewrite S_INR. cbn [pow]. pose proof (pos_INR n).
  assert ((1 - INR n * u) * (1 - u) <= (1 - u) ^ n * (1 - u)) by (apply Rmult_le_compat_r; lra). nra.
Qed.
End S.

(** ** Accuracy: every row, every length, every order of summation *)
Theorem C85_unit_vector_accuracy :
  forall f L o x,
    fmt_ok f -> sums o x -> Forall (fun a => isf f a /\ no_underflow f a) x -> Exists (not_tiny f) x ->
    ssq x * (1 + fu f) ^ length x < fmax f ->
    exists units : list R,
      fnormalize f L (float_order o) (floats x) = floats units /\
      Forall2 (fun a v => isf f v /\ -1 <= v <= 1 /\
         Rabs (v - a / length_of x) <= ((1 + fu f) ^ S (length x) - 1) + fu f + eta f) x units.
Proof.
  intros f L o x ok S E N O. pose proof (fu_pos f) as Pu. pose proof (fu_small f ok) as Su.
  assert (E' : Forall (entry f) (entries o)).
  { apply Forall_forall. intros a Ia. apply (proj1 (Forall_forall _ _) E). now apply (Permutation_in _ S). }
  assert (N' : Exists (not_tiny f) (entries o)).
  { apply Exists_exists in N as (b & Ib & Nb). apply Exists_exists. exists b. split; auto.
    apply (Permutation_in _ (Permutation_sym S) Ib). }
  assert (O' : no_overflow f (entries o)).
  { unfold no_overflow. rewrite (ssq_perm _ _ S), (Permutation_length S). exact O. }
  destruct (norm_acc f L ok o E' O' N') as (r & Er & Ir & Pr & Br & Ar).
  unfold length_of in *. rewrite (ssq_perm _ _ S), (Permutation_length S) in Br.
  set (d := sqrt (ssq x)) in *. set (g := (1 + fu f) ^ Datatypes.S (length x)) in *.
  assert (Pd : 0 < d).
  { assert (Pd : 0 <= d) by apply sqrt_pos. destruct Pd as [Pd|Pd]; auto. rewrite <- Pd, !Rmult_0_l in Br. lra. }
  assert (Gd : Rabs (d - r) <= (g - 1) * d).
  { pose proof (bern_up f (Datatypes.S (length x))) as B1. pose proof (bern_down f ok (Datatypes.S (length x))) as B2.
    fold g in B1. set (g' := (1 - fu f) ^ Datatypes.S (length x)) in *.
    assert (1 - g' <= g - 1) by lra.
    assert (d * (1 - g') <= d * (g - 1)) by (apply Rmult_le_compat_l; lra).
    apply Rabs_le. split; lra. }
  exists (map (fun a => frnd f (a / r)) x).
  assert (A : forall a, In a x -> @ndiv ext (Num_fl f L) (Some a) (Some r) = Some (frnd f (a / r)) /\
     isf f (frnd f (a / r)) /\ -1 <= frnd f (a / r) <= 1 /\
     Rabs (frnd f (a / r) - a / d) <= (g - 1) + fu f + eta f).
  { intros a Ia. pose proof (proj1 (Forall_forall _ _) E a Ia) as [ [Fa _] _].
    assert (Ba : Rabs a <= r).
    { apply (proj1 (Forall_forall _ _) Ar). apply (Permutation_in _ (Permutation_sym S) Ia). }
    destruct (fl_ratio f L ok a r Fa Pr Ba) as (Ed & Bd & Id).
    split; [exact Ed|]. split; [exact Id|]. split; [exact Bd|].
    assert (Q : Rabs (a / r) <= 1).
    { unfold Rdiv. rewrite Rabs_mult, (Rabs_pos_eq (/ r)) by (left; now apply Rinv_0_lt_compat).
      apply Rmult_le_reg_r with r; auto. rewrite Rmult_assoc, Rinv_l by lra. lra. }
    replace (frnd f (a / r) - a / d) with ((a / r - a / d) + (frnd f (a / r) - a / r)) by ring.
    eapply Rle_trans. apply Rabs_triang. rewrite Rplus_assoc. apply Rplus_le_compat.
    - replace (a / r - a / d) with (a / r * ((d - r) / d)) by (field; lra).
      rewrite Rabs_mult. unfold Rdiv at 2. rewrite Rabs_mult, (Rabs_pos_eq (/ d)) by (left; now apply Rinv_0_lt_compat).
      assert (Rabs (d - r) * / d <= g - 1).
      { apply Rmult_le_reg_r with d; auto. rewrite Rmult_assoc, Rinv_l by lra. lra. }
      assert (0 <= Rabs (d - r) * / d) by (apply Rmult_le_pos; [apply Rabs_pos | left; now apply Rinv_0_lt_compat]).
      assert (Rabs (a / r) * (Rabs (d - r) * / d) <= 1 * (Rabs (d - r) * / d)) by (apply Rmult_le_compat_r; auto).
      lra.
    - eapply Rle_trans. apply rn_err; auto. unfold eta.
      assert (fu f * Rabs (a / r) <= fu f * 1) by (apply Rmult_le_compat_l; lra). lra. }
  clearbody g d. clear - A Er. unfold fnormalize, normalize_in_order, floats. rewrite Er. clear Er.
  induction x as [|a x IH]; [split; constructor|].
  destruct IH as [I1 I2]. { intros b Ib. apply A. now right. }
  destruct (A a (or_introl eq_refl)) as (Ed & Id & Bd & Ad). split.
  - cbn [map]. rewrite Ed. exact (f_equal (@cons ext (Some (frnd f (a / r)))) I1).
  - cbn [map]. constructor; auto.
Qed.

(** ** Negation: bit for bit, for all components, finite or not *)
Lemma fop_opp f x : fop f (- x) = lift1 Ropp (fop f x).
Proof. unfold fop, fin. rewrite rn_opp, Rabs_Ropp. destruct (Rltb _ _); reflexivity. Qed.
Theorem C85_negation_exact :
  forall f L (o : order ext) x,
    fnormalize f L (order_map (@nneg ext (Num_fl f L)) o) (map (@nneg ext (Num_fl f L)) x)
      = map (@nneg ext (Num_fl f L)) (fnormalize f L o x).
Proof.
  intros f L o x. unfold fnormalize, normalize_in_order.
  assert (E : @norm_in_order ext (Num_fl f L) (order_map (@nneg ext (Num_fl f L)) o) = @norm_in_order ext (Num_fl f L) o).
  { unfold norm_in_order. f_equal. induction o as [a|l IHl r IHr].
    - cbn. destruct a as [a|]; cbn; auto. f_equal. ring.
    - cbn [order_map sum_sq]. now rewrite IHl, IHr. }
  rewrite E. rewrite !map_map. apply map_ext. intros a.
  destruct a as [a|]; [| destruct (norm_in_order o); reflexivity].
  destruct (norm_in_order o) as [b|]; [| reflexivity]. cbn.
  destruct (Reqb b 0); [reflexivity|]. change (- a / b) with (- a * / b). rewrite <- Ropp_mult_distr_l. apply fop_opp.
Qed.

(** ** Scaling by a power of two: the same bits *)
Lemma sum_scale f L k o : fmt_ok f ->
  Forall (fun a => no_underflow f a /\ no_underflow f (a * bpow radix2 k)) (entries o) ->
  forall s s', @sum_sq ext (Num_fl f L) (float_order o) = Some s ->
  @sum_sq ext (Num_fl f L) (float_order (order_map (fun a => a * bpow radix2 k) o)) = Some s' ->
  s' = s * (bpow radix2 k * bpow radix2 k) /\ both f k s.
Proof.
  intros ok. induction o as [a|l IHl r IHr]; intros E s s' H1 H2.
  - cbn [entries] in E. apply Forall_inv in E. destruct E as [N1 N2].
    cbn in H1, H2. apply (fop_isf f ok) in H1 as [_ ->]. apply (fop_isf f ok) in H2 as [_ ->].
    now apply sq_scale.
  - cbn [entries] in E. apply Forall_app in E as [El Er].
    change (@nadd ext (Num_fl f L) (@sum_sq ext (Num_fl f L) (float_order l)) (@sum_sq ext (Num_fl f L) (float_order r)) = Some s) in H1.
    change (@nadd ext (Num_fl f L) (@sum_sq ext (Num_fl f L) (float_order (order_map (fun a => a * bpow radix2 k) l)))
       (@sum_sq ext (Num_fl f L) (float_order (order_map (fun a => a * bpow radix2 k) r))) = Some s') in H2.
    destruct (@sum_sq ext (Num_fl f L) (float_order l)) as [s1|]; [| discriminate H1].
    destruct (@sum_sq ext (Num_fl f L) (float_order r)) as [s2|]; [| discriminate H1].
    destruct (@sum_sq ext (Num_fl f L) (float_order (order_map (fun a => a * bpow radix2 k) l))) as [t1|]; [| discriminate H2].
    destruct (@sum_sq ext (Num_fl f L) (float_order (order_map (fun a => a * bpow radix2 k) r))) as [t2|]; [| discriminate H2].
    destruct (IHl El s1 t1 eq_refl eq_refl) as [-> B1]. destruct (IHr Er s2 t2 eq_refl eq_refl) as [-> B2].
    cbn [nadd Num_fl flift2] in H1, H2. apply (fop_isf f ok) in H1 as [_ ->]. apply (fop_isf f ok) in H2 as [_ ->].
    rewrite <- Rmult_plus_distr_r. split.
    + apply rn_both; auto. now apply both_add.
    + apply both_rn; auto. now apply both_add.
Qed.
Theorem C85_power_of_two :
  forall f L k o x,
    fmt_ok f -> sums o x ->
    Forall (fun a => isf f a /\ isf f (a * bpow radix2 k) /\ no_underflow f a /\ no_underflow f (a * bpow radix2 k)) x ->
    Exists (not_tiny f) x ->
    ssq x * (1 + fu f) ^ length x < fmax f ->
    ssq (map (fun a => a * bpow radix2 k) x) * (1 + fu f) ^ length x < fmax f ->
    fnormalize f L (float_order (order_map (fun a => a * bpow radix2 k) o)) (floats (map (fun a => a * bpow radix2 k) x))
      = fnormalize f L (float_order o) (floats x).
Proof.
  intros f L k o x ok S E N O1 O2. pose proof (bpow_gt_0 radix2 k) as Pc.
  assert (In' : forall a, In a (entries o) <-> In a x).
  { intros a. split. apply Permutation_in; auto. apply Permutation_in. now apply Permutation_sym. }
  pose proof (proj1 (Forall_forall _ _) E) as E0.
  assert (El : Forall (entry f) (entries o)).
  { apply Forall_forall. intros a Ia. apply In' in Ia. destruct (E0 a Ia) as (A1 & _ & A2 & _). split; auto. }
  set (o' := order_map (fun a => a * bpow radix2 k) o).
  assert (En' : entries o' = map (fun a => a * bpow radix2 k) (entries o)) by (unfold o'; apply entries_map).
  assert (Er : Forall (entry f) (entries o')).
  { rewrite En'. apply Forall_forall. intros b Ib. apply in_map_iff in Ib as (a & <- & Ia). apply In' in Ia.
    destruct (E0 a Ia) as (_ & A1 & _ & A2). split; auto. }
  assert (Nl : Exists (not_tiny f) (entries o)).
  { apply Exists_exists in N as (b & Ib & Nb). apply Exists_exists. exists b. split; auto. now apply In'. }
  assert (Nr : Exists (not_tiny f) (entries o')).
  { apply Exists_exists in N as (b & Ib & Nb). apply Exists_exists. exists (b * bpow radix2 k). split.
    - rewrite En'. apply in_map_iff. exists b. split; auto. now apply In'.
    - destruct (E0 b Ib) as (_ & _ & _ & [Z | G]); auto. exfalso.
      apply Rmult_integral in Z as [-> | Z]; [| lra]. unfold not_tiny in Nb. pose proof (fmin_pos f). lra. }
  assert (Ol : no_overflow f (entries o)).
  { unfold no_overflow. rewrite (ssq_perm _ _ S), (Permutation_length S). exact O1. }
  assert (Or : no_overflow f (entries o')).
  { unfold no_overflow. rewrite En', map_length, (Permutation_length S), (ssq_perm _ _ (Permutation_map _ S)). exact O2. }
  destruct (sum_acc f L ok o El Ol) as (s & Es & _ & _ & _ & _).
  destruct (sum_acc f L ok o' Er Or) as (s' & Es' & _ & _ & _ & _).
  destruct (norm_acc f L ok o El Ol Nl) as (r & En & Ir & Pr & _ & _).
  destruct (norm_acc f L ok o' Er Or Nr) as (r' & Enr & Ir' & Pr' & _ & _).
  destruct (sum_scale f L k o ok) with (s := s) (s' := s') as [Q B]; auto.
  { apply Forall_forall. intros a Ia. apply In' in Ia. destruct (E0 a Ia) as (_ & _ & A1 & A2). auto. }
  assert (R : r' = r * bpow radix2 k).
  { unfold norm_in_order in En, Enr. rewrite Es in En. rewrite Es' in Enr. cbn in En, Enr.
    destruct (Rleb 0 s); [| discriminate]. destruct (Rleb 0 s'); [| discriminate].
    apply (fop_isf f ok) in En as [_ ->]. apply (fop_isf f ok) in Enr as [_ ->]. rewrite Q. now apply sqrt_scale. }
  unfold fnormalize, normalize_in_order. fold o'. rewrite En, Enr. unfold floats. rewrite !map_map. apply map_ext.
  intros a. cbn [ndiv Num_fl flift2].
  rewrite !(proj2 (Reqb_false _ _)) by lra. rewrite R. f_equal. field. lra.
Qed.

(** ** Zero vectors and, a finding, short vectors have no direction *)
Theorem C85_finding_short_rows_are_undefined :
  forall f L o x,
    fmt_ok f -> sums o x -> Forall (fun a => a * a < bpow radix2 (femin f - 1)) x ->
    fnormalize f L (float_order o) (floats x) = map (fun _ => None) x.
Proof.
  intros f L o x ok S E.
  assert (Pg : Prec_gt_0 (fprec f)) by (destruct ok; red; lia).
  assert (Z0 : fop f 0 = Some 0).
  { unfold fop. rewrite rn0. apply fin_some. rewrite Rabs_R0. apply bpow_gt_0. }
  assert (K : forall v, v * v < bpow radix2 (femin f - 1) -> fop f (v * v) = Some 0).
  { intros v Hv.
    assert (Ev : frnd f (v * v) = 0).
    { apply Rle_antisym; [| apply rn_ge_F; auto; [apply F0 | nra]].
      apply round_N_le_midp; [unfold fexp_of; typeclasses eauto|apply F0|].
      rewrite succ_0. unfold fexp_of. rewrite ulp_FLT_0 by auto.
      replace (femin f) with (femin f - 1 + 1)%Z by lia. rewrite bpow_plus. change (bpow radix2 1) with 2. lra. }
    unfold fop. rewrite Ev. apply fin_some. rewrite Rabs_R0. apply bpow_gt_0. }
  assert (E' : Forall (fun a => a * a < bpow radix2 (femin f - 1)) (entries o)).
  { apply Forall_forall. intros a Ia. apply (proj1 (Forall_forall _ _) E). now apply (Permutation_in _ S). }
  assert (Q : @sum_sq ext (Num_fl f L) (float_order o) = Some 0).
  { clear S E. induction o as [a|l IHl r IHr]; cbn [entries] in E'.
    - apply Forall_inv in E'. cbn. now apply K.
    - apply Forall_app in E' as [El Er].
      change (@nadd ext (Num_fl f L) (@sum_sq ext (Num_fl f L) (float_order l)) (@sum_sq ext (Num_fl f L) (float_order r)) = Some 0).
      rewrite IHl, IHr by auto. cbn [nadd Num_fl flift2]. rewrite Rplus_0_l. exact Z0. }
  unfold fnormalize, normalize_in_order, norm_in_order. rewrite Q.
  assert (Q' : @nsqrt ext (Num_fl f L) (Some 0) = Some 0).
  { cbn. assert (G : Rleb 0 0 = true) by (apply Rleb_true; lra). rewrite G, sqrt_0. exact Z0. }
  rewrite Q'. unfold floats. rewrite map_map. apply map_ext. intros a. cbn [ndiv Num_fl flift2].
  assert (G : Reqb 0 0 = true) by (apply Reqb_true; lra). now rewrite G.
Qed.

(** For instance (3, 4, 8, 2) in binary32, summed in pairs. *)
Definition ex_order : order R := Two (Two (One 3) (One 8)) (Two (One 4) (One 2)).
Definition ex_row : list R := [3; 4; 8; 2].
Lemma ex_sums : sums ex_order ex_row.
Proof. unfold sums, ex_order, ex_row. cbn. apply perm_skip. apply perm_swap. Qed.
Lemma ex_small : ssq ex_row * (1 + fu binary32) ^ length ex_row < fmax binary32 /\
  ssq (map (fun a => a * bpow radix2 1) ex_row) * (1 + fu binary32) ^ length ex_row < fmax binary32.
Proof.
  assert (ok := binary32_ok). pose proof (fu_pos binary32). pose proof (fu_small _ ok).
  assert (P : (1 + fu binary32) ^ length ex_row <= 2).
  { apply Rle_trans with ((1 + / 16) ^ length ex_row). apply pow_incr; lra. cbn; lra. }
  assert (P0 : 0 < (1 + fu binary32) ^ length ex_row) by (apply pow_lt; lra).
  assert (M : 4096 <= fmax binary32).
  { unfold fmax. change 4096 with (bpow radix2 12). apply bpow_le. simpl; lia. }
  change (bpow radix2 1) with 2.
  set (p := (1 + fu binary32) ^ length ex_row) in *. unfold ex_row, ssq. cbn [map fold_right]. split; lra.
Qed.
Lemma ex_entry n : (1 <= Z.abs n <= 16)%Z -> isf binary32 (IZR n) /\ no_underflow binary32 (IZR n) /\ not_tiny binary32 (IZR n).
Proof.
  intros H. assert (ok := binary32_ok). assert (N : not_tiny binary32 (IZR n)).
  { unfold not_tiny. pose proof (min_normal_small _ ok). rewrite <- mult_IZR.
    apply Rle_trans with 1. lra. apply IZR_le. nia. }
  split. apply (usable_int binary32 n); auto; lia. split; auto. right; auto.
Qed.
Lemma Forall2_len {B C} (P : B -> C -> Prop) x y : Forall2 P x y -> length y = length x.
Proof. induction 1; cbn; auto. Qed.
Example C85_unit_vector_accuracy_ex : exists units : list R,
  fnormalize binary32 (cr_libm binary32) (float_order ex_order) (floats ex_row) = floats units /\ length units = 4%nat.
Proof.
  destruct (C85_unit_vector_accuracy binary32 (cr_libm binary32) ex_order ex_row binary32_ok ex_sums) as (us & E & A).
  - repeat (apply Forall_cons; [split; apply ex_entry; lia|]); apply Forall_nil.
  - apply Exists_cons_hd. apply (ex_entry 3). lia.
  - apply ex_small.
  - exists us. split; auto. clear - A. apply (Forall2_len _ _ _ A).
Qed.
Lemma ex_scaled n : (1 <= Z.abs n <= 8)%Z ->
  isf binary32 (IZR n) /\ isf binary32 (IZR n * bpow radix2 1) /\ no_underflow binary32 (IZR n) /\ no_underflow binary32 (IZR n * bpow radix2 1).
Proof.
  intros H. replace (IZR n * bpow radix2 1) with (IZR (n * 2)) by (rewrite mult_IZR; reflexivity).
  destruct (ex_entry n) as (A1 & A2 & _); [lia|]. destruct (ex_entry (n * 2)) as (B1 & B2 & _); [lia|]. auto.
Qed.
Example C85_power_of_two_ex :
  fnormalize binary32 (cr_libm binary32) (float_order (order_map (fun a => a * bpow radix2 1) ex_order))
    (floats (map (fun a => a * bpow radix2 1) ex_row))
  = fnormalize binary32 (cr_libm binary32) (float_order ex_order) (floats ex_row).
Proof.
  apply C85_power_of_two.
  - apply binary32_ok.
  - apply ex_sums.
  - repeat (apply Forall_cons; [apply ex_scaled; lia|]); apply Forall_nil.
  - apply Exists_cons_hd. apply (ex_entry 3). lia.
  - apply ex_small.
  - apply ex_small.
Qed.
Example C85_finding_short_rows_are_undefined_ex :
  fnormalize binary32 (cr_libm binary32) (float_order (Two (One 0) (One (bpow radix2 (-80))))) (floats [bpow radix2 (-80); 0])
  = [None; None].
Proof.
  apply (C85_finding_short_rows_are_undefined binary32 (cr_libm binary32)). apply binary32_ok.
  - apply perm_swap.
  - repeat (apply Forall_cons); [| | apply Forall_nil].
    + rewrite <- bpow_plus. apply bpow_lt. simpl; lia.
    + rewrite Rmult_0_l. apply bpow_gt_0.
Qed.

Print Assumptions C85_exact_in_every_order.
Print Assumptions C85_unit_vector_accuracy.
Print Assumptions C85_negation_exact.
Print Assumptions C85_power_of_two.
Print Assumptions C85_finding_short_rows_are_undefined.
