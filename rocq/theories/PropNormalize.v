(** * C52: unit vectors.  C53: range checks on whole arrays. *)
From Coq Require Import Reals Bool List ZArith Lra Lia Classical.
From Verif Require Import Num Vectors Transform Arith Spec Normalize.
Import ListNotations.
Open Scope R_scope.

Definition fin (x : list R) : list ext := @map R ext (@Some R) x.
(** Specification: the sum of squares. *)
Definition ssq (x : list R) : R := fold_right (fun a s => a * a + s) 0 x.

Lemma ssq_pos x : 0 <= ssq x.
Proof. induction x as [|a x IH]; [cbn; lra|]. change (0 <= a * a + ssq x). nra. Qed.
Lemma ssq_zero x : ssq x = 0 -> Forall (fun a => a = 0) x.
Proof.
  induction x as [|a x IH]; intros E; [constructor|]. change (a * a + ssq x = 0) in E. pose proof (ssq_pos x).
  constructor; [nra|apply IH; nra].
Qed.
Lemma ssq_nonzero x : (exists a, In a x /\ a <> 0) -> 0 < ssq x.
Proof.
  intros (a & I & N). destruct (Rle_lt_or_eq_dec _ _ (ssq_pos x)) as [L|E]; [exact L|]. symmetry in E.
  apply ssq_zero in E. rewrite Forall_forall in E. elim (N (E a I)).
Qed.
Lemma ssq_scale k x : ssq (map (fun a => k * a) x) = k * k * ssq x.
Proof. induction x as [|a x IH]; [cbn; ring|]. change (k * a * (k * a) + ssq (map (fun a => k * a) x) = k * k * (a * a + ssq x)). rewrite IH. ring. Qed.
Lemma norm_fin x : vector_norm (fin x) = Some (sqrt (ssq x)).
Proof.
  assert (F : fold_right (fun a s : ext => nadd (nmul a a) s) (Some 0 : ext) (fin x) = Some (ssq x)).
  { induction x as [|a l IH]; [reflexivity|]. change (nadd (nmul (Some a : ext) (Some a)) (fold_right (fun a s : ext => nadd (nmul a a) s) (Some 0 : ext) (fin l)) = (Some (a * a + ssq l) : ext)). rewrite IH. reflexivity. }
  unfold vector_norm. rewrite F. change (esqrt (Some (ssq x)) = Some (sqrt (ssq x))). unfold esqrt, Rleb.
  destruct (Rle_dec 0 (ssq x)) as [_|N]; [reflexivity|]. elim (N (ssq_pos x)).
Qed.
Lemma div_fin a n : n <> 0 -> ndiv (Some a : ext) (Some n) = Some (a / n).
Proof. intros N. change (ediv (Some a) (Some n) = Some (a / n)). unfold ediv, Reqb. destruct (Req_EM_T n 0); [contradiction|reflexivity]. Qed.
Lemma sqrt_nz x : 0 < ssq x -> sqrt (ssq x) <> 0.
Proof. intros P E. pose proof (sqrt_lt_R0 _ P). lra. Qed.
Lemma row_fin x : 0 < ssq x -> normalize_row (fin x) = fin (map (fun a => / sqrt (ssq x) * a) x).
Proof.
  intros P. unfold normalize_row. rewrite norm_fin. unfold fin. rewrite !map_map. apply map_ext. intros a.
  rewrite div_fin by (apply sqrt_nz, P). f_equal. field. apply sqrt_nz, P.
Qed.

(** A row with a non-zero entry becomes the unit vector in the same direction: it is a
    positive multiple of the row, and the sum of its squares is 1. *)
Theorem C52_unit_vector : forall rows : list (list R),
  Forall (fun x => exists a, In a x /\ a <> 0) rows ->
  exists units, normalize_array (map fin rows) = map fin units /\
    Forall2 (fun x u => ssq u = 1 /\ exists k, 0 < k /\ u = map (fun a => k * a) x) rows units.
Proof.
  induction rows as [|x rows IH]; intros F; [exists []; split; [reflexivity|constructor]|].
  inversion F as [|? ? N F']; subst. destruct (IH F') as (us & E & G). apply ssq_nonzero in N.
  exists (map (fun a => / sqrt (ssq x) * a) x :: us). split.
  - cbn [map normalize_array]. fold (normalize_array (map fin rows)). rewrite row_fin by exact N. f_equal. exact E.
  - constructor; [|exact G]. pose proof (sqrt_lt_R0 _ N) as SP. split.
    + rewrite ssq_scale. rewrite <- (sqrt_sqrt (ssq x)) at 3 by lra. field. lra.
    + exists (/ sqrt (ssq x)). split; [apply Rinv_0_lt_compat, SP|reflexivity].
Qed.
Example C52_unit_vector_met : Forall (fun x : list R => exists a, In a x /\ a <> 0) [[2; 0]; [0; 2]; [3; 4]].
Proof. repeat constructor; [exists 2|exists 2|exists 3]; cbn; split; auto; lra. Qed.

(** The zero vector has no direction: every entry of the result is undefined. *)
Theorem C52_zero_is_undefined : forall x : list R, Forall (fun a => a = 0) x ->
  normalize_row (fin x) = map (fun _ => None) x.
Proof.
  intros x Z. assert (S : ssq x = 0). { induction Z as [|a x -> Z IH]; [reflexivity|]. change (0 * 0 + ssq x = 0). rewrite IH. ring. }
  unfold normalize_row. rewrite norm_fin, S, sqrt_0. unfold fin. rewrite map_map. apply map_ext. intros a.
  change (ediv (Some a) (Some 0) = None). unfold ediv, Reqb. destruct (Req_EM_T 0 0); [reflexivity|lra].
Qed.

(** Length and batch do not matter: positive rescaling (a change of unit, say) changes
    nothing, reversing the vector reverses the direction, normalising twice is
    normalising once, and every row is treated alone. *)
Theorem C52_direction_only : forall (x : list R) k, (exists a, In a x /\ a <> 0) -> k <> 0 ->
  normalize_row (fin (map (fun a => k * a) x)) =
  map (fun a => nmul (Some (if Rlt_dec 0 k then 1 else -1)) a) (normalize_row (fin x)).
Proof.
  intros x k N K. apply ssq_nonzero in N.
  assert (K2 : 0 < k * k) by nra.
  assert (P : 0 < ssq (map (fun a => k * a) x)) by (rewrite ssq_scale; nra).
  rewrite (row_fin _ P), (row_fin _ N). unfold fin. rewrite !map_map. apply map_ext. intros a.
  change (Some (/ sqrt (ssq (map (fun a => k * a) x)) * (k * a)) = Some ((if Rlt_dec 0 k then 1 else -1) * (/ sqrt (ssq x) * a))).
  f_equal. rewrite ssq_scale, sqrt_mult by (try nra; apply ssq_pos). change (k * k) with (Rsqr k). rewrite sqrt_Rsqr_abs.
  pose proof (sqrt_nz _ N). destruct (Rlt_dec 0 k) as [Q|Q].
  - rewrite Rabs_right by lra. field. auto.
  - rewrite Rabs_left by lra. field. auto.
Qed.
Theorem C52_idempotent : forall x : list R, (exists a, In a x /\ a <> 0) ->
  normalize_row (normalize_row (fin x)) = normalize_row (fin x).
Proof.
  intros x N. pose proof (ssq_nonzero _ N) as P. pose proof (sqrt_lt_R0 _ P) as SP.
  rewrite (row_fin _ P). rewrite (C52_direction_only x (/ sqrt (ssq x)) N) by (apply Rinv_neq_0_compat; lra).
  rewrite (row_fin _ P). destruct (Rlt_dec 0 (/ sqrt (ssq x))) as [_|Q]; [|elim Q; apply Rinv_0_lt_compat, SP].
  unfold fin. rewrite !map_map. apply map_ext. intros a. cbn. f_equal. ring.
Qed.
Theorem C52_rows_are_independent : forall rows i x, nth_error rows i = Some x ->
  nth_error (normalize_array rows) i = Some (normalize_row x) /\ length (normalize_array rows) = length rows /\
  length (normalize_row x) = length x.
Proof.
  intros rows i x E. unfold normalize_array, normalize_row. rewrite nth_error_map, E, !map_length. auto.
Qed.

(** A quantity of any unit gives a dimensionless one with the same numbers as the bare array. *)
Theorem C52_quantity_is_dimensionless : forall u rows,
  normalize_q (mkQarr u rows) = mkQarr 0 (normalize_array rows).
Proof. intros u rows. unfold normalize_q; cbn [qunit qrows]. rewrite Z.sub_diag. reflexivity. Qed.

(** A CartesianPos3D: the dimensionless generic vector with the numbers of the array of
    its components; negation commutes; any other position class is refused. *)
Theorem C52_position : forall m deg fuel x y z,
  normalize_pos m deg fuel (PCart3 x y z) =
    Ok false (generic_from 0 (normalize_row [x; y; z])) /\
  (forall p, cls_of p <> CCart3 -> normalize_pos m deg fuel p = Raise ENotFound).
Proof.
  intros m deg fuel x y z. split; [reflexivity|]. intros p N. destruct p; try reflexivity. elim N. reflexivity.
Qed.
Lemma pos_fin m deg fuel x y z : 0 < ssq [x; y; z] -> normalize_pos m deg fuel (finite (PCart3 x y z)) =
  Ok false (mkGen (0%Z, Some (x / sqrt (ssq [x;y;z]))) (0%Z, Some (y / sqrt (ssq [x;y;z]))) (0%Z, Some (z / sqrt (ssq [x;y;z])))).
Proof.
  intros P. unfold normalize_pos, finite, pos_map. cbv zeta.
  change [Some x : ext; Some y; Some z] with (fin [x; y; z]). rewrite norm_fin, !div_fin by (apply sqrt_nz, P). reflexivity.
Qed.
Theorem C52_negation : forall m deg fuel x y z, (x <> 0 \/ y <> 0 \/ z <> 0) ->
  exists g, normalize_pos m deg fuel (finite (PCart3 x y z)) = Ok false g /\
    normalize_pos m deg fuel (finite (PCart3 (-x) (-y) (-z))) = Ok false (gneg g) /\ gneg (gneg g) = g.
Proof.
  intros m deg fuel x y z N.
  assert (NZ : exists a, In a [x; y; z] /\ a <> 0) by (destruct N as [N|[N|N]]; eexists; (split; [|exact N]); cbn; auto).
  pose proof (ssq_nonzero _ NZ) as P.
  assert (E : ssq [-x; -y; -z] = ssq [x; y; z]) by (cbn; ring).
  rewrite (pos_fin m deg fuel x y z P). eexists. split; [reflexivity|].
  rewrite pos_fin by (rewrite E; exact P). rewrite E. pose proof (sqrt_nz _ P) as Z. set (n := sqrt (ssq [x; y; z])) in *.
  unfold gneg; cbn [gx gy gz fst snd]. split.
  - f_equal. f_equal; f_equal; change (fun c : R => nneg (Some c : ext)) with (fun c : R => (Some (- c) : ext)); cbn; f_equal; field; exact Z.
  - f_equal; f_equal; cbn; f_equal; field; exact Z.
Qed.

(** ** C53: the checks raise exactly when some element of the array is out of range, and
    otherwise hand the array on unchanged. *)
Definition passes (r : res (list ext)) (x : list ext) : Prop := r = Ok false x.
Definition fails (r : res (list ext)) : Prop := exists e, r = Raise e.

Lemma Rltb_true a b : Rltb a b = true <-> a < b.
Proof. unfold Rltb. destruct (Rlt_dec a b); split; auto; try discriminate; contradiction. Qed.
Lemma Rleb_true a b : Rleb a b = true <-> a <= b.
Proof. unfold Rleb. destruct (Rle_dec a b); split; auto; try discriminate; contradiction. Qed.
Lemma existsb_fin (bad : ext -> bool) (Bad : R -> Prop) x : (forall a, bad (Some a) = true <-> Bad a) ->
  (existsb bad (fin x) = true <-> exists a, In a x /\ Bad a).
Proof.
  intros H. rewrite existsb_exists. unfold fin. split.
  - intros (e & I & B). apply in_map_iff in I. destruct I as (a & <- & I). exists a. rewrite <- H. auto.
  - intros (a & I & B). exists (Some a). rewrite H. split; [apply in_map_iff; eauto|exact B].
Qed.
Lemma error_if_spec (bad : ext -> bool) Bad e x : (forall a, bad (Some a) = true <-> Bad a) ->
  ((exists a, In a x /\ Bad a) -> fails (error_if_any bad e (fin x))) /\
  ((forall a, In a x -> ~ Bad a) -> passes (error_if_any bad e (fin x)) (fin x)).
Proof.
  intros H. pose proof (existsb_fin bad Bad x H) as S. unfold error_if_any, fails, passes. split.
  - intros E. rewrite (proj2 S E). eauto.
  - intros A. destruct (existsb bad (fin x)) eqn:Q; [|reflexivity]. destruct (proj1 S eq_refl) as (a & I & B). elim (A a I B).
Qed.

Theorem C53_non_negative : forall x,
  ((exists a, In a x /\ a < 0) -> fails (check_non_negative (fin x)) /\ fails (check_r_non_negative (fin x))) /\
  ((forall a, In a x -> 0 <= a) -> passes (check_non_negative (fin x)) (fin x) /\ passes (check_r_non_negative (fin x)) (fin x)).
Proof.
  intros x. destruct (error_if_spec (fun a => nltb a (ncst 0)) (fun a => a < 0) ENegative x) as [A B].
  { intros a. apply Rltb_true. }
  split; intros H; split; try (apply A, H); apply B; intros a I; specialize (H a I); lra.
Qed.
Theorem C53_positive : forall x,
  ((exists a, In a x /\ a <= 0) -> fails (check_positive (fin x))) /\
  ((forall a, In a x -> 0 < a) -> passes (check_positive (fin x)) (fin x)).
Proof.
  intros x. destruct (error_if_spec (fun a => nleb a (ncst 0)) (fun a => a <= 0) ENegative x) as [A B].
  { intros a. apply Rleb_true. }
  split; [exact A|]. intros H. apply B. intros a I. specialize (H a I). lra.
Qed.
Theorem C53_polar_range : forall x,
  ((exists a, In a x /\ ~ (0 <= a <= PI)) -> fails (check_polar_range (fin x))) /\
  ((forall a, In a x -> 0 <= a <= PI) -> passes (check_polar_range (fin x)) (fin x)).
Proof.
  intros x. destruct (error_if_spec (fun a => (nltb a (ncst 0) || nltb (ncst PI) a)%bool) (fun a => ~ (0 <= a <= PI)) EPolarRange x) as [A B].
  { intros a. rewrite orb_true_iff. change (Rltb a 0 = true \/ Rltb PI a = true <-> ~ (0 <= a <= PI)). rewrite !Rltb_true. split.
    - intros [H|H] [? ?]; lra.
    - intros H. destruct (Rlt_dec a 0); [auto|]. right. apply Rnot_le_lt. intros ?. apply H. lra. }
  split; [exact A|]. intros H. apply B. intros a I N. apply N, H, I.
Qed.

(** With one bound, or one bound per element. *)
Lemma bounds_each x b : length b = length x -> bounds x b = Ok false b.
Proof.
  intros L. unfold bounds. destruct b as [|c [|d b]].
  - rewrite L, Nat.eqb_refl. reflexivity.
  - cbn in L. rewrite <- L. reflexivity.
  - rewrite L, Nat.eqb_refl. reflexivity.
Qed.
Lemma combine_fin : forall x b : list R, combine (fin x) (fin b) = map (fun '(a, c) => (Some a : ext, Some c : ext)) (combine x b).
Proof. induction x as [|a x IH]; intros [|c b]; try reflexivity. cbn [fin map combine]. f_equal. apply IH. Qed.
Lemma fin_length x : length (fin x) = length x. Proof. apply map_length. Qed.
Lemma repeat_fin c n : repeat (Some c : ext) n = fin (repeat c n).
Proof. induction n; cbn; [reflexivity|]. f_equal. exact IHn. Qed.
Lemma pairs_each (bad : ext -> ext -> bool) (Bad : R -> R -> Prop) x b : (forall a c, bad (Some a) (Some c) = true <-> Bad a c) -> length b = length x ->
  ((exists a c, In (a, c) (combine x b) /\ Bad a c) -> fails (check_pairs bad (fin x) (fin b))) /\
  ((forall a c, In (a, c) (combine x b) -> ~ Bad a c) -> passes (check_pairs bad (fin x) (fin b)) (fin x)).
Proof.
  intros H L. unfold check_pairs. rewrite bounds_each by (rewrite !fin_length; exact L). unfold bind. cbn [orb].
  assert (S : existsb (fun '(a, c) => bad a c) (combine (fin x) (fin b)) = true <-> exists a c, In (a, c) (combine x b) /\ Bad a c).
  { rewrite existsb_exists, combine_fin. split.
    - intros ([e g] & I & B). apply in_map_iff in I. destruct I as ([a c] & Q & I). injection Q as <- <-. exists a, c. rewrite <- H. auto.
    - intros (a & c & I & B). exists (Some a, Some c). split; [apply in_map_iff; exists (a, c); auto|rewrite H; exact B]. }
  split.
  - intros E. rewrite (proj2 S E). unfold fails. eauto.
  - intros A. destruct (existsb _ _); [|reflexivity]. destruct (proj1 S eq_refl) as (a & c & I & B). elim (A a c I B).
Qed.
Lemma pairs_one (bad : ext -> ext -> bool) x c : check_pairs bad (fin x) (fin [c]) = check_pairs bad (fin x) (fin (repeat c (length x))).
Proof.
  unfold check_pairs. f_equal. rewrite (bounds_each (fin x) (fin (repeat c (length x)))) by (rewrite !fin_length; apply repeat_length).
  change (bounds (fin x) (fin [c])) with (Ok false (repeat (Some c : ext) (length (fin x)))). rewrite fin_length, repeat_fin. reflexivity.
Qed.
Definition compares (check : list ext -> list ext -> res (list ext)) (good : R -> R -> Prop) : Prop :=
  (forall x b, length b = length x ->
     ((exists i a c, nth_error x i = Some a /\ nth_error b i = Some c /\ ~ good a c) -> fails (check (fin x) (fin b))) /\
     ((forall i a c, nth_error x i = Some a -> nth_error b i = Some c -> good a c) -> passes (check (fin x) (fin b)) (fin x))) /\
  (forall x c,
     ((exists a, In a x /\ ~ good a c) -> fails (check (fin x) (fin [c]))) /\
     ((forall a, In a x -> good a c) -> passes (check (fin x) (fin [c])) (fin x))).
Lemma in_combine_nth {T U} : forall (x : list T) (b : list U) a c, In (a, c) (combine x b) <-> exists i, nth_error x i = Some a /\ nth_error b i = Some c.
Proof.
  induction x as [|a' x IH]; intros b a c.
  - cbn. split; [tauto|]. intros ([|i] & H & _); discriminate H.
  - destruct b as [|c' b]; cbn; [split; [tauto|]; intros ([|i] & _ & H); discriminate H|]. rewrite IH. split.
    + intros [E|(i & P & Q)]; [injection E as <- <-; exists 0%nat; auto|exists (S i); auto].
    + intros ([|i] & P & Q); cbn in P, Q; [injection P as <-; injection Q as <-; auto|right; eauto].
Qed.
Lemma compares_intro (bad : ext -> ext -> bool) good : (forall a c, bad (Some a) (Some c) = true <-> ~ good a c) -> (forall a c, ~ ~ good a c -> good a c) ->
  compares (check_pairs bad) good.
Proof.
  intros H DN. split.
  - intros x b L. destruct (pairs_each bad (fun a c => ~ good a c) x b H L) as [A B]. split.
    + intros (i & a & c & P & Q & N). apply A. exists a, c. split; [apply in_combine_nth; eauto|exact N].
    + intros G. apply B. intros a c I N. apply in_combine_nth in I. destruct I as (i & P & Q). apply N, (G i a c P Q).
  - intros x c. rewrite pairs_one. destruct (pairs_each bad (fun a c => ~ good a c) x (repeat c (length x)) H (repeat_length _ _)) as [A B].
    assert (R : forall a d, In (a, d) (combine x (repeat c (length x))) <-> In a x /\ d = c).
    { clear. induction x as [|y x IH]; intros a d; cbn; [tauto|]. rewrite IH. split.
      - intros [E|[I ->]]; [injection E as <- <-|]; auto.
      - intros [[->|I] ->]; auto. }
    split.
    + intros (a & I & N). apply A. exists a, c. split; [apply R; auto|exact N].
    + intros G. apply B. intros a d I N. apply R in I. destruct I as [I ->]. apply N, (G a I).
Qed.
(** The four comparisons, with equality on the right side. *)
Theorem C53_comparisons :
  compares check_less_than Rlt /\ compares check_less_than_equal Rle /\
  compares check_greater_than Rgt /\ compares check_greater_than_equal Rge.
Proof.
  refine (conj _ (conj _ (conj _ _))); (apply compares_intro; intros a c; [|intros N; apply NNPP, N]).
  - change (Rleb c a = true <-> ~ a < c). rewrite Rleb_true. split; lra.
  - change (Rltb c a = true <-> ~ a <= c). rewrite Rltb_true. split; lra.
  - change (Rleb a c = true <-> ~ a > c). rewrite Rleb_true. split; lra.
  - change (Rltb a c = true <-> ~ a >= c). rewrite Rltb_true. split; lra.
Qed.
(** A finite array is in range or not: the two halves of each statement cover every array. *)
Example C53_met : fails (check_less_than (fin [1; 2; 3]) (fin [3])) /\ passes (check_less_than_equal (fin [1; 2; 3]) (fin [3])) (fin [1; 2; 3]).
Proof.
  destruct C53_comparisons as (A & B & _). split.
  - apply (proj2 A). exists 3. cbn. split; [auto|lra].
  - apply (proj2 B). intros a I. cbn in I. destruct I as [<-|[<-|[<-|[]]]]; lra.
Qed.
Print Assumptions C52_idempotent. Print Assumptions C53_comparisons.
