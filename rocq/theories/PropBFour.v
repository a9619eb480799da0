(** * C73: arrays of FourVectors.

    Specification vocabulary: as in PropBatchArith.v ([is_index], [is_broadcast], [align],
    [elem]), and below: [array_of_events v s]: [v] is an array of shape [s] of events;
    [event v idx]: the coordinates t, x, y, z of the event at index [idx]. *)
From Coq Require Import Reals List Bool Arith ZArith Lia Lra.
From Verif Require Import Num Vectors Shapes ShapesThm PropShape Batch BatchThm FourVec BatchOps VelArith BatchArith.
From Verif Require Pos3D.
From Verif Require Import PropBatchOps PropBatchArith Arrays PropArray BFour.
Import ListNotations.
Open Scope nat_scope.
Local Notation is_index := ShapesThm.valid.

(** ** Specification *)
(** three component arrays that broadcast to [s], and times whose shape fits [s] *)
Definition array_of_events (v : bfour) (s : list nat) : Prop :=
  length (bq v) = 3 /\ is_broadcast (v_shapes (bq v)) s /\ fits (ash (bt v)) s.
Definition event (v : bfour) (idx : list nat) : list ext := adat (bt v) (align (ash (bt v)) idx) :: elem (bq v) idx.

(** ** Shapes *)
Lemma fits_broadcast t s : fits t s <-> is_broadcast [t; s] s.
Proof.
  split.
  - intros F. split. intros c [<-|[<-|[]]]; auto using fits_refl. intros k n H. exists s. cbn; auto.
  - intros [F _]. apply F. cbn; auto.
Qed.
Lemma bs_gives l s : gives (broadcast_shapes l) s <-> is_broadcast l s.
Proof.
  rewrite <- broadcast_shapes_spec. split.
  - intros [w H]. now apply bs_ret in H.
  - intros H. now exists false.
Qed.
Lemma fitsr_common a b s : fitsr a s -> fitsr b s -> exists t, bcrev a b = Some t /\ fitsr t s.
Proof.
  revert b s. induction a as [|x a IH]; intros b s Fa Fb; [exists b; split; auto; destruct b; reflexivity|].
  destruct b as [|y b]; [exists (x :: a); auto|].
  destruct s as [|z s]; [destruct Fa as [Fa _]; cbn in Fa; lia|].
  apply fitsr_cons in Fa as [E1 F1]. apply fitsr_cons in Fb as [E2 F2].
  destruct (IH b s F1 F2) as (t & E & F). cbn [bcrev].
  assert (X : exists u, bc1 x y = Some u /\ (u = 1 \/ u = z)).
  { unfold bc1. destruct (Nat.eqb_spec x y); [exists x; split; auto|].
    destruct (Nat.eqb_spec x 1); [exists y; auto|]. destruct (Nat.eqb_spec y 1); [exists x; auto|].
    destruct E1, E2; congruence. }
  destruct X as (u & -> & Hu). rewrite E. exists (u :: t). split; auto. apply fitsr_cons. auto.
Qed.
(** two shapes that fit a third one broadcast against each other *)
Lemma fits_common a b s : fits a s -> fits b s -> exists t, is_broadcast [a; b] t /\ fits t s.
Proof.
  rewrite !fits_fitsr. intros Fa Fb. destruct (fitsr_common _ _ _ Fa Fb) as (t & E & F).
  exists (rev t). split; [|now apply fits_fitsr; rewrite rev_involutive].
  apply broadcast_shapes_spec. unfold broadcast_shapes. cbn [map bcall]. now rewrite bcrev_nil_r, E.
Qed.

(** ** The constructor *)
Theorem C73_constructor : forall t q c s r, is_broadcast (v_shapes q) s ->
  (gives (bf_make t q c) r <-> fits (ash t) s /\ r = mkB t q c) /\
  (fits (ash t) s -> bf_shape (mkB t q c) = ret s).
Proof.
  intros t q c s r B. pose proof (proj2 (broadcast_shapes_spec _ _) B) as Bs. split.
  - unfold bf_make, v_shape. rewrite Bs, bret. rewrite gives_bind. split.
    + intros (u & H & K). apply bs_gives in H. destruct (shape_eqb u s) eqn:E; [|now apply gives_raise in K].
      apply shape_eqb_spec in E. subst u. apply gives_ret in K as <-. split; auto. apply H. cbn; auto.
    + intros [F ->]. exists s. split; [now apply bs_gives, fits_broadcast|].
      rewrite (proj2 (shape_eqb_spec s s) eq_refl). now apply gives_ret.
  - intros F. unfold bf_shape, v_shape. cbn [bq bt]. rewrite Bs, bret. now apply broadcast_shapes_spec, fits_broadcast.
Qed.
Print Assumptions C73_constructor.
Lemma make_ok t q c s : is_broadcast (v_shapes q) s -> fits (ash t) s -> gives (bf_make t q c) (mkB t q c).
Proof. intros B F. apply (C73_constructor t q c s); auto. Qed.
Lemma make_inv t q c s r : is_broadcast (v_shapes q) s -> gives (bf_make t q c) r -> fits (ash t) s /\ r = mkB t q c.
Proof. intros B H. now apply (C73_constructor t q c s r). Qed.

(** ** Sums and differences *)
Lemma event_zip (f : ext -> ext -> ext) t1 t2 t q1 q2 q (s1 s2 s : list nat) c1 c2 c :
  zipped f t1 t2 t -> fits (ash t1) s1 -> fits (ash t2) s2 -> fits (ash t) s -> is_broadcast [s1; s2] s ->
  (forall idx, is_index s idx -> elem q idx = zip2 f (elem q1 (align s1 idx)) (elem q2 (align s2 idx))) ->
  forall idx, is_index s idx -> event (mkB t q c) idx = zip2 f (event (mkB t1 q1 c1) (align s1 idx)) (event (mkB t2 q2 c2) (align s2 idx)).
Proof.
  intros [B Z] F1 F2 F Bs E idx V. pose proof (valid_length _ _ V) as Li.
  assert (L1 : length s1 <= length idx) by (rewrite Li; apply Bs; cbn; auto).
  assert (L2 : length s2 <= length idx) by (rewrite Li; apply Bs; cbn; auto).
  unfold event. cbn [bt bq]. unfold zip2. cbn [combine map]. rewrite !align_align by auto. f_equal; [|now apply E].
  apply Z. rewrite Li. apply F.
Qed.
Theorem C73_sum_elementwise : forall v w r sv sw s,
  array_of_events v sv -> array_of_events w sw -> is_broadcast [sv; sw] s ->
  (gives (bf_add v w) r -> array_of_events r s /\ bc r = bc v /\
     forall idx, is_index s idx -> event r idx = zip2 nadd (event v (align sv idx)) (event w (align sw idx))) /\
  (gives (bf_sub v w) r -> array_of_events r s /\ bc r = bc v /\
     forall idx, is_index s idx -> event r idx = zip2 nsub (event v (align sv idx)) (event w (align sw idx))).
Proof.
  intros [tv qv cv] [tw qw cw] r sv sw s (Lv & Bv & Fv) (Lw & Bw & Fw) Bs. cbn [bq bt bc] in *.
  split; unfold bf_add, bf_sub; cbn [bq bt bc]; rewrite gives_bind; intros (t & Ht & H); apply gives_bind in H as (q & Hq & H).
  - apply np_zip_gives in Ht as (st & Bt & Et). pose proof (zipped_mk nadd tv tw st Bt) as Z. rewrite <- Et in Z.
    destruct (proj1 (C72_sum_elementwise KPos 3 qv qw q sv sw s Lv Lw Bv Bw Bs) Hq) as (Lq & Bq & Eq).
    apply (make_inv _ _ _ s) in H as [Ft ->]; auto. split; [split; auto|split; auto].
    apply (event_zip nadd tv tw); auto.
  - apply np_zip_gives in Ht as (st & Bt & Et). pose proof (zipped_mk nsub tv tw st Bt) as Z. rewrite <- Et in Z.
    destruct (proj2 (C72_sum_elementwise KPos 3 qv qw q sv sw s Lv Lw Bv Bw Bs) Hq) as (Lq & Bq & Eq).
    apply (make_inv _ _ _ s) in H as [Ft ->]; auto. split; [split; auto|split; auto].
    apply (event_zip nsub tv tw); auto.
Qed.
Print Assumptions C73_sum_elementwise.
(** The sum exists exactly when that of the positions does: the times never matter. *)
Theorem C73_sum_succeeds : forall v w sv sw s,
  array_of_events v sv -> array_of_events w sw -> is_broadcast [sv; sw] s ->
  (summable (bq v) (bq w) -> (exists r, gives (bf_add v w) r) /\ exists r, gives (bf_sub v w) r) /\
  (~ summable (bq v) (bq w) -> bf_add v w = Raise EType /\ bf_sub v w = Raise EType).
Proof.
  intros [tv qv cv] [tw qw cw] sv sw s (Lv & Bv & Fv) (Lw & Bw & Fw) Bs. cbn [bq bt bc] in *.
  destruct (fits_common (ash tv) (ash tw) s) as (st & Bt & Ft).
  { apply (fits_trans _ sv); auto. apply Bs; cbn; auto. } { apply (fits_trans _ sw); auto. apply Bs; cbn; auto. }
  destruct (C72_sum_succeeds KPos 3 qv qw Lv Lw) as (S1 & S2 & _).
  pose proof (proj2 (broadcast_shapes_spec _ _) Bt) as Bt'.
  split; intros H.
  - destruct (S1 H) as [[q Hq] S3]. destruct (S3 (or_introl eq_refl)) as [q' Hq']. unfold bf_add, bf_sub, np_zip. cbn [bq bt bc]. rewrite Bt', !bret. split.
    + destruct (proj1 (C72_sum_elementwise KPos 3 qv qw q sv sw s Lv Lw Bv Bw Bs) Hq) as (Lq & Bq & _).
      eexists. apply gives_bind. exists q. split; auto. apply (make_ok _ _ _ s); auto.
    + destruct (proj2 (C72_sum_elementwise KPos 3 qv qw q' sv sw s Lv Lw Bv Bw Bs) Hq') as (Lq & Bq & _).
      eexists. apply gives_bind. exists q'. split; auto. apply (make_ok _ _ _ s); auto.
  - destruct (S2 H) as [E1 E2]. specialize (E2 (or_introl eq_refl)). unfold bf_add, bf_sub, np_zip. cbn [bq bt bc]. rewrite Bt', !bret, E1, E2. split; reflexivity.
Qed.
Print Assumptions C73_sum_succeeds.
(** in particular for arrays of one shape, with times given for each event or once *)
Theorem C73_sum_of_same_shape : forall v w s,
  length (bq v) = 3 -> length (bq w) = 3 ->
  Forall (fun a => ash a = s) (bq v) -> Forall (fun a => ash a = s) (bq w) -> fits (ash (bt v)) s -> fits (ash (bt w)) s ->
  exists r d, gives (bf_add v w) r /\ gives (bf_sub v w) d /\ array_of_events r s /\ array_of_events d s /\
    forall idx, is_index s idx -> event r idx = zip2 nadd (event v idx) (event w idx) /\ event d idx = zip2 nsub (event v idx) (event w idx).
Proof.
  intros v w s Lv Lw Fv Fw Tv Tw.
  assert (U : forall q : bvec ext, length q = 3 -> Forall (fun a => ash a = s) q -> is_broadcast (v_shapes q) s).
  { intros q L F. split.
    - intros c Hc. apply in_map_iff in Hc as (a & <- & Ha). rewrite Forall_forall in F. rewrite (F a Ha). apply fits_refl.
    - intros k n E. exists s. split; auto. destruct F as [|a q <- _]; [discriminate L|]. now left. }
  pose proof (U _ Lv Fv) as Bv. pose proof (U _ Lw Fw) as Bw.
  assert (Bs : is_broadcast [s; s] s) by (apply fits_broadcast, fits_refl).
  assert (Av : array_of_events v s) by (exact (conj Lv (conj Bv Tv))). assert (Aw : array_of_events w s) by (exact (conj Lw (conj Bw Tw))).
  assert (S : summable (bq v) (bq w)).
  { unfold summable. clear -Lv Lw Fv Fw. revert Lv Lw Fv Fw. generalize (bq v) (bq w) 3. 
    intros a b n. revert a b. induction n as [|n IH]; intros [|x a] [|y b] La Lb Fa Fb; try discriminate; constructor.
    - inversion Fa; inversion Fb; subst. split; [right; right; congruence|]. exists (ash x). rewrite H5. apply fits_broadcast, fits_refl.
    - inversion Fa; inversion Fb; subst. apply IH; auto. }
  destruct (C73_sum_succeeds v w s s s Av Aw Bs) as [K _]. destruct (K S) as [[r Hr] [d Hd]].
  destruct (proj1 (C73_sum_elementwise v w r s s s Av Aw Bs) Hr) as (Ar & _ & Er).
  destruct (proj2 (C73_sum_elementwise v w d s s s Av Aw Bs) Hd) as (Ad & _ & Ed).
  exists r, d. refine (conj Hr (conj Hd (conj Ar (conj Ad _)))). intros idx V. rewrite Er, Ed by exact V. now rewrite !align_self.
Qed.
Print Assumptions C73_sum_of_same_shape.

(** ** Negation *)
Theorem C73_negation : forall v s, array_of_events v s ->
  exists r, gives (bf_neg v) r /\ array_of_events r s /\ bc r = bc v /\ forall idx, event r idx = map nneg (event v idx).
Proof.
  intros [t q c] s (L & B & F). cbn [bq bt bc] in *. destruct (C72_negation_elementwise q s B) as [B' E].
  exists (mkB (amap nneg t) (cart_neg q) c). split; [apply (make_ok _ _ _ s); auto|]. split; [|split; auto].
  - split; [cbn [bq]; unfold cart_neg; now rewrite map_length|]. split; auto.
  - intros idx. unfold event. cbn [bt bq amap ash adat map]. f_equal. apply E.
Qed.
Print Assumptions C73_negation.

(** ** The interval *)
(** Every event has the interval (c t)^2 - (x^2 + y^2 + z^2). *)
Theorem C73_interval : forall v s, array_of_events v s ->
  exists n, gives (bf_norm2 v) n /\ ash n = s /\
    forall idx, is_index s idx -> forall t x y z c : R, event v idx = [Some t; Some x; Some y; Some z] -> bc v = Some c ->
      adat n idx = Some ((c * t) * (c * t) - (x * x + y * y + z * z))%R.
Proof.
  intros [tv q cv] s (L & B & F). cbn [bq bt bc] in *. unfold bf_norm2, b_norm. cbn [bq bt bc].
  destruct (to_ok (C3 APos) q s) as (a & -> & Hs & E); [discriminate|exact L|now apply broadcast_shapes_spec|].
  rewrite !bret. assert (Rs : removelast (ash a) = s) by (rewrite Hs; apply removelast_last).
  assert (Bt : is_broadcast [s; ash tv] s) by (apply is_broadcast_swap; now apply fits_broadcast).
  unfold np_zip. cbn [amap ash adat]. rewrite Rs, (proj2 (broadcast_shapes_spec _ _) Bt), bret.
  eexists. split; [now apply gives_ret|]. split; [reflexivity|].
  intros idx V t x y z c Ev Ec. cbn [amap ash adat broadcast_to]. pose proof (valid_length _ _ V) as Li.
  rewrite !bidx_align by (rewrite Li; first [apply F|reflexivity]). rewrite (align_self s idx V).
  unfold event in Ev. cbn [bt bq] in Ev. injection Ev as Et Eq. specialize (E idx V). cbn [adim seq map] in E. rewrite Eq in E. injection E as E0 E1 E2.
  rewrite E0, E1, E2, Et. subst cv. unfold nsq. cbn [nsqrt nadd nmul nneg Num_ext lift1 lift2].
  assert (P : (0 <= x * x + y * y + z * z)%R). { pose proof (Rle_0_sqr x). pose proof (Rle_0_sqr y). pose proof (Rle_0_sqr z). unfold Rsqr in *. lra. }
  rewrite Pos3D.esqrt_some by exact P. cbn [lift1 lift2]. rewrite sqrt_sqrt by exact P. f_equal. ring.
Qed.
Print Assumptions C73_interval.

(** ** Arrays *)
Theorem C73_to_array : forall v s, array_of_events v s -> ash (bt v) = s ->
  exists a, gives (bf_to_array v) a /\ has_shape a s 4 /\
    forall idx t x y z, is_index s idx -> event v idx = [t; x; y; z] ->
      map (fun i => adat a (idx ++ [i])) (seq 0 4) = [nmul (bc v) t; x; y; z].
Proof.
  intros [tv q c] s (L & B & F) Hs. cbn [bq bt bc] in *. unfold bf_to_array. cbn [bq bt bc].
  destruct (to_ok (C3 APos) q s) as (a & -> & Ha & E); [discriminate|exact L|now apply broadcast_shapes_spec|].
  rewrite bret. assert (Rs : removelast (ash a) = s) by (rewrite Ha; apply removelast_last).
  rewrite Rs, Hs, (proj2 (shape_eqb_spec s s) eq_refl). eexists. split; [now apply gives_ret|]. split; [reflexivity|].
  intros idx t x y z V Ev. cbn [seq map adat]. rewrite !last_last, !removelast_last.
  unfold event in Ev. cbn [bt bq] in Ev. injection Ev as Et Eq. specialize (E idx V). cbn [adim seq map] in E. rewrite Eq in E. injection E as -> -> ->.
  rewrite Hs, align_self in Et by exact V. now rewrite Et.
Qed.
Print Assumptions C73_to_array.
(** Finding: times that still have to be broadcast (such as one time for all positions,
    which the constructor accepts) make the conversion fail. *)
Theorem C73_finding_to_array_needs_full_times : forall v s, array_of_events v s -> ash (bt v) <> s ->
  bf_to_array v = Raise EType.
Proof.
  intros [tv q c] s (L & B & F) Hs. cbn [bq bt bc] in *. unfold bf_to_array. cbn [bq bt bc].
  destruct (to_ok (C3 APos) q s) as (a & -> & Ha & E); [discriminate|exact L|now apply broadcast_shapes_spec|].
  rewrite bret, Ha, removelast_last. destruct (shape_eqb (ash tv) s) eqn:K; [|reflexivity]. apply shape_eqb_spec in K. contradiction.
Qed.
Print Assumptions C73_finding_to_array_needs_full_times.
Theorem C73_from_array : forall a s, has_shape a s 4 ->
  exists v, gives (bf_from_array a) v /\ array_of_events v s /\ ash (bt v) = s /\ bc v = Some c_light /\
    forall idx, is_index s idx -> event v idx =
      [ndiv (adat a (idx ++ [0])) (Some c_light); adat a (idx ++ [1]); adat a (idx ++ [2]); adat a (idx ++ [3])].
Proof.
  intros a s Ha. unfold bf_from_array. rewrite (last_is_ok a s 4 4 Ha). cbn [Nat.eqb].
  rewrite (at_last_ok a s 4 0 Ha) by lia. rewrite bret. rewrite Ha, removelast_last.
  destruct (C41_from_array_components (C3 APos) (mkArr (s ++ [3]) (fun idx => adat a (removelast idx ++ [S (last idx 0)]))) s eq_refl) as (q & -> & Hq & Lq & Eq).
  rewrite bret. apply broadcast_shapes_spec in Hq.
  eexists. split; [apply (make_ok _ _ _ s); [exact Hq|cbn [amap ash]; apply fits_refl]|].
  split; [exact (conj Lq (conj Hq (fits_refl s)))|]. split; [reflexivity|]. split; [reflexivity|].
  intros idx V. unfold event. cbn [bt bq amap ash adat]. rewrite (Eq idx V), align_self by exact V. cbn [adim seq map adat].
  now rewrite !last_last, !removelast_last.
Qed.
Print Assumptions C73_from_array.
Theorem C73_from_array_wrong_length : forall a, (forall s, ~ has_shape a s 4) -> bf_from_array a = Raise ENotFound.
Proof.
  intros a N. unfold bf_from_array. destruct (last_is 4 a) eqn:E; [|reflexivity]. exfalso. unfold last_is in E.
  destruct (rev (ash a)) as [|k l] eqn:K; [discriminate|]. apply Nat.eqb_eq in E. subst k. apply (N (rev l)).
  unfold has_shape. rewrite <- (rev_involutive (ash a)), K. reflexivity.
Qed.
Print Assumptions C73_from_array_wrong_length.
(** An array of numbers survives the round trip. *)
Theorem C73_array_round_trip : forall (x : list nat -> R) s,
  exists v b, gives (bf_from_array (mkArr (s ++ [4]) (fun idx => Some (x idx) : ext))) v /\ gives (bf_to_array v) b /\ has_shape b s 4 /\
    forall idx, is_index (s ++ [4]) idx -> adat b idx = Some (x idx).
Proof.
  intros x s. destruct (C73_from_array (mkArr (s ++ [4]) (fun idx => Some (x idx) : ext)) s eq_refl) as (v & Hv & Av & Tv & Cv & Ev).
  destruct (C73_to_array v s Av Tv) as (b & Hb & Sb & Eb). exists v, b. split; [exact Hv|]. split; [exact Hb|]. split; [exact Sb|].
  intros idx V. apply valid_app_inv in V as (jdx & i & -> & V & Hi).
  specialize (Eb jdx _ _ _ _ V (Ev jdx V)). rewrite Cv in Eb.
  assert (E0 : @nmul ext Num_ext (Some c_light) (@ndiv ext Num_ext (Some (x (jdx ++ [0]))) (Some c_light)) = Some (x (jdx ++ [0]))).
  { assert (c_light <> 0)%R by (unfold c_light; lra). cbn [nmul ndiv Num_ext]. rewrite Pos3D.ediv_some by exact H. cbn [lift2]. f_equal. unfold Rdiv. field. exact H. }
  cbn [adat seq map] in Eb. injection Eb as E1 E2 E3 E4.
  destruct i as [|[|[|[|i]]]]; try lia; [exact (eq_trans E1 E0)|assumption..].
Qed.
Print Assumptions C73_array_round_trip.

(** ** Equality *)
(** Finding: only single events can be compared: [c], a number, is compared as one more
    component.  For single events, equality is that of all coordinates and of [c]. *)
Theorem C73_finding_equality_of_arrays : forall v w sv sw, array_of_events v sv -> array_of_events w sw ->
  (exists r, gives (bf_equal v w) r) -> sv = [] /\ sw = [].
Proof.
  intros [tv qv cv] [tw qw cw] sv sw (Lv & Bv & Fv) (Lw & Bw & Fw) H. cbn [bq bt bc] in *. unfold bf_equal in H. cbn [bq bt bc] in H.
  apply C72_equality_succeeds in H as (_ & s & F); [|cbn; rewrite !app_length, Lv, Lw; reflexivity].
  assert (F' := F). inversion F' as [|? ? ? ? _ G]; subst.
  apply Forall2_app_inv_l in G as (l1 & l2 & G1 & G2 & E).
  assert (E12 : l1 = qw /\ l2 = [scalar cw]).
  { inversion G2 as [|? y ? l' K G3]; subst. inversion G3; subst. apply app_inj_tail in E as [-> ->]. auto. }
  destruct E12 as [-> ->]. inversion G2 as [|? ? ? ? K _]; subst. cbn [scalar ash] in K.
  assert (s = []). { apply (broadcast_unique [[]; []]); auto. apply fits_broadcast, fits_refl. } subst s.
  assert (N : forall a b, is_broadcast [a; b] [] -> a = [] /\ b = []).
  { intros a b [X _]. assert (Xa : fits a []) by (apply X; cbn; auto). assert (Xb : fits b []) by (apply X; cbn; auto). destruct Xa as [Xa _], Xb as [Xb _]. cbn in *. split; [now destruct a; [|cbn in Xa; lia]|now destruct b; [|cbn in Xb; lia]]. }
  assert (M : (forall a, In a (v_shapes qv) -> a = []) /\ forall a, In a (v_shapes qw) -> a = []).
  { unfold v_shapes. clear -G1 N. induction G1 as [|a b l l' K _ [I1 I2]]; [split; intros ? []|]. destruct (N _ _ K) as [E1 E2].
    split; intros ? [<-|J]; auto. }
  assert (Z : forall l s, (forall a, In a l -> a = []) -> is_broadcast l s -> s = []).
  { intros l s Hl [_ X]. destruct s as [|n s]; auto. destruct (axis_lt (n :: s) (length s)) as [k E1]; [cbn; lia|]. destruct (X _ _ E1) as (a & Ha & E2). rewrite (Hl a Ha) in E2. apply axis_some in E2. cbn in E2. lia. }
  split; [apply (Z (v_shapes qv))|apply (Z (v_shapes qw))]; auto; apply M.
Qed.
Print Assumptions C73_finding_equality_of_arrays.
Theorem C73_equality_of_events : forall v w, array_of_events v [] -> array_of_events w [] ->
  exists r, gives (bf_equal v w) r /\ ash r = [] /\ (adat r [] = true <-> PropBatchArith.same (event v [] ++ [bc v]) (event w [] ++ [bc w])).
Proof.
  intros [tv qv cv] [tw qw cw] (Lv & Bv & Fv) (Lw & Bw & Fw). cbn [bq bt bc] in *.
  assert (N : forall a, fits a [] -> a = []) by (intros a [X _]; destruct a; [auto|cbn in X; lia]).
  assert (Sv : forall a, In a qv -> ash a = []) by (intros a Ha; apply N; apply Bv; now apply in_map).
  assert (Sw : forall a, In a qw -> ash a = []) by (intros a Ha; apply N; apply Bw; now apply in_map).
  assert (B0 : is_broadcast [[]; []] []) by (apply fits_broadcast, fits_refl).
  assert (L : length (tv :: qv ++ [scalar cv]) = length (tw :: qw ++ [scalar cw])) by (cbn; rewrite !app_length, Lv, Lw; reflexivity).
  assert (X : exists r, gives (vec_equal (tv :: qv ++ [scalar cv]) (tw :: qw ++ [scalar cw])) r).
  { apply C72_equality_succeeds; [exact L|]. split; [discriminate|]. exists []. constructor; [rewrite (N _ Fv), (N _ Fw); exact B0|].
    apply Forall2_app; [|constructor; [exact B0|constructor]].
    clear -Lv Lw Sv Sw B0. revert Lv Lw. generalize 3. intros n. revert qv qw Sv Sw. induction n as [|n IH]; intros [|a qv] [|b qw] Sv Sw Lv Lw; try discriminate; constructor.
    - rewrite (Sv a), (Sw b); [exact B0|now left|now left].
    - apply IH; auto; intros; [apply Sv|apply Sw]; now right. }
  assert (Y : forall t q c, (forall a, In a q -> ash a = []) -> ash t = [] -> is_broadcast (v_shapes (t :: q ++ [scalar c])) []).
  { intros t q c Hq Ht. unfold v_shapes. split.
    - intros a Ha. assert (a = []) as ->; [|apply fits_refl]. apply in_map_iff in Ha as (b & <- & Hb). destruct Hb as [<-|Hb]; [exact Ht|]. apply in_app_or in Hb as [Hb|[<-|[]]]; auto.
    - intros k n E. destruct k; discriminate E. }
  destruct X as [r Hr]. exists r. split; [exact Hr|].
  destruct (C72_equality_elementwise _ _ r [] [] [] L (Y tv qv cv Sv (N _ Fv)) (Y tw qw cw Sw (N _ Fw)) B0 Hr) as [E K].
  split; [exact E|]. rewrite (K []) by constructor. cbn [align length Nat.sub skipn combine map firstn].
  unfold event. cbn [bt bq]. unfold elem. cbn [map]. rewrite !map_app. reflexivity.
Qed.
Print Assumptions C73_equality_of_events.

(** ** Flattening and transposing *)
Lemma uniform_broadcast (q : bvec ext) s : length q = 3 -> Forall (fun a => ash a = s) q -> is_broadcast (v_shapes q) s /\ uniform q s.
Proof.
  intros L F. rewrite Forall_forall in F. split; [split|split].
  - intros c Hc. apply in_map_iff in Hc as (a & <- & Ha). rewrite (F a Ha). apply fits_refl.
  - intros k n E. exists s. split; auto. destruct q as [|a q]; [discriminate L|]. left. apply F. now left.
  - intros ->. discriminate L.
  - exact F.
Qed.
(** With a time for every event, or one time for all, the event number [k] of
    [v.flatten()] and [v.ravel()] is the one at the index [idx] whose position is [k];
    the event at [idx] of [v.T] is the one at the reversed index of [v]. *)
Theorem C73_flatten_transpose : forall v s, length (bq v) = 3 -> Forall (fun a => ash a = s) (bq v) ->
  ash (bt v) = s \/ ash (bt v) = [] ->
  (exists r, gives (bf_flatten v) r /\ array_of_events r [fold_right Nat.mul 1 s] /\ bc r = bc v /\
     forall k idx, is_index s idx -> position s idx = k -> event r [k] = event v idx) /\
  (exists r, gives (bf_T v) r /\ array_of_events r (rev s) /\ bc r = bc v /\
     forall idx, is_index s idx -> event r (rev idx) = event v idx).
Proof.
  intros [t q c] s L U T. cbn [bq bt bc] in *. destruct (uniform_broadcast q s L U) as [B U'].
  assert (C : constructed_b [] q) by reflexivity. split.
  - unfold bf_flatten. cbn [bq bt bc]. destruct (C37_flatten_uniform [] q s C U') as (w & Hw & _ & Sw & Ew). rewrite Hw.
    unfold arr_flatten. rewrite !bret. apply broadcast_shapes_spec in Sw. fold (v_shapes w) in Sw.
    assert (Ft : fits [prod (ash t)] [prod s]).
    { destruct T as [-> | ->]; [apply fits_refl|]. cbn. split; [cbn; lia|]. intros [|k] n E; [left; injection E as <-; reflexivity|]. apply axis_some in E. cbn in E. lia. }
    eexists. split; [apply (make_ok _ _ _ [prod s]); [exact Sw|exact Ft]|]. split; [|split; [reflexivity|]].
    + split; [|split; [exact Sw|exact Ft]]. cbn [bq]. unfold v_flatten in Hw.
      assert (G : gives (v_flatten [] q) w) by (exists false; exact Hw). unfold v_flatten in G. apply gives_bind in G as (l & Hl & G).
      apply gives_mapR in Hl. unfold construct_b in G. cbn [combine forallb] in G. apply gives_ret in G as <-. rewrite <- (F2_length _ _ _ Hl). exact L.
    + intros k idx V P. unfold event. cbn [bt bq ash adat]. f_equal; [|now apply Ew].
      destruct T as [E | E]; rewrite E.
      * assert (Vk : is_index [prod s] [k]). { constructor; [|constructor]. rewrite <- P, position_ravel by exact V. now apply ravel_lt. }
        rewrite (align_self _ _ Vk), (align_self _ _ V). cbn [nth]. rewrite <- P, position_ravel, unravel_ravel by exact V. reflexivity.
      * reflexivity.
  - unfold bf_T. cbn [bq bt bc]. destruct (C37_T_uniform [] q s C U') as (w & Hw & _ & Sw & Ew). rewrite Hw.
    unfold arr_T. rewrite !bret. apply broadcast_shapes_spec in Sw. fold (v_shapes w) in Sw.
    assert (Ft : fits (rev (ash t)) (rev s)). { destruct T as [-> | ->]; [apply fits_refl|]. cbn. split; [cbn; lia|]. intros k n E. apply axis_some in E. cbn in E. lia. }
    eexists. split; [apply (make_ok _ _ _ (rev s)); [exact Sw|exact Ft]|]. split; [|split; [reflexivity|]].
    + split; [|split; [exact Sw|exact Ft]]. cbn [bq].
      assert (G : gives (v_T [] q) w) by (exists false; exact Hw). unfold v_T in G. apply gives_bind in G as (l & Hl & G).
      apply gives_mapR in Hl. unfold construct_b in G. cbn [combine forallb] in G. apply gives_ret in G as <-. rewrite <- (F2_length _ _ _ Hl). exact L.
    + intros idx V. pose proof (valid_rev _ _ V) as V'. unfold event. cbn [bt bq ash adat]. f_equal.
      * destruct T as [E | E]; rewrite E.
        -- rewrite (align_self _ _ V'), (align_self _ _ V), rev_involutive. reflexivity.
        -- reflexivity.
      * rewrite (Ew (rev idx) V'), rev_involutive. reflexivity.
Qed.
Print Assumptions C73_flatten_transpose.
(** [mT] swaps the last two axes when the times have the full shape. *)
Theorem C73_matrix_transpose : forall v s m n, length (bq v) = 3 -> Forall (fun a => ash a = s ++ [m; n]) (bq v) ->
  ash (bt v) = s ++ [m; n] ->
  exists r, gives (bf_mT v) r /\ array_of_events r (s ++ [n; m]) /\ bc r = bc v /\
    forall idx i j, is_index s idx -> i < m -> j < n -> event r (idx ++ [j; i]) = event v (idx ++ [i; j]).
Proof.
  intros [t q c] s m n L U T. cbn [bq bt bc] in *. destruct (uniform_broadcast q _ L U) as [B U'].
  assert (C : constructed_b [] q) by reflexivity.
  assert (Hsw : forall T (l : list T) a b, swap2 (l ++ [a; b]) = Some (l ++ [b; a])).
  { intros T' l a b. unfold swap2. rewrite rev_app_distr. cbn. rewrite rev_involutive. now rewrite <- app_assoc. }
  unfold bf_mT. cbn [bq bt bc]. destruct (C37_mT_uniform [] q s m n C U') as (w & Hw & _ & Sw & Ew). rewrite Hw.
  unfold arr_mT. rewrite T, Hsw, !bret. apply broadcast_shapes_spec in Sw. fold (v_shapes w) in Sw.
  eexists. split; [apply (make_ok _ _ _ (s ++ [n; m])); [exact Sw|apply fits_refl]|]. split; [|split; [reflexivity|]].
  - split; [|split; [exact Sw|apply fits_refl]]. cbn [bq].
    assert (G : gives (v_mT [] q) w) by (exists false; exact Hw). unfold v_mT in G. apply gives_bind in G as (l & Hl & G).
    apply gives_mapR in Hl. unfold construct_b in G. cbn [combine forallb] in G. apply gives_ret in G as <-. rewrite <- (F2_length _ _ _ Hl). exact L.
  - intros idx i j V Hi Hj. unfold event. cbn [bt bq ash adat]. f_equal; [|now apply Ew].
    assert (V1 : is_index (s ++ [n; m]) (idx ++ [j; i])) by (apply Forall2_app; auto).
    assert (V2 : is_index (s ++ [m; n]) (idx ++ [i; j])) by (apply Forall2_app; auto).
    rewrite T, (align_self _ _ V1), (align_self _ _ V2), Hsw. reflexivity.
Qed.
Print Assumptions C73_matrix_transpose.
(** Finding: [mT] raises when the times have fewer than two axes, for instance one time
    for all events, whatever the shape of the positions. *)
Theorem C73_finding_matrix_transpose_needs_times : forall v, length (ash (bt v)) < 2 -> bf_mT v = Raise EValue.
Proof.
  intros v H. unfold bf_mT, arr_mT. destruct (ash (bt v)) as [|a [|b l]]; cbn in H; try lia; reflexivity.
Qed.
Print Assumptions C73_finding_matrix_transpose_needs_times.
(** Finding: with one time for every column, a (m, n) array of events cannot be
    flattened; and [v.T] of a (n, n) array attaches the times to the wrong events: the
    time of the event (i, j) becomes that of (j, i). *)
Theorem C73_finding_flatten_fails : forall v m n, length (bq v) = 3 -> Forall (fun a => ash a = [m; n]) (bq v) ->
  ash (bt v) = [n] -> m <> 1 -> n <> 0 -> n <> 1 -> array_of_events v [m; n] /\ exists e, bf_flatten v = Raise e.
Proof.
  intros [t q c] m n L U T Hm H0 H1. cbn [bq bt bc] in *. destruct (uniform_broadcast q _ L U) as [B U'].
  assert (Ft : fits [n] [m; n]). { split; [cbn; lia|]. intros [|k] x E; [right; exact E|]. apply axis_some in E. cbn in E. lia. }
  split. { split; [exact L|]. split; [exact B|]. cbn [bt]. rewrite T. exact Ft. }
  unfold bf_flatten. cbn [bq bt bc]. destruct (C37_flatten_uniform [] q _ eq_refl U') as (w & Hw & _ & Sw & _). rewrite Hw.
  unfold arr_flatten. rewrite !bret. apply broadcast_shapes_spec in Sw. fold (v_shapes w) in Sw.
  match goal with |- exists e, ?x = _ => destruct x as [wr r|e] eqn:E; [|eauto] end. exfalso.
  assert (G := make_inv _ _ _ _ _ Sw (ex_intro _ wr E)). destruct G as [[_ G] _]. cbn [ash] in G. rewrite T in G. cbn in G.
  specialize (G 0 (n * 1) eq_refl). unfold axis in G. cbn in G. destruct G as [G|G]; [lia|]. injection G as G. nia.
Qed.
Print Assumptions C73_finding_flatten_fails.
Theorem C73_finding_transposed_times : forall v n, length (bq v) = 3 -> Forall (fun a => ash a = [n; n]) (bq v) ->
  ash (bt v) = [n] -> n <> 1 ->
  array_of_events v [n; n] /\
  exists r, gives (bf_T v) r /\ array_of_events r [n; n] /\
    forall i j, i < n -> j < n -> event r [j; i] = hd None (event v [j; i]) :: tl (event v [i; j]).
Proof.
  intros [t q c] n L U T Hn. cbn [bq bt bc] in *. destruct (uniform_broadcast q _ L U) as [B U'].
  assert (Ft : fits [n] [n; n]). { split; [cbn; lia|]. intros [|k] x E; [right; exact E|]. apply axis_some in E. cbn in E. lia. }
  split. { split; [exact L|]. split; [exact B|]. cbn [bt]. rewrite T. exact Ft. }
  unfold bf_T. cbn [bq bt bc]. destruct (C37_T_uniform [] q _ eq_refl U') as (w & Hw & _ & Sw & Ew).
  assert (Lw : length w = 3).
  { assert (G : gives (v_T [] q) w) by (exists false; exact Hw). unfold v_T in G. apply gives_bind in G as (l & Hl & G).
    apply gives_mapR in Hl. unfold construct_b in G. cbn [combine forallb] in G. apply gives_ret in G as <-. rewrite <- (F2_length _ _ _ Hl). exact L. }
  rewrite Hw. unfold arr_T. rewrite !bret, T. apply broadcast_shapes_spec in Sw. fold (v_shapes w) in Sw. cbn [rev app] in *.
  eexists. split; [apply (make_ok _ _ _ [n; n]); [exact Sw|exact Ft]|]. split; [exact (conj Lw (conj Sw Ft))|].
  intros i j Hi Hj. unfold event. cbn [bt bq ash adat hd tl]. rewrite T. unfold align. cbn [length Nat.sub skipn combine map rev app].
  f_equal. rewrite (Ew [j; i]); [reflexivity|]. repeat constructor; auto.
Qed.
Print Assumptions C73_finding_transposed_times.

(** ** Indexing and reshaping *)
(** Finding: no array of FourVectors can be indexed or reshaped (so it cannot be iterated
    over either): broadcasting the times against the positions treats x, y, z as an axis
    of the positions, and the constructor rejects the result. *)
Theorem C73_finding_no_indexing : forall v s, array_of_events v s ->
  (forall i, exists e, bf_get v i = Raise e) /\ (forall dims, exists e, bf_reshape v dims = Raise e).
Proof.
  intros [t q c] s (L & B & F). cbn [bq bt bc] in *.
  assert (K : exists e, bf_full (mkB t q c) = Raise e).
  { unfold bf_full. cbn [bq bt bc]. unfold v_shape. rewrite (proj2 (broadcast_shapes_spec _ _) B), bret. cbv zeta.
    destruct (shape_eqb (ash t) (s ++ [3])) eqn:E1.
    { exfalso. apply shape_eqb_spec in E1. rewrite E1 in F. destruct F as [F _]. rewrite app_length in F. cbn in F. lia. }
    destruct (broadcast_shapes [ash t; s ++ [3]]) as [w0 u|e] eqn:E2; [|exists e; reflexivity].
    assert (Bu : is_broadcast [ash t; s ++ [3]] u) by (apply bs_gives; exists w0; exact E2).
    assert (Lu : length s + 1 <= length u). { assert (X : fits (s ++ [3]) u) by (apply Bu; cbn; auto). destruct X as [X _]. rewrite app_length in X. cbn in X. lia. }
    destruct u as [|u0 u' _] using rev_ind; [cbn in Lu; lia|].
    assert (Bq : exists sq, is_broadcast (v_shapes (if shape_eqb (u' ++ [u0]) (s ++ [3]) then q else map (fun a => broadcast_to a (removelast (u' ++ [u0]))) q)) sq /\ length sq <= length u').
    { rewrite removelast_last. destruct (shape_eqb (u' ++ [u0]) (s ++ [3])).
      - exists s. split; [exact B|]. rewrite app_length in Lu. cbn in Lu. lia.
      - exists u'. split; [|lia]. split.
        + intros a Ha. unfold v_shapes in Ha. rewrite map_map in Ha. apply in_map_iff in Ha as (b & <- & _). apply fits_refl.
        + intros k n E. exists u'. split; [|exact E]. unfold v_shapes. rewrite map_map. cbn [broadcast_to ash]. destruct q; [discriminate L|now left]. }
    destruct Bq as (sq & Bq & Lq).
    match goal with |- exists e, bind (Ok w0 _) ?f = _ => change (exists e, match f (u' ++ [u0]) with Ok w2 y => Ok (w0 || w2) y | Raise e => Raise e end = Raise e) end. cbv beta.
    match goal with |- context [bf_make ?a ?b ?d] => destruct (bf_make a b d) as [w1 r|e] eqn:E3; [|eauto] end. exfalso.
    destruct (make_inv _ _ _ sq r Bq (ex_intro _ w1 E3)) as [[X _] _]. cbn [broadcast_to ash] in X. rewrite app_length in X. cbn in X. lia. }
  destruct K as [e K]. split; intros; exists e; unfold bf_get, bf_reshape; now rewrite K.
Qed.
Print Assumptions C73_finding_no_indexing.

(** ** Concrete cases *)
Definition tri : bfour :=
  mkB (mkArr [] (fun _ => Some 2%R)) [mkArr [2] (fun i => Some (INR (nth 0 i 0))); mkArr [2] (fun _ => Some 1%R); mkArr [2] (fun _ => Some 0%R)] (Some 3%R).
Lemma tri_array : array_of_events tri [2].
Proof. split; [reflexivity|]. split; [apply broadcast_shapes_spec; reflexivity|]. split; [cbn; lia|]. intros k n E. destruct k; discriminate E. Qed.
Example C73_sum_case : exists r, gives (bf_add tri tri) r /\ event r [1] = [Some 4; Some 2; Some 2; Some 0]%R.
Proof.
  destruct (C73_sum_of_same_shape tri tri [2]) as (r & d & Hr & _ & _ & _ & E); try reflexivity; try apply tri_array; try (repeat constructor).
  exists r. split; auto. destruct (E [1]) as [-> _]; [repeat constructor|]. cbn. repeat f_equal; lra.
Qed.
Example C73_interval_case : exists n, gives (bf_norm2 tri) n /\ adat n [1] = Some 34%R.
Proof.
  destruct (C73_interval tri [2] tri_array) as (n & Hn & _ & E). exists n. split; auto.
  rewrite (E [1] ltac:(repeat constructor) 2%R 1%R 1%R 0%R 3%R eq_refl eq_refl). f_equal. lra.
Qed.
Example C73_scalar_time_case : bf_to_array tri = Raise EType.
Proof. apply (C73_finding_to_array_needs_full_times tri [2] tri_array). discriminate. Qed.
Example C73_array_case : exists v b, gives (bf_from_array (mkArr [2; 4] (fun i => Some (INR (nth 1 i 0)) : ext))) v /\ gives (bf_to_array v) b /\ adat b [1; 3] = Some (INR 3).
Proof. destruct (C73_array_round_trip (fun i => INR (nth 1 i 0)) [2]) as (v & b & Hv & Hb & _ & E). exists v, b. split; auto. split; auto. apply E. repeat constructor. Qed.
Example C73_flatten_case : exists r, gives (bf_flatten tri) r /\ event r [1] = event tri [1].
Proof.
  destruct (C73_flatten_transpose tri [2]) as [(r & Hr & _ & _ & E) _]; [reflexivity|repeat constructor|now right|].
  exists r. split; auto. apply E; [repeat constructor|reflexivity].
Qed.
