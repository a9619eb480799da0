(** * C72: arithmetic and equality of arrays of Cartesian vectors.

    Specification vocabulary: [is_index] (index into a shape), [is_broadcast] (numpy's
    broadcasting), [align] (the index read after broadcasting), [elem v idx] (the
    components of the vector at index [idx]), [lax_compatible] (what [jax.lax] can
    broadcast).  A vector with component arrays [v] has shape [s] when
    [is_broadcast (v_shapes v) s]. *)
From Coq Require Import Reals List Bool Arith Lia.
From Verif Require Import Num Vectors Shapes ShapesThm Batch BatchThm BatchOps Arrays VelArith BatchArith.
From Verif Require Import PropBatchOps.
Import ListNotations.
Open Scope nat_scope.
Local Notation is_index := ShapesThm.valid.

(** component by component *)
Definition zip2 {T U V} (f : T -> U -> V) (a : list T) (b : list U) : list V := map (fun '(x, y) => f x y) (combine a b).

(** ** Shapes *)
Lemma fits_trans a b c : fits a b -> fits b c -> fits a c.
Proof. rewrite !fits_fitsr. apply fitsr_trans. Qed.
Lemma bidx_bidx a s idx : fitsr a s -> length s <= length idx -> bidx a (bidx s idx) = bidx a idx.
Proof.
  revert s idx. induction a as [|x a IH]; intros s idx F L; [reflexivity|].
  destruct s as [|y s]; [destruct F as [F _]; cbn in F; lia|]. destruct idx as [|i idx]; [cbn in L; lia|].
  apply fitsr_cons in F as [E F]. cbn in L. cbn [bidx]. f_equal; [|apply IH; [exact F|lia]].
  destruct (Nat.eqb_spec x 1); auto. destruct E as [|<-]; [contradiction|]. destruct (Nat.eqb_spec x 1); [contradiction|reflexivity].
Qed.
Lemma length_bidx s idx : length s <= length idx -> length (bidx s idx) = length s.
Proof. revert idx. induction s as [|x s IH]; intros [|i idx] L; cbn in *; try lia. rewrite IH; lia. Qed.
(** reading through two broadcasts *)
Lemma align_align a s idx : fits a s -> length s <= length idx -> align a (align s idx) = align a idx.
Proof.
  intros F L. pose proof F as [La _]. rewrite <- (bidx_align s idx) by exact L.
  rewrite <- (bidx_align a (rev (bidx (rev s) (rev idx)))).
  2:{ rewrite rev_length, length_bidx; rewrite !rev_length; lia. }
  rewrite rev_involutive, bidx_bidx. rewrite bidx_align by lia. reflexivity. now apply fits_fitsr. rewrite !rev_length. exact L.
Qed.
Lemma axis_lt s k : k < length s -> exists n, axis s k = Some n.
Proof.
  intros H. unfold axis. destruct (nth_error (rev s) k) eqn:E; eauto. apply nth_error_None in E. rewrite rev_length in E. lia.
Qed.
Lemma axis_some s k n : axis s k = Some n -> k < length s.
Proof. unfold axis. intros H. rewrite <- rev_length. apply nth_error_Some. congruence. Qed.
(** the broadcast is the least shape that all fit *)
Lemma broadcast_least l t s : is_broadcast l t -> (forall c, In c l -> fits c s) -> fits t s.
Proof.
  intros [_ G] F. split.
  - destruct t as [|x t]; [cbn; lia|]. destruct (axis_lt (x :: t) (length t)) as [n E]; [cbn; lia|].
    destruct (G _ _ E) as (c & Hc & Ec). apply axis_some in Ec. destruct (F c Hc) as [L _]. cbn. lia.
  - intros k n E. destruct (G _ _ E) as (c & Hc & Ec). exact (proj2 (F c Hc) k n Ec).
Qed.

(** ** Zipping *)
Lemma F2_length {T U} (P : T -> U -> Prop) l l' : Forall2 P l l' -> length l = length l'.
Proof. induction 1; cbn; auto. Qed.
Lemma zipR_map {T U V} (f : T -> U -> res V) v w : length v = length w -> zipR f v w = mapR (fun '(a, b) => f a b) (combine v w).
Proof. revert w. induction v as [|a v IH]; intros [|b w] L; cbn in *; try discriminate; auto. rewrite IH by lia. reflexivity. Qed.
Lemma zipR_gives {T U V} (f : T -> U -> res V) v w r : length v = length w ->
  gives (zipR f v w) r <-> Forall2 (fun '(a, b) c => gives (f a b) c) (combine v w) r.
Proof.
  intros L. rewrite zipR_map by auto. rewrite gives_mapR. split; intros H.
  - induction H as [|[] ? ? ? ? ? IH]; constructor; auto.
  - induction H as [|[] ? ? ? ? ? IH]; constructor; auto.
Qed.
Lemma bs_ret l w s : broadcast_shapes l = Ok w s -> broadcast_shapes l = ret s.
Proof. unfold broadcast_shapes. destruct (bcall _); unfold ret; congruence. Qed.
Lemma lax_ret a b w s : lax_shapes a b = Ok w s -> lax_shapes a b = ret s.
Proof.
  unfold lax_shapes. destruct (match a, b with [], _ | _, [] => true | _, _ => _ end); [|discriminate].
  destruct (broadcast_shapes [a; b]) as [w' s'|] eqn:E; [|discriminate]. rewrite (bs_ret _ _ _ E) in E. unfold ret in *. congruence.
Qed.
Lemma lax_zip_gives {T U V} (f : T -> U -> V) a b c : gives (lax_zip f a b) c <->
  exists s, lax_compatible (ash a) (ash b) /\ is_broadcast [ash a; ash b] s /\
    c = mkArr s (fun idx => f (adat (broadcast_to a s) idx) (adat (broadcast_to b s) idx)).
Proof.
  unfold lax_zip. rewrite gives_bind. split.
  - intros (s & [w H] & E). apply gives_ret in E as <-. apply lax_ret in H. apply lax_shapes_spec in H as [C H]. eauto.
  - intros (s & C & H & ->). exists s. split; [|now apply gives_ret]. exists false. now apply lax_shapes_spec.
Qed.
Lemma np_zip_gives {T U V} (f : T -> U -> V) a b c : gives (np_zip f a b) c <->
  exists s, is_broadcast [ash a; ash b] s /\
    c = mkArr s (fun idx => f (adat (broadcast_to a s) idx) (adat (broadcast_to b s) idx)).
Proof.
  unfold np_zip. rewrite gives_bind. split.
  - intros (s & [w H] & E). apply gives_ret in E as <-. apply bs_ret in H. apply broadcast_shapes_spec in H. eauto.
  - intros (s & H & ->). exists s. split; [|now apply gives_ret]. exists false. now apply broadcast_shapes_spec.
Qed.
(** both give: shape the broadcast, entries [f] of the entries *)
Definition zipped {T U V} (f : T -> U -> V) (a : arr T) (b : arr U) (c : arr V) : Prop :=
  is_broadcast [ash a; ash b] (ash c) /\
  forall idx, length (ash c) <= length idx -> adat c (align (ash c) idx) = f (adat a (align (ash a) idx)) (adat b (align (ash b) idx)).
Lemma zipped_mk {T U V} (f : T -> U -> V) a b s : is_broadcast [ash a; ash b] s ->
  zipped f a b (mkArr s (fun idx => f (adat (broadcast_to a s) idx) (adat (broadcast_to b s) idx))).
Proof.
  intros B. split; [exact B|]. cbn [ash adat]. intros idx L. cbn [broadcast_to adat].
  assert (La : length (align s idx) = length s). { rewrite <- bidx_align by exact L. rewrite rev_length, length_bidx; rewrite !rev_length; lia. }
  assert (Fa : fits (ash a) s) by (apply B; cbn; auto). assert (Fb : fits (ash b) s) by (apply B; cbn; auto).
  rewrite !bidx_align by (rewrite La; first [apply Fa | apply Fb]). now rewrite !align_align.
Qed.
Lemma zF_nil {T U V} (P : T -> U -> V -> Prop) (w : list U) r : Forall2 (fun '(a, b) c => P a b c) (combine [] w) r -> r = [].
Proof. cbn. intros H. now inversion H. Qed.
Lemma zF_cons {T U V} (P : T -> U -> V -> Prop) a v b w r : Forall2 (fun '(a, b) c => P a b c) (combine (a :: v) (b :: w)) r ->
  exists c r', r = c :: r' /\ P a b c /\ Forall2 (fun '(a, b) c => P a b c) (combine v w) r'.
Proof. cbn [combine]. intros H. inversion H as [|? c ? r' K F]; subst. eauto. Qed.
Lemma zip_elem {T U V} (f : T -> U -> V) (v : list (arr T)) (w : list (arr U)) (r : list (arr V)) sv sw s :
  length v = length w -> Forall2 (fun '(a, b) c => zipped f a b c) (combine v w) r ->
  is_broadcast (map ash v) sv -> is_broadcast (map ash w) sw -> is_broadcast [sv; sw] s ->
  length r = length v /\ is_broadcast (map ash r) s /\
  forall idx, is_index s idx -> elem r idx = zip2 f (elem v (align sv idx)) (elem w (align sw idx)).
Proof.
  intros L F Bv Bw Bs.
  assert (Fv : forall c, In c (map ash v) -> fits c s) by (intros c Hc; apply (fits_trans c sv); [now apply Bv|apply Bs; cbn; auto]).
  assert (Fw : forall c, In c (map ash w) -> fits c s) by (intros c Hc; apply (fits_trans c sw); [now apply Bw|apply Bs; cbn; auto]).
  assert (Lr : length r = length v). { rewrite <- (F2_length _ _ _ F), combine_length, <- L. lia. }
  assert (Fr : forall c, In c (map ash r) -> fits c s).
  { clear -F Fv Fw L. revert w r L F Fw. induction v as [|a v IH]; intros [|b w] r L F Fw; cbn in L; try discriminate; [apply zF_nil in F as ->; intros c0 []|].
    apply zF_cons in F as (c & r' & -> & [B _] & F'). intros c0 [<-|H].
    - apply (broadcast_least _ _ _ B). intros c1 [<-|[<-|[]]]; [apply Fv|apply Fw]; cbn; auto.
    - apply (IH (fun c H => Fv c (or_intror H)) w r'); auto. intros c1 H1. apply Fw. now right. }
  refine (conj Lr (conj (conj Fr _) _)).
  - intros k n E. destruct Bs as [_ G]. destruct (G k n E) as (c & Hc & Ec).
    assert (X : exists d t, In t (map ash r) /\ fits d t /\ axis d k = Some n).
    { destruct Hc as [<-|[<-|[]]]; [destruct Bv as [_ G']|destruct Bw as [_ G']]; destruct (G' k n Ec) as (d & Hd & Ed); exists d.
      - clear -Hd Ed F L. revert w r L F. induction v as [|a v IH]; intros [|b w] r L F; cbn in L; try discriminate; [destruct Hd|].
        apply zF_cons in F as (c & r' & -> & [B _] & F'). destruct Hd as [<-|Hd].
        + exists (ash c). repeat split; cbn; auto; apply B; cbn; auto.
        + destruct (IH Hd w r') as (t & H1 & H2); auto. exists t. split; [now right|exact H2].
      - clear -Hd Ed F L. revert v r L F. induction w as [|a v IH]; intros [|b w] r L F; cbn in L; try discriminate; [destruct Hd|].
        apply zF_cons in F as (c & r' & -> & [B _] & F'). destruct Hd as [<-|Hd].
        + exists (ash c). repeat split; cbn; auto; apply B; cbn; auto.
        + destruct (IH Hd w r') as (t & H1 & H2); auto. exists t. split; [now right|exact H2]. }
    destruct X as (d & t & Ht & Fd & Ed). exists t. split; [exact Ht|].
    destruct (proj2 Fd k n Ed) as [->|X]; [|exact X].
    destruct (axis_lt t k) as [m Em]. { apply axis_some in Ed. destruct Fd. lia. }
    destruct (proj2 (Fr t Ht) k m Em) as [->|X]; congruence.
  - intros idx VI. pose proof (valid_length _ _ VI) as Li.
    assert (Lv : length sv <= length idx) by (rewrite Li; apply Bs; cbn; auto).
    assert (Lw : length sw <= length idx) by (rewrite Li; apply Bs; cbn; auto).
    assert (Ev : elem v (align sv idx) = elem v idx). { apply map_ext_in. intros a Ha. f_equal. apply align_align; auto. apply Bv. now apply in_map. }
    assert (Ew : elem w (align sw idx) = elem w idx). { apply map_ext_in. intros a Ha. f_equal. apply align_align; auto. apply Bw. now apply in_map. }
    rewrite Ev, Ew. clear -F L Fr Li. revert w r L F Fr. induction v as [|a v IH]; intros [|b w] r L F Fr; cbn in L; try discriminate; [apply zF_nil in F as ->; reflexivity|].
    apply zF_cons in F as (c & r' & -> & [B Z] & F').
    unfold zip2 in *. cbn [elem map combine]. f_equal.
    + apply Z. rewrite Li. apply Fr. cbn; auto.
    + apply IH; auto. intros c1 H1. apply Fr. now right.
Qed.
Lemma lax_zipped {T U V} (f : T -> U -> V) v w r : length v = length w -> gives (zipR (lax_zip f) v w) r -> Forall2 (fun '(a, b) c => zipped f a b c) (combine v w) r.
Proof.
  intros L H. apply zipR_gives in H; auto. induction H as [|[a b] c l r H _ IH]; constructor; auto.
  apply lax_zip_gives in H as (s & _ & B & ->). now apply zipped_mk.
Qed.

(** ** Sums and differences *)
(** The element at every index is the sum (difference) of the elements there, the arrays
    broadcast against each other. *)
Theorem C72_sum_elementwise : forall k n v w r sv sw s,
  length v = n -> length w = n -> is_broadcast (v_shapes v) sv -> is_broadcast (v_shapes w) sw -> is_broadcast [sv; sw] s ->
  (gives (cart_sum k n v w) r -> length r = n /\ is_broadcast (v_shapes r) s /\
     forall idx, is_index s idx -> elem r idx = zip2 nadd (elem v (align sv idx)) (elem w (align sw idx))) /\
  (gives (cart_diff k n v w) r -> length r = n /\ is_broadcast (v_shapes r) s /\
     forall idx, is_index s idx -> elem r idx = zip2 nsub (elem v (align sv idx)) (elem w (align sw idx))).
Proof.
  intros k n v w r sv sw s <- Lw Bv Bw Bs. unfold v_shapes in *. split; intros H.
  - apply (zip_elem nadd v w r sv sw s); auto. now apply lax_zipped.
  - unfold cart_diff in H. destruct (has_sub _ _); [|now apply gives_raise in H]. apply (zip_elem nsub v w r sv sw s); auto. now apply lax_zipped.
Qed.
Print Assumptions C72_sum_elementwise.

(** which operands are accepted *)
Definition summable (v w : bvec ext) : Prop :=
  Forall2 (fun a b => lax_compatible (ash a) (ash b) /\ exists s, is_broadcast [ash a; ash b] s) v w.
Lemma lax_zip_dec {T U V} (f : T -> U -> V) a b :
  (exists c, gives (lax_zip f a b) c) \/ (lax_zip f a b = Raise EType /\ ~ (lax_compatible (ash a) (ash b) /\ exists s, is_broadcast [ash a; ash b] s)).
Proof.
  unfold lax_zip. destruct (lax_shapes (ash a) (ash b)) as [w s|e] eqn:E.
  - left. eexists. apply gives_bind. exists s. split; [now exists w|]. now apply gives_ret.
  - right. split.
    + unfold lax_shapes in E. destruct (match ash a, ash b with [], _ | _, [] => true | _, _ => _ end); [destruct (broadcast_shapes _); [discriminate|]|]; injection E as <-; reflexivity.
    + intros (C & s & B). assert (K : lax_shapes (ash a) (ash b) = ret s) by (now apply lax_shapes_spec). rewrite K in E. discriminate.
Qed.
Lemma zip_succeeds {T} (f : T -> T -> T) v w : length v = length w ->
  let P := Forall2 (fun a b : arr T => lax_compatible (ash a) (ash b) /\ exists s, is_broadcast [ash a; ash b] s) v w in
  (P -> exists r, gives (zipR (lax_zip f) v w) r) /\ (~ P -> zipR (lax_zip f) v w = Raise EType).
Proof.
  cbv zeta. revert w. induction v as [|a v IH]; intros [|b w] L; cbn in L; try discriminate.
  - split; [intros _; exists []; now apply gives_ret|]. intros N. exfalso. apply N. constructor.
  - assert (L' : length v = length w) by lia. destruct (IH w L') as [I1 I2]. cbn [zipR]. split.
    + intros H. inversion H as [|? ? ? ? (C & s & B) H']; subst. destruct (I1 H') as [r Hr]. eexists. apply gives_bind. eexists. split; [apply lax_zip_gives; eauto|].
      apply gives_bind. exists r. split; auto. now apply gives_ret.
    + intros N. destruct (lax_zip_dec f a b) as [[c Hc]|[E _]]; [|now rewrite E]. destruct Hc as [x Hc]. rewrite Hc. cbn [bind].
      rewrite I2. reflexivity. intros H. apply N. constructor; auto.
      assert (G : gives (lax_zip f a b) c) by (now exists x). apply lax_zip_gives in G as (s & C & B & _). eauto.
Qed.
(** The Cartesian classes with a difference: positions, CartesianVel3D, CartesianAcc1D,
    CartesianAcc3D; with a product with a number: all but CartesianVel3D and CartesianAcc3D. *)
Definition subtractable (k : ckind) (n : nat) : Prop :=
  k = KPos \/ (k, n) = (KVel, 3) \/ (k, n) = (KAcc, 1) \/ (k, n) = (KAcc, 3).
Definition scalable (k : ckind) (n : nat) : Prop := k = KPos \/ n <> 3.
Lemma has_sub_spec k n : has_sub k n = true <-> subtractable k n.
Proof.
  unfold subtractable. split.
  - destruct k; auto; destruct n as [|[|[|[|n]]]]; cbn; intros E; try discriminate E; auto.
  - intros [-> |[E|[E|E]]]; [reflexivity|..]; injection E as -> ->; reflexivity.
Qed.
Lemma has_mul_spec k n : has_mul k n = true <-> scalable k n.
Proof.
  unfold scalable. split.
  - destruct k; auto; destruct n as [|[|[|[|n]]]]; cbn; intros E; try discriminate E; right; lia.
  - intros [-> |N]; [reflexivity|]. destruct k; auto; destruct n as [|[|[|[|n]]]]; auto; now destruct N.
Qed.
Lemma not_true b : b = false <-> ~ b = true. Proof. destruct b; split; congruence. Qed.
(** A sum is computed exactly when every pair of components has a scalar or equal ranks,
    and broadcasts; otherwise TypeError.  The same for differences, where a rule exists. *)
Theorem C72_sum_succeeds : forall k n v w, length v = n -> length w = n ->
  (summable v w -> (exists r, gives (cart_sum k n v w) r) /\ (subtractable k n -> exists r, gives (cart_diff k n v w) r)) /\
  (~ summable v w -> cart_sum k n v w = Raise EType /\ (subtractable k n -> cart_diff k n v w = Raise EType)) /\
  (~ subtractable k n -> cart_diff k n v w = Raise ERuntime).
Proof.
  intros k n v w <- L. rewrite <- has_sub_spec, <- not_true. unfold cart_sum, cart_diff. destruct (zip_succeeds nadd v w (eq_sym L)) as [A1 A2]. destruct (zip_succeeds nsub v w (eq_sym L)) as [S1 S2].
  refine (conj _ (conj _ _)).
  - intros H. split; [auto|]. intros ->. auto.
  - intros H. split; [auto|]. intros ->. auto.
  - intros ->. reflexivity.
Qed.
Print Assumptions C72_sum_succeeds.
(** in particular for batches of the same shape, and a single vector with any batch *)
Theorem C72_sum_of_same_shape : forall k n v w s, length v = n -> length w = n ->
  Forall (fun a => ash a = s) v -> Forall (fun b => ash b = s \/ ash b = []) w ->
  exists r, gives (cart_sum k n v w) r /\ Forall (fun c => ash c = s) r /\
    forall idx, is_index s idx -> elem r idx = zip2 nadd (elem v idx) (elem w idx).
Proof.
  intros k n v w s <- L Fv Fw. assert (S : forall a, is_broadcast [s; a] s <-> fits a s).
  { intros a. split; [intros B; apply B; cbn; auto|]. intros F. split; [intros c [<-|[<-|[]]]; auto; apply fits_refl|]. intros i x E. exists s. cbn. auto. }
  assert (Z : zipR (lax_zip nadd) v w = ret (zip2 (fun a b => mkArr s (fun idx => nadd (adat (broadcast_to a s) idx) (adat (broadcast_to b s) idx))) v w)).
  { revert w L Fw. induction Fv as [|a v Ea Fv IH]; intros [|b w] L Fw; cbn in L; try discriminate; [reflexivity|].
    inversion Fw as [|? ? Eb Fw']; subst. cbn [zipR]. rewrite IH by (auto; lia). unfold lax_zip.
    assert (K : lax_shapes (ash a) (ash b) = ret (ash a)).
    { apply lax_shapes_spec. split; [destruct Eb as [->| ->]; [right; right; reflexivity|right; left; reflexivity]|]. apply S. destruct Eb as [->| ->]; [apply fits_refl|]. split; [cbn; lia|]. intros i x E. destruct i; discriminate. }
    rewrite K. reflexivity. }
  eexists. split; [unfold cart_sum; rewrite Z; now apply gives_ret|]. split.
  - clear. unfold zip2. apply Forall_forall. intros c Hc. apply in_map_iff in Hc as ([a b] & <- & _). reflexivity.
  - intros idx V. clear Z. unfold zip2, elem. revert w L Fw. induction Fv as [|a v Ea Fv IH]; intros [|b w] L Fw; cbn in L; try discriminate; [reflexivity|].
    inversion Fw as [|? ? Eb Fw']; subst. cbn [map combine]. f_equal; [|apply IH; auto; lia]. cbn [ash adat broadcast_to].
    rewrite (align_self (ash a) idx V). pose proof (valid_length _ _ V) as Li. rewrite !bidx_align; [now rewrite (align_self (ash a) idx V)| |]; rewrite Li; [destruct Eb as [->| ->]; cbn; lia|lia].
Qed.
Print Assumptions C72_sum_of_same_shape.

(** non-vacuity: two vectors with x of shape (2,), y a scalar, plus three rows *)
Definition iota : list nat -> ext := fun i => Some (INR (nth 0 i 0)).
Definition vx : bvec ext := [mkArr [1; 2] iota; mkArr [] (fun _ => Some 5%R)].
Definition wx : bvec ext := [mkArr [3; 1] iota; mkArr [3; 1] iota].
Example C72_sum_case : is_broadcast (v_shapes vx) [1; 2] /\ is_broadcast (v_shapes wx) [3; 1] /\ is_broadcast [[1; 2]; [3; 1]] [3; 2] /\ summable vx wx.
Proof.
  refine (conj _ (conj _ (conj _ _))); try (apply broadcast_shapes_spec; reflexivity).
  constructor; [|constructor; [|constructor] ]; split.
  - right. right. reflexivity. - exists [3; 2]. now apply broadcast_shapes_spec. - left; reflexivity. - exists [3; 1]. now apply broadcast_shapes_spec.
Qed.

(** Finding: batches of different ranks, neither of them a single vector, cannot be added,
    although numpy broadcasts them. *)
Theorem C72_finding_no_rank_promotion : forall k n v w sv sw, length v = n -> length w = n -> n <> 0 ->
  Forall (fun a => ash a = sv) v -> Forall (fun b => ash b = sw) w -> sv <> [] -> sw <> [] -> length sv <> length sw ->
  cart_sum k n v w = Raise EType.
Proof.
  intros k n v w sv sw Lv Lw N Fv Fw Nv Nw Nl. apply (C72_sum_succeeds k n v w Lv Lw). intros H.
  destruct v as [|a v]; [cbn in Lv; congruence|]. destruct w as [|b w]; [cbn in Lw; congruence|].
  inversion Fv; inversion Fw; subst. inversion H as [|? ? ? ? ([C|[C|C]] & _) _]; subst; congruence.
Qed.
Print Assumptions C72_finding_no_rank_promotion.
Example C72_rank_case : is_broadcast [[2; 3]; [3]] [2; 3] /\ [2; 3] <> [] /\ [3] <> [] /\ length [2; 3] <> length [3].
Proof. refine (conj _ (conj _ (conj _ _))); try discriminate. now apply broadcast_shapes_spec. Qed.
(** Finding: a sum may be computed although the two batches do not broadcast; the result
    then has no shape: [.shape] raises. *)
Theorem C72_finding_sum_without_shape : forall k (d e : ext) (m n : nat), m <> 1 -> n <> 1 -> m <> n ->
  let v := [mkArr [m] (fun _ => d); mkArr [] (fun _ => d)] in
  let w := [mkArr [] (fun _ => e); mkArr [n] (fun _ => e)] in
  v_shape v = ret [m] /\ v_shape w = ret [n] /\ (forall s, ~ is_broadcast [[m]; [n]] s) /\
  exists r, gives (cart_sum k 2 v w) r /\ v_shape r = Raise EValue.
Proof.
  intros k d e m n Nm Nn Nmn v w.
  assert (NB : broadcast_shapes [[m]; [n]] = Raise EValue).
  { unfold broadcast_shapes. cbn. unfold bc1. destruct (Nat.eqb_spec m n); [contradiction|]. destruct (Nat.eqb_spec m 1); [contradiction|]. destruct (Nat.eqb_spec n 1); [contradiction|reflexivity]. }
  refine (conj _ (conj _ (conj _ _))).
  - unfold v_shape, broadcast_shapes. reflexivity.
  - unfold v_shape, broadcast_shapes. reflexivity.
  - intros s B. apply broadcast_shapes_spec in B. rewrite B in NB. discriminate.
  - eexists. split; [exists false; reflexivity|]. exact NB.
Qed.
Print Assumptions C72_finding_sum_without_shape.

(** ** Negation, product with a number *)
Theorem C72_negation_elementwise : forall v s, is_broadcast (v_shapes v) s ->
  is_broadcast (v_shapes (cart_neg v)) s /\ forall idx, elem (cart_neg v) idx = map nneg (elem v idx).
Proof.
  intros v s B. unfold v_shapes, cart_neg, elem in *. rewrite map_map. cbn [ash]. split; [exact B|]. intros idx. now rewrite !map_map.
Qed.
Print Assumptions C72_negation_elementwise.
(** a product is computed exactly for a number (or an array without axes of positive
    length), where a rule is registered *)
Theorem C72_scale_elementwise : forall k n (c : ext) v, scalable k n ->
  exists r, gives (cart_scale k n (mkArr [] (fun _ => c)) v) r /\ v_shapes r = v_shapes v /\
    forall idx, (forall s, In s (v_shapes v) -> length s <= length idx) -> elem r idx = map (nmul c) (elem v idx).
Proof.
  intros k n c v E. apply has_mul_spec in E. unfold cart_scale. rewrite E. cbn [ash any_axis existsb].
  assert (K : mapR (np_zip nmul (mkArr [] (fun _ : list nat => c))) v = ret (map (fun a => mkArr (ash a) (fun idx => nmul c (adat (broadcast_to a (ash a)) idx))) v)).
  { apply mapR_ok. intros a _. unfold np_zip. assert (B : broadcast_shapes [ash (mkArr [] (fun _ : list nat => c)); ash a] = ret (ash a)).
    { apply broadcast_shapes_spec. split; [intros x [<-|[<-|[]]]; [split; [cbn; lia|intros [] ?; discriminate]|apply fits_refl]|]. intros i x Ei. exists (ash a). cbn; auto. }
    rewrite B. reflexivity. }
  rewrite K. eexists. split; [now apply gives_ret|]. unfold v_shapes. rewrite map_map. cbn [ash]. split; [reflexivity|].
  intros idx V. unfold elem. rewrite !map_map. apply map_ext_in. intros a Ha. cbn [ash adat broadcast_to].
  assert (L : length (ash a) <= length idx) by (apply V; now apply in_map).
  assert (La : length (align (ash a) idx) = length (ash a)). { rewrite <- bidx_align by exact L. rewrite rev_length, length_bidx; rewrite !rev_length; lia. }
  rewrite bidx_align by lia. rewrite align_align; auto. apply fits_refl.
Qed.
Print Assumptions C72_scale_elementwise.
Theorem C72_scale_needs_a_number : forall k n (c : arr ext) v, (exists x, In x (ash c) /\ x <> 0) \/ ~ scalable k n ->
  cart_scale k n c v = Raise ERuntime.
Proof.
  intros k n c v H. rewrite <- has_mul_spec, <- not_true in H. unfold cart_scale. destruct (has_mul k n); [|reflexivity]. destruct H as [(x & Hx & Nx)|]; [|discriminate].
  replace (any_axis (ash c)) with true; [reflexivity|]. symmetry. apply existsb_exists. exists x. split; auto. now apply negb_true_iff, Nat.eqb_neq.
Qed.
Print Assumptions C72_scale_needs_a_number.

(** ** Division by an array *)
(** [q / a] divides the components of every element by the entry there, with numpy's
    broadcasting; the constructor's checks hold for every component of the result. *)
Theorem C72_division_elementwise : forall checks v a r sv s,
  is_broadcast (v_shapes v) sv -> is_broadcast [sv; ash a] s -> v <> [] ->
  gives (pos_divide checks v a) r ->
  length r = length v /\ is_broadcast (v_shapes r) s /\ constructed_b checks r /\
  forall idx, is_index s idx -> elem r idx = map (fun x => ndiv x (adat a (align (ash a) idx))) (elem v (align sv idx)).
Proof.
  intros checks v a r sv s Bv Bs NV H. unfold pos_divide in H. apply gives_bind in H as (l & Hl & Hr).
  assert (E : l = r /\ constructed_b checks l). { unfold constructed_b, construct_b in *. destruct (forallb _ _); [apply gives_ret in Hr as <-; auto|now apply gives_raise in Hr]. }
  destruct E as [<- Cl]. apply gives_mapR in Hl.
  assert (F : Forall2 (fun '(x, b) c => zipped ndiv x b c) (combine v (repeat a (length v))) l).
  { clear -Hl. induction Hl as [|x c v l H _ IH]; cbn [length repeat combine]; constructor; auto. apply np_zip_gives in H as (s & B & ->). now apply zipped_mk. }
  assert (Bw : is_broadcast (map ash (repeat a (length v))) (ash a)).
  { split. - intros c Hc. apply in_map_iff in Hc as (b & <- & Hb). apply repeat_spec in Hb as ->. apply fits_refl.
    - intros k x E. exists (ash a). split; [|exact E]. apply in_map. destruct v; [congruence|]. now left. }
  destruct (zip_elem ndiv v (repeat a (length v)) l sv (ash a) s) as (E1 & E2 & E3); auto. now rewrite repeat_length.
  refine (conj E1 (conj E2 (conj Cl _))). intros idx V. rewrite E3 by exact V. unfold zip2, elem.
  assert (G : align (ash a) (align (ash a) idx) = align (ash a) idx). { apply align_align; [apply fits_refl|]. rewrite (valid_length _ _ V). apply Bs. cbn; auto. }
  clear -G. induction v as [|x v IH]; cbn [length repeat map combine]; [reflexivity|]. f_equal; [now rewrite G|exact IH].
Qed.
Print Assumptions C72_division_elementwise.
(** It succeeds for Cartesian positions of every shape that broadcasts with the array
    component by component; if a component does not broadcast, it raises. *)
Theorem C72_division_succeeds : forall v a,
  (Forall (fun c => exists s, is_broadcast [ash c; ash a] s) v -> exists r, gives (pos_divide [] v a) r) /\
  (forall checks, ~ Forall (fun c => exists s, is_broadcast [ash c; ash a] s) v -> exists e, pos_divide checks v a = Raise e).
Proof.
  intros v a. split.
  - intros H. destruct (mapR_total (fun c => np_zip ndiv c a) v) as [l Hl].
    { intros c Hc. rewrite Forall_forall in H. destruct (H c Hc) as [s B]. eexists. apply np_zip_gives. eauto. }
    exists l. apply gives_bind. exists l. split; auto. unfold construct_b. cbn. now apply gives_ret.
  - intros checks N. destruct (pos_divide checks v a) as [w r|e] eqn:E; [|eauto]. exfalso. apply N.
    assert (G : gives (pos_divide checks v a) r) by (now exists w). apply gives_bind in G as (l & Hl & _). apply gives_mapR in Hl.
    clear -Hl. induction Hl as [|c d v l H _ IH]; constructor; auto. apply np_zip_gives in H as (s & B & _). eauto.
Qed.
Print Assumptions C72_division_succeeds.

(** ** Equality *)
Lemma shape_eqb_spec s t : shape_eqb s t = true <-> s = t.
Proof. unfold shape_eqb. destruct list_eq_dec; split; auto; discriminate. Qed.
Lemma stack_gives l r : gives (stack l) r <-> l <> [] /\ exists s, Forall (fun b => ash b = s) l /\ r = mkArr s (fun idx => map (fun b => adat b idx) l).
Proof.
  destruct l as [|a l]; cbn [stack].
  - split; [intros H; now apply gives_raise in H|]. intros [H _]. congruence.
  - destruct (forallb _ l) eqn:E.
    + rewrite gives_ret. assert (F : Forall (fun b => ash b = ash a) (a :: l)). { constructor; auto. apply Forall_forall. rewrite forallb_forall in E. intros b Hb. now apply shape_eqb_spec, E. }
      split; [intros <-; split; [discriminate|]; eauto|]. intros (_ & s & F' & ->). inversion F'; subst. reflexivity.
    + split; [intros H; now apply gives_raise in H|]. intros (_ & s & F & _). inversion F as [|? ? E1 F']; subst. exfalso.
      assert (K : forallb (fun b => shape_eqb (ash b) (ash a)) l = true). { apply forallb_forall. intros b Hb. apply shape_eqb_spec. rewrite Forall_forall in F'. auto. }
      congruence.
Qed.
(** both vectors finite, and equal component by component *)
Definition same (x y : list ext) : Prop := exists l : list R, x = map Some l /\ y = map Some l.
Lemma neqb_same (x y : ext) : neqb x y = true <-> exists r : R, x = Some r /\ y = Some r.
Proof.
  destruct x as [x|], y as [y|]; cbn; try (split; [discriminate|]; intros (r & E1 & E2); discriminate).
  unfold Reqb. destruct (Req_EM_T x y) as [->|N]; split; eauto; try discriminate. intros (r & E1 & E2). congruence.
Qed.
Lemma same_cons x y l l' : same (x :: l) (y :: l') <-> neqb x y = true /\ same l l'.
Proof.
  rewrite neqb_same. split.
  - intros ([|r t] & E1 & E2); [discriminate|]. injection E1 as -> ->. injection E2 as -> ->. split; [eauto|]. now exists t.
  - intros ((r & -> & ->) & t & -> & ->). now exists (r :: t).
Qed.
Lemma zip2_same x y : length x = length y -> forallb (fun b => b) (zip2 neqb x y) = true <-> same x y.
Proof.
  revert y. unfold zip2. induction x as [|a x IH]; intros [|b y] L; cbn in L; try discriminate.
  - split; auto. intros _. now exists [].
  - cbn [combine map forallb]. rewrite andb_true_iff, IH by lia. now rewrite same_cons.
Qed.
(** [v == w] is an array, of the shape the two broadcast to, telling at every index
    whether the two vectors there are equal; it is computed exactly when all pairs of
    components broadcast to one shape. *)
Theorem C72_equality_elementwise : forall v w r sv sw s, length v = length w ->
  is_broadcast (v_shapes v) sv -> is_broadcast (v_shapes w) sw -> is_broadcast [sv; sw] s ->
  gives (vec_equal v w) r -> ash r = s /\
  forall idx, is_index s idx -> (adat r idx = true <-> same (elem v (align sv idx)) (elem w (align sw idx))).
Proof.
  intros v w r sv sw s L Bv Bw Bs H. unfold vec_equal in H. apply gives_bind in H as (l & Hl & H). apply gives_bind in H as (t & Ht & H). apply gives_ret in H as <-.
  apply stack_gives in Ht as (NE & s' & F & ->). cbn [ash adat]. apply zipR_gives in Hl; auto.
  assert (Z : Forall2 (fun '(a, b) c => zipped neqb a b c) (combine v w) l).
  { clear -Hl. induction Hl as [|[a b] c x l H _ IH]; constructor; auto. apply np_zip_gives in H as (s & B & ->). now apply zipped_mk. }
  destruct (zip_elem neqb v w l sv sw s L Z Bv Bw Bs) as (E1 & E2 & E3).
  assert (Es : s' = s). { apply (broadcast_unique (map ash l)); [|exact E2]. split.
    - intros c Hc. apply in_map_iff in Hc as (b & <- & Hb). rewrite Forall_forall in F. rewrite (F b Hb). apply fits_refl.
    - intros k x E. destruct l as [|b l]; [congruence|]. exists s'. split; auto. left. inversion F; auto. }
  subst s'. split; auto. intros idx V. rewrite <- zip2_same by (unfold elem; now rewrite !map_length). rewrite <- E3 by exact V. unfold elem.
  replace (map (fun c => adat c (align (ash c) idx)) l) with (map (fun b => adat b idx) l); [reflexivity|].
  apply map_ext_in. intros b Hb. rewrite Forall_forall in F. rewrite (F b Hb). now rewrite align_self.
Qed.
Print Assumptions C72_equality_elementwise.
Theorem C72_equality_succeeds : forall v w, length v = length w ->
  ((exists r, gives (vec_equal v w) r) <-> v <> [] /\ exists s, Forall2 (fun a b => is_broadcast [ash a; ash b] s) v w).
Proof.
  intros v w L. unfold vec_equal. split.
  - intros [r H]. apply gives_bind in H as (l & Hl & H). apply gives_bind in H as (t & Ht & _). apply stack_gives in Ht as (NE & s & F & _).
    apply zipR_gives in Hl; auto. split. { intros ->. inversion Hl; subst. congruence. }
    exists s. clear NE. revert w l L Hl F. induction v as [|a v IH]; intros [|b w] l L Hl F; cbn in L; try discriminate; constructor.
    + inversion Hl as [|? c ? l' H Hl']; subst. apply np_zip_gives in H as (s' & B & ->). inversion F; subst. exact B.
    + inversion Hl as [|? c ? l' H Hl']; subst. inversion F; subst. apply (IH w l'); auto.
  - intros (NE & s & F).
    assert (E : exists l, gives (zipR (np_zip neqb) v w) l /\ Forall (fun b => ash b = s) l /\ length l = length v).
    { clear NE. induction F as [|a b v w B F IH]; cbn in L.
      - exists []. split; [now apply gives_ret|]. split; [constructor|reflexivity].
      - destruct IH as (l & Hl & Fl & Ll); [lia|]. eexists (_ :: l). split; [|split; [constructor; [|exact Fl]|cbn; f_equal; exact Ll]].
        + cbn [zipR]. apply gives_bind. eexists. split; [apply np_zip_gives; exists s; split; [exact B|reflexivity]|]. apply gives_bind. exists l. split; auto. now apply gives_ret.
        + reflexivity. }
    destruct E as (l & Hl & Fl & Ll). eexists. apply gives_bind. exists l. split; auto. apply gives_bind. eexists. split; [|now apply gives_ret].
    apply stack_gives. split; [intros ->; destruct v; [congruence|discriminate]|]. eauto.
Qed.
Print Assumptions C72_equality_succeeds.
(** Finding: a vector whose components have different shapes cannot even be compared with
    itself; this includes every array of prolate spheroidal positions, whose Delta is
    compared as one more component, of shape (). *)
Theorem C72_finding_self_comparison : forall v,
  ((exists r, gives (vec_equal v v) r) <-> v <> [] /\ exists s, Forall (fun a => ash a = s) v) /\
  (v <> [] -> ~ (exists s, Forall (fun a => ash a = s) v) -> exists e, vec_equal v v = Raise e).
Proof.
  intros v. assert (K : (exists r, gives (vec_equal v v) r) <-> v <> [] /\ exists s, Forall (fun a => ash a = s) v).
  { rewrite C72_equality_succeeds by reflexivity. assert (S : forall a s, is_broadcast [a; a] s <-> a = s).
    { intros a s. assert (B : is_broadcast [a; a] a). { split; [intros c [<-|[<-|[]]]; apply fits_refl|]. intros k x E. exists a. cbn; auto. }
      split; [intros B'; exact (broadcast_unique _ _ _ B B')|]. intros <-. exact B. }
    split; intros (NE & s & F); split; auto; exists s.
    - clear NE. induction v as [|a v IH]; [constructor|]. inversion F; subst. constructor; auto. now apply S.
    - clear NE. induction F; constructor; auto. now apply S. }
  split; [exact K|]. intros NE N. destruct (vec_equal v v) as [w r|e] eqn:E; [|eauto]. exfalso. apply N. apply K. exists r. now exists w.
Qed.
Print Assumptions C72_finding_self_comparison.
Theorem C72_finding_prolate_batches : forall (mu nu phi : arr ext) (Delta : ext) s, s <> [] ->
  ash mu = s -> ash nu = s -> ash phi = s ->
  exists e, vec_equal [mu; nu; phi; mkArr [] (fun _ => Delta)] [mu; nu; phi; mkArr [] (fun _ => Delta)] = Raise e.
Proof.
  intros mu nu phi D s N E1 E2 E3. apply C72_finding_self_comparison; [discriminate|]. intros (t & F). inversion F as [|? ? Ea F1]; subst.
  inversion F1 as [|? ? _ F2]; subst. inversion F2 as [|? ? _ F3]; subst. inversion F3 as [|? ? Eb _]; subst. cbn in Eb. congruence.
Qed.
Print Assumptions C72_finding_prolate_batches.
(** non-vacuity: three rows against themselves *)
Example C72_equality_case : exists r, gives (vec_equal wx wx) r /\ ash r = [3; 1] /\ adat r [2; 0] = true.
Proof.
  assert (B : is_broadcast (v_shapes wx) [3; 1]) by (apply broadcast_shapes_spec; reflexivity).
  assert (B2 : is_broadcast [[3; 1]; [3; 1]] [3; 1]) by (apply broadcast_shapes_spec; reflexivity).
  destruct (proj2 (proj1 (C72_finding_self_comparison wx))) as [r Hr]. { split; [discriminate|]. exists [3; 1]. repeat constructor. }
  exists r. split; auto. destruct (C72_equality_elementwise wx wx r _ _ _ eq_refl B B B2 Hr) as [E K]. split; auto.
  apply K; [repeat constructor|]. exists [2; 2]%R. split; cbn; repeat f_equal; reflexivity.
Qed.
