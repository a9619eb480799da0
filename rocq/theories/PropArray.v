(** * C41: arrays to Cartesian vectors and back. *)
From Coq Require Import List Bool ZArith Arith Lia.
From Verif Require Import Vectors Shapes ShapesThm PropShape Arrays.
Import ListNotations.
Open Scope nat_scope.

(** ** Specification *)
(** two arrays have the same shape and the same entries ([valid s idx]: the
    multi-index [idx] is within the shape [s], ShapesThm.v) *)
Definition same {A} (a b : arr A) : Prop :=
  ash a = ash b /\ forall idx, valid (ash a) idx -> adat a idx = adat b idx.
(** the last axis has length [n], the others are [s] *)
Definition has_shape {A} (a : arr A) (s : list nat) (n : nat) : Prop := ash a = s ++ [n].
(** [v] has shape [s], [n] components, and its component number [i] at the batch index
    [idx] is [f idx i] ([elem v idx]: all the components of [v] at [idx], after
    broadcasting) *)
Definition is_vector {A} (v : bvec A) (s : list nat) (n : nat) (f : list nat -> nat -> A) : Prop :=
  v_shape v = ret s /\ length v = n /\ forall idx, valid s idx -> elem v idx = map (f idx) (seq 0 n).
(** the classes with a conversion to an array *)
Definition convertible (c : acls) : Prop := c <> G3.
(** the classes whose [from_] checks the length of the last axis *)
Definition checked (c : acls) : bool :=
  match c with C2 APos | C2 AVel | C3 AAcc => true | _ => false end.

Section Props.
Context {A : Type}.
Implicit Types (a b : arr A) (v w : bvec A).

Lemma at_last_ok a s n i : has_shape a s n -> 0 < n ->
  at_last a i = ret (mkArr s (fun idx => adat a (idx ++ [Nat.min i (n - 1)]))).
Proof.
  intros H Hn. unfold at_last. rewrite H, rev_app_distr. cbn [rev app].
  destruct n; [lia|]. now rewrite rev_involutive.
Qed.
Definition comp_at a s n i : arr A := mkArr s (fun idx => adat a (idx ++ [Nat.min i (n - 1)])).
Lemma comps_ok a s n m : has_shape a s n -> 0 < n -> comps m a = ret (map (comp_at a s n) (seq 0 m)).
Proof. intros H Hn. unfold comps. apply mapR_ok. intros i _. now apply at_last_ok. Qed.
Lemma comp_vec a s n m : 0 < m ->
  is_vector (map (comp_at a s n) (seq 0 m)) s m (fun idx i => adat a (idx ++ [Nat.min i (n - 1)])).
Proof.
  intros Hm.
  assert (Hu : forall b, In b (map (comp_at a s n) (seq 0 m)) -> ash b = s)
    by (intros b Hb; apply in_map_iff in Hb as (i & <- & _); reflexivity).
  split; [|split].
  - apply shape_uniform; auto. destruct m; [lia|discriminate].
  - now rewrite map_length, seq_length.
  - intros idx Hv. rewrite (elem_uniform _ s) by auto. rewrite map_map. reflexivity.
Qed.
Lemma last_is_ok a s n m : has_shape a s n -> last_is m a = (n =? m).
Proof. intros H. unfold last_is. rewrite H, rev_app_distr. reflexivity. Qed.
Lemma atleast_ok a s n : has_shape a s n -> atleast_1d a = a.
Proof. intros H. unfold atleast_1d. rewrite H. destruct s; reflexivity. Qed.

Lemma from_ok c a s n : has_shape a s n -> 0 < n -> checked c = false \/ n = adim c ->
  from_array c a = ret (map (comp_at a s n) (seq 0 (adim c))).
Proof.
  intros H Hn Hc. assert (E : forall m, comps m a = ret (map (comp_at a s n) (seq 0 m))) by (intros; now apply comps_ok).
  destruct c as [k|k|k|]; cbn [from_array adim] in *.
  - rewrite (atleast_ok a s n H). apply E.
  - rewrite (last_is_ok a s n 2 H). destruct k; cbn in Hc; try (destruct Hc as [Hc|Hc]; [discriminate|subst n; apply E]). apply E.
  - rewrite (last_is_ok a s n 3 H). destruct k; cbn in Hc; try apply E. destruct Hc as [Hc|Hc]; [discriminate|subst n; apply E].
  - apply E.
Qed.
Lemma adim_pos c : 0 < adim c. Proof. destruct c; cbn; lia. Qed.

(** ** Component number [i] of [cls.from_(array)] is [array[..., i]]: the order is x, y, z. *)
Theorem C41_from_array_components c a s : has_shape a s (adim c) ->
  exists v, from_array c a = ret v /\ is_vector v s (adim c) (fun idx i => adat a (idx ++ [i])).
Proof.
  intros H. exists (map (comp_at a s (adim c)) (seq 0 (adim c))). split.
  - apply from_ok; auto. apply adim_pos.
  - destruct (comp_vec a s (adim c) (adim c) (adim_pos c)) as (H1 & H2 & H3). split; [|split]; auto.
    intros idx Hv. rewrite (H3 idx Hv). apply map_ext_in. intros i Hi. apply in_seq in Hi.
    do 3 f_equal. lia.
Qed.

(** ** Conversion to an array: [array[..., i]] is component number [i], broadcast. *)
Lemma valid_app s t idx jdx : valid s idx -> valid t jdx -> valid (s ++ t) (idx ++ jdx).
Proof. intros H1 H2. now apply Forall2_app. Qed.
Lemma valid_app_inv s n idx : valid (s ++ [n]) idx -> exists jdx i, idx = jdx ++ [i] /\ valid s jdx /\ i < n.
Proof.
  intros H. apply Forall2_app_inv_l in H as (l1 & l2 & H1 & H2 & ->). inversion H2; subst. inversion H5; subst.
  eauto.
Qed.
Lemma stack_ok v s : v <> [] -> (forall a, In a v -> ash a = s) ->
  exists a, stack_last v = ret a /\ has_shape a s (length v) /\
    forall idx i d, i < length v -> adat a (idx ++ [i]) = adat (nth i v d) idx.
Proof.
  intros Hn Hs. destruct v as [|a0 v]; [contradiction|]. unfold stack_last.
  replace (forallb _ (a0 :: v)) with true.
  2:{ symmetry. apply forallb_forall. intros b Hb. unfold shape_eqb. destruct list_eq_dec as [|n]; auto.
      exfalso. apply n. rewrite (Hs b Hb), (Hs a0); auto. now left. }
  eexists. split; [reflexivity|]. split.
  - unfold has_shape. cbn [ash]. rewrite (Hs a0); auto. now left.
  - intros idx i d Hi. cbn [adat]. rewrite last_last, removelast_last. f_equal. now apply nth_indep.
Qed.
Lemma to_ok c v s : convertible c -> length v = adim c -> v_shape v = ret s ->
  exists a, to_array c v = ret a /\ has_shape a s (adim c) /\
    forall idx, valid s idx -> map (fun i => adat a (idx ++ [i])) (seq 0 (adim c)) = elem v idx.
Proof.
  intros Hc Hl Hs.
  assert (Hne : v <> []) by (intros ->; destruct c; discriminate).
  assert (Hf : full_shaped [] v = ret (fullv v s)).
  { apply full_ok; auto. reflexivity. }
  assert (Hsh : forall a, In a (fullv v s) -> ash a = s) by (intros a Ha; apply in_map_iff in Ha as (b & <- & _); reflexivity).
  destruct (stack_ok (fullv v s) s) as (a & Ha & Hsa & Hat); auto.
  { destruct v; [contradiction|discriminate]. }
  assert (Hlen : length (fullv v s) = adim c) by (unfold fullv; now rewrite map_length).
  exists a. split; [|split].
  - replace (to_array c v) with (do f <- full_shaped [] v; stack_last f) by (destruct c; auto; now elim Hc).
    now rewrite Hf, bret.
  - now rewrite <- Hlen.
  - intros idx Hv. rewrite <- (full_elem v s idx Hs Hv).
    assert (G : forall (l : list (arr A)) k, k <= length (fullv v s) ->
       (forall i, k <= i < length (fullv v s) -> forall d, nth (i - k) l d = nth i (fullv v s) d) -> length l = length (fullv v s) - k ->
       map (fun i => adat a (idx ++ [i])) (seq k (length l)) = map (fun c => adat c idx) l).
    { induction l as [|b l IH]; intros k Hk Hnth Hll; [reflexivity|]. cbn [length seq map]. cbn [length] in Hll.
      f_equal.
      - rewrite (Hat idx k b) by lia. rewrite <- Hnth by lia. now rewrite Nat.sub_diag.
      - apply IH; [lia| |lia]. intros i Hi d. rewrite <- Hnth by lia. now replace (i - k) with (S (i - S k)) by lia. }
    rewrite <- Hlen. apply (G (fullv v s) 0); [lia| |lia]. intros. now rewrite Nat.sub_0_r.
Qed.
Theorem C41_to_array_components c v s : convertible c -> length v = adim c -> v_shape v = ret s ->
  exists a, to_array c v = ret a /\ has_shape a s (adim c) /\
    forall idx i d, valid s idx -> i < adim c -> adat a (idx ++ [i]) = nth i (elem v idx) d.
Proof.
  intros Hc Hl Hs. destruct (to_ok c v s Hc Hl Hs) as (a & H1 & H2 & H3). exists a. split; [|split]; auto.
  intros idx i d Hv Hi. rewrite <- (H3 idx Hv).
  rewrite (nth_indep _ d (adat a (idx ++ [0]))) by (rewrite map_length, seq_length; lia).
  rewrite (map_nth (fun i => adat a (idx ++ [i]))), seq_nth by lia. reflexivity.
Qed.

(** ** Array to vector to array *)
Theorem C41_array_round_trip c a s : convertible c -> has_shape a s (adim c) ->
  exists v b, from_array c a = ret v /\ to_array c v = ret b /\ same a b.
Proof.
  intros Hc Ha. destruct (C41_from_array_components c a s Ha) as (v & Hv & H1 & H2 & H3).
  destruct (to_ok c v s Hc H2 H1) as (b & Hb & Hsb & Hat). exists v, b. split; [|split]; auto.
  split; [congruence|]. intros idx Hi. rewrite Ha in Hi. apply valid_app_inv in Hi as (jdx & i & -> & Hj & Hi).
  specialize (Hat jdx Hj). rewrite (H3 jdx Hj) in Hat.
  assert (E : nth i (map (fun i => adat b (jdx ++ [i])) (seq 0 (adim c))) (adat b (jdx ++ [0])) = nth i (map (fun i => adat a (jdx ++ [i])) (seq 0 (adim c))) (adat b (jdx ++ [0])))
    by now rewrite Hat.
  rewrite (map_nth (fun i => adat b (jdx ++ [i]))), seq_nth in E by lia.
  rewrite (nth_indep _ _ (adat a (jdx ++ [0]))) in E by (rewrite map_length, seq_length; lia).
  rewrite (map_nth (fun i => adat a (jdx ++ [i]))), seq_nth in E by lia. cbn in E. now symmetry.
Qed.

(** ** Vector to array to vector: the result is the vector, broadcast. *)
Theorem C41_vector_round_trip c v s : convertible c -> length v = adim c -> v_shape v = ret s ->
  exists a w, to_array c v = ret a /\ from_array c a = ret w /\ v_shape w = ret s /\
    length w = adim c /\ forall idx, valid s idx -> elem w idx = elem v idx.
Proof.
  intros Hc Hl Hs. destruct (to_ok c v s Hc Hl Hs) as (a & Ha & Hsa & Hat).
  destruct (C41_from_array_components c a s Hsa) as (w & Hw & H1 & H2 & H3).
  exists a, w. repeat split; auto. intros idx Hv. rewrite (H3 idx Hv). now apply Hat.
Qed.

(** ** A wrong last axis *)
Theorem C41_wrong_length_raises c a : checked c = true -> (forall s, ~ has_shape a s (adim c)) ->
  exists e, from_array c a = Raise e.
Proof.
  intros Hc Hn. assert (L : last_is (adim c) a = false).
  { unfold last_is. destruct (rev (ash a)) as [|k l] eqn:E; auto. apply Nat.eqb_neq. intros ->.
    apply (Hn (rev l)). unfold has_shape. rewrite <- (rev_involutive (ash a)), E. reflexivity. }
  destruct c as [k|k|k|]; try discriminate; destruct k; try discriminate; cbn [from_array adim] in *; rewrite L; eauto.
Qed.

(** The other classes accept a wrong last axis.  If it is too long the rest is dropped ... *)
Theorem C41_long_array_accepted_refuted c a s n : checked c = false -> has_shape a s n -> adim c < n ->
  exists v, from_array c a = ret v /\ is_vector v s (adim c) (fun idx i => adat a (idx ++ [i])).
Proof.
  intros Hc Ha Hn. exists (map (comp_at a s n) (seq 0 (adim c))). split; [apply from_ok; auto; lia|].
  destruct (comp_vec a s n (adim c) (adim_pos c)) as (H1 & H2 & H3). split; [|split]; auto.
  intros idx Hv. rewrite (H3 idx Hv). apply map_ext_in. intros i Hi. apply in_seq in Hi. do 3 f_equal. lia.
Qed.
(** ... and if it is too short the last entry is used for all the missing components. *)
Theorem C41_short_array_accepted_refuted c a s n : checked c = false -> has_shape a s n -> 0 < n < adim c ->
  exists v, from_array c a = ret v /\
    is_vector v s (adim c) (fun idx i => adat a (idx ++ [if i <? n then i else n - 1])).
Proof.
  intros Hc Ha Hn. exists (map (comp_at a s n) (seq 0 (adim c))). split; [apply from_ok; auto; lia|].
  destruct (comp_vec a s n (adim c) (adim_pos c)) as (H1 & H2 & H3). split; [|split]; auto.
  intros idx Hv. rewrite (H3 idx Hv). apply map_ext_in. intros i Hi. apply in_seq in Hi. do 3 f_equal.
  destruct (Nat.ltb_spec i n); lia.
Qed.
(** For the 1-D classes, whose annotation says that an array of any batch shape is
    accepted, all numbers but the first along the last axis are lost. *)
Theorem C41_batch_1d_lost_refuted k a s n : has_shape a s n -> 1 < n ->
  exists v, from_array (C1 k) a = ret v /\ v_shape v = ret s /\
    forall b, to_array (C1 k) v = ret b -> ~ same a b.
Proof.
  intros Ha Hn. destruct (C41_long_array_accepted_refuted (C1 k) a s n eq_refl Ha Hn) as (v & Hv & H1 & H2 & H3).
  exists v. split; [|split]; auto. intros b Hb [Hs _].
  destruct (to_ok (C1 k) v s ltac:(discriminate) H2 H1) as (b' & Hb' & Hsb & _). rewrite Hb in Hb'.
  injection Hb' as <-. rewrite Ha, Hsb in Hs. apply app_inj_tail in Hs. cbn in Hs. lia.
Qed.
(** A scalar is accepted by the 1-D classes; the 2-D and 3-D ones raise. *)
Theorem C41_scalar c a : ash a = [] ->
  match c with
  | C1 _ => exists v, from_array c a = ret v /\ is_vector v [] 1 (fun _ _ => adat a [])
  | _ => exists e, from_array c a = Raise e
  end.
Proof.
  intros H. assert (E : forall i, at_last a i = Raise EIndex) by (intros i; unfold at_last; now rewrite H).
  assert (L : forall n, last_is n a = false) by (intros n; unfold last_is; now rewrite H).
  assert (Ec : forall m, 0 < m -> comps m a = Raise EIndex).
  { intros m Hm. unfold comps. apply (mapR_raise _ _ 0); auto. apply in_seq; lia. }
  destruct c as [k|k|k|]; try (destruct k; cbn [from_array]; rewrite ?L, ?Ec by lia; eauto; fail).
  - cbn [from_array]. assert (Hs : has_shape (atleast_1d a) [] 1) by (unfold has_shape, atleast_1d; now rewrite H).
    rewrite (comps_ok _ [] 1 1 Hs) by lia. eexists; split; [reflexivity|].
    destruct (comp_vec (atleast_1d a) [] 1 1 ltac:(lia)) as (H1 & H2 & H3). split; [|split]; auto.
    intros idx Hv. rewrite (H3 idx Hv). cbn. unfold atleast_1d. now rewrite H.
  - cbn [from_array]. rewrite Ec by lia. eauto.
Qed.
(** [from_] of any 3-D class, also a non-Cartesian one, gives a Cartesian vector. *)
Theorem C41_from_array_any_3d_class k a s : has_shape a s 3 ->
  exists v, from_array3 k a = ret (C3 k, v) /\ is_vector v s 3 (fun idx i => adat a (idx ++ [i])).
Proof.
  intros Ha. destruct (C41_from_array_components (C3 k) a s Ha) as (v & Hv & H). exists v. split; auto.
  unfold from_array3. now rewrite Hv, bret.
Qed.
End Props.

(** ** Concrete cases: a (2, 3)-array; a position with broadcast components *)
Definition mat : arr nat := mkArr [2; 3] (fun idx => 10 * nth 0 idx 0 + nth 1 idx 0).
Example C41_case_array : convertible (C3 APos) /\ has_shape mat [2] (adim (C3 APos)). Proof. split; [discriminate|reflexivity]. Qed.
Definition bpos : bvec nat := [mkArr [2; 1] (fun idx => nth 0 idx 0); mkArr [] (fun _ => 7)].
Example C41_case_vector : convertible (C2 AVel) /\ length bpos = adim (C2 AVel) /\ v_shape bpos = ret [2; 1].
Proof. split; [discriminate|]. split; reflexivity. Qed.
Example C41_case_wrong : checked (C2 APos) = true /\ forall s, ~ has_shape mat s (adim (C2 APos)).
Proof. split; [reflexivity|]. intros s H. unfold has_shape in H. cbn [ash mat adim] in H.
  change [2; 3] with ([2] ++ [3]) in H. apply app_inj_tail in H. lia. Qed.
Example C41_case_short : checked (C2 AAcc) = false /\ has_shape (mkArr [5; 1] (fun idx => nth 0 idx 0)) [5] 1 /\ 0 < 1 < adim (C2 AAcc).
Proof. repeat split; auto. Qed.

Print Assumptions C41_from_array_components.
Print Assumptions C41_to_array_components.
Print Assumptions C41_array_round_trip.
Print Assumptions C41_vector_round_trip.
Print Assumptions C41_wrong_length_raises.
Print Assumptions C41_long_array_accepted_refuted.
Print Assumptions C41_short_array_accepted_refuted.
Print Assumptions C41_batch_1d_lost_refuted.
Print Assumptions C41_scalar.
Print Assumptions C41_from_array_any_3d_class.
