(** * C37 (shape laws of batched vectors) and C38 (immutability). *)
From Coq Require Import List Bool ZArith Arith Lia.
From Verif Require Import Vectors Shapes ShapesThm.
Import ListNotations.
Open Scope nat_scope.

(** Specification: ShapesThm.v ([is_broadcast], [elem], [position], [valid]). *)

Section Props.
Context {A : Type} (checks : list (A -> bool)).
Notation cons_b := (constructed_b checks).
Implicit Types v w : bvec A.

(** ** Helpers *)
Lemma bret {T U} (x : T) (f : T -> res U) : bind (ret x) f = f x.
Proof. unfold bind, ret. destruct (f x); reflexivity. Qed.
Lemma fits_refl s : fits s s. Proof. split; auto. Qed.
Lemma shape_uniform w s : w <> [] -> (forall a, In a w -> ash a = s) -> v_shape w = ret s.
Proof.
  intros Hn H. apply broadcast_shapes_spec. split.
  - intros c Hc. apply in_map_iff in Hc as (a & <- & Ha). rewrite (H a Ha). apply fits_refl.
  - intros k n Hk. destruct w as [|a w]; [contradiction|]. exists (ash a). split; [now left|]. rewrite H; auto. now left.
Qed.
Lemma shape_fits v s a : v_shape v = ret s -> In a v -> fits (ash a) s.
Proof. intros H Ha. apply broadcast_shapes_spec in H as [H _]. apply H. now apply in_map. Qed.
Lemma shape_empty_nonempty v n s : v_shape v = ret (n :: s) -> v <> [].
Proof. intros H ->. discriminate. Qed.

Definition fullv v s : bvec A := map (fun a => broadcast_to a s) v.
Lemma bto_at (a : arr A) s idx : fits (ash a) s -> valid s idx -> adat (broadcast_to a s) idx = adat a (align (ash a) idx).
Proof. intros [Hf _] Hv. cbn [adat broadcast_to]. rewrite bidx_align; auto. rewrite (valid_length _ _ Hv); auto. Qed.

Lemma F2_map {T U} (P : T -> U -> Prop) (f : T -> U) l : (forall x, In x l -> P x (f x)) -> Forall2 P l (map f l).
Proof. induction l as [|x l IH]; intros H; cbn; constructor. apply H; now left. apply IH. intros; apply H; now right. Qed.

Lemma full_construct v s : cons_b v -> v_shape v = ret s -> construct_b checks (fullv v s) = ret (fullv v s).
Proof.
  intros Hc Hs. apply (constructed_sub checks v); auto. apply F2_map. intros a Ha idx Hv. cbn [ash broadcast_to] in Hv.
  pose proof (shape_fits v s a Hs Ha) as Hf. exists (align (ash a) idx). split; [now apply (align_valid _ s)|]. now apply bto_at.
Qed.
Lemma full_ok v s : cons_b v -> v_shape v = ret s -> full_shaped checks v = ret (fullv v s).
Proof. intros Hc Hs. unfold full_shaped. rewrite Hs, bret. exact (full_construct v s Hc Hs). Qed.
Lemma full_elem v s idx : v_shape v = ret s -> valid s idx -> map (fun c => adat c idx) (fullv v s) = elem v idx.
Proof.
  intros Hs Hv. unfold fullv, elem. rewrite map_map. apply map_ext_in. intros a Ha. apply bto_at; auto. eapply shape_fits; eauto.
Qed.
Lemma elem_uniform w s idx : (forall a, In a w -> ash a = s) -> valid s idx -> elem w idx = map (fun c => adat c idx) w.
Proof. intros H Hv. unfold elem. apply map_ext_in. intros a Ha. rewrite (H a Ha), align_self; auto. Qed.

(** A full-shape operation applied to every component *)
Lemma full_op v s (op : arr A -> res (arr A)) (g : arr A -> arr A) s' (ix : list nat -> list nat) :
  cons_b v -> v <> [] -> v_shape v = ret s ->
  (forall a, ash a = s -> op a = ret (g a) /\ ash (g a) = s' /\
     forall idx, valid s' idx -> adat (g a) idx = adat a (ix idx)) ->
  (forall idx, valid s' idx -> valid s (ix idx)) ->
  exists w, (do f <- full_shaped checks v; do l <- mapR op f; construct_b checks l) = ret w
    /\ cons_b w /\ v_shape w = ret s' /\ length w = length v
    /\ forall idx, valid s' idx -> elem w idx = elem v (ix idx).
Proof.
  intros Hc Hne Hs Hop Hix. rewrite (full_ok v s Hc Hs). rewrite ?bret.
  assert (Hsh : forall a, In a (fullv v s) -> ash a = s) by (intros a Ha; apply in_map_iff in Ha as (b & <- & _); reflexivity).
  rewrite (mapR_ok op g) by (intros a Ha; apply Hop; auto). rewrite ?bret.
  assert (Hw : construct_b checks (map g (fullv v s)) = ret (map g (fullv v s))).
  { apply (constructed_sub checks (fullv v s)); [apply full_construct; auto|]. apply F2_map.
    intros a Ha idx Hv. destruct (Hop a (Hsh a Ha)) as (_ & E & H). rewrite E in Hv. exists (ix idx).
    rewrite (Hsh a Ha). split; auto. }
  exists (map g (fullv v s)). rewrite Hw.
  assert (Hsh' : forall a, In a (map g (fullv v s)) -> ash a = s').
  { intros a Ha. apply in_map_iff in Ha as (b & <- & Hb). apply Hop; auto. }
  split; [reflexivity|]. split; [exact Hw|]. split; [|split].
  - apply shape_uniform; auto. destruct v; [contradiction|discriminate].
  - unfold fullv. now rewrite !map_length.
  - intros idx Hv. rewrite (elem_uniform _ s') by auto. rewrite map_map.
    rewrite <- (full_elem v s) by auto. apply map_ext_in. intros a Ha. apply Hop; auto.
Qed.

(** ** C37 *)

(** [v.shape] is the NumPy broadcast of the component shapes, and raises exactly if
    there is none. *)
Theorem C37_shape_is_broadcast v s : v_shape v = ret s <-> is_broadcast (v_shapes v) s.
Proof. apply broadcast_shapes_spec. Qed.
Theorem C37_shape_raises v : (forall s, ~ is_broadcast (v_shapes v) s) -> v_shape v = Raise EValue.
Proof. apply broadcast_shapes_raise. Qed.

(** [size], [ndim], [len] are those of the shape. *)
Theorem C37_size_ndim_len v s : v_shape v = ret s ->
  v_size v = ret (fold_right Nat.mul 1 s) /\ v_ndim v = ret (length s) /\ v_len v = ret (hd 0 s).
Proof. intros H. unfold v_size, v_ndim, v_len. rewrite H. destruct s; auto. Qed.

(** Broadcasting the components to full shape changes no element. *)
Theorem C37_full_shaped v s : cons_b v -> v <> [] -> v_shape v = ret s ->
  exists w, full_shaped checks v = ret w /\ cons_b w /\ v_shape w = ret s /\
    Forall (fun a => ash a = s) w /\ forall idx, valid s idx -> elem w idx = elem v idx.
Proof.
  intros Hc Hne Hs. exists (fullv v s).
  assert (Hsh : forall a, In a (fullv v s) -> ash a = s) by (intros a Ha; apply in_map_iff in Ha as (b & <- & _); reflexivity).
  split; [now apply full_ok|]. split; [now apply full_construct|]. split; [|split].
  - apply shape_uniform; auto. destruct v; [contradiction|discriminate].
  - now apply Forall_forall.
  - intros idx Hv. rewrite (elem_uniform _ s) by auto. now apply full_elem.
Qed.

(** Integer indexing: [v[i]] is the vector of the elements at [i] (negative [i] from
    the end) along the first axis. *)
Theorem C37_getitem v n s (i : Z) : cons_b v -> v_shape v = ret (n :: s) ->
  (- Z.of_nat n <= i < Z.of_nat n)%Z ->
  exists w, v_get checks v i = ret w /\ cons_b w /\ v_shape w = ret s /\
    forall idx, valid s idx -> elem w idx = elem v (Z.to_nat (if (i <? 0)%Z then i + Z.of_nat n else i) :: idx).
Proof.
  intros Hc Hs Hi. set (j := Z.to_nat (if (i <? 0)%Z then (i + Z.of_nat n)%Z else i)).
  assert (Hj : j < n) by (unfold j; destruct (Z.ltb_spec i 0); lia).
  assert (Hn : norm_index n i = j).
  { unfold norm_index, j. destruct (Z.ltb_spec i 0).
    - destruct (Z.ltb_spec (i + Z.of_nat n) 0); [lia|]. destruct (Z.leb_spec (Z.of_nat n) (i + Z.of_nat n)); [lia|]. reflexivity.
    - destruct (Z.ltb_spec i 0); [lia|]. destruct (Z.leb_spec (Z.of_nat n) i); [lia|]. reflexivity. }
  destruct (full_op v (n :: s) (fun a => arr_get a i) (fun a => mkArr s (fun idx => adat a (j :: idx))) s (fun idx => j :: idx))
    as (w & W1 & W2 & W3 & _ & W4); auto.
  - eapply shape_empty_nonempty; eauto.
  - intros a Ha. unfold arr_get. rewrite Ha, <- Hn. destruct n; [lia|]. auto.
  - intros idx Hv. constructor; auto.
  - exists w. auto.
Qed.
Theorem C37_getitem_scalar_raises v i : cons_b v -> v <> [] -> v_shape v = ret [] -> v_get checks v i = Raise EIndex.
Proof.
  intros Hc Hne Hs. unfold v_get. rewrite (full_ok v [] Hc Hs). rewrite ?bret.
  destruct v as [|a v]; [contradiction|]. reflexivity.
Qed.
Theorem C37_getitem_empty_raises v s i : cons_b v -> v_shape v = ret (0 :: s) -> v_get checks v i = Raise EIndex.
Proof.
  intros Hc Hs. unfold v_get. rewrite (full_ok v (0 :: s) Hc Hs). rewrite ?bret.
  pose proof (shape_empty_nonempty v 0 s Hs) as Hne. destruct v as [|a v]; [contradiction|]. reflexivity.
Qed.
(** Slicing [v[start:stop]]. *)
Theorem C37_slice v n s start stop : cons_b v -> v_shape v = ret (n :: s) ->
  exists w, v_slice checks v start stop = ret w /\ cons_b w /\
    v_shape w = ret (Nat.min stop n - Nat.min start n :: s) /\
    forall i idx, i < Nat.min stop n - Nat.min start n -> valid s idx -> elem w (i :: idx) = elem v (start + i :: idx).
Proof.
  intros Hc Hs.
  destruct (full_op v (n :: s) (fun a => arr_slice a start stop)
    (fun a => mkArr (Nat.min stop n - Nat.min start n :: s) (fun idx => match idx with i :: idx => adat a (start + i :: idx) | [] => adat a [] end))
    (Nat.min stop n - Nat.min start n :: s) (fun idx => match idx with i :: idx => start + i :: idx | [] => [] end))
    as (w & W1 & W2 & W3 & _ & W4); auto.
  - eapply shape_empty_nonempty; eauto.
  - intros a Ha. unfold arr_slice. rewrite Ha. split; [reflexivity|]. split; [reflexivity|]. intros [|i idx] _; reflexivity.
  - intros idx Hv. inversion Hv; subst. constructor; auto. lia.
  - exists w. split; auto. split; auto. split; auto. intros i idx Hi Hv. apply W4. now constructor.
Qed.

(** [v.reshape(s')] for a shape of the right size: shape [s'], and the element at any
    C-order position is the element of [v] at the same position. *)
Lemma resolve_pos s' size : resolve (map Z.of_nat s') size = Some s'.
Proof.
  unfold resolve. replace (filter _ (map Z.of_nat s')) with (@nil Z).
  - f_equal. rewrite map_map. rewrite <- map_id. apply map_ext. intros; apply Nat2Z.id.
  - symmetry. induction s' as [|x s' IH]; cbn; auto. destruct (Z.ltb_spec (Z.of_nat x) 0); [lia|]. exact IH.
Qed.
Lemma reshape_gen v s s' dims : cons_b v -> v <> [] -> v_shape v = ret s ->
  resolve dims (prod s) = Some s' -> prod s' = prod s ->
  exists w, v_reshape checks v dims = ret w /\ cons_b w /\ v_shape w = ret s' /\ length w = length v /\
    forall idx' idx, valid s' idx' -> valid s idx -> position s' idx' = position s idx -> elem w idx' = elem v idx.
Proof.
  intros Hc Hne Hs Hr Hp.
  destruct (full_op v s (fun a => arr_reshape a dims)
     (fun a => mkArr s' (fun idx => adat a (unravel_index s (ravel_index s' idx)))) s'
     (fun idx => unravel_index s (ravel_index s' idx))) as (w & W1 & W2 & W3 & W4 & W5); auto.
  - intros a Ha. unfold arr_reshape. rewrite Ha, Hr, (proj2 (Nat.eqb_eq _ _) Hp). auto.
  - intros idx Hv. apply unravel_valid. rewrite <- Hp. now apply ravel_lt.
  - exists w. split; auto. split; auto. split; auto. split; auto. intros idx' idx Hv' Hv E.
    rewrite W5 by auto. rewrite !position_ravel in E by auto. rewrite E, unravel_ravel; auto.
Qed.
Theorem C37_reshape v s s' : cons_b v -> v <> [] -> v_shape v = ret s ->
  fold_right Nat.mul 1 s' = fold_right Nat.mul 1 s ->
  exists w, v_reshape checks v (map Z.of_nat s') = ret w /\ cons_b w /\ v_shape w = ret s' /\
    forall idx' idx, valid s' idx' -> valid s idx -> position s' idx' = position s idx -> elem w idx' = elem v idx.
Proof.
  intros Hc Hne Hs Hp. destruct (reshape_gen v s s' (map Z.of_nat s') Hc Hne Hs (resolve_pos _ _) Hp) as (w & W1 & W2 & W3 & _ & W4).
  exists w; auto.
Qed.
(** A wrong size raises. *)
Theorem C37_reshape_wrong_size v s s' : cons_b v -> v <> [] -> v_shape v = ret s ->
  fold_right Nat.mul 1 s' <> fold_right Nat.mul 1 s -> v_reshape checks v (map Z.of_nat s') = Raise EType.
Proof.
  intros Hc Hne Hs Hp. unfold v_reshape. rewrite (full_ok v s Hc Hs). rewrite ?bret.
  destruct v as [|a v]; [contradiction|].
  rewrite (mapR_raise _ _ (broadcast_to a s) EType); [reflexivity|now left|].
  intros y Hy. apply in_map_iff in Hy as (b & <- & _). unfold arr_reshape. cbn [ash broadcast_to]. rewrite resolve_pos. unfold prod.
  now rewrite (proj2 (Nat.eqb_neq _ _) Hp).
Qed.
(** [v.reshape(-1)] is one-dimensional of the vector's size. *)
Theorem C37_reshape_minus_one v s : cons_b v -> v <> [] -> v_shape v = ret s ->
  exists w, v_reshape checks v [(-1)%Z] = ret w /\ cons_b w /\ v_shape w = ret [fold_right Nat.mul 1 s] /\
    forall k idx, valid s idx -> position s idx = k -> elem w [k] = elem v idx.
Proof.
  intros Hc Hne Hs.
  assert (Hr : resolve [(-1)%Z] (prod s) = Some [prod s]).
  { unfold resolve, known. cbn [filter Z.ltb Z.leb Z.compare map prod fold_right Z.eqb Pos.eqb negb andb Nat.eqb].
    rewrite Nat.mod_1_r, Nat.div_1_r. reflexivity. }
  destruct (reshape_gen v s [prod s] [(-1)%Z] Hc Hne Hs Hr) as (w & W1 & W2 & W3 & _ & W4).
  - unfold prod; cbn. lia.
  - exists w. split; auto. split; auto. split; auto. intros k idx Hv E. apply W4; auto.
    + constructor; [|constructor]. rewrite <- E. rewrite position_ravel by auto. now apply ravel_lt.
Qed.
(** Reshaping twice is reshaping once. *)
Theorem C37_reshape_twice v s s1 s2 : cons_b v -> v <> [] -> v_shape v = ret s ->
  fold_right Nat.mul 1 s1 = fold_right Nat.mul 1 s -> fold_right Nat.mul 1 s2 = fold_right Nat.mul 1 s ->
  exists w1 w12 w2, v_reshape checks v (map Z.of_nat s1) = ret w1 /\ v_reshape checks w1 (map Z.of_nat s2) = ret w12 /\
    v_reshape checks v (map Z.of_nat s2) = ret w2 /\ v_shape w12 = v_shape w2 /\
    forall idx, valid s2 idx -> elem w12 idx = elem w2 idx.
Proof.
  intros Hc Hne Hs H1 H2.
  destruct (reshape_gen v s s1 _ Hc Hne Hs (resolve_pos _ _) H1) as (w1 & A1 & A2 & A3 & A4 & A5).
  destruct (reshape_gen v s s2 _ Hc Hne Hs (resolve_pos _ _) H2) as (w2 & B1 & B2 & B3 & _ & B5).
  assert (Hne1 : w1 <> []) by (intros ->; destruct v; [contradiction|discriminate]).
  assert (H12 : prod s2 = prod s1) by (unfold prod in *; congruence).
  destruct (reshape_gen w1 s1 s2 _ A2 Hne1 A3 (resolve_pos _ _) H12) as (w12 & D1 & D2 & D3 & _ & D5).
  - exists w1, w12, w2. split; auto. split; auto. split; auto. split; [congruence|]. intros idx Hv.
    assert (L : ravel_index s2 idx < prod s1) by (unfold prod; rewrite H1, <- H2; now apply ravel_lt).
    assert (L' : ravel_index s2 idx < prod s) by (unfold prod; rewrite <- H2; now apply ravel_lt).
    pose proof (unravel_valid s1 _ L) as V1. pose proof (unravel_valid s _ L') as V0.
    rewrite (D5 idx (unravel_index s1 (ravel_index s2 idx))); auto.
    + rewrite (A5 _ (unravel_index s (ravel_index s2 idx))); auto.
      * symmetry. apply B5; auto. rewrite !position_ravel by auto. now rewrite ravel_unravel.
      * rewrite !position_ravel by auto. now rewrite !ravel_unravel.
    + rewrite !position_ravel by auto. now rewrite ravel_unravel.
Qed.

(** [T], [mT], [flatten] and [ravel] do the same provided all components already have
    the shape of the vector. *)
Definition uniform v s : Prop := v <> [] /\ forall a, In a v -> ash a = s.
Lemma plain_op v s (op : arr A -> res (arr A)) (g : arr A -> arr A) s' (ix : list nat -> list nat) :
  cons_b v -> uniform v s ->
  (forall a, ash a = s -> op a = ret (g a) /\ ash (g a) = s' /\
     forall idx, valid s' idx -> adat (g a) idx = adat a (ix idx)) ->
  (forall idx, valid s' idx -> valid s (ix idx)) ->
  exists w, (do l <- mapR op v; construct_b checks l) = ret w
    /\ cons_b w /\ v_shape w = ret s' /\ length w = length v
    /\ forall idx, valid s' idx -> elem w idx = elem v (ix idx).
Proof.
  intros Hc [Hne Hsh] Hop Hix.
  rewrite (mapR_ok op g) by (intros a Ha; apply Hop; auto). rewrite ?bret.
  assert (Hw : construct_b checks (map g v) = ret (map g v)).
  { apply (constructed_sub checks v); auto. apply F2_map.
    intros a Ha idx Hv. destruct (Hop a (Hsh a Ha)) as (_ & E & H). rewrite E in Hv. exists (ix idx).
    rewrite (Hsh a Ha). split; auto. }
  exists (map g v). rewrite Hw.
  assert (Hsh' : forall a, In a (map g v) -> ash a = s').
  { intros a Ha. apply in_map_iff in Ha as (b & <- & Hb). apply Hop; auto. }
  split; [reflexivity|]. split; [exact Hw|]. split; [|split].
  - apply shape_uniform; auto. destruct v; [contradiction|discriminate].
  - now rewrite map_length.
  - intros idx Hv. rewrite (elem_uniform _ s') by auto. rewrite map_map.
    rewrite (elem_uniform v s) by auto. apply map_ext_in. intros a Ha. apply Hop; auto.
Qed.
Theorem C37_T_uniform v s : cons_b v -> uniform v s ->
  exists w, v_T checks v = ret w /\ cons_b w /\ v_shape w = ret (rev s) /\
    forall idx, valid (rev s) idx -> elem w idx = elem v (rev idx).
Proof.
  intros Hc Hu.
  destruct (plain_op v s arr_T (fun a => mkArr (rev (ash a)) (fun idx => adat a (rev idx))) (rev s) (@rev nat))
    as (w & W1 & W2 & W3 & _ & W4); auto.
  - intros a <-. auto.
  - intros idx Hv. apply valid_rev in Hv. now rewrite rev_involutive in Hv.
  - exists w. auto.
Qed.
Theorem C37_mT_uniform v s m n : cons_b v -> uniform v (s ++ [m; n]) ->
  exists w, v_mT checks v = ret w /\ cons_b w /\ v_shape w = ret (s ++ [n; m]) /\
    forall idx i j, valid s idx -> i < m -> j < n -> elem w (idx ++ [j; i]) = elem v (idx ++ [i; j]).
Proof.
  intros Hc Hu.
  assert (Hsw : forall T (l : list T) a b, swap2 (l ++ [a; b]) = Some (l ++ [b; a])).
  { intros T l a b. unfold swap2. rewrite rev_app_distr. cbn. rewrite rev_involutive. now rewrite <- app_assoc. }
  destruct (plain_op v (s ++ [m; n]) arr_mT
     (fun a => mkArr (s ++ [n; m]) (fun idx => match swap2 idx with Some i => adat a i | None => adat a idx end)) (s ++ [n; m])
     (fun idx => match swap2 idx with Some i => i | None => idx end))
    as (w & W1 & W2 & W3 & _ & W4); auto.
  - intros a Ha. unfold arr_mT. rewrite Ha, Hsw. split; [reflexivity|]. split; [reflexivity|]. intros idx _. cbn [adat]. destruct (swap2 idx); reflexivity.
  - intros idx Hv. apply Forall2_app_inv_l in Hv as (i1 & i2 & H1 & H2 & ->).
    inversion H2 as [|? j ? l Hj H3]; subst. inversion H3 as [|? i ? l' Hi H4]; subst. inversion H4; subst.
    rewrite Hsw. apply Forall2_app; auto.
  - exists w. split; auto. split; auto. split; auto. intros idx i j Hv Hi Hj. rewrite W4.
    + now rewrite Hsw.
    + apply Forall2_app; auto.
Qed.
Theorem C37_mT_low_dimension_raises v s : uniform v s -> length s < 2 -> v_mT checks v = Raise EValue.
Proof.
  intros [Hne Hsh] Hl. unfold v_mT. destruct v as [|a v]; [contradiction|].
  rewrite (mapR_raise _ _ a EValue); [reflexivity|now left|]. intros y Hy. unfold arr_mT. rewrite (Hsh y Hy).
  destruct s as [|x [|y' s]]; cbn in Hl; try lia; reflexivity.
Qed.
Lemma flat_op v s : cons_b v -> uniform v s ->
  exists w, (do l <- mapR arr_flatten v; construct_b checks l) = ret w /\ cons_b w /\ v_shape w = ret [fold_right Nat.mul 1 s] /\
    forall k idx, valid s idx -> position s idx = k -> elem w [k] = elem v idx.
Proof.
  intros Hc Hu.
  destruct (plain_op v s arr_flatten (fun a => mkArr [prod s] (fun idx => adat a (unravel_index s (nth 0 idx 0)))) [prod s]
     (fun idx => unravel_index s (nth 0 idx 0))) as (w & W1 & W2 & W3 & _ & W4); auto.
  - intros a Ha. unfold arr_flatten. rewrite Ha. auto.
  - intros idx Hv. apply unravel_valid. inversion Hv as [|? i ? ? Hi]; subst. exact Hi.
  - exists w. split; auto. split; auto. split; auto. intros k idx Hv E. rewrite position_ravel in E by auto.
    rewrite W4.
    + cbn [nth]. now rewrite <- E, unravel_ravel.
    + constructor; [|constructor]. rewrite <- E. now apply ravel_lt.
Qed.
Theorem C37_flatten_uniform v s : cons_b v -> uniform v s ->
  exists w, v_flatten checks v = ret w /\ cons_b w /\ v_shape w = ret [fold_right Nat.mul 1 s] /\
    forall k idx, valid s idx -> position s idx = k -> elem w [k] = elem v idx.
Proof. apply flat_op. Qed.
Theorem C37_ravel_is_flatten v : v_ravel checks v = v_flatten checks v.
Proof. reflexivity. Qed.

(** Because JAX clamps integer indices, [v[k]] succeeds for every [k >= len(v)] and
    returns the last element; as vectors define no [__iter__], iterating over a
    non-scalar vector never stops. *)
Theorem C37_iteration_never_stops_refuted v n s : cons_b v -> v_shape v = ret (n :: s) -> 0 < n ->
  forall k : nat, exists w, v_get checks v (Z.of_nat k) = ret w /\ v_shape w = ret s /\
    (n <= k -> forall idx, valid s idx -> elem w idx = elem v (n - 1 :: idx)).
Proof.
  intros Hc Hs Hn k. set (j := if n <=? k then n - 1 else k).
  assert (Hj : j < n) by (unfold j; destruct (Nat.leb_spec n k); lia).
  assert (Hnn : norm_index n (Z.of_nat k) = j).
  { unfold norm_index, j. destruct (Z.ltb_spec (Z.of_nat k) 0); [lia|]. destruct (Z.ltb_spec (Z.of_nat k) 0); [lia|].
    destruct (Z.leb_spec (Z.of_nat n) (Z.of_nat k)), (Nat.leb_spec n k); try lia. }
  destruct (full_op v (n :: s) (fun a => arr_get a (Z.of_nat k)) (fun a => mkArr s (fun idx => adat a (j :: idx))) s (fun idx => j :: idx))
    as (w & W1 & W2 & W3 & _ & W4); auto.
  - eapply shape_empty_nonempty; eauto.
  - intros a Ha. unfold arr_get. rewrite Ha, <- Hnn. destruct n; [lia|]. auto.
  - intros idx Hv. constructor; auto.
  - exists w. split; auto. split; auto. intros Hk idx Hv. rewrite W4 by auto. unfold j.
    destruct (Nat.leb_spec n k); [reflexivity|lia].
Qed.

(** ** C38: item assignment always raises and leaves the vector as it was. *)
Theorem C38_immutable (I V : Type) v (index : I) (value : V) :
  v_set v index value = (Raise EType, v).
Proof. reflexivity. Qed.
End Props.

(** ** Refuted: [flatten] and [T] of vectors whose components have different shapes *)
Definition col (x y : nat) : arr nat := mkArr [2; 1] (fun idx => if nth 0 idx 0 =? 0 then x else y).
Definition row (x y : nat) : arr nat := mkArr [1; 2] (fun idx => if nth 1 idx 0 =? 0 then x else y).
(** [CartesianPos2D(x=[[1],[2]], y=[[3,4]])] has shape (2, 2) and size 4; its
    [flatten()] has shape (2,): two of the four points are lost. *)
Definition mixed : bvec nat := [col 1 2; row 3 4].
Theorem C37_flatten_refuted :
  constructed_b [] mixed /\ v_shape mixed = ret [2; 2] /\ v_size mixed = ret 4 /\
  exists w, v_flatten [] mixed = ret w /\ v_shape w = ret [2] /\ v_size w = ret 2 /\
    elem w [0] = [1; 3] /\ elem w [1] = [2; 4] /\ elem mixed [0; 1] = [1; 4].
Proof. repeat split. eexists. repeat split. Qed.
(** With lengths 2 and 3 the flattened vector has no shape at all. *)
Definition mixed' : bvec nat := [col 1 2; mkArr [1; 3] (fun _ => 0)].
Theorem C37_flatten_refuted' :
  constructed_b [] mixed' /\ v_shape mixed' = ret [2; 3] /\
  exists w, v_flatten [] mixed' = ret w /\ v_shape w = Raise EValue.
Proof. repeat split. eexists. repeat split. Qed.
(** [v.T] of a (2, 2) vector with a component of shape (2,): that component is not
    transposed, so the element at (0, 1) of [v.T] is not the element at (1, 0) of [v]. *)
Definition mixedT : bvec nat := [mkArr [2; 2] (fun idx => 2 * nth 0 idx 0 + nth 1 idx 0); mkArr [2] (fun idx => nth 0 idx 0)].
Theorem C37_T_refuted :
  constructed_b [] mixedT /\ v_shape mixedT = ret [2; 2] /\
  exists w, v_T [] mixedT = ret w /\ v_shape w = ret [2; 2] /\ elem w [0; 1] <> elem mixedT [1; 0].
Proof. repeat split. eexists. repeat split. vm_compute. discriminate. Qed.
(** [reshape] does broadcast first. *)
Example C37_example_reshape : exists w, v_reshape [] mixed [(-1)%Z] = ret w /\ v_shape w = ret [4] /\
  map (fun k => elem w [k]) [0; 1; 2; 3] = [[1; 3]; [1; 4]; [2; 3]; [2; 4]].
Proof. eexists. repeat split. Qed.
(** and with range checks (a radial component that must be non-negative, say) *)
Example C37_example_checked : constructed_b [fun n => 1 <=? n; fun _ => true] mixed /\
  exists w, v_get [fun n => 1 <=? n; fun _ => true] mixed (-1)%Z = ret w /\ elem w [0] = [2; 3].
Proof. repeat split. eexists. repeat split. Qed.

Print Assumptions C37_shape_is_broadcast.
Print Assumptions C37_reshape.
Print Assumptions C37_getitem.
Print Assumptions C37_mT_uniform.
Print Assumptions C37_iteration_never_stops_refuted.
