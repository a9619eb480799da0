(** * C45: N-dimensional Cartesian vectors (CartesianPosND, CartesianVelND, CartesianAccND). *)
From Coq Require Import List Bool ZArith Arith Lia Reals Lra.
From Verif Require Import Num Vectors Shapes ShapesThm PropShape Arrays PropArray.
Import ListNotations.
Open Scope nat_scope.

(** ** Specification: an N-dimensional vector of shape [s] is a function from the batch
    indices of [s] to [N] numbers. *)
Definition is_nd {A} (v : ndvec A) (s : list nat) (N : nat) (f : list nat -> nat -> A) : Prop :=
  ash v = s ++ [N] /\ nd_shape v = s /\ forall idx i, valid s idx -> i < N -> adat v (idx ++ [i]) = f idx i.

Section Props.
Context {A : Type}.
Implicit Types (v w : ndvec A) (a : arr A).

Lemma nd_intro v s N f : ash v = s ++ [N] -> (forall idx i, valid s idx -> i < N -> adat v (idx ++ [i]) = f idx i) -> is_nd v s N f.
Proof. intros H1 H2. split; auto. split; auto. unfold nd_shape. rewrite H1. apply removelast_last. Qed.

(** ** Arrays: [from_(array)] keeps an array as it is; a scalar gives one component;
    [convert] gives the array back. *)
Theorem C45_from_array a s N : ash a = s ++ [N] ->
  exists v, nd_from a = ret v /\ is_nd v s N (fun idx i => adat a (idx ++ [i])) /\ nd_to_array v = ret a.
Proof.
  intros H. exists a. unfold nd_from. rewrite (atleast_ok a s N H). split; auto. split; auto. now apply nd_intro.
Qed.
Theorem C45_from_scalar a : ash a = [] ->
  exists v, nd_from a = ret v /\ is_nd v [] 1 (fun _ _ => adat a []).
Proof.
  intros H. exists (mkArr [1] (fun _ => adat a [])). unfold nd_from, atleast_1d. rewrite H. split; auto.
  apply nd_intro; auto.
Qed.
(** Converting to an UncheckedQuantity (or AbstractQuantity) instead of a Quantity gives
    an array with a spurious last axis of length 1. *)
Theorem C45_unchecked_extra_axis_refuted v s N f : is_nd v s N f ->
  exists a, nd_to_array_unchecked v = ret a /\ ash a = s ++ [N; 1] /\
    forall idx i, valid s idx -> i < N -> adat a (idx ++ [i; 0]) = f idx i.
Proof.
  intros (H1 & _ & H2). unfold nd_to_array_unchecked.
  assert (Hs : v_shape [v] = ret (s ++ [N])).
  { apply shape_uniform; [discriminate|]. intros b [<-|[]]. exact H1. }
  rewrite (full_ok [] [v] (s ++ [N]) eq_refl Hs), bret.
  destruct (stack_ok (fullv [v] (s ++ [N])) (s ++ [N])) as (a & Ha & Hsa & Hat); [discriminate|..].
  { intros b [<-|[]]. reflexivity. }
  exists a. split; auto. split; [rewrite Hsa; now rewrite <- app_assoc|].
  intros idx i Hv Hi. change [i; 0] with ([i] ++ [0]). rewrite app_assoc.
  assert (Hvi : valid (s ++ [N]) (idx ++ [i])) by (apply valid_app; auto; constructor; auto).
  rewrite (Hat _ 0 v) by (cbn; lia). cbn [nth fullv map].
  rewrite bto_at; auto; [|rewrite H1; apply fits_refl]. rewrite H1, align_self by auto. now apply H2.
Qed.

(** ** Transposition *)
Lemma index_of_in k l : In k l -> nth (index_of k l) l 0 = k /\ index_of k l < length l.
Proof.
  induction l as [|x l IH]; [easy|]. intros H. cbn [index_of]. destruct (Nat.eqb_spec k x) as [->|Hn].
  - split; [reflexivity|cbn;lia].
  - destruct H as [->|H]; [congruence|]. destruct (IH H). cbn. split; auto. lia.
Qed.
Lemma index_of_nth l j : NoDup l -> j < length l -> index_of (nth j l 0) l = j.
Proof.
  intros Hd Hj. destruct (index_of_in (nth j l 0) l) as (E & H). { now apply nth_In. }
  rewrite NoDup_nth in Hd. apply (Hd _ _ H Hj E).
Qed.
Lemma perm_ok axes n : length axes = n -> (forall k, k < n -> In k axes) -> perm_of_range axes n = true.
Proof.
  intros H1 H2. unfold perm_of_range. rewrite H1, Nat.eqb_refl. apply forallb_forall. intros k Hk.
  apply in_seq in Hk. apply existsb_exists. exists k. split; [apply H2; lia|apply Nat.eqb_refl].
Qed.
(** the transposed array, entry by entry: entry [idx] of the result is entry [jdx] of the
    argument where [jdx[axes[k]] = idx[k]] *)
Lemma transpose_ok a axes : NoDup axes -> length axes = length (ash a) -> (forall k, k < length (ash a) -> In k axes) ->
  exists b, transpose a axes = ret b /\ ash b = map (fun k => nth k (ash a) 0) axes /\
    forall idx jdx, length jdx = length (ash a) -> length idx = length (ash a) -> (forall k, k < length (ash a) -> nth (nth k axes 0) jdx 0 = nth k idx 0) ->
      adat b idx = adat a jdx.
Proof.
  intros Hd Hl Hin. unfold transpose. rewrite perm_ok by auto. eexists. split; [reflexivity|]. split; [reflexivity|].
  intros idx jdx Hj Hi Hk. cbn [adat]. f_equal. apply (nth_ext _ _ 0 0).
  - now rewrite map_length, seq_length.
  - intros k Hkl. rewrite map_length, seq_length in Hkl.
    rewrite (nth_indep _ 0 ((fun k => nth (index_of k axes) idx 0) 0)) by (now rewrite map_length, seq_length).
    rewrite (map_nth (fun k => nth (index_of k axes) idx 0)). rewrite seq_nth by auto. cbn [plus].
    destruct (index_of_in k axes (Hin k Hkl)) as (E & H).
    rewrite <- (Hk (index_of k axes)) by lia. now rewrite E.
Qed.

Lemma NoDup_axes_T n : NoDup (rev (seq 0 n) ++ [n]).
Proof.
  pose proof (NoDup_rev (seq_NoDup n 0)) as H. apply (NoDup_Add (a := n) (l := rev (seq 0 n))).
  - rewrite <- (app_nil_r (rev (seq 0 n))) at 1. apply Add_app.
  - split; auto. rewrite <- in_rev, in_seq. lia.
Qed.
(** [v.T] reverses the batch axes and leaves the component axis alone. *)
Theorem C45_T v s N f : is_nd v s N f ->
  exists w, nd_T v = ret w /\ is_nd w (rev s) N (fun idx i => f (rev idx) i).
Proof.
  intros (H1 & H0 & H2). unfold nd_T, nd_ndim. rewrite H0. set (n := length s).
  assert (Hlen : length (ash v) = S n) by (rewrite H1, app_length; cbn; subst n; lia).
  destruct (transpose_ok v (rev (seq 0 n) ++ [n])) as (w & Hw & Hs & Hat).
  - apply NoDup_axes_T.
  - rewrite app_length, rev_length, seq_length, Hlen. cbn. lia.
  - intros k Hk. rewrite Hlen in Hk. apply in_app_iff. destruct (Nat.eq_dec k n) as [->|]; [right; now left|left].
    rewrite <- in_rev, in_seq. lia.
  - exists w. split; auto. apply nd_intro.
    + rewrite Hs, map_app, map_rev. cbn [map]. f_equal.
      * f_equal. rewrite H1. apply (nth_ext _ _ 0 0); [now rewrite map_length, seq_length|].
        intros k Hk. rewrite map_length, seq_length in Hk.
        rewrite (nth_indep _ 0 ((fun k => nth k (s ++ [N]) 0) 0)) by (now rewrite map_length, seq_length).
        rewrite (map_nth (fun k => nth k (s ++ [N]) 0)), seq_nth by auto. now rewrite app_nth1.
      * f_equal. rewrite H1, app_nth2 by (subst n; lia). subst n. now rewrite Nat.sub_diag.
    + intros idx i Hv Hi. pose proof (valid_rev _ _ Hv) as Hv'. rewrite rev_involutive in Hv'.
      pose proof (valid_length _ _ Hv') as Hl. rewrite rev_length in Hl.
      rewrite (Hat (idx ++ [i]) (rev idx ++ [i])). 
      * apply H2; auto.
      * rewrite app_length, rev_length, Hlen. cbn. lia.
      * rewrite app_length, Hlen. cbn. lia.
      * rewrite Hlen. intros k Hk. destruct (Nat.eq_dec k n) as [->|Hkn].
        -- assert (En : nth n (rev (seq 0 n) ++ [n]) 0 = n).
           { rewrite app_nth2 by (rewrite rev_length, seq_length; lia). now rewrite rev_length, seq_length, Nat.sub_diag. }
           rewrite En. rewrite !app_nth2 by (rewrite ?rev_length; fold n in Hl; lia). rewrite rev_length. reflexivity.
        -- assert (k < n) by lia. rewrite (app_nth1 (rev (seq 0 n))) by (rewrite rev_length, seq_length; lia).
           rewrite rev_nth by (rewrite seq_length; lia). rewrite seq_length, seq_nth by lia.
           rewrite !app_nth1 by (rewrite ?rev_length; fold n in Hl; lia).
           rewrite rev_nth by (fold n in Hl; lia). f_equal. fold n in Hl. lia.
Qed.

(** [v.mT] of a matrix of vectors *)
Theorem C45_mT_matrix v m n N f : is_nd v [m; n] N f ->
  exists w, nd_mT v = ret w /\ is_nd w [n; m] N (fun idx i => f [nth 1 idx 0; nth 0 idx 0] i).
Proof.
  intros (H1 & H0 & H2). unfold nd_mT, nd_ndim. rewrite H0. cbn [length Nat.ltb Nat.leb Nat.sub seq app].
  cbn [app] in H1.
  destruct (transpose_ok v [1; 0; 2]) as (w & Hw & Hs & Hat).
  - repeat constructor; cbn; intuition lia.
  - now rewrite H1.
  - rewrite H1. cbn [length]. intros k Hk. cbn. lia.
  - exists w. split; auto. apply nd_intro; [rewrite Hs, H1; reflexivity|].
    intros idx i Hv Hi. inversion Hv as [|? a0 ? l Ha Hl]; subst. inversion Hl as [|? b0 ? l' Hb Hl']; subst. inversion Hl'; subst.
    cbn [app nth]. rewrite (Hat _ ([b0; a0] ++ [i])).
    + apply H2; auto. repeat constructor; auto.
    + now rewrite H1.
    + now rewrite H1.
    + rewrite H1. cbn [length]. intros k Hk. destruct k as [|[|[|]]]; cbn; auto; lia.
Qed.
(** [v.mT] raises for less than two batch axes, as it must, but also for three and
    more, where the last two should be swapped. *)
Theorem C45_mT_low_raises v s N f : is_nd v s N f -> length s < 2 -> nd_mT v = Raise ERuntime.
Proof. intros (_ & H0 & _) H. unfold nd_mT, nd_ndim. rewrite H0. destruct (Nat.ltb_spec (length s) 2); [reflexivity|lia]. Qed.
Theorem C45_mT_refuted v s N f : is_nd v s N f -> 3 <= length s -> nd_mT v = Raise EType.
Proof.
  intros (H1 & H0 & _) H. unfold nd_mT, nd_ndim. rewrite H0. destruct (Nat.ltb_spec (length s) 2); [lia|].
  unfold transpose, perm_of_range. rewrite H1, !app_length, seq_length. cbn [length].
  replace (length s - 3 + 3 =? length s + 1) with false; [reflexivity|]. symmetry. apply Nat.eqb_neq. lia.
Qed.

(** ** Reshaping *)
Lemma ravel_app s N idx i : valid s idx -> ravel_index (s ++ [N]) (idx ++ [i]) = ravel_index s idx * N + i.
Proof.
  intros H. induction H as [|n j s idx Hj H IH]; cbn [app ravel_index]. { cbn. lia. }
  rewrite IH, prod_app. cbn. nia.
Qed.
Lemma nd_reshape_gen v s N f s' dims : is_nd v s N f -> resolve (dims ++ [Z.of_nat N]) (prod (s ++ [N])) = Some (s' ++ [N]) ->
  prod s' = prod s ->
  exists w, nd_reshape v dims = ret w /\ is_nd w s' N (fun idx i => f (unravel_index s (position s' idx)) i).
Proof.
  intros (H1 & H0 & H2) Hr Hp. unfold nd_reshape, arr_reshape. rewrite H1, last_last, Hr.
  rewrite !prod_app, Hp, Nat.eqb_refl. eexists. split; [reflexivity|]. apply nd_intro; [reflexivity|].
  intros idx i Hv Hi. cbn [adat]. rewrite (position_ravel _ _ Hv), ravel_app by auto.
  assert (Hlt : ravel_index s' idx < prod s) by (rewrite <- Hp; now apply ravel_lt).
  pose proof (unravel_valid s _ Hlt) as Hvu.
  assert (E : unravel_index (s ++ [N]) (ravel_index s' idx * N + i) = unravel_index s (ravel_index s' idx) ++ [i]).
  { rewrite <- (ravel_unravel s (ravel_index s' idx)) at 1 by auto. rewrite <- (ravel_app s N) by auto.
    apply unravel_ravel. apply valid_app; auto. now constructor. }
  rewrite E. now apply H2.
Qed.
(** [v.reshape(s')]: the component axis is kept, the elements stay in C order. *)
Theorem C45_reshape v s N f s' : is_nd v s N f -> prod s' = prod s ->
  exists w, nd_reshape v (map Z.of_nat s') = ret w /\
    exists g, is_nd w s' N g /\
      forall idx jdx i, valid s idx -> valid s' jdx -> position s idx = position s' jdx -> i < N -> g jdx i = f idx i.
Proof.
  intros H Hp. destruct (nd_reshape_gen v s N f s' (map Z.of_nat s') H) as (w & Hw & Hn); auto.
  - change [Z.of_nat N] with (map Z.of_nat [N]). rewrite <- map_app. apply resolve_pos.
  - exists w. split; auto. eexists. split; [exact Hn|]. intros idx jdx i Hv Hv' Hpos Hi. cbn beta.
    rewrite <- Hpos, position_ravel, unravel_ravel by auto. reflexivity.
Qed.
(** [v.flatten()] *)
Theorem C45_flatten v s N f : is_nd v s N f ->
  exists w, nd_flatten v = ret w /\
    exists g, is_nd w [prod s] N g /\
      forall idx i, valid s idx -> i < N -> g [position s idx] i = f idx i.
Proof.
  intros H. destruct (C45_reshape v s N f [prod s] H) as (w & Hw & g & Hg & Hgf); [cbn; lia|].
  exists w. split.
  - rewrite <- Hw. unfold nd_flatten, nd_reshape, nd_size. destruct H as (H1 & H0 & _). rewrite H0. reflexivity.
  - exists g. split; auto. intros idx i Hv Hi. apply Hgf; auto.
    + constructor; [|constructor]. rewrite position_ravel by auto. now apply ravel_lt.
Qed.
Theorem C45_reshape_wrong_size v s N f s' : is_nd v s N f -> 0 < N -> prod s' <> prod s ->
  nd_reshape v (map Z.of_nat s') = Raise EType.
Proof.
  intros (H1 & _ & _) HN Hp. unfold nd_reshape, arr_reshape. rewrite H1, last_last.
  change [Z.of_nat N] with (map Z.of_nat [N]). rewrite <- map_app, resolve_pos, !prod_app. cbn [prod fold_right].
  destruct (Nat.eqb_spec (prod s' * (N * 1)) (prod s * (N * 1))); [nia|reflexivity].
Qed.
(** [v.reshape(-1)] is [v.flatten()] if there is at least one component *)
Theorem C45_reshape_minus_one v s N f : is_nd v s N f -> 0 < N -> nd_reshape v [(-1)%Z] = nd_flatten v.
Proof.
  intros (H1 & H0 & _) HN. unfold nd_reshape, nd_flatten, arr_reshape, nd_size. rewrite H0, H1, last_last.
  assert (Hp : prod (s ++ [N]) = prod s * N) by (rewrite prod_app; cbn; lia). rewrite Hp.
  assert (Hneg : (Z.of_nat N <? 0)%Z = false) by (apply Z.ltb_ge; lia).
  assert (Hneg' : (Z.of_nat (prod s) <? 0)%Z = false) by (apply Z.ltb_ge; lia).
  assert (Hpos : (0 <=? Z.of_nat N)%Z = true) by (apply Z.leb_le; lia).
  replace (resolve ([(-1)%Z] ++ [Z.of_nat N]) (prod s * N)) with (Some [prod s; N]).
  2:{ unfold resolve. cbn [app filter Z.ltb Z.compare]. rewrite Hneg. unfold known. cbn [filter Z.leb Z.compare].
      rewrite Hpos. cbn [map prod fold_right]. rewrite Nat2Z.id, Nat.mul_1_r.
      replace (N =? 0) with false by (symmetry; apply Nat.eqb_neq; lia).
      rewrite Nat.mod_mul by lia. cbn [Z.eqb negb andb Nat.eqb Z.ltb Z.compare]. rewrite Pos.eqb_refl. cbn [andb]. rewrite Hneg.
      rewrite Nat.div_mul by lia. reflexivity. }
  replace (resolve [Z.of_nat (prod s); Z.of_nat N] (prod s * N)) with (Some [prod s; N]); [reflexivity|].
  symmetry. exact (resolve_pos [prod s; N] (prod s * N)).
Qed.
(** [v.ravel()] is not [v.flatten()]: it merges all vectors into a single one. *)
Theorem C45_ravel_refuted v s N f : is_nd v s N f ->
  exists w, nd_ravel v = ret w /\
    exists g, is_nd w [] (prod s * N) g /\ forall idx i, valid s idx -> i < N -> g [] (position s idx * N + i) = f idx i.
Proof.
  intros (H1 & H0 & H2). eexists. split; [reflexivity|]. exists (fun _ k => adat v (unravel_index (s ++ [N]) k)). split.
  - apply nd_intro; cbn [ash adat].
    + rewrite H1, prod_app. cbn. now rewrite Nat.mul_1_r.
    + intros idx i Hv Hi. inversion Hv; subst. cbn. now rewrite H1.
  - intros idx i Hv Hi. rewrite position_ravel by auto. rewrite <- (ravel_app s N) by auto.
    rewrite unravel_ravel by (apply valid_app; auto; now constructor). now apply H2.
Qed.

(** ** Indexing *)
Lemma nd_get_full v i : nd_get v i = (do w <- arr_get (broadcast_to v (ash v)) i; ret w).
Proof.
  unfold nd_get. assert (Hs : v_shape [v] = ret (ash v)).
  { apply shape_uniform; [discriminate|]. intros b [<-|[]]. reflexivity. }
  rewrite (full_ok [] [v] (ash v) eq_refl Hs), bret. cbn [fullv map mapR].
  destruct (arr_get (broadcast_to v (ash v)) i) as [[|] ?|]; reflexivity.
Qed.
Theorem C45_getitem v n s N f (i : Z) : is_nd v (n :: s) N f -> (- Z.of_nat n <= i < Z.of_nat n)%Z ->
  exists w, nd_get v i = ret w /\
    is_nd w s N (fun idx k => f (Z.to_nat (if (i <? 0)%Z then i + Z.of_nat n else i) :: idx) k).
Proof.
  intros (H1 & H0 & H2) Hi. set (j := Z.to_nat (if (i <? 0)%Z then (i + Z.of_nat n)%Z else i)).
  assert (Hj : j < n) by (unfold j; destruct (Z.ltb_spec i 0); lia).
  assert (Hn : norm_index n i = j).
  { unfold norm_index, j. destruct (Z.ltb_spec i 0).
    - destruct (Z.ltb_spec (i + Z.of_nat n) 0); [lia|]. destruct (Z.leb_spec (Z.of_nat n) (i + Z.of_nat n)); [lia|]. reflexivity.
    - destruct (Z.ltb_spec i 0); [lia|]. destruct (Z.leb_spec (Z.of_nat n) i); [lia|]. reflexivity. }
  rewrite nd_get_full. unfold arr_get. cbn [ash broadcast_to]. rewrite H1. cbn [app]. destruct n as [|n']; [lia|].
  rewrite bret. eexists. split; [reflexivity|]. apply nd_intro; [reflexivity|].
  intros idx k Hv Hk. cbn [adat]. rewrite Hn.
  assert (Hvv : valid ((S n' :: s) ++ [N]) (j :: idx ++ [k])).
  { change (j :: idx ++ [k]) with ((j :: idx) ++ [k]). apply valid_app; constructor; auto. }
  rewrite <- H2; auto; [|constructor; auto].
  change (S n' :: s ++ [N]) with ((S n' :: s) ++ [N]). 
  rewrite bto_at; auto; [|rewrite H1; apply fits_refl]. rewrite H1, align_self by auto. reflexivity.
Qed.
(** Indexing a single N-dimensional vector (no batch axes) does not raise, as it does
    for the other classes: it gives one of the components (the last one if the index is
    too large). *)
Theorem C45_getitem_scalar_refuted v N f (i : nat) : is_nd v [] N f -> 0 < N ->
  exists w, nd_get v (Z.of_nat i) = ret w /\ ash w = [] /\ adat w [] = f [] (Nat.min i (N - 1)).
Proof.
  intros (H1 & H0 & H2) HN. cbn [app] in H1. rewrite nd_get_full. unfold arr_get. cbn [ash broadcast_to]. rewrite H1.
  destruct N as [|N']; [lia|]. rewrite bret. eexists. split; [reflexivity|]. split; [reflexivity|]. cbn [adat].
  assert (Hn : norm_index (S N') (Z.of_nat i) = Nat.min i (S N' - 1)).
  { unfold norm_index. destruct (Z.ltb_spec (Z.of_nat i) 0); [lia|]. destruct (Z.ltb_spec (Z.of_nat i) 0); [lia|].
    destruct (Z.leb_spec (Z.of_nat (S N')) (Z.of_nat i)); lia. }
  rewrite Hn. assert (Hlt : Nat.min i (S N' - 1) < S N') by lia.
  rewrite <- (H2 [] (Nat.min i (S N' - 1))); auto; [|constructor].
  assert (Hvv : valid [S N'] [Nat.min i (S N' - 1)]) by (constructor; auto).
  rewrite bto_at; auto; [|rewrite H1; apply fits_refl]. rewrite H1, align_self by auto. reflexivity.
Qed.
End Props.

(** ** Arithmetic and norm (values: extended reals, [Some x] for the number [x]) *)
Definition real_nd (v : ndvec ext) (s : list nat) (N : nat) (f : list nat -> nat -> R) : Prop :=
  is_nd v s N (fun idx i => Some (f idx i)).
(** [sum_i<N g i] *)
Fixpoint sum_to (N : nat) (g : nat -> R) : R := match N with 0 => 0%R | S n => (sum_to n g + g n)%R end.

Lemma zip_same (op : ext -> ext -> ext) (g : R -> R -> R) v w s N f f' :
  (forall x y, op (Some x) (Some y) = Some (g x y)) ->
  real_nd v s N f -> real_nd w s N f' ->
  exists r, zip_broadcast op v w = ret r /\ real_nd r s N (fun idx i => g (f idx i) (f' idx i)).
Proof.
  intros Hg (H1 & _ & H2) (H3 & _ & H4). unfold zip_broadcast.
  assert (Hs : broadcast_shapes [ash v; ash w] = ret (s ++ [N])).
  { apply (shape_uniform [v; w] (s ++ [N])); [discriminate|]. intros b [<-|[<-|[]]]; assumption. }
  rewrite Hs, bret. eexists. split; [reflexivity|]. apply nd_intro; [reflexivity|].
  intros idx i Hv Hi. assert (Hvi : valid (s ++ [N]) (idx ++ [i])) by (apply valid_app; auto; constructor; auto).
  cbn [adat].
  pose proof (bto_at v (s ++ [N]) (idx ++ [i])) as B1. pose proof (bto_at w (s ++ [N]) (idx ++ [i])) as B2.
  rewrite H1 in B1. rewrite H3 in B2. specialize (B1 (fits_refl _) Hvi). specialize (B2 (fits_refl _) Hvi).
  cbn [adat broadcast_to] in B1, B2. rewrite align_self in B1, B2 by auto.
  cbn [adat broadcast_to]. etransitivity; [apply f_equal2; [exact B1|exact B2]|].
  rewrite H2, H4 by auto. apply Hg.
Qed.
Theorem C45_add v w s N f g : real_nd v s N f -> real_nd w s N g ->
  exists r, nd_add v w = ret r /\ real_nd r s N (fun idx i => f idx i + g idx i)%R.
Proof. apply zip_same. reflexivity. Qed.
Theorem C45_sub v w s N f g : real_nd v s N f -> real_nd w s N g ->
  exists r, nd_sub v w = ret r /\ real_nd r s N (fun idx i => f idx i - g idx i)%R.
Proof. apply zip_same. reflexivity. Qed.
Theorem C45_neg v s N f : real_nd v s N f -> real_nd (nd_neg v) s N (fun idx i => - f idx i)%R.
Proof. intros (H1 & _ & H2). apply nd_intro; [exact H1|]. intros idx i Hv Hi. cbn [nd_neg adat]. now rewrite H2. Qed.
Theorem C45_scale v s N f (c : arr ext) (x : R) : real_nd v s N f -> ash c = [] -> adat c [] = Some x ->
  exists r, nd_mul c v = ret r /\ real_nd r s N (fun idx i => x * f idx i)%R.
Proof.
  intros (H1 & _ & H2) Hc Hx. unfold nd_mul. rewrite Hc. cbn [forallb]. unfold zip_broadcast.
  assert (Hs : broadcast_shapes [ash c; ash v] = ret (s ++ [N])).
  { rewrite Hc, H1. apply broadcast_shapes_spec. split.
    - intros t [<-|[<-|[]]]; [|apply fits_refl]. split; [cbn; lia|]. intros k n Hk. unfold axis in Hk. cbn in Hk. destruct k; discriminate.
    - intros k n Hk. exists (s ++ [N]). split; auto. cbn; auto. }
  rewrite Hs, bret. eexists. split; [reflexivity|]. apply nd_intro; [reflexivity|].
  intros idx i Hv Hi. assert (Hvi : valid (s ++ [N]) (idx ++ [i])) by (apply valid_app; auto; constructor; auto).
  pose proof (bto_at v (s ++ [N]) (idx ++ [i])) as B1. rewrite H1 in B1. specialize (B1 (fits_refl _) Hvi).
  rewrite align_self in B1 by auto.
  cbn [adat broadcast_to] in *. rewrite Hc. cbn [rev bidx].
  etransitivity; [apply f_equal2; [exact Hx|exact B1]|]. rewrite H2 by auto. reflexivity.
Qed.
(** multiplication by a non-scalar array raises *)
Theorem C45_scale_by_array_raises (v : ndvec ext) (c : arr ext) n s : ash c = S n :: s -> nd_mul c v = Raise ERuntime.
Proof. intros H. unfold nd_mul. rewrite H. reflexivity. Qed.
(** Two vectors with 1 and with N components can be added: the single component is
    repeated. *)
Theorem C45_add_mixed_dimension_refuted v w N f g : real_nd v [] 1 f -> real_nd w [] (S N) g ->
  exists r, nd_add v w = ret r /\ real_nd r [] (S N) (fun idx i => (f [] 0%nat + g [] i)%R).
Proof.
  intros (H1 & _ & H2) (H3 & _ & H4). cbn [app] in *. unfold nd_add, zip_broadcast. rewrite H1, H3.
  assert (Hs : broadcast_shapes [[1]; [S N]] = ret [S N]).
  { unfold broadcast_shapes. cbn [map rev app bcall bcrev]. unfold bc1. destruct N; reflexivity. }
  rewrite Hs, bret. eexists. split; [reflexivity|]. apply nd_intro; [reflexivity|].
  intros idx i Hv Hi. inversion Hv; subst. cbn [app adat broadcast_to]. rewrite H1, H3. cbn [rev app bidx Nat.eqb].
  destruct N as [|N].
  - assert (i = 0) by lia. subst i. cbn [Nat.eqb]. etransitivity; [apply f_equal2; [exact (H2 [] 0 (Forall2_nil _) Nat.lt_0_1)|exact (H4 [] 0 (Forall2_nil _) Hi)]|]. reflexivity.
  - cbn [Nat.eqb]. etransitivity; [apply f_equal2; [exact (H2 [] 0 (Forall2_nil _) Nat.lt_0_1)|exact (H4 [] i (Forall2_nil _) Hi)]|]. reflexivity.
Qed.

Lemma fold_sum (h : nat -> ext) (g : nat -> R) N : (forall i, i < N -> h i = Some (g i)) ->
  fold_right nadd (ncst 0%R) (map h (seq 0 N)) = Some (sum_to N g) :> ext.
Proof.
  intros H.
  assert (G : forall l, (forall i, In i l -> h i = Some (g i)) -> fold_right nadd (ncst 0%R) (map h l) = Some (fold_right Rplus 0%R (map g l)) :> ext).
  { induction l as [|k l IH]; intros Hl; [reflexivity|]. cbn [map fold_right]. rewrite IH by (intros; apply Hl; now right).
    rewrite Hl by now left. reflexivity. }
  rewrite G by (intros i Hi; apply in_seq in Hi; apply H; lia). f_equal. clear.
  induction N as [|N IH]; [reflexivity|]. rewrite seq_S, map_app. cbn [map sum_to plus]. rewrite <- IH.
  generalize (map g (seq 0 N)). intros l. induction l as [|x l IHl]; cbn; [lra|]. rewrite IHl. lra.
Qed.
Lemma sum_sq_nonneg N g : (0 <= sum_to N (fun i => g i * g i))%R.
Proof. induction N; cbn; [lra|]. pose proof (Rle_0_sqr (g N)). unfold Rsqr in *. lra. Qed.
(** [v.norm()] is the Euclidean norm of every vector of the batch. *)
Theorem C45_norm v s N f : real_nd v s N f ->
  exists r, nd_norm v = ret r /\ ash r = s /\
    forall idx, valid s idx -> exists x, adat r idx = Some x /\ (0 <= x)%R /\ (x * x = sum_to N (fun i => f idx i * f idx i))%R.
Proof.
  intros (H1 & _ & H2). unfold nd_norm. rewrite H1, rev_app_distr. cbn [rev app]. rewrite rev_involutive.
  eexists. split; [reflexivity|]. split; [reflexivity|]. intros idx Hv. cbn [adat].
  rewrite (fold_sum _ (fun i => f idx i * f idx i)%R).
  - exists (sqrt (sum_to N (fun i => f idx i * f idx i)%R)).
    pose proof (sum_sq_nonneg N (f idx)) as Hp.
    split; [|split; [apply sqrt_pos|now apply sqrt_sqrt]].
    cbn. rewrite (proj2 (Rleb_true _ _) Hp). reflexivity.
  - intros i Hi. rewrite H2 by auto. reflexivity.
Qed.

(** ** Concrete case: a (2, 2, 3)-array, that is a (2, 2)-batch of 3-vectors *)
Definition ndex : ndvec ext := mkArr [2; 2; 3] (fun idx => Some (INR (nth 0 idx 0 + 2 * nth 2 idx 0))).
Example C45_case : real_nd ndex [2; 2] 3 (fun idx i => INR (nth 0 idx 0 + 2 * i)).
Proof.
  apply nd_intro; [reflexivity|]. intros idx i Hv Hi. inversion Hv as [|? a0 ? l Ha Hl]; subst.
  inversion Hl as [|? b0 ? l' Hb Hl']; subst. inversion Hl'; subst. reflexivity.
Qed.
Definition nd3 : ndvec nat := mkArr [2; 1; 3; 4] (fun idx => nth 3 idx 0).
Example C45_case_refuted : is_nd nd3 [2; 1; 3] 4 (fun _ i => i) /\ 3 <= length [2; 1; 3].
Proof.
  split; [|cbn; lia]. apply nd_intro; [reflexivity|]. intros idx i Hv Hi. cbn [adat nd3].
  apply valid_length in Hv. cbn in Hv. rewrite app_nth2 by lia. now rewrite Hv.
Qed.

Print Assumptions C45_from_array.
Print Assumptions C45_unchecked_extra_axis_refuted.
Print Assumptions C45_T.
Print Assumptions C45_mT_matrix.
Print Assumptions C45_mT_refuted.
Print Assumptions C45_reshape.
Print Assumptions C45_flatten.
Print Assumptions C45_reshape_minus_one.
Print Assumptions C45_ravel_refuted.
Print Assumptions C45_getitem.
Print Assumptions C45_getitem_scalar_refuted.
Print Assumptions C45_add.
Print Assumptions C45_scale.
Print Assumptions C45_norm.
