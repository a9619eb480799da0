(** * Specification of shapes and lemmas *)
From Coq Require Import List Bool ZArith Arith Lia.
From Verif Require Import Vectors Shapes.
Import ListNotations.
Open Scope nat_scope.

(** ** Specification *)
(** a multi-index into an array of shape [s] *)
Definition valid (s idx : list nat) : Prop := Forall2 (fun n i => i < n) s idx.
(** the entry of a shape [k] axes before the last *)
Definition axis (s : list nat) (k : nat) : option nat := nth_error (rev s) k.
(** NumPy's broadcasting rule: [s] is the broadcast of the shapes [l]: every shape
    fits (each axis, counted from the end, has the length of [s] or 1), and every
    axis of [s] is the axis of one of them. *)
Definition fits (c s : list nat) : Prop :=
  length c <= length s /\
  forall k n, axis c k = Some n -> n = 1 \/ axis s k = Some n.
Definition is_broadcast (l : list (list nat)) (s : list nat) : Prop :=
  (forall c, In c l -> fits c s) /\
  (forall k n, axis s k = Some n -> exists c, In c l /\ axis c k = Some n).
(** the element of an array of shape [s] seen at index [idx] after broadcasting:
    surplus leading axes are dropped, axes of length 1 are read at 0 *)
Definition align (s idx : list nat) : list nat :=
  map (fun '(n, i) => if n =? 1 then 0 else i) (combine s (skipn (length idx - length s) idx)).
(** the vector at index [idx]: its components there *)
Definition elem {A} (v : bvec A) (idx : list nat) : list A := map (fun c => adat c (align (ash c) idx)) v.
(** position of a multi-index in C order (last axis fastest) *)
Definition position (s idx : list nat) : nat :=
  fold_left (fun acc '(n, i) => acc * n + i) (combine s idx) 0.
(** the vector passed its class constructor *)
Definition constructed_b {A} (checks : list (A -> bool)) (v : bvec A) : Prop := construct_b checks v = ret v.

(** ** prod, ravel, unravel *)
Lemma prod_app a b : prod (a ++ b) = prod a * prod b.
Proof.
  induction a as [|x a IH]; [change (prod []) with 1; rewrite Nat.mul_1_l; reflexivity|]. change (prod ((x :: a) ++ b)) with (x * prod (a ++ b)).
  change (prod (x :: a)) with (x * prod a). rewrite IH. ring.
Qed.
Lemma prod_rev a : prod (rev a) = prod a.
Proof. induction a as [|x a IH]; cbn; auto. rewrite prod_app, IH. unfold prod; cbn. ring. Qed.
Lemma prod_cons n s : prod (n :: s) = n * prod s. Proof. reflexivity. Qed.

Lemma unravel_valid s k : k < prod s -> valid s (unravel_index s k).
Proof.
  revert k. induction s as [|n s IH]; intros k H; cbn [unravel_index]; constructor.
  - rewrite prod_cons in H. assert (prod s <> 0) by nia. apply Nat.div_lt_upper_bound; auto. lia.
  - apply IH. apply Nat.mod_upper_bound. rewrite prod_cons in H. nia.
Qed.
Lemma ravel_lt s idx : valid s idx -> ravel_index s idx < prod s.
Proof. induction 1 as [|n i s idx Hi H IH]; [cbn; lia|]. cbn [ravel_index]. rewrite prod_cons. nia. Qed.
Lemma unravel_ravel s idx : valid s idx -> unravel_index s (ravel_index s idx) = idx.
Proof.
  induction 1 as [|n i s idx Hi H IH]; cbn [ravel_index unravel_index]; auto.
  pose proof (ravel_lt s idx H) as L. assert (prod s <> 0) by lia. f_equal.
  - rewrite Nat.div_add_l by auto. rewrite Nat.div_small by auto. lia.
  - rewrite Nat.add_comm, Nat.mod_add by auto. rewrite Nat.mod_small by auto. exact IH.
Qed.
Lemma ravel_unravel s k : k < prod s -> ravel_index s (unravel_index s k) = k.
Proof.
  revert k. induction s as [|n s IH]; intros k H; cbn [unravel_index ravel_index].
  - cbn in H. lia.
  - rewrite prod_cons in H. assert (prod s <> 0) by nia. rewrite IH by (now apply Nat.mod_upper_bound).
    rewrite (Nat.div_mod k (prod s)) at 3 by auto. lia.
Qed.
Lemma position_ravel s idx : valid s idx -> position s idx = ravel_index s idx.
Proof.
  intros H. unfold position.
  assert (G : forall acc, fold_left (fun acc '(n, i) => acc * n + i) (combine s idx) acc = acc * prod s + ravel_index s idx).
  { induction H as [|n i s idx Hi H IH]; intros acc; cbn [combine fold_left ravel_index].
    - cbn. lia.
    - rewrite IH, prod_cons. nia. }
  rewrite G. lia.
Qed.
Lemma valid_length s idx : valid s idx -> length idx = length s.
Proof. induction 1; cbn; auto. Qed.
Lemma valid_rev s idx : valid s idx -> valid (rev s) (rev idx).
Proof.
  induction 1 as [|n i s idx Hi H IH]; cbn; [constructor|].
  apply Forall2_app; [exact IH|repeat constructor; exact Hi].
Qed.

(** ** bidx against align *)
Lemma bidx_align s idx : length s <= length idx -> rev (bidx (rev s) (rev idx)) = align s idx.
Proof.
  intros H. unfold align.
  set (d := length idx - length s).
  assert (E : idx = firstn d idx ++ skipn d idx) by (symmetry; apply firstn_skipn).
  set (pre := firstn d idx) in *. set (post := skipn d idx) in *.
  assert (Hp : length post = length s) by (unfold post, d; rewrite skipn_length; lia).
  rewrite E, rev_app_distr. clearbody pre post. clear E H d.
  assert (G : forall a b c, length b = length a -> bidx a (b ++ c) = map (fun '(n, i) => if n =? 1 then 0 else i) (combine a b)).
  { induction a as [|x a IH]; intros [|y b] c Hl; cbn in *; try discriminate; auto. f_equal. apply IH. lia. }
  rewrite G by (rewrite !rev_length; exact Hp). rewrite <- map_rev. f_equal.
  revert post Hp. clear. induction s as [|x s IH]; intros [|y p] Hl; cbn in Hl; try discriminate; auto.
  cbn [rev combine]. assert (C : forall (a b a' b' : list nat), length a = length b -> combine (a ++ a') (b ++ b') = combine a b ++ combine a' b').
  { induction a as [|? a IHa]; intros [|? b] a' b' Hl'; cbn in *; try discriminate; auto. f_equal. apply IHa. lia. }
  rewrite C by (rewrite !rev_length; lia). cbn [combine]. rewrite rev_app_distr. cbn. f_equal. apply IH. lia.
Qed.

Lemma align_self s idx : valid s idx -> align s idx = idx.
Proof.
  intros H. unfold align. rewrite (valid_length _ _ H), Nat.sub_diag. cbn [skipn].
  induction H as [|n i s idx Hi H IH]; cbn; auto. rewrite IH.
  destruct (Nat.eqb_spec n 1); auto. subst. f_equal. lia.
Qed.

(** ** broadcast_shapes *)
Lemma bcrev_nil_r a : bcrev a [] = Some a. Proof. destruct a; reflexivity. Qed.
Lemma bc1_some a b c : bc1 a b = Some c <-> (a = c \/ a = 1) /\ (b = c \/ b = 1) /\ (c = a \/ c = b).
Proof.
  unfold bc1. destruct (Nat.eqb_spec a b); [subst; split; [intros H; injection H as ->; auto|intros (? & ? & [|]); congruence]|].
  destruct (Nat.eqb_spec a 1); [subst; split; [intros H; injection H as ->; auto|]|].
  - intros (H1 & H2 & H3). f_equal. lia.
  - destruct (Nat.eqb_spec b 1); split; try discriminate.
    + intros H; injection H as ->. auto.
    + intros (H1 & H2 & H3). f_equal. lia.
    + intros (H1 & H2 & H3). lia.
Qed.
(** on reversed shapes *)
Definition fitsr (c s : list nat) : Prop :=
  length c <= length s /\ forall k n, nth_error c k = Some n -> n = 1 \/ nth_error s k = Some n.
Lemma fitsr_cons x c y s : fitsr (x :: c) (y :: s) <-> (x = 1 \/ x = y) /\ fitsr c s.
Proof.
  unfold fitsr. cbn [length]. split.
  - intros [H1 H2]. split.
    + destruct (H2 0 x eq_refl) as [|H]; auto. cbn in H. injection H; auto.
    + split; [lia|]. intros k n Hk. exact (H2 (S k) n Hk).
  - intros [H0 [H1 H2]]. split; [lia|]. intros [|k] n Hk; cbn in *.
    + injection Hk as <-. destruct H0; subst; auto.
    + auto.
Qed.
Lemma bcrev_spec a b s : bcrev a b = Some s <->
  fitsr a s /\ fitsr b s /\ (forall k n, nth_error s k = Some n -> nth_error a k = Some n \/ nth_error b k = Some n).
Proof.
  revert b s. induction a as [|x a IH]; intros b s.
  - cbn. split.
    + intros H. injection H as ->. split; [|split; auto].
      * split; cbn; [lia|]. intros k n Hk. destruct k; discriminate.
      * split; auto.
    + intros (_ & [F1 F2] & F3).
      assert (E : length s = length b).
      { apply Nat.le_antisymm; auto. destruct (Nat.le_gt_cases (length s) (length b)) as [|L]; auto.
        destruct (nth_error s (length b)) as [n|] eqn:En; [|apply nth_error_None in En; lia].
        destruct (F3 _ _ En) as [H|H]; [destruct (length b); discriminate|].
        assert (nth_error b (length b) = None) by (apply nth_error_None; lia). congruence. }
      f_equal. clear F1 F2. revert s F3 E. induction b as [|y b IHb]; intros [|z s] F3 E; cbn in E; try discriminate; auto.
      assert (Hz := F3 0 z eq_refl). destruct Hz as [Hz|Hz]; cbn in Hz; try discriminate. injection Hz as ->.
      f_equal. apply IHb; [|lia]. intros k n Hk. destruct (F3 (S k) n Hk) as [H|H]; [discriminate|]. right; exact H.
  - destruct b as [|y b].
    + cbn [bcrev]. split.
      * intros H. injection H as <-. split; [split; auto|]. split; auto.
        split; cbn; [lia|]. intros k n Hk. destruct k; discriminate.
      * intros ([F1 F2] & _ & F3).
        assert (E : length s = length (x :: a)).
        { apply Nat.le_antisymm; auto. destruct (Nat.le_gt_cases (length s) (length (x::a))) as [|L]; auto.
          destruct (nth_error s (length (x::a))) as [n|] eqn:En; [|apply nth_error_None in En; lia].
          destruct (F3 _ _ En) as [H|H]; [|destruct (length (x::a)); discriminate].
          assert (nth_error (x::a) (length (x::a)) = None) by (apply nth_error_None; lia). congruence. }
        f_equal. clear F1 F2 IH. revert s F3 E. generalize (x :: a) as l. clear.
        induction l as [|y b IHb]; intros [|z s] F3 E; cbn in E; try discriminate; auto.
        assert (Hz := F3 0 z eq_refl). destruct Hz as [Hz|Hz]; cbn in Hz; try discriminate. injection Hz as ->.
        f_equal. apply IHb; [|lia]. intros k n Hk. destruct (F3 (S k) n Hk) as [H|H]; [|discriminate]. left; exact H.
    + cbn [bcrev]. split.
      * destruct (bc1 x y) as [z|] eqn:Ez; [|discriminate]. destruct (bcrev a b) as [l|] eqn:El; [|discriminate].
        intros H. injection H as <-. apply IH in El as (F1 & F2 & F3). apply bc1_some in Ez as (E1 & E2 & E3).
        rewrite !fitsr_cons. split; [tauto|]. split; [tauto|]. intros [|k] n Hk; cbn in *.
        -- injection Hk as <-. destruct E3; subst; auto.
        -- auto.
      * intros (F1 & F2 & F3). destruct s as [|z s]; [destruct F1 as [F1 _]; cbn in F1; lia|].
        rewrite !fitsr_cons in *. destruct F1 as [E1 F1], F2 as [E2 F2].
        assert (E3 := F3 0 z eq_refl). cbn in E3.
        assert (Ez : bc1 x y = Some z).
        { apply bc1_some. split; [tauto|]. split; [tauto|]. destruct E3 as [H|H]; injection H; auto. }
        rewrite Ez. assert (El : bcrev a b = Some s).
        { apply IH. split; auto. split; auto. intros k n Hk. exact (F3 (S k) n Hk). }
        now rewrite El.
Qed.
Lemma fitsr_trans a b c : fitsr a b -> fitsr b c -> fitsr a c.
Proof.
  intros [A1 A2] [B1 B2]. split; [lia|]. intros k n Hk. destruct (A2 k n Hk) as [|H]; auto.
Qed.
Lemma fitsr_nil s : fitsr [] s.
Proof. split; cbn; [lia|]. intros k n Hk. destruct k; discriminate. Qed.
Lemma bcall_spec l s : bcall l = Some s <->
  (forall c, In c l -> fitsr c s) /\ (forall k n, nth_error s k = Some n -> exists c, In c l /\ nth_error c k = Some n).
Proof.
  revert s. induction l as [|a l IH]; intros s; cbn [bcall].
  - split.
    + intros H. injection H as <-. split; [intros c []|]. intros k n Hk. destruct k; discriminate.
    + intros [_ H]. destruct s as [|n s]; auto. destruct (H 0 n eq_refl) as (c & [] & _).
  - split.
    + destruct (bcall l) as [b|] eqn:Eb; [|discriminate]. intros H. apply bcrev_spec in H as (F1 & F2 & F3).
      destruct (proj1 (IH b) eq_refl) as [G1 G2]. split.
      * intros c [<-|Hc]; auto. eapply fitsr_trans; eauto.
      * intros k n Hk. destruct (F3 k n Hk) as [H|H].
        -- exists a. split; auto. now left.
        -- destruct (G2 k n H) as (c & Hc & Hn). exists c. split; auto. now right.
    + intros [F1 F2].
      (* the broadcast of the tail *)
      assert (Hb : exists b, bcall l = Some b /\ fitsr b s).
      { clear IH. assert (F1' : forall c, In c l -> fitsr c s) by (intros; apply F1; now right). clear F1 F2 a.
        induction l as [|a l IHl]; cbn [bcall].
        - exists []. split; auto. apply fitsr_nil.
        - destruct IHl as (b & Eb & Fb); [intros; apply F1'; now right|]. rewrite Eb.
          assert (Fa : fitsr a s) by (apply F1'; now left).
          clear -Fa Fb. revert b s Fa Fb. induction a as [|x a IH]; intros b s Fa Fb.
          + exists b. split; auto.
          + destruct b as [|y b]; [exists (x :: a); auto|].
            destruct s as [|z s]; [destruct Fa as [Fa _]; cbn in Fa; lia|].
            apply fitsr_cons in Fa as [E1 Fa], Fb as [E2 Fb].
            destruct (IH b s Fa Fb) as (t & Et & Ft). cbn [bcrev]. rewrite Et.
            destruct E1 as [-> | ->], E2 as [-> | ->].
            * exists (1 :: t). cbn. split; auto. apply fitsr_cons; auto.
            * exists (z :: t). split; [|apply fitsr_cons; auto]. replace (bc1 1 z) with (Some z); auto. symmetry. apply bc1_some. tauto.
            * exists (z :: t). split; [|apply fitsr_cons; auto]. replace (bc1 z 1) with (Some z); auto. symmetry. apply bc1_some. tauto.
            * exists (z :: t). split; [|apply fitsr_cons; auto]. unfold bc1. now rewrite Nat.eqb_refl. }
      destruct Hb as (b & Eb & Fb). rewrite Eb. apply bcrev_spec. split; [apply F1; now left|]. split; auto.
      intros k n Hk. destruct (F2 k n Hk) as (c & [<-|Hc] & Hn); auto.
      destruct (proj1 (IH b) Eb) as [G1 G2]. destruct (G1 c Hc) as [_ Gc].
      destruct (Gc k n Hn) as [->|H]; auto.
      (* axis of length 1 in c: then b has an entry at k, equal to 1 or to s's *)
      destruct (nth_error b k) as [n'|] eqn:En.
      * destruct Fb as [_ Fb]. destruct (Fb k n' En) as [->|H']; auto. right. congruence.
      * exfalso. apply nth_error_None in En. destruct (G1 c Hc) as [L _].
        assert (nth_error c k = None) by (apply nth_error_None; lia). congruence.
Qed.

Lemma fits_fitsr c s : fits c s <-> fitsr (rev c) (rev s).
Proof. unfold fits, fitsr, axis. rewrite !rev_length. tauto. Qed.
Lemma broadcast_shapes_spec l s : broadcast_shapes l = ret s <-> is_broadcast l s.
Proof.
  unfold broadcast_shapes, is_broadcast.
  assert (G : forall t, bcall (map (@rev nat) l) = Some t <-> is_broadcast l (rev t)).
  { intros t. rewrite bcall_spec. unfold is_broadcast. split; intros [F1 F2]; split.
    - intros c Hc. apply fits_fitsr. rewrite rev_involutive. apply F1. now apply in_map.
    - intros k n Hk. unfold axis in *. rewrite rev_involutive in Hk. destruct (F2 k n Hk) as (c & Hc & Hn).
      apply in_map_iff in Hc as (c' & <- & Hc'). eauto.
    - intros c Hc. apply in_map_iff in Hc as (c' & <- & Hc'). specialize (F1 c' Hc'). apply fits_fitsr in F1.
      now rewrite rev_involutive in F1.
    - intros k n Hk. unfold axis in *. rewrite rev_involutive in F2. destruct (F2 k n Hk) as (c & Hc & Hn).
      exists (rev c). split; auto. now apply in_map. }
  split.
  - destruct (bcall _) as [t|] eqn:E; [|discriminate]. intros H. injection H as <-. now apply G.
  - intros H. rewrite <- (rev_involutive s) in H. apply G in H. rewrite H. now rewrite rev_involutive.
Qed.
Lemma broadcast_shapes_raise l : (forall s, ~ is_broadcast l s) -> broadcast_shapes l = Raise EValue.
Proof.
  intros H. destruct (broadcast_shapes l) as [[] s|e] eqn:E.
  - unfold broadcast_shapes in E. destruct (bcall _); discriminate.
  - exfalso. apply (H s). now apply broadcast_shapes_spec.
  - unfold broadcast_shapes in E. destruct (bcall _); inversion E. reflexivity.
Qed.
Lemma broadcast_unique l s s' : is_broadcast l s -> is_broadcast l s' -> s = s'.
Proof. intros H H'. apply broadcast_shapes_spec in H, H'. rewrite H in H'. now injection H'. Qed.

Lemma align_valid c s idx : fits c s -> valid s idx -> valid c (align c idx).
Proof.
  (* axes of length 1 are read at 0, the others agree with s *)
  intros Hf Hv. rewrite <- bidx_align by (rewrite (valid_length _ _ Hv); apply Hf).
  rewrite <- (rev_involutive c) at 1. apply valid_rev.
  apply fits_fitsr in Hf. apply valid_rev in Hv. revert Hf Hv. generalize (rev c) as a, (rev s) as b, (rev idx) as i.
  induction a as [|x a IH]; intros b i Hf Hv; [destruct i; constructor|].
  destruct b as [|y b]; [destruct Hf as [Hf _]; cbn in Hf; lia|].
  inversion Hv as [|? j ? i' Hj Hv']; subst. apply fitsr_cons in Hf as [E Hf]. cbn [bidx]. constructor; [|now apply (IH b)].
  destruct (Nat.eqb_spec x 1); [lia|]. destruct E; [contradiction|]. subst; auto.
Qed.

(** ** checks *)
Lemma elements_forall {A} (c : A -> bool) (a : arr A) :
  forallb c (elements a) = true <-> forall idx, valid (ash a) idx -> c (adat a idx) = true.
Proof.
  unfold elements. rewrite forallb_forall. split.
  - intros H idx Hv. rewrite <- (unravel_ravel _ _ Hv). apply H. apply in_map_iff. eexists. split; [reflexivity|].
    apply in_seq. pose proof (ravel_lt _ _ Hv). lia.
  - intros H x Hx. apply in_map_iff in Hx as (k & <- & Hk). apply in_seq in Hk. apply H. apply unravel_valid. lia.
Qed.
Section Checks.
Context {A : Type} (checks : list (A -> bool)).
Lemma constructed_spec v : constructed_b checks v <->
  forall i c a, nth_error checks i = Some c -> nth_error v i = Some a -> forall idx, valid (ash a) idx -> c (adat a idx) = true.
Proof.
  unfold constructed_b, construct_b.
  assert (G : forallb (fun '(c, a) => forallb c (elements a)) (combine checks v) = true <->
    forall i c a, nth_error checks i = Some c -> nth_error v i = Some a -> forall idx, valid (ash a) idx -> c (adat a idx) = true).
  { revert v. induction checks as [|c cs IH]; intros v.
    - cbn. split; auto. intros _ [|i]; discriminate.
    - destruct v as [|a v]; cbn [combine forallb].
      + split; auto. intros _ [|i]; discriminate.
      + rewrite andb_true_iff, IH, elements_forall. split.
        * intros [H1 H2] [|i] c' a' Hc Ha; cbn in *; [injection Hc as <-; injection Ha as <-; auto|eauto].
        * intros H. split; [exact (H 0 c a eq_refl eq_refl)|]. intros i. exact (H (S i)). }
  rewrite <- G. destruct (forallb _ _); split; auto; discriminate.
Qed.

(** an operation whose results only contain elements of the originals keeps the
    checks *)
Lemma constructed_sub v w : constructed_b checks v ->
  Forall2 (fun a b => forall idx, valid (ash b) idx -> exists idx', valid (ash a) idx' /\ adat b idx = adat a idx') v w ->
  construct_b checks w = ret w.
Proof.
  intros Hc H. apply constructed_spec. intros i c b Hi Hb idx Hv.
  assert (exists a, nth_error v i = Some a /\ forall idx, valid (ash b) idx -> exists idx', valid (ash a) idx' /\ adat b idx = adat a idx') as (a & Ha & Hsub).
  { clear -H Hb. revert i Hb. induction H as [|a b' v w H0 H IH]; intros [|i] Hb; try discriminate; cbn in *.
    - injection Hb as <-. eauto.
    - eauto. }
  destruct (Hsub idx Hv) as (idx' & Hv' & ->). apply (proj1 (constructed_spec v) Hc i c a); auto.
Qed.
End Checks.

Lemma mapR_ok {T U} (f : T -> res U) (g : T -> U) l : (forall x, In x l -> f x = ret (g x)) -> mapR f l = ret (map g l).
Proof.
  induction l as [|x l IH]; intros H; cbn; auto. rewrite H by now left. rewrite IH by (intros; apply H; now right). reflexivity.
Qed.
Lemma mapR_raise {T U} (f : T -> res U) l x e : In x l -> (forall y, In y l -> f y = Raise e) -> mapR f l = Raise e.
Proof. intros Hx H. destruct l as [|y l]; [contradiction|]. cbn. rewrite H by now left. reflexivity. Qed.
