(** * C39: [Space] is a dimension-keyed mapping of vectors.

    [L] is any table of dimension names satisfying [dimlib_ok] (Space.v); [astropy] is
    an excerpt of the real one. *)
From Coq Require Import List Bool ZArith Arith String Lia Reals Lra.
From Verif Require Import Num Vectors Spec Transform Pos3DThm PosGlue RoundTrip Vel SpecVel VelAt VelThm VelRound Arith ArithThm2 Shapes ShapesThm PropShape Space SpaceThm.
Import ListNotations.
Open Scope nat_scope.

(** the dimension a key denotes *)
Definition key_dim {L} (k : ikey L) : option (D L) :=
  match k with KStr s => parse L s | KDim d => Some d end.

Section Props.
Context (L : dimlib) (HL : dimlib_ok L) {V : Type} (shape : V -> res (list nat)) (Hq : quiet shape).
Notation mk := (mk_space L shape).

Lemma named_dim (k : ikey L) d : named L k (dim_name L d) <-> key_dim k = Some d.
Proof.
  unfold named, key_dim. destruct k as [s|d']; cbn.
  - destruct (parse L s) as [d'|]; split; try discriminate.
    + intros H. injection H as H. rewrite <- (proj2 HL d), <- H. now rewrite (proj2 HL).
    + intros H. now injection H as ->.
  - split; [|now intros H; injection H as ->]. intros H. injection H as H. rewrite <- (proj2 HL d), <- H. now rewrite (proj2 HL).
Qed.
Lemma named_iff (k : ikey L) n : named L k n <-> exists d, key_dim k = Some d /\ n = dim_name L d.
Proof.
  unfold named, key_dim. destruct k as [s|d]; cbn.
  - destruct (parse L s) as [d|]; split.
    + intros H. injection H as <-. eauto.
    + intros (d' & H & ->). now injection H as ->.
    + discriminate.
    + intros (d & H & _). discriminate.
  - split; [intros H; injection H as <-; eauto|]. intros (d' & H & ->). now injection H as ->.
Qed.

(** ** Construction *)
(** The keys are the names of the dimensions given, each once. *)
Theorem C39_keys : forall items w s, mk items = Ok w s ->
  NoDup (map fst s) /\
  forall n, In n (map fst s) <-> exists k v d, In (k, v) items /\ key_dim k = Some d /\ n = dim_name L d.
Proof.
  intros items w s H. apply (mk_space_inv L shape items w s Hq) in H as (_ & keys & shapes & H1 & H2 & H3 & ->).
  split; [apply dict_of_nodup, string_eqb_ok|]. intros n. rewrite (dict_of_keys _ string_eqb_ok).
  rewrite (combine_fst L _ _ H1). split.
  - intros Hn. assert (exists k, In k (map fst (dict_of (ikey_eqb L) items)) /\ named L k n) as (k & Hk & Hnm).
    { clear -H1 Hn. induction H1 as [|x y l l' H0 H IH]; [contradiction|]. destruct Hn as [->|Hn].
      - exists x. split; auto. now left.
      - destruct (IH Hn) as (k & A & B). exists k. split; auto. now right. }
    rewrite (dict_of_keys _ (ikey_eqb_ok L HL)) in Hk. apply in_map_iff in Hk as ((k', v) & <- & Hin).
    apply named_iff in Hnm as (d & Hd & ->). exists k', v, d. auto.
  - intros (k & v & d & Hin & Hd & ->).
    assert (Hk : In k (map fst (dict_of (ikey_eqb L) items))).
    { apply (dict_of_keys _ (ikey_eqb_ok L HL)). apply in_map_iff. exists (k, v). auto. }
    apply named_dim in Hd. clear -H1 Hk Hd. induction H1 as [|x y l l' H0 H IH]; [contradiction|].
    destruct Hk as [->|Hk]; [left; eapply named_fun; eauto|right; auto].
Qed.

(** With distinct Python keys (any [dict], any keyword call): looking up a dimension
    gives the last vector given for that dimension. *)
Theorem C39_lookup : forall items w s d v, NoDup (map fst items) -> mk items = Ok w s ->
  (space_get L s (KDim d) = ret v <->
   exists l1 k l2, items = l1 ++ (k, v) :: l2 /\ key_dim k = Some d /\
     forall k' v', In (k', v') l2 -> key_dim k' <> Some d).
Proof.
  intros items w s d v ND H. apply (mk_space_inv L shape items w s Hq) in H as (_ & keys & shapes & H1 & H2 & H3 & ->).
  rewrite (dict_of_nodup_id _ (ikey_eqb_ok L HL) items ND) in *.
  unfold space_get.
  assert (G : dget String.eqb (dict_of String.eqb (combine keys (map snd items))) (dim_name L d) = Some v <->
    exists l1 k l2, items = l1 ++ (k, v) :: l2 /\ key_dim k = Some d /\ forall k' v', In (k', v') l2 -> key_dim k' <> Some d).
  { rewrite (dget_dict_of _ string_eqb_ok). pose proof (combine_keys L items keys H1) as C. split.
    - intros (m1 & m2 & E & Hn). rewrite E in C.
      apply Forall2_app_inv_r in C as (l1 & l' & C1 & C2 & ->). destruct l' as [|(k, v0) l2]; [inversion C2|]. apply Forall2_cons_iff in C2 as [(Hk & ->) C3].
      exists l1, k, l2. split; auto. split; [now apply named_dim|]. intros k' v' Hin Hd. apply Hn. apply named_dim in Hd.
      clear -C3 Hin Hd. induction C3 as [|(a, b) (n, c) l l' [H0 _] H IH]; [contradiction|]. cbn.
      destruct Hin as [E|Hin]; [injection E as -> ->; left; eapply named_fun; eauto|right; auto].
    - intros (l1 & k & l2 & -> & Hk & Hn). apply Forall2_app_inv_l in C as (m1 & m' & C1 & C2 & E).
      destruct m' as [|(n, v0) m2]; [inversion C2|]. apply Forall2_cons_iff in C2 as [(Hk' & <-) C3]. exists m1, m2. rewrite E. apply named_dim in Hk.
      pose proof (named_fun L _ _ _ Hk Hk') as <-. split; auto. intros Hin. apply in_map_iff in Hin as ((n', c) & En & Hin). cbn in En. subst n'.
      assert (exists k', In (k', c) l2 /\ named L k' (dim_name L d)) as (k' & A & B).
      { clear -C3 Hin. induction C3 as [|(a, b) (n, c') l l' [H0 E0] H IH]; [contradiction|]. destruct Hin as [E|Hin].
        - injection E as -> ->. subst. exists a. split; auto. now left.
        - destruct (IH Hin) as (k' & A & B). exists k'. split; auto. now right. }
      apply (Hn k' c A). now apply named_dim. }
  rewrite <- G. destruct (dget _ _ _) as [v0|]; split; try discriminate; intros H; injection H as ->; reflexivity.
Qed.
(** A dimension that was not given raises KeyError. *)
Theorem C39_lookup_missing : forall items w s d, mk items = Ok w s ->
  (forall k v, In (k, v) items -> key_dim k <> Some d) -> space_get L s (KDim d) = Raise EKey.
Proof.
  intros items w s d H Hn. pose proof (C39_keys items w s H) as [_ K]. unfold space_get.
  destruct (dget String.eqb s (dim_name L d)) eqn:E; auto. exfalso.
  apply (dget_in _ string_eqb_ok) in E. assert (Hin : In (dim_name L d) (map fst s)) by (apply in_map_iff; exists (dim_name L d, v); auto).
  apply K in Hin as (k & v' & d' & A & B & E'). apply (Hn k v' A). rewrite B. f_equal.
  rewrite <- (proj2 HL d') in B. assert (parse L (dim_name L d) = parse L (dim_name L d')) by now rewrite E'.
  rewrite !(proj2 HL) in H0. now injection H0.
Qed.
(** Construction from distinct keys succeeds exactly if every key denotes a dimension,
    every vector has a shape and the shapes broadcast. *)
Theorem C39_construct_iff : forall items, NoDup (map fst items) ->
  ((exists s, mk items = ret s) <->
   (forall k v, In (k, v) items -> key_dim k <> None) /\
   exists shapes sh, Forall2 (fun kv sh => shape (snd kv) = ret sh) items shapes /\ is_broadcast shapes sh).
Proof.
  intros items ND. pose proof (dict_of_nodup_id _ (ikey_eqb_ok L HL) items ND) as Hraw. split.
  - intros (s & H). apply (mk_space_inv L shape items false s Hq) in H as (_ & keys & shapes & H1 & H2 & H3 & ->).
    rewrite Hraw in *. split.
    + intros k v Hin. assert (Hk : In k (map fst items)) by (apply in_map_iff; exists (k, v); auto).
      clear -H1 Hk HL. induction H1 as [|x y l l' H0 H IH]; [contradiction|]. destruct Hk as [->|Hk]; auto.
      apply named_iff in H0 as (d & E & _). now rewrite E.
    + unfold can_broadcast in H3. destruct (broadcast_shapes shapes) as [w0 sh|] eqn:E; [|discriminate].
      exists shapes, sh. split.
      * clear -H2. remember (map snd items) as vs eqn:Ev. revert items Ev. induction H2; intros [|(k, v) it] Ev; cbn in Ev; try discriminate; constructor; [now injection Ev as -> _|apply IHForall2; now injection Ev].
      * apply broadcast_shapes_spec. unfold broadcast_shapes in *. destruct (bcall _); [now injection E as _ <-|discriminate].
  - intros [Hk (shapes & sh & H2 & H3)].
    assert (exists keys, Forall2 (named L) (map fst items) keys) as (keys & H1).
    { clear -Hk HL. induction items as [|(k, v) it IH]; [exists []; constructor|].
      destruct IH as (keys & H); [intros k' v' Hin; apply (Hk k' v'); now right|].
      destruct (key_dim k) as [d|] eqn:E; [|exfalso; apply (Hk k v); [now left|auto]].
      exists (dim_name L d :: keys). constructor; auto. now apply named_dim. }
    eexists. apply (mk_space_ok L shape items keys shapes); rewrite ?Hraw; auto.
    + clear -H2. induction H2 as [|(k, v) y l l' H0 H IH]; cbn; constructor; auto.
    + unfold can_broadcast. apply broadcast_shapes_spec in H3. now rewrite H3.
Qed.

(** ** Operations act entry by entry *)
Definition built (s : space V) : Prop := exists items w, mk items = Ok w s.
Lemma built_facts s : built s -> NoDup (map fst s) /\ forall n, In n (map fst s) -> named L (KStr n) n.
Proof.
  intros (items & w & H). destruct (C39_keys items w s H) as [ND K]. split; auto. intros n Hn.
  apply K in Hn as (k & v & d & _ & _ & ->). apply named_dim. cbn. apply (proj2 HL).
Qed.
Lemma map_items_Ok (f : V -> res V) s w l : map_items L f s = Ok w l -> Forall2 (fun '(n, v) '(k, v') => k = KStr n /\ exists w', f v = Ok w' v') s l.
Proof.
  intros H. apply mapM_Ok in H. induction H as [|(n, v) (k, v') s l H0 H IH]; constructor; auto.
  destruct H0 as (w' & H0). apply bind_Ok in H0 as (w1 & x & w2 & A & B & _). injection B as _ <- <-. eauto.
Qed.
(** Indexing and negation ([item] is [v[i]] or [-v]): same keys in the same order,
    every vector replaced by its image. *)
Theorem C39_entrywise : forall item s w s', built s -> space_map L shape item s = Ok w s' ->
  Forall2 (fun '(n, v) '(n', v') => n' = n /\ exists w', item v = Ok w' v') s s'.
Proof.
  intros item s w s' Hb H. destruct (built_facts s Hb) as [ND HN]. unfold space_map in H.
  apply bind_Ok in H as (w1 & l & w2 & H1 & H2 & _). apply map_items_Ok in H1.
  assert (exists s1, l = map (fun '(n, v) => (KStr n, v)) s1 /\ Forall2 (fun '(n, v) '(n', v') => n' = n /\ exists w', item v = Ok w' v') s s1) as (s1 & -> & F).
  { clear -H1. induction H1 as [|(n, v) (k, v') s l [-> H0] H IH]; [exists []; split; [reflexivity|constructor]|].
    destruct IH as (s1 & -> & F). exists ((n, v') :: s1). split; [reflexivity|constructor; auto]. }
  assert (Hf : map fst s1 = map fst s).
  { clear -F. induction F as [|(n, v) (n', v') s s1 [-> _] H IH]; cbn; [auto|now rewrite IH]. }
  pose proof H2 as H2'. apply (mk_space_inv L shape _ _ _ Hq) in H2' as (_ & keys & shapes & K1 & K2 & K3 & _).
  assert (Hk : map fst (map (fun '(n, v) => (@KStr L n, v)) s1) = map KStr (map fst s1)) by (rewrite !map_map; apply map_ext; intros (?, ?); reflexivity).
  assert (Hv : map snd (map (fun '(n, v) => (@KStr L n, v)) s1) = map snd s1) by (rewrite map_map; apply map_ext; intros (?, ?); reflexivity).
  assert (ND1 : NoDup (map fst (map (fun '(n, v) => (@KStr L n, v)) s1))).
  { rewrite Hk, Hf. apply FinFun.Injective_map_NoDup; auto. intros a b E. now injection E. }
  rewrite (dict_of_nodup_id _ (ikey_eqb_ok L HL) _ ND1) in K2.
  rewrite Hv in K2. rewrite <- Hf in ND, HN. pose proof (rebuild L HL shape s1 shapes ND HN K2 K3) as R.
  cbv zeta in R. rewrite R in H2. injection H2 as _ <-. exact F.
Qed.
(** It succeeds if every vector can be treated and the new shapes broadcast. *)
Theorem C39_entrywise_total : forall item (g : V -> V) s shapes sh, built s ->
  (forall n v, In (n, v) s -> item v = ret (g v)) ->
  Forall2 (fun nv sh => shape (g (snd nv)) = ret sh) s shapes -> is_broadcast shapes sh ->
  space_map L shape item s = ret (map (fun nv => (fst nv, g (snd nv))) s).
Proof.
  intros item g s shapes sh Hb Hi Hs HB. destruct (built_facts s Hb) as [ND HN]. unfold space_map, map_items.
  rewrite (mapM_ret _ (fun nv => (KStr (fst nv), g (snd nv)))).
  2:{ intros (n, v) Hin. rewrite (Hi n v Hin). reflexivity. }
  rewrite bret. set (s1 := map (fun nv => (fst nv, g (snd nv))) s).
  assert (Hf : map fst s1 = map fst s) by (unfold s1; rewrite map_map; reflexivity).
  assert (E : map (fun nv => (@KStr L (fst nv), g (snd nv))) s = map (fun '(n, v) => (KStr n, v)) s1).
  { unfold s1. rewrite map_map. reflexivity. }
  rewrite E. apply (rebuild L HL shape s1 shapes); rewrite ?Hf; auto.
  - unfold s1. rewrite map_map. cbn. clear -Hs. induction Hs as [|(n, v) y l l' H0 H IH]; cbn; constructor; auto.
  - unfold can_broadcast. apply broadcast_shapes_spec in HB. now rewrite HB.
Qed.

(** [replace(space, name=v, ...)] with canonical names: the named entries are replaced
    or added, the others kept. *)
Theorem C39_replace : forall s kw w s' n, built s -> NoDup (map fst kw) ->
  (forall n, In n (map fst kw) -> exists d, n = dim_name L d) ->
  space_replace L shape s kw = Ok w s' ->
  space_get L s' (KStr n) = match dget String.eqb kw n with Some v => ret v | None => space_get L s (KStr n) end.
Proof.
  intros s kw w s' n Hb NDk Hc H. destruct (built_facts s Hb) as [ND HN]. unfold space_replace in H.
  set (s1 := dict_of String.eqb (s ++ kw)) in *.
  assert (ND1 : NoDup (map fst s1)) by apply (dict_of_nodup _ string_eqb_ok).
  assert (HN1 : forall n, In n (map fst s1) -> named L (KStr n) n).
  { intros k Hk. unfold s1 in Hk; rewrite (dict_of_keys _ string_eqb_ok) in Hk. rewrite map_app in Hk. apply in_app_or in Hk as [Hk|Hk]; auto.
    destruct (Hc k Hk) as (d & ->). apply named_dim. apply (proj2 HL). }
  pose proof H as H'. apply (mk_space_inv L shape _ _ _ Hq) in H' as (_ & keys & shapes & K1 & K2 & K3 & _).
  assert (Hk : map fst (map (fun '(n, v) => (@KStr L n, v)) s1) = map KStr (map fst s1)) by (rewrite !map_map; apply map_ext; intros (?, ?); reflexivity).
  assert (Hv : map snd (map (fun '(n, v) => (@KStr L n, v)) s1) = map snd s1) by (rewrite map_map; apply map_ext; intros (?, ?); reflexivity).
  assert (ND2 : NoDup (map fst (map (fun '(n, v) => (@KStr L n, v)) s1))).
  { rewrite Hk. apply FinFun.Injective_map_NoDup; auto. intros a b E. now injection E. }
  rewrite (dict_of_nodup_id _ (ikey_eqb_ok L HL) _ ND2) in K2. rewrite Hv in K2.
  pose proof (rebuild L HL shape s1 shapes ND1 HN1 K2 K3) as R. cbv zeta in R. rewrite R in H. injection H as _ <-.
  unfold space_get. assert (G : dget String.eqb s1 n = match dget String.eqb kw n with Some v => Some v | None => dget String.eqb s n end).
  { destruct (dget String.eqb kw n) as [v|] eqn:E.
    - apply (dget_in _ string_eqb_ok) in E. apply (dget_dict_of _ string_eqb_ok). apply in_split in E as (l1 & l2 & ->).
      exists (s ++ l1), l2. rewrite <- app_assoc. split; auto. rewrite map_app in NDk. cbn in NDk. apply NoDup_remove_2 in NDk.
      intros Hin. apply NDk. apply in_or_app. now right.
    - apply (dget_none _ string_eqb_ok) in E. destruct (dget String.eqb s n) as [v|] eqn:E'.
      + apply (dget_in _ string_eqb_ok) in E'. apply (dget_dict_of _ string_eqb_ok). apply in_split in E' as (l1 & l2 & ->).
        exists l1, (l2 ++ kw). rewrite <- app_assoc. cbn. split; auto. rewrite map_app. intros Hin. apply in_app_or in Hin as [Hin|Hin]; auto.
        rewrite map_app in ND. cbn in ND. apply NoDup_remove_2 in ND. apply ND. apply in_or_app. now right.
      + apply (dget_none _ string_eqb_ok) in E'. apply (dget_none _ string_eqb_ok). intros Hin.
        unfold s1 in Hin. rewrite (dict_of_keys _ string_eqb_ok), map_app in Hin. apply in_app_or in Hin as [|]; contradiction. }
  rewrite G. destruct (dget String.eqb kw n); auto.
Qed.

(** ** Refuted *)
(** The constructor promises an error for duplicate keys; two names of one dimension
    are accepted and the earlier vector is dropped. *)
Theorem C39_duplicates_accepted_refuted : forall n1 n2 d a b sa sb sh, n1 <> n2 ->
  parse L n1 = Some d -> parse L n2 = Some d -> shape a = ret sa -> shape b = ret sb -> is_broadcast [sa; sb] sh ->
  mk [(KStr n1, a); (KStr n2, b)] = ret [(dim_name L d, b)].
Proof.
  intros n1 n2 d a b sa sb sh N P1 P2 Sa Sb HB.
  assert (ND : NoDup (map fst [(@KStr L n1, a); (KStr n2, b)])).
  { cbn. constructor; [|constructor; [intros []|constructor]]. intros [E|[]]. apply N. injection E; auto. }
  rewrite (mk_space_ok L shape _ [dim_name L d; dim_name L d] [sa; sb]); cbv zeta; rewrite ?(dict_of_nodup_id _ (ikey_eqb_ok L HL) _ ND).
  - unfold dict_of. cbn. now rewrite String.eqb_refl.
  - cbn. constructor; [|constructor; [|constructor]]; unfold named; cbn; [now rewrite P1|now rewrite P2].
  - cbn. auto.
  - unfold can_broadcast. apply broadcast_shapes_spec in HB. now rewrite HB.
Qed.
(** A vector given under a name which is not the canonical one cannot be looked up by
    that name. *)
Theorem C39_lookup_by_given_name_refuted : forall items w s n d, mk items = Ok w s ->
  parse L n = Some d -> n <> dim_name L d -> space_get L s (KStr n) = Raise EKey.
Proof.
  intros items w s n d H P N. destruct (C39_keys items w s H) as [_ K]. unfold space_get.
  destruct (dget String.eqb s n) eqn:E; auto. exfalso. apply (dget_in _ string_eqb_ok) in E.
  assert (Hin : In n (map fst s)) by (apply in_map_iff; exists (n, v); auto).
  apply K in Hin as (k & v' & d' & _ & _ & ->). rewrite (proj2 HL) in P. injection P as ->. contradiction.
Qed.
End Props.

(** ** Indexing batched spaces *)
Section Batch.
Context (L : dimlib) (HL : dimlib_ok L) {A : Type}.
Lemma bval_quiet : quiet (@bval_shape A).
Proof. intros v w s. unfold bval_shape, v_shape, broadcast_shapes. destruct (bcall _); intros H; [now injection H|discriminate]. Qed.
Definition good_entry (b : bval A) (s : list nat) : Prop := constructed_b (bchk b) (bcomps b) /\ bval_shape b = ret s.
Definition batch_item (b : bval A) (idx : list nat) : list A := elem (bcomps b) idx.

Lemma fits_self s l : (forall c, In c l -> c = s) -> l <> [] -> is_broadcast l s.
Proof.
  intros H N. split.
  - intros c Hc. rewrite (H c Hc). apply fits_refl.
  - intros k n Hk. destruct l as [|c l]; [contradiction|]. exists c. split; [now left|]. now rewrite (H c (or_introl eq_refl)).
Qed.
(** If all vectors of a space have the same shape, [space[i]] has the same keys and
    each vector is indexed along the first axis. *)
Theorem C39_index : forall (s : space (bval A)) n sh i, built L bval_shape s -> s <> [] ->
  (forall k b, In (k, b) s -> good_entry b (n :: sh)) -> (- Z.of_nat n <= i < Z.of_nat n)%Z ->
  exists s', space_map L bval_shape (bval_get i) s = ret s' /\
    Forall2 (fun '(k, b) '(k', b') => k' = k /\ good_entry b' sh /\
       forall idx, valid sh idx -> batch_item b' idx = batch_item b (Z.to_nat (if (i <? 0)%Z then i + Z.of_nat n else i) :: idx)) s s'.
Proof.
  intros s n sh i Hb Hne He Hi.
  assert (exists s1 : list (string * bval A), Forall2 (fun '(k, b) '(k', b') => k' = k /\ bval_get i b = ret b' /\ good_entry b' sh /\
       forall idx, valid sh idx -> batch_item b' idx = batch_item b (Z.to_nat (if (i <? 0)%Z then i + Z.of_nat n else i)%Z :: idx)) s s1) as (s1 & F).
  { clear Hb Hne. induction s as [|(k, b) s IH]; [exists []; constructor|].
    destruct IH as (s1 & F); [intros; apply (He k0 b0); now right|].
    destruct (He k b (or_introl eq_refl)) as [H1 H2].
    destruct (C37_getitem (bchk b) (bcomps b) n sh i H1 H2 Hi) as (w & W1 & W2 & W3 & W4).
    exists ((k, mkB (bchk b) w) :: s1). constructor; auto. split; auto. split; [|split].
    - unfold bval_get. rewrite W1. reflexivity.
    - split; auto.
    - exact W4. }
  exists s1. destruct (built_facts L HL bval_shape bval_quiet s Hb) as [ND HN]. split.
  - unfold space_map, map_items. assert (E : mapM (fun '(k, v) => do v' <- bval_get i v; ret (@KStr L k, v')) s = ret (map (fun '(k, v) => (KStr k, v)) s1)).
    { clear -F. induction F as [|(k, b) (k', b') s s1 (-> & H0 & _) H IH]; cbn; auto. rewrite H0, bret, bret, IH. reflexivity. }
    rewrite E, bret.
    assert (Hf : map fst s1 = map fst s).
    { clear -F. induction F as [|(n', v) (n'', v') s s1 [-> _] H IH]; cbn; [auto|now rewrite IH]. }
    apply (rebuild L HL bval_shape s1 (map (fun _ => sh) s1)); rewrite ?Hf; auto.
    + clear -F. induction F as [|(k, b) (k', b') s s1 (-> & _ & [_ H0] & _) H IH]; cbn; constructor; auto.
    + assert (HB : is_broadcast (map (fun _ : string * bval A => sh) s1) sh).
      { apply fits_self. intros c Hc. apply in_map_iff in Hc as (x & <- & _). reflexivity.
        destruct F; [contradiction|discriminate]. }
      unfold can_broadcast. apply broadcast_shapes_spec in HB. now rewrite HB.
  - clear -F. induction F as [|(k, b) (k', b') s s1 (-> & _ & H0 & H1) H IH]; constructor; auto.
Qed.
End Batch.
(** If the shapes differ (but broadcast), the vectors are indexed along different
    axes.  Here [length] has shape (2, 3) and [speed] shape (3,): the space has shape
    (2, 3), its element (0, 1) has speed 11, but [space[0]] has speed 10 at index 1. *)
Definition sp_len : bval nat := mkB [] [mkArr [2; 3] (fun i => 3 * nth 0 i 0 + nth 1 i 0)].
Definition sp_speed : bval nat := mkB [] [mkArr [3] (fun i => 10 + nth 0 i 0)].
Definition sp_mixed : space (bval nat) := [("length"%string, sp_len); ("speed"%string, sp_speed)].
Lemma astropy_ok : dimlib_ok astropy.
Proof. split; [intros [] []; split; cbn; congruence|intros []; reflexivity]. Qed.
Theorem C39_index_refuted : built astropy bval_shape sp_mixed /\ space_shape bval_shape sp_mixed = ret [2; 3] /\
  exists s' b, space_map astropy bval_shape (bval_get 0%Z) sp_mixed = ret s' /\ space_shape bval_shape s' = ret [3] /\
    space_get astropy s' (KStr "speed") = ret b /\ batch_item b [1] = [10] /\ batch_item sp_speed [0; 1] = [11].
Proof.
  split; [|split; [reflexivity|]].
  - exists [(KStr "length"%string, sp_len); (KStr "speed"%string, sp_speed)], false. reflexivity.
  - eexists. eexists. repeat split; reflexivity.
Qed.
(** With a scalar velocity it raises. *)
Theorem C39_index_scalar_refuted : let s := [("length"%string, sp_len); ("speed"%string, mkB [] [mkArr [] (fun _ => 7)])] in
  built astropy bval_shape s /\ space_shape bval_shape s = ret [2; 3] /\
  space_map astropy bval_shape (bval_get 0%Z) s = Raise EIndex.
Proof.
  split; [|split; reflexivity].
  exists [(KStr "length"%string, sp_len); (KStr "speed"%string, mkB [] [mkArr [] (fun _ => 7)])], false. reflexivity.
Qed.
Example C39_case_index : built astropy bval_shape [("length"%string, sp_len)] /\ good_entry sp_len [2; 3].
Proof. split; [exists [(@KDim astropy ALength, sp_len)], false; reflexivity|split; reflexivity]. Qed.
Example C39_case_lookup : exists s, mk_space astropy bval_shape [(KStr "velocity"%string, sp_speed); (@KDim astropy ALength, sp_len)] = ret s /\
  space_get astropy s (@KDim astropy ASpeed) = ret sp_speed /\ space_get astropy s (KStr "speed") = ret sp_speed /\
  space_get astropy s (KStr "velocity") = Raise EKey.
Proof. eexists. repeat split; reflexivity. Qed.
Example C39_case_duplicates : mk_space astropy bval_shape [(KStr "speed"%string, sp_speed); (KStr "velocity"%string, sp_len)] = ret [("speed"%string, sp_len)].
Proof. reflexivity. Qed.

(** The shape of a space is the common broadcast shape of the shapes of its entries,
    and its length the first axis of that shape. *)
Theorem C39_shape : forall V (shape : V -> res (list nat)) s l, Forall2 (fun '(_, v) a => shape v = ret a) s l ->
  (forall sh, space_shape shape s = ret sh <-> is_broadcast l sh) /\
  (forall n, space_len shape s = ret n <-> exists sh, is_broadcast l sh /\ n = match sh with k :: _ => k | [] => 0 end).
Proof.
  intros V shape s l H.
  assert (E : space_shape shape s = broadcast_shapes l).
  { unfold space_shape. replace (mapM (fun '(_, v) => shape v) s) with (ret l). now rewrite SpaceThm.bret.
    symmetry. induction H as [|[k v] a s l E H IH]; auto. cbn [mapM]. rewrite E, IH. reflexivity. }
  assert (B : forall sh, space_shape shape s = ret sh <-> is_broadcast l sh) by (intros; rewrite E; apply broadcast_shapes_spec).
  split; auto. intros n. unfold space_len. split.
  - destruct (space_shape shape s) as [w sh|] eqn:Es; [|discriminate]. cbn. intros K. injection K as K <-. rewrite orb_false_r in K. subst w.
    exists sh. split; auto. now apply B.
  - intros (sh & Hb & ->). apply B in Hb. rewrite Hb, SpaceThm.bret. reflexivity.
Qed.
Print Assumptions C39_shape.
Print Assumptions C39_keys.
Print Assumptions C39_lookup.
Print Assumptions C39_construct_iff.
Print Assumptions C39_entrywise.
Print Assumptions C39_replace.
Print Assumptions C39_index.
