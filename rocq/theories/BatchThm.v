(** Proofs about Batch.v *)
From Coq Require Import Reals List Bool ZArith Arith Lia.
From Verif Require Import Num Vectors Transform Vel Shapes ShapesThm Batch.
Import ListNotations.
Open Scope nat_scope.

(** [r] terminates normally with value [y] (with or without a warning) *)
Definition gives {T} (r : res T) (y : T) : Prop := exists w, r = Ok w y.

Lemma gives_det {T} (r : res T) x y : gives r x -> gives r y -> x = y.
Proof. intros [w ->] [w' E]. congruence. Qed.
Lemma gives_ret {T} (x y : T) : gives (ret x) y <-> x = y.
Proof. split; [intros [w E]; unfold ret in E; congruence|intros ->; exists false; reflexivity]. Qed.
Lemma gives_raise {T} e (y : T) : ~ gives (Raise e) y.
Proof. intros [w E]. discriminate. Qed.
Lemma gives_bind {T U} (r : res T) (f : T -> res U) y : gives (bind r f) y <-> exists x, gives r x /\ gives (f x) y.
Proof.
  unfold gives. split.
  - intros [w E]. destruct r as [w1 x|e]; cbn in E; [|discriminate]. exists x. split; [eauto|].
    destruct (f x) as [w2 z|e]; [|discriminate]. exists w2. congruence.
  - intros (x & [w ->] & [w' E]). cbn. rewrite E. eauto.
Qed.
Lemma bind_ext {T U} (r : res T) (f g : T -> res U) : (forall x, gives r x -> f x = g x) -> bind r f = bind r g.
Proof. intros H. destruct r as [w x|e]; cbn; auto. rewrite (H x); auto. exists w; auto. Qed.
Lemma gives_mapR {T U} (f : T -> res U) l ys : gives (mapR f l) ys <-> Forall2 (fun x y => gives (f x) y) l ys.
Proof.
  revert ys; induction l as [|x l IH]; intros ys; cbn [mapR].
  - rewrite gives_ret. split; [intros <-; constructor|intros H; inversion H; auto].
  - rewrite gives_bind. split.
    + intros (y & Hy & H). apply gives_bind in H as (ys' & H & E). apply gives_ret in E as <-. constructor; auto. now apply IH.
    + intros H. inversion H as [|? y ? ys' Hy Hr]; subst. exists y. split; auto. apply gives_bind. exists ys'. split; [now apply IH|]. now apply gives_ret.
Qed.
Lemma mapR_total {T U} (f : T -> res U) l : (forall x, In x l -> exists y, gives (f x) y) -> exists ys, gives (mapR f l) ys.
Proof.
  intros H. cut (exists ys, Forall2 (fun x y => gives (f x) y) l ys).
  { intros [ys E]. exists ys. now apply gives_mapR. }
  induction l as [|x l IH]. exists []; constructor.
  destruct (H x) as [y Hy]; [now left|]. destruct IH as [ys Hys]; [intros; apply H; now right|]. exists (y :: ys). now constructor.
Qed.
Lemma F2_nth {T U} (P : T -> U -> Prop) l l' k d d' : Forall2 P l l' -> k < length l -> P (nth k l d) (nth k l' d').
Proof. intros H. revert k; induction H; intros k Hk; cbn in *. lia. destruct k; auto. apply IHForall2. lia. Qed.

Lemma nth_elements {T} (a : arr T) k d : k < prod (ash a) -> nth k (elements a) d = adat a (unravel_index (ash a) k).
Proof.
  intros H. unfold elements. erewrite nth_indep by (now rewrite map_length, seq_length).
  rewrite (map_nth (fun k => adat a (unravel_index (ash a) k)) _ 0). rewrite seq_nth; auto.
Qed.
Lemma elements_length {T} (a : arr T) : length (elements a) = prod (ash a).
Proof. unfold elements. now rewrite map_length, seq_length. Qed.
Lemma in_elements {T} (a : arr T) x : In x (elements a) <-> exists idx, valid (ash a) idx /\ adat a idx = x.
Proof.
  unfold elements. rewrite in_map_iff. split.
  - intros (k & <- & Hk). apply in_seq in Hk. exists (unravel_index (ash a) k). split; auto. apply unravel_valid; lia.
  - intros (idx & V & <-). exists (ravel_index (ash a) idx). split. now rewrite unravel_ravel.
    apply in_seq. pose proof (ravel_lt _ _ V). lia.
Qed.

Lemma b_map_spec {T U} (d : U) (f : T -> res U) a b : gives (b_map d f a) b ->
  ash b = ash a /\ forall idx, valid (ash a) idx -> gives (f (adat a idx)) (adat b idx).
Proof.
  unfold b_map. rewrite gives_bind. intros (l & H & E). apply gives_ret in E as <-. cbn [ash adat]. split; auto.
  apply gives_mapR in H. intros idx V. pose proof (ravel_lt _ _ V) as L.
  pose proof (F2_nth _ _ _ (ravel_index (ash a) idx) (adat a idx) d H) as G. rewrite elements_length in G. specialize (G L).
  rewrite nth_elements in G by auto. now rewrite unravel_ravel in G.
Qed.
Lemma b_map_total {T U} (d : U) (f : T -> res U) a : (forall idx, valid (ash a) idx -> exists y, gives (f (adat a idx)) y) ->
  exists b, gives (b_map d f a) b.
Proof.
  intros H. destruct (mapR_total f (elements a)) as [l Hl].
  { intros x Hx. apply in_elements in Hx as (idx & V & <-). auto. }
  eexists. unfold b_map. apply gives_bind. exists l. split; auto. now apply gives_ret.
Qed.

(** reshape to an explicit shape *)
Lemma filter_neg_nat (s : list nat) : filter (fun d => Z.ltb d 0) (map Z.of_nat s) = [].
Proof. induction s as [|n s IH]; cbn; auto. destruct (Z.ltb_spec (Z.of_nat n) 0); auto. lia. Qed.
Lemma map_to_of (s : list nat) : map Z.to_nat (map Z.of_nat s) = s.
Proof. rewrite map_map. rewrite <- map_id. apply map_ext. intros; apply Nat2Z.id. Qed.
Lemma reshape_to {T} (a : arr T) s : prod s = prod (ash a) ->
  arr_reshape a (map Z.of_nat s) = ret (mkArr s (fun idx => adat a (unravel_index (ash a) (ravel_index s idx)))).
Proof.
  intros E. unfold arr_reshape, resolve. rewrite filter_neg_nat, map_to_of, E, Nat.eqb_refl. reflexivity.
Qed.
Lemma reshape_bad {T} (a : arr T) s : prod s <> prod (ash a) -> arr_reshape a (map Z.of_nat s) = Raise EType.
Proof.
  intros E. unfold arr_reshape, resolve. rewrite filter_neg_nat, map_to_of.
  destruct (Nat.eqb_spec (prod s) (prod (ash a))); congruence.
Qed.
Lemma prod1 n : prod [n] = n. Proof. cbn. lia. Qed.
Lemma valid1 n idx : valid [n] idx <-> exists k, k < n /\ idx = [k].
Proof.
  split. intros H. inversion H as [|? k ? r Hk Hr]; subst. inversion Hr; subst. eauto.
  intros (k & Hk & ->). repeat constructor; auto.
Qed.
Lemma flat_at {T} (a : arr T) n : prod (ash a) = n ->
  arr_reshape a [Z.of_nat n] = ret (mkArr [n] (fun idx => adat a (unravel_index (ash a) (ravel_index [n] idx)))).
Proof. intros E. rewrite <- E. apply (reshape_to a [prod (ash a)]). now rewrite prod1. Qed.
Lemma ravel1 n k : ravel_index [n] [k] = k. Proof. cbn. lia. Qed.

Section Vel.
Variables (m : mode) (deg : bool) (fuel : nat).

(** the element of the positions that goes with the element [idx] of the velocities *)
Definition partner (sP sv idx : list nat) : list nat := unravel_index sP (ravel_index sv idx).
Lemma partner_self s idx : valid s idx -> partner s s idx = idx.
Proof. apply unravel_ravel. Qed.
Lemma partner_valid sP sv idx : prod sP = prod sv -> valid sv idx -> valid sP (partner sP sv idx).
Proof. intros E V. apply unravel_valid. rewrite E. now apply ravel_lt. Qed.

(** the pieces of the generic conversion on one element *)
Definition push1 kw n t (p : pos ext) (x : list ext) : res (list ext) :=
  do j <- jacobian deg fuel kw p t; ret (matvec n j x).
Lemma vel_generic_gives kw v t p y : gives (vel_generic m deg fuel kw v t p) y <->
  exists cp cp' z, gives (represent_as m deg fuel kw p (integral_cls (vc v))) cp /\ gives (cast_distance m cp) cp' /\
    integral_cls (vc v) <> CProlate /\ gives (push1 kw (vdim t) (integral_cls t) cp' (vcomps v)) z /\ y = mkVel t z.
Proof.
  unfold vel_generic, push1. rewrite gives_bind. split.
  - intros (cp & H1 & H). apply gives_bind in H as (cp' & H2 & H). apply gives_bind in H as (u & H3 & H).
    apply gives_bind in H as (j & H4 & H). apply gives_ret in H as <-. exists cp, cp', (matvec (vdim t) j (vcomps v)).
    repeat split; auto. intros E. rewrite E in H3. now apply gives_raise in H3.
    apply gives_bind. exists j. split; auto. now apply gives_ret.
  - intros (cp & cp' & z & H1 & H2 & H3 & H4 & ->). apply gives_bind in H4 as (j & H4 & E). apply gives_ret in E as <-.
    exists cp. split; auto. apply gives_bind. exists cp'. split; auto. apply gives_bind. exists tt. split.
    destruct (integral_cls (vc v)); try congruence; now apply gives_ret.
    apply gives_bind. exists j. split; auto. now apply gives_ret.
Qed.

Lemma b_generic_spec kw v t P r : gives (b_vel_generic m deg fuel kw v t P) r ->
  prod (ash P) = prod (ash (bvdat v)) /\ bvc r = t /\ ash (bvdat r) = ash (bvdat v) /\
  forall idx, valid (ash (bvdat v)) idx ->
    gives (vel_generic m deg fuel kw (mkVel (bvc v) (adat (bvdat v) idx)) t
             (adat P (partner (ash P) (ash (bvdat v)) idx))) (mkVel t (adat (bvdat r) idx)).
Proof.
  unfold b_vel_generic. set (s := ash (bvdat v)). intros H.
  destruct (Nat.eq_dec (prod (ash P)) (prod s)) as [E|E].
  2:{ change [Z.of_nat (prod s)] with (map Z.of_nat [prod s]) in H. rewrite (reshape_bad P) in H by (rewrite prod1; auto).
      cbn in H. now apply gives_raise in H. }
  split; auto. rewrite flat_at in H by auto.
  apply gives_bind in H as (P' & HP & H). apply gives_ret in HP. 
  apply gives_bind in H as (cp & H1 & H). apply gives_bind in H as (cp' & H2 & H). apply gives_bind in H as (u & H3 & H).
  rewrite flat_at in H by auto. apply gives_bind in H as (x & Hx & H). apply gives_ret in Hx.
  apply gives_bind in H as (y & H4 & H).
  apply b_map_spec in H1 as [S1 H1]. apply b_map_spec in H2 as [S2 H2]. apply b_map_spec in H4 as [S4 H4].
  cbn [ash b_pair] in S4, H4. rewrite S2, S1 in *. subst P'. cbn [ash adat] in *. 
  rewrite reshape_to in H by (rewrite S4, prod1; auto). apply gives_bind in H as (y' & Hy & H). apply gives_ret in H as <-.
  apply gives_ret in Hy as <-. cbn [bvc bvdat ash adat]. split; auto. split; auto. intros idx V.
  set (k := ravel_index s idx). assert (Lk : k < prod s) by now apply ravel_lt.
  assert (Vk : valid [prod s] [k]) by (apply valid1; eauto).
  specialize (H1 _ Vk). specialize (H2 _ Vk). specialize (H4 _ Vk). cbn [b_pair adat] in H4. subst x. cbn [adat] in H4.
  rewrite ravel1 in H1, H4. fold s in H4. replace (unravel_index s k) with idx in H4 by (symmetry; now apply unravel_ravel).
  apply vel_generic_gives. cbn [vc vcomps]. unfold partner. fold k. rewrite S4. cbn [unravel_index]. cbn [prod fold_right].
  rewrite Nat.div_1_r. 
  eexists _, _, _. split; [exact H1|]. split; [exact H2|]. split; [|split; [exact H4|reflexivity]].
  intros C. rewrite C in H3. now apply gives_raise in H3.
Qed.

Lemma b_generic_total kw v t P : prod (ash P) = prod (ash (bvdat v)) -> prod (ash (bvdat v)) <> 0 ->
  (forall idx, valid (ash (bvdat v)) idx -> exists y,
    gives (vel_generic m deg fuel kw (mkVel (bvc v) (adat (bvdat v) idx)) t
             (adat P (partner (ash P) (ash (bvdat v)) idx))) y) ->
  exists r, gives (b_vel_generic m deg fuel kw v t P) r.
Proof.
  unfold b_vel_generic. set (s := ash (bvdat v)). intros E NZ H.
  assert (Hk : forall k, k < prod s -> exists cp cp' z,
    gives (represent_as m deg fuel kw (adat P (unravel_index (ash P) k)) (integral_cls (bvc v))) cp /\ gives (cast_distance m cp) cp' /\
    integral_cls (bvc v) <> CProlate /\ gives (push1 kw (vdim t) (integral_cls t) cp' (adat (bvdat v) (unravel_index s k))) z).
  { intros k Lk. destruct (H (unravel_index s k)) as [y Hy]. now apply unravel_valid.
    apply vel_generic_gives in Hy as (cp & cp' & z & A & B & C & D & _). cbn [vc vcomps] in *. unfold partner in A.
    rewrite ravel_unravel in A by auto. eauto 10. }
  assert (NP : integral_cls (bvc v) <> CProlate) by (destruct (Hk 0) as (? & ? & ? & _ & _ & N & _); auto; lia).
  rewrite !flat_at by auto.
  set (P' := mkArr [prod s] _).
  destruct (b_map_total p0 (fun p => represent_as m deg fuel kw p (integral_cls (bvc v))) P') as [cp H1].
  { intros idx V. apply valid1 in V as (k & Lk & ->). destruct (Hk k Lk) as (c & _ & _ & A & _). cbn [adat P']. rewrite ravel1. eauto. }
  pose proof (b_map_spec _ _ _ _ H1) as [S1 H1'].
  destruct (b_map_total p0 (cast_distance m) cp) as [cp' H2].
  { intros idx V. rewrite S1 in V. specialize (H1' _ V). cbn in V. apply valid1 in V as (k & Lk & ->).
    destruct (Hk k Lk) as (c & c' & _ & A & B & _). cbn [adat P'] in H1'. rewrite ravel1 in H1'. rewrite (gives_det _ _ _ H1' A). eauto. }
  pose proof (b_map_spec _ _ _ _ H2) as [S2 H2']. rewrite S1 in S2, H2'.
  set (x := mkArr [prod s] _) at 1.
  destruct (b_map_total [] (fun '(p, x) => do j <- jacobian deg fuel kw p (integral_cls t); ret (matvec (vdim t) j x)) (b_pair cp' x)) as [y H3].
  { intros idx V. cbn [b_pair ash adat] in *. rewrite S2 in V. pose proof V as V'. cbn [ash P'] in V. apply valid1 in V as (k & Lk & ->).
    specialize (H1' _ V'). specialize (H2' _ V'). cbn [P' adat] in H1'. rewrite ravel1 in H1'.
    destruct (Hk k Lk) as (c & c' & z & A & B & _ & C).
    rewrite (gives_det _ _ _ H1' A) in H2'. rewrite (gives_det _ _ _ H2' B). cbn [x adat]. rewrite ravel1. fold s. eauto. }
  pose proof (b_map_spec _ _ _ _ H3) as [S3 _]. cbn [b_pair ash] in S3. rewrite S2 in S3.
  eexists. apply gives_bind. exists P'. split; [now apply gives_ret|]. apply gives_bind. exists cp. split; [exact H1|].
  apply gives_bind. exists cp'. split; [exact H2|]. apply gives_bind. exists tt. split.
  { destruct (integral_cls (bvc v)); try congruence; now apply gives_ret. }
  apply gives_bind. exists x. split; [now apply gives_ret|]. apply gives_bind. exists y. split; [exact H3|].
  rewrite reshape_to by (rewrite S3; symmetry; apply prod1). apply gives_bind. eexists. split; now apply gives_ret.
Qed.
End Vel.

Lemma b_broadcast_spec {T U} (a : arr T) (b : arr U) pr : gives (b_broadcast a b) pr ->
  is_broadcast [ash a; ash b] (ash pr) /\
  forall idx, valid (ash pr) idx -> adat pr idx = (adat a (align (ash a) idx), adat b (align (ash b) idx)).
Proof.
  unfold b_broadcast. rewrite gives_bind. intros (s & [w H] & E). apply gives_ret in E as <-.
  assert (H' : broadcast_shapes [ash a; ash b] = ret s).
  { unfold broadcast_shapes in *. destruct (bcall _); unfold ret in *; congruence. }
  apply broadcast_shapes_spec in H'. cbn [b_pair ash broadcast_to]. split; auto.
  intros idx V. cbn [b_pair adat broadcast_to]. pose proof (valid_length _ _ V) as L. destruct H' as [F _].
  rewrite !bidx_align; auto; rewrite L; apply F; cbn; auto.
Qed.
Lemma b_broadcast_total {T U} (a : arr T) (b : arr U) s : is_broadcast [ash a; ash b] s -> exists pr, gives (b_broadcast a b) pr /\ ash pr = s.
Proof.
  intros H. apply broadcast_shapes_spec in H. eexists. split. unfold b_broadcast. rewrite H. apply gives_bind. exists s.
  split; now apply gives_ret. reflexivity.
Qed.
Lemma is_broadcast_same s : is_broadcast [s; s] s.
Proof.
  split. intros c [<-|[<-|[]]]; (split; [auto|]); auto. intros k n H. exists s. split; [now left|auto].
Qed.

Section LCL.
Variables (m : mode) (deg : bool) (fuel : nat).

(** Both conversions between LonLat and LonCosLat, uniformly *)
Lemma b_lcl_spec (to : bool) v P r (bf := if to then b_lonlat_to_lcl m deg fuel else b_lcl_to_lonlat m deg fuel)
  (f := if to then lonlat_to_lcl m deg fuel else lcl_to_lonlat m deg fuel) (t := if to then WLonCosLat else WLonLat) :
  gives (bf v P) r ->
  bvc r = t /\ is_broadcast [ash (bvdat v); ash P] (ash (bvdat r)) /\
  forall idx, valid (ash (bvdat r)) idx ->
    gives (f (mkVel (bvc v) (adat (bvdat v) (align (ash (bvdat v)) idx))) (adat P (align (ash P) idx))) (mkVel t (adat (bvdat r) idx)).
Proof.
  intros H.
  assert (H' : exists q, gives (b_represent_as m deg fuel nokw P CLonLat) q /\ exists pr, gives (b_broadcast (bvdat v) q) pr /\
    exists y, gives (b_map [] (fun '(x, p) => match x, p with
                    | [a; b; c], PLonLat _ lat _ => ret [(if to then nmul a (ncos lat) else ndiv a (ncos lat)); b; c]
                    | [_; _; _], _ => Raise EAttribute
                    | _, _ => Raise EType end) pr) y /\ r = mkBVel t y).
  { unfold bf, t in *. destruct to; [unfold b_lonlat_to_lcl in H|unfold b_lcl_to_lonlat in H];
    apply gives_bind in H as (q & Hq & H); apply gives_bind in H as (pr & Hpr & H); apply gives_bind in H as (y & Hy & H);
    apply gives_ret in H as <-; eauto 10. }
  destruct H' as (q & Hq & pr & Hpr & y & Hy & ->). cbn [bvc bvdat]. apply b_map_spec in Hq as [Sq Hq].
  apply b_broadcast_spec in Hpr as [Spr Hpr]. apply b_map_spec in Hy as [Sy Hy]. rewrite Sq in *. rewrite Sy.
  split; auto. split; auto. intros idx V. specialize (Hy _ V). rewrite Hpr in Hy by auto.
  assert (VP : valid (ash P) (align (ash P) idx)). { apply (align_valid _ (ash pr)); auto. apply Spr. cbn; auto. }
  specialize (Hq _ VP). set (p := adat P _) in *. set (x := adat (bvdat v) _) in *. set (p' := adat q _) in *.
  unfold f, t. destruct to; [unfold lonlat_to_lcl|unfold lcl_to_lonlat]; cbn [vcomps];
  (destruct x as [|a [|b [|c [|]]]]; try (now apply gives_raise in Hy));
  (destruct p'; try (now apply gives_raise in Hy)); apply gives_ret in Hy as <-; apply gives_bind; eexists; (split; [|now apply gives_ret]);
  unfold latitude; apply gives_bind; eexists; (split; [exact Hq|]); now apply gives_ret.
Qed.

Lemma b_lcl_total (to : bool) v P s (bf := if to then b_lonlat_to_lcl m deg fuel else b_lcl_to_lonlat m deg fuel)
  (f := if to then lonlat_to_lcl m deg fuel else lcl_to_lonlat m deg fuel) :
  is_broadcast [ash (bvdat v); ash P] s -> prod s <> 0 ->
  (forall idx, valid (ash P) idx -> exists y, gives (represent_as m deg fuel nokw (adat P idx) CLonLat) y) ->
  (forall idx, valid s idx -> exists y,
    gives (f (mkVel (bvc v) (adat (bvdat v) (align (ash (bvdat v)) idx))) (adat P (align (ash P) idx))) y) ->
  exists r, gives (bf v P) r.
Proof.
  intros B NZ HP H. destruct (b_map_total p0 (fun p => represent_as m deg fuel nokw p CLonLat) P HP) as [q Hq].
  pose proof (b_map_spec _ _ _ _ Hq) as [Sq Hq']. rewrite <- Sq in B.
  destruct (b_broadcast_total (bvdat v) q s B) as (pr & Hpr & Epr).
  pose proof (b_broadcast_spec _ _ _ Hpr) as [_ Hpr']. rewrite Epr in Hpr'.
  destruct (b_map_total [] (fun '(x, p) => match x, p with
                    | [a; b; c], PLonLat _ lat _ => ret [(if to then nmul a (ncos lat) else ndiv a (ncos lat)); b; c]
                    | [_; _; _], _ => Raise EAttribute
                    | _, _ => Raise EType end) pr) as [y Hy].
  { rewrite Epr. intros idx V. rewrite Hpr' by auto. destruct (H idx V) as [z Hz]. rewrite Sq.
    assert (VP : valid (ash P) (align (ash P) idx)). { apply (align_valid _ s); auto. rewrite <- Sq. apply B. cbn; auto. }
    specialize (Hq' _ VP). unfold f in Hz. destruct to; [unfold lonlat_to_lcl in Hz|unfold lcl_to_lonlat in Hz]; cbn [vcomps] in Hz;
    set (x := adat (bvdat v) _) in *; (destruct x as [|a [|b [|c [|]]]]; try (now apply gives_raise in Hz));
    apply gives_bind in Hz as (lat & Hl & Hz); unfold latitude in Hl; apply gives_bind in Hl as (p & Hp & Hl);
    rewrite (gives_det _ _ _ Hq' Hp); destruct p; try (now apply gives_raise in Hl); eexists; now apply gives_ret. }
  unfold bf. destruct to; eexists; apply gives_bind; exists q; (split; [exact Hq|]); apply gives_bind; exists pr; (split; [exact Hpr|]);
  apply gives_bind; exists y; (split; [exact Hy|]); now apply gives_ret.
Qed.

Lemma lonlat_of_lcl (to : bool) v p y : gives ((if to then lonlat_to_lcl m deg fuel else lcl_to_lonlat m deg fuel) v p) y ->
  exists q, gives (represent_as m deg fuel nokw p CLonLat) q.
Proof.
  destruct to; [unfold lonlat_to_lcl|unfold lcl_to_lonlat];
  (destruct (vcomps v) as [|a [|b [|c [|]]]]; try (intros H; now apply gives_raise in H));
  intros H; apply gives_bind in H as (l & H & _); unfold latitude in H; apply gives_bind in H as (q & H & _); eauto.
Qed.

Notation b_rep := (b_vel_represent_as m deg fuel).
Notation rep1 := (vel_represent_as m deg fuel).
Notation el v idx := (mkVel (bvc v) (adat (bvdat v) idx)).

(** Positions and velocities of the same shape: element by element *)
Lemma b_same_spec kw v t P r : ash P = ash (bvdat v) -> gives (b_rep kw v t P) r ->
  bvc r = t /\ ash (bvdat r) = ash (bvdat v) /\
  forall idx, valid (ash (bvdat v)) idx -> gives (rep1 kw (el v idx) t (adat P idx)) (mkVel t (adat (bvdat r) idx)).
Proof.
  intros S H. set (s := ash (bvdat v)) in *.
  assert (G : forall kw u t r, ash (bvdat u) = s -> gives (b_vel_generic m deg fuel kw u t P) r -> bvc r = t /\ ash (bvdat r) = s /\
     forall idx, valid s idx -> gives (vel_generic m deg fuel kw (el u idx) t (adat P idx)) (el r idx)).
  { intros kw0 u t0 r0 Su Hr. apply b_generic_spec in Hr as (_ & A & B & C). rewrite Su, S in *. split; auto. split; auto.
    intros idx V. specialize (C idx V). rewrite partner_self in C by auto. now rewrite A. }
  assert (L : forall (to : bool) u r, ash (bvdat u) = s -> gives ((if to then b_lonlat_to_lcl m deg fuel else b_lcl_to_lonlat m deg fuel) u P) r ->
     bvc r = (if to then WLonCosLat else WLonLat) /\ ash (bvdat r) = s /\
     forall idx, valid s idx -> gives ((if to then lonlat_to_lcl m deg fuel else lcl_to_lonlat m deg fuel) (el u idx) (adat P idx)) (el r idx)).
  { intros to u r0 Su Hr. apply b_lcl_spec in Hr as (A & B & C). rewrite Su, S in *.
    assert (E : ash (bvdat r0) = s) by (eapply broadcast_unique; [exact B|apply is_broadcast_same]). rewrite E in *.
    split; auto. split; auto. intros idx V. specialize (C idx V). rewrite !align_self in C by auto. now rewrite A. }
  unfold b_vel_represent_as in H. unfold vel_represent_as. cbn [vc].
  destruct (vcls_eqb (bvc v) t && negb (vcls_eqb t WTwoSphere)) eqn:Self.
  { apply gives_ret in H as <-. assert (bvc v = t) by (destruct (bvc v), t; try discriminate; reflexivity).
    split; auto. split; auto. intros. apply gives_ret. now f_equal. }
  destruct (negb (vdim (bvc v) =? vdim t)); [now apply gives_raise in H|].
  assert (K1 : forall k, gives (b_vel_generic m deg fuel k v t P) r -> bvc r = t /\ ash (bvdat r) = s /\
     forall idx, valid s idx -> gives (vel_generic m deg fuel k (el v idx) t (adat P idx)) (mkVel t (adat (bvdat r) idx))).
  { intros k Hg. destruct (G k v t r eq_refl Hg) as (A & B & C). rewrite A in C. auto. }
  assert (K2 : t = WLonCosLat -> gives (do v' <- b_vel_generic m deg fuel nokw v WLonLat P; b_lonlat_to_lcl m deg fuel v' P) r ->
     bvc r = t /\ ash (bvdat r) = s /\ forall idx, valid s idx ->
     gives (do v' <- vel_generic m deg fuel nokw (el v idx) WLonLat (adat P idx); lonlat_to_lcl m deg fuel v' (adat P idx)) (mkVel t (adat (bvdat r) idx))).
  { intros -> Hg. apply gives_bind in Hg as (v' & A & B). destruct (G _ _ _ _ eq_refl A) as (A1 & A2 & A3).
    destruct (L true v' r A2 B) as (B1 & B2 & B3). split; auto. split; auto. intros idx V. apply gives_bind.
    exists (el v' idx). split; auto. specialize (B3 idx V). now rewrite B1 in B3. }
  assert (K3 : gives (do v' <- b_lcl_to_lonlat m deg fuel v P; b_vel_generic m deg fuel nokw v' t P) r ->
     bvc r = t /\ ash (bvdat r) = s /\ forall idx, valid s idx ->
     gives (do v' <- lcl_to_lonlat m deg fuel (el v idx) (adat P idx); vel_generic m deg fuel nokw v' t (adat P idx)) (mkVel t (adat (bvdat r) idx))).
  { intros Hg. apply gives_bind in Hg as (v' & A & B). destruct (L false v v' eq_refl A) as (A1 & A2 & A3).
    destruct (G _ _ _ _ A2 B) as (B1 & B2 & B3). split; auto. split; auto. intros idx V. apply gives_bind.
    exists (el v' idx). split; auto. specialize (B3 idx V). now rewrite B1 in B3. }
  assert (K4 : t = WLonLat -> gives (b_lcl_to_lonlat m deg fuel v P) r -> bvc r = t /\ ash (bvdat r) = s /\
     forall idx, valid s idx -> gives (lcl_to_lonlat m deg fuel (el v idx) (adat P idx)) (mkVel t (adat (bvdat r) idx))).
  { intros -> Hg. destruct (L false v r eq_refl Hg) as (A & B & C). rewrite A in C. auto. }
  assert (K5 : t = WLonCosLat -> gives (b_lonlat_to_lcl m deg fuel v P) r -> bvc r = t /\ ash (bvdat r) = s /\
     forall idx, valid s idx -> gives (lonlat_to_lcl m deg fuel (el v idx) (adat P idx)) (mkVel t (adat (bvdat r) idx))).
  { intros -> Hg. destruct (L true v r eq_refl Hg) as (A & B & C). rewrite A in C. auto. }
  clear G L. destruct (bvc v) eqn:Ev; destruct t eqn:Et;
  first [exact (K1 _ H)|exact (K4 eq_refl H)|exact (K5 eq_refl H)|exact (K2 eq_refl H)|exact (K3 H)].
Qed.

Lemma b_same_total kw v t P : ash P = ash (bvdat v) -> prod (ash (bvdat v)) <> 0 ->
  (forall idx, valid (ash (bvdat v)) idx -> exists y, gives (rep1 kw (el v idx) t (adat P idx)) y) ->
  exists r, gives (b_rep kw v t P) r.
Proof.
  intros S NZ H. set (s := ash (bvdat v)) in *.
  assert (G : forall kw u t, ash (bvdat u) = s ->
     (forall idx, valid s idx -> exists y, gives (vel_generic m deg fuel kw (el u idx) t (adat P idx)) y) ->
     exists r, gives (b_vel_generic m deg fuel kw u t P) r /\ bvc r = t /\ ash (bvdat r) = s /\
     forall idx, valid s idx -> gives (vel_generic m deg fuel kw (el u idx) t (adat P idx)) (el r idx)).
  { intros kw0 u t0 Su Hu. destruct (b_generic_total m deg fuel kw0 u t0 P) as [r Hr]; rewrite ?S, ?Su; auto.
    intros idx V. rewrite partner_self by auto. auto.
    exists r. split; auto. apply b_generic_spec in Hr as (_ & A & B & C). rewrite Su, S in *. split; auto. split; auto.
    intros idx V. specialize (C idx V). rewrite partner_self in C by auto. now rewrite A. }
  assert (L : forall (to : bool) u, ash (bvdat u) = s ->
     (forall idx, valid s idx -> exists y, gives ((if to then lonlat_to_lcl m deg fuel else lcl_to_lonlat m deg fuel) (el u idx) (adat P idx)) y) ->
     exists r, gives ((if to then b_lonlat_to_lcl m deg fuel else b_lcl_to_lonlat m deg fuel) u P) r /\
     bvc r = (if to then WLonCosLat else WLonLat) /\ ash (bvdat r) = s /\
     forall idx, valid s idx -> gives ((if to then lonlat_to_lcl m deg fuel else lcl_to_lonlat m deg fuel) (el u idx) (adat P idx)) (el r idx)).
  { intros to u Su Hu. destruct (b_lcl_total to u P s) as [r Hr]; auto.
    - rewrite Su, S. apply is_broadcast_same.
    - rewrite S. intros idx V. destruct (Hu idx V) as [y Hy]. now apply lonlat_of_lcl in Hy.
    - intros idx V. rewrite Su, S, align_self by auto. auto.
    - exists r. split; auto. apply b_lcl_spec in Hr as (A & B & C). rewrite Su, S in *.
      assert (E : ash (bvdat r) = s) by (eapply broadcast_unique; [exact B|apply is_broadcast_same]). rewrite E in *.
      split; auto. split; auto. intros idx V. specialize (C idx V). rewrite !align_self in C by auto. now rewrite A. }
  destruct (H (unravel_index s 0)) as [y0 H0]. { apply unravel_valid. lia. }
  unfold b_vel_represent_as. unfold vel_represent_as in H, H0. cbn [vc] in *.
  destruct (vcls_eqb (bvc v) t && negb (vcls_eqb t WTwoSphere)) eqn:Self.
  { eexists. now apply gives_ret. }
  destruct (negb (vdim (bvc v) =? vdim t)); [now apply gives_raise in H0|].
  assert (K1 : forall k, (forall idx, valid s idx -> exists y, gives (vel_generic m deg fuel k (el v idx) t (adat P idx)) y) ->
    exists r, gives (b_vel_generic m deg fuel k v t P) r).
  { intros k Hg. destruct (G k v t eq_refl Hg) as (r & A & _). eauto. }
  assert (K2 : (forall idx, valid s idx -> exists y, gives (do v' <- vel_generic m deg fuel nokw (el v idx) WLonLat (adat P idx); lonlat_to_lcl m deg fuel v' (adat P idx)) y) ->
    exists r, gives (do v' <- b_vel_generic m deg fuel nokw v WLonLat P; b_lonlat_to_lcl m deg fuel v' P) r).
  { intros Hg. destruct (G nokw v WLonLat eq_refl) as (v' & A1 & A2 & A3 & A4).
    { intros idx V. destruct (Hg idx V) as [y Hy]. apply gives_bind in Hy as (x & Hx & _). eauto. }
    destruct (L true v' A3) as (r & B1 & _).
    { intros idx V. destruct (Hg idx V) as [y Hy]. apply gives_bind in Hy as (x & Hx & Hy). rewrite (gives_det _ _ _ (A4 idx V) Hx). eauto. }
    exists r. apply gives_bind. eauto. }
  assert (K3 : (forall idx, valid s idx -> exists y, gives (do v' <- lcl_to_lonlat m deg fuel (el v idx) (adat P idx); vel_generic m deg fuel nokw v' t (adat P idx)) y) ->
    exists r, gives (do v' <- b_lcl_to_lonlat m deg fuel v P; b_vel_generic m deg fuel nokw v' t P) r).
  { intros Hg. destruct (L false v eq_refl) as (v' & A1 & A2 & A3 & A4).
    { intros idx V. destruct (Hg idx V) as [y Hy]. apply gives_bind in Hy as (x & Hx & _). eauto. }
    destruct (G nokw v' t A3) as (r & B1 & _).
    { intros idx V. destruct (Hg idx V) as [y Hy]. apply gives_bind in Hy as (x & Hx & Hy). rewrite (gives_det _ _ _ (A4 idx V) Hx). eauto. }
    exists r. apply gives_bind. eauto. }
  assert (K4 : (forall idx, valid s idx -> exists y, gives (lcl_to_lonlat m deg fuel (el v idx) (adat P idx)) y) ->
    exists r, gives (b_lcl_to_lonlat m deg fuel v P) r).
  { intros Hg. destruct (L false v eq_refl Hg) as (r & A & _). eauto. }
  assert (K5 : (forall idx, valid s idx -> exists y, gives (lonlat_to_lcl m deg fuel (el v idx) (adat P idx)) y) ->
    exists r, gives (b_lonlat_to_lcl m deg fuel v P) r).
  { intros Hg. destruct (L true v eq_refl Hg) as (r & A & _). eauto. }
  clear G L. destruct (bvc v) eqn:Ev; destruct t eqn:Et;
  first [exact (K1 _ H)|exact (K4 H)|exact (K5 H)|exact (K2 H)|exact (K3 H)].
Qed.
End LCL.

Section Acc.
Variables (m : mode) (deg : bool) (fuel : nat).
Notation el v idx := (mkVel (bvc v) (adat (bvdat v) idx)).
Notation ela v idx := (mkAcc (bxc v) (adat (bxdat v) idx)).

(** the converting branch on one element *)
Lemma acc_gives kw a t v p y (vsrc := acc_integral_cls (xc a)) (vtgt := acc_integral_cls t) :
  gives (do cp <- represent_as m deg fuel kw p (integral_cls vsrc);
         do cp <- cast_distance m cp;
         do _ <- vel_represent_as m deg fuel kw v vsrc cp;
         do _ <- can_map (integral_cls vsrc);
         do j <- jacobian deg fuel nokw cp (integral_cls vtgt);
         match vtgt with
         | WProlate => Raise EType
         | _ => ret (mkAcc t (matvec (vdim vtgt) j (xcomps a)))
         end) y <->
  exists cp cp' u z, gives (represent_as m deg fuel kw p (integral_cls vsrc)) cp /\ gives (cast_distance m cp) cp' /\
    gives (vel_represent_as m deg fuel kw v vsrc cp') u /\ integral_cls vsrc <> CProlate /\
    gives (push1 deg fuel nokw (vdim vtgt) (integral_cls vtgt) cp' (xcomps a)) z /\ vtgt <> WProlate /\ y = mkAcc t z.
Proof.
  split.
  - intros H. apply gives_bind in H as (cp & H1 & H). apply gives_bind in H as (cp' & H2 & H). apply gives_bind in H as (u & H3 & H).
    apply gives_bind in H as (u' & H4 & H). apply gives_bind in H as (j & H5 & H).
    exists cp, cp', u, (matvec (vdim vtgt) j (xcomps a)). repeat split; auto.
    + intros E. rewrite E in H4. now apply gives_raise in H4.
    + apply gives_bind. exists j. split; auto. now apply gives_ret.
    + intros E. rewrite E in H. now apply gives_raise in H.
    + destruct vtgt; try (now apply gives_raise in H); apply gives_ret in H; now rewrite H.
  - intros (cp & cp' & u & z & H1 & H2 & H3 & H4 & H5 & H6 & ->). apply gives_bind in H5 as (j & H5 & E). apply gives_ret in E as <-.
    apply gives_bind. exists cp. split; auto. apply gives_bind. exists cp'. split; auto. apply gives_bind. exists u. split; auto.
    apply gives_bind. exists tt. split. destruct (integral_cls vsrc); try congruence; now apply gives_ret.
    apply gives_bind. exists j. split; auto. destruct vtgt; try congruence; now apply gives_ret.
Qed.

Lemma b_acc_spec kw a t v P r : gives (b_acc_represent_as m deg fuel kw a t v P) r ->
  bxc r = t /\ ash (bxdat r) = ash (bxdat a) /\
  (ash P = ash (bxdat a) -> ash (bvdat v) = ash (bxdat a) -> forall idx, valid (ash (bxdat a)) idx ->
   gives (acc_represent_as m deg fuel kw (ela a idx) t (el v idx) (adat P idx)) (mkAcc t (adat (bxdat r) idx))).
Proof.
  unfold b_acc_represent_as, acc_represent_as. cbn [xc]. set (vsrc := acc_integral_cls (bxc a)). set (vtgt := acc_integral_cls t).
  destruct (negb (vdim vsrc =? vdim vtgt)); [intros H; now apply gives_raise in H|].
  destruct (xcls_eqb (bxc a) t && (vdim vsrc =? 1)) eqn:Self.
  { intros H. apply gives_ret in H as <-. assert (bxc a = t) by (destruct (bxc a), t; try discriminate; reflexivity).
    split; auto. split; auto. intros _ _ idx _. apply gives_ret. now f_equal. }
  set (s := ash (bxdat a)). intros H.
  assert (F : forall T (x : arr T) y, gives (arr_reshape x [Z.of_nat (prod s)]) y -> prod (ash x) = prod s /\
     y = mkArr [prod s] (fun idx => adat x (unravel_index (ash x) (ravel_index [prod s] idx)))).
  { intros T x y Hy. destruct (Nat.eq_dec (prod (ash x)) (prod s)) as [E|E].
    - rewrite flat_at in Hy by auto. apply gives_ret in Hy. auto.
    - change [Z.of_nat (prod s)] with (map Z.of_nat [prod s]) in Hy. rewrite (reshape_bad x) in Hy by (rewrite prod1; auto).
      now apply gives_raise in Hy. }
  apply gives_bind in H as (P' & HP & H). apply F in HP as [EP ->].
  apply gives_bind in H as (w & Hw & H). apply F in Hw as [Ew ->].
  apply gives_bind in H as (cp & H1 & H). apply gives_bind in H as (cp' & H2 & H). apply gives_bind in H as (u & H3 & H).
  apply gives_bind in H as (u' & H4 & H). apply gives_bind in H as (x & Hx & H). apply F in Hx as [_ ->].
  apply gives_bind in H as (y & H5 & H).
  apply b_map_spec in H1 as [S1 H1]. apply b_map_spec in H2 as [S2 H2]. apply b_map_spec in H5 as [S5 H5].
  cbn [ash adat b_pair] in *. rewrite S2, S1 in *.
  assert (NT : vtgt <> WProlate) by (intros E; rewrite E in H; now apply gives_raise in H).
  assert (H' : gives (do y <- arr_reshape y (map Z.of_nat s); ret (mkBAcc t y)) r) by (destruct vtgt; auto; congruence). clear H.
  rewrite reshape_to in H' by (rewrite S5, prod1; auto). apply gives_bind in H' as (y' & Hy & H). apply gives_ret in H as <-.
  apply gives_ret in Hy as <-. cbn [bxc bxdat ash adat]. split; auto. split; auto. intros SP Sv idx V.
  apply b_same_spec in H3 as (_ & _ & H3); [|cbn [bvdat ash]; congruence]. cbn [bvdat ash adat bvc] in H3.
  set (k := ravel_index s idx). assert (Lk : k < prod s) by now apply ravel_lt.
  assert (Vk : valid [prod s] [k]) by (apply valid1; eauto).
  specialize (H1 _ Vk). specialize (H2 _ Vk). specialize (H3 _ Vk). specialize (H5 _ Vk). cbn [b_pair adat] in H5.
  rewrite ?ravel1 in *. rewrite SP, ?Sv in *. fold s in H5.
  replace (unravel_index s k) with idx in * by (symmetry; now apply unravel_ravel).
  rewrite S5. cbn [unravel_index]. cbn [prod fold_right]. rewrite Nat.div_1_r.
  apply (acc_gives kw (ela a idx) t). cbn [xc xcomps]. eexists _, _, _, _. split; [exact H1|]. split; [exact H2|].
  split; [exact H3|]. split; [|split; [exact H5|split; [exact NT|reflexivity]]].
  intros C. fold vsrc in C. rewrite C in H4. now apply gives_raise in H4.
Qed.

Lemma b_acc_total kw a t v P : ash P = ash (bxdat a) -> ash (bvdat v) = ash (bxdat a) -> prod (ash (bxdat a)) <> 0 ->
  (forall idx, valid (ash (bxdat a)) idx -> exists y, gives (acc_represent_as m deg fuel kw (ela a idx) t (el v idx) (adat P idx)) y) ->
  exists r, gives (b_acc_represent_as m deg fuel kw a t v P) r.
Proof.
  unfold b_acc_represent_as, acc_represent_as. cbn [xc]. set (vsrc := acc_integral_cls (bxc a)). set (vtgt := acc_integral_cls t).
  set (s := ash (bxdat a)). intros SP Sv NZ H.
  destruct (H (unravel_index s 0)) as [y0 H0]. { apply unravel_valid. lia. }
  destruct (negb (vdim vsrc =? vdim vtgt)); [now apply gives_raise in H0|].
  destruct (xcls_eqb (bxc a) t && (vdim vsrc =? 1)) eqn:Self. { eexists. now apply gives_ret. }
  clear y0 H0.
  assert (Hk : forall k, k < prod s -> exists cp cp' u z,
    gives (represent_as m deg fuel kw (adat P (unravel_index s k)) (integral_cls vsrc)) cp /\ gives (cast_distance m cp) cp' /\
    gives (vel_represent_as m deg fuel kw (el v (unravel_index s k)) vsrc cp') u /\ integral_cls vsrc <> CProlate /\
    gives (push1 deg fuel nokw (vdim vtgt) (integral_cls vtgt) cp' (adat (bxdat a) (unravel_index s k))) z /\ vtgt <> WProlate).
  { intros k Lk. destruct (H (unravel_index s k)) as [y Hy]. now apply unravel_valid.
    apply (acc_gives kw (ela a (unravel_index s k)) t) in Hy as (cp & cp' & u & z & A & B & C & D & E & F & _). cbn [xc xcomps] in *. eauto 12. }
  clear H.
  assert (NP : integral_cls vsrc <> CProlate /\ vtgt <> WProlate).
  { destruct (Hk 0) as (? & ? & ? & ? & _ & _ & _ & N & _ & N'); auto; lia. }
  destruct NP as [NP NT].
  rewrite (flat_at P), (flat_at (bvdat v)), (flat_at (bxdat a)) by (rewrite ?SP, ?Sv; auto).
  rewrite SP, Sv. fold s. set (P' := mkArr [prod s] (fun idx => adat P _)). set (w := mkArr [prod s] (fun idx => adat (bvdat v) _)).
  set (x := mkArr [prod s] (fun idx => adat (bxdat a) _)).
  destruct (b_map_total p0 (fun p => represent_as m deg fuel kw p (integral_cls vsrc)) P') as [cp H1].
  { intros idx V. apply valid1 in V as (k & Lk & ->). destruct (Hk k Lk) as (c & _ & _ & _ & A & _). cbn [adat P']. rewrite ravel1. eauto. }
  pose proof (b_map_spec _ _ _ _ H1) as [S1 H1'].
  destruct (b_map_total p0 (cast_distance m) cp) as [cp' H2].
  { intros idx V. rewrite S1 in V. specialize (H1' _ V). cbn in V. apply valid1 in V as (k & Lk & ->).
    destruct (Hk k Lk) as (c & c' & _ & _ & A & B & _). cbn [adat P'] in H1'. rewrite ravel1 in H1'. rewrite (gives_det _ _ _ H1' A). eauto. }
  pose proof (b_map_spec _ _ _ _ H2) as [S2 H2']. rewrite S1 in S2, H2'.
  assert (At : forall k, k < prod s -> exists c c', gives (represent_as m deg fuel kw (adat P (unravel_index s k)) (integral_cls vsrc)) c /\
     gives (cast_distance m c) c' /\ adat cp' [k] = c').
  { intros k Lk. assert (Vk : valid (ash P') [k]) by (apply valid1; eauto). specialize (H1' _ Vk). specialize (H2' _ Vk).
    cbn [adat P'] in H1'. rewrite ravel1 in H1'. eauto. }
  assert (At' : forall k, k < prod s -> exists u z, gives (vel_represent_as m deg fuel kw (el v (unravel_index s k)) vsrc (adat cp' [k])) u /\
     gives (push1 deg fuel nokw (vdim vtgt) (integral_cls vtgt) (adat cp' [k]) (adat (bxdat a) (unravel_index s k))) z).
  { intros k Lk. destruct (At k Lk) as (c & c' & A1 & A2 & <-). destruct (Hk k Lk) as (d & d' & u & z & B1 & B2 & B3 & _ & B4 & _).
    rewrite (gives_det _ _ _ B1 A1) in B2. rewrite (gives_det _ _ _ B2 A2) in *. eauto. }
  destruct (b_same_total m deg fuel kw (mkBVel (bvc v) w) vsrc cp') as [u Hu]; cbn [bvdat bvc w ash adat].
  { now rewrite S2. } { now rewrite prod1. }
  { intros idx V. apply valid1 in V as (k & Lk & ->). rewrite ravel1. destruct (At' k Lk) as (u & z & A & _). eauto. }
  destruct (b_map_total [] (fun '(p, x) => do j <- jacobian deg fuel nokw p (integral_cls vtgt); ret (matvec (vdim vtgt) j x)) (b_pair cp' x)) as [y H3].
  { intros idx V. cbn [b_pair ash adat] in *. rewrite S2 in V. cbn [ash P'] in V. apply valid1 in V as (k & Lk & ->).
    destruct (At' k Lk) as (u' & z & _ & A). cbn [x adat]. rewrite ravel1. eauto. }
  pose proof (b_map_spec _ _ _ _ H3) as [S3 _]. cbn [b_pair ash] in S3. rewrite S2 in S3.
  eexists. apply gives_bind. exists P'. split; [now apply gives_ret|]. apply gives_bind. exists w. split; [now apply gives_ret|].
  apply gives_bind. exists cp. split; [exact H1|]. apply gives_bind. exists cp'. split; [exact H2|].
  apply gives_bind. exists u. split; [exact Hu|]. apply gives_bind. exists tt. split.
  { destruct (integral_cls vsrc); try congruence; now apply gives_ret. }
  apply gives_bind. exists x. split; [now apply gives_ret|]. apply gives_bind. exists y. split; [exact H3|].
  assert (K : gives (do y <- arr_reshape y (map Z.of_nat s); ret (mkBAcc t y)) (mkBAcc t (mkArr s (fun idx => adat y (unravel_index (ash y) (ravel_index s idx)))))).
  { rewrite reshape_to by (rewrite S3; symmetry; apply prod1). apply gives_bind. eexists. split; now apply gives_ret. }
  destruct vtgt; try congruence; exact K.
Qed.
End Acc.
