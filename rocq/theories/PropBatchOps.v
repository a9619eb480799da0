(** * C54: an operator applied to a batch acts on every element.

    Specification vocabulary as for C47: [is_index] (index into a shape), [is_broadcast]
    (numpy's broadcasting), [align] (the index read after broadcasting), [gives]. *)
From Coq Require Import Reals List Bool ZArith Arith Lia Lra FunctionalExtensionality.
From Verif Require Import Num Vectors Transform Arith Vel FourVec Operators Shapes ShapesThm Batch BatchThm BatchOps Arrays.
From Verif Require Import Spec SpecVel SpecOp OpThm OpInv OpGlue PropOp PropOp3.
Import ListNotations.
Open Scope nat_scope.
Notation is_index := ShapesThm.valid.

(** the batch has shape [s]: its arrays broadcast to [s] (a FourVector: the positions
    have shape [s] already) *)
Definition has_shape (x : bvalue) (s : list nat) : Prop :=
  match x with
  | BPos Q => ash Q = s
  | BPosT Q T => is_broadcast [ash Q; ash T] s
  | BFour T Q _ => ash Q = s /\ is_broadcast [ash T; ash Q] s
  end.
(** the element at index [idx] *)
Definition item (x : bvalue) (idx : list nat) : value ext :=
  match x with
  | BPos Q => VPos (adat Q idx)
  | BPosT Q T => VPosT (adat Q (align (ash Q) idx)) (adat T (align (ash T) idx))
  | BFour T Q c => VFour (mkFV (adat T (align (ash T) idx)) (adat Q idx) c)
  end.

(** What [jax.lax] can broadcast: a scalar with anything, or arrays of the same rank. *)
Definition lax_compatible (a b : list nat) : Prop := a = [] \/ b = [] \/ length a = length b.
Definition ranks (x : bvalue) : Prop :=
  match x with BPos _ => True | BPosT Q T | BFour T Q _ => lax_compatible (ash Q) (ash T) end.
(** Does the operator contain a Galilean boost? *)
Fixpoint boosts {A} (o : op A) : Prop :=
  match o with
  | OBoost _ | OGalilean _ _ _ => True
  | OPipe ops => (fix any l := match l with [] => False | o :: l => boosts o \/ any l end) ops
  | _ => False
  end.

(** ** Lemmas on shapes *)
Lemma lax_shapes_spec a b s : lax_shapes a b = ret s <-> lax_compatible a b /\ is_broadcast [a; b] s.
Proof.
  unfold lax_shapes, lax_compatible. rewrite <- broadcast_shapes_spec.
  assert (C : match a, b with [], _ | _, [] => true | _, _ => Nat.eqb (length a) (length b) end = true <-> a = [] \/ b = [] \/ length a = length b).
  { destruct a as [|x a]; [tauto|]. destruct b as [|y b]; [tauto|]. rewrite Nat.eqb_eq. split; [auto|]. intros [K|[K|K]]; try discriminate K; exact K. }
  destruct (match a, b with [], _ | _, [] => true | _, _ => Nat.eqb (length a) (length b) end).
  - destruct (broadcast_shapes [a; b]) as [w t|e]; unfold ret; intuition (try discriminate; auto).
  - split; [discriminate|]. intros [K _]. apply C in K. discriminate K.
Qed.
Lemma b_lax_spec {T U} (a : arr T) (b : arr U) pr : gives (b_lax a b) pr ->
  lax_compatible (ash a) (ash b) /\ is_broadcast [ash a; ash b] (ash pr) /\
  forall idx, is_index (ash pr) idx -> adat pr idx = (adat a (align (ash a) idx), adat b (align (ash b) idx)).
Proof.
  unfold b_lax. rewrite gives_bind. intros (s & [w H] & E). apply gives_ret in E as <-.
  assert (H' : lax_shapes (ash a) (ash b) = ret s).
  { unfold lax_shapes, broadcast_shapes in *. destruct (match ash a, ash b with [], _ | _, [] => true | _, _ => _ end); [|discriminate H]. destruct (bcall _); unfold ret in *; congruence. }
  apply lax_shapes_spec in H' as [C H']. split; [exact C|]. cbn [b_pair ash broadcast_to]. split; auto.
  intros idx V. cbn [b_pair adat broadcast_to]. pose proof (valid_length _ _ V) as L. destruct H' as [F _].
  rewrite !bidx_align; auto; rewrite L; apply F; cbn; auto.
Qed.
Lemma b_lax_total {T U} (a : arr T) (b : arr U) s : lax_compatible (ash a) (ash b) -> is_broadcast [ash a; ash b] s -> exists pr, gives (b_lax a b) pr /\ ash pr = s.
Proof.
  intros C H. assert (K : lax_shapes (ash a) (ash b) = ret s) by (apply lax_shapes_spec; auto). eexists. split. unfold b_lax. rewrite K. apply gives_bind. exists s.
  split; now apply gives_ret. reflexivity.
Qed.
Lemma is_broadcast_swap a b s : is_broadcast [a; b] s -> is_broadcast [b; a] s.
Proof.
  intros [F G]. split. intros c [<-|[<-|[]]]; apply F; cbn; auto.
  intros k n H. destruct (G k n H) as (c & Hc & E). exists c. split; auto. cbn in *. tauto.
Qed.
Lemma fits_refl s : fits s s. Proof. split; auto. Qed.
Lemma is_broadcast_full a b s : is_broadcast [a; b] s -> is_broadcast [s; b] s.
Proof.
  intros [F G]. split. intros c [<-|[<-|[]]]. apply fits_refl. apply F; cbn; auto.
  intros k n H. exists s. split; cbn; auto.
Qed.
Lemma align_reverse_onto a b : fitsr a b -> Forall (fun n => 0 < n) b -> forall j, is_index a j -> exists i, is_index b i /\ bidx a i = j.
Proof.
  revert b; induction a as [|x a IH]; intros b F P j V.
  - inversion V; subst. exists (map (fun _ => 0) b). split; [|now destruct b].
    clear F V. induction P; constructor; auto.
  - destruct b as [|y b]; [destruct F as [F _]; cbn in F; lia|]. apply fitsr_cons in F as [E F].
    inversion P; subst. inversion V as [|? k ? j' Hk Vj]; subst.
    destruct (IH b F H2 j' Vj) as (i & Vi & Ei). destruct (Nat.eqb_spec x 1) as [->|Nx].
    + exists (0 :: i). split; [constructor; auto|]. cbn. f_equal; auto. lia.
    + destruct E as [|<-]; [contradiction|]. exists (k :: i). split; [constructor; auto|]. cbn.
      destruct (Nat.eqb_spec x 1); [contradiction|]. now f_equal.
Qed.
Lemma prod_pos s : prod s <> 0 -> Forall (fun n => 0 < n) s.
Proof. induction s as [|n s IH]; intros H; [constructor|]. rewrite prod_cons in H. constructor; [destruct n; lia|apply IH; intros E; apply H; rewrite E; lia]. Qed.
(** every element of a broadcast array is used *)
Lemma align_onto c s : fits c s -> prod s <> 0 -> forall j, is_index c j -> exists i, is_index s i /\ align c i = j.
Proof.
  intros F NZ j V. apply prod_pos in NZ. pose proof (proj1 (fits_fitsr _ _) F) as F'.
  destruct (align_reverse_onto (rev c) (rev s) F') with (j := rev j) as (i & Vi & E).
  { apply Forall_rev; auto. } { now apply valid_rev. }
  exists (rev i). assert (Vi' : is_index s (rev i)) by (rewrite <- (rev_involutive s); now apply valid_rev). split; auto.
  rewrite <- bidx_align by (rewrite (valid_length _ _ Vi'); apply F). rewrite rev_involutive, E. apply rev_involutive.
Qed.

Section Ops.
Variables (m : mode) (deg : bool) (fuel : nat).

Variable need : Prop.
Definition elementwise (bf : bvalue -> res bvalue) (f : value ext -> res (value ext)) : Prop :=
  forall x s, has_shape x s ->
  (forall y, gives (bf x) y -> has_shape y s /\ forall idx, is_index s idx -> gives (f (item x idx)) (item y idx)) /\
  (forall y, gives (bf x) y -> ranks x -> ranks y) /\
  (prod s <> 0 -> (need -> ranks x) -> (forall idx, is_index s idx -> exists y, gives (f (item x idx)) y) -> exists y, gives (bf x) y).

Lemma ew_ret : elementwise ret ret.
Proof.
  intros x s H. split; [|split]. intros y E. apply gives_ret in E as <-. split; auto. intros. now apply gives_ret.
  intros y E. apply gives_ret in E as <-. auto.
  intros. eexists. now apply gives_ret.
Qed.
Lemma ew_bind bf f bg g : elementwise bf f -> elementwise bg g ->
  elementwise (fun x => do y <- bf x; bg y) (fun x => do y <- f x; g y).
Proof.
  intros Hf Hg x s H. destruct (Hf x s H) as (F1 & F3 & F2). split; [|split].
  - intros z E. apply gives_bind in E as (y & Ey & Ez). destruct (F1 y Ey) as [S E]. destruct (Hg y s S) as [G1 _].
    destruct (G1 z Ez) as [S' E']. split; auto. intros idx V. apply gives_bind. eauto.
  - intros z E. apply gives_bind in E as (y & Ey & Ez). destruct (F1 y Ey) as [S _]. destruct (Hg y s S) as (_ & G3 & _). eauto.
  - intros NZ RX E. destruct F2 as [y Hy]; auto.
    { intros idx V. destruct (E idx V) as [z Hz]. apply gives_bind in Hz as (y & Hy & _). eauto. }
    destruct (F1 y Hy) as [S E']. destruct (Hg y s S) as (_ & _ & G2). destruct G2 as [z Hz]; eauto.
    { intros idx V. destruct (E idx V) as [z Hz]. apply gives_bind in Hz as (y' & Hy' & Hz).
      rewrite (gives_det _ _ _ (E' idx V) Hy'). eauto. }
    exists z. apply gives_bind. eauto.
Qed.
Lemma ew_raise (bf : bvalue -> res bvalue) (f : value ext -> res (value ext)) x s e e' :
  bf x = Raise e -> (forall idx, f (item x idx) = Raise e') -> has_shape x s ->
  (forall y, gives (bf x) y -> has_shape y s /\ forall idx, is_index s idx -> gives (f (item x idx)) (item y idx)) /\
  (prod s <> 0 -> (forall idx, is_index s idx -> exists y, gives (f (item x idx)) y) -> exists y, gives (bf x) y).
Proof.
  intros E E' _. split. intros y H. rewrite E in H. now apply gives_raise in H.
  intros NZ H. destruct (H (unravel_index s 0)) as [y Hy]. apply unravel_valid; lia. rewrite E' in Hy. now apply gives_raise in Hy.
Qed.

(** maps of the positions, read through broadcasting *)
Lemma map_fits (f : pos ext -> res (pos ext)) (Q : bpos) s : fits (ash Q) s ->
  (forall Q', gives (b_map p0 f Q) Q' -> ash Q' = ash Q /\ forall idx, is_index s idx -> gives (f (adat Q (align (ash Q) idx))) (adat Q' (align (ash Q') idx))) /\
  (prod s <> 0 -> (forall idx, is_index s idx -> exists y, gives (f (adat Q (align (ash Q) idx))) y) -> exists Q', gives (b_map p0 f Q) Q').
Proof.
  intros F. split.
  - intros Q' H. apply b_map_spec in H as [S H]. split; auto. intros idx V. rewrite S. apply H. now apply (align_valid _ s).
  - intros NZ H. apply b_map_total. intros j V. destruct (align_onto _ _ F NZ j V) as (i & Vi & <-). auto.
Qed.
Lemma four_ok T Q c s : ash Q = s -> is_broadcast [ash T; ash Q] s -> gives (b_four T Q c) (BFour T Q c).
Proof.
  intros <- B. unfold b_four. apply broadcast_shapes_spec in B. rewrite B. apply gives_bind. exists (ash Q). split. now apply gives_ret.
  unfold shape_eqb. destruct list_eq_dec; [|contradiction]. now apply gives_ret.
Qed.

(** a map of the positions and a map of the times *)
Lemma ew_map_four (f : pos ext -> res (pos ext)) (g : ext -> ext) (h : ext -> ext) T Q c s
  (T' := mkArr (ash T) (fun i => g (adat T i))) : has_shape (BFour T Q c) s ->
  (forall y, gives (do Q' <- b_map p0 f Q; b_four T' Q' (h c)) y -> has_shape y s /\
     forall idx, is_index s idx -> gives (do q' <- f (adat Q idx); ret (VFour (mkFV (g (adat T (align (ash T) idx))) q' (h c)))) (item y idx)) /\
  (prod s <> 0 -> (forall idx, is_index s idx -> exists y, gives (do q' <- f (adat Q idx); ret (VFour (mkFV (g (adat T (align (ash T) idx))) q' (h c)))) y) ->
   exists y, gives (do Q' <- b_map p0 f Q; b_four T' Q' (h c)) y).
Proof.
  intros [S B]. split.
  - intros y H. apply gives_bind in H as (Q' & H & E). apply b_map_spec in H as [S' H].
    assert (E' : gives (b_four T' Q' (h c)) (BFour T' Q' (h c))) by (apply (four_ok _ _ _ s); cbn; rewrite ?S', ?S; auto; now rewrite S in B).
    rewrite (gives_det _ _ _ E E'). cbn [has_shape item]. split. { cbn; rewrite ?S', ?S; split; auto. now rewrite S in B. }
    intros idx V. apply gives_bind. exists (adat Q' idx). split. apply H. now rewrite S. now apply gives_ret.
  - intros NZ H. destruct (b_map_total p0 f Q) as [Q' HQ].
    { rewrite S. intros idx V. destruct (H idx V) as [y Hy]. apply gives_bind in Hy as (q & Hq & _). eauto. }
    pose proof (b_map_spec _ _ _ _ HQ) as [S' _]. eexists. apply gives_bind. exists Q'. split; [exact HQ|].
    apply (four_ok _ _ _ s); cbn; rewrite ?S', ?S; auto. now rewrite S in B.
Qed.
Lemma ew_map_post (f : pos ext -> res (pos ext)) (g : ext -> ext) T Q s
  (T' := mkArr (ash T) (fun i => g (adat T i))) : has_shape (BPosT Q T) s ->
  (forall y, gives (do Q' <- b_map p0 f Q; ret (BPosT Q' T')) y -> has_shape y s /\
     forall idx, is_index s idx -> gives (do q' <- f (adat Q (align (ash Q) idx)); ret (VPosT q' (g (adat T (align (ash T) idx))))) (item y idx)) /\
  (prod s <> 0 -> (forall idx, is_index s idx -> exists y, gives (do q' <- f (adat Q (align (ash Q) idx)); ret (VPosT q' (g (adat T (align (ash T) idx))))) y) ->
   exists y, gives (do Q' <- b_map p0 f Q; ret (BPosT Q' T')) y).
Proof.
  intros B. pose proof B as [F _]. assert (FQ : fits (ash Q) s) by (apply F; cbn; auto).
  destruct (map_fits f Q s FQ) as [M1 M2]. split.
  - intros y H. apply gives_bind in H as (Q' & H & E). apply gives_ret in E as <-. destruct (M1 _ H) as [S' K].
    split. cbn. rewrite S'. exact B. intros idx V. apply gives_bind. eexists. split; [apply K; auto|]. now apply gives_ret.
  - intros NZ H. destruct M2 as [Q' HQ]; auto.
    { intros idx V. destruct (H idx V) as [y Hy]. apply gives_bind in Hy as (q & Hq & _). eauto. }
    eexists. apply gives_bind. exists Q'. split; [exact HQ|]. now apply gives_ret.
Qed.
Lemma ew_map_pos (f : pos ext -> res (pos ext)) Q s : has_shape (BPos Q) s ->
  (forall y, gives (do Q' <- b_map p0 f Q; ret (BPos Q')) y -> has_shape y s /\
     forall idx, is_index s idx -> gives (do q' <- f (adat Q idx); ret (VPos q')) (item y idx)) /\
  (prod s <> 0 -> (forall idx, is_index s idx -> exists y, gives (do q' <- f (adat Q idx); ret (VPos q')) y) ->
   exists y, gives (do Q' <- b_map p0 f Q; ret (BPos Q')) y).
Proof.
  cbn [has_shape]. intros S. split.
  - intros y H. apply gives_bind in H as (Q' & H & E). apply gives_ret in E as <-. apply b_map_spec in H as [S' H].
    split. cbn. congruence. intros idx V. apply gives_bind. eexists. split; [apply H; now rewrite S|]. now apply gives_ret.
  - intros NZ H. destruct (b_map_total p0 f Q) as [Q' HQ].
    { rewrite S. intros idx V. destruct (H idx V) as [y Hy]. apply gives_bind in Hy as (q & Hq & _). eauto. }
    eexists. apply gives_bind. exists Q'. split; [exact HQ|]. now apply gives_ret.
Qed.

Lemma boost_spec v Q T s : is_broadcast [ash Q; ash T] s ->
  (forall Q', gives (b_boost m deg fuel v Q T) Q' -> ash Q' = s /\
     forall idx, is_index s idx -> gives (boost_pos m deg fuel v (adat Q (align (ash Q) idx)) (adat T (align (ash T) idx))) (adat Q' idx)) /\
  (prod s <> 0 -> lax_compatible (ash Q) (ash T) -> (forall idx, is_index s idx -> exists y, gives (boost_pos m deg fuel v (adat Q (align (ash Q) idx)) (adat T (align (ash T) idx))) y) ->
   exists Q', gives (b_boost m deg fuel v Q T) Q').
Proof.
  intros B. unfold b_boost, boost_pos. split.
  - intros Q' H. apply gives_bind in H as (D & HD & H). apply gives_bind in H as (pr & Hpr & H).
    apply b_map_spec in HD as [SD HD]. apply b_lax_spec in Hpr as (_ & Spr & Hpr). apply b_map_spec in H as [SQ H].
    rewrite SD in Spr. assert (Es : ash pr = s) by (eapply broadcast_unique; eauto). rewrite Es in *. split; [congruence|].
    intros idx V. specialize (H idx V). rewrite Hpr in H by auto. apply gives_bind. eexists. split; [|exact H].
    rewrite SD. apply HD. apply (align_valid _ s); auto. apply B. cbn; auto.
  - intros NZ LC H. destruct (b_map_total p0 (vel_mul_time m v) T) as [D HD].
    { intros j V. assert (F : fits (ash T) s) by (apply B; cbn; auto). destruct (align_onto _ _ F NZ j V) as (i & Vi & <-).
      destruct (H i Vi) as [y Hy]. apply gives_bind in Hy as (d & Hd & _). eauto. }
    pose proof (b_map_spec _ _ _ _ HD) as [SD HD']. rewrite <- SD in B, LC.
    destruct (b_lax_total Q D s LC B) as (pr & Hpr & Epr). pose proof (b_lax_spec _ _ _ Hpr) as (_ & _ & Hpr'). rewrite Epr in Hpr'.
    destruct (b_map_total p0 (fun '(q, d) => pos_add m deg fuel q d) pr) as [Q' HQ].
    { rewrite Epr. intros idx V. rewrite Hpr' by auto. destruct (H idx V) as [y Hy]. apply gives_bind in Hy as (d & Hd & Hy).
      assert (VT : is_index (ash T) (align (ash D) idx)). { rewrite <- SD. apply (align_valid _ s); auto. apply B; cbn; auto. }
      specialize (HD' _ VT). rewrite <- SD in Hd. rewrite (gives_det _ _ _ HD' Hd). eauto. }
    exists Q'. apply gives_bind. exists D. split; auto. apply gives_bind. exists pr. split; auto.
Qed.

Lemma arr_eta {A} (a : arr A) : mkArr (ash a) (fun i => adat a i) = a. Proof. now destruct a. Qed.

Lemma ew_single2 o x s : has_shape x s ->
  (forall y, gives (b_call_single m deg fuel o x) y -> has_shape y s /\ forall idx, is_index s idx -> gives (call_vec m deg fuel o (item x idx)) (item y idx)) /\
  (prod s <> 0 -> (boosts o -> ranks x) -> (forall idx, is_index s idx -> exists y, gives (call_vec m deg fuel o (item x idx)) y) -> exists y, gives (b_call_single m deg fuel o x) y).
Proof.
  intros H.
  assert (W : forall (o0 : op ext), o = o0 -> (forall v, o0 <> OBoost v) ->
    ((forall y, gives (b_call_single m deg fuel o0 x) y -> has_shape y s /\ forall idx, is_index s idx -> gives (call_vec m deg fuel o0 (item x idx)) (item y idx)) /\
     (prod s <> 0 -> (forall idx, is_index s idx -> exists y, gives (call_vec m deg fuel o0 (item x idx)) y) -> exists y, gives (b_call_single m deg fuel o0 x) y)) ->
    (forall y, gives (b_call_single m deg fuel o0 x) y -> has_shape y s /\ forall idx, is_index s idx -> gives (call_vec m deg fuel o0 (item x idx)) (item y idx)) /\
    (prod s <> 0 -> (boosts o0 -> ranks x) -> (forall idx, is_index s idx -> exists y, gives (call_vec m deg fuel o0 (item x idx)) y) -> exists y, gives (b_call_single m deg fuel o0 x) y)).
  { intros o0 _ _ [A B]. split; auto. }
  destruct o as [|tr|w|M|v|v|ops|M w v].
  - split; [intros y E|]. cbn in E. apply gives_ret in E as <-. split; auto. intros. now apply gives_ret.
    intros. eexists. now apply gives_ret.
  - apply (W (OSpatial tr) eq_refl); [discriminate|]. clear W. destruct x as [Q|Q T|T Q c]; cbn [b_call_single call_vec item].
    + exact (ew_map_pos (fun q => pos_add m deg fuel q tr) Q s H).
    + pose proof (ew_map_post (fun q => pos_add m deg fuel q tr) (fun t => t) T Q s H) as K. cbv beta zeta in K. rewrite (arr_eta T) in K. exact K.
    + pose proof (ew_map_four (fun q => pos_add m deg fuel q tr) (fun t => t) (fun t => t) T Q c s H) as K. cbv beta zeta in K. rewrite (arr_eta T) in K. exact K.
  - apply (W (OTranslation w) eq_refl); [discriminate|]. clear W. destruct x as [Q|Q T|T Q c]; cbn [b_call_single call_vec item].
    + exact (ew_raise (b_call_single m deg fuel (OTranslation w)) (call_vec m deg fuel (OTranslation w)) (BPos Q) s _ _ eq_refl (fun _ => eq_refl) H).
    + pose proof H as [F _]. assert (FQ : fits (ash Q) s) by (apply F; cbn; auto). clear F.
      set (f1 := fun q : pos ext => match dim_of (cls_of q) with 3 => ret q | _ => Raise ENotFound end) in *.
      set (f2 := fun q : pos ext => pos_add m deg fuel q (fq w)) in *.
      assert (Ef : forall q t, match dim_of (cls_of q) with 3 => do q' <- pos_add m deg fuel q (fq w); ret (VPosT q' (nadd t (ft w))) | _ => Raise ENotFound end =
        do q' <- (do q <- f1 q; f2 q); ret (VPosT q' (nadd t (ft w)))).
      { intros q t. unfold f1, f2. destruct (dim_of (cls_of q)) as [|[|[|[|]]]]; try reflexivity. unfold ret at 2. cbn [bind].
        destruct (pos_add _ _ _ _ _); reflexivity. }
      assert (Eb : forall Q'', gives (do Q <- b_need3 Q; b_shift m deg fuel (fq w) Q) Q'' ->
                   ash Q'' = ash Q /\
                   forall idx, is_index (ash Q) idx -> gives (do q <- f1 (adat Q idx); f2 q) (adat Q'' idx)).
      { intros Q'' E. apply gives_bind in E as (Q1 & E1 & E2). apply b_map_spec in E1 as [S1 E1]. apply b_map_spec in E2 as [S2 E2].
        split; [congruence|]. intros idx V. apply gives_bind. eexists. split; [apply E1; auto|]. apply E2. now rewrite S1. }
      split.
      * intros y E. assert (E' : exists Q'', gives (do Q <- b_need3 Q; b_shift m deg fuel (fq w) Q) Q'' /\ y = BPosT Q'' (b_later (ft w) T)).
        { apply gives_bind in E as (Q1 & E1 & E). apply gives_bind in E as (Q2 & E2 & E). apply gives_ret in E as <-.
          exists Q2. split; auto. apply gives_bind. eauto. }
        destruct E' as (Q'' & E' & ->). destruct (Eb Q'' E') as [S E''].
        split. cbn. rewrite S. exact H. intros idx V. rewrite Ef. cbn [item]. apply gives_bind. eexists. split.
        { apply E''. now apply (align_valid _ s). } rewrite S. now apply gives_ret.
      * intros NZ E. assert (E1 : forall j, is_index (ash Q) j -> exists y, gives (do q <- f1 (adat Q j); f2 q) y).
        { intros j V. destruct (align_onto _ _ FQ NZ j V) as (i & Vi & <-). destruct (E i Vi) as [y Hy]. rewrite Ef in Hy.
          apply gives_bind in Hy as (q & Hq & _). eauto. }
        destruct (b_map_total p0 f1 Q) as [Q1 H1].
        { intros j V. destruct (E1 j V) as [y Hy]. apply gives_bind in Hy as (q & Hq & _). eauto. }
        pose proof (b_map_spec _ _ _ _ H1) as [S1 H1'].
        destruct (b_map_total p0 f2 Q1) as [Q2 H2].
        { rewrite S1. intros j V. destruct (E1 j V) as [y Hy]. apply gives_bind in Hy as (q & Hq & Hy).
          rewrite (gives_det _ _ _ (H1' j V) Hq). eauto. }
        exists (BPosT Q2 (b_later (ft w) T)). apply gives_bind. exists Q1. split; [exact H1|]. apply gives_bind. exists Q2. split; [exact H2|now apply gives_ret].
    + pose proof (ew_map_four (fun q => pos_add m deg fuel q (fq w)) (fun t => nadd t (ft w)) (fun c => c) T Q c s H) as [K1 K2]. cbv zeta in *.
      fold (b_later (ft w) T) in *.
      assert (Ef : forall q t, (do v' <- fv_add m deg fuel (mkFV t q c) w; ret (VFour v')) =
        do q' <- pos_add m deg fuel q (fq w); ret (VFour (mkFV (nadd t (ft w)) q' c))).
      { intros q t. unfold fv_add. cbn [fq ft fc]. destruct (pos_add _ _ _ _ _) as [[] ?|?]; reflexivity. }
      split.
      * intros y E. destruct (K1 y E) as [A B]. split; auto. intros idx V. rewrite Ef. now apply B.
      * intros NZ E. apply K2; auto. intros idx V. destruct (E idx V) as [y Hy]. rewrite Ef in Hy. eauto.
  - apply (W (ORotation M) eq_refl); [discriminate|]. clear W. destruct x as [Q|Q T|T Q c]; cbn [b_call_single call_vec item].
    + exact (ew_map_pos (rotate m deg fuel M) Q s H).
    + pose proof (ew_map_post (rotate m deg fuel M) (fun t => t) T Q s H) as K. cbv beta zeta in K. rewrite (arr_eta T) in K. exact K.
    + pose proof (ew_map_four (rotate m deg fuel M) (fun t => t) (fun _ => ncst c_light) T Q c s H) as K. cbv beta zeta in K. rewrite (arr_eta T) in K. exact K.
  - destruct x as [Q|Q T|T Q c]; cbn [b_call_single call_vec item].
    + destruct (ew_raise (b_call_single m deg fuel (OBoost v)) (call_vec m deg fuel (OBoost v)) (BPos Q) s _ _ eq_refl (fun _ => eq_refl) H) as [R1 R2]. split; [exact R1|intros NZ _; exact (R2 NZ)].
    + destruct (boost_spec v Q T s H) as [K1 K2]. split.
      * intros y E. apply gives_bind in E as (Q' & E & Ey). apply gives_ret in Ey as <-. destruct (K1 Q' E) as [S E'].
        split. { cbn. rewrite S. now apply is_broadcast_full in H. }
        intros idx V. apply gives_bind. eexists. split; [apply E'; auto|]. apply gives_ret. cbn [item]. rewrite S, (align_self s idx) by auto. reflexivity.
      * intros NZ RX E. destruct K2 as [Q' HQ]; [exact NZ|exact (RX I)| |].
        { intros idx V. destruct (E idx V) as [y Hy]. apply gives_bind in Hy as (q & Hq & _). eauto. }
        eexists. apply gives_bind. exists Q'. split; [exact HQ|now apply gives_ret].
    + pose proof H as [S B]. pose proof B as B'. rewrite S in B'. cbn [fq ft fc]. destruct (boost_spec v Q T s (is_broadcast_swap _ _ _ B)) as [K1 K2]. 
      assert (Al : forall idx, is_index s idx -> align (ash Q) idx = idx) by (intros; rewrite S; now apply align_self). split.
      * intros y E. apply gives_bind in E as (Q' & E & Ey). destruct (K1 Q' E) as [S' E'].
        assert (G : gives (b_four T Q' c) (BFour T Q' c)) by (apply (four_ok _ _ _ s); [exact S'|rewrite S'; exact B']).
        rewrite (gives_det _ _ _ Ey G). split. { cbn. split; auto. rewrite S'; exact B'. }
        intros idx V. apply gives_bind. eexists. split; [|now apply gives_ret]. specialize (E' idx V). rewrite Al in E' by auto. exact E'.
      * intros NZ RX E. destruct K2 as [Q' HQ]; [exact NZ|exact (RX I)| |].
        { intros idx V. destruct (E idx V) as [y Hy]. apply gives_bind in Hy as (q & Hq & _). rewrite Al by auto. eauto. }
        destruct (K1 Q' HQ) as [S' _]. eexists. apply gives_bind. exists Q'. split; [exact HQ|].
        apply (four_ok _ _ _ s); [exact S'|rewrite S'; exact B'].
  - split; [intros y E|]. destruct x; cbn in E; apply gives_ret in E as <-; (split; auto); intros; cbn; now apply gives_ret.
    intros. eexists. now apply gives_ret.
  - apply (W (OPipe ops) eq_refl); [discriminate|]. apply (ew_raise (b_call_single m deg fuel (OPipe ops)) (call_vec m deg fuel (OPipe ops)) x s ENotFound ENotFound); auto; destruct x; reflexivity.
  - apply (W (OGalilean M w v) eq_refl); [discriminate|]. apply (ew_raise (b_call_single m deg fuel (OGalilean M w v)) (call_vec m deg fuel (OGalilean M w v)) x s ENotFound ENotFound); auto; destruct x; reflexivity.
Qed.

Lemma broadcast_len a b s : is_broadcast [a; b] s -> length s = Nat.max (length a) (length b).
Proof.
  intros [F G]. assert (L1 : length a <= length s) by (apply F; cbn; auto). assert (L2 : length b <= length s) by (apply F; cbn; auto).
  destruct (length s) as [|k] eqn:E; [lia|].
  destruct (axis s k) as [n|] eqn:A; [|apply nth_error_None in A; rewrite rev_length in A; lia].
  destruct (G k n A) as (c & Hc & Ac). assert (K : k < length c) by (rewrite <- rev_length; apply nth_error_Some; unfold axis in Ac; congruence).
  destruct Hc as [<-|[<-|[]]]; lia.
Qed.
Lemma broadcast_rank a b s : lax_compatible a b -> is_broadcast [a; b] s -> lax_compatible s b.
Proof.
  intros C B. pose proof (broadcast_len _ _ _ B) as L. destruct C as [-> | [-> | E] ]; [right; right; cbn in L; lia|right; left; reflexivity|right; right; lia].
Qed.
Lemma ranks_single o x y s : has_shape x s -> gives (b_call_single m deg fuel o x) y -> ranks x -> ranks y.
Proof.
  assert (F4 : forall T Q c y, gives (b_four T Q c) y -> y = BFour T Q c).
  { intros T Q c z Hz. unfold b_four in Hz. apply gives_bind in Hz as (s0 & _ & Hz). destruct (shape_eqb s0 (ash Q)); [now apply gives_ret in Hz|now apply gives_raise in Hz]. }
  intros H E RX. destruct o as [|tr|w|M|v|v|ops|M w v], x as [Q|Q T|T Q c]; cbn [b_call_single] in E; try (now apply gives_raise in E); try (now apply gives_ret in E; subst y).
  all: apply gives_bind in E as (Q' & E1 & E).
  all: try (apply gives_ret in E; subst y); try (apply F4 in E; subst y); try exact I; cbn [ranks] in *.
  all: try (apply b_map_spec in E1 as [S1 _]; rewrite S1; exact RX).
  - apply gives_bind in E as (Q2 & E2 & E). apply gives_ret in E as <-. apply b_map_spec in E1 as [S1 _]. apply b_map_spec in E2 as [S2 _]. cbn [ranks b_later ash]. rewrite S2, S1. exact RX.
  - destruct (boost_spec v Q T s H) as [K _]. destruct (K _ E1) as [S' _]. rewrite S'. exact (broadcast_rank _ _ _ RX H).
  - destruct H as [S B]. destruct (boost_spec v Q T s (is_broadcast_swap _ _ _ B)) as [K _]. destruct (K _ E1) as [S' _]. rewrite S', <- S. exact RX.
Qed.
Lemma ew_single o : (boosts o -> need) -> elementwise (b_call_single m deg fuel o) (call_vec m deg fuel o).
Proof.
  intros N x s H. destruct (ew_single2 o x s H) as [A B]. split; [exact A|]. split; [intros y E; exact (ranks_single o x y s H E)|].
  intros NZ RX. apply B; auto.
Qed.
Lemma call_single_vec o x idx : call_single m deg fuel o (item x idx) = call_vec m deg fuel o (item x idx).
Proof. destruct o, x; reflexivity. Qed.
Lemma ew_ext bf f g : (forall x idx, f (item x idx) = g (item x idx)) -> elementwise bf f -> elementwise bf g.
Proof.
  intros E H x s S. destruct (H x s S) as (A & C & B). split; [|split; [exact C|] ].
  - intros y Hy. destruct (A y Hy) as [P K]. split; auto. intros idx V. rewrite <- E. auto.
  - intros NZ RX K. apply B; auto. intros idx V. rewrite E. auto.
Qed.

Fixpoint op_size (o : op ext) : nat :=
  match o with OPipe ops => S (fold_right (fun o n => S (op_size o) + n) 0 ops) | _ => 1 end.

Lemma ew_call o : (boosts o -> need) -> elementwise (b_call m deg fuel o) (call m deg fuel o).
Proof.
  remember (op_size o) as n eqn:En. assert (L : op_size o <= n) by lia. clear En. revert o L.
  induction n as [|n IH]; intros o L ND; [destruct o; cbn in L; lia|].
  assert (Si : forall o, (boosts o -> need) -> (forall x, b_call m deg fuel o x = b_call_single m deg fuel o x) -> (forall x, call m deg fuel o x = call_single m deg fuel o x) ->
     elementwise (b_call m deg fuel o) (call m deg fuel o)).
  { intros o0 N0 E1 E2. apply (ew_ext _ (call_vec m deg fuel o0)). { intros x idx. rewrite E2. symmetry. apply call_single_vec. }
    intros x s S. rewrite E1. exact (ew_single o0 N0 x s S). }
  destruct o as [|tr|w|M|v|v|ops|M w v]; try (apply Si; [exact ND|reflexivity|reflexivity]).
  - set (go := fix go (ops : list (op ext)) (x : value ext) : res (value ext) :=
      match ops with [] => ret x | o :: ops => do y <- call m deg fuel o x; go ops y end).
    apply (ew_ext _ (go ops)). { intros x idx. destruct x; reflexivity. }
    set (bgo := fix go (ops : list (op ext)) (x : bvalue) : res bvalue :=
      match ops with [] => ret x | o :: ops => do y <- b_call m deg fuel o x; go ops y end).
    change (elementwise (bgo ops) (go ops)). assert (L' : fold_right (fun o n => S (op_size o) + n) 0 ops <= n) by (change (S (fold_right (fun o n => S (op_size o) + n) 0 ops) <= S n) in L; lia). clear L.
    assert (ND' : forall o, In o ops -> boosts o -> need).
    { intros o Ho Bo. apply ND. clear - Ho Bo. change ((fix any l := match l with [] => False | o :: l => boosts o \/ any l end) ops). induction ops as [|a l IHl]; [destruct Ho|]. destruct Ho as [<-|Ho]; [left; exact Bo|right; exact (IHl Ho)]. }
    clear ND. induction ops as [|o ops IHo]; [apply ew_ret|].
    change (S (op_size o) + fold_right (fun o n => S (op_size o) + n) 0 ops <= n) in L'.
    apply (ew_bind (b_call m deg fuel o) (call m deg fuel o) (bgo ops) (go ops)). apply IH; [lia|apply ND'; now left]. apply IHo; [lia|intros o' Ho'; apply ND'; now right].
  - assert (E : elementwise (fun x => do y <- b_call_single m deg fuel (ORotation M) x; do z <- b_call_single m deg fuel (OTranslation w) y; b_call_single m deg fuel (OBoost v) z)
      (fun x => do y <- call_vec m deg fuel (ORotation M) x; do z <- call_vec m deg fuel (OTranslation w) y; call_vec m deg fuel (OBoost v) z)).
    { apply ew_bind; [apply ew_single; intros []|]. apply ew_bind; apply ew_single; [intros []|intros _; exact (ND I)]. }
    apply (ew_ext (b_call m deg fuel (OGalilean M w v))
      (fun x => do y <- call_vec m deg fuel (ORotation M) x; do z <- call_vec m deg fuel (OTranslation w) y; call_vec m deg fuel (OBoost v) z)); [|exact E].
    intros x idx. destruct x as [Q|Q T|T Q c].
    + cbn [item call call_single call_vec]. destruct (rotate _ _ _ _ _) as [[] ?|]; reflexivity.
    + cbn [item call call_single call_vec]. destruct (rotate _ _ _ _ _) as [w1 q'|]; [|reflexivity]. cbn [bind ret call_single call_vec].
      destruct (dim_of (cls_of q')) as [|[|[|[|]]]]; try reflexivity; (destruct (pos_add _ _ _ _ _); reflexivity).
    + cbn [item call call_single call_vec fq]. destruct (rotate _ _ _ _ _) as [w1 q'|]; [|reflexivity]. cbn [bind ret call_single call_vec fq ft fc].
      destruct (fv_add _ _ _ _ _); reflexivity.
Qed.
End Ops.

(** The result of [op(batch)] has the shape of the batch, and its element at every index
    is the result of [op] on the element there; the call succeeds iff it does on every
    element (for batches with at least one element), where a boost needs positions and
    times that [jax.lax] can broadcast.  Every operator: pipes of any depth, Galilean
    operators. *)
Theorem C54_operators_act_elementwise : forall m deg f o x s, has_shape x s ->
  (forall y, gives (b_call m deg f o x) y -> has_shape y s /\
     forall idx, is_index s idx -> gives (call m deg f o (item x idx)) (item y idx)) /\
  (forall y, gives (b_call m deg f o x) y -> ranks x -> ranks y) /\
  (prod s <> 0 -> (boosts o -> ranks x) -> (forall idx, is_index s idx -> exists y, gives (call m deg f o (item x idx)) y) ->
   exists y, gives (b_call m deg f o x) y).
Proof. intros m deg f o. exact (ew_call m deg f (boosts o) o (fun H => H)). Qed.
Print Assumptions C54_operators_act_elementwise.

Lemma boosts_finite (o : op R) : boosts (ofinite o) -> boosts o.
Proof.
  revert o. fix IH 1. intros [|tr|w|M|v|v|ops|M w v]; cbn [ofinite boosts]; auto.
  induction ops as [|a l IHl]; cbn [map]; [auto|]. intros [K|K]; [left; exact (IH a K)|right; exact (IHl K)].
Qed.
(** Together with C29: a whole batch of positions and times is moved by the map of
    events of the operator, the times broadcast against the positions. *)
Theorem C54_batch_of_events : forall m deg f n o (sq st s : list nat) (Q : list nat -> pos R) (T : list nat -> R)
    (x : list nat -> list R) (e' : list nat -> event),
  good n o -> is_broadcast [sq; st] s -> (boosts o -> lax_compatible sq st) -> prod s <> 0 ->
  (forall i, is_index sq i -> good_pos n (Q i) /\ denotes (Q i) (x i)) ->
  (forall i, is_index s i -> acts o (x (align sq i), T (align st i)) (e' i) /\
     forall e1, visits o (x (align sq i), T (align st i)) e1 -> can_hold (cls_of (Q (align sq i))) (fst e1)) ->
  exists y, gives (b_call m deg (4 + f) (ofinite o) (BPosT (mkArr sq (fun i => finite (Q i))) (mkArr st (fun i => Some (T i))))) y /\
    has_shape y s /\
    forall i, is_index s i -> exists q', item y i = VPosT (finite q') (Some (snd (e' i))) /\
      cls_of q' = cls_of (Q (align sq i)) /\ Spec.valid q' /\ denotes q' (fst (e' i)).
Proof.
  intros m deg f n o sq st s Q T x e' G B LC NZ HQ HA.
  set (X := BPosT _ _). assert (S : has_shape X s) by exact B.
  destruct (C54_operators_act_elementwise m deg (4 + f) (ofinite o) X s S) as (K1 & _ & K2).
  assert (E : forall i, is_index s i -> exists q', call m deg (4 + f) (ofinite o) (item X i) = Ok false (VPosT (finite q') (Some (snd (e' i)))) /\
     cls_of q' = cls_of (Q (align sq i)) /\ Spec.valid q' /\ denotes q' (fst (e' i))).
  { intros i V. assert (Vq : is_index sq (align sq i)). { apply (align_valid _ s); auto. apply B. cbn; auto. }
    destruct (HQ _ Vq) as [G1 D1]. destruct (HA i V) as [A1 A2]. destruct (e' i) as [x' t'] eqn:Ee.
    exact (C29_calls_act_on_events m deg f n o _ _ x' t' _ G G1 D1 A1 A2). }
  destruct K2 as [y Hy]; [exact NZ|intros BO; apply LC; now apply boosts_finite| |]. { intros i V. destruct (E i V) as (q' & Eq & _). eexists. exists false. exact Eq. }
  destruct (K1 y Hy) as [Sy Ey]. exists y. split; auto. split; auto. intros i V. destruct (E i V) as (q' & Eq & R1).
  exists q'. split; auto. apply (gives_det _ _ _ (Ey i V)). exists false. exact Eq.
Qed.
Print Assumptions C54_batch_of_events.
(** non-vacuity: two positions at three times, boosted *)
Example C54_batch_of_events_case :
  let v := mkVel WCart3 [1; 0; 2]%R in let st := [3; 1] in
  good 3 (OBoost v) /\ is_broadcast [[1; 2]; st] [3; 2] /\ lax_compatible [1; 2] st /\ prod [3; 2] <> 0 /\
  (forall i, is_index [1; 2] i -> good_pos 3 (PCart3 (INR (nth 0 i 0)%nat) 0%R 0%R) /\ denotes (PCart3 (INR (nth 0 i 0)%nat) 0%R 0%R) [INR (nth 0 i 0)%nat; 0%R; 0%R]) /\
  forall i (x := [INR (nth 0 (align [1; 2] i) 0)%nat; 0%R; 0%R]) (t := INR (nth 0 (align st i) 0)),
    acts (OBoost v) (x, t) (vadd x (vscale t [1; 0; 2]%R), t).
Proof.
  cbv zeta. refine (conj _ (conj _ (conj (or_intror (or_intror eq_refl)) (conj _ (conj _ _))))).
  - cbn. repeat split; auto.
  - apply broadcast_shapes_spec. reflexivity.
  - cbn; lia.
  - intros i _. repeat split; cbn; auto; discriminate.
  - intros i. cbn. reflexivity.
Qed.

Lemma boosts_app {A} (l l' : list (op A)) : boosts (OPipe (l ++ l')) <-> boosts (OPipe l) \/ boosts (OPipe l').
Proof. induction l as [|a l IH]; cbn [boosts app] in *; tauto. Qed.
Lemma boosts_inv m deg f (o o' : op ext) w : inverse m deg f o = Ok w o' -> boosts o' -> boosts o.
Proof.
  revert o o' w. fix IH 1. intros [|tr|v|M|v|v|ops|M v u] o' w E; cbn [inverse] in E; try exact (fun _ => I).
  - injection E as _ <-. auto.
  - apply Dispatch.bind_inv in E as (? & ? & ? & _ & E & _). injection E as _ <-. auto.
  - apply Dispatch.bind_inv in E as (? & ? & ? & _ & E & _). injection E as _ <-. auto.
  - injection E as _ <-. auto.
  - injection E as _ <-. auto.
  - apply Dispatch.bind_inv in E as (w1 & l & w2 & El & E & _). injection E as _ <-. revert l w1 El. induction ops as [|a ops IHl]; intros l w1 El.
    + injection El as _ <-. auto.
    + apply Dispatch.bind_inv in El as (w3 & l1 & w4 & E1 & El & _). apply Dispatch.bind_inv in El as (w5 & i & w6 & E2 & El & _). injection El as _ <-.
      rewrite boosts_app. intros [K|K]; [right; exact (IHl l1 w3 E1 K)|]. destruct K as [K|[]]. left. exact (IH a i w5 E2 K).
Qed.
(** Going forth and back on a batch of Cartesian positions returns every element. *)
Theorem C54_batch_inverse : forall m deg f m' deg' f' n o, good n o -> invertible o ->
  exists o', inverse m deg (4 + f) (ofinite o) = Ok false (ofinite o') /\
  forall (sq st s : list nat) (Q : list nat -> pos R) (T : list nat -> R),
  is_broadcast [sq; st] s -> (boosts o -> lax_compatible sq st) -> prod s <> 0 ->
  (forall i, is_index sq i -> good_pos n (Q i) /\ is_cart (cls_of (Q i)) = true) ->
  let X := BPosT (mkArr sq (fun i => finite (Q i))) (mkArr st (fun i => Some (T i))) in
  exists Y Z, gives (b_call m' deg' (4 + f') (ofinite o) X) Y /\ gives (b_call m' deg' (4 + f') (ofinite o') Y) Z /\
    has_shape Z s /\ forall i, is_index s i -> item Z i = item X i.
Proof.
  intros m deg f m' deg' f' n o G I. destruct (C25_inverse_on_cartesian m deg f m' deg' f' n o G I) as (o' & Eo & K & _).
  exists o'. split; auto. intros sq st s Q T B LC NZ HQ X.
  assert (S : has_shape X s) by exact B.
  assert (E : forall i, is_index s i -> exists y, call m' deg' (4 + f') (ofinite o) (item X i) = Ok false y /\
     call m' deg' (4 + f') (ofinite o') y = Ok false (item X i)).
  { intros i V. assert (Vq : is_index sq (align sq i)). { apply (align_valid _ s); auto. apply B. cbn; auto. }
    destruct (HQ _ Vq) as [G1 C1]. destruct (K _ (T (align st i)) G1 C1) as (q1 & t1 & E1 & E2 & _). eexists. split; [exact E1|exact E2]. }
  destruct (C54_operators_act_elementwise m' deg' (4 + f') (ofinite o) X s S) as (K1 & K3 & K2).
  destruct K2 as [Y HY]; [exact NZ|intros BO; apply LC; now apply boosts_finite| |]. { intros i V. destruct (E i V) as (y & E1 & _). exists y, false. exact E1. }
  destruct (K1 Y HY) as [SY EY].
  assert (EY' : forall i, is_index s i -> call m' deg' (4 + f') (ofinite o') (item Y i) = Ok false (item X i)).
  { intros i V. destruct (E i V) as (y & E1 & E2). replace (item Y i) with y; auto. apply (gives_det (call m' deg' (4 + f') (ofinite o) (item X i))).
    exists false; exact E1. auto. }
  destruct (C54_operators_act_elementwise m' deg' (4 + f') (ofinite o') Y s SY) as (L1 & _ & L2).
  destruct L2 as [Z HZ]; [exact NZ|intros BO; apply (K3 _ HY), LC; apply boosts_finite; exact (boosts_inv _ _ _ _ _ _ Eo BO)| |]. { intros i V. eexists. exists false. apply EY'; auto. }
  destruct (L1 Z HZ) as [SZ EZ]. exists Y, Z. split; auto. split; auto. split; auto.
  intros i V. apply (gives_det _ _ _ (EZ i V)). exists false. auto.
Qed.
Print Assumptions C54_batch_inverse.

(** Shapes that [jax.lax] does not broadcast: a boost raises; in particular (finding)
    positions and times of different ranks that numpy would broadcast, such as (2, 3) and
    (3,), also when they are the two parts of a FourVector. *)
Theorem C54_boost_needs_broadcastable : forall m deg f v Q T c,
  (forall s, ~ is_broadcast [ash Q; ash T] s) \/ ~ lax_compatible (ash Q) (ash T) ->
  (exists e, b_call m deg f (OBoost v) (BPosT Q T) = Raise e) /\
  (exists e, b_call m deg f (OBoost v) (BFour T Q c) = Raise e).
Proof.
  intros m deg f v Q T c N. cbn [b_call b_call_single]. destruct (b_boost m deg f v Q T) as [w Q'|e] eqn:E.
  - exfalso. assert (H : gives (b_boost m deg f v Q T) Q') by (now exists w). unfold b_boost in H.
    apply gives_bind in H as (D & HD & H). apply gives_bind in H as (pr & Hpr & _). apply b_map_spec in HD as [SD _].
    apply b_lax_spec in Hpr as (C & Spr & _). rewrite SD in *. destruct N as [N|N]; [now apply (N (ash pr))|contradiction].
  - split; exists e; reflexivity.
Qed.
Print Assumptions C54_boost_needs_broadcastable.
Example C54_boost_case : is_broadcast [[2; 3]; [3]] [2; 3] /\ ~ lax_compatible [2; 3] [3].
Proof. split; [now apply broadcast_shapes_spec|]. intros [K|[K|K]]; discriminate K. Qed.
(** A FourVector is only built when the times broadcast to the shape of the positions. *)
Theorem C54_four_vector_shapes : forall T Q c,
  (is_broadcast [ash T; ash Q] (ash Q) -> gives (b_four T Q c) (BFour T Q c)) /\
  (~ is_broadcast [ash T; ash Q] (ash Q) -> b_four T Q c = Raise EValue).
Proof.
  intros T Q c. split. intros B. now apply (four_ok T Q c (ash Q)).
  intros N. unfold b_four. destruct (broadcast_shapes [ash T; ash Q]) as [w s|e] eqn:E.
  - assert (E' : broadcast_shapes [ash T; ash Q] = ret s). { unfold broadcast_shapes in *. destruct (bcall _); unfold ret in *; congruence. }
    apply broadcast_shapes_spec in E'. cbn [bind]. unfold shape_eqb. destruct list_eq_dec as [->|]; [contradiction|reflexivity].
  - unfold broadcast_shapes in E. destruct (bcall _); [discriminate|]. injection E as <-. reflexivity.
Qed.
Print Assumptions C54_four_vector_shapes.

(** ** Finding: a spatial translation of positions with velocities *)
(** One position and velocity: the velocity is unchanged (as in C29). *)
Lemma sum_ext_seq (n : nat) (g : nat -> R) : sum_ext n (fun b => Some (g b)) = Some (fold_right Rplus 0%R (map g (seq 0 n))).
Proof. unfold sum_ext. generalize (seq 0 n) as l. induction l as [|a l IH]; cbn [fold_right map]; auto. rewrite IH. reflexivity. Qed.
Lemma sum_delta (n a : nat) (g : nat -> R) : a < n -> fold_right Rplus 0%R (map (fun b => (if Nat.eqb a b then g b else 0)%R) (seq 0 n)) = g a.
Proof.
  intros L. assert (K : forall l, NoDup l -> fold_right Rplus 0%R (map (fun b => (if Nat.eqb a b then g b else 0)%R) l) = (if in_dec Nat.eq_dec a l then g a else 0)%R).
  { induction l as [|b l IH]; intros ND; cbn [fold_right map]; auto. inversion ND; subst. rewrite IH by auto.
    destruct (Nat.eqb_spec a b) as [->|N].
    - destruct (in_dec Nat.eq_dec b l); [contradiction|]. destruct (in_dec Nat.eq_dec b (b :: l)) as [|K]; [lra|]. exfalso; apply K; now left.
    - destruct (in_dec Nat.eq_dec a l); destruct (in_dec Nat.eq_dec a (b :: l)) as [K|K]; try lra.
      exfalso; apply K; now right. destruct K; congruence. }
  rewrite K by apply seq_NoDup. destruct (in_dec Nat.eq_dec a (seq 0 n)) as [|N]; auto. exfalso; apply N. apply in_seq. lia.
Qed.
Theorem C54_translation_of_one_velocity : forall n (p : nat -> R), 
  exists r, b_translate_vel [] n (mkArr [n] (fun i => Some (p (nth 0 i 0)))) = ret r /\ ash r = [n] /\
    forall a, a < n -> adat r [a] = Some (p a).
Proof.
  intros n p. unfold b_translate_vel, np_matmul12, b_translation_jacobian. cbn. rewrite Nat.eqb_refl. eexists. split; [reflexivity|].
  cbn [ash adat]. split; auto. intros a L. cbn. etransitivity; [|apply f_equal; apply (sum_delta n a p L)]. rewrite <- sum_ext_seq.
  unfold sum_ext. f_equal. apply functional_extensionality. intros b. apply functional_extensionality. intros acc. f_equal.
  unfold delta. destruct (list_eq_dec Nat.eq_dec [a] [b]) as [E|E]; destruct (Nat.eqb_spec a b); try congruence; cbn; f_equal; lra.
Qed.
Print Assumptions C54_translation_of_one_velocity.
(** N positions with N velocities, N other than the dimension: raises. *)
Theorem C54_finding_translation_of_batch : forall N n (p : list nat -> ext), N <> n ->
  exists e, b_translate_vel [N] n (mkArr [N; n] p) = Raise e.
Proof.
  intros N n p H. exists EType. unfold b_translate_vel, np_matmul12, b_translation_jacobian. cbn.
  destruct (Nat.eqb_spec n N); [congruence|reflexivity].
Qed.
Print Assumptions C54_finding_translation_of_batch.
(** N = n: the result has shape (n, n, n), and holds the velocities mixed with zeros,
    instead of shape (n,). *)
Theorem C54_finding_translation_of_three : forall n (p : nat -> nat -> R),
  exists r, b_translate_vel [n] n (mkArr [n; n] (fun i => Some (p (nth 0 i 0) (nth 1 i 0)))) = ret r /\
    ash r = [n; n; n; n] /\
    forall i a j c, a < n -> i < n -> j < n -> c < n -> adat r [i; a; j; c] = Some (if Nat.eqb i j then p a c else 0%R).
Proof.
  intros n p. unfold b_translate_vel, np_matmul12, b_translation_jacobian. cbn. rewrite Nat.eqb_refl. eexists. split; [reflexivity|].
  cbn [ash adat]. split; auto. intros i a j c La Li Lj Lc. cbn.
  etransitivity; [|apply f_equal; exact (sum_delta n a (fun b => (if Nat.eqb i j then p b c else 0)%R) La)]. rewrite <- sum_ext_seq.
  unfold sum_ext. f_equal. apply functional_extensionality. intros b. apply functional_extensionality. intros acc. f_equal.
  unfold delta. destruct (list_eq_dec Nat.eq_dec [i; a] [j; b]) as [E|E]; destruct (Nat.eqb_spec a b); destruct (Nat.eqb_spec i j); try congruence; cbn; f_equal; try lra;
  exfalso; congruence.
Qed.
Print Assumptions C54_finding_translation_of_three.
