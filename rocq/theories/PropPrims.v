(** * C62: array functions on vectors and spaces; C63: attributes. *)
From Coq Require Import String List Bool ZArith Arith Lia.
From Verif Require Import Vectors Vel Space SpaceThm PropSpace Shapes ShapesThm PropShape Arrays PropArray Prims.
Import ListNotations.
Open Scope nat_scope.

(** Specification: [fits], [align], [elem], [valid], [position] (ShapesThm.v), [same],
    [has_shape] (PropArray.v). *)

Section Props.
Context {A : Type} (checks : list (A -> bool)).
Notation cons_b := (constructed_b checks).
Notation bc := (prim_broadcast checks).
Notation rs := (prim_reshape checks).
Implicit Types v w : bvec A.

(** ** Helpers *)
Lemma bret' {T U} (x : T) (f : T -> res U) : bind (ret x) f = f x.
Proof. unfold bind, ret. destruct (f x); reflexivity. Qed.
Lemma arr_bto_ok (a : arr A) s : fits (ash a) s -> arr_broadcast_to a s = ret (broadcast_to a s).
Proof.
  intros H. apply fits_fitsr in H. unfold arr_broadcast_to.
  assert (E : bcrev (rev (ash a)) (rev s) = Some (rev s)).
  { apply bcrev_spec. split; auto. split; [split; auto|auto]. }
  rewrite E. unfold shape_eqb. destruct list_eq_dec; [reflexivity|contradiction].
Qed.
Lemma arr_bto_bad (a : arr A) s : ~ fits (ash a) s -> arr_broadcast_to a s = Raise EValue.
Proof.
  intros H. unfold arr_broadcast_to. destruct (bcrev _ _) as [t|] eqn:E; auto.
  unfold shape_eqb. destruct list_eq_dec as [->|]; auto. exfalso. apply H. apply fits_fitsr. now apply bcrev_spec in E as [E _].
Qed.
Lemma fits_trans a b c : fits a b -> fits b c -> fits a c.
Proof. rewrite !fits_fitsr. apply fitsr_trans. Qed.
Lemma align_align c s t idx : fits c s -> fits s t -> valid t idx -> align c (align s idx) = align c idx.
Proof.
  intros H1 H2 Hv. pose proof (align_valid s t idx H2 Hv) as Hv'.
  rewrite <- (bidx_align c (align s idx)) by (rewrite (valid_length _ _ Hv'); apply H1).
  rewrite <- (bidx_align c idx) by (rewrite (valid_length _ _ Hv); apply (fits_trans _ _ _ H1 H2)).
  rewrite <- (bidx_align s idx) by (rewrite (valid_length _ _ Hv); apply H2). rewrite rev_involutive. f_equal.
  apply fits_fitsr in H1, H2. apply valid_rev in Hv. revert H1 H2 Hv.
  generalize (rev c) as a, (rev s) as b, (rev t) as u, (rev idx) as i. clear.
  induction a as [|x a IH]; intros b u i H1 H2 Hv; [destruct b, i; reflexivity|].
  destruct b as [|y b]; [destruct H1 as [H1 _]; cbn in H1; lia|].
  destruct u as [|z u]; [destruct H2 as [H2 _]; cbn in H2; lia|].
  inversion Hv as [|? j ? i' Hj Hv']; subst. apply fitsr_cons in H1 as [E1 H1], H2 as [E2 H2]. cbn [bidx].
  rewrite (IH b u i'); auto. f_equal. destruct (Nat.eqb_spec x 1); auto. destruct (Nat.eqb_spec y 1); auto. lia.
Qed.
Lemma removelast_snoc {T} (l : list T) x : removelast (l ++ [x]) = l.
Proof. apply removelast_last. Qed.

(** ** [jnp.broadcast_to(v, (t..., n))] *)
(** The new vector has shape [t] and every component has it; its element at [idx] is the
    element of [v] that NumPy's rule assigns to [idx]. *)
Theorem C62_broadcast v s t n : cons_b v -> v <> [] -> v_shape v = ret s -> fits s t ->
  exists w, bc v (t ++ [n]) = ret w /\ cons_b w /\ v_shape w = ret t /\ length w = length v /\
    Forall (fun a => ash a = t) w /\
    forall idx, valid t idx -> elem w idx = elem v (align s idx).
Proof.
  intros Hc Hne Hs Hf. unfold prim_broadcast. rewrite removelast_snoc.
  assert (Hfa : forall a, In a v -> fits (ash a) s) by (intros; eapply shape_fits; eauto).
  assert (Hft : forall a, In a v -> fits (ash a) t) by (intros a Ha; exact (fits_trans _ s t (Hfa a Ha) Hf)).
  rewrite (mapR_ok _ (fun a => broadcast_to a t)).
  2:{ intros a Ha. apply arr_bto_ok. now apply Hft. }
  rewrite bret'.
  assert (Hw : construct_b checks (map (fun a => broadcast_to a t) v) = ret (map (fun a => broadcast_to a t) v)).
  { apply (constructed_sub checks v); auto. apply F2_map. intros a Ha idx Hv. exists (align (ash a) idx).
    split; [apply (align_valid _ t); auto|apply bto_at; auto]. }
  assert (Hsh : forall a, In a (map (fun a => broadcast_to a t) v) -> ash a = t)
    by (intros a Ha; apply in_map_iff in Ha as (b & <- & _); reflexivity).
  exists (map (fun a => broadcast_to a t) v). rewrite Hw. split; [reflexivity|]. split; [exact Hw|].
  split; [apply shape_uniform; auto; destruct v; [contradiction|discriminate]|].
  split; [apply map_length|]. split; [now apply Forall_forall|].
  intros idx Hv. rewrite (elem_uniform _ t) by auto. rewrite map_map. unfold elem. apply map_ext_in. intros a Ha.
  rewrite (bto_at a t idx (Hft a Ha) Hv). now rewrite (align_align _ s t) by auto.
Qed.
(** It is the broadcast of the array the vector converts to, provided the last entry asked
    for is the number of components. *)
Theorem C62_broadcast_is_array_broadcast c v s t a w : convertible c -> length v = adim c -> cons_b v ->
  v_shape v = ret s -> fits s t -> to_array c v = ret a -> bc v (t ++ [adim c]) = ret w ->
  exists b, to_array c w = ret b /\ same b (broadcast_to a (t ++ [adim c])).
Proof.
  intros Hcv Hl Hc Hs Hf Ha Hw. assert (Hne : v <> []) by (intros ->; destruct c; discriminate).
  destruct (C62_broadcast v s t (adim c) Hc Hne Hs Hf) as (w' & W1 & W2 & W3 & W4 & _ & W5).
  rewrite Hw in W1. injection W1 as <-.
  destruct (C41_to_array_components c v s Hcv Hl Hs) as (a' & A1 & A2 & A3). rewrite Ha in A1. injection A1 as <-.
  destruct (C41_to_array_components c w t Hcv (eq_trans W4 Hl) W3) as (b & B1 & B2 & B3).
  exists b. split; auto. split; [exact B2|]. intros idx Hv. rewrite B2 in Hv.
  assert (Hfa : fits (ash a) (t ++ [adim c])).
  { unfold has_shape in A2. rewrite A2. rewrite fits_fitsr, !rev_app_distr. cbn [rev app]. apply fitsr_cons. split; auto. now apply fits_fitsr. }
  rewrite bto_at by auto. destruct (valid_app_inv _ _ _ Hv) as (jdx & i & -> & Hj & Hi).
  pose (d := adat a []) .
  rewrite (B3 jdx i d Hj Hi), (W5 jdx Hj).
  rewrite <- (A3 (align s jdx) i d (align_valid s t jdx Hf Hj) Hi). f_equal.
  unfold has_shape in A2. rewrite A2. unfold align. rewrite !app_length. cbn [length].
  replace (length jdx + 1 - (length s + 1)) with (length jdx - length s) by lia.
  rewrite skipn_app. replace (length jdx - length s - length jdx) with 0 by lia. cbn [skipn].
  assert (Hlen : length s = length (skipn (length jdx - length s) jdx)).
  { rewrite skipn_length. pose proof (valid_length _ _ Hj). destruct Hf as [Hf _]. lia. }
  assert (G : forall (l1 l2 m1 m2 : list nat), length l1 = length m1 -> combine (l1 ++ l2) (m1 ++ m2) = combine l1 m1 ++ combine l2 m2).
  { induction l1; intros l2 [|y m1] m2 H; cbn in *; try discriminate; auto. f_equal. apply IHl1. lia. }
  rewrite G by exact Hlen. rewrite map_app. cbn [combine map]. f_equal.
  destruct (Nat.eqb_spec (adim c) 1); [|reflexivity]. f_equal. lia.
Qed.
(** A shape some component does not fit raises ValueError. *)
Theorem C62_broadcast_incompatible v t n a : In a v -> ~ fits (ash a) t -> bc v (t ++ [n]) = Raise EValue.
Proof.
  intros Ha Hf. unfold prim_broadcast. rewrite removelast_snoc.
  enough (E : mapR (fun a => arr_broadcast_to a t) v = Raise EValue) by now rewrite E.
  induction v as [|b v IH]; [contradiction|]. cbn [mapR].
  assert (D : arr_broadcast_to b t = ret (broadcast_to b t) \/ arr_broadcast_to b t = Raise EValue).
  { unfold arr_broadcast_to. destruct (bcrev _ _); auto. destruct (shape_eqb _ _); auto. }
  destruct D as [D|D]; rewrite D; [|reflexivity]. rewrite bret'. destruct Ha as [->|Ha].
  - rewrite (arr_bto_bad a t Hf) in D. discriminate.
  - now rewrite (IH Ha).
Qed.
(** Refuted: the last entry of the shape is supposed to be the number of components; the
    function does not look at it. *)
Theorem C62_broadcast_last_axis_ignored_refuted v t n m : bc v (t ++ [n]) = bc v (t ++ [m]).
Proof. unfold prim_broadcast. now rewrite !removelast_snoc. Qed.

(** ** [jnp.reshape(v, (k, t...))] for a position *)
(** If the number of components divides [k], it is [v.reshape(k / n, t...)]: same elements
    at the same C-order positions. *)
Theorem C62_reshape v s q t : cons_b v -> uniform v s ->
  fold_right Nat.mul 1 (q * length v :: t) = length v * fold_right Nat.mul 1 s ->
  exists w, rs v (q * length v :: t) = ret w /\ cons_b w /\ v_shape w = ret (q :: t) /\ length w = length v /\
    forall idx' idx, valid (q :: t) idx' -> valid s idx -> position (q :: t) idx' = position s idx -> elem w idx' = elem v idx.
Proof.
  intros Hc Hu Hp. pose proof (proj1 Hu) as Hne. assert (Hn : 0 < length v) by (destruct v; [contradiction|cbn; lia]).
  unfold prim_reshape. rewrite Nat.div_mul by lia.
  assert (Hp' : prod (q :: t) = prod s).
  { unfold prod. cbn [fold_right] in *. apply (Nat.mul_cancel_l _ _ (length v)); [lia|]. rewrite <- Hp. lia. }
  destruct (plain_op checks v s (fun a => arr_reshape a (map Z.of_nat (q :: t)))
     (fun a => mkArr (q :: t) (fun idx => adat a (unravel_index s (ravel_index (q :: t) idx)))) (q :: t)
     (fun idx => unravel_index s (ravel_index (q :: t) idx))) as (w & W1 & W2 & W3 & W4 & W5); auto.
  - intros a Ha. unfold arr_reshape. rewrite Ha, resolve_pos, (proj2 (Nat.eqb_eq _ _) Hp'). auto.
  - intros idx Hv. apply unravel_valid. rewrite <- Hp'. now apply ravel_lt.
  - exists w. split; [exact W1|]. split; auto. split; auto. split; auto. intros idx' idx Hv' Hv E.
    rewrite W5 by auto. rewrite !position_ravel in E by auto. rewrite E, unravel_ravel; auto.
Qed.
(** Otherwise it raises TypeError, although the sizes agree; so does any component that
    is not of full shape. *)
Theorem C62_reshape_not_divisible v s k t : uniform v s ->
  fold_right Nat.mul 1 (k :: t) = length v * fold_right Nat.mul 1 s -> 0 < fold_right Nat.mul 1 s ->
  ~ (exists q, k = q * length v) -> rs v (k :: t) = Raise EType.
Proof.
  intros [Hne Hsh] Hp Hpos Hk. assert (Hn : 0 < length v) by (destruct v; [contradiction|cbn; lia]).
  unfold prim_reshape.
  assert (Ha : exists a, In a v) by (destruct v; [contradiction|eexists; now left]). destruct Ha as (b & Hb).
  rewrite (mapR_raise _ _ b EType); [reflexivity|exact Hb|]. intros y Hy. unfold arr_reshape. rewrite resolve_pos, (Hsh y Hy).
  destruct (Nat.eqb_spec (prod (k / length v :: t)) (prod s)) as [E|]; auto. exfalso. apply Hk.
  exists (k / length v). unfold prod in E. cbn [fold_right] in *. rewrite <- E in Hp, Hpos.
  pose proof (Nat.div_mod k (length v) ltac:(lia)) as D. set (T := fold_right Nat.mul 1 t) in *. nia.
Qed.
Theorem C62_reshape_partial_component v k t a : In a v ->
  prod (ash a) <> prod (k / length v :: t) -> rs v (k :: t) = Raise EType.
Proof.
  intros Ha Hp. unfold prim_reshape. set (d := k / length v) in *.
  enough (E : mapR (fun a => arr_reshape a (map Z.of_nat (d :: t))) v = Raise EType) by now rewrite E.
  clearbody d. induction v as [|b v IH]; [contradiction|]. cbn [mapR].
  destruct Ha as [->|Ha].
  - unfold arr_reshape at 1. rewrite resolve_pos. destruct (Nat.eqb_spec (prod (d :: t)) (prod (ash a))); [congruence|reflexivity].
  - unfold arr_reshape at 1. rewrite resolve_pos. destruct (Nat.eqb_spec (prod (d :: t)) (prod (ash b))); [|reflexivity].
    rewrite bret', (IH Ha). reflexivity.
Qed.
(** Refuted: "reshape to [(k, t...)]" never gives a vector whose array has that shape. *)
Theorem C62_reshape_result_shape_refuted c v s q t w b : convertible c -> length v = adim c -> cons_b v -> uniform v s ->
  fold_right Nat.mul 1 (q * length v :: t) = length v * fold_right Nat.mul 1 s ->
  rs v (q * length v :: t) = ret w -> to_array c w = ret b ->
  ash b = (q :: t) ++ [adim c] /\ ash b <> q * length v :: t.
Proof.
  intros Hcv Hl Hc Hu Hp Hw Hb. destruct (C62_reshape v s q t Hc Hu Hp) as (w' & W1 & W2 & W3 & W4 & _).
  rewrite Hw in W1. injection W1 as <-.
  destruct (C41_to_array_components c w (q :: t) Hcv (eq_trans W4 Hl) W3) as (b' & B1 & B2 & _).
  rewrite Hb in B1. injection B1 as <-. unfold has_shape in B2. split; auto. rewrite B2. intros E. apply (f_equal (@length nat)) in E.
  rewrite app_length in E. cbn [length] in E. lia.
Qed.

(** ** [v.astype(dtype)] (convert_element_type) converts every number and re-checks the
    ranges. *)
Theorem C62_astype f v : (forall i c, nth_error checks i = Some c -> forall x, c x = true -> c (f x) = true) -> cons_b v ->
  exists w, prim_astype checks f v = ret w /\ cons_b w /\ v_shape w = v_shape v /\
    forall idx, elem w idx = map f (elem v idx).
Proof.
  intros Hf Hc.
  assert (Hw : cons_b (map (arr_astype f) v)).
  { apply constructed_spec. intros i c a Hi Ha idx Hv. rewrite nth_error_map in Ha.
    destruct (nth_error v i) as [a0|] eqn:E; [|discriminate]. cbn in Ha. injection Ha as <-. cbn in *.
    apply (Hf i c Hi). apply (proj1 (constructed_spec checks v) Hc i c a0 Hi E idx Hv). }
  exists (map (arr_astype f) v). split; [exact Hw|]. split; [exact Hw|]. split.
  - unfold v_shape, v_shapes. rewrite map_map. reflexivity.
  - intros idx. unfold elem. rewrite !map_map. reflexivity.
Qed.
Theorem C62_astype_out_of_range f v i c a idx : nth_error checks i = Some c -> nth_error v i = Some a ->
  valid (ash a) idx -> c (f (adat a idx)) = false -> prim_astype checks f v = Raise EValue.
Proof.
  intros Hi Ha Hv Hbad. unfold prim_astype, construct_b. destruct (forallb _ _) eqn:E; auto. exfalso.
  assert (Hw : cons_b (map (arr_astype f) v)) by (unfold constructed_b, construct_b; now rewrite E).
  assert (Ha' : nth_error (map (arr_astype f) v) i = Some (arr_astype f a)) by (rewrite nth_error_map, Ha; reflexivity).
  pose proof (proj1 (constructed_spec checks _) Hw i c _ Hi Ha' idx Hv) as X. cbn in X. congruence.
Qed.
End Props.

(** ** Space: [T], [mT], [flatten], [ravel] act on every vector; [asdict], [shapes], [sizes] *)
Section SpaceProps.
Context (L : dimlib) (HL : dimlib_ok L) {V : Type} (shape : V -> res (list nat)) (Hq : quiet shape).
Theorem C62_space_each op s w s' n : built L shape s -> space_each L shape op s = Ok w s' ->
  match space_get L s (KStr n) with
  | Ok _ v => exists w', match op v with Ok w1 v' => space_get L s' (KStr n) = Ok w' v' /\ w' = false | Raise _ => False end
  | Raise e => space_get L s' (KStr n) = Raise e
  end.
Proof.
  intros Hb H. destruct (built_facts L HL shape Hq s Hb) as [ND HN]. unfold space_each in H.
  apply bind_Ok in H as (w1 & kw & w2 & H1 & H2 & _). apply mapM_Ok in H1.
  assert (F : Forall2 (fun '(k, v) '(k', v') => k' = k /\ exists w', op v = Ok w' v') s kw).
  { clear -H1. induction H1 as [|(k, v) (k', v') s kw (w' & H0) H IH]; constructor; auto.
    apply bind_Ok in H0 as (x1 & x & x2 & E1 & E2 & _). injection E2 as _ <- <-. eauto. }
  assert (Hk : map fst kw = map fst s) by (clear -F; induction F as [|(?, ?) (?, ?) ? ? [-> _] ? IH]; cbn; congruence).
  rewrite (C39_replace L HL shape Hq s kw w2 s' n Hb); auto.
  2:{ now rewrite Hk. }
  2:{ rewrite Hk. intros m Hm. apply HN in Hm. apply (named_iff L) in Hm as (d & _ & ->). eauto. }
  unfold space_get. clear -F. induction F as [|(k, v) (k', v') s kw [-> (w' & E)] F IH]; [reflexivity|].
  cbn [dget]. destruct (String.eqb k n); [|exact IH]. cbn [ret]. exists false. rewrite E. auto.
Qed.
Theorem C62_space_asdict s n : dget String.eqb (space_asdict s) n = match space_get L s (@KStr L n) with Ok _ v => Some v | Raise _ => @None V end.
Proof. unfold space_asdict, space_get. destruct (dget String.eqb s n); reflexivity. Qed.
Theorem C62_space_shapes s l n : space_shapes shape s = ret l ->
  dget String.eqb l n = match space_get L s (@KStr L n) with Ok _ v => match shape v with Ok _ x => Some x | Raise _ => None end | Raise _ => None end.
Proof.
  intros H. apply mapM_ret_inv in H. unfold space_get. induction H as [|(k, v) (k', x) s l H0 H IH]; [reflexivity|].
  apply bind_Ok in H0 as (x1 & y & x2 & E1 & E2 & _). injection E2 as _ <- <-. cbn [dget]. destruct (String.eqb k n); [|exact IH].
  cbn. now rewrite E1.
Qed.
End SpaceProps.

(** ** C63: attributes *)
Section AttrProps.
Context {V : Type}.
(** An attribute without a default is a required argument; with one it may be omitted and
    then has the (converted) default; a value given is converted and stored. *)
Theorem C63_required (conv : V -> res V) : exists a, vattr_init None conv = ret a /\ vattr_construct a None = Raise EType /\
  forall x, vattr_construct a (Some x) = conv x.
Proof. eexists. split; [reflexivity|]. split; reflexivity. Qed.
Theorem C63_default (conv : V -> res V) d d' : conv d = ret d' -> conv d' = ret d' ->
  exists a, vattr_init (Some d) conv = ret a /\ vattr_construct a None = ret d' /\
    forall x, vattr_construct a (Some x) = conv x.
Proof.
  intros H1 H2. eexists. split; [unfold vattr_init; rewrite H1, bret; reflexivity|]. split; [exact H2|reflexivity].
Qed.
(** [cls.attr] is an error only while the class is being made and there is no default, so
    [AttrFilter] recognises every attribute of a finished class. *)
Theorem C63_class_access (a : vattr V) field : (exists e, vattr_class_get a field = Raise e) <-> va_default a = None /\ field = false.
Proof.
  unfold vattr_class_get. destruct (va_default a), field; split; try (intros (e & H); discriminate); try (intros [H1 H2]; discriminate); eauto.
Qed.
End AttrProps.

(** A FourVector has its own attributes and, besides, those of its spatial part [q]. *)
Theorem C63_fourvector_getattr {V} (own q : string -> res V) name :
  (own name <> Raise EAttribute -> fourvector_getattr own q name = own name) /\
  (own name = Raise EAttribute -> fourvector_getattr own q name = q name).
Proof.
  unfold fourvector_getattr. split; intros H; [|now rewrite H]. destruct (own name) as [|[]]; auto. now elim H.
Qed.

(** The formats of [_repr_mimebundle_]: those supported that are asked for and not excluded;
    [exclude] is ignored when [include] is given. *)
Theorem C63_mimebundle incl excl k : In k (mime_keys incl excl) <->
  In k repr_formats /\ (forall i, incl = Some i -> In k i) /\ (forall e, incl = None -> excl = Some e -> ~ In k e).
Proof.
  assert (M : forall k l, mem_str k l = true <-> In k l).
  { intros x l. unfold mem_str. rewrite existsb_exists. split; [intros (y & H & E); apply String.eqb_eq in E; now subst|].
    intros H. exists x. split; auto. apply String.eqb_refl. }
  destruct incl as [i|]; cbn [mime_keys].
  - rewrite filter_In, M. split; [intros [H1 H2]; repeat split; auto; [intros ? E; now injection E as <-|discriminate]|].
    intros (H1 & H2 & _). auto.
  - destruct excl as [e|]; [|split; [intros H; repeat split; auto; discriminate|tauto]].
    rewrite filter_In, negb_true_iff. split.
    + intros [H1 H2]. repeat split; auto; [discriminate|]. intros e' _ E. injection E as <-. rewrite <- M. congruence.
    + intros (H1 & _ & H3). split; auto. specialize (H3 e eq_refl eq_refl). rewrite <- M in H3. now destruct (mem_str k e).
Qed.

(** ** Examples *)
(** two positions with a scalar z broadcast to shape (3, 2) *)
Definition ex_v : bvec nat := [mkArr [2] (fun idx => nth 0 idx 0); mkArr [2] (fun idx => 10 + nth 0 idx 0); mkArr [] (fun _ => 7)].
Example C62_broadcast_example : exists w, prim_broadcast [] ex_v [3; 2; 3] = ret w /\
  v_shape w = ret [3; 2] /\ elem w [2; 1] = [1; 11; 7].
Proof. eexists. split; [reflexivity|]. split; reflexivity. Qed.
(** the docstring's example: [jnp.reshape(vec, (3, 1, 3))] has shape (1, 1, 3) *)
Definition ex_u : bvec nat := [mkArr [3] (fun idx => nth 0 idx 0); mkArr [3] (fun idx => 10 + nth 0 idx 0); mkArr [3] (fun idx => 20 + nth 0 idx 0)].
Example C62_reshape_example : exists w, prim_reshape [] ex_u [3; 1; 3] = ret w /\
  v_shape w = ret [1; 1; 3] /\ elem w [0; 0; 2] = [2; 12; 22] /\ prim_reshape [] ex_u [1; 9] = Raise EType.
Proof. eexists. split; [reflexivity|]. split; [|split]; reflexivity. Qed.
Example C62_astype_example : exists w, prim_astype [Nat.ltb 0] Nat.pred [mkArr [] (fun _ => 3)] = ret w /\ elem w [] = [2]
  /\ prim_astype [Nat.ltb 0] Nat.pred [mkArr [] (fun _ => 1)] = Raise EValue.
Proof. eexists. split; [reflexivity|]. split; reflexivity. Qed.
Example C63_mimebundle_example : mime_keys None (Some ["text/latex"%string]) = ["text/plain"%string].
Proof. reflexivity. Qed.
