(** * C55: vectors as dictionaries; [replace]; the name-based rules.

    [get d k]: the value under key [k]; a dictionary is a list of entries with distinct
    keys. *)
From Coq Require Import Reals List Bool ZArith String Permutation Lia Lra.
From Verif Require Import Num Vectors Transform Vel Units UnitsThm Fields.
Import ListNotations.
Open Scope nat_scope.
Open Scope string_scope.

Definition keys {V} (d : list (string * V)) : list string := map fst d.

(** ** Lemmas on dictionaries *)
Lemma in_existsb k l : existsb (String.eqb k) l = true <-> In k l.
Proof.
  rewrite existsb_exists. split. intros (x & Hx & E). apply String.eqb_eq in E. now subst. intros H. exists k. split; auto. apply String.eqb_refl.
Qed.
Lemma get_in {V} (d : list (string * V)) k v : NoDup (keys d) -> (get d k = Some v <-> In (k, v) d).
Proof.
  induction d as [|[k' v'] d IH]; intros N; cbn; [split; [discriminate|tauto]|].
  inversion N as [|? ? Hn Nd]; subst. destruct (String.eqb_spec k' k) as [->|Ne].
  - split. intros E; left; congruence. intros [E|H]; [congruence|]. exfalso. apply Hn. change k with (fst (k, v)). now apply in_map.
  - rewrite IH by auto. split; auto. intros [E|]; auto. congruence.
Qed.
Lemma get_none {V} (d : list (string * V)) k : get d k = None <-> ~ In k (keys d).
Proof.
  induction d as [|[k' v'] d IH]; cbn; [tauto|]. destruct (String.eqb_spec k' k) as [->|Ne].
  split; [discriminate|tauto]. rewrite IH. split; [intros H [E|E]; auto|tauto].
Qed.
Lemma get_perm {V} (d d' : list (string * V)) k : NoDup (keys d) -> Permutation d d' -> get d k = get d' k.
Proof.
  intros N P. assert (N' : NoDup (keys d')) by (eapply Permutation_NoDup; [|exact N]; now apply Permutation_map).
  destruct (get d' k) as [v|] eqn:E.
  - apply get_in in E; auto. apply get_in; auto. now apply (Permutation_in _ (Permutation_sym P)).
  - apply get_none in E. apply get_none. intros H. apply E. eapply Permutation_in; [|exact H]. now apply Permutation_map.
Qed.
Lemma keys_combine {V} (names : list string) (vs : list V) : List.length names = List.length vs -> keys (combine names vs) = names.
Proof. revert vs; induction names as [|n names IH]; intros [|v vs] L; cbn in *; try lia; auto. f_equal. apply IH. lia. Qed.
Lemma mapM_ok {T U} (f : T -> res U) (g : T -> U) l : (forall x, In x l -> f x = ret (g x)) -> mapM f l = ret (map g l).
Proof.
  induction l as [|x l IH]; intros H; cbn [mapM map]; auto. rewrite (H x) by now left. rewrite IH by (intros; apply H; now right). reflexivity.
Qed.
Lemma mapM_bad {T U} (f : T -> res U) l x : In x l -> (exists e, f x = Raise e) -> exists e, mapM f l = Raise e.
Proof.
  intros Hx [e E]. induction l as [|y l IH]; [destruct Hx|]. cbn [mapM]. destruct Hx as [->|Hx].
  - rewrite E. cbn. eauto.
  - destruct (f y) as [w z|e']; [|cbn; eauto]. cbn [bind]. destruct (IH Hx) as [e' ->]. cbn. eauto.
Qed.
Lemma bind_kw_combine {V} (names : list string) (vs : list V) : NoDup names -> List.length names = List.length vs ->
  bind_kw names (combine names vs) = ret vs.
Proof.
  intros N L. unfold bind_kw.
  replace (forallb _ (combine names vs)) with true.
  2:{ symmetry. apply forallb_forall. intros [k v] H. apply in_existsb. now apply in_combine_l in H. }
  assert (G : forall (l : list string) (ws : list V), (forall k v, In (k, v) (combine l ws) -> In (k, v) (combine names vs)) -> List.length l = List.length ws ->
     mapM (fun n => match get (combine names vs) n with Some v => ret v | None => Raise EType end) l = ret ws).
  { induction l as [|k l IH]; intros [|w ws] Hs Hl; cbn in Hl; try lia; auto. cbn [mapM].
    assert (E : get (combine names vs) k = Some w). { apply get_in. rewrite keys_combine; auto. apply Hs. now left. }
    rewrite E. rewrite (IH ws) by (try lia; intros; apply Hs; now right). reflexivity. }
  apply (G names vs); auto.
Qed.
Lemma bind_kw_perm {V} (names : list string) (d d' : list (string * V)) : NoDup (keys d) -> Permutation d d' -> bind_kw names d = bind_kw names d'.
Proof.
  intros N P. unfold bind_kw. assert (E : forallb (fun '(k, _) => existsb (String.eqb k) names) d = forallb (fun '(k, _) => existsb (String.eqb k) names) d').
  { apply eq_true_iff_eq. rewrite !forallb_forall. split; intros H x Hx; apply H; eapply Permutation_in; try exact Hx; auto. now apply Permutation_sym. }
  rewrite E. destruct (forallb _ d'); auto. clear E. induction names as [|n names IH]; cbn [mapM]; auto. rewrite (get_perm d d' n N P).
  destruct (get d' n); auto. cbn [bind]. unfold ret at 1 3. now rewrite IH.
Qed.
Lemma bind_kw_inv {V} (names : list string) (d : list (string * V)) w vs : NoDup names -> NoDup (keys d) -> bind_kw names d = Ok w vs ->
  w = false /\ List.length vs = List.length names /\ Permutation (combine names vs) d.
Proof.
  intros N Nd. unfold bind_kw. destruct (forallb _ d) eqn:F; [|discriminate]. intros H.
  assert (G : w = false /\ Forall2 (fun n v => get d n = Some v) names vs).
  { clear F N. revert w vs H. induction names as [|n names IH]; intros w vs H; cbn [mapM] in H.
    - injection H as <- <-. auto.
    - destruct (get d n) as [v|] eqn:E; [|discriminate]. destruct (mapM _ names) as [w' vs'|] eqn:E'; [|discriminate].
      cbn in H. injection H as <- <-. destruct (IH _ _ eq_refl) as [-> K]. auto. }
  destruct G as [-> G]. split; auto.
  assert (L : List.length vs = List.length names) by (clear -G; induction G; cbn; auto). split; auto.
  apply NoDup_Permutation.
  - apply NoDup_map_inv with (f := fst). change (NoDup (keys (combine names vs))). rewrite keys_combine; auto.
  - now apply NoDup_map_inv with (f := fst).
  - intros [k v]. split.
    + intros Hk. apply get_in; auto. clear -G Hk. induction G; cbn in Hk; [tauto|]. destruct Hk as [E|]; auto. injection E as <- <-. auto.
    + intros Hk. rewrite forallb_forall in F. specialize (F _ Hk). apply in_existsb in F. apply get_in in Hk; auto.
      clear -G Hk F. induction G; [destruct F|]. cbn. destruct F as [->|F]; [left; congruence|right; auto].
Qed.

(** ** The field names *)
Lemma field_names_nodup t : NoDup (field_names t).
Proof. destruct t as [c|c|c]; destruct c; cbn; repeat constructor; cbn; intuition discriminate. Qed.
Lemma field_names_length t : List.length (field_names t) = List.length (fields_of t) + List.length (attrs_of t).
Proof. destruct t as [c|c|c]; destruct c; reflexivity. Qed.
Lemma accepts_all_length fs qs : accepts_all fs qs = true -> List.length qs = List.length fs.
Proof. revert qs; induction fs as [|f fs IH]; intros [|q qs] H; cbn in *; try discriminate; auto. apply andb_true_iff in H as [_ H]. f_equal. now apply IH. Qed.
Lemma construct_inv m t cs ats w v : construct m t cs ats = Ok w v -> v = mkUvec t cs ats /\
  List.length cs = List.length (fields_of t) /\ List.length ats = List.length (attrs_of t).
Proof.
  unfold construct. destruct (accepts_all (fields_of t) cs && accepts_all (attrs_of t) ats) eqn:E; [|discriminate].
  apply andb_true_iff in E as [E1 E2]. apply accepts_all_length in E1, E2. cbv zeta. intros H. split; auto.
  destruct (to_pos _) as [p|]; [destruct (build m false p) as [w' x|]; [|discriminate]; cbn in H|unfold ret in H]; congruence.
Qed.
Lemma constructed_lengths m v : constructed m v -> List.length (ucomps v) = List.length (fields_of (utag v)) /\ List.length (uattrs v) = List.length (attrs_of (utag v)).
Proof. intros H. unfold constructed in H. now apply construct_inv in H. Qed.
Lemma items_keys m v : constructed m v -> keys (field_items v) = field_names (utag v).
Proof. intros H. apply constructed_lengths in H as [A B]. apply keys_combine. rewrite field_names_length, app_length. lia. Qed.

(** ** C55 *)
(** The dictionary of a vector has exactly the field names as keys, in field order;
    [components] are the names without the attributes, as many as the class has
    dimensions, and [asdict(AttrFilter, v)] has the components as keys. *)
Theorem C55_keys : forall m v, constructed m v ->
  keys (field_items v) = field_names (utag v) /\ NoDup (field_names (utag v)) /\
  keys (field_items_filtered v) = component_names (utag v) /\
  map snd (field_items_filtered v) = ucomps v /\
  keys (units v) = component_names (utag v) /\
  List.length (component_names (utag v)) =
    match utag v with TPos c => dim_of c | TVel c => vdim c | TAcc c => vdim (acc_integral_cls c) end.
Proof.
  intros m v H. pose proof (items_keys m v H) as K. pose proof (constructed_lengths m v H) as [L1 L2].
  destruct v as [t cs ats]. cbn [utag ucomps uattrs] in *.
  assert (G : keys (field_items_filtered (mkUvec t cs ats)) = component_names t /\ map snd (field_items_filtered (mkUvec t cs ats)) = cs).
  { clear H K. destruct t as [c|c|c]; destruct c; cbn in L1, L2;
    repeat (match goal with L : List.length ?l = _ |- _ => is_var l; destruct l; cbn in L; try discriminate L; try (injection L as L) end); split; reflexivity. }
  destruct G as [G1 G2]. split; auto. split; [apply field_names_nodup|]. split; auto. split; auto. split.
  - rewrite <- G1. unfold units, keys. rewrite map_map. apply map_ext. now intros [k q].
  - destruct t as [c|c|c]; destruct c; reflexivity.
Qed.
Print Assumptions C55_keys.

(** [cls.from_(v.asdict())] is [v], the entries in any order. *)
Theorem C55_from_asdict : forall m v d, constructed m v -> Permutation d (field_items v) -> from_dict m (utag v) d = ret v.
Proof.
  intros m v d H P. pose proof (items_keys m v H) as K. pose proof (constructed_lengths m v H) as [L1 L2].
  assert (Nd : NoDup (keys d)). { eapply Permutation_NoDup; [apply Permutation_sym; apply Permutation_map; exact P|]. fold (keys (field_items v)). rewrite K. apply field_names_nodup. }
  unfold from_dict. rewrite (bind_kw_perm _ d (field_items v)) by auto. unfold field_items. rewrite bind_kw_combine.
  2: apply field_names_nodup. 2: rewrite field_names_length, app_length; lia.
  unfold ret at 1. cbn [bind]. rewrite <- L1, firstn_app, skipn_app, Nat.sub_diag, firstn_all, skipn_all. cbn [firstn skipn app].
  rewrite app_nil_r. unfold constructed in H. rewrite H. reflexivity.
Qed.
Print Assumptions C55_from_asdict.

(** Conversely, what [from_] accepts is the dictionary of the result: keys are neither
    ignored nor invented. *)
Theorem C55_asdict_from : forall m t d w v, NoDup (keys d) -> from_dict m t d = Ok w v ->
  utag v = t /\ Permutation (field_items v) d.
Proof.
  intros m t d w v N H. unfold from_dict in H. destruct (bind_kw (field_names t) d) as [w' vs|] eqn:E; [|discriminate].
  apply bind_kw_inv in E as (-> & L & P); auto using field_names_nodup. cbn [bind] in H. cbv zeta in H.
  destruct (construct m t _ _) as [w2 v2|] eqn:E2; [|discriminate]. injection H as _ <-. apply construct_inv in E2 as (-> & _ & _).
  split; auto. unfold field_items. cbn [utag ucomps uattrs]. now rewrite firstn_skipn.
Qed.
Print Assumptions C55_asdict_from.
(** An unknown or a missing name raises. *)
Theorem C55_wrong_keys : forall m t d k, NoDup (keys d) ->
  (In k (keys d) /\ ~ In k (field_names t)) \/ (In k (field_names t) /\ ~ In k (keys d)) ->
  exists e, from_dict m t d = Raise e.
Proof.
  intros m t d k N H. destruct (from_dict m t d) as [w v|e] eqn:E; [|eauto]. exfalso.
  unfold from_dict in E. destruct (bind_kw (field_names t) d) as [w' vs|] eqn:E'; [|discriminate].
  apply bind_kw_inv in E' as (_ & L & P); auto using field_names_nodup.
  assert (K : forall k, In k (field_names t) <-> In k (keys d)).
  { intros k0. rewrite <- (keys_combine (field_names t) vs) by auto. unfold keys.
    split; intros Hk; (eapply Permutation_in; [|exact Hk]); apply Permutation_map; auto. now apply Permutation_sym. }
  destruct H as [[A B]|[A B]]; apply B; now apply K.
Qed.
Print Assumptions C55_wrong_keys.

(** [replace(v)] is [v]; [replace(v, **kw)] keeps the class, sets the named fields and
    keeps all others; an unknown name raises. *)
Lemma NoDup_filter {T} (f : T -> bool) l : NoDup l -> NoDup (filter f l).
Proof. induction 1; cbn; [constructor|]. destruct (f x); auto. constructor; auto. rewrite filter_In. tauto. Qed.
Lemma replace_keys v kw : NoDup (keys kw) -> NoDup (keys (field_items v)) ->
  NoDup (keys (kw ++ filter (fun '(k, _) => negb (existsb (String.eqb k) (map fst kw))) (field_items v))).
Proof.
  intros N1 N2. unfold keys in *. rewrite map_app.
  assert (E : forall l : list (string * qty), map fst (filter (fun '(k, _) => negb (existsb (String.eqb k) (map fst kw))) l) =
    filter (fun k => negb (existsb (String.eqb k) (map fst kw))) (map fst l)).
  { induction l as [|[k q] l IH]; cbn; auto. destruct (negb _); cbn; congruence. }
  rewrite E. clear E. set (L := map fst kw) in *.
  assert (G : forall l1 l2, NoDup l1 -> NoDup l2 -> (forall x : string, In x l1 -> ~ In x l2) -> NoDup (l1 ++ l2)).
  { induction l1 as [|x l1 IH1]; intros l2 A B D; cbn; auto. inversion A; subst. constructor.
    - rewrite in_app_iff. intros [|K]; auto. apply (D x); auto. now left.
    - apply IH1; auto. intros y Hy. apply D. now right. }
  apply G; auto. now apply NoDup_filter. intros x Hx K. apply filter_In in K as [_ K]. apply negb_true_iff in K.
  apply in_existsb in Hx. congruence.
Qed.
Theorem C55_replace : forall m v kw w v', constructed m v -> NoDup (keys kw) -> replace m v kw = Ok w v' ->
  utag v' = utag v /\ constructed m v' /\
  (forall k q, In (k, q) kw -> field v' k = ret q) /\
  (forall k, ~ In k (keys kw) -> field v' k = field v k).
Proof.
  intros m v kw w v' H N E. pose proof (items_keys m v H) as K. assert (Nv : NoDup (keys (field_items v))) by (rewrite K; apply field_names_nodup).
  unfold replace in E. pose proof (replace_keys v kw N Nv) as Nd. set (d := (kw ++ _)%list) in *.
  destruct (C55_asdict_from m _ d w v' Nd E) as [T P]. split; auto.
  assert (Nv' : NoDup (keys (field_items v'))). { eapply Permutation_NoDup; [apply Permutation_sym; apply Permutation_map; exact P|]. auto. }
  split.
  - unfold from_dict in E. destruct (bind_kw _ d) as [w' vs|]; [|discriminate]. cbn [bind] in E. cbv zeta in E.
    destruct (construct m (utag v) _ _) as [w2 v2|] eqn:E2; [|discriminate]. injection E as _ <-.
    pose proof E2 as E3. apply construct_inv in E3 as (-> & _ & _). unfold constructed. cbn [utag ucomps uattrs].
    unfold construct in *. destruct (_ && _); [|discriminate]. cbv zeta in *. destruct (to_pos _) as [p|]; auto.
    destruct (build m false p) as [w3 p'|] eqn:B; [|discriminate]. cbn in E2 |- *. 
    destruct w3; auto. exfalso. clear -B. destruct p; cbn in B; 
      unfold mk_Cart1, mk_Cart2, mk_Cart3, mk_Radial, mk_Polar, mk_TwoSphere, mk_Cyl, mk_Sph, mk_MSph, mk_LonLat, mk_Prolate in B;
      unfold check_nonneg, check_polar, check_prolate, ret in B; cbn in B; destruct m; cbn in B; 
      repeat (match type of B with context[if ?c then _ else _] => destruct c; cbn in B end); try discriminate B.
  - assert (G : forall k q, In (k, q) d -> field v' k = ret q).
    { intros k q Hk. unfold field. replace (get (field_items v') k) with (Some q); auto. symmetry. apply get_in; auto.
      now apply (Permutation_in _ (Permutation_sym P)). }
    split.
    + intros k q Hk. apply G. unfold d. apply in_app_iff. now left.
    + intros k Nk. unfold field at 2. destruct (get (field_items v) k) as [q|] eqn:Eg.
      * apply G. unfold d. apply in_app_iff. right. apply filter_In. split. now apply get_in. apply negb_true_iff.
        destruct (existsb (String.eqb k) (map fst kw)) eqn:Ex; auto. apply in_existsb in Ex. contradiction.
      * unfold field. replace (get (field_items v') k) with (@None qty); auto. symmetry. apply get_none. intros Hk. apply get_none in Eg.
        apply Nk. unfold keys in Hk. eapply Permutation_in in Hk; [|apply Permutation_map; exact P]. unfold d in Hk. rewrite map_app, in_app_iff in Hk.
        destruct Hk as [Hk|Hk]; auto. exfalso. apply Eg. apply in_map_iff in Hk as ([k' q'] & <- & Hf). apply filter_In in Hf as [Hf _].
        unfold keys. now apply in_map.
Qed.
Print Assumptions C55_replace.
Theorem C55_replace_nothing : forall m v, constructed m v -> replace m v [] = ret v.
Proof.
  intros m v H. apply C55_from_asdict; auto. cbn [app map]. 
  replace (filter _ (field_items v)) with (field_items v). reflexivity. symmetry.
  induction (field_items v) as [|[k q] l IH]; cbn; auto. now f_equal.
Qed.
Print Assumptions C55_replace_nothing.
Theorem C55_replace_unknown : forall m v kw k, constructed m v -> NoDup (keys kw) -> In k (keys kw) -> ~ In k (field_names (utag v)) ->
  exists e, replace m v kw = Raise e.
Proof.
  intros m v kw k H N Hk Nk. pose proof (items_keys m v H) as K. apply (C55_wrong_keys m (utag v) _ k).
  - apply replace_keys; auto. rewrite K. apply field_names_nodup.
  - left. split; auto. unfold keys. rewrite map_app, in_app_iff. now left.
Qed.
Print Assumptions C55_replace_unknown.
(** non-vacuity: a cylindrical position with its [z] replaced; a Cartesian velocity
    read from a shuffled dictionary *)
Definition metre := mkUnit length_d 1%R.
Definition radian := mkUnit angle_d 1%R.
Definition c55_cyl (z : R) : uvec :=
  mkUvec (TPos CCyl) [mkQty QQuantity (Some 2%R) metre; mkQty QAngle (Some 1%R) radian; mkQty QQuantity (Some z) metre] [].
Lemma c55_cyl_ok z : constructed Eager (c55_cyl z).
Proof.
  unfold constructed, construct, c55_cyl. cbn [utag ucomps uattrs].
  cbn [accepts_all fields_of attrs_of accepts qc qdim qunit udim dim_eqb length_d angle_d d_len d_mass d_time d_ang d_mag metre radian Z.eqb Pos.eqb andb].
  cbn [to_pos utag ucomps uattrs build mk_Cyl conv_az]. unfold mk_Cyl, check_nonneg, phys. cbn [qc lift1 qval qunit uscale metre radian nltb Num_ext lift2b ncst conv_az].
  replace (Rltb (2 * 1) 0) with false by (symmetry; apply Rltb_false; lra). reflexivity.
Qed.
Example C55_example_replace : replace Eager (c55_cyl 5) [("z", mkQty QQuantity (Some 7%R) metre)] = ret (c55_cyl 7).
Proof.
  unfold replace. apply (C55_from_asdict Eager (c55_cyl 7)). apply c55_cyl_ok.
  cbn. set (a := ("z", _)). set (b := ("rho", _)). set (c := ("phi", _)). exact (Permutation_app_comm [a] [b; c]).
Qed.
Example C55_example_wrong : exists e, replace Eager (c55_cyl 5) [("r", mkQty QQuantity (Some 7%R) metre)] = Raise e.
Proof.
  apply C55_replace_unknown with (k := "r"); [apply c55_cyl_ok|repeat constructor; cbn; tauto|now left|]. cbn. intuition discriminate.
Qed.

(** ** The name-based rules compute what the model of the vector code (Vel.v), which
    works by position in the field list, says. *)
(** Every velocity class but LonCosLatSphericalVel names its components "d_" + the
    component of the position class; acceleration classes likewise with "d2_". *)
Theorem C55_velocity_names : forall c, c <> WLonCosLat ->
  vel_names c = map (fun n => "d_" ++ n) (component_names (TPos (integral_cls c))) /\ List.length (vel_names c) = vdim c.
Proof. intros [] H; try congruence; split; reflexivity. Qed.
Print Assumptions C55_velocity_names.
Theorem C55_acceleration_names : forall c,
  acc_names c = map (fun n => "d2_" ++ n) (component_names (TPos (integral_cls (acc_integral_cls c)))) /\
  List.length (acc_names c) = vdim (acc_integral_cls c).
Proof. intros []; split; reflexivity. Qed.
Print Assumptions C55_acceleration_names.

Ltac lists := repeat (match goal with L : List.length ?l = _ |- _ => is_var l; destruct l; cbn in L; try discriminate L; try (injection L as L) end).
(** a matrix given by its columns *)
Definition matrix (rows cols : nat) (J : list (list ext)) : Prop := List.length J = cols /\ Forall (fun c => List.length c = rows) J.
Ltac mat H := destruct H as [HJ HC]; repeat (match goal with L : List.length ?l = _ |- _ => is_var l; destruct l; cbn in L; try discriminate L; try (injection L as L) end);
  repeat (match goal with F : Forall _ (_ :: _) |- _ => inversion F; subst; clear F end); lists.
(** The converted velocity has, under each name, the product of that row of the
    Jacobian with the velocity components that belong to its columns. *)
Theorem C55_velocity_rule : forall v t J, vc v <> WLonCosLat -> t <> WLonCosLat -> vdim (vc v) = vdim t ->
  List.length (vcomps v) = vdim (vc v) -> matrix (vdim t) (vdim (vc v)) J ->
  vel_by_name v t J = ret (mkVel t (matvec (vdim t) J (vcomps v))).
Proof.
  intros [c xs] t J Hc Ht Hd Hl HJ. cbn [vc vcomps] in *.
  destruct c; try congruence; destruct t; try congruence; cbn in Hd; try discriminate Hd; cbn [vdim] in Hl, HJ; mat HJ; reflexivity.
Qed.
Print Assumptions C55_velocity_rule.
(** LonCosLatSphericalVel does not fit the rule: its own overloads are needed. *)
Theorem C55_velocity_rule_loncoslat : forall v t J, vdim (vc v) = vdim t ->
  List.length (vcomps v) = vdim (vc v) -> matrix (vdim t) (vdim (vc v)) J -> vc v = WLonCosLat \/ t = WLonCosLat ->
  exists e, vel_by_name v t J = Raise e.
Proof.
  intros [c xs] t J Hd Hl HJ [E|E]; cbn [vc vcomps] in *; subst.
  - destruct t; cbn in Hd; try discriminate Hd; cbn [vdim] in Hl, HJ; mat HJ; eexists; reflexivity.
  - destruct c; cbn in Hd; try discriminate Hd; cbn [vdim] in Hl, HJ; mat HJ; eexists; reflexivity.
Qed.
Print Assumptions C55_velocity_rule_loncoslat.
(** Accelerations: the same, except that with a prolate position class the attribute
    [Delta] is taken for a coordinate: always an error. *)
Theorem C55_acceleration_rule : forall a t J, let n := vdim (acc_integral_cls (xc a)) in
  n = vdim (acc_integral_cls t) -> List.length (xcomps a) = n -> matrix n n J ->
  (xc a <> XProlate -> t <> XProlate -> acc_by_name a t J = ret (mkAcc t (matvec n J (xcomps a)))) /\
  (xc a = XProlate \/ t = XProlate -> exists e, acc_by_name a t J = Raise e).
Proof.
  intros [c xs] t J n Hd Hl HJ. unfold n in *. cbn [xc xcomps] in *. split.
  - intros Hc Ht. destruct c; try congruence; destruct t; try congruence; cbn in Hd; try discriminate Hd; cbn [vdim acc_integral_cls] in Hl, HJ; mat HJ; reflexivity.
  - intros [E|E]; subst.
    + destruct t; cbn in Hd; try discriminate Hd; cbn [vdim acc_integral_cls] in Hl, HJ; mat HJ; eexists; reflexivity.
    + destruct c; cbn in Hd; try discriminate Hd; cbn [vdim acc_integral_cls] in Hl, HJ; mat HJ; eexists; reflexivity.
Qed.
Print Assumptions C55_acceleration_rule.
(** Products with a time: the renaming rules are the position-wise products. *)
Lemma bret {T U} (x : T) (f : T -> res U) : bind (ret x) f = f x.
Proof. cbn. destruct (f x); reflexivity. Qed.
Theorem C55_velocity_times : forall m v t, List.length (vcomps v) = vdim (vc v) -> vel_mul_time_by_name m v t = vel_mul_time m v t.
Proof.
  intros m [c xs] t Hl. cbn [vc vcomps] in *. destruct c; cbn in Hl; lists; try reflexivity;
    match goal with |- context [mkVel _ ?l] => exact (bret (map (fun y : ext => nmul y t) l) (pos_from_components m _)) end.
Qed.
Print Assumptions C55_velocity_times.
Theorem C55_acceleration_times : forall a t, List.length (xcomps a) = vdim (acc_integral_cls (xc a)) ->
  acc_mul_time_by_name a t = ret (acc_mul_time a t).
Proof.
  intros [c xs] t Hl. cbn [xc xcomps] in *. destruct c; cbn in Hl; lists; reflexivity.
Qed.
Print Assumptions C55_acceleration_times.
Theorem C55_acceleration_times2 : forall m a t2, List.length (xcomps a) = vdim (acc_integral_cls (xc a)) ->
  acc_mul_time2_by_name m a t2 = acc_mul_time2 m a t2.
Proof.
  intros m [c xs] t Hl. cbn [xc xcomps] in *. destruct c; cbn in Hl; lists; try reflexivity;
    match goal with |- context [mkAcc _ ?l] => exact (bret (map (fun y : ext => nmul y t) l) (pos_from_components m _)) end.
Qed.
Print Assumptions C55_acceleration_times2.
(** non-vacuity: from Cartesian to cylindrical components with a concrete matrix *)
Example C55_example_rule :
  let z := Some 0%R : ext in let o := Some 1%R : ext in let x := Some 7%R : ext in
  vel_by_name (mkVel WCart3 [x; o; z]) WCyl [[o; z; z]; [z; o; z]; [z; z; o]]
  = ret (mkVel WCyl (matvec 3 [[o; z; z]; [z; o; z]; [z; z; o]] [x; o; z])).
Proof. apply C55_velocity_rule; try discriminate; try reflexivity. split; [reflexivity|repeat constructor]. Qed.
