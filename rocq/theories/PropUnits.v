(** * C36 (unit conversion) and C42 (arithmetic and equality across units). *)
From Coq Require Import Reals Bool List ZArith Lra Lia.
From Verif Require Import Num Vectors Transform Vel Units UnitsThm.
Import ListNotations.
Open Scope R_scope.

(** ** Specification *)

(** [units] (a mapping written as a list of pairs, later pairs overriding earlier
    ones) asks for unit [u] for quantities of dimension [d]. *)
Definition requested (units : list (dim * unit_)) (d : dim) (u : unit_) : Prop :=
  exists pre post, units = pre ++ (d, u) :: post /\ forall u', ~ In (d, u') post.
(** an admissible unit for [q]: of its dimension, positive, and "mag" for a DistanceModulus *)
Definition unit_for (q : qty) (u : unit_) : Prop :=
  udim u = qdim q /\ 0 < uscale u /\ (qc q = QDistMod -> u = mkUnit mag_d 1).
(** all units of the vector are positive multiples of SI *)
Definition good_units (v : uvec) : Prop := Forall (fun q => 0 < uscale (qunit q)) (ucomps v).

(** [v'] is the same physical vector as [v]: same class, same attributes, and each
    component has the same class, dimension and physical value. *)
Definition same_physical (v v' : uvec) : Prop :=
  utag v' = utag v /\ uattrs v' = uattrs v /\
  Forall2 (fun q q' => qc q' = qc q /\ qdim q' = qdim q /\ phys q' = phys q) (ucomps v) (ucomps v').
(** component [i] of [v'] is in unit [u] *)
Definition has_unit (v' : uvec) (i : nat) (u : unit_) : Prop :=
  exists q', nth_error (ucomps v') i = Some q' /\ qunit q' = u.

(** ** Helpers *)
Lemma nth_error_ext {T} (l l' : list T) : (forall i, nth_error l i = nth_error l' i) -> l = l'.
Proof.
  revert l'. induction l as [|a l IH]; intros [|b l'] H; auto.
  - specialize (H 0%nat); discriminate.
  - specialize (H 0%nat); discriminate.
  - pose proof (H 0%nat) as H0. cbn in H0. injection H0 as ->. f_equal. apply IH. intros i. exact (H (S i)).
Qed.
Lemma nth_error_repeat {T} (x : T) n i : (i < n)%nat -> nth_error (repeat x n) i = Some x.
Proof. revert i. induction n as [|n IH]; intros [|i] H; cbn; try lia; auto. apply IH. lia. Qed.
Lemma lookup_rev units d u : requested units d u -> lookup (rev units) d = Some u.
Proof.
  intros (pre & post & -> & Hn). rewrite rev_app_distr. cbn [rev]. rewrite <- app_assoc.
  assert (H : forall l, (forall u', ~ In (d, u') l) -> forall l', lookup (l ++ l') d = lookup l' d).
  { induction l as [|[d' u'] l IH]; intros Hl l'; cbn; auto.
    rewrite dim_eqb_neq. apply IH. intros u0 Hi. apply (Hl u0). now right.
    intros ->. apply (Hl u'). now left. }
  rewrite H. cbn. now rewrite dim_eqb_refl.
  intros u' Hi. apply in_rev in Hi. now apply (Hn u').
Qed.
Lemma lookup_none units d : (forall u, ~ In (d, u) units) -> lookup (rev units) d = None.
Proof.
  intros Hn. assert (H : forall u, ~ In (d, u) (rev units)) by (intros u Hi; apply in_rev in Hi; now apply (Hn u)).
  induction (rev units) as [|[d' u'] l IH]; cbn; auto. rewrite dim_eqb_neq.
  apply IH. intros u Hi. apply (H u). now right.
  intros ->. apply (H u'). now left.
Qed.
Lemma choose (qs : list qty) (P : unit_ -> qty -> Prop) :
  (forall q, In q qs -> exists u, P u q) -> exists us, Forall2 P us qs.
Proof.
  induction qs as [|q qs IH]; intros H.
  - exists []. constructor.
  - destruct (H q) as [u Hu]; [now left|]. destruct IH as [us Hus]; [intros; apply H; now right|].
    exists (u :: us). now constructor.
Qed.
Lemma F2_impl (P Q : unit_ -> qty -> Prop) us qs : (forall u q, P u q -> Q u q) -> Forall2 P us qs -> Forall2 Q us qs.
Proof. induction 2; constructor; auto. Qed.
Lemma convs_same us v : Forall2 okunit us (ucomps v) -> same_physical v (mkUvec (utag v) (convs us (ucomps v)) (uattrs v)).
Proof.
  intros H. split; [reflexivity|]. split; [reflexivity|]. cbn [ucomps].
  induction H as [|u q us qs (Hd & Hs & _) H IH]; cbn; constructor; auto.
  split; [reflexivity|]. split; [exact Hd|]. now apply conv_phys.
Qed.
Lemma convs_nth us qs (P : unit_ -> qty -> Prop) i q : Forall2 P us qs -> nth_error qs i = Some q ->
  exists u, nth_error us i = Some u /\ P u q /\ nth_error (convs us qs) i = Some (conv u q).
Proof.
  intros H. revert i. induction H as [|u q' us qs H0 H IH]; intros [|i] E; try discriminate; cbn in E.
  - injection E as ->. exists u. auto.
  - destruct (IH i E) as (u' & ? & ? & ?). exists u'. auto.
Qed.
Lemma F2_okunit (P : unit_ -> qty -> Prop) us qs : Forall2 P us qs ->
  (forall u q, P u q -> unit_for q u) -> Forall2 okunit us qs.
Proof. intros H HP. eapply F2_impl; [|exact H]. intros u q Hu. destruct (HP u q Hu) as (? & ? & ?). split; auto. split; [lra|auto]. Qed.
Lemma convs_convs us us' qs : Forall2 okunit us qs -> Forall2 okunit us' qs ->
  convs us' (convs us qs) = convs us' qs.
Proof.
  intros H. revert us'. induction H as [|u q us qs (Hd & Hs & Hk) H IH]; intros us' H'; inversion H' as [|u' q' us2 qs2 (Hd' & Hs' & Hk') H2]; subst; cbn; auto.
  rewrite conv_conv by auto. f_equal. now apply IH.
Qed.
Lemma okunit_convs us us' qs : Forall2 okunit us qs -> Forall2 okunit us' qs -> Forall2 okunit us' (convs us qs).
Proof.
  intros H. revert us'. induction H as [|u q us qs (Hd & Hs & Hk) H IH]; intros us' H'; inversion H' as [|u' q' us2 qs2 (Hd' & Hs' & Hk') H2]; subst; cbn; constructor.
  - split; [unfold qdim; cbn; congruence|]. split; auto.
  - now apply IH.
Qed.

(** ** C36 *)

(** What the physical vector is to the rest of the library does not change. *)
Theorem C36_same_physical_same_vector v v' : same_physical v v' ->
  to_pos v' = to_pos v /\ to_vel v' = to_vel v /\ to_acc v' = to_acc v.
Proof.
  intros (Ht & Ha & Hf). destruct v as [t cs ats], v' as [t' cs' ats']; cbn [utag ucomps uattrs] in *. subst t' ats'.
  assert (E1 : map qc cs' = map qc cs) by (induction Hf as [|? ? ? ? [? ?] ? IH]; cbn; [auto|f_equal; auto]).
  assert (E2 : map phys cs' = map phys cs) by (clear E1; induction Hf as [|? ? ? ? [? [? ?]] ? IH]; cbn; [auto|f_equal; auto]).
  split; [now apply to_pos_same|]. unfold to_vel, to_acc; cbn [utag ucomps]. now rewrite E2.
Qed.

(** Conversion with a mapping: every component ends up in the requested unit, and
    the vector is physically the same. *)
Theorem C36_mapping m units v :
  constructed m v ->
  (forall q, In q (ucomps v) -> exists u, requested units (qdim q) u /\ unit_for q u) ->
  exists v', uconvert_map m units v = ret v' /\ constructed m v' /\ same_physical v v' /\
    forall i q, nth_error (ucomps v) i = Some q ->
      exists u, requested units (qdim q) u /\ has_unit v' i u.
Proof.
  intros Hc Hr. destruct (choose _ (fun u q => requested units (qdim q) u /\ unit_for q u) Hr) as [us Hus].
  assert (Hok : Forall2 okunit us (ucomps v)) by (eapply F2_okunit; [exact Hus|]; intros ? ? [? ?]; auto).
  exists (mkUvec (utag v) (convs us (ucomps v)) (uattrs v)).
  split; [|split; [|split]].
  - unfold uconvert_map. rewrite (Forall2_map_get (fun q => lookup (rev units) (qdim q)) us).
    now apply replace_ok. eapply F2_impl; [|exact Hus]. intros u q [H1 _]. now apply lookup_rev.
  - now apply replace_constructed.
  - now apply convs_same.
  - intros i q Hi. destruct (convs_nth _ _ _ i q Hus Hi) as (u & _ & [H1 H2] & H3).
    exists u. split; auto. exists (conv u q). auto.
Qed.

(** A missing dimension raises. *)
Theorem C36_mapping_missing m units v q :
  In q (ucomps v) -> (forall u, ~ In (qdim q, u) units) -> exists e, uconvert_map m units v = Raise e.
Proof.
  intros Hi Hn. apply In_nth_error in Hi as [i Hi].
  unfold uconvert_map, replace_comps.
  assert (Hn' : nth_error (combine (map (fun q => get_key (lookup (rev units) (qdim q))) (ucomps v)) (ucomps v)) i
                = Some (get_key (lookup (rev units) (qdim q)), q)).
  { clear -Hi. revert i Hi. induction (ucomps v) as [|a l IH]; intros [|i] H; try discriminate; cbn in *.
    now injection H as ->. now apply IH. }
  destruct (mapM_raise _ _ _ i Hn') as [x Hx].
  - intros u q' E. injection E as <- <-. rewrite lookup_none by auto. cbn. eauto.
  - rewrite Hx. cbn. eauto.
Qed.
(** So does a unit of the wrong dimension. *)
Theorem C36_mapping_wrong_unit m units v q u :
  In q (ucomps v) -> requested units (qdim q) u -> udim u <> qdim q ->
  exists e, uconvert_map m units v = Raise e.
Proof.
  intros Hi Hr Hd. apply In_nth_error in Hi as [i Hi].
  unfold uconvert_map, replace_comps.
  assert (Hn' : nth_error (combine (map (fun q => get_key (lookup (rev units) (qdim q))) (ucomps v)) (ucomps v)) i
                = Some (get_key (lookup (rev units) (qdim q)), q)).
  { clear -Hi. revert i Hi. induction (ucomps v) as [|a l IH]; intros [|i] H; try discriminate; cbn in *.
    now injection H as ->. now apply IH. }
  destruct (mapM_raise _ _ _ i Hn') as [x Hx].
  - intros u' q' E. injection E as <- <-. rewrite (lookup_rev _ _ _ Hr). cbn. rewrite uconvert_q_bad by auto. eauto.
  - rewrite Hx. cbn. eauto.
Qed.

(** A DistanceModulus can only be in "mag": asking for another magnitude unit raises
    (although e.g. millimagnitudes are perfectly convertible). *)
Theorem C36_distmod_other_unit m units v q u :
  In q (ucomps v) -> qc q = QDistMod -> requested units (qdim q) u -> u <> mkUnit mag_d 1 ->
  exists e, uconvert_map m units v = Raise e.
Proof.
  intros Hi Hc Hr Hd. apply In_nth_error in Hi as [i Hi].
  unfold uconvert_map, replace_comps.
  assert (Hn' : nth_error (combine (map (fun q => get_key (lookup (rev units) (qdim q))) (ucomps v)) (ucomps v)) i
                = Some (get_key (lookup (rev units) (qdim q)), q)).
  { clear -Hi. revert i Hi. induction (ucomps v) as [|a l IH]; intros [|i] H; try discriminate; cbn in *.
    now injection H as ->. now apply IH. }
  destruct (mapM_raise _ _ _ i Hn') as [x Hx].
  - intros u' q' E. injection E as <- <-. rewrite (lookup_rev _ _ _ Hr). cbn.
    destruct (dim_eqb (udim u) (qdim q)) eqn:Ed.
    + rewrite uconvert_q_distmod; eauto. now apply dim_eqb_true.
    + rewrite uconvert_q_bad; eauto. intros E. apply dim_eqb_true in E. congruence.
  - rewrite Hx. cbn. eauto.
Qed.

(** Conversions compose: only the last one counts; in particular converting twice
    with the same mapping changes nothing more. *)
Theorem C36_mapping_compose m units1 units2 v v1 :
  constructed m v ->
  (forall q, In q (ucomps v) -> exists u, requested units1 (qdim q) u /\ unit_for q u) ->
  (forall q, In q (ucomps v) -> exists u, requested units2 (qdim q) u /\ unit_for q u) ->
  uconvert_map m units1 v = ret v1 ->
  uconvert_map m units2 v1 = uconvert_map m units2 v.
Proof.
  intros Hc H1 H2 E1.
  destruct (choose _ (fun u q => requested units1 (qdim q) u /\ unit_for q u) H1) as [us1 Hu1].
  destruct (choose _ (fun u q => requested units2 (qdim q) u /\ unit_for q u) H2) as [us2 Hu2].
  assert (Ho1 : Forall2 okunit us1 (ucomps v)) by (eapply F2_okunit; [exact Hu1|]; intros ? ? [? ?]; auto).
  assert (Ho2 : Forall2 okunit us2 (ucomps v)) by (eapply F2_okunit; [exact Hu2|]; intros ? ? [? ?]; auto).
  assert (G1 : Forall2 (fun u q => lookup (rev units1) (qdim q) = Some u) us1 (ucomps v))
    by (eapply F2_impl; [|exact Hu1]; intros u q [H _]; now apply lookup_rev).
  assert (G2 : Forall2 (fun u q => lookup (rev units2) (qdim q) = Some u) us2 (ucomps v))
    by (eapply F2_impl; [|exact Hu2]; intros u q [H _]; now apply lookup_rev).
  unfold uconvert_map in E1. rewrite (Forall2_map_get _ _ _ G1) in E1. rewrite replace_ok in E1 by auto.
  injection E1 as <-.
  unfold uconvert_map at 2. rewrite (Forall2_map_get _ _ _ G2), replace_ok by auto.
  unfold uconvert_map. cbn [ucomps].
  assert (G2' : Forall2 (fun u q => lookup (rev units2) (qdim q) = Some u) us2 (convs us1 (ucomps v))).
  { clear -Ho1 G2. revert us2 G2. induction Ho1 as [|u q us qs [Hd _] H IH]; intros us2 G; inversion G; subst; cbn; constructor; auto.
    unfold qdim at 1. cbn. rewrite Hd. auto. }
  rewrite (Forall2_map_get _ _ _ G2').
  rewrite (replace_ok m (mkUvec (utag v) (convs us1 (ucomps v)) (uattrs v)) us2).
  - cbn [ucomps utag uattrs]. now rewrite convs_convs.
  - now apply replace_constructed.
  - cbn [ucomps]. now apply okunit_convs.
Qed.
Theorem C36_mapping_idempotent m units v v1 :
  constructed m v ->
  (forall q, In q (ucomps v) -> exists u, requested units (qdim q) u /\ unit_for q u) ->
  uconvert_map m units v = ret v1 -> uconvert_map m units v1 = ret v1.
Proof. intros Hc H E. rewrite (C36_mapping_compose m units units v v1 Hc H H E). exact E. Qed.

(** Conversion to a unit system with base units for length, mass, time and angle
    (and mag, which has to be "mag" itself if there is a DistanceModulus): every
    component gets the unit composed of the base units. *)
Definition full_usys (l ma t a g : R) : usys := mkUsys (Some l) (Some ma) (Some t) (Some a) (Some g).
Definition composed (l ma t a g : R) (d : dim) : unit_ :=
  mkUnit d (powerRZ l (d_len d) * (powerRZ ma (d_mass d) * (powerRZ t (d_time d) * (powerRZ a (d_ang d) * powerRZ g (d_mag d))))).
Lemma upow_some s e : upow (Some s) e = Some (powerRZ s e).
Proof. unfold upow. destruct (Z.eqb_spec e 0) as [->|]; reflexivity. Qed.
Lemma usys_get_full l ma t a g d : usys_get (full_usys l ma t a g) d = Some (composed l ma t a g d).
Proof. unfold usys_get, full_usys. cbn [us_len us_mass us_time us_ang us_mag]. rewrite !upow_some. reflexivity. Qed.
Theorem C36_unit_system m l ma t a g v :
  0 < l -> 0 < ma -> 0 < t -> 0 < a -> 0 < g -> constructed m v ->
  (forall q, In q (ucomps v) -> qc q = QDistMod -> g = 1) ->
  exists v', uconvert_usys m (full_usys l ma t a g) v = ret v' /\ constructed m v' /\ same_physical v v' /\
    forall i q, nth_error (ucomps v) i = Some q -> has_unit v' i (composed l ma t a g (qdim q)).
Proof.
  intros Hl Hm Ht Ha Hg Hc Hdm.
  destruct (choose (ucomps v) (fun u q => u = composed l ma t a g (qdim q) /\ mag_ok q /\ (qc q = QDistMod -> g = 1))) as [us Hus'].
  { intros q Hq. eexists. split; [reflexivity|]. split; [|now apply Hdm].
    pose proof (constructed_mag m v Hc) as HM. rewrite Forall_forall in HM. auto. }
  assert (Hus : Forall2 (fun u q => u = composed l ma t a g (qdim q)) us (ucomps v))
    by (eapply F2_impl; [|exact Hus']; now intros ? ? [? _]).
  assert (Hok : Forall2 okunit us (ucomps v)).
  { eapply F2_okunit; [exact Hus'|]. intros u q (-> & [_ HM] & Hg1). split; [auto|]. split.
    - cbn. repeat apply Rmult_lt_0_compat; now apply powerRZ_lt.
    - intros Hq. rewrite (HM Hq), (Hg1 Hq). unfold composed. f_equal. cbn [mag_d d_len d_mass d_time d_ang d_mag]. rewrite !powerRZ_O, powerRZ_1. ring. }
  exists (mkUvec (utag v) (convs us (ucomps v)) (uattrs v)).
  split; [|split; [|split]].
  - unfold uconvert_usys. rewrite (Forall2_map_get (fun q => usys_get (full_usys l ma t a g) (qdim q)) us).
    now apply replace_ok. eapply F2_impl; [|exact Hus]. intros u q ->. now apply usys_get_full.
  - now apply replace_constructed.
  - now apply convs_same.
  - intros i q Hi. destruct (convs_nth _ _ _ i q Hus Hi) as (u & _ & Hu & H3). exists (conv u q). split; auto.
Qed.
(** A unit system without a needed base unit raises, e.g. no time unit for a velocity. *)
Theorem C36_unit_system_missing m l ma a g v q :
  In q (ucomps v) -> d_time (qdim q) <> 0%Z ->
  exists e, uconvert_usys m (mkUsys l ma None a g) v = Raise e.
Proof.
  intros Hi Hn. apply In_nth_error in Hi as [i Hi].
  unfold uconvert_usys, replace_comps. set (s := mkUsys l ma None a g).
  assert (Hn' : nth_error (combine (map (fun q => get_key (usys_get s (qdim q))) (ucomps v)) (ucomps v)) i
                = Some (get_key (usys_get s (qdim q)), q)).
  { clear -Hi. revert i Hi. induction (ucomps v) as [|x k IH]; intros [|i] H; try discriminate; cbn in *.
    now injection H as ->. now apply IH. }
  destruct (mapM_raise _ _ _ i Hn') as [x Hx].
  - intros u' q' E. injection E as <- <-.
    assert (E : usys_get s (qdim q) = None).
    { unfold usys_get, s; cbn [us_len us_mass us_time us_ang us_mag]. unfold upow at 3.
      apply Z.eqb_neq in Hn. rewrite Hn. cbn [omul].
      destruct (upow l _), (upow ma _); reflexivity. }
    rewrite E. cbn. eauto.
  - rewrite Hx. cbn. eauto.
Qed.

(** [uconvert(ToUnitsOptions.consistent)] never fails; component [i] gets the unit of
    the first component of the same dimension. *)
Definition first_of_dim (v : uvec) (q q0 : qty) : Prop :=
  exists i, nth_error (ucomps v) i = Some q0 /\ qdim q0 = qdim q /\
    forall j q', (j < i)%nat -> nth_error (ucomps v) j = Some q' -> qdim q' <> qdim q.
Theorem C36_consistent m v : constructed m v -> good_units v ->
  exists v', uconvert_consistent m v = ret v' /\ constructed m v' /\ same_physical v v' /\
    forall i q, nth_error (ucomps v) i = Some q ->
      exists q0, first_of_dim v q q0 /\ has_unit v' i (qunit q0).
Proof.
  intros Hc Hg. set (us := first_units [] (ucomps v)).
  assert (Hok : Forall2 okunit us (ucomps v)).
  { apply first_units_ok. intros ? ? []. eapply Forall_impl; [|exact Hg]. cbn. intros; lra. now apply (constructed_mag m). }
  exists (mkUvec (utag v) (convs us (ucomps v)) (uattrs v)).
  split; [|split; [|split]].
  - now apply replace_ok.
  - now apply replace_constructed.
  - now apply convs_same.
  - intros i q Hi.
    pose proof (first_units_spec [] (ucomps v) i q Hi) as Hs. cbn [lookup] in Hs.
    destruct (convs_nth _ _ _ i q Hok Hi) as (u & Hu1 & _ & Hu3).
    destruct (find (fun q' => dim_eqb (qdim q') (qdim q)) (ucomps v)) as [q0|] eqn:Ef.
    + exists q0. split.
      * clear -Ef. unfold first_of_dim. induction (ucomps v) as [|a l IH]; cbn in Ef; try discriminate.
        destruct (dim_eqb (qdim a) (qdim q)) eqn:Ed.
        -- injection Ef as <-. exists 0%nat. apply dim_eqb_true in Ed. split; [reflexivity|]. split; auto. intros j q' Hj; lia.
        -- destruct (IH Ef) as (i & H1 & H2 & H3). exists (S i). split; auto. split; auto.
           intros [|j] q' Hj Hn; cbn in Hn.
           ++ injection Hn as <-. intros E. apply dim_eqb_true in E. congruence.
           ++ apply (H3 j); auto. lia.
      * exists (conv u q). split; auto. rewrite conv_unit. unfold us in Hu1. rewrite Hs in Hu1. now injection Hu1.
    + exfalso. apply nth_error_In in Hi. apply (find_none _ _ Ef) in Hi. now rewrite dim_eqb_refl in Hi.
Qed.
(** A vector whose equal-dimension components already share a unit is returned unchanged. *)
Theorem C36_consistent_fixpoint m v : constructed m v -> good_units v ->
  (forall q q', In q (ucomps v) -> In q' (ucomps v) -> qdim q = qdim q' -> qunit q = qunit q') ->
  uconvert_consistent m v = ret v.
Proof.
  intros Hc Hg Hsame. set (us := first_units [] (ucomps v)).
  assert (Hok : Forall2 okunit us (ucomps v)).
  { apply first_units_ok. intros ? ? []. eapply Forall_impl; [|exact Hg]. cbn. intros; lra. now apply (constructed_mag m). }
  unfold uconvert_consistent. rewrite replace_ok by auto. f_equal.
  assert (E : us = map qunit (ucomps v)).
  { apply nth_error_ext. intros i. unfold us. rewrite nth_error_map.
    destruct (nth_error (ucomps v) i) as [q|] eqn:Ei.
    - rewrite (first_units_spec [] _ i q Ei). cbn [lookup option_map]. f_equal.
      destruct (find _ (ucomps v)) as [q0|] eqn:Ef; auto.
      apply find_some in Ef as [Hin Hd]. apply dim_eqb_true in Hd. apply Hsame; auto. now apply nth_error_In in Ei.
    - cbn. apply nth_error_None. rewrite first_units_len. now apply nth_error_None. }
  fold us. rewrite E. clear E us Hok. destruct v as [t cs ats]; cbn [utag ucomps uattrs] in *. f_equal.
  unfold good_units in Hg; cbn [ucomps] in Hg. clear -Hg.
  induction Hg as [|q cs H Hg IH]; cbn; auto. unfold convs in IH. rewrite IH, conv_self by lra. reflexivity.
Qed.

(** Attributes are never converted: [Delta] of a prolate spheroidal position keeps its unit. *)
Theorem C36_attributes_kept m units v v' : uconvert_map m units v = ret v' -> uattrs v' = uattrs v.
Proof.
  unfold uconvert_map, replace_comps, construct. destruct (mapM _ _) as [w cs|]; [|discriminate].
  cbn [bind]. destruct (_ && _); [|discriminate]. cbv zeta. destruct (to_pos _) as [p|].
  - destruct (build m false p) as [w' x|]; [|discriminate]. cbn. intros H. now injection H as _ <-.
  - cbn. intros H. now injection H as _ <-.
Qed.

(** Example: SphericalPos(r=1 km, theta=45 deg, phi=3 rad).uconvert({"length": "m", "angle": "deg"}). *)
Definition km := mkUnit length_d 1000.
Definition metre := mkUnit length_d 1.
Definition rad := mkUnit angle_d 1.
Definition deg := mkUnit angle_d (PI / 180).
Definition sph_ex : uvec :=
  mkUvec (TPos CSph) [mkQty QDistance (Some 1) km; mkQty QAngle (Some 45) deg; mkQty QAngle (Some 3) rad] [].
Example C36_example_constructed : constructed Eager sph_ex.
Proof.
  unfold constructed, construct, sph_ex. cbn [utag ucomps uattrs].
  cbn [accepts_all fields_of attrs_of accepts qc qdim qunit udim dim_eqb length_d angle_d d_len d_mass d_time d_ang d_mag km rad deg Z.eqb Pos.eqb andb].
  cbn [to_pos utag ucomps uattrs build mk_Sph conv_r conv_az dval qdist].
  unfold mk_Sph, conv_r, qdist, check_nonneg, check_polar, phys. cbn [dval dkind_of qc lift1 qval qunit uscale km deg rad nltb Num_ext lift2b ncst nang].
  replace (Rltb (1 * 1000) 0) with false by (symmetry; apply Rltb_false; lra).
  replace (Rltb (45 * (PI / 180)) 0) with false by (symmetry; apply Rltb_false; pose proof PI_pos; lra).
  replace (Rltb PI (45 * (PI / 180))) with false by (symmetry; apply Rltb_false; pose proof PI_pos; lra).
  reflexivity.
Qed.
Example C36_example : exists v',
  uconvert_map Eager [(length_d, metre); (angle_d, deg)] sph_ex = ret v' /\ has_unit v' 0 metre /\ has_unit v' 2 deg /\
  to_pos v' = to_pos sph_ex.
Proof.
  destruct (C36_mapping Eager [(length_d, metre); (angle_d, deg)] sph_ex C36_example_constructed) as (v' & H1 & _ & H2 & H3).
  - intros q [<-|[<-|[<-|[]]]].
    + exists metre. split. exists [], [(angle_d, deg)]. split; auto. intros u [H|[]]. discriminate H. split; cbn; auto. split; [lra|discriminate].
    + exists deg. split. exists [(length_d, metre)], []. split; auto. split; cbn; auto. split; [pose proof PI_pos; lra|discriminate].
    + exists deg. split. exists [(length_d, metre)], []. split; auto. split; cbn; auto. split; [pose proof PI_pos; lra|discriminate].
  - exists v'. split; auto.
    assert (Huniq : forall u, requested [(length_d, metre); (angle_d, deg)] length_d u -> u = metre).
    { intros u (pre & post & E & _). destruct pre as [|p1 [|p2 [|p3 pre]]]; inversion E; auto. }
    assert (Huniq' : forall u, requested [(length_d, metre); (angle_d, deg)] angle_d u -> u = deg).
    { intros u (pre & post & E & _). destruct pre as [|p1 [|p2 [|p3 pre]]]; inversion E; auto. }
    split; [|split].
    + destruct (H3 0%nat _ eq_refl) as (u & Hu & Hh). now rewrite (Huniq u Hu) in Hh.
    + destruct (H3 2%nat _ eq_refl) as (u & Hu & Hh). now rewrite (Huniq' u Hu) in Hh.
    + apply (C36_same_physical_same_vector sph_ex v' H2).
Qed.

(** ** C42: arithmetic and equality across units *)

(** The classes whose [+] (resp. [-]) is defined on two vectors of that class. *)
Inductive addable : tag -> Prop :=
| add_p1 : addable (TPos CCart1) | add_p2 : addable (TPos CCart2) | add_p3 : addable (TPos CCart3)
| add_v1 : addable (TVel WCart1) | add_v2 : addable (TVel WCart2) | add_v3 : addable (TVel WCart3)
| add_a1 : addable (TAcc XCart1) | add_a2 : addable (TAcc XCart2) | add_a3 : addable (TAcc XCart3).
Inductive subtractable : tag -> Prop :=
| sub_p1 : subtractable (TPos CCart1) | sub_p2 : subtractable (TPos CCart2) | sub_p3 : subtractable (TPos CCart3)
| sub_v3 : subtractable (TVel WCart3)
| sub_a1 : subtractable (TAcc XCart1) | sub_a3 : subtractable (TAcc XCart3).

Definition units_of (v : uvec) : list unit_ := map qunit (ucomps v).
(** component-wise physical sum/difference *)
Definition phys_op (f : R -> R -> R) (v w r : uvec) : Prop :=
  map phys (ucomps r) = map (fun '(a, b) => lift2 f (phys a) (phys b)) (combine (ucomps v) (ucomps w)).

(** *** helpers *)
Lemma map2q_phys f g (a b : list qty) :
  (forall x y s : R, (f x y : R) * s = f (x * s) (y * s)) ->
  (g = lift2 f) -> map qunit a = map qunit b ->
  map phys (map2q g a b) = map (fun '(x, y) => lift2 f (phys x) (phys y)) (combine a b).
Proof.
  intros Hf -> . revert b. induction a as [|x a IH]; intros [|y b] H; cbn in *; try discriminate; auto.
  injection H as Hu H. f_equal; [|now apply IH].
  unfold phys; cbn [qval qunit]. rewrite <- Hu. destruct (qval x), (qval y); cbn; auto. now rewrite Hf.
Qed.
Lemma map2q_unit g (a b : list qty) : length a = length b -> map qunit (map2q g a b) = map qunit a.
Proof. revert b. induction a as [|x a IH]; intros [|y b] H; cbn in *; try discriminate; auto. f_equal. apply IH. lia. Qed.

Lemma acc_all_shape fs qs d : accepts_all fs qs = true -> Forall (fun f => f = FQ d) fs ->
  Forall (fun q => qc q = QQuantity /\ qdim q = d) qs /\ length qs = length fs.
Proof.
  revert qs. induction fs as [|f fs IH]; intros [|q qs] H Hf; cbn in H; try discriminate; auto.
  apply andb_true_iff in H as [H1 H2]. apply Forall_cons_iff in Hf as [-> Hf].
  destruct (IH qs H2 Hf) as [I1 I2]. cbn. split; [constructor; auto|lia].
  unfold accepts in H1. destruct (qc q); try discriminate. split; auto. symmetry. now apply dim_eqb_true.
Qed.
Definition cart_dim (t : tag) : dim := match t with TPos _ => length_d | TVel _ => speed_d | TAcc _ => acc_d end.
Lemma addable_shape m v : addable (utag v) -> constructed m v ->
  Forall (fun q => qc q = QQuantity /\ qdim q = cart_dim (utag v)) (ucomps v)
  /\ length (ucomps v) = length (fields_of (utag v)) /\ uattrs v = [].
Proof.
  unfold constructed, construct. intros Ha Hc.
  destruct (accepts_all (fields_of (utag v)) (ucomps v)) eqn:E1; [|discriminate].
  destruct (accepts_all (attrs_of (utag v)) (uattrs v)) eqn:E2; [|discriminate].
  assert (Hat : attrs_of (utag v) = []) by (destruct Ha; reflexivity). rewrite Hat in E2.
  assert (Hf : Forall (fun f => f = FQ (cart_dim (utag v))) (fields_of (utag v))) by (destruct Ha; cbn; auto).
  destruct (acc_all_shape _ _ _ E1 Hf) as [I1 I2]. split; auto. split; auto.
  destruct (uattrs v); auto. discriminate.
Qed.
Lemma subtractable_addable t : subtractable t -> addable t.
Proof. destruct 1; constructor. Qed.
Lemma all_qc (v w : uvec) d d' : Forall (fun q => qc q = QQuantity /\ qdim q = d) (ucomps v) ->
  Forall (fun q => qc q = QQuantity /\ qdim q = d') (ucomps w) -> length (ucomps v) = length (ucomps w) ->
  map qc (ucomps v) = map qc (ucomps w).
Proof.
  intros H. revert w. generalize (ucomps v) as a, H. clear. intros a H w. generalize (ucomps w) as b. clear w.
  induction H as [|q a [Hq _] H IH]; intros [|q' b] Hw Hl; cbn in *; try discriminate; auto.
  apply Forall_cons_iff in Hw as [[Hq' _] Hw]. f_equal; [congruence|]. apply IH; auto.
Qed.
Lemma tree_eqb_units m v w : addable (utag v) -> utag w = utag v -> constructed m v -> constructed m w ->
  tree_eqb v w = true <-> units_of v = units_of w.
Proof.
  intros Ha Ht Hv Hw. destruct (addable_shape m v Ha Hv) as (V1 & V2 & V3).
  destruct (addable_shape m w) as (W1 & W2 & W3); [now rewrite Ht|auto|].
  rewrite tree_eqb_true, V3, W3. unfold units_of. split.
  - intros (_ & _ & H & _). exact H.
  - intros H. split; [auto|]. split; [|auto]. eapply all_qc; eauto. rewrite V2, W2, Ht. reflexivity.
Qed.

(** *** C42 theorems *)

(** CartesianPos3D addition works for any length units: result in the units of the
    left operand, physical sum. *)
Theorem C42_add_cart3_any_units m v w :
  utag v = TPos CCart3 -> utag w = TPos CCart3 -> constructed m v -> constructed m w -> good_units v ->
  exists r, cart_add m v w = ret r /\ utag r = utag v /\ units_of r = units_of v /\ phys_op Rplus v w r.
Proof.
  intros Tv Tw Hv Hw Hg.
  destruct (addable_shape m v) as (V1 & V2 & V3); [rewrite Tv; constructor|auto|].
  destruct (addable_shape m w) as (W1 & W2 & W3); [rewrite Tw; constructor|auto|].
  rewrite Tv in *; rewrite Tw in *. cbn [fields_of length] in V2, W2.
  destruct (ucomps v) as [|x [|y [|z [|]]]] eqn:Ev; try discriminate. clear V2.
  destruct (ucomps w) as [|x' [|y' [|z' [|]]]] eqn:Ew; try discriminate. clear W2.
  assert (Hg' : Forall (fun q => 0 < uscale (qunit q)) [x; y; z]) by (unfold good_units in Hg; now rewrite Ev in Hg).
  apply Forall_cons_iff in Hg' as [G1 Hg']. apply Forall_cons_iff in Hg' as [G2 Hg']. apply Forall_cons_iff in Hg' as [G3 _].
  apply Forall_cons_iff in V1 as [[Q1 D1] V1]. apply Forall_cons_iff in V1 as [[Q2 D2] V1]. apply Forall_cons_iff in V1 as [[Q3 D3] _].
  apply Forall_cons_iff in W1 as [[Q1' D1'] W1]. apply Forall_cons_iff in W1 as [[Q2' D2'] W1]. apply Forall_cons_iff in W1 as [[Q3' D3'] _].
  unfold cart_add. rewrite Tv, Tw, Ev, Ew. cbn [combine mapM]. rewrite !qadd_ok by congruence. cbn [bind ret orb].
  unfold construct. cbn [accepts_all fields_of attrs_of accepts qc]. rewrite V3, Q1, Q2, Q3.
  unfold qdim in *. cbn [qunit cart_dim] in *. rewrite D1, D2, D3. rewrite dim_eqb_refl. cbn [andb accepts_all].
  cbn [to_pos utag ucomps uattrs]. cbn [build mk_Cart3 bind ret]. eexists. split; [reflexivity|].
  split; [reflexivity|]. unfold units_of. cbn [ucomps map]. split; [rewrite Ev; reflexivity|].
  unfold phys_op; cbn [ucomps map combine]. rewrite Ev, Ew. cbn [map combine].
  assert (P : forall k a b, 0 < uscale (qunit a) ->
    phys (mkQty k (nadd (qval a) (qval (conv (qunit a) b))) (qunit a)) = lift2 Rplus (phys a) (phys b)).
  { intros k a b Hs. unfold phys, conv; cbn [qval qunit]. destruct (qval a), (qval b); cbn; auto.
    f_equal. field. lra. }
  rewrite !P by auto. reflexivity.
Qed.

(** Adding two Cartesian vectors of the same class held in the same units gives the
    physical sum, in those units. *)
Theorem C42_add_same_units m v w :
  addable (utag v) -> utag w = utag v -> constructed m v -> constructed m w -> good_units v ->
  units_of v = units_of w ->
  exists r, cart_add m v w = ret r /\ utag r = utag v /\ units_of r = units_of v /\ phys_op Rplus v w r.
Proof.
  intros Ha Ht Hv Hw Hg Hu.
  pose proof (proj2 (tree_eqb_units m v w Ha Ht Hv Hw) Hu) as He.
  destruct (addable_shape m v Ha Hv) as (V1 & V2 & V3).
  destruct (addable_shape m w) as (W1 & W2 & W3); [now rewrite Ht|auto|].
  assert (Hl : length (ucomps v) = length (ucomps w)) by (rewrite V2, W2, Ht; reflexivity).
  assert (Htree : exists r, tree_map2 nadd v w = ret r /\ utag r = utag v /\ units_of r = units_of v /\ phys_op Rplus v w r).
  { unfold tree_map2. rewrite He. eexists. split; [reflexivity|]. split; [reflexivity|]. split.
    - unfold units_of. cbn [ucomps]. now apply map2q_unit.
    - unfold phys_op; cbn [ucomps]. apply map2q_phys; auto. intros; ring. }
  unfold cart_add. rewrite Ht. inversion Ha as [E|E|E|E|E|E|E|E|E]; rewrite <- ?E in Htree; rewrite <- ?E; try exact Htree.
  (* CartesianPos3D *)
  destruct (C42_add_cart3_any_units m v w (eq_sym E) (eq_trans Ht (eq_sym E)) Hv Hw Hg) as (r & R).
  exists r. unfold cart_add in R. rewrite Ht in R. rewrite <- E in R. exact R.
Qed.

Theorem C42_sub_same_units m v w :
  subtractable (utag v) -> utag w = utag v -> constructed m v -> constructed m w ->
  units_of v = units_of w ->
  exists r, cart_sub v w = ret r /\ utag r = utag v /\ units_of r = units_of v /\ phys_op Rminus v w r.
Proof.
  intros Hs Ht Hv Hw Hu. pose proof (subtractable_addable _ Hs) as Ha.
  pose proof (proj2 (tree_eqb_units m v w Ha Ht Hv Hw) Hu) as He.
  destruct (addable_shape m v Ha Hv) as (V1 & V2 & V3).
  destruct (addable_shape m w) as (W1 & W2 & W3); [now rewrite Ht|auto|].
  assert (Hl : length (ucomps v) = length (ucomps w)) by (rewrite V2, W2, Ht; reflexivity).
  assert (Htree : exists r, tree_map2 nsub v w = ret r /\ utag r = utag v /\ units_of r = units_of v /\ phys_op Rminus v w r).
  { unfold tree_map2. rewrite He. eexists. split; [reflexivity|]. split; [reflexivity|]. split.
    - unfold units_of. cbn [ucomps]. now apply map2q_unit.
    - unfold phys_op; cbn [ucomps]. apply map2q_phys; auto. intros; ring. }
  unfold cart_sub. rewrite Ht. inversion Hs as [E|E|E|E|E|E]; rewrite <- ?E in Htree; rewrite <- ?E; exact Htree.
Qed.

(** Equality of two Cartesian vectors in the same units is equality of every
    (finite) physical component. *)
Theorem C42_eq_same_units m v w :
  addable (utag v) -> utag w = utag v -> constructed m v -> constructed m w -> good_units v ->
  units_of v = units_of w ->
  exists b, vec_eq v w = ret b /\
    (b = true <-> Forall2 (fun a b => exists x, phys a = Some x /\ phys b = Some x) (ucomps v) (ucomps w)).
Proof.
  intros Ha Ht Hv Hw Hg Hu.
  pose proof (proj2 (tree_eqb_units m v w Ha Ht Hv Hw) Hu) as He.
  destruct (addable_shape m v Ha Hv) as (V1 & V2 & V3).
  destruct (addable_shape m w) as (W1 & W2 & W3); [now rewrite Ht|auto|].
  assert (Hl : length (ucomps v) = length (ucomps w)) by (rewrite V2, W2, Ht; reflexivity).
  unfold vec_eq. rewrite He. eexists. split; [reflexivity|]. rewrite V3, W3, !app_nil_r.
  unfold good_units in Hg. unfold units_of in Hu. clear -Hg Hu. revert Hu. generalize (ucomps w) as b.
  induction Hg as [|q a Hq Hg IH]; intros [|q' b] Hu; cbn [map combine forallb] in *; try discriminate; [split; auto|].
  injection Hu as Hu Hus. rewrite andb_true_iff, (IH b Hus). split.
  - intros [H1 H2]. constructor; auto. unfold phys. rewrite <- Hu.
    destruct (qval q) as [x|], (qval q') as [y|]; cbn in H1; try discriminate. apply Reqb_true in H1. subst y.
    exists (x * uscale (qunit q)). cbn. auto.
  - intros H. inversion H as [|? ? ? ? (z & Z1 & Z2) H2]; subst. split; auto.
    unfold phys in *. rewrite <- Hu in Z2. destruct (qval q) as [x|], (qval q') as [y|]; cbn in *; try discriminate.
    apply Reqb_true. injection Z1 as <-. injection Z2 as Z2.
    apply Rmult_eq_reg_r with (uscale (qunit q)); lra.
Qed.

(** If any unit differs, everything but CartesianPos3D addition raises. *)
Theorem C42_different_units_raise m v w :
  addable (utag v) -> utag w = utag v -> constructed m v -> constructed m w -> units_of v <> units_of w ->
  (utag v <> TPos CCart3 -> cart_add m v w = Raise EValue) /\
  (exists e, cart_sub v w = Raise e) /\ vec_eq v w = Raise EValue.
Proof.
  intros Ha Ht Hv Hw Hu.
  assert (He : tree_eqb v w = false).
  { destruct (tree_eqb v w) eqn:E; auto. apply (tree_eqb_units m v w) in E; auto. contradiction. }
  assert (T : forall f, tree_map2 f v w = Raise EValue) by (intros f; unfold tree_map2; now rewrite He).
  split; [|split].
  - intros Hn. unfold cart_add. rewrite Ht. inversion Ha as [E|E|E|E|E|E|E|E|E]; rewrite <- ?E; try apply T. congruence.
  - unfold cart_sub. rewrite Ht. inversion Ha as [E|E|E|E|E|E|E|E|E]; rewrite <- ?E; rewrite ?T; eauto.
  - unfold vec_eq. now rewrite He.
Qed.

(** Converting both operands to common units first always makes [+] work and
    yields the physical sum. *)
Theorem C42_common_units_add m units v w :
  addable (utag v) -> utag w = utag v -> constructed m v -> constructed m w ->
  (exists u, requested units (cart_dim (utag v)) u /\ udim u = cart_dim (utag v) /\ 0 < uscale u) ->
  exists v' w' r, uconvert_map m units v = ret v' /\ uconvert_map m units w = ret w' /\
    cart_add m v' w' = ret r /\ phys_op Rplus v w r.
Proof.
  intros Ha Ht Hv Hw (u & Hu1 & Hu2a & Hu2).
  destruct (addable_shape m v Ha Hv) as (V1 & V2 & V3).
  destruct (addable_shape m w) as (W1 & W2 & W3); [now rewrite Ht|auto|].
  destruct (C36_mapping m units v Hv) as (v' & E1 & C1 & (S1 & S1a & S1f) & U1).
  { intros q Hq. rewrite Forall_forall in V1. destruct (V1 q Hq) as [Hq' Hd]. exists u. unfold unit_for. rewrite Hd. repeat split; auto. congruence. }
  destruct (C36_mapping m units w Hw) as (w' & E2 & C2 & (S2 & S2a & S2f) & U2).
  { intros q Hq. rewrite Forall_forall in W1. destruct (W1 q Hq) as [Hq' Hd]. exists u. unfold unit_for. rewrite Hd, Ht. repeat split; auto. congruence. }
  assert (Huniq : forall d u1 u2, requested units d u1 -> requested units d u2 -> u1 = u2).
  { intros d u1 u2 H1 H2. apply lookup_rev in H1, H2. congruence. }
  assert (L1 : length (ucomps v') = length (ucomps v)) by (clear -S1f; induction S1f; cbn; auto).
  assert (L2 : length (ucomps w') = length (ucomps w)) by (clear -S2f; induction S2f; cbn; auto).
  assert (Hall : forall x x' d, Forall (fun q => qc q = QQuantity /\ qdim q = d) (ucomps x) ->
     length (ucomps x') = length (ucomps x) -> requested units d u ->
     (forall i q, nth_error (ucomps x) i = Some q -> exists u, requested units (qdim q) u /\ has_unit x' i u) ->
     units_of x' = repeat u (length (ucomps x))).
  { intros x x' d Hx Hl Hd HU. unfold units_of. apply nth_error_ext. intros i. rewrite nth_error_map.
    destruct (nth_error (ucomps x) i) as [q|] eqn:Ei.
    - destruct (HU i q Ei) as (u0 & R0 & q' & N0 & Q0). rewrite N0. cbn.
      rewrite Forall_forall in Hx. destruct (Hx q (nth_error_In _ _ Ei)) as [_ Dq]. rewrite Dq in R0.
      rewrite (Huniq _ _ _ R0 Hd) in Q0. rewrite Q0.
      symmetry. apply nth_error_repeat. apply nth_error_Some. congruence.
    - assert (Hle : (length (ucomps x) <= i)%nat) by now apply nth_error_None.
      rewrite (proj2 (nth_error_None (ucomps x') i)) by lia. cbn. symmetry. apply nth_error_None. rewrite repeat_length. lia. }
  assert (Hv' := Hall v v' _ V1 L1 Hu1 U1).
  rewrite Ht in W1. assert (Hw' := Hall w w' _ W1 L2 Hu1 U2).
  destruct (C42_add_same_units m v' w') as (r & R1 & R2 & R3 & R4); auto.
  - now rewrite S1.
  - congruence.
  - unfold good_units. assert (Hf : Forall (fun x => 0 < uscale x) (units_of v')).
    { rewrite Hv'. apply Forall_forall. intros x Hx. apply repeat_spec in Hx. subst x. apply Hu2. }
    unfold units_of in Hf. rewrite Forall_map in Hf. exact Hf.
  - rewrite Hv', Hw'. f_equal. rewrite V2, W2, Ht. reflexivity.
  - exists v', w', r. split; auto. split; auto. split; auto. unfold phys_op in *. rewrite R4.
    clear -S1f S2f. revert S2f. generalize (ucomps w) as b, (ucomps w') as b'.
    induction S1f as [|q q' a a' (_ & _ & P1) S1f IH]; intros b b' S2f; auto.
    destruct S2f as [|p p' b b' (_ & _ & P2) S2f]; auto. cbn [combine map].
    rewrite P1, P2. f_equal. now apply IH.
Qed.

(** Refuted: addition of CartesianPos2D does not respect physical equality; writing an
    operand in another unit of the same dimension turns a valid sum into an exception. *)
Definition p2 (u : unit_) (x y : R) : uvec := mkUvec (TPos CCart2) [mkQty QQuantity (Some x) u; mkQty QQuantity (Some y) u] [].
Theorem C42_unit_invariance_refuted :
  exists v w w', constructed Eager v /\ constructed Eager w /\ constructed Eager w' /\ same_physical w w' /\
    (exists r, cart_add Eager v w = ret r) /\ cart_add Eager v w' = Raise EValue
    /\ vec_eq w w' = Raise EValue.
Proof.
  exists (p2 km 1 2), (p2 km 3 4), (p2 metre 3000 4000).
  assert (Hne : Reqb 1000 1 = false) by (apply Reqb_false; lra).
  assert (Heq : Reqb 1000 1000 = true) by (apply Reqb_true; lra).
  split; [reflexivity|]. split; [reflexivity|]. split; [reflexivity|]. split; [|split; [|split]].
  - split; [reflexivity|]. split; [reflexivity|]. cbn [p2 ucomps].
    repeat constructor; cbn [phys lift1 qval qunit uscale km metre]; unfold phys; cbn [lift1 qval qunit uscale km metre]; f_equal; ring.
  - unfold cart_add, p2, tree_map2, tree_eqb. cbn [utag ucomps uattrs tag_eqb differential_cls vcls_eqb same_structure].
    unfold same_qty_structure, unit_eqb. cbn [qc qcls_eqb qunit km udim uscale]. rewrite Heq, dim_eqb_refl. cbn [andb]. eauto.
  - unfold cart_add, p2, tree_map2, tree_eqb. cbn [utag ucomps uattrs tag_eqb differential_cls vcls_eqb same_structure].
    unfold same_qty_structure, unit_eqb. cbn [qc qcls_eqb qunit km metre udim uscale]. rewrite Hne, dim_eqb_refl. reflexivity.
  - unfold vec_eq, p2, tree_eqb. cbn [utag ucomps uattrs tag_eqb differential_cls vcls_eqb same_structure].
    unfold same_qty_structure, unit_eqb. cbn [qc qcls_eqb qunit km metre udim uscale]. rewrite Hne, dim_eqb_refl. reflexivity.
Qed.

(** Example: CartesianPos3D in km plus one in m. *)
Definition p3 (u : unit_) (x y z : R) : uvec :=
  mkUvec (TPos CCart3) [mkQty QQuantity (Some x) u; mkQty QQuantity (Some y) u; mkQty QQuantity (Some z) u] [].
Example C42_example : exists r, cart_add Eager (p3 km 1 2 3) (p3 metre 500 0 0) = ret r /\
  map phys (ucomps r) = [Some 1500; Some 2000; Some 3000].
Proof.
  destruct (C42_add_cart3_any_units Eager (p3 km 1 2 3) (p3 metre 500 0 0)) as (r & H1 & _ & _ & H2);
    try reflexivity.
  - unfold good_units, p3; cbn [ucomps]. repeat constructor; cbn; lra.
  - exists r. split; auto. rewrite H2. cbn [p3 ucomps combine map]. unfold phys; cbn [lift1 lift2 qval qunit uscale km metre].
    repeat f_equal; ring.
Qed.

Print Assumptions C36_mapping.
Print Assumptions C36_unit_system.
Print Assumptions C36_consistent.
Print Assumptions C42_add_same_units.
Print Assumptions C42_common_units_add.
Print Assumptions C42_unit_invariance_refuted.
