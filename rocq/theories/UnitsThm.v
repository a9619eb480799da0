(** * Lemmas on units *)
From Coq Require Import Reals Bool List ZArith Lra Lia.
From Verif Require Import Num Vectors Transform Vel Units.
Import ListNotations.
Open Scope R_scope.

Lemma dim_eqb_true a b : dim_eqb a b = true <-> a = b.
Proof.
  destruct a, b. unfold dim_eqb; cbn. rewrite !andb_true_iff, !Z.eqb_eq. split.
  - intros [[[[? ?] ?] ?] ?]. now subst.
  - intros H. injection H as -> -> -> -> ->. auto.
Qed.
Lemma dim_eqb_refl a : dim_eqb a a = true. Proof. now apply dim_eqb_true. Qed.
Lemma dim_eqb_neq a b : a <> b -> dim_eqb a b = false.
Proof. intros H. destruct (dim_eqb a b) eqn:E; auto. apply dim_eqb_true in E. contradiction. Qed.
Lemma unit_eqb_true a b : unit_eqb a b = true <-> a = b.
Proof.
  destruct a as [da sa], b as [db sb]. unfold unit_eqb; cbn. rewrite andb_true_iff, dim_eqb_true, Reqb_true. split.
  - intros [-> ->]. reflexivity.
  - intros H. injection H as -> ->. auto.
Qed.
Lemma qcls_eqb_true a b : qcls_eqb a b = true <-> a = b.
Proof. destruct a, b; cbn; split; congruence. Qed.
Lemma vcls_eqb_true a b : vcls_eqb a b = true <-> a = b.
Proof. destruct a, b; cbn; split; congruence. Qed.
Lemma tag_eqb_true a b : tag_eqb a b = true <-> a = b.
Proof.
  destruct a as [a|a|a], b as [b|b|b]; cbn; try (split; congruence).
  - destruct a, b; cbn; split; congruence.
  - rewrite vcls_eqb_true. split; congruence.
  - destruct a, b; cbn; split; congruence.
Qed.

(** the quantity [q] expressed in the unit [u] *)
Definition conv (u : unit_) (q : qty) : qty :=
  mkQty (qc q) (lift1 (fun x => x * (uscale (qunit q) / uscale u)) (qval q)) u.
(** a DistanceModulus is only ever in "mag" *)
Definition cls_unit (u : unit_) (q : qty) : Prop := qc q = QDistMod -> u = mag_unit.
Lemma uconvert_q_ok u q : udim u = qdim q -> cls_unit u q -> uconvert_q u q = ret (conv u q).
Proof.
  intros H Hc. unfold uconvert_q. rewrite (proj2 (dim_eqb_true _ _) H).
  destruct (qcls_eqb (qc q) QDistMod) eqn:E; [|reflexivity].
  apply qcls_eqb_true in E. rewrite (proj2 (unit_eqb_true _ _) (Hc E)). reflexivity.
Qed.
Lemma uconvert_q_distmod u q : udim u = qdim q -> qc q = QDistMod -> u <> mag_unit -> uconvert_q u q = Raise EValue.
Proof.
  intros H Hc Hu. unfold uconvert_q. rewrite (proj2 (dim_eqb_true _ _) H), Hc. cbn [qcls_eqb andb].
  destruct (unit_eqb u mag_unit) eqn:E; [apply unit_eqb_true in E; contradiction|reflexivity].
Qed.
Lemma uconvert_q_bad u q : udim u <> qdim q -> uconvert_q u q = Raise EUnit.
Proof. intros H. unfold uconvert_q. now rewrite dim_eqb_neq. Qed.
Lemma conv_phys u q : uscale u <> 0 -> phys (conv u q) = phys q.
Proof. intros H. destruct q as [c [x|] [d s]]; unfold phys, conv; cbn; auto. f_equal. field. auto. Qed.
Lemma conv_self q : uscale (qunit q) <> 0 -> conv (qunit q) q = q.
Proof. intros H. destruct q as [c [x|] [d s]]; unfold conv; cbn in *; auto. do 2 f_equal. field. auto. Qed.
Lemma conv_conv u u' q : uscale u <> 0 -> conv u' (conv u q) = conv u' q.
Proof.
  intros H. destruct q as [c [x|] [d s]]; unfold conv; cbn in *; auto. f_equal. f_equal.
  transitivity (x * s * (/ uscale u * uscale u) * / uscale u'); [unfold Rdiv; ring|].
  rewrite Rinv_l by auto. unfold Rdiv; ring.
Qed.
Lemma conv_unit u q : qunit (conv u q) = u. Proof. reflexivity. Qed.
Lemma conv_qc u q : qc (conv u q) = qc q. Proof. reflexivity. Qed.

Lemma accepts_conv f u q : udim u = qdim q -> cls_unit u q -> accepts f q = true -> accepts f (conv u q) = true.
Proof.
  intros H Hc. unfold accepts, qdim, cls_unit in *. rewrite conv_qc. cbn [qunit conv]. rewrite H.
  destruct f; auto. destruct (qc q); auto. rewrite Hc by reflexivity. intros _. now apply unit_eqb_true.
Qed.
Lemma accepts_all_conv fs us qs : Forall2 (fun u q => udim u = qdim q /\ cls_unit u q) us qs ->
  accepts_all fs qs = true -> accepts_all fs (map (fun '(u, q) => conv u q) (combine us qs)) = true.
Proof.
  intros H. revert fs. induction H as [|u q us qs [Hu Hc] H IH]; intros [|f fs]; cbn; auto.
  rewrite !andb_true_iff. intros [H1 H2]. split; [now apply accepts_conv|]. now apply IH.
Qed.
(** what the constructors let through *)
Lemma accepts_mag f q : accepts f q = true -> qdim q = mag_d -> In f [FRadial; FAngle] \/ (forall d, f = FQ d -> d <> mag_d) ->
  qunit q = mag_unit.
Proof.
  intros H Hd Hf. unfold accepts in H. destruct f, (qc q); try discriminate H.
  - apply dim_eqb_true in H. subst d. destruct Hf as [[Hf|[Hf|[]]]|Hf]; try discriminate. now destruct (Hf _ eq_refl).
  - apply dim_eqb_true in H. rewrite Hd in H. discriminate.
  - apply dim_eqb_true in H. rewrite Hd in H. discriminate.
  - now apply unit_eqb_true.
  - apply dim_eqb_true in H. rewrite Hd in H. discriminate.
Qed.
Lemma fields_not_mag t f : In f (fields_of t) -> forall d, f = FQ d -> d <> mag_d.
Proof.
  intros Hi d ->. destruct t as [c|c|c]; destruct c; cbn in Hi;
  repeat (destruct Hi as [Hi|Hi]; [try discriminate Hi; injection Hi as <-; discriminate|]); destruct Hi.
Qed.

Definition convs (us : list unit_) (qs : list qty) : list qty := map (fun '(u, q) => conv u q) (combine us qs).

Definition okunit (u : unit_) (q : qty) : Prop := udim u = qdim q /\ uscale u <> 0 /\ cls_unit u q.
Lemma mapM_convs us qs : Forall2 okunit us qs ->
  mapM (fun '(ru, q) => do u <- ru; uconvert_q u q) (combine (map ret us) qs) = ret (convs us qs).
Proof.
  induction 1 as [|u q us qs (Hu & _ & Hcu) H IH]; cbn; auto.
  rewrite uconvert_q_ok by auto. cbn. rewrite IH. reflexivity.
Qed.
Lemma convs_phys us qs : Forall2 okunit us qs -> map phys (convs us qs) = map phys qs.
Proof. induction 1 as [|u q us qs (? & ? & _) H IH]; cbn; auto. rewrite conv_phys by auto. f_equal. exact IH. Qed.
Lemma convs_qc us qs : Forall2 okunit us qs -> map qc (convs us qs) = map qc qs.
Proof. induction 1 as [|u q us qs [? ?] H IH]; cbn; auto. f_equal. exact IH. Qed.
Lemma convs_unit us qs : Forall2 okunit us qs -> map qunit (convs us qs) = us.
Proof. induction 1 as [|u q us qs [? ?] H IH]; cbn; auto. f_equal. exact IH. Qed.
Lemma convs_dim us qs : Forall2 okunit us qs -> map qdim (convs us qs) = map qdim qs.
Proof. induction 1 as [|u q us qs [E ?] H IH]; cbn; auto. f_equal; auto. Qed.

(** [to_pos] depends on tag, classes and physical values only *)
Definition pos_view (t : tag) (cs ats : list (qcls * ext)) : option (pos ext) :=
  match t, cs, ats with
  | TPos CCart1, [x], _ => Some (PCart1 (snd x))
  | TPos CRadial, [r], _ => Some (PRadial (mkDist (dkind_of (fst r)) (snd r)))
  | TPos CCart2, [x; y], _ => Some (PCart2 (snd x) (snd y))
  | TPos CPolar, [r; a], _ => Some (PPolar (mkDist (dkind_of (fst r)) (snd r)) (snd a))
  | TPos CTwoSphere, [a; b], _ => Some (PTwoSphere (snd a) (snd b))
  | TPos CCart3, [x; y; z], _ => Some (PCart3 (snd x) (snd y) (snd z))
  | TPos CCyl, [r; a; z], _ => Some (PCyl (snd r) (snd a) (snd z))
  | TPos CSph, [r; a; b], _ => Some (PSph (mkDist (dkind_of (fst r)) (snd r)) (snd a) (snd b))
  | TPos CMSph, [r; a; b], _ => Some (PMSph (mkDist (dkind_of (fst r)) (snd r)) (snd a) (snd b))
  | TPos CLonLat, [a; b; r], _ => Some (PLonLat (snd a) (snd b) (mkDist (dkind_of (fst r)) (snd r)))
  | TPos CProlate, [a; b; c], [D] => Some (PProlate (snd a) (snd b) (snd c) (snd D))
  | _, _, _ => None
  end.
Lemma to_pos_view v : to_pos v = pos_view (utag v) (map (fun q => (qc q, phys q)) (ucomps v)) (map (fun q => (qc q, phys q)) (uattrs v)).
Proof.
  destruct v as [t cs ats]; unfold to_pos; cbn [utag ucomps uattrs].
  destruct t as [c|c|c]; [|reflexivity..].
  destruct c; destruct cs as [|a [|b [|d [|e cs]]]]; try reflexivity;
  destruct ats as [|x [|y ats]]; reflexivity.
Qed.
Lemma pair_map qs qs' : map qc qs = map qc qs' -> map phys qs = map phys qs' ->
  map (fun q => (qc q, phys q)) qs = map (fun q => (qc q, phys q)) qs'.
Proof.
  revert qs'. induction qs as [|q qs IH]; intros [|q' qs'] H1 H2; cbn in *; try discriminate; auto.
  injection H1 as E1 H1. injection H2 as E2 H2. rewrite E1. f_equal; auto. f_equal. exact E2.
Qed.
Lemma to_pos_same t cs cs' ats : map qc cs = map qc cs' -> map phys cs = map phys cs' ->
  to_pos (mkUvec t cs ats) = to_pos (mkUvec t cs' ats).
Proof. intros H1 H2. rewrite !to_pos_view. cbn [utag ucomps uattrs]. now rewrite (pair_map cs cs'). Qed.

(** an existing object: its constructor accepted these components *)
Definition constructed (m : mode) (v : uvec) : Prop :=
  construct m (utag v) (ucomps v) (uattrs v) = ret v.

Lemma bind_ret_inv {T} (r : res T) (v v' : uvec) : bind r (fun _ => ret v) = ret v' -> exists x, r = Ok false x.
Proof. destruct r as [[] x|e]; cbn; intros H; inversion H. eauto. Qed.

Lemma construct_convs m v us : constructed m v -> Forall2 okunit us (ucomps v) ->
  construct m (utag v) (convs us (ucomps v)) (uattrs v) = ret (mkUvec (utag v) (convs us (ucomps v)) (uattrs v)).
Proof.
  unfold constructed, construct. intros Hc Hu.
  destruct (accepts_all (fields_of (utag v)) (ucomps v)) eqn:Ea; [|discriminate].
  assert (Ha : accepts_all (fields_of (utag v)) (convs us (ucomps v)) = true).
  { apply accepts_all_conv; auto. clear -Hu. induction Hu as [|u q us qs (? & ? & ?) H IH]; constructor; auto. }
  rewrite Ha. destruct (_ && _); [|discriminate]. cbv zeta in *.
  rewrite (to_pos_same _ (convs us (ucomps v)) (ucomps v)) by (apply convs_qc || apply convs_phys; auto).
  destruct (to_pos _) as [p|]; auto.
  apply bind_ret_inv in Hc as [x ->]. reflexivity.
Qed.

Lemma replace_ok m v us : constructed m v -> Forall2 okunit us (ucomps v) ->
  replace_comps m v (map ret us) = ret (mkUvec (utag v) (convs us (ucomps v)) (uattrs v)).
Proof.
  intros Hc Hu. unfold replace_comps. rewrite mapM_convs by auto. cbn [bind].
  change (bind (ret (convs us (ucomps v))) ?k) with (bind (Ok false (convs us (ucomps v))) k). cbn [bind ret].
  rewrite construct_convs by auto. reflexivity.
Qed.

Lemma replace_constructed m v us : constructed m v -> Forall2 okunit us (ucomps v) ->
  constructed m (mkUvec (utag v) (convs us (ucomps v)) (uattrs v)).
Proof. intros. unfold constructed. cbn [utag ucomps uattrs]. now apply construct_convs. Qed.

(** ** Failure *)
Lemma mapM_raise us qs e i : nth_error (combine us qs) i = Some e ->
  (forall u q, e = (u, q) -> exists x, bind u (fun u => uconvert_q u q) = Raise x) ->
  exists x, mapM (fun '(ru, q) => do u <- ru; uconvert_q u q) (combine us qs) = Raise x.
Proof.
  revert i. induction (combine us qs) as [|a l IH]; intros i Hn H.
  - destruct i; discriminate.
  - cbn [mapM]. destruct i as [|i]; cbn in Hn.
    + injection Hn as ->. destruct e as [u q]. destruct (H u q eq_refl) as [x Hx]. rewrite Hx. cbn. eauto.
    + destruct (IH i Hn H) as [x Hx]. destruct a as [u q].
      destruct (bind u _) as [w y|y]; cbn; [|eauto]. rewrite Hx. cbn. eauto.
Qed.

(** ** the self-consistent units *)
Lemma first_units_len l qs : length (first_units l qs) = length qs.
Proof. revert l. induction qs as [|q qs IH]; intros l; cbn; auto. destruct (lookup l (qdim q)); cbn; now rewrite IH. Qed.

Lemma lookup_some_dim l d u : (forall d' u', In (d', u') l -> udim u' = d') -> lookup l d = Some u -> udim u = d.
Proof.
  induction l as [|[d' u'] l IH]; cbn; intros H E; try discriminate.
  destruct (dim_eqb d' d) eqn:Ed.
  - injection E as <-. apply dim_eqb_true in Ed. subst d'. now apply H; left.
  - apply IH; auto.
Qed.
Lemma lookup_in l d u : lookup l d = Some u -> In (d, u) l.
Proof.
  induction l as [|[d' u'] l IH]; cbn; intros E; try discriminate.
  destruct (dim_eqb d' d) eqn:Ed; [|auto]. apply dim_eqb_true in Ed. injection E as <-. subst. now left.
Qed.
Definition mag_ok (q : qty) : Prop := (qdim q = mag_d -> qunit q = mag_unit) /\ (qc q = QDistMod -> qdim q = mag_d).
Lemma first_units_ok l qs : (forall d u, In (d, u) l -> udim u = d /\ uscale u <> 0 /\ (d = mag_d -> u = mag_unit)) ->
  Forall (fun q => uscale (qunit q) <> 0) qs -> Forall mag_ok qs -> Forall2 okunit (first_units l qs) qs.
Proof.
  revert l. induction qs as [|q qs IH]; intros l Hl Hq Hm; cbn; auto.
  apply Forall_cons_iff in Hq as [Hq Hqs]. apply Forall_cons_iff in Hm as [[M1 M2] Hm].
  destruct (lookup l (qdim q)) as [u|] eqn:E.
  - constructor; auto. apply lookup_in in E. destruct (Hl _ _ E) as (H1 & H2 & H3).
    split; auto. split; auto. intros Hc. auto.
  - constructor.
    + split; auto. split; auto. intros Hc. auto.
    + apply IH; auto. intros d u [H|H]; [|auto]. injection H as <- <-. split; auto.
Qed.
Lemma constructed_mag m v : constructed m v -> Forall mag_ok (ucomps v).
Proof.
  unfold constructed, construct. destruct (accepts_all (fields_of (utag v)) (ucomps v)) eqn:E; [|discriminate]. intros _.
  pose proof (fields_not_mag (utag v)) as Hf. revert E Hf. generalize (ucomps v). generalize (fields_of (utag v)). intros fs.
  induction fs as [|f fs IH]; intros [|q qs] E Hf; cbn in E; try discriminate; constructor.
  - apply andb_true_iff in E as [E _]. split.
    + intros Hd. apply (accepts_mag f q E Hd). right. apply Hf. now left.
    + intros Hc. unfold accepts in E. rewrite Hc in E. destruct f; try discriminate. apply unit_eqb_true in E. unfold qdim. now rewrite E.
  - apply andb_true_iff in E as [_ E]. apply IH; auto. intros f' Hi. apply Hf. now right.
Qed.

(** [first_units] after a prefix: the [i]-th unit is that of the first component
    of the same dimension *)
Lemma first_units_spec l qs i q : nth_error qs i = Some q ->
  nth_error (first_units l qs) i =
    Some (match lookup l (qdim q) with
          | Some u => u
          | None => match find (fun q' => dim_eqb (qdim q') (qdim q)) qs with Some q' => qunit q' | None => qunit q end
          end).
Proof.
  revert l i. induction qs as [|q0 qs IH]; intros l [|i] H; try discriminate; cbn [nth_error] in H.
  - injection H as ->. cbn [first_units find]. rewrite dim_eqb_refl.
    destruct (lookup l (qdim q)); reflexivity.
  - cbn [first_units find]. destruct (lookup l (qdim q0)) as [u0|] eqn:E0; cbn [nth_error].
    + rewrite (IH l i H). destruct (dim_eqb (qdim q0) (qdim q)) eqn:Ed; auto.
      apply dim_eqb_true in Ed. rewrite Ed in E0. now rewrite E0.
    + rewrite (IH _ i H). cbn [lookup]. destruct (dim_eqb (qdim q0) (qdim q)) eqn:Ed; auto.
      apply dim_eqb_true in Ed. rewrite Ed in E0. now rewrite E0.
Qed.

Lemma Forall2_map_get (f : qty -> option unit_) (us : list unit_) qs :
  Forall2 (fun u q => f q = Some u) us qs -> map (fun q => get_key (f q)) qs = map ret us.
Proof. induction 1 as [|u q us qs H0 H IH]; cbn; auto. rewrite H0, IH. reflexivity. Qed.

(** ** tree structure *)
Lemma same_structure_true a b : same_structure a b = true <->
  map qc a = map qc b /\ map qunit a = map qunit b.
Proof.
  revert b. induction a as [|x a IH]; intros [|y b]; cbn; try (split; [congruence|intros [? ?]; congruence]).
  - tauto.
  - unfold same_qty_structure. rewrite !andb_true_iff, IH, qcls_eqb_true, unit_eqb_true. split.
    + intros [[-> ->] [-> ->]]. auto.
    + intros [H1 H2]. injection H1 as -> ->. injection H2 as -> ->. auto.
Qed.
Lemma tree_eqb_true v w : tree_eqb v w = true <->
  utag v = utag w /\ map qc (ucomps v) = map qc (ucomps w) /\ map qunit (ucomps v) = map qunit (ucomps w)
  /\ map qc (uattrs v) = map qc (uattrs w) /\ map qunit (uattrs v) = map qunit (uattrs w).
Proof. unfold tree_eqb. rewrite !andb_true_iff, tag_eqb_true, !same_structure_true. tauto. Qed.

Lemma qadd_ok a b : qdim a = qdim b -> qc b = QQuantity -> qadd a b = ret (mkQty (qc a) (nadd (qval a) (qval (conv (qunit a) b))) (qunit a)).
Proof. intros H Hc. unfold qadd. rewrite uconvert_q_ok; [reflexivity|exact H|]. unfold cls_unit. congruence. Qed.
