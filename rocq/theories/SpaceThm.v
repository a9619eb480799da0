(** * Lemmas on dictionaries and spaces *)
From Coq Require Import List Bool ZArith Arith String Lia FinFun.
From Verif Require Import Num Vectors Transform Vel Shapes Space.
Import ListNotations.
Open Scope nat_scope.

Lemma bret {T U} (x : T) (f : T -> res U) : bind (ret x) f = f x.
Proof. unfold bind, ret. destruct (f x); reflexivity. Qed.
Lemma bind_Ok {T U} (a : res T) (f : T -> res U) w y : bind a f = Ok w y ->
  exists w1 x w2, a = Ok w1 x /\ f x = Ok w2 y /\ w = (w1 || w2)%bool.
Proof.
  destruct a as [w1 x|e]; cbn; [|discriminate]. destruct (f x) as [w2 z|e] eqn:E; [|discriminate].
  intros H. injection H as <- <-. exists w1, x, w2. auto.
Qed.
Lemma mapM_Ok {T U} (f : T -> res U) l w ys : mapM f l = Ok w ys ->
  Forall2 (fun x y => exists w', f x = Ok w' y) l ys.
Proof.
  revert w ys. induction l as [|x l IH]; intros w ys H; cbn in H.
  - injection H as _ <-. constructor.
  - apply bind_Ok in H as (w1 & y & w2 & H1 & H2 & _). apply bind_Ok in H2 as (w3 & ys' & w4 & H3 & H4 & _).
    injection H4 as _ <-. constructor; eauto.
Qed.
Lemma mapM_ret {T U} (f : T -> res U) (g : T -> U) l : (forall x, In x l -> f x = ret (g x)) -> mapM f l = ret (map g l).
Proof.
  induction l as [|x l IH]; intros H; cbn; auto. rewrite H by now left. rewrite IH by (intros; apply H; now right). reflexivity.
Qed.
Lemma mapM_ret_inv {T U} (f : T -> res U) l ys : mapM f l = ret ys -> Forall2 (fun x y => f x = ret y) l ys.
Proof.
  revert ys. induction l as [|x l IH]; intros ys H; cbn in H.
  - injection H as <-. constructor.
  - apply bind_Ok in H as (w1 & y & w2 & H1 & H2 & E). apply bind_Ok in H2 as (w3 & ys' & w4 & H3 & H4 & E').
    injection H4 as <- <-. symmetry in E. apply orb_false_iff in E as [-> ->]. symmetry in E'. apply orb_false_iff in E' as [-> _].
    constructor; auto.
Qed.

Lemma Forall2_length {T U} (R : T -> U -> Prop) l l' : Forall2 R l l' -> List.length l = List.length l'.
Proof. induction 1; cbn; auto. Qed.

Lemma Forall2_cons_iff {T U} (R : T -> U -> Prop) x l y l' : Forall2 R (x :: l) (y :: l') <-> R x y /\ Forall2 R l l'.
Proof. split; [intros H; inversion H; auto|intros []; constructor; auto]. Qed.

(** ** dictionaries *)
Section Dict.
Context {K V : Type} (eqb : K -> K -> bool) (Heqb : forall a b, eqb a b = true <-> a = b).
Implicit Types d items : list (K * V).
Lemma eqb_refl' k : eqb k k = true. Proof. now apply Heqb. Qed.
Lemma eqb_neq k k' : k <> k' -> eqb k k' = false.
Proof. intros H. destruct (eqb k k') eqn:E; auto. apply Heqb in E. contradiction. Qed.

Lemma dset_keys d k v n : In n (map fst (dset eqb d k v)) <-> n = k \/ In n (map fst d).
Proof.
  induction d as [|(k', v') d IH]; cbn.
  - intuition.
  - destruct (eqb k' k) eqn:E; cbn.
    + apply Heqb in E. subst. intuition.
    + rewrite IH. intuition.
Qed.
Lemma dset_nodup d k v : NoDup (map fst d) -> NoDup (map fst (dset eqb d k v)).
Proof.
  induction d as [|(k', v') d IH]; cbn; intros H.
  - constructor; auto.
  - apply NoDup_cons_iff in H as [H1 H2]. destruct (eqb k' k) eqn:E; cbn; constructor; auto.
    rewrite dset_keys. intros [->|]; auto. rewrite eqb_refl' in E. discriminate.
Qed.
Lemma dset_new d k v : ~ In k (map fst d) -> dset eqb d k v = d ++ [(k, v)].
Proof.
  induction d as [|(k', v') d IH]; cbn; auto. intros H. rewrite eqb_neq by (intros ->; apply H; auto). rewrite IH; auto.
Qed.
Lemma dget_dset d k v k' : dget eqb (dset eqb d k v) k' = if eqb k k' then Some v else dget eqb d k'.
Proof.
  induction d as [|(a, b) d IH]; cbn; auto. destruct (eqb a k) eqn:E; cbn.
  - apply Heqb in E. subst. destruct (eqb k k'); auto.
  - rewrite IH. destruct (eqb a k') eqn:E'; auto. apply Heqb in E'. subst. rewrite eqb_neq; auto. intros ->. rewrite eqb_refl' in E. discriminate.
Qed.
Lemma dict_app items d : fold_left (fun d '(k, v) => dset eqb d k v) items d = d ++ items \/ ~ NoDup (map fst (d ++ items)).
Proof.
  revert d. induction items as [|(k, v) items IH]; intros d; cbn.
  - left. now rewrite app_nil_r.
  - destruct (in_dec (fun a b => match bool_dec (eqb a b) true with left e => left (proj1 (Heqb a b) e) | right n => right (fun h => n (proj2 (Heqb a b) h)) end) k (map fst d)) as [Hin|Hn].
    + right. rewrite map_app. cbn. intros ND. apply NoDup_remove_2 in ND. apply ND. apply in_or_app. now left.
    + rewrite dset_new by auto. destruct (IH (d ++ [(k, v)])) as [H|H].
      * left. rewrite H, <- app_assoc. reflexivity.
      * right. rewrite <- app_assoc in H. exact H.
Qed.
Lemma dict_of_nodup_id items : NoDup (map fst items) -> dict_of eqb items = items.
Proof. intros H. destruct (dict_app items []) as [E|E]; auto. contradiction. Qed.
Lemma dict_of_nodup items : NoDup (map fst (dict_of eqb items)).
Proof.
  unfold dict_of. assert (G : forall d, NoDup (map fst d) -> NoDup (map fst (fold_left (fun d '(k, v) => dset eqb d k v) items d))).
  { induction items as [|(k, v) items IH]; intros d Hd; cbn; auto. apply IH. now apply dset_nodup. }
  apply G. constructor.
Qed.
Lemma dict_of_keys items n : In n (map fst (dict_of eqb items)) <-> In n (map fst items).
Proof.
  unfold dict_of. assert (G : forall d, In n (map fst (fold_left (fun d '(k, v) => dset eqb d k v) items d)) <-> In n (map fst d) \/ In n (map fst items)).
  { induction items as [|(k, v) items IH]; intros d; cbn; [tauto|]. rewrite IH, dset_keys. intuition. }
  rewrite G. cbn. tauto.
Qed.
Lemma dget_in d k v : dget eqb d k = Some v -> In (k, v) d.
Proof.
  induction d as [|(a, b) d IH]; cbn; [discriminate|]. destruct (eqb a k) eqn:E; auto. apply Heqb in E. subst.
  intros H. injection H as ->. now left.
Qed.
Lemma dget_nodup d k v : NoDup (map fst d) -> In (k, v) d -> dget eqb d k = Some v.
Proof.
  induction d as [|(a, b) d IH]; cbn; [tauto|]. intros H. apply NoDup_cons_iff in H as [H1 H2]. intros [E|E].
  - injection E as -> ->. now rewrite eqb_refl'.
  - rewrite eqb_neq; auto. intros ->. apply H1. apply in_map_iff. exists (k, v). auto.
Qed.
Lemma dget_none d k : dget eqb d k = None <-> ~ In k (map fst d).
Proof.
  induction d as [|(a, b) d IH]; cbn; [tauto|]. destruct (eqb a k) eqn:E.
  - apply Heqb in E. subst. split; [discriminate|]. intros H; exfalso; auto.
  - rewrite IH. split; [|tauto]. intros H [->|]; auto. rewrite eqb_refl' in E. discriminate.
Qed.
(** the last entry wins *)
Lemma dget_dict_of items k v : dget eqb (dict_of eqb items) k = Some v <->
  exists l1 l2, items = l1 ++ (k, v) :: l2 /\ ~ In k (map fst l2).
Proof.
  unfold dict_of.
  assert (G : forall d, dget eqb (fold_left (fun d '(k, v) => dset eqb d k v) items d) k = Some v <->
     (exists l1 l2, items = l1 ++ (k, v) :: l2 /\ ~ In k (map fst l2)) \/ (dget eqb d k = Some v /\ ~ In k (map fst items))).
  { induction items as [|(a, b) items IH]; intros d; cbn.
    - split; [auto|]. intros [(l1 & l2 & E & _)|[H _]]; auto. destruct l1; discriminate.
    - rewrite IH, dget_dset. split.
      + intros [(l1 & l2 & -> & H)|[H1 H2]].
        * left. exists ((a, b) :: l1), l2. auto.
        * destruct (eqb a k) eqn:E.
          -- apply Heqb in E. injection H1 as ->. subst. left. exists [], items. auto.
          -- right. split; auto. intros [->|]; auto. rewrite eqb_refl' in E. discriminate.
      + intros [(l1 & l2 & E & H)|[H1 H2]].
        * destruct l1 as [|x l1]; cbn in E.
          -- injection E as -> -> ->. right. rewrite eqb_refl'. auto.
          -- injection E as Ex ->. left. exists l1, l2. auto.
        * right. rewrite eqb_neq by (intros ->; apply H2; auto). split; auto. }
  rewrite G. cbn. split; [intros [H|[H _]]; [exact H|discriminate]|auto].
Qed.
End Dict.

Lemma string_eqb_ok : forall a b, String.eqb a b = true <-> a = b. Proof. exact String.eqb_eq. Qed.

Section Space.
Context (L : dimlib) (HL : dimlib_ok L) {V : Type} (shape : V -> res (list nat)).
Lemma ikey_eqb_ok : forall a b, ikey_eqb L a b = true <-> a = b.
Proof.
  intros [s|d] [s'|d']; cbn; try (split; discriminate).
  - rewrite String.eqb_eq. split; [now intros ->|intros H; now injection H].
  - rewrite (proj1 HL). split; [now intros ->|intros H; now injection H].
Qed.
Definition named (k : ikey L) (n : string) : Prop := dimension_name L k = ret n.
Lemma named_fun k n n' : named k n -> named k n' -> n = n'.
Proof. unfold named. intros H H'. rewrite H in H'. now injection H'. Qed.
Lemma canonical k n : named k n -> named (KStr n) n.
Proof.
  unfold named. destruct k as [s|d]; cbn.
  - destruct (parse L s) as [d|]; [|discriminate]. intros H. injection H as <-. now rewrite (proj2 HL).
  - intros H. injection H as <-. now rewrite (proj2 HL).
Qed.

Lemma mapM_length {T U} (f : T -> res U) l w ys : mapM f l = Ok w ys -> List.length ys = List.length l.
Proof. intros H. apply mapM_Ok in H. symmetry. eapply Forall2_length; eauto. Qed.

(** no model function of this file warns: shapes do not *)
Definition quiet : Prop := forall v w s, shape v = Ok w s -> w = false.
Lemma mapM_quiet {T U} (f : T -> res U) l w ys : (forall x w y, f x = Ok w y -> w = false) -> mapM f l = Ok w ys -> w = false.
Proof.
  intros Hq. revert w ys. induction l as [|x l IH]; intros w ys H; cbn in H; [now injection H|].
  apply bind_Ok in H as (w1 & y & w2 & H1 & H2 & ->). apply bind_Ok in H2 as (w3 & ys' & w4 & H3 & H4 & ->).
  apply Hq in H1 as ->. apply IH in H3 as ->. now injection H4 as <- _.
Qed.
Lemma dimension_name_quiet k w n : dimension_name L k = Ok w n -> w = false.
Proof. destruct k as [s|d]; cbn; [destruct (parse L s)|]; unfold ret; intros H; try discriminate; now injection H. Qed.

(** what the constructor returns *)
Lemma mk_space_inv items w s : quiet -> mk_space L shape items = Ok w s ->
  w = false /\ exists keys shapes, let raw := dict_of (ikey_eqb L) items in
    Forall2 named (map fst raw) keys /\ Forall2 (fun v sh => shape v = ret sh) (map snd raw) shapes /\
    can_broadcast shapes = true /\ s = dict_of String.eqb (combine keys (map snd raw)).
Proof.
  intros Hq H. unfold mk_space in H. apply bind_Ok in H as (w1 & keys & w2 & H1 & H2 & ->).
  destruct (Nat.ltb _ _); [discriminate|]. apply bind_Ok in H2 as (w3 & shapes & w4 & H3 & H4 & ->).
  destruct (can_broadcast shapes) eqn:Hb; [|discriminate]. injection H4 as <- <-.
  assert (w1 = false) as -> by (eapply mapM_quiet; [exact dimension_name_quiet|exact H1]).
  assert (w3 = false) as -> by (eapply mapM_quiet; [exact Hq|exact H3]).
  split; auto. exists keys, shapes. split; [|split; [|split]]; auto.
  - now apply mapM_ret_inv.
  - now apply mapM_ret_inv.
Qed.
Lemma mk_space_ok items keys shapes : let raw := dict_of (ikey_eqb L) items in
  Forall2 named (map fst raw) keys -> Forall2 (fun v sh => shape v = ret sh) (map snd raw) shapes ->
  can_broadcast shapes = true -> mk_space L shape items = ret (dict_of String.eqb (combine keys (map snd raw))).
Proof.
  intros raw H1 H2 H3. unfold mk_space. fold raw.
  assert (E1 : mapM (dimension_name L) (map fst raw) = ret keys).
  { clear -H1. induction H1 as [|x y l l' H0 H IH]; cbn; auto. rewrite H0, IH. reflexivity. }
  assert (E2 : mapM shape (map snd raw) = ret shapes).
  { clear -H2. induction H2 as [|x y l l' H0 H IH]; cbn; auto. rewrite H0, IH. reflexivity. }
  rewrite E1, bret, E2, bret, H3. pose proof (Forall2_length _ _ _ H1) as Hl. rewrite map_length in Hl.
  cbv zeta. rewrite <- Hl, Nat.ltb_irrefl. reflexivity.
Qed.

(** entries of raw with their names *)
Lemma combine_keys (raw : list (ikey L * V)) keys : Forall2 named (map fst raw) keys ->
  Forall2 (fun '(k, v) '(n, v') => named k n /\ v = v') raw (combine keys (map snd raw)).
Proof.
  revert keys. induction raw as [|(k, v) raw IH]; intros keys H; cbn in H; inversion H; subst; cbn; constructor; auto.
Qed.
Lemma combine_fst (raw : list (ikey L * V)) keys : Forall2 named (map fst raw) keys ->
  map fst (combine keys (map snd raw)) = keys.
Proof. revert keys. induction raw as [|(k, v) raw IH]; intros keys H; cbn in H; inversion H; subst; cbn; auto. now rewrite IH. Qed.

(** Rebuilding from canonical names keeps every entry. *)
Lemma rebuild (s : space V) shapes : NoDup (map fst s) -> (forall n, In n (map fst s) -> named (KStr n) n) ->
  Forall2 (fun v sh => shape v = ret sh) (map snd s) shapes -> can_broadcast shapes = true ->
  mk_space L shape (map (fun '(k, v) => (KStr k, v)) s) = ret s.
Proof.
  intros ND HN HS HB. set (items := map _ s).
  assert (Hk : map fst items = map KStr (map fst s)).
  { unfold items. rewrite !map_map. apply map_ext. intros (k, v); reflexivity. }
  assert (Hv : map snd items = map snd s).
  { unfold items. rewrite map_map. apply map_ext. intros (k, v); reflexivity. }
  assert (ND' : NoDup (map fst items)).
  { rewrite Hk. apply FinFun.Injective_map_NoDup; auto. intros a b H. now injection H. }
  pose proof (dict_of_nodup_id (ikey_eqb L) ikey_eqb_ok items ND') as Hraw.
  rewrite (mk_space_ok items (map fst s) shapes); cbv zeta; rewrite ?Hraw; auto.
  - rewrite Hv. f_equal. rewrite dict_of_nodup_id; auto using string_eqb_ok.
    + clear. induction s as [|(k, v) s IH]; cbn; auto. now rewrite IH.
    + assert (E : forall l : list (string * V), map fst (combine (map fst l) (map snd l)) = map fst l) by (induction l as [|(k, v) l IH]; cbn; auto; now rewrite IH).
      now rewrite E.
  - rewrite Hk. clear -HN. induction (map fst s) as [|n l IH]; cbn; constructor; auto. apply HN; now left. apply IH. intros; apply HN; now right.
  - now rewrite Hv.
Qed.
End Space.
