(** * Lemmas: simplification of operators. *)
From Coq Require Import Reals Bool List ZArith Lra Lia Classical.
From Verif Require Import Num Vectors Spec Transform Pos3D Pos3DThm Dispatch RoundTrip PosLow PosGlue Arith ArithThm ArithThm2 Vel SpecVel FourVec Operators SpecOp OpThm OpInv OpVel OpVel2 OpGlue OpMisc.
Import ListNotations.
Open Scope R_scope.

(** ** NaN angles persist *)
Definition blank (p : pos ext) : Prop :=
  match p with PSph _ None _ | PMSph _ _ None | PLonLat _ None _ => True | _ => False end.
Lemma blank_not_finite q : ~ blank (finite q).
Proof. destruct q; cbn; auto. Qed.
Section B.
Variables (m : mode) (deg : bool) (f : nat).
Notation F := (4 + f)%nat.
Notation rep := (rep m deg F).
Lemma mul_none (x : ext) : nmul x (None : ext) = None. Proof. destruct x; reflexivity. Qed.
Lemma none_mul (x : ext) : nmul (None : ext) x = None. Proof. destruct x; reflexivity. Qed.
Lemma bind_Ok_inv {T U} (a : res T) (g : T -> res U) w y : bind a g = Ok w y -> exists w1 w2 x, a = Ok w1 x /\ g x = Ok w2 y.
Proof. destruct a as [w1 x|]; cbn; [|discriminate]. destruct (g x) as [w2 z|] eqn:E; [|discriminate]. intros H. injection H as _ ->. eauto 6. Qed.
Lemma mk_Sph_inv r (th : ext) z w c : mk_Sph m r th z = Ok w c -> exists d phi, c = PSph d th phi.
Proof.
  unfold mk_Sph. intros H. repeat (apply bind_Ok_inv in H; destruct H as (? & ? & ? & ? & H)). injection H as _ <-. eauto.
Qed.
Lemma blank_sph g d phi (kw : kwargs ext) w c : represent_as m deg (S g) kw (PSph d (None : ext) phi) CCart3 = Ok w c -> c = PCart3 None None None.
Proof. step. unfold mk_Cart3, ret. intros H. injection H as _ <-. generalize (@distance ext _ d). intros u. destruct u, phi; reflexivity. Qed.
Lemma blank_cart p w c : blank p -> rep p CCart3 = Ok w c -> c = PCart3 None None None.
Proof.
  intros B. unfold rep. change F with (S (3 + f)).
  destruct p; try contradiction; cbn in B;
    match type of B with match ?x with _ => _ end => destruct x; [contradiction|] end.
  - apply blank_sph.
  - step. unfold mk_Cart3, ret. intros H. injection H as _ <-. generalize (@distance ext _ r). intros u. destruct u, theta; reflexivity.
  - rewrite (rep_redispatch m deg _ _ _ _ CSph) by reflexivity. change (3 + f)%nat with (S (2 + f)). intros H.
    apply bind_Ok_inv in H. destruct H as (w1 & w2 & x & H1 & H2). revert H1. step. intros H1. apply mk_Sph_inv in H1. destruct H1 as (dd' & ph' & ->).
    eapply blank_sph. exact H2.
Qed.
Lemma nan_sph g (kw : kwargs ext) w c : represent_as m deg (S g) kw (PCart3 (None : ext) None None) CSph = Ok w c -> exists d phi, c = PSph d None phi.
Proof. step. intros H. apply mk_Sph_inv in H. exact H. Qed.
Lemma cart_blank c w s : c = CSph \/ c = CMSph \/ c = CLonLat -> rep (PCart3 (None : ext) None None) c = Ok w s -> blank s.
Proof.
  intros H. unfold rep. change F with (S (3 + f)). destruct H as [-> | [-> | ->]].
  - intros E. apply nan_sph in E. destruct E as (? & ? & ->). exact I.
  - rewrite (rep_redispatch m deg _ _ _ _ CSph) by reflexivity. change (3 + f)%nat with (S (2 + f)). intros E.
    apply bind_Ok_inv in E. destruct E as (? & ? & x & E1 & E2). apply nan_sph in E1. destruct E1 as (? & ? & ->).
    revert E2. step. unfold mk_MSph. intros E. repeat (apply bind_Ok_inv in E; destruct E as (? & ? & ? & ? & E)). injection E as _ <-. exact I.
  - rewrite (rep_redispatch m deg _ _ _ _ CSph) by reflexivity. change (3 + f)%nat with (S (2 + f)). intros E.
    apply bind_Ok_inv in E. destruct E as (? & ? & x & E1 & E2). apply nan_sph in E1. destruct E1 as (? & ? & ->).
    revert E2. step. unfold mk_LonLat. intros E. repeat (apply bind_Ok_inv in E; destruct E as (? & ? & ? & ? & E)). injection E as _ <-. exact I.
Qed.
Lemma origin_blank c w s : c = CSph \/ c = CMSph \/ c = CLonLat -> rep (finite (PCart3 0 0 0)) c = Ok w s -> blank s.
Proof.
  intros H. unfold rep. cbn [plus].
  assert (E : forall g (kw : kwargs ext), represent_as m deg (S g) kw (finite (PCart3 0 0 0)) CSph
     = Ok false (PSph (mkDist KDistance (Some 0)) None (Some (Rwrap (Ratan2 0 0))))).
  { intros. apply rep_Cart3_Sph_origin. ring. }
  destruct H as [-> | [-> | ->]].
  - rewrite E. intros H. injection H as _ <-. exact I.
  - rewrite (rep_redispatch m deg _ _ _ _ CSph) by reflexivity. rewrite E, bind_ok, rep_SphNaN_MSph by lra. intros H. injection H as _ <-. exact I.
  - rewrite (rep_redispatch m deg _ _ _ _ CSph) by reflexivity. rewrite E, bind_ok, rep_SphNaN_LonLat by lra. intros H. injection H as _ <-. exact I.
Qed.
Lemma blank_add p q w s : blank p -> pos_add m deg F p q = Ok w s -> blank s.
Proof.
  intros B E. rewrite add_unfold in E by (destruct p; try contradiction; reflexivity).
  apply bind_Ok_inv in E. destruct E as (? & ? & a & E1 & E). apply bind_Ok_inv in E. destruct E as (? & ? & b & E2 & E). apply bind_Ok_inv in E. destruct E as (? & ? & c & E3 & E).
  assert (C : cart_cls (cls_of p) = CCart3) by (destruct p; try contradiction; reflexivity). rewrite C in *.
  apply blank_cart in E1; auto. subst a. unfold cart_add in E3.
  apply bind_Ok_inv in E3. destruct E3 as (? & ? & b' & _ & E3). destruct b'; try discriminate E3. injection E3 as _ <-.
  eapply (cart_blank (cls_of p)); [|exact E]. destruct p; try contradiction; auto.
Qed.
End B.

(** ** Sums of positions that return *)
Section A.
Variables (deg : bool) (f : nat).
Notation F := (4 + f)%nat.
Lemma add_sound n p q a b w s : good_pos n p -> good_pos n q -> denotes p a -> denotes q b ->
  pos_add Eager deg F (finite p) (finite q) = Ok w s ->
  blank s \/ exists s0, s = finite s0 /\ cls_of s0 = cls_of p /\ good_pos n s0 /\ denotes s0 (vadd a b).
Proof.
  intros (V & N & T & D) (V' & N' & T' & D') Da Db E.
  assert (La : length a = n) by (rewrite <- D; now apply denotes_length).
  assert (Lb : length b = n) by (rewrite <- D'; now apply denotes_length).
  assert (Ls : length (vadd a b) = dim_of (cls_of p)) by (rewrite vadd_length, La, Lb, D; apply Nat.min_id).
  assert (OK : can_hold (cls_of p) (vadd a b) -> exists s0, s = finite s0 /\ cls_of s0 = cls_of p /\ good_pos n s0 /\ denotes s0 (vadd a b)).
  { intros C. destruct (add_ok Eager deg f p q a b V N V' N' T' ltac:(congruence) Da Db C) as (s0 & E0 & C0 & V0 & D0 & L0).
    rewrite E0 in E. injection E as _ <-. exists s0. split; auto. split; auto. split; auto.
    repeat split; auto. now apply length_radial_nn. congruence. congruence. }
  destruct (cls_of p) eqn:Ec; try congruence; try (right; apply OK; split; [exact Ls|exact I]).
  all: assert (IC : is_cart (cls_of p) = false) by (rewrite Ec; reflexivity).
  all: assert (M := add_mid Eager deg f p q a b V N V' N' ltac:(congruence) T' ltac:(congruence) Da Db IC); rewrite Ec in M.
  - destruct (vadd a b) as [|x [|]] eqn:Es; try discriminate Ls. destruct (Rle_dec 0 x) as [Hx|Hx].
    + right. apply OK. split; auto. intros y Hy. injection Hy as <-. auto.
    + exfalso. rewrite E in M. unfold rep in M. cbn [cart_pos] in M. cbn [plus] in M. rewrite rep_Cart1_Radial in M.
      cbn [check_nonneg nltb Num_ext lift2b ncst] in M. rewrite (proj2 (Rltb_true x 0)) in M by lra. discriminate M.
  - assert (X : vadd a b = [0; 0; 0] \/ vadd a b <> [0; 0; 0]) by apply classic. destruct X as [X|X]; [left|right; apply OK; split; auto].
    rewrite X in M. rewrite E in M. symmetry in M. eapply origin_blank; [|exact M]. auto.
  - assert (X : vadd a b = [0; 0; 0] \/ vadd a b <> [0; 0; 0]) by apply classic. destruct X as [X|X]; [left|right; apply OK; split; auto].
    rewrite X in M. rewrite E in M. symmetry in M. eapply origin_blank; [|exact M]. auto.
  - assert (X : vadd a b = [0; 0; 0] \/ vadd a b <> [0; 0; 0]) by apply classic. destruct X as [X|X]; [left|right; apply OK; split; auto].
    rewrite X in M. rewrite E in M. symmetry in M. eapply origin_blank; [|exact M]. auto.
  - exfalso. destruct p; try discriminate Ec. destruct (prolate_arith Eager deg f mu nu phi Delta 0 q) as (P & _); auto. { rewrite D'. symmetry. exact D. } rewrite P in E. discriminate E.
Qed.
End A.

(** ** Equivalence *)
Definition equiv n (c : op R) (ops : list (op R)) := good n c /\ same_effect n (OPipe ops) c.
Lemma fold_vel ops w : vel_acts (OPipe ops) w = fold_left (fun w o => vel_acts o w) ops w. Proof. reflexivity. Qed.
Lemma equiv_intro n c ops : good n c -> (forall e e', length (fst e) = n -> (acts c e e' <-> chain ops e e')) ->
  (forall w, length w = n -> vel_acts c w = fold_left (fun w o => vel_acts o w) ops w) ->
  (Forall steady ops -> steady c) -> (Forall timeless ops -> timeless c) -> equiv n c ops.
Proof.
  intros G A V S T. split; auto. split; [|split; [|split]].
  - intros e e' L. rewrite acts_pipe. auto.
  - exact V.
  - rewrite steady_pipe; auto.
  - rewrite timeless_pipe; auto.
Qed.
Lemma equiv_elim n c ops : equiv n c ops -> good n c /\ (forall e e', length (fst e) = n -> (acts c e e' <-> chain ops e e')) /\
  (forall w, length w = n -> vel_acts c w = fold_left (fun w o => vel_acts o w) ops w) /\
  (Forall steady ops -> steady c) /\ (Forall timeless ops -> timeless c).
Proof.
  intros (G & A & V & S & T). rewrite steady_pipe in S. rewrite timeless_pipe in T. split; auto. split; auto. intros e e' L. rewrite <- acts_pipe. auto.
Qed.
Lemma equiv_pipe n l : Forall (good n) l -> equiv n (OPipe l) l.
Proof. intros G. split; [now apply good_pipe|]. repeat split; auto. Qed.
Lemma equiv_one n o : good n o -> equiv n o [o].
Proof.
  intros G. apply equiv_intro; auto.
  - intros e e' _. cbn. split; [intros; exists e'; auto|intros (e1 & A & ->); auto].
  - intros Hf; apply Forall_cons_iff in Hf; apply Hf.
  - intros Hf; apply Forall_cons_iff in Hf; apply Hf.
Qed.
Lemma good_id n : good n OIdentity. Proof. exact I. Qed.
Lemma equiv_id_r n o : good n o -> equiv n o [o; OIdentity].
Proof.
  intros G. apply equiv_intro; auto.
  - intros e e' _. cbn. split; [intros; exists e'; split; auto; exists e'; destruct e'; split; reflexivity|intros ([x t] & A & e2 & -> & ->); auto].
  - intros Hf; apply Forall_cons_iff in Hf; apply Hf.
  - intros Hf; apply Forall_cons_iff in Hf; apply Hf.
Qed.
Lemma equiv_id_l n o : good n o -> equiv n o [OIdentity; o].
Proof.
  intros G. apply equiv_intro; auto.
  - intros [x t] e' _. cbn. split; [intros; exists (x, t); split; auto; exists e'; auto|intros (e1 & -> & e2 & A & ->); auto].
  - intros Hf; apply Forall_cons_iff in Hf; destruct Hf as [_ Hf]; apply Forall_cons_iff in Hf; apply Hf.
  - intros Hf; apply Forall_cons_iff in Hf; destruct Hf as [_ Hf]; apply Forall_cons_iff in Hf; apply Hf.
Qed.
Lemma equiv_flat n a b : Forall (good n) a -> Forall (good n) b -> equiv n (OPipe (a ++ b)) [OPipe a; OPipe b].
Proof.
  intros Ga Gb. apply equiv_intro.
  - apply good_pipe, Forall_app; auto.
  - intros e e' _. rewrite acts_pipe, chain_app. cbn [chain]. split.
    + intros (e1 & A & B). exists e1. split; [now apply acts_pipe|]. exists e'. split; [now apply acts_pipe|auto].
    + intros (e1 & A & e2 & B & ->). apply acts_pipe in A, B. eauto.
  - intros w _. cbn. now rewrite fold_left_app.
  - intros Hf; apply Forall_cons_iff in Hf; destruct Hf as [H1 Hf]; apply Forall_cons_iff in Hf; destruct Hf as [H2 _]. apply steady_pipe in H1, H2. apply steady_pipe, Forall_app; auto.
  - intros Hf; apply Forall_cons_iff in Hf; destruct Hf as [H1 Hf]; apply Forall_cons_iff in Hf; destruct Hf as [H2 _]. apply timeless_pipe in H1, H2. apply timeless_pipe, Forall_app; auto.
Qed.
Lemma equiv_snoc n a b : Forall (good n) a -> good n b -> equiv n (OPipe (a ++ [b])) [OPipe a; b].
Proof.
  intros Ga Gb. apply equiv_intro.
  - apply good_pipe, Forall_app; auto.
  - intros e e' _. rewrite acts_pipe, chain_app. cbn [chain]. split.
    + intros (e1 & A & e2 & B & ->). exists e1. split; [now apply acts_pipe|]. exists e2. auto.
    + intros (e1 & A & e2 & B & ->). apply acts_pipe in A. exists e1. split; auto. exists e2; auto.
  - intros w _. cbn. now rewrite fold_left_app.
  - intros Hf; apply Forall_cons_iff in Hf; destruct Hf as [H1 Hf]; apply Forall_cons_iff in Hf; destruct Hf as [H2 _]. apply steady_pipe in H1. apply steady_pipe, Forall_app; auto.
  - intros Hf; apply Forall_cons_iff in Hf; destruct Hf as [H1 Hf]; apply Forall_cons_iff in Hf; destruct Hf as [H2 _]. apply timeless_pipe in H1. apply timeless_pipe, Forall_app; auto.
Qed.
Lemma equiv_step n c a b ops o : Forall (good n) [a; b] -> equiv n c [a; b] -> equiv n o (c :: ops) -> equiv n o (a :: b :: ops).
Proof.
  intros Gab E1 E2. destruct (equiv_elim _ _ _ E1) as (Gc & A & V & S & T). destruct (equiv_elim _ _ _ E2) as (Go & A' & V' & S' & T').
  apply Forall_cons_iff in Gab. destruct Gab as [Ga Gb]. apply Forall_cons_iff in Gb. destruct Gb as [Gb _].
  apply equiv_intro; auto.
  - intros e e' L. rewrite A' by auto. cbn [chain]. split.
    + intros (e1 & X & Y). apply A in X; auto. cbn [chain] in X. destruct X as (e2 & X1 & e3 & X2 & ->). eauto 6.
    + intros (e2 & X1 & e3 & X2 & Y). exists e3. split; auto. apply A; auto. cbn [chain]. eauto 6.
  - intros w L. rewrite V' by auto. cbn [fold_left]. f_equal. apply V; auto.
  - intros H. apply Forall_cons_iff in H. destruct H as [H1 H]. apply Forall_cons_iff in H. destruct H as [H2 H]. apply S'. constructor; auto.
  - intros H. apply Forall_cons_iff in H. destruct H as [H1 H]. apply Forall_cons_iff in H. destruct H as [H2 H]. apply T'. constructor; auto.
Qed.

(** ** One step of the reduction *)
Definition bad1 (o : op ext) : Prop := match o with OSpatial q => blank q | OTranslation v => blank (fq v) | _ => False end.
Definition bad (o : op ext) : Prop := bad1 o \/ exists l, o = OPipe l /\ Exists bad1 l.
Lemma bad1_not_finite o : ~ bad1 (ofinite o).
Proof. destruct o; cbn; auto; try apply blank_not_finite. Qed.
Lemma bad_not_finite o : ~ bad (ofinite o).
Proof.
  intros [H|(l & E & H)]. { now apply bad1_not_finite in H. }
  destruct o; try discriminate E. rewrite ofinite_pipe in E. injection E as <-. rewrite Exists_exists in H. destruct H as (o & I & B).
  apply in_map_iff in I. destruct I as (o' & <- & _). now apply bad1_not_finite in B.
Qed.
Definition rotb {A} (o : op A) : bool := match o with ORotation _ => true | _ => false end.
Section R.
Variables (deg : bool) (f : nat).
Notation F := (4 + f)%nat.
Notation simplify2 := (simplify2 Eager deg F).
Notation reduce := (reduce Eager deg F).
Lemma bad_step a b w c : bad a -> simplify2 a b = Ok w c -> bad c.
Proof.
  intros B E. assert (D : forall a b, bad1 a -> bad (OPipe [a; b])) by (intros; right; eexists; split; [reflexivity|]; now left).
  destruct B as [B|(l & -> & B)].
  - destruct a; try contradiction; destruct b; cbn [simplify2] in E;
      try (injection E as _ <-; first [left; exact B | apply D; exact B]).
    + apply bind_Ok_inv in E. destruct E as (? & ? & s & E1 & E2). injection E2 as _ <-. left. eapply blank_add; [|exact E1]. exact B.
    + apply bind_Ok_inv in E. destruct E as (? & ? & s & E1 & E2). injection E2 as _ <-. left.
      unfold fv_add in E1. apply bind_Ok_inv in E1. destruct E1 as (? & ? & s' & E1 & E2). injection E2 as _ <-. cbn. eapply blank_add; [|exact E1]. exact B.
  - right. destruct b; cbn [simplify2 op_or] in E; injection E as _ <-; eexists; (split; [reflexivity|]); auto; apply Exists_app; auto.
Qed.
Lemma bad_reduce ops : forall a w c, bad a -> reduce a ops = Ok w c -> bad c.
Proof.
  induction ops as [|o ops IH]; intros a w c B E; cbn [Operators.reduce] in E. { injection E as _ <-. auto. }
  apply bind_Ok_inv in E. destruct E as (? & ? & x & E1 & E2). eapply IH; [|exact E2]. eapply bad_step; eauto.
Qed.
Lemma good_step n a b w c : good n a -> good n b -> rotb a && rotb b = false -> simplify2 (ofinite a) (ofinite b) = Ok w c ->
  bad c \/ exists c0, c = ofinite c0 /\ equiv n c0 [a; b] /\ (rotb c0 = true -> (is_id a = true /\ c0 = b) \/ (is_id b = true /\ c0 = a)) /\
     (is_id c0 = true -> is_id a = true /\ is_id b = true).
Proof.
  intros Ga Gb NR E.
  assert (Gab : Forall (good n) [a; b]) by auto.
  assert (D : Ok false (OPipe [ofinite a; ofinite b]) = Ok w c -> exists c0, c = ofinite c0 /\ equiv n c0 [a; b] /\ (rotb c0 = true -> (is_id a = true /\ c0 = b) \/ (is_id b = true /\ c0 = a)) /\
     (is_id c0 = true -> is_id a = true /\ is_id b = true)).
  { intros H. injection H as _ <-. exists (OPipe [a; b]). split; [reflexivity|]. split; [now apply equiv_pipe|]. split; discriminate. }
  destruct (is_id b) eqn:Ib.
  { destruct b; try discriminate. assert (X : simplify2 (ofinite a) (ofinite OIdentity) = Ok false (ofinite a)) by (destruct a; reflexivity).
    rewrite X in E. injection E as _ <-. right. exists a. split; auto. split; [now apply equiv_id_r|]. auto. }
  destruct (is_id a) eqn:Ia.
  { destruct a; try discriminate. assert (X : simplify2 (ofinite OIdentity) (ofinite b) = Ok false (ofinite b)) by (destruct b; reflexivity).
    rewrite X in E. injection E as _ <-. right. exists b. split; auto. split; [now apply equiv_id_l|]. split; auto. congruence. }
  destruct a as [|p|p|P|v|v|l|P T v]; try discriminate Ia; destruct b as [|q|q|Q|u|u|l'|P' T' u]; try discriminate Ib; try discriminate NR;
    try (right; apply D; exact E); clear D.
  - (* translations *)
    unfold ofinite in E. cbn [op_map Operators.simplify2] in E. apply bind_Ok_inv in E. destruct E as (w1 & w2 & s & E1 & E2). injection E2 as _ <-.
    destruct (denotes_total _ (proj1 Ga)) as (x & Dx). destruct (denotes_total _ (proj1 Gb)) as (y & Dy).
    destruct (add_sound deg f n p q x y _ _ Ga Gb Dx Dy E1) as [B|(s0 & -> & C & G0 & D0)]; [left; now left|right].
    exists (OSpatial s0). split; [reflexivity|]. split; [|split; discriminate].
    assert (Lx : length x = n) by (destruct Ga as (_ & _ & ? & <-); now apply denotes_length).
    assert (Ly : length y = n) by (destruct Gb as (_ & _ & ? & <-); now apply denotes_length).
    apply equiv_intro; auto; try (intros _; exact I).
    intros [z t] e' L. cbn [fst] in L. cbn [acts acts1 chain ft fq]. split.
    + intros (b & Db & ->). rewrite (denotes_fun _ _ _ (proj1 G0) Db D0). exists (vadd z x, t). split; [exists x; auto|]. exists (vadd (vadd z x) y, t). split; [exists y; auto|].
      rewrite vadd_assoc by congruence. reflexivity.
    + intros (e1 & (b & Db & ->) & e2 & (b' & Db' & ->) & ->). rewrite (denotes_fun _ _ _ (proj1 Ga) Db Dx), (denotes_fun _ _ _ (proj1 Gb) Db' Dy).
      exists (vadd x y). split; auto. rewrite vadd_assoc by congruence. reflexivity.
  - unfold ofinite in E. cbn [op_map Operators.simplify2] in E. apply bind_Ok_inv in E. destruct E as (w1 & w2 & s & E1 & E2). injection E2 as _ <-.
    unfold fv_add in E1. apply bind_Ok_inv in E1. destruct E1 as (w3 & w4 & s' & E1 & E2). injection E2 as _ <-.
    destruct Ga as [-> Ga]. destruct Gb as [_ Gb].
    destruct (denotes_total _ (proj1 Ga)) as (x & Dx). destruct (denotes_total _ (proj1 Gb)) as (y & Dy).
    destruct (add_sound deg f 3 (fq p) (fq q) x y _ _ Ga Gb Dx Dy E1) as [B|(s0 & -> & C & G0 & D0)]; [left; now left|right].
    exists (OTranslation (mkFV (ft p + ft q) s0 (fc p))). split; [reflexivity|]. split; [|split; discriminate].
    assert (Lx : length x = 3%nat) by (destruct Ga as (_ & _ & ? & <-); now apply denotes_length).
    assert (Ly : length y = 3%nat) by (destruct Gb as (_ & _ & ? & <-); now apply denotes_length).
    apply equiv_intro; auto.
    + split; auto.
    + intros [z t] e' L. cbn [fst] in L. cbn [acts acts1 chain ft fq]. split.
      * intros (b & Db & ->). rewrite (denotes_fun _ _ _ (proj1 G0) Db D0). exists (vadd z x, t + ft p). split; [exists x; auto|]. exists (vadd (vadd z x) y, t + ft p + ft q). split; [exists y; auto|].
        rewrite vadd_assoc by congruence. f_equal. lra.
      * intros (e1 & (b & Db & ->) & e2 & (b' & Db' & ->) & ->). rewrite (denotes_fun _ _ _ (proj1 Ga) Db Dx), (denotes_fun _ _ _ (proj1 Gb) Db' Dy).
        exists (vadd x y). split; auto. rewrite vadd_assoc by congruence. f_equal. lra.
    + intros Hf; apply Forall_cons_iff in Hf; destruct Hf as [[] _].
    + intros Hf; apply Forall_cons_iff in Hf; destruct Hf as [[] _].
  - (* boosts *)
    unfold ofinite in E. cbn [op_map Operators.simplify2] in E. rewrite (vel_add_ok n v u Ga Gb), bind_ok in E. injection E as _ <-. right.
    exists (OBoost (mkVel (vc v) (vadd (vcomps v) (vcomps u)))). split; [reflexivity|]. split; [|split; discriminate].
    assert (Lv := proj1 Ga). assert (Lu := proj1 Gb).
    apply equiv_intro.
    + apply cart_vel_with; auto. rewrite vadd_length, Lv, Lu. apply Nat.min_id.
    + intros [z t] e' L. cbn [fst] in L. cbn [acts acts1 chain vcomps].
      assert (X : vadd z (vscale t (vadd (vcomps v) (vcomps u))) = vadd (vadd z (vscale t (vcomps v))) (vscale t (vcomps u))).
      { clear - L Lv Lu. revert z L Lu. revert n Lv. generalize (vcomps u) as b. generalize (vcomps v) as a.
        induction a as [|a0 a IH]; intros [|b0 b] n Lv [|z0 z] L Lu; cbn in *; subst n; try discriminate; auto. f_equal; [lra|].
        apply (IH b (length a)); auto. }
      split.
      * intros ->. exists (vadd z (vscale t (vcomps v)), t). split; auto. eexists. split; [reflexivity|]. now rewrite X.
      * intros (e1 & -> & e2 & -> & ->). now rewrite X.
    + reflexivity.
    + intros Hf; apply Forall_cons_iff in Hf; destruct Hf as [[] _].
    + intros Hf; apply Forall_cons_iff in Hf; destruct Hf as [[] _].
  - unfold ofinite in E. cbn [op_map Operators.simplify2] in E. rewrite (vel_add_ok n v u Ga Gb), bind_ok in E. injection E as _ <-. right.
    exists (OVelBoost (mkVel (vc v) (vadd (vcomps v) (vcomps u)))). split; [reflexivity|]. split; [|split; discriminate].
    assert (Lv := proj1 Ga). assert (Lu := proj1 Gb).
    apply equiv_intro.
    + apply cart_vel_with; auto. rewrite vadd_length, Lv, Lu. apply Nat.min_id.
    + intros [z t] e' L. cbn [acts acts1 chain]. split.
      * intros ->. eexists. split; [reflexivity|]. eexists. split; reflexivity.
      * intros (e1 & -> & e2 & -> & ->). reflexivity.
    + intros w0 L. cbn [vel_acts fold_left vcomps]. symmetry. apply vadd_assoc; congruence.
    + intros _. exact I.
    + intros _. exact I.
  - (* pipes *)
    right. rewrite good_pipe in Ga. assert (E' : Ok false (OPipe (map ofinite l ++ [ofinite (OSpatial q)])) = Ok w c) by exact E. injection E' as _ <-.
    exists (OPipe (l ++ [OSpatial q])). rewrite ofinite_pipe, map_app. split; auto. split; [now apply equiv_snoc|split; discriminate].
  - right. rewrite good_pipe in Ga. assert (E' : Ok false (OPipe (map ofinite l ++ [ofinite (OTranslation q)])) = Ok w c) by exact E. injection E' as _ <-.
    exists (OPipe (l ++ [OTranslation q])). rewrite ofinite_pipe, map_app. split; auto. split; [now apply equiv_snoc|split; discriminate].
  - right. rewrite good_pipe in Ga. assert (E' : Ok false (OPipe (map ofinite l ++ [ofinite (ORotation Q)])) = Ok w c) by exact E. injection E' as _ <-.
    exists (OPipe (l ++ [ORotation Q])). rewrite ofinite_pipe, map_app. split; auto. split; [now apply equiv_snoc|split; discriminate].
  - right. rewrite good_pipe in Ga. assert (E' : Ok false (OPipe (map ofinite l ++ [ofinite (OBoost u)])) = Ok w c) by exact E. injection E' as _ <-.
    exists (OPipe (l ++ [OBoost u])). rewrite ofinite_pipe, map_app. split; auto. split; [now apply equiv_snoc|split; discriminate].
  - right. rewrite good_pipe in Ga. assert (E' : Ok false (OPipe (map ofinite l ++ [ofinite (OVelBoost u)])) = Ok w c) by exact E. injection E' as _ <-.
    exists (OPipe (l ++ [OVelBoost u])). rewrite ofinite_pipe, map_app. split; auto. split; [now apply equiv_snoc|split; discriminate].
  - right. rewrite good_pipe in Ga, Gb. assert (E' : Ok false (OPipe (map ofinite l ++ map ofinite l')) = Ok w c) by exact E. injection E' as _ <-.
    exists (OPipe (l ++ l')). rewrite ofinite_pipe, map_app. split; auto. split; [now apply equiv_flat|split; discriminate].
  - right. rewrite good_pipe in Ga. assert (E' : Ok false (OPipe (map ofinite l ++ [ofinite (OGalilean P' T' u)])) = Ok w c) by exact E. injection E' as _ <-.
    exists (OPipe (l ++ [OGalilean P' T' u])). rewrite ofinite_pipe, map_app. split; auto. split; [now apply equiv_snoc|split; discriminate].
Qed.
Lemma reduce_sound n ops : forall a w o', good n a -> Forall (good n) ops -> ~ clash (a :: ops) ->
  reduce (ofinite a) (map ofinite ops) = Ok w (ofinite o') -> equiv n o' (a :: ops).
Proof.
  induction ops as [|o ops IH]; intros a w o' Ga Go NC E; cbn [Operators.reduce map] in E.
  - injection E as _ E. apply ofinite_inj in E. subst o'. now apply equiv_one.
  - apply bind_Ok_inv in E. destruct E as (? & ? & c & E1 & E2). apply Forall_cons_iff in Go. destruct Go as [Go Gops].
    assert (NR : rotb a && rotb o = false).
    { destruct a; auto. destruct o; auto. exfalso. apply NC. exact I. }
    destruct (good_step n a o _ _ Ga Go NR E1) as [B|(c0 & -> & Ec & R1 & R2)].
    { exfalso. eapply bad_not_finite. eapply bad_reduce; eauto. }
    apply (equiv_step n c0 a o ops o'); auto. apply (IH c0 x0 o'); try exact E2; try apply Ec; try exact Gops.
    intros C. apply NC. unfold clash in *. cbn [filter] in *.
    destruct c0; cbn [is_id negb] in C; try (cbn in C; contradiction).
    + destruct (R2 eq_refl) as [-> ->]. cbn. exact C.
    + destruct (R1 eq_refl) as [[-> <-]|[-> <-]]; cbn; exact C.
Qed.
Lemma clash_id ops : clash (OIdentity :: ops) <-> clash ops. Proof. reflexivity. Qed.
End R.

(** ** Products of rotations *)
Definition mm (P Q : mat R) : mat R := map (fun r => map (fun c => vsum (vmul r c)) (tr Q)) P.
Lemma mm_fin P Q : matmul (mfin P) (mfin Q) = mfin (mm P Q).
Proof.
  unfold matmul, mm. rewrite tr_fin, !map_map. apply map_ext. intros r. rewrite !map_map. apply map_ext. intros c. apply dot_some.
Qed.
Lemma square3_shape M : square3 M -> exists a b c d e g h i j, M = [[a; b; c]; [d; e; g]; [h; i; j]].
Proof.
  intros [L F]. destruct M as [|r1 [|r2 [|r3 [|]]]]; try discriminate L.
  apply Forall_cons_iff in F. destruct F as [L1 F]. apply Forall_cons_iff in F. destruct F as [L2 F]. apply Forall_cons_iff in F. destruct F as [L3 _].
  destruct r1 as [|? [|? [|? [|]]]]; try discriminate L1. destruct r2 as [|? [|? [|? [|]]]]; try discriminate L2. destruct r3 as [|? [|? [|? [|]]]]; try discriminate L3.
  repeat eexists.
Qed.
Lemma mm_rot P Q x : square3 P -> square3 Q -> length x = 3%nat -> rot (mm P Q) x = rot P (rot Q x).
Proof.
  intros SP SQ L. destruct (square3_shape P SP) as (a & b & c & d & e & g & h & i & j & ->). destruct (square3_shape Q SQ) as (a' & b' & c' & d' & e' & g' & h' & i' & j' & ->).
  destruct x as [|x [|y [|z [|]]]]; try discriminate L. cbv [rot mm tr map seq nth vsum vmul combine fold_right].
  f_equal; [ring|f_equal; [ring|f_equal; ring]].
Qed.
Lemma mm_square P Q : square3 P -> square3 (mm P Q).
Proof. intros [L F]. split. unfold mm. now rewrite map_length. unfold mm. apply Forall_forall. intros r H. apply in_map_iff in H. destruct H as (r' & <- & _). now rewrite map_length. Qed.
Lemma mm_orthogonal P Q : orthogonal P -> orthogonal Q -> orthogonal (mm P Q).
Proof.
  intros [SP OP] [SQ OQ]. split; [now apply mm_square|].
  destruct (square3_shape P SP) as (a & b & c & d & e & g & h & i & j & ->). destruct (square3_shape Q SQ) as (a' & b' & c' & d' & e' & g' & h' & i' & j' & ->).
  assert (Q00 := OQ 0%nat 0%nat ltac:(lia) ltac:(lia)). assert (Q01 := OQ 0%nat 1%nat ltac:(lia) ltac:(lia)). assert (Q02 := OQ 0%nat 2%nat ltac:(lia) ltac:(lia)).
  assert (Q11 := OQ 1%nat 1%nat ltac:(lia) ltac:(lia)). assert (Q12 := OQ 1%nat 2%nat ltac:(lia) ltac:(lia)). assert (Q22 := OQ 2%nat 2%nat ltac:(lia) ltac:(lia)).
  cbv [nth vsum vmul combine map fold_right Nat.eqb] in Q00, Q01, Q02, Q11, Q12, Q22.
  assert (K : forall p1 p2 p3 q1 q2 q3,
    vsum (vmul (map (fun c => vsum (vmul [p1; p2; p3] c)) (tr [[a'; b'; c']; [d'; e'; g']; [h'; i'; j']])) (map (fun c => vsum (vmul [q1; q2; q3] c)) (tr [[a'; b'; c']; [d'; e'; g']; [h'; i'; j']])))
    = vsum (vmul [p1; p2; p3] [q1; q2; q3])).
  { intros. cbv [tr map seq nth vsum vmul combine fold_right].
    transitivity (p1*q1*(a' * a' + (b' * b' + (c' * c' + 0))) + p2*q2*(d' * d' + (e' * e' + (g' * g' + 0))) + p3*q3*(h' * h' + (i' * i' + (j' * j' + 0)))
      + (p1*q2+p2*q1)*(a' * d' + (b' * e' + (c' * g' + 0))) + (p1*q3+p3*q1)*(a' * h' + (b' * i' + (c' * j' + 0))) + (p2*q3+p3*q2)*(d' * h' + (e' * i' + (g' * j' + 0)))).
    ring. rewrite Q00, Q01, Q02, Q11, Q12, Q22. ring. }
  intros x y Hx Hy. rewrite <- (OP x y Hx Hy). unfold mm. cbn [map].
  destruct x as [|[|[|]]]; try lia; destruct y as [|[|[|]]]; try lia; cbn [nth]; apply K.
Qed.

(** ** The tolerance tests *)
Lemma close_iff a b : close (Some a) (Some b) = true <-> Rabs (a - b) <= 1/100000000 + 1/100000 * Rabs b.
Proof. unfold close. cbn. apply Rleb_true. Qed.
Lemma near_zero_iff unit o x : 0 < unit o -> (near_zero unit o (efin x) = true <-> Forall (fun a => Rabs a <= 1/100000000 * unit o) x).
Proof.
  intros U. unfold near_zero. rewrite forallb_forall, Forall_forall. split.
  - intros H a Ha. specialize (H (Some a) (in_map (@Some R) x a Ha)).
    assert (E : ndiv (Some a : ext) (ncst (unit o)) = (Some (a / unit o) : ext)) by (apply ediv_some; lra). rewrite E in H.
    apply close_iff in H. rewrite Rabs_R0, Rmult_0_r, Rplus_0_r, Rminus_0_r in H. unfold Rdiv in H at 1. rewrite Rabs_mult, (Rabs_pos_eq (/ unit o)) in H by (left; now apply Rinv_0_lt_compat).
    apply (Rmult_le_compat_r (unit o)) in H; [|lra]. rewrite Rmult_assoc, Rinv_l, Rmult_1_r in H by lra. exact H.
  - intros H a Ha. apply in_map_iff in Ha. destruct Ha as (b & <- & Hb). specialize (H b Hb).
    assert (E : ndiv (Some b : ext) (ncst (unit o)) = (Some (b / unit o) : ext)) by (apply ediv_some; lra). rewrite E.
    apply close_iff. rewrite Rabs_R0, Rmult_0_r, Rplus_0_r, Rminus_0_r. unfold Rdiv at 1. rewrite Rabs_mult, (Rabs_pos_eq (/ unit o)) by (left; now apply Rinv_0_lt_compat).
    apply (Rmult_le_reg_r (unit o)); [lra|]. rewrite Rmult_assoc, Rinv_l, Rmult_1_r by lra. exact H.
Qed.
Lemma near_identity_iff M : square3 M -> (near_identity (mfin M) = true <->
  forall i j, (i < 3)%nat -> (j < 3)%nat -> Rabs (nth j (nth i M []) 0 - (if Nat.eqb i j then 1 else 0)) <= if Nat.eqb i j then 1/100000000 + 1/100000 else 1/100000000).
Proof.
  intros S. destruct (square3_shape M S) as (a & b & c & d & e & g & h & i & j & ->).
  cbv [near_identity identity_mat map seq combine forallb Nat.eqb]. rewrite !andb_true_iff, !close_iff.
  replace (1 / 100000000 + 1 / 100000 * Rabs 0) with (1/100000000) by (rewrite Rabs_R0; ring).
  replace (1 / 100000000 + 1 / 100000 * Rabs 1) with (1/100000000 + 1/100000) by (rewrite Rabs_R1; ring). split.
  - intros H x y Hx Hy. destruct x as [|[|[|]]]; try lia; destruct y as [|[|[|]]]; try lia; cbn [nth]; tauto.
  - intros H. pose proof (fun x y => H x y) as K.
    assert (K0 := K 0%nat 0%nat ltac:(lia) ltac:(lia)). assert (K1 := K 0%nat 1%nat ltac:(lia) ltac:(lia)). assert (K2 := K 0%nat 2%nat ltac:(lia) ltac:(lia)).
    assert (K3 := K 1%nat 0%nat ltac:(lia) ltac:(lia)). assert (K4 := K 1%nat 1%nat ltac:(lia) ltac:(lia)). assert (K5 := K 1%nat 2%nat ltac:(lia) ltac:(lia)).
    assert (K6 := K 2%nat 0%nat ltac:(lia) ltac:(lia)). assert (K7 := K 2%nat 1%nat ltac:(lia) ltac:(lia)). assert (K8 := K 2%nat 2%nat ltac:(lia) ltac:(lia)).
    cbn [nth Nat.eqb] in K0, K1, K2, K3, K4, K5, K6, K7, K8. tauto.
Qed.
