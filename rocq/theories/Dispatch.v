(** * Facts about every call of [represent_as]: class of the result, warning,
      depth of re-dispatching, errors, range of the components. *)
From Coq Require Import Reals Bool List ZArith Lia.
From Verif Require Import Num Vectors Spec Transform Pos3D.
Import ListNotations.
Local Open Scope nat_scope.

Section Inv.
Context {A : Type} `{NA : Num A}.

Lemma bind_inv {T U} (m : res T) (g : T -> res U) w v :
  bind m g = Ok w v -> exists w1 v1 w2, m = Ok w1 v1 /\ g v1 = Ok w2 v /\ w = w1 || w2.
Proof.
  unfold bind. destruct m as [w1 v1|]; [|discriminate]. destruct (g v1) as [w2 v2|] eqn:E; [|discriminate].
  intros H. inversion H; subst. exists w1, v1, w2. auto.
Qed.
Lemma warn_inv {T} (m : res T) w v : warn m = Ok w v -> w = true /\ exists w1, m = Ok w1 v.
Proof. destruct m; cbn; [|discriminate]. intros H; inversion H; subst. eauto. Qed.

Lemma check_nonneg_w m (x : A) w u : check_nonneg m x = Ok w u -> w = false.
Proof. unfold check_nonneg, ret. destruct m; [destruct (nltb _ _)|]; congruence. Qed.
Lemma check_polar_w m (l u x : A) w v : check_polar m l u x = Ok w v -> w = false.
Proof. unfold check_polar, ret. destruct m; [destruct (_ || _)|]; congruence. Qed.
Lemma check_prolate_w m (a b c : A) w v : check_prolate m a b c = Ok w v -> w = false.
Proof. unfold check_prolate, ret. destruct m; [|congruence]. repeat destruct (nleb _ _) || destruct (nltb _ _); congruence. Qed.

Definition is_cls (c : pcls) (r : res (pos A)) : Prop := forall w q, r = Ok w q -> w = false /\ cls_of q = c.
Ltac mk := intros w q H;
  repeat match goal with
  | H : bind _ _ = Ok _ _ |- _ =>
      let w1 := fresh "w" in let w2 := fresh "w" in let v := fresh "v" in let E := fresh "E" in let F := fresh "F" in
      apply bind_inv in H; destruct H as (w1 & v & w2 & E & F & ->)
  | H : check_nonneg _ _ = _ |- _ => apply check_nonneg_w in H; subst
  | H : check_polar _ _ _ _ = _ |- _ => apply check_polar_w in H; subst
  | H : check_prolate _ _ _ _ = _ |- _ => apply check_prolate_w in H; subst
  | H : ret _ = Ok _ _ |- _ => unfold ret in H; inversion H; subst; clear H
  end; auto.
Lemma mk_Cart1_cls x : is_cls CCart1 (mk_Cart1 x). Proof. unfold mk_Cart1. mk. Qed.
Lemma mk_Cart2_cls x y : is_cls CCart2 (mk_Cart2 x y). Proof. unfold mk_Cart2. mk. Qed.
Lemma mk_Cart3_cls x y z : is_cls CCart3 (mk_Cart3 x y z). Proof. unfold mk_Cart3. mk. Qed.
Lemma mk_Radial_cls m a : is_cls CRadial (mk_Radial m a). Proof. unfold mk_Radial. mk. Qed.
Lemma mk_Polar_cls m a b : is_cls CPolar (mk_Polar m a b). Proof. unfold mk_Polar. mk. Qed.
Lemma mk_TwoSphere_cls m a b : is_cls CTwoSphere (mk_TwoSphere m a b). Proof. unfold mk_TwoSphere. mk. Qed.
Lemma mk_Cyl_cls m a b c : is_cls CCyl (mk_Cyl m a b c). Proof. unfold mk_Cyl. mk. Qed.
Lemma mk_Sph_cls m a b c : is_cls CSph (mk_Sph m a b c). Proof. unfold mk_Sph. mk. Qed.
Lemma mk_MSph_cls m a b c : is_cls CMSph (mk_MSph m a b c). Proof. unfold mk_MSph. mk. Qed.
Lemma mk_LonLat_cls m a b c : is_cls CLonLat (mk_LonLat m a b c). Proof. unfold mk_LonLat. mk. Qed.
Lemma mk_Prolate_cls m a b c d : is_cls CProlate (mk_Prolate m a b c d). Proof. unfold mk_Prolate. mk. Qed.
Lemma from_Sph_cls m deg a b c : is_cls CSph (from_Sph m deg a b c). Proof. unfold from_Sph. apply mk_Sph_cls. Qed.
Lemma from_MSph_cls m deg a b c : is_cls CMSph (from_MSph m deg a b c). Proof. unfold from_MSph. apply mk_MSph_cls. Qed.
Lemma from_LonLat_cls m deg a b c : is_cls CLonLat (from_LonLat m deg a b c). Proof. unfold from_LonLat. apply mk_LonLat_cls. Qed.
Lemma as_length_w (d : dist A) w v : as_length d = Ok w v -> w = false.
Proof. unfold as_length, ret. destruct (dk d); congruence. Qed.
Lemma length_times_w (d : dist A) x w v : length_times d x = Ok w v -> w = false.
Proof. unfold length_times, ret. destruct (dk d); congruence. Qed.
End Inv.

Ltac leafcls H :=
  first [ apply mk_Cart1_cls in H | apply mk_Cart2_cls in H | apply mk_Cart3_cls in H | apply mk_Radial_cls in H
        | apply mk_Polar_cls in H | apply mk_Cyl_cls in H | apply mk_Sph_cls in H | apply mk_MSph_cls in H
        | apply mk_LonLat_cls in H | apply mk_Prolate_cls in H | apply from_Sph_cls in H | apply from_MSph_cls in H ].

Section Cls.
Context {A : Type} `{NA : Num A}.
Variables (m : mode) (deg : bool).
Notation rep := (represent_as (A:=A) m deg).

Ltac inv1 :=
  match goal with
  | H : Raise _ = Ok _ _ |- _ => discriminate H
  | H : warn _ = Ok _ _ |- _ => apply warn_inv in H; destruct H as (-> & ? & H)
  | H : bind _ _ = Ok _ _ |- _ =>
      let w1 := fresh "w" in let w2 := fresh "w" in let v := fresh "v" in let E := fresh "E" in let F := fresh "F" in
      apply bind_inv in H; destruct H as (w1 & v & w2 & E & F & ->)
  | H : as_length _ = Ok _ _ |- _ => apply as_length_w in H; subst
  | H : length_times _ _ = Ok _ _ |- _ => apply length_times_w in H; subst
  | H : ret _ = Ok _ _ |- _ => unfold ret in H; inversion H; subst; clear H
  | H : match kw_Delta ?k with _ => _ end = Ok _ _ |- _ => destruct (kw_Delta k)
  end.

(** A successful call returns the requested class and warns iff the dimension
    is reduced. *)
Lemma rep_class f : forall kw p t w q, rep f kw p t = Ok w q ->
  cls_of q = t /\ w = Nat.ltb (dim_of t) (dim_of (cls_of p)).
Proof.
  induction f as [|f IH]; intros kw p t w q H; [discriminate|].
  rewrite rep_S in H.
  destruct p, t; revert H; cbn [cls_of]; resolve1; cbn [run]; intros H; cbv zeta in H; try discriminate H;
  repeat inv1;
  repeat match goal with
  | H : rep f _ _ _ = Ok _ _ |- _ =>
      apply IH in H; let E := fresh in let F := fresh in destruct H as (E & F); rewrite ?E in *; cbn [cls_of] in *
  end; subst; try (leafcls H; destruct H as (? & ?); subst); cbn; auto.
  all: try match goal with
    | H : mk_Radial _ _ = _ |- _ => leafcls H; destruct H; subst
    | H : mk_Polar _ _ _ = _ |- _ => leafcls H; destruct H; subst
    | H : mk_Cart1 _ = _ |- _ => leafcls H; destruct H; subst
    | H : mk_Cart2 _ _ = _ |- _ => leafcls H; destruct H; subst
    | H : mk_Cart3 _ _ _ = _ |- _ => leafcls H; destruct H; subst
    | H : mk_Cyl _ _ _ _ = _ |- _ => leafcls H; destruct H; subst
  end; auto.
Qed.
End Cls.

(** ** Depth of re-dispatching *)

Section Fuel.
Context {A : Type} `{NA : Num A}.
Variables (m : mode) (deg : bool).
Notation rep := (represent_as (A:=A) m deg).

Lemma bind_ext {T U} (m1 m2 : res T) (g1 g2 : T -> res U) :
  m1 = m2 -> (forall w v, m1 = Ok w v -> g1 v = g2 v) -> bind m1 g1 = bind m2 g2.
Proof. intros <- H. unfold bind. destruct m1 as [w v|]; auto. now rewrite (H w v). Qed.

Definition rk (c t : pcls) : nat :=
  match c, t with
  | CProlate, (CProlate | CCart3 | CSph) => 2 | CProlate, CCyl => 1 | CProlate, _ => 3
  | CCyl, CProlate => 1 | _, CProlate => 3
  | CLonLat, CMSph | CMSph, CLonLat => 3
  | CCart3, (CLonLat | CMSph) | CCyl, (CLonLat | CMSph) => 2
  | CLonLat, (CCart3 | CCyl) => 2
  | CCart2, (CCyl | CSph | CMSph) => 3
  | CPolar, CCart3 => 2
  | CCart3, CPolar => 2
  | _, _ => 1
  end.
Lemma rk_le c t : rk c t <= 3. Proof. destruct c, t; cbn; lia. Qed.

Ltac cls E := apply rep_class in E; destruct E as (E & _).
Ltac go1 IH := apply IH; repeat match goal with E : cls_of ?v = _ |- context [cls_of ?v] => rewrite E end; cbn; try reflexivity; lia.
Ltac go IH := first [ apply bind_ext; [ go1 IH | let E := fresh "E" in intros ? ? E; cls E; go IH ] | go1 IH ].
Lemma fuel_indep k : forall f1 f2 kw p t, diverges (cls_of p) t = false ->
  rk (cls_of p) t <= k -> k <= f1 -> k <= f2 -> rep f1 kw p t = rep f2 kw p t.
Proof.
  induction k as [|k IH]; intros f1 f2 kw p t D R1 R2 R3.
  - destruct p, t; cbn in R1; lia.
  - destruct f1 as [|f1]; [lia|]. destruct f2 as [|f2]; [lia|]. rewrite !rep_S.
    destruct p, t; revert D R1; cbn [cls_of diverges]; try discriminate; intros _; cbn [rk]; intros R1;
    resolve1; cbn [run]; try reflexivity;
    try (destruct (kw_Delta kw); [|reflexivity]); try apply (f_equal warn);
    go IH.
Qed.

(** Any bound on the re-dispatching depth of at least 3 gives the same result. *)
Lemma rep_fuel f kw p t : diverges (cls_of p) t = false -> rep (3 + f) kw p t = rep 3 kw p t.
Proof. intros D. apply (fuel_indep 3); auto using rk_le; lia. Qed.

(** TwoSpherePos: every bound is exceeded. *)
Lemma rep_diverges f kw p t : diverges (cls_of p) t = true -> rep f kw p t = Raise ERecursion.
Proof.
  revert kw p t. induction f as [|f IH]; intros kw p t D; [reflexivity|].
  rewrite rep_S. destruct p, t; revert D; cbn [cls_of diverges]; try discriminate; intros _; resolve1; cbn [run].
  all: try (rewrite (IH nokw _ CCart2) by reflexivity; reflexivity).
  - destruct (rep f nokw (PCart2 x y) CCart2) as [w q|] eqn:E.
    + cls E. cbn [bind]. rewrite (IH nokw q CTwoSphere); [reflexivity|]. now rewrite E.
    + destruct f; cbn in E; [inversion E; reflexivity|]. rewrite rep_S in E. revert E; cbn [cls_of]; resolve1; cbn. discriminate.
  - destruct (rep f nokw (PPolar r phi) CCart2) as [w q|] eqn:E.
    + cls E. cbn [bind]. rewrite (IH nokw q CTwoSphere); [reflexivity|]. now rewrite E.
    + destruct f; cbn in E; [inversion E; reflexivity|]. rewrite rep_S in E. revert E; cbn [cls_of]; resolve1; cbn. discriminate.
Qed.

Lemma bind_raise {T U} (a : res T) (g : T -> res U) e :
  bind a g = Raise e -> a = Raise e \/ exists w v, a = Ok w v /\ g v = Raise e.
Proof. unfold bind. destruct a as [w v|]; [|intros H; inversion H; auto]. destruct (g v) eqn:E; [discriminate|]. intros H. right. exists w, v. split; congruence. Qed.
Lemma warn_raise {T} (a : res T) e : warn a = Raise e -> a = Raise e.
Proof. destruct a; cbn; congruence. Qed.

(** The errors a supported conversion can raise. *)
Definition value_error (e : err) : Prop :=
  match e with ENegative | EPolarRange | EProlateRange | EUnit | EMissingDelta => True | _ => False end.
Lemma check_nonneg_err (x : A) e : check_nonneg m x = Raise e -> value_error e.
Proof. unfold check_nonneg, ret. destruct m; [destruct (nltb _ _)|]; intros H; inversion H; exact I. Qed.
Lemma check_polar_err (l u x : A) e : check_polar m l u x = Raise e -> value_error e.
Proof. unfold check_polar, ret. destruct m; [destruct (_ || _)|]; intros H; inversion H; exact I. Qed.
Lemma check_prolate_err (a b c : A) e : check_prolate m a b c = Raise e -> value_error e.
Proof. unfold check_prolate, ret. destruct m; [|discriminate]. destruct (nleb _ _); [|destruct (nltb _ _); [|destruct (nltb _ _)]]; intros H; inversion H; exact I. Qed.
Lemma as_length_err (d : dist A) e : as_length d = Raise e -> value_error e.
Proof. unfold as_length, ret. destruct (dk d); intros H; inversion H; exact I. Qed.
Lemma length_times_err (d : dist A) x e : length_times d x = Raise e -> value_error e.
Proof. unfold length_times, ret. destruct (dk d); intros H; inversion H; exact I. Qed.

Ltac errs :=
  repeat match goal with
  | H : bind _ _ = Raise _ |- _ =>
      let E := fresh "E" in
      apply bind_raise in H; destruct H as [H | (? & ? & E & H)]
  | H : warn _ = Raise _ |- _ => apply warn_raise in H
  | H : ret _ = Raise _ |- _ => discriminate H
  | H : check_nonneg _ _ = Raise _ |- _ => apply check_nonneg_err in H
  | H : check_polar _ _ _ _ = Raise _ |- _ => apply check_polar_err in H
  | H : check_prolate _ _ _ _ = Raise _ |- _ => apply check_prolate_err in H
  | H : as_length _ = Raise _ |- _ => apply as_length_err in H
  | H : length_times _ _ = Raise _ |- _ => apply length_times_err in H
  | H : match kw_Delta ?k with _ => _ end = Raise _ |- _ => destruct (kw_Delta k)
  end.
Lemma rep_errors k : forall f kw p t e, supported (cls_of p) t = true -> rk (cls_of p) t <= k -> k <= f ->
  rep f kw p t = Raise e -> value_error e.
Proof.
  induction k as [|k IH]; intros f kw p t e S R1 R2 H.
  - destruct p, t; cbn in R1; lia.
  - destruct f as [|f]; [lia|]. rewrite rep_S in H.
    destruct p, t; revert S R1 H; cbn [cls_of supported]; try discriminate; intros _; cbn [rk]; intros R1;
    resolve1; cbn [run]; intros H; cbv zeta in H;
    unfold from_Sph, from_MSph, mk_Cart1, mk_Cart2, mk_Cart3, mk_Radial, mk_Polar, mk_Cyl, mk_Sph, mk_MSph, mk_LonLat, mk_Prolate in H;
    cbv zeta in H; errs; auto; try (inversion H; exact I);
    repeat match goal with E : rep _ _ _ _ = Ok _ _ |- _ => cls E end;
    (apply IH in H; auto; rewrite ?E0, ?E; cbn; try reflexivity; lia).
Qed.

(** Unsupported pairs raise NotFoundLookupError. *)
Lemma rep_not_found f kw p t : supported (cls_of p) t = false -> diverges (cls_of p) t = false ->
  exists e, rep (3 + f) kw p t = Raise e /\ (e = ENotFound \/ (cls_of p = CProlate /\ value_error e)).
Proof.
  intros S D. rewrite rep_fuel by auto.
  destruct p, t; revert S D; cbn [cls_of diverges supported]; try discriminate; intros _ _;
  rewrite rep_S; cbn [cls_of]; resolve1; cbn [run]; eauto.
  destruct (rep 2 nokw (PProlate mu nu phi Delta) CCart3) as [w q|] eqn:E.
  - cls E. cbn [bind]. rewrite rep_S, E. resolve1. cbn. eauto.
  - exists e. split; auto. right. split; auto. revert E.
    rewrite rep_S. cbn [cls_of]. resolve1. cbn [run]. intros E. apply bind_raise in E. destruct E as [E|(w&v&E&F)].
    + eapply (rep_errors 1) in E; auto.
    + cls E. eapply (rep_errors 1) in F; rewrite ?E; auto.
Qed.
End Fuel.
