(** * Class invariants of eagerly built positions. *)
From Coq Require Import Reals Bool List ZArith Lra Lia.
From Verif Require Import Num Vectors Spec Transform Pos3D Pos3DThm FromThm Dispatch.
Import ListNotations.
Open Scope R_scope.

Lemma nonneg_inv (x : ext) w u : check_nonneg Eager x = Ok w u -> num_or_nan (fun v => 0 <= v) x.
Proof.
  unfold check_nonneg, ret. cbn. destruct x as [a|]; cbn; auto.
  destruct (Rltb a 0) eqn:E; [discriminate|]. intros _. now apply Rltb_false.
Qed.
Lemma polar_inv l u (x : ext) w v : check_polar Eager (Some l : ext) (Some u) x = Ok w v -> num_or_nan (fun a => l <= a <= u) x.
Proof.
  unfold check_polar, ret. cbn. destruct x as [a|]; cbn; auto.
  destruct (Rltb a l) eqn:E; [discriminate|]. destruct (Rltb u a) eqn:E2; [discriminate|]. intros _.
  apply Rltb_false in E, E2. auto.
Qed.
Lemma prolate_inv (mu nu D : ext) w v : check_prolate Eager mu nu D = Ok w v ->
  num_or_nan (fun D => 0 < D /\ num_or_nan (fun a => D * D <= a) mu /\ num_or_nan (fun b => Rabs b <= D * D) nu) D.
Proof.
  unfold check_prolate, ret, nsq. destruct D as [D|]; cbn; auto.
  destruct (Rleb D 0) eqn:E; [discriminate|]. apply Rleb_false in E.
  destruct mu as [a|], nu as [b|]; cbn; intros H; split; auto.
  - destruct (Rltb a (D*D)) eqn:E1; [discriminate|]. destruct (Rltb (D*D) (Rabs b)) eqn:E2; [discriminate|].
    apply Rltb_false in E1, E2. auto.
  - destruct (Rltb a (D*D)) eqn:E1; [discriminate|]. apply Rltb_false in E1; auto.
  - destruct (Rltb (D*D) (Rabs b)) eqn:E2; [discriminate|]. apply Rltb_false in E2. auto.
Qed.

Definition rng (r : res (pos ext)) : Prop := forall w q, r = Ok w q -> in_range q.
Ltac rng1 := intros w q H; repeat match goal with
  | H : bind _ _ = Ok _ _ |- _ =>
      let w1 := fresh "w" in let w2 := fresh "w" in let v := fresh "v" in let E := fresh "E" in let F := fresh "F" in
      apply bind_inv in H; destruct H as (w1 & v & w2 & E & F & ->)
  | H : check_nonneg _ _ = Ok _ _ |- _ => apply nonneg_inv in H
  | H : check_polar _ _ _ _ = Ok _ _ |- _ => apply polar_inv in H
  | H : check_prolate _ _ _ _ = Ok _ _ |- _ => apply prolate_inv in H
  | H : ret _ = Ok _ _ |- _ => unfold ret in H; inversion H; subst; clear H
  end; cbn; auto.
Lemma mk_Cart1_rng x : rng (mk_Cart1 x). Proof. unfold mk_Cart1. rng1. Qed.
Lemma mk_Cart2_rng x y : rng (mk_Cart2 x y). Proof. unfold mk_Cart2. rng1. Qed.
Lemma mk_Cart3_rng x y z : rng (mk_Cart3 x y z). Proof. unfold mk_Cart3. rng1. Qed.
Lemma mk_Radial_rng a : rng (mk_Radial Eager a). Proof. unfold mk_Radial. rng1. Qed.
Lemma mk_Polar_rng a b : rng (mk_Polar Eager a b). Proof. unfold mk_Polar. rng1. Qed.
Lemma mk_TwoSphere_rng a b : rng (mk_TwoSphere Eager a b). Proof. unfold mk_TwoSphere. rng1. Qed.
Lemma mk_Cyl_rng a b c : rng (mk_Cyl Eager a b c). Proof. unfold mk_Cyl. rng1. Qed.
Lemma mk_Sph_rng a b c : rng (mk_Sph Eager a b c). Proof. unfold mk_Sph. rng1. Qed.
Lemma mk_MSph_rng a b c : rng (mk_MSph Eager a b c). Proof. unfold mk_MSph. rng1. Qed.
Lemma mk_LonLat_rng a b c : rng (mk_LonLat Eager a b c). Proof. unfold mk_LonLat. rng1. Qed.
Lemma mk_Prolate_rng a b c d : rng (mk_Prolate Eager a b c d). Proof. unfold mk_Prolate. rng1. Qed.
Lemma from_Sph_rng deg a b c : rng (from_Sph Eager deg a b c). Proof. unfold from_Sph. apply mk_Sph_rng. Qed.
Lemma from_MSph_rng deg a b c : rng (from_MSph Eager deg a b c). Proof. unfold from_MSph. apply mk_MSph_rng. Qed.
Lemma from_LonLat_rng deg a b c : rng (from_LonLat Eager deg a b c). Proof. unfold from_LonLat. apply mk_LonLat_rng. Qed.

Ltac leafrng H :=
  first [ apply mk_Cart1_rng in H | apply mk_Cart2_rng in H | apply mk_Cart3_rng in H | apply mk_Radial_rng in H
        | apply mk_Polar_rng in H | apply mk_Cyl_rng in H | apply mk_Sph_rng in H | apply mk_MSph_rng in H
        | apply mk_LonLat_rng in H | apply mk_Prolate_rng in H | apply from_Sph_rng in H | apply from_MSph_rng in H ].

Lemma rep_in_range deg f : forall kw p t w q, in_range p ->
  represent_as (A:=ext) Eager deg f kw p t = Ok w q -> in_range q.
Proof.
  induction f as [|f IH]; intros kw p t w q V H; [discriminate|].
  rewrite rep_S in H.
  destruct p, t; revert H; cbn [cls_of]; resolve1; cbn [run]; intros H; cbv zeta in H; try discriminate H;
  repeat match goal with
  | H : Raise _ = Ok _ _ |- _ => discriminate H
  | H : warn _ = Ok _ _ |- _ => apply warn_inv in H; destruct H as (-> & ? & H)
  | H : bind (represent_as _ _ _ _ _ _) _ = Ok _ _ |- _ =>
      let w1 := fresh "w" in let w2 := fresh "w" in let v := fresh "v" in let E := fresh "E" in let F := fresh "F" in
      apply bind_inv in H; destruct H as (w1 & v & w2 & E & F & ->)
  | H : bind (as_length _) _ = Ok _ _ |- _ =>
      let w1 := fresh "w" in let w2 := fresh "w" in let v := fresh "v" in let E := fresh "E" in let F := fresh "F" in
      apply bind_inv in H; destruct H as (w1 & v & w2 & E & F & ->)
  | H : bind (length_times _ _) _ = Ok _ _ |- _ =>
      let w1 := fresh "w" in let w2 := fresh "w" in let v := fresh "v" in let E := fresh "E" in let F := fresh "F" in
      apply bind_inv in H; destruct H as (w1 & v & w2 & E & F & ->)
  | H : ret _ = Ok _ _ |- _ => unfold ret in H; inversion H; subst; clear H
  | H : match kw_Delta ?k with _ => _ end = Ok _ _ |- _ => destruct (kw_Delta k)
  | H : represent_as _ _ f _ _ _ = Ok _ _ |- _ => apply IH in H; [|assumption]
  end; auto; try (leafrng H; exact H);
  match goal with H : _ = Ok _ _ |- _ => leafrng H; exact H end.
Qed.

(** Conversely: a constructor given a finite component outside its range raises. *)
Lemma nonneg_neg x : x < 0 -> check_nonneg (A:=ext) Eager (Some x) = Raise ENegative.
Proof. intros H. cbn. apply Rltb_true in H. now rewrite H. Qed.
Lemma polar_out l u x : x < l \/ u < x -> check_polar (A:=ext) Eager (Some l) (Some u) (Some x) = Raise EPolarRange.
Proof. intros [H|H]; cbn; apply Rltb_true in H; rewrite H; auto. now rewrite orb_true_r. Qed.
