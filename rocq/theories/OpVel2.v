(** * Lemmas: pipes on a position and a Cartesian velocity, and their inverses. *)
From Coq Require Import Reals Bool List ZArith Lra Lia.
From Verif Require Import Num Vectors Spec Transform Pos3D Pos3DThm Dispatch RoundTrip PosGlue Arith ArithThm ArithThm2 Vel SpecVel FourVec Operators SpecOp OpThm OpInv OpVel.
Import ListNotations.
Open Scope R_scope.

Lemma steady_pipe ops : steady (OPipe ops) <-> Forall steady ops.
Proof. cbn [steady]. induction ops as [|o ops IH]; split; auto; cbn in *; rewrite IH.
  - intros [A B]; now constructor. - intros H; inversion H; auto. Qed.
Lemma vel_acts_length n o : good n o -> forall w, length w = n -> length (vel_acts o w) = n.
Proof.
  induction o using op_ind'; intros G w L; auto.
  - cbn. rewrite vadd_length, L. destruct G as [-> _]. apply Nat.min_id.
  - rewrite good_pipe in G. cbn [vel_acts]. revert w L. induction H as [|o ops Ho H IH]; intros w L; auto.
    inversion G; subst. cbn [fold_left]. apply IH; auto.
Qed.

Section V.
Variables (m : mode) (deg : bool) (f : nat).
Notation F := (4 + f)%nat.
Lemma vel_add_ok n v u : cart_vel n v -> cart_vel n u -> vel_add (vfin v) (vfin u) = Ok false (vfin (mkVel (vc v) (vadd (vcomps v) (vcomps u)))).
Proof.
  intros [L C] [L' C']. unfold vel_add. cbn [vc vel_map vcomps].
  assert (E : vplus (efin (vcomps v)) (efin (vcomps u)) = efin (vadd (vcomps v) (vcomps u))) by apply vplus_some.
  rewrite E. destruct n as [|[|[|[|]]]]; try contradiction; rewrite C, C'; reflexivity.
Qed.
Lemma cart_vel_with n v w : cart_vel n v -> length w = n -> cart_vel n (mkVel (vc v) w).
Proof. intros [L C] L'. split; auto. Qed.

Definition posvel_ok n (o : op R) : Prop := forall e e' q v, good n o -> steady o -> good_pos n q -> cart_vel n v -> denotes q (fst e) -> acts o e e' ->
  (forall e1, visits o e e1 -> can_hold (cls_of q) (fst e1)) ->
  exists q', call m deg F (ofinite o) (VPosVel (finite q) (vfin v)) = Ok false (VPosVel (finite q') (vfin (mkVel (vc v) (vel_acts o (vcomps v))))) /\
    cls_of q' = cls_of q /\ good_pos n q' /\ denotes q' (fst e').
Lemma loop_posvel n ops : Forall (posvel_ok n) ops -> Forall (good n) ops -> Forall steady ops -> forall e e' q v, good_pos n q -> cart_vel n v -> denotes q (fst e) -> chain ops e e' ->
  (forall e1, vchain ops e e1 -> can_hold (cls_of q) (fst e1)) ->
  exists q', loop (call m deg F) (map ofinite ops) (VPosVel (finite q) (vfin v)) = Ok false (VPosVel (finite q') (vfin (mkVel (vc v) (fold_left (fun w o => vel_acts o w) ops (vcomps v))))) /\
    cls_of q' = cls_of q /\ good_pos n q' /\ denotes q' (fst e').
Proof.
  intros H. induction H as [|o ops Ho Hops IH]; intros Go St e e' q v Gq Cv D A S.
  - cbn in A. subst e'. exists q. destruct v; auto.
  - inversion Go; subst. inversion St; subst. cbn [chain] in A. destruct A as (e1 & A1 & A2). cbn [map loop fold_left].
    destruct (Ho e e1 q v) as (s & B1 & B2 & B3 & B4); auto. { intros e2 V2. apply S. now left. }
    rewrite B1, bind_ok.
    destruct (IH H2 H4 e1 e' s (mkVel (vc v) (vel_acts o (vcomps v)))) as (s' & C1 & C2 & C3 & C4); auto.
    { apply cart_vel_with; auto. apply vel_acts_length; auto. apply Cv. }
    { intros e2 V2. rewrite B2. apply S. right. exists e1. auto. }
    exists s'. split; [exact C1|]. split; auto. now rewrite C2.
Qed.
Lemma call_posvel n o : posvel_ok n o.
Proof.
  induction o as [|tr|w|M|w|w|ops H|M T w] using op_ind'; intros e e' p u Go St Gp Cu D A S; try contradiction.
  - destruct e. cbn in A. subst e'. exists p. destruct u; auto.
  - destruct e as [x t]. cbn in A. destruct A as (b & Db & ->). cbn [fst snd] in *.
    destruct (translate_cart_vel m deg f n tr p u x b) as (s & A1 & A2 & A3 & A4); auto. { apply (S (vadd x b, t)). exists b; auto. }
    exists s. split; [|auto]. transitivity (Ok false (VPosVel (finite s) (vfin u))); [exact A1|destruct u; reflexivity].
  - destruct e as [x t]. cbn in A. subst e'. exists p. split; auto. unfold ofinite. cbn [op_map call call_single call_vec vel_acts].
    rewrite (vel_add_ok n u w) by auto. rewrite bind_ok. reflexivity.
  - rewrite good_pipe in Go. rewrite steady_pipe in St. rewrite ofinite_pipe. rewrite call_pipe by reflexivity.
    rewrite acts_pipe in A. destruct (loop_posvel n ops H Go St e e' p u) as (q' & B); auto.
    { intros e1 V1. apply S. now apply visits_pipe. }
    exists q'. exact B.
Qed.

(** ** Injectivity of the lifting *)
Definition get (x : ext) : R := match x with Some a => a | None => 0 end.
Lemma pos_get q : pos_map get (@pos_map R ext (@Some R) q) = q.
Proof. destruct q; cbn; try reflexivity; try (destruct r; reflexivity); destruct d; reflexivity. Qed.
Lemma list_get (l : list R) : map get (efin l) = l.
Proof. rewrite map_map. induction l; cbn; f_equal; auto. Qed.
Lemma mat_get (M : mat R) : map (map get) (mfin M) = M.
Proof. rewrite map_map. induction M; cbn [map]; f_equal; auto. apply list_get. Qed.
Lemma fv_get v : fv_map get (@fv_map R ext (@Some R) v) = v.
Proof. destruct v. unfold fv_map. cbn. now rewrite pos_get. Qed.
Lemma vel_get v : vel_map get (vfin v) = v.
Proof. destruct v as [c u]. unfold vel_map. cbn [vc vcomps]. now rewrite list_get. Qed.
Lemma op_get o : op_map get (ofinite o) = o.
Proof.
  unfold ofinite. induction o using op_ind'; cbn [op_map]; rewrite ?pos_get, ?mat_get, ?fv_get, ?vel_get; auto.
  f_equal. rewrite map_map. induction H; cbn [map]; f_equal; auto.
Qed.
Lemma ofinite_inj o o' : ofinite o = ofinite o' -> o = o'.
Proof. intros H. rewrite <- (op_get o), H. apply op_get. Qed.

(** ** Inverses on velocities *)
Definition vinv n (o o' : op R) := steady o' /\ (forall w, length w = n -> vel_acts o' (vel_acts o w) = w) /\ (forall w, length w = n -> vel_acts o (vel_acts o' w) = w).
Lemma fold_left_vapp a b w : fold_left (fun w o => vel_acts o w) (a ++ b) w = fold_left (fun w o => vel_acts o w) b (fold_left (fun w o => vel_acts o w) a w).
Proof. apply fold_left_app. Qed.
Lemma inverse_vel n o : good n o -> invertible o -> steady o -> forall o', inverse m deg F (ofinite o) = Ok false (ofinite o') -> vinv n o o'.
Proof.
  induction o using op_ind'; intros G Iv St o' E; try contradiction.
  - injection E as E. change OIdentity with (ofinite OIdentity) in E. apply ofinite_inj in E. subst o'. repeat split; auto.
  - destruct (simple_inverse m deg f n (OSpatial q) eq_refl G Iv) as (o2 & E2 & _ & _). rewrite E2 in E. injection E as E. apply ofinite_inj in E. subst o2.
    unfold ofinite in E2; cbn [op_map inverse] in E2. destruct (pos_neg m deg F _) as [w q'|] eqn:Eq; [|discriminate]. cbn [bind ret] in E2. injection E2 as _ E2.
    destruct o'; try discriminate E2. repeat split; auto.
  - unfold ofinite in E. cbn [op_map inverse] in E. injection E as E. rewrite vneg_fin in E.
    change (OVelBoost (vfin (mkVel (vc v) (vscale (-1) (vcomps v))))) with (ofinite (OVelBoost (mkVel (vc v) (vscale (-1) (vcomps v))))) in E. apply ofinite_inj in E. subst o'.
    destruct G as [Lv _]. split; [exact I|]. cbn. split; intros w L.
    + apply vadd_neg. congruence.
    + apply vadd_neg'. congruence.
  - rewrite good_pipe in G. rewrite invertible_pipe in Iv. rewrite steady_pipe in St. rewrite ofinite_pipe, inverse_pipe in E.
    assert (X : exists ops', (fix go ops := match ops with [] => ret [] | o :: ops => do l <- go ops; do i <- inverse m deg F o; ret (l ++ [i]) end) (map ofinite ops)
       = Ok false (map ofinite (rev ops')) /\ Forall2 (fun o o' => vinv n o o' /\ good n o') ops ops').
    { clear -H G Iv St. induction H as [|o ops Ho H IH]. exists []. split; auto.
      inversion G; subst. inversion Iv; subst. inversion St; subst. destruct IH as (ops' & E & F2); auto. destruct (inverse_ok m deg f n o) as (o' & E' & I' & _); auto.
      exists (o' :: ops'). split; [|constructor; auto]. cbn [map rev]. rewrite E, bind_ok, E', bind_ok. unfold ret. now rewrite map_app. }
    destruct X as (ops' & E2 & F2). rewrite E2, bind_ok in E. unfold ret in E. injection E as E. rewrite <- ofinite_pipe in E. apply ofinite_inj in E. subst o'.
    clear -F2 G. unfold vinv. rewrite steady_pipe. cbn [vel_acts].
    induction F2 as [|o o' ops ops' [(S1 & A1 & B1) G1] F2 IH]. { split; [constructor|]. split; intros; reflexivity. }
    inversion G; subst. destruct IH as (S2 & A2 & B2); auto.
    cbn [rev]. split; [apply Forall_app; auto|]. split; intros w L.
    + cbn [fold_left]. rewrite fold_left_vapp, A2 by (now apply vel_acts_length). cbn [fold_left]. auto.
    + rewrite fold_left_vapp. cbn [fold_left]. rewrite B1. apply B2; auto.
      assert (Gr : Forall (good n) (rev ops')). { apply Forall_rev. clear -F2. induction F2 as [|? ? ? ? [_ ?] ?]; constructor; auto. }
      apply (vel_acts_length n (OPipe (rev ops'))); auto. now apply good_pipe.
Qed.
End V.
