(** * Property C28: simplification of operators.

    [unit o] is the size of the unit in which the parameter of [o] is stored (the
    comparison with zero uses the bare value).  [same_effect n o o']: [o'] does
    to every event and every Cartesian velocity what [o] does (SpecOp.v). *)
From Coq Require Import Reals Bool List ZArith Lra Lia.
From Verif Require Import Num Vectors Spec Transform Pos3DThm Dispatch RoundTrip Arith ArithThm ArithThm2 Vel SpecVel FourVec Operators SpecOp OpThm OpInv OpVel OpVel2 OpGlue OpMisc OpSimp PropOp.
Import ListNotations.
Open Scope R_scope.

(** Equal effects give equal results of calls. *)
Theorem C28_same_effect_same_calls : forall m deg f n o o', good n o -> good n o' -> same_effect n o o' ->
  forall q, good_pos n q -> is_cart (cls_of q) = true ->
  (forall t, call m deg (4 + f) (ofinite o') (VPosT (finite q) (Some t)) = call m deg (4 + f) (ofinite o) (VPosT (finite q) (Some t))) /\
  (timeless o -> call m deg (4 + f) (ofinite o') (VPos (finite q)) = call m deg (4 + f) (ofinite o) (VPos (finite q))) /\
  (steady o -> forall v, cart_vel n v ->
     call m deg (4 + f) (ofinite o') (VPosVel (finite q) (vfinite v)) = call m deg (4 + f) (ofinite o) (VPosVel (finite q) (vfinite v))).
Proof.
  intros m deg f n o o' G G' (A & V & S & T) q Gq C.
  assert (E : forall t, call m deg (4 + f) (ofinite o') (VPosT (finite q) (Some t)) = call m deg (4 + f) (ofinite o) (VPosT (finite q) (Some t))).
  { intros t. apply (same_calls m deg f n o o'); auto. intros e e' L. symmetry. auto. }
  split; auto. split.
  - intros Tl. rewrite (call_agrees_p m deg (4 + f) (ofinite o)) with (t := Some 0) by now apply timeless_ofinite.
    rewrite (call_agrees_p m deg (4 + f) (ofinite o')) with (t := Some 0) by (apply timeless_ofinite; auto). now rewrite E.
  - intros St v Cv. pose proof Gq as (Vq & N & Tq & D). destruct (denotes_total _ Vq) as (x & Dx). pose proof (denotes_length _ _ Dx Tq) as L. rewrite D in L.
    destruct (acts_total n o G (x, 0) L) as (e1 & A1 & L1). destruct (acts_total n o' G' (x, 0) L) as (e2 & A2 & L2).
    assert (e1 = e2) by (eapply (acts_fun n o G); [exact A1|now apply A]). subst e2.
    destruct (call_posvel m deg f n o (x, 0) e1 q v G St Gq Cv Dx A1) as (q1 & K1 & K2 & K3 & K4). { eapply visits_cart; eauto. }
    destruct (call_posvel m deg f n o' (x, 0) e1 q v G' (S St) Gq Cv Dx A2) as (q2 & H1 & H2 & H3 & H4). { eapply visits_cart; eauto. }
    change (vel_map Some v) with (vfinite v) in *. rewrite K1, H1. rewrite V by apply Cv. do 3 f_equal.
    apply (cart_same q1 q2); [now rewrite K2|congruence|]. eapply same_of_denotes; eauto; [apply H3|apply K3].
Qed.
Print Assumptions C28_same_effect_same_calls.

(** ** Pipes: identities are dropped, runs of translations and boosts merged. *)
Theorem C28_simplify_pipe : forall deg f unit n ops w o', good n (OPipe ops) -> ~ clash ops ->
  simplify Eager deg (4 + f) unit (ofinite (OPipe ops)) = Ok w (ofinite o') ->
  good n o' /\ same_effect n (OPipe ops) o'.
Proof.
  intros deg f unit n ops w o' G NC E. rewrite good_pipe in G. rewrite ofinite_pipe in E. cbn [simplify] in E.
  change OIdentity with (ofinite OIdentity) in E.
  destruct (reduce_sound deg f n ops OIdentity w o' I G NC E) as (G' & A & V & S & T).
  split; auto. split; [|split; [|split]].
  - intros e e' L. rewrite A by auto. rewrite !acts_pipe. cbn [chain]. destruct e. split.
    + intros (e1 & X & Y). cbn in X. now subst e1.
    + intros Y. eexists. split; [reflexivity|]. auto.
  - intros w0 L. rewrite V by auto. reflexivity.
  - intros H. apply S. cbn. auto.
  - intros H. apply T. cbn. auto.
Qed.
Print Assumptions C28_simplify_pipe.
(** With Cartesian translations it always returns. *)
Definition cart_params (o : op R) : Prop :=
  match o with OSpatial q => is_cart (cls_of q) = true | OTranslation v => is_cart (cls_of (fq v)) = true | _ => True end.
Lemma reduce_total deg f n ops : Forall (good n) ops -> Forall cart_params ops -> forall a, good n a -> cart_params a ->
  exists o', reduce Eager deg (4 + f) (ofinite a) (map ofinite ops) = Ok false (ofinite o').
Proof.
  assert (CH : forall (q : pos R) x, is_cart (cls_of q) = true -> length x = dim_of (cls_of q) -> can_hold (cls_of q) x).
  { intros q x H L. split; auto. destruct (cls_of q); try discriminate; exact I. }
  assert (ADD : forall k p q, good_pos k p -> good_pos k q -> is_cart (cls_of p) = true ->
     exists s, pos_add Eager deg (4 + f) (finite p) (finite q) = Ok false (finite s) /\ cls_of s = cls_of p /\ good_pos k s).
  { intros k p q (V & N & T & D) (V' & N' & T' & D') C. destruct (denotes_total _ V) as (x & Dx). destruct (denotes_total _ V') as (y & Dy).
    destruct (add_ok Eager deg f p q x y) as (s & E & Cs & Vs & Ds & Ls); auto; try congruence.
    { apply CH; auto. rewrite vadd_length, (denotes_length _ _ Dx T), (denotes_length _ _ Dy T'), D, D'. apply Nat.min_id. }
    exists s. split; auto. split; auto. repeat split; auto; try congruence. now apply length_radial_nn. }
  induction ops as [|o ops IH]; intros Go Co a Ga Ca; cbn [map reduce]. { eexists; reflexivity. }
  apply Forall_cons_iff in Go. destruct Go as [Go Gops]. apply Forall_cons_iff in Co. destruct Co as [Co Cops].
  assert (S : exists c0, simplify2 Eager deg (4 + f) (ofinite a) (ofinite o) = Ok false (ofinite c0) /\ good n c0 /\ cart_params c0).
  { destruct (is_id o) eqn:Io. { destruct o; try discriminate. exists a. split; [destruct a; reflexivity|auto]. }
    destruct (is_id a) eqn:Ia. { destruct a; try discriminate. exists o. split; [destruct o; reflexivity|auto]. }
    destruct a as [|p|p|P|v|v|l|P T v]; try discriminate Ia; destruct o as [|q|q|Q|u|u|l'|P' T' u]; try discriminate Io;
      try (match goal with |- exists c0, simplify2 _ _ _ (ofinite ?a) (ofinite ?b) = _ /\ _ => exists (OPipe [a; b]) end;
           split; [reflexivity|split; [apply good_pipe; auto|exact I]]).
    - destruct (ADD n p q Ga Go Ca) as (s & E & Cs & Gs). exists (OSpatial s). split; [exact (f_equal (fun x => do n <- x; ret (OSpatial n)) E)|]. split; auto. cbn. now rewrite Cs.
    - destruct Ga as [-> Ga]. destruct Go as [_ Go]. destruct (ADD 3%nat (fq p) (fq q) Ga Go Ca) as (s & E & Cs & Gs). exists (OTranslation (mkFV (ft p + ft q) s (fc p))).
      split; [exact (f_equal (fun x => do v <- (do n <- x; ret (mkFV (Some (ft p + ft q) : ext) n (Some (fc p) : ext))); ret (OTranslation v)) E)|]. split; [split; auto|]. cbn. now rewrite Cs.
    - exists (ORotation (mm P Q)). unfold ofinite; cbn [op_map simplify2]. rewrite mm_fin. split; [reflexivity|]. split; [|exact I]. split; [apply Ga|]. apply mm_square, Ga.
    - exists (OBoost (mkVel (vc v) (vadd (vcomps v) (vcomps u)))). unfold ofinite; cbn [op_map simplify2]. rewrite (vel_add_ok n v u Ga Go), bind_ok. split; [reflexivity|]. split; [|exact I].
      apply cart_vel_with; auto. rewrite vadd_length, (proj1 Ga), (proj1 Go). apply Nat.min_id.
    - exists (OVelBoost (mkVel (vc v) (vadd (vcomps v) (vcomps u)))). unfold ofinite; cbn [op_map simplify2]. rewrite (vel_add_ok n v u Ga Go), bind_ok. split; [reflexivity|]. split; [|exact I].
      apply cart_vel_with; auto. rewrite vadd_length, (proj1 Ga), (proj1 Go). apply Nat.min_id.
    - exists (OPipe (l ++ [OSpatial q])). rewrite !ofinite_pipe, map_app. split; [reflexivity|]. split; [|exact I]. apply good_pipe in Ga. apply good_pipe, Forall_app; auto.
    - exists (OPipe (l ++ [OTranslation q])). rewrite !ofinite_pipe, map_app. split; [reflexivity|]. split; [|exact I]. apply good_pipe in Ga. apply good_pipe, Forall_app; auto.
    - exists (OPipe (l ++ [ORotation Q])). rewrite !ofinite_pipe, map_app. split; [reflexivity|]. split; [|exact I]. apply good_pipe in Ga. apply good_pipe, Forall_app; auto.
    - exists (OPipe (l ++ [OBoost u])). rewrite !ofinite_pipe, map_app. split; [reflexivity|]. split; [|exact I]. apply good_pipe in Ga. apply good_pipe, Forall_app; auto.
    - exists (OPipe (l ++ [OVelBoost u])). rewrite !ofinite_pipe, map_app. split; [reflexivity|]. split; [|exact I]. apply good_pipe in Ga. apply good_pipe, Forall_app; auto.
    - exists (OPipe (l ++ l')). rewrite !ofinite_pipe, map_app. split; [reflexivity|]. split; [|exact I]. apply good_pipe in Ga. apply good_pipe in Go. apply good_pipe, Forall_app; auto.
    - exists (OPipe (l ++ [OGalilean P' T' u])). rewrite !ofinite_pipe, map_app. split; [reflexivity|]. split; [|exact I]. apply good_pipe in Ga. apply good_pipe, Forall_app; auto. }
  destruct S as (c0 & E & Gc & Cc). rewrite E, bind_ok. apply IH; auto.
Qed.
Theorem C28_simplify_pipe_returns : forall deg f unit n ops, good n (OPipe ops) -> Forall cart_params ops ->
  exists o', simplify Eager deg (4 + f) unit (ofinite (OPipe ops)) = Ok false (ofinite o').
Proof.
  intros deg f unit n ops G C. rewrite good_pipe in G. rewrite ofinite_pipe. cbn [simplify]. change OIdentity with (ofinite OIdentity).
  apply (reduce_total deg f n ops); auto; exact I.
Qed.
Print Assumptions C28_simplify_pipe_returns.
Example C28_case : let ops := [OIdentity; OSpatial (PCart3 1 2 3); OSpatial (PCart3 4 5 6); ORotation quarter; ORotation quarter] in
  good 3 (OPipe ops) /\ ~ clash ops /\ Forall cart_params ops /\
  forall deg f unit, simplify Eager deg (4 + f) unit (ofinite (OPipe ops)) =
     Ok false (ofinite (OPipe [OSpatial (PCart3 (1 + 4) (2 + 5) (3 + 6)); ORotation quarter; ORotation quarter])).
Proof.
  cbv zeta. split; [|split; [|split]].
  - pose proof quarter_orthogonal as Q. apply good_pipe. repeat constructor; auto; try discriminate.
  - intros H. exact H.
  - repeat constructor.
  - intros deg f unit. rewrite ofinite_pipe. cbn [simplify map reduce]. unfold ofinite at 1 2 3 4 5. cbn [op_map simplify2 bind ret orb].
    assert (X : exists s, pos_add Eager deg (4 + f) (finite (PCart3 1 2 3)) (finite (PCart3 4 5 6)) = Ok false (finite s) /\ cls_of s = CCart3 /\ denotes s [1 + 4; 2 + 5; 3 + 6]).
    { destruct (add_ok Eager deg f (PCart3 1 2 3) (PCart3 4 5 6) [1;2;3] [4;5;6]) as (s & E & C & V & D & _); try (cbn; auto; discriminate).
      - split; [reflexivity|exact I].
      - exists s. auto. }
    destruct X as (s & E & C & D). unfold finite in E. cbn [pos_map] in E. cbn [pos_map]. rewrite E. destruct s; try discriminate C. cbn in D. injection D as -> -> ->. reflexivity.
Qed.

(** Finding: two rotations at the front of a pipe are merged in the wrong order. *)
Theorem C28_two_rotations : forall m deg f unit P Q, square3 P -> square3 Q ->
  exists S, simplify m deg f unit (ofinite (OPipe [ORotation P; ORotation Q])) = Ok false (ofinite (ORotation S)) /\
    (forall x, length x = 3%nat -> rot S x = rot P (rot Q x)) /\
    (forall x t e', acts (OPipe [ORotation P; ORotation Q]) (x, t) e' <-> e' = (rot Q (rot P x), t)).
Proof.
  intros m deg f unit P Q SP SQ. exists (mm P Q). split; [|split].
  - rewrite ofinite_pipe. cbn [simplify map reduce]. unfold ofinite at 1 2. cbn [op_map simplify2 bind ret orb]. rewrite mm_fin. reflexivity.
  - intros x L. now apply mm_rot.
  - intros x t e'. rewrite acts_pipe. cbn [chain acts acts1]. split.
    + intros (e1 & -> & e2 & -> & ->). reflexivity.
    + intros ->. eexists. split; [reflexivity|]. eexists. split; reflexivity.
Qed.
Print Assumptions C28_two_rotations.
Definition quarter_x : mat R := [[1; 0; 0]; [0; 0; -1]; [0; 1; 0]].
Theorem C28_two_rotations_refuted : forall m deg f unit, exists P Q S, orthogonal P /\ orthogonal Q /\
  simplify m deg f unit (ofinite (OPipe [ORotation P; ORotation Q])) = Ok false (ofinite (ORotation S)) /\
  exists x t e', acts (OPipe [ORotation P; ORotation Q]) (x, t) e' /\ ~ acts (ORotation S) (x, t) e'.
Proof.
  intros m deg f unit.
  assert (O : orthogonal quarter_x).
  { split. { split; [reflexivity|]. repeat constructor. }
    intros i j Hi Hj. destruct i as [|[|[|]]]; try lia; destruct j as [|[|[|]]]; try lia; cbv [quarter_x nth vsum vmul combine map fold_right Nat.eqb]; ring. }
  destruct (C28_two_rotations m deg f unit quarter quarter_x) as (S & E & A & B); [apply quarter_orthogonal|apply O|].
  exists quarter, quarter_x, S. split; [apply quarter_orthogonal|]. split; auto. split; auto.
  exists [1; 0; 0], 0. eexists. split; [apply B; reflexivity|]. cbn [acts acts1]. rewrite A by reflexivity.
  cbv [rot quarter quarter_x vsum vmul combine map fold_right]. intros H. injection H as H1 H2 H3. lra.
Qed.
Print Assumptions C28_two_rotations_refuted.

(** ** Single operators *)
(** An operator is either returned as it is or, when all numbers of its parameter
    are within the tolerance, replaced by the Identity. *)
Definition negligible (u : R) (x : list R) : Prop := Forall (fun a => Rabs a <= 1/100000000 * u) x.
Lemma zero_test_ok unit o x : length x <> 2%nat -> 0 < unit o ->
  (negligible (unit o) x -> zero_test unit o (@map R ext (@Some R) x) = Ok false OIdentity) /\
  (~ negligible (unit o) x -> zero_test unit o (@map R ext (@Some R) x) = Ok false o).
Proof.
  intros L U. assert (Z : zero_test unit o (@map R ext (@Some R) x) = Ok false (if near_zero unit o (@map R ext (@Some R) x) then OIdentity else o)).
  { unfold zero_test. rewrite map_length. destruct (length x) as [|[|[|]]]; try reflexivity. congruence. }
  rewrite Z. pose proof (near_zero_iff unit o x U) as N. fold (negligible (unit o) x) in N. split; intros H.
  - apply N in H. now rewrite H.
  - destruct (near_zero unit o (@map R ext (@Some R) x)) ; auto. contradiction (H (proj1 N eq_refl)).
Qed.
Theorem C28_spatial_translation : forall m deg f unit n q x, good_pos n q -> denotes q x -> n <> 2%nat ->
  let o := ofinite (OSpatial q) in 0 < unit o ->
  (negligible (unit o) x -> simplify m deg (4 + f) unit o = Ok false OIdentity) /\
  (~ negligible (unit o) x -> simplify m deg (4 + f) unit o = Ok false o).
Proof.
  intros m deg f unit n q x (V & N & T & D) Dx Hn o U. cbn [simplify o ofinite op_map simplify_part].
  pose proof (cart_components_ok m deg f q x V N T Dx) as E. unfold finite in E. unfold o, ofinite. cbn [op_map simplify_part]. rewrite E, bind_ok.
  apply zero_test_ok; auto. rewrite (denotes_length _ _ Dx T). congruence.
Qed.
Print Assumptions C28_spatial_translation.
Theorem C28_translation : forall m deg f unit v x, good_pos 3 (fq v) -> denotes (fq v) x ->
  let o := ofinite (OTranslation v) in 0 < unit o ->
  (negligible (unit o) (fc v * ft v :: x) -> simplify m deg (4 + f) unit o = Ok false OIdentity) /\
  (~ negligible (unit o) (fc v * ft v :: x) -> simplify m deg (4 + f) unit o = Ok false o).
Proof.
  intros m deg f unit v x G Dx o U. pose proof (fv_array_ok m deg f v x G Dx) as E. unfold o, ofinite. cbn [op_map simplify simplify_part].
  change (fv_map Some v) with (fvfinite v) in *. change (fv_to_array m deg (4 + f) (fvfinite v) = Ok false (@map R ext (@Some R) (fc v * ft v :: x))) in E. rewrite E, bind_ok.
  pose proof (near_zero_iff unit o (fc v * ft v :: x) U) as N. fold (negligible (unit o) (fc v * ft v :: x)) in N.
  change (OTranslation (fvfinite v)) with o. split; intros H.
  - apply N in H. now rewrite H.
  - destruct (near_zero unit o _) ; auto. contradiction (H (proj1 N eq_refl)).
Qed.
Print Assumptions C28_translation.
Theorem C28_boosts : forall m deg f unit n v, cart_vel n v -> n <> 2%nat ->
  forall o, o = ofinite (OBoost v) \/ o = ofinite (OVelBoost v) -> 0 < unit o ->
  (negligible (unit o) (vcomps v) -> simplify m deg f unit o = Ok false OIdentity) /\
  (~ negligible (unit o) (vcomps v) -> simplify m deg f unit o = Ok false o).
Proof.
  intros m deg f unit n v [L C] Hn o Ho U.
  assert (E : simplify m deg f unit o = zero_test unit o (@map R ext (@Some R) (vcomps v))).
  { assert (X : vel_array (vel_map (@Some R) v) = Ok false (@map R ext (@Some R) (vcomps v))).
    { unfold vel_array. cbn [vc vel_map vcomps]. destruct n as [|[|[|[|]]]]; try contradiction; rewrite C; reflexivity. }
    destruct Ho as [-> | ->]; unfold ofinite; cbn [op_map simplify simplify_part]; (etransitivity; [exact (f_equal (fun r => do x <- r; zero_test unit _ x) X)|apply bind_ok]). }
  rewrite E. apply zero_test_ok; auto. congruence.
Qed.
Print Assumptions C28_boosts.
Theorem C28_rotation : forall m deg f unit M, square3 M ->
  let near := forall i j, (i < 3)%nat -> (j < 3)%nat ->
     Rabs (nth j (nth i M []) 0 - (if Nat.eqb i j then 1 else 0)) <= if Nat.eqb i j then 1/100000000 + 1/100000 else 1/100000000 in
  (near -> simplify m deg f unit (ofinite (ORotation M)) = Ok false OIdentity) /\
  (~ near -> simplify m deg f unit (ofinite (ORotation M)) = Ok false (ofinite (ORotation M))).
Proof.
  intros m deg f unit M S near. pose proof (near_identity_iff M S) as N. unfold ofinite. cbn [op_map simplify simplify_part]. split; intros H.
  - apply N in H. now rewrite H.
  - destruct (near_identity _) ; auto. contradiction (H (proj1 N eq_refl)).
Qed.
Print Assumptions C28_rotation.
(** The error committed by dropping a translation: at most the tolerance, per
    coordinate. *)
Theorem C28_dropped_translation_error : forall m deg f unit n q x y t, good_pos n q -> denotes q x -> n <> 2%nat ->
  let o := OSpatial q in 0 < unit (ofinite o) -> length y = n ->
  forall w o', simplify m deg (4 + f) unit (ofinite o) = Ok w (ofinite o') ->
  forall e1 e2, acts o (y, t) e1 -> acts o' (y, t) e2 ->
  snd e1 = snd e2 /\ Forall (fun d => Rabs d <= 1/100000000 * unit (ofinite o)) (vsub (fst e1) (fst e2)).
Proof.
  intros m deg f unit n q x y t G Dx Hn o U L w o' E e1 e2 A1 A2.
  pose proof G as (V & N & T & D). assert (Lx := denotes_length _ _ Dx T). rewrite D in Lx.
  destruct (C28_spatial_translation m deg f unit n q x G Dx Hn U) as [S1 S2].
  destruct A1 as (b & Db & ->). rewrite (denotes_fun _ _ _ V Db Dx).
  assert (U' : 0 <= 1/100000000 * unit (ofinite o)) by (unfold o in *; lra).
  assert (Dec : negligible (unit (ofinite o)) x \/ ~ negligible (unit (ofinite o)) x).
  { destruct (near_zero unit (ofinite o) (@map R ext (@Some R) x)) eqn:Z; [left|right; intros H; apply (near_zero_iff unit (ofinite o) x U) in H; congruence].
    now apply (near_zero_iff unit (ofinite o) x U). }
  destruct Dec as [H|H].
  - specialize (S1 H). unfold o in E. rewrite S1 in E. injection E as _ E. change OIdentity with (ofinite OIdentity) in E. apply ofinite_inj in E. subst o'.
    cbn in A2. subst e2. cbn [fst snd]. split; auto. unfold negligible in H. fold o in H. revert H. generalize (1/100000000 * unit (ofinite o)) as u. clear - L Lx.
    intros u H. subst n. revert x Lx H. induction y as [|a y IH]; intros [|c x] Lx H; try discriminate Lx; [constructor|].
    apply Forall_cons_iff in H. destruct H as [H1 H2]. constructor; [|apply IH; auto]. replace (a + c - a) with c by ring. auto.
  - specialize (S2 H). unfold o in E. rewrite S2 in E. injection E as _ E. change (OSpatial (pos_map Some q)) with (ofinite (OSpatial q)) in E. apply ofinite_inj in E. subst o'.
    cbn in A2. destruct A2 as (b' & Db' & ->). rewrite (denotes_fun _ _ _ V Db' Dx). cbn [fst snd]. split; auto.
    revert U'. generalize (1/100000000 * unit (ofinite o)) as u. intros u U'. generalize (vadd y x) as z. clear - U'.
    induction z as [|a z IH]; constructor; auto. replace (a - a) with 0 by ring. now rewrite Rabs_R0.
Qed.
Print Assumptions C28_dropped_translation_error.
(** Finding: a non-zero translation smaller than 1e-8 of its own unit is dropped,
    whatever that unit is: 1e-8 kpc = 3e8 km is simplified to the Identity, the
    same translation stored in km is kept. *)
Theorem C28_small_translation_refuted : forall m deg f a, 0 < a ->
  let o := OSpatial (PCart3 a 0 0) in
  (exists unit, 0 < unit (ofinite o) /\ simplify m deg (4 + f) unit (ofinite o) = Ok false OIdentity) /\
  (exists unit, 0 < unit (ofinite o) /\ simplify m deg (4 + f) unit (ofinite o) = Ok false (ofinite o)) /\
  acts o ([0; 0; 0], 0) ([0 + a; 0 + 0; 0 + 0], 0).
Proof.
  intros m deg f a A o. assert (G : good_pos 3 (PCart3 a 0 0)) by (repeat split; auto; discriminate).
  assert (D : denotes (PCart3 a 0 0) [a; 0; 0]) by reflexivity. split; [|split].
  - exists (fun _ => a * 100000000). split; [lra|]. apply (C28_spatial_translation m deg f (fun _ => a * 100000000) 3 (PCart3 a 0 0) [a; 0; 0] G D); [lia|lra|].
    unfold negligible. repeat constructor; rewrite ?Rabs_R0, ?(Rabs_pos_eq a); lra.
  - exists (fun _ => a). split; [lra|]. apply (C28_spatial_translation m deg f (fun _ => a) 3 (PCart3 a 0 0) [a; 0; 0] G D); [lia|lra|].
    unfold negligible. intros H. apply Forall_cons_iff in H. destruct H as [H _]. rewrite (Rabs_pos_eq a) in H; lra.
  - cbn. exists [a; 0; 0]. auto.
Qed.
Print Assumptions C28_small_translation_refuted.
(** Finding: two-dimensional translations and boosts cannot be simplified. *)
Theorem C28_two_dimensional_refuted : forall m deg f unit q v, good_pos 2 q -> cart_vel 2 v ->
  simplify m deg (4 + f) unit (ofinite (OSpatial q)) = Raise EValue /\
  simplify m deg (4 + f) unit (ofinite (OBoost v)) = Raise EValue /\
  simplify m deg (4 + f) unit (ofinite (OVelBoost v)) = Raise EValue.
Proof.
  intros m deg f unit q v (V & N & T & D) [L C]. split; [|split].
  - destruct (denotes_total _ V) as (x & Dx). pose proof (cart_components_ok m deg f q x V N T Dx) as E. unfold finite in E. unfold ofinite. cbn [op_map simplify simplify_part].
    rewrite E, bind_ok. unfold zero_test. rewrite map_length, (denotes_length _ _ Dx T), D. reflexivity.
  - unfold ofinite. cbn [op_map simplify simplify_part]. unfold vel_array. cbn [vc vel_map vcomps]. rewrite C. cbn [ret bind]. unfold zero_test. rewrite map_length, L. reflexivity.
  - unfold ofinite. cbn [op_map simplify simplify_part]. unfold vel_array. cbn [vc vel_map vcomps]. rewrite C. cbn [ret bind]. unfold zero_test. rewrite map_length, L. reflexivity.
Qed.
Print Assumptions C28_two_dimensional_refuted.

(** ** GalileanOperator: the sequence of the simplified parts. *)
Theorem C28_galilean_operator : forall deg f unit M T v w o', good 3 (OGalilean M T v) ->
  simplify Eager deg (4 + f) unit (ofinite (OGalilean M T v)) = Ok w (ofinite o') ->
  exists a b c w1 w2 w3,
    simplify Eager deg (4 + f) unit (ofinite (ORotation M)) = Ok w1 (ofinite a) /\ (a = OIdentity \/ a = ORotation M) /\
    simplify Eager deg (4 + f) unit (ofinite (OTranslation T)) = Ok w2 (ofinite b) /\ (b = OIdentity \/ b = OTranslation T) /\
    simplify Eager deg (4 + f) unit (ofinite (OBoost v)) = Ok w3 (ofinite c) /\ (c = OIdentity \/ c = OBoost v) /\
    same_effect 3 (OPipe [a; b; c]) o'.
Proof.
  intros deg f unit M T v w o' G E.
  assert (P : forall o w x, simple (ofinite o) = true -> simplify_part Eager deg (4 + f) unit (ofinite o) = Ok w x -> x = OIdentity \/ x = ofinite o).
  { clear. intros o w x S E. destruct o; try discriminate S; unfold ofinite in E; cbn [op_map simplify_part] in E;
      try (injection E as _ <-; auto; fail);
      try (apply bind_Ok_inv in E; destruct E as (? & ? & z & _ & E); unfold zero_test in E; try (destruct (length z) as [|[|[|]]]; try discriminate E); injection E as _ <-;
           match goal with |- context [if ?b then _ else _] => destruct b end; auto).
    injection E as _ <-. match goal with |- context [if ?b then _ else _] => destruct b end; auto. }
  pose proof (good_galilean 3 M T v G) as Gs. apply Forall_cons_iff in Gs. destruct Gs as [G1 Gs]. apply Forall_cons_iff in Gs. destruct Gs as [G2 Gs]. apply Forall_cons_iff in Gs. destruct Gs as [G3 _].
  change (ofinite (OGalilean M T v)) with (OGalilean (map (@map R ext (@Some R)) M : mat ext) (fv_map (@Some R) T : fourvec ext) (vel_map (@Some R) v : vel ext)) in E. cbn [simplify] in E.
  change (ORotation (map (@map R ext (@Some R)) M : mat ext)) with (ofinite (ORotation M)) in E.
  change (OTranslation (fv_map (@Some R) T : fourvec ext)) with (ofinite (OTranslation T)) in E.
  change (OBoost (vel_map (@Some R) v : vel ext)) with (ofinite (OBoost v)) in E.
  apply bind_Ok_inv in E. destruct E as (w1 & ? & a' & E1 & E). apply bind_Ok_inv in E. destruct E as (w2 & ? & b' & E2 & E). apply bind_Ok_inv in E. destruct E as (w3 & ? & c' & E3 & E).
  assert (Ha : exists a, a' = ofinite a /\ (a = OIdentity \/ a = ORotation M)) by (destruct (P (ORotation M) _ _ eq_refl E1) as [-> | ->]; [exists OIdentity|exists (ORotation M)]; auto).
  assert (Hb : exists b, b' = ofinite b /\ (b = OIdentity \/ b = OTranslation T)) by (destruct (P (OTranslation T) _ _ eq_refl E2) as [-> | ->]; [exists OIdentity|exists (OTranslation T)]; auto).
  assert (Hc : exists c, c' = ofinite c /\ (c = OIdentity \/ c = OBoost v)) by (destruct (P (OBoost v) _ _ eq_refl E3) as [-> | ->]; [exists OIdentity|exists (OBoost v)]; auto).
  destruct Ha as (a & -> & Ha). destruct Hb as (b & -> & Hb). destruct Hc as (c & -> & Hc).
  exists a, b, c, w1, w2, w3. repeat (split; [assumption|]).
  assert (Gabc : good 3 (OPipe [a; b; c])).
  { apply good_pipe. destruct Ha as [-> | ->]; destruct Hb as [-> | ->]; destruct Hc as [-> | ->]; (apply Forall_cons; [first [assumption|exact I]|apply Forall_cons; [first [assumption|exact I]|apply Forall_cons; [first [assumption|exact I]|apply Forall_nil]]]). }
  destruct (is_identity (ofinite a) || is_identity (ofinite b) || is_identity (ofinite c)) eqn:Id.
  - assert (NC : ~ clash [a; b; c]).
    { destruct Ha as [-> | ->]; destruct Hb as [-> | ->]; destruct Hc as [-> | ->]; intros H; exact H. }
    change (reduce Eager deg (4 + f) OIdentity [ofinite a; ofinite b; ofinite c]) with (simplify Eager deg (4 + f) unit (ofinite (OPipe [a; b; c]))) in E.
    exact (proj2 (C28_simplify_pipe deg f unit 3 [a; b; c] _ o' Gabc NC E)).
  - destruct Ha as [-> | ->]; [discriminate Id|]. destruct Hb as [-> | ->]; [discriminate Id|]. destruct Hc as [-> | ->]; [discriminate Id|].
    injection E as _ E. change (OGalilean (map (@map R ext (@Some R)) M : mat ext) (fv_map (@Some R) T : fourvec ext) (vel_map (@Some R) v : vel ext)) with (ofinite (OGalilean M T v)) in E.
    apply ofinite_inj in E. subst o'. split; [|split; [|split]].
    + intros e e' L. rewrite acts_galilean, acts_pipe. reflexivity.
    + intros; reflexivity.
    + intros [[] _].
    + intros (_ & [] & _).
Qed.
Print Assumptions C28_galilean_operator.
