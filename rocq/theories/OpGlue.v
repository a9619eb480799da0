(** * Lemmas: an operator and its inverse, all call signatures. *)
From Coq Require Import Reals Bool List ZArith Lra Lia.
From Verif Require Import Num Vectors Spec Transform Pos3D Pos3DThm Dispatch RoundTrip PosGlue Arith ArithThm ArithThm2 Vel SpecVel FourVec Operators SpecOp OpThm OpInv OpVel OpVel2.
Import ListNotations.
Open Scope R_scope.

Lemma same_of_denotes p q x : valid p -> valid q -> denotes p x -> denotes q x -> same_point p q.
Proof. intros V V' D D' pt. split; intros H; [rewrite (denotes_fun p pt x V H D)|rewrite (denotes_fun q pt x V' H D')]; auto. Qed.
Lemma cart_same p q : is_cart (cls_of p) = true -> cls_of q = cls_of p -> same_point q p -> q = p.
Proof.
  intros C E S. destruct p; try discriminate C; destruct q; try discriminate E.
  - assert (H : denotes (PCart1 x) [x0]) by (apply S; reflexivity). cbn in H. congruence.
  - assert (H : denotes (PCart2 x y) [x0; y0]) by (apply S; reflexivity). cbn in H. congruence.
  - assert (H : denotes (PCart3 x y z) [x0; y0; z0]) by (apply S; reflexivity). cbn in H. congruence.
Qed.
Lemma cart_hold c x : is_cart c = true -> length x = dim_of c -> can_hold c x.
Proof. intros C L. split; auto. destruct c; try discriminate C; exact I. Qed.

Section G.
Variables (m : mode) (deg : bool) (f : nat) (m' : mode) (deg' : bool) (f' : nat).
Notation F := (4 + f)%nat.
Notation F' := (4 + f')%nat.
Lemma there_and_back n o o' e q : good n o -> good n o' ->
  (forall e e', length (fst e) = n -> acts o e e' -> acts o' e' e) ->
  (forall e e' e1, length (fst e) = n -> acts o e e' -> visits o' e' e1 -> visits o e e1 \/ e1 = e) ->
  good_pos n q -> denotes q (fst e) -> can_hold (cls_of q) (fst e) ->
  (forall e1, visits o e e1 -> can_hold (cls_of q) (fst e1)) ->
  exists q1 t1 q2, call m' deg' F' (ofinite o) (VPosT (finite q) (Some (snd e))) = Ok false (VPosT (finite q1) (Some t1)) /\
    call m' deg' F' (ofinite o') (VPosT (finite q1) (Some t1)) = Ok false (VPosT (finite q2) (Some (snd e))) /\
    cls_of q1 = cls_of q /\ cls_of q2 = cls_of q /\ same_point q2 q.
Proof.
  intros Go Go' B C Gq D H S. pose proof Gq as (V & N & T & Dm). pose proof (denotes_length _ _ D T) as L. rewrite Dm in L.
  destruct (acts_total n o Go e L) as (e' & A & L').
  destruct (call_posT m' deg' f' n o e e' q Go Gq D A S) as (q1 & K1 & K2 & K3 & K4).
  destruct (call_posT m' deg' f' n o' e' e q1 Go' K3 K4 (B _ _ L A)) as (q2 & J1 & J2 & J3 & J4).
  { intros e1 V1. rewrite K2. destruct (C e e' e1 L A V1) as [X| ->]; auto. }
  exists q1, (snd e'), q2. split; auto. split; auto. split; auto. split; [congruence|].
  eapply same_of_denotes; eauto. apply J3.
Qed.
(** Both orders. *)
Theorem inverse_posT n o : good n o -> invertible o ->
  exists o', inverse m deg F (ofinite o) = Ok false (ofinite o') /\ good n o' /\
    (forall q x t, good_pos n q -> denotes q x -> can_hold (cls_of q) x -> (forall e1, visits o (x, t) e1 -> can_hold (cls_of q) (fst e1)) ->
      exists q1 t1 q2, call m' deg' F' (ofinite o) (VPosT (finite q) (Some t)) = Ok false (VPosT (finite q1) (Some t1)) /\
        call m' deg' F' (ofinite o') (VPosT (finite q1) (Some t1)) = Ok false (VPosT (finite q2) (Some t)) /\
        cls_of q1 = cls_of q /\ cls_of q2 = cls_of q /\ same_point q2 q) /\
    (forall q x t, good_pos n q -> denotes q x -> can_hold (cls_of q) x -> (forall e1, visits o' (x, t) e1 -> can_hold (cls_of q) (fst e1)) ->
      exists q1 t1 q2, call m' deg' F' (ofinite o') (VPosT (finite q) (Some t)) = Ok false (VPosT (finite q1) (Some t1)) /\
        call m' deg' F' (ofinite o) (VPosT (finite q1) (Some t1)) = Ok false (VPosT (finite q2) (Some t)) /\
        cls_of q1 = cls_of q /\ cls_of q2 = cls_of q /\ same_point q2 q).
Proof.
  intros G Iv. destruct (inverse_ok m deg f n o G Iv) as (o' & E & G' & B1 & B2 & C1 & C2).
  exists o'. split; auto. split; auto. split; intros q x t Gq D H S.
  - apply (there_and_back n o o' (x, t) q); auto.
  - apply (there_and_back n o' o (x, t) q); auto.
Qed.
Lemma visits_length n o : good n o -> forall e e1, length (fst e) = n -> visits o e e1 -> length (fst e1) = n.
Proof.
  assert (single : forall o, simple o = true -> good n o -> forall e e1, length (fst e) = n -> visits o e e1 -> length (fst e1) = n).
  { intros o0 Sm G e e1 L V. eapply (acts_length n o0 e e1); eauto. destruct o0; try discriminate Sm; exact V. }
  assert (loopv : forall ops, Forall (good n) ops -> Forall (fun o => forall e e1, length (fst e) = n -> visits o e e1 -> length (fst e1) = n) ops ->
    forall e e1, length (fst e) = n -> vchain ops e e1 -> length (fst e1) = n).
  { intros ops G H. induction H as [|o0 ops Ho H IH]; intros e e1 L V; [contradiction|]. apply Forall_cons_iff in G. destruct G as [G0 G1]. destruct V as [V|(e2 & A & V)]; [eapply Ho; eauto|].
    apply (IH G1 e2 e1); auto. apply (acts_length n o0 e e2); auto. }
  induction o using op_ind'; intros G; try (apply single; [reflexivity|exact G]).
  - intros e e1 L V. rewrite good_pipe in G. rewrite visits_pipe in V. apply (loopv ops G) with (e := e); auto.
    rewrite Forall_forall in *. intros o0 Ho. apply H; auto.
  - intros e e1 L V. apply good_galilean in G. rewrite visits_galilean in V. apply (loopv _ G) with (e := e); auto.
    rewrite Forall_forall in *. intros o0 Ho. apply single; auto. destruct Ho as [<-|[<-|[<-|[]]]]; reflexivity.
Qed.
Theorem inverse_cart n o : good n o -> invertible o ->
  exists o', inverse m deg F (ofinite o) = Ok false (ofinite o') /\
    (forall q t, good_pos n q -> is_cart (cls_of q) = true ->
      exists q1 t1, call m' deg' F' (ofinite o) (VPosT (finite q) (Some t)) = Ok false (VPosT (finite q1) (Some t1)) /\
        call m' deg' F' (ofinite o') (VPosT (finite q1) (Some t1)) = Ok false (VPosT (finite q) (Some t)) /\ cls_of q1 = cls_of q) /\
    (forall q t, good_pos n q -> is_cart (cls_of q) = true ->
      exists q1 t1, call m' deg' F' (ofinite o') (VPosT (finite q) (Some t)) = Ok false (VPosT (finite q1) (Some t1)) /\
        call m' deg' F' (ofinite o) (VPosT (finite q1) (Some t1)) = Ok false (VPosT (finite q) (Some t)) /\ cls_of q1 = cls_of q).
Proof.
  intros G Iv. destruct (inverse_posT n o G Iv) as (o' & E & G' & A & B). exists o'. split; auto.
  assert (X : forall q t, good_pos n q -> is_cart (cls_of q) = true -> exists x, denotes q x /\ can_hold (cls_of q) x /\
    forall o0, good n o0 -> forall e1, visits o0 (x, t) e1 -> can_hold (cls_of q) (fst e1)).
  { intros q t Gq C. pose proof Gq as (V & N & T & D). destruct (denotes_total _ V) as (x & Dx). pose proof (denotes_length _ _ Dx T) as L.
    exists x. split; auto. split; [now apply cart_hold|]. intros o0 G0 e1 V1. apply cart_hold; auto. rewrite D. eapply (visits_length n o0 G0 (x, t)); eauto. cbn. congruence. }
  split; intros q t Gq C; destruct (X q t Gq C) as (x & Dx & H & S).
  - destruct (A q x t Gq Dx H (S o G)) as (q1 & t1 & q2 & K1 & K2 & K3 & K4 & K5). rewrite (cart_same q q2 C K4 K5) in K2. exists q1, t1; auto.
  - destruct (B q x t Gq Dx H (S o' G')) as (q1 & t1 & q2 & K1 & K2 & K3 & K4 & K5). rewrite (cart_same q q2 C K4 K5) in K2. exists q1, t1; auto.
Qed.

(** ** Structure of the inverse *)
Lemma inverse_go_inv (P : op ext -> op ext -> Prop) ops : Forall (fun o => forall w o', inverse m deg F o = Ok w o' -> P o o') ops ->
  forall w l, (fix go ops := match ops with [] => ret [] | o :: ops => do l <- go ops; do i <- inverse m deg F o; ret (l ++ [i]) end) ops = Ok w l ->
  exists l', l = rev l' /\ Forall2 P ops l'.
Proof.
  induction 1 as [|o ops Ho H IH]; intros w l E.
  - injection E as _ <-. exists []. auto.
  - apply bind_Ok in E. destruct E as (w1 & w2 & l1 & E1 & E2 & _). apply bind_Ok in E2. destruct E2 as (w3 & w4 & i & E3 & E4 & _). injection E4 as _ <-.
    destruct (IH _ _ E1) as (l' & -> & F2). exists (i :: l'). split; [reflexivity|]. constructor; eauto.
Qed.
Lemma inverse_flags o : forall w o', inverse m deg F o = Ok w o' -> rotates_ext o' = rotates_ext o /\ (timeless_ext o = true -> timeless_ext o' = true).
Proof.
  induction o using op_ind'; intros w o' E.
  - injection E as _ <-. auto.
  - cbn [inverse] in E. apply bind_Ok in E. destruct E as (? & ? & ? & _ & E & _). injection E as _ <-. auto.
  - cbn [inverse] in E. apply bind_Ok in E. destruct E as (? & ? & ? & _ & E & _). injection E as _ <-. auto.
  - injection E as _ <-. auto.
  - injection E as _ <-. auto.
  - injection E as _ <-. auto.
  - rewrite inverse_pipe in E. apply bind_Ok in E. destruct E as (? & ? & l & E1 & E & _). injection E as _ <-.
    apply (inverse_go_inv (fun o o' => rotates_ext o' = rotates_ext o /\ (timeless_ext o = true -> timeless_ext o' = true))) in E1; auto.
    destruct E1 as (l' & -> & F2). cbn [rotates_ext timeless_ext]. clear H. induction F2 as [|o o' ops l' [A B] F2 [IH1 IH2]]; cbn [rev existsb forallb]; auto.
    rewrite existsb_app, forallb_app, IH1. cbn [existsb forallb]. rewrite A, orb_false_r, orb_comm. split; auto.
    intros X. apply andb_prop in X. destruct X as [X1 X2]. rewrite IH2, B by auto. reflexivity.
  - cbn [inverse] in E. apply bind_Ok in E. destruct E as (? & ? & ? & _ & E & _). injection E as _ <-. split; auto.
Qed.
Lemma rotates_ofinite o : rotates_ext (ofinite o) = rotates o.
Proof. induction o using op_ind'; auto. rewrite ofinite_pipe. cbn [rotates_ext rotates]. induction H; cbn [map existsb]; congruence. Qed.
Lemma timeless_ofinite o : timeless o -> timeless_ext (ofinite o) = true.
Proof.
  induction o using op_ind'; auto; try contradiction. rewrite ofinite_pipe, timeless_pipe. cbn [timeless_ext]. intros T.
  induction H; auto. inversion T; subst. cbn [map forallb]. rewrite H, IHForall; auto.
Qed.

Notation fvfin := (@fv_map R ext (@Some R)).
(** FourVector: the speed of light is reset to the default by a rotation. *)
Lemma four_step o q t c q1 t1 : dim_of (cls_of q) = 3%nat ->
  call m' deg' F' (ofinite o) (VPosT (finite q) (Some t)) = Ok false (VPosT (finite q1) (Some t1)) ->
  call m' deg' F' (ofinite o) (VFour (fvfin (mkFV t q c))) = Ok false (VFour (fvfin (mkFV t1 q1 (if rotates o then c_light else c)))).
Proof.
  intros D E. change (fvfin (mkFV t q c)) with (mkFV (Some t : ext) (finite q) (Some c : ext)). rewrite (call_agrees m' deg' F' (ofinite o)).
  - rewrite E. cbn [map_res as_four]. rewrite rotates_ofinite. unfold fv_map. cbn [ft fq fc]. destruct (rotates o); reflexivity.
  - destruct q; exact D.
Qed.
Theorem inverse_four o : good 3 o -> invertible o ->
  exists o', inverse m deg F (ofinite o) = Ok false (ofinite o') /\
    (forall v, good_pos 3 (fq v) -> cls_of (fq v) = CCart3 -> (rotates o = true -> fc v = c_light) ->
      exists v1, call m' deg' F' (ofinite o) (VFour (fvfin v)) = Ok false (VFour (fvfin v1)) /\
        call m' deg' F' (ofinite o') (VFour (fvfin v1)) = Ok false (VFour (fvfin v))) /\
    (forall v, good_pos 3 (fq v) -> cls_of (fq v) = CCart3 -> (rotates o = true -> fc v = c_light) ->
      exists v1, call m' deg' F' (ofinite o') (VFour (fvfin v)) = Ok false (VFour (fvfin v1)) /\
        call m' deg' F' (ofinite o) (VFour (fvfin v1)) = Ok false (VFour (fvfin v))).
Proof.
  intros G Iv. destruct (inverse_cart 3 o G Iv) as (o' & E & A & B). exists o'. split; auto.
  assert (R' : rotates o' = rotates o). { rewrite <- !rotates_ofinite. eapply inverse_flags; eauto. }
  split; intros [t q c] Gq C Hc; cbn [fq fc] in *.
  - destruct (A q t Gq) as (q1 & t1 & K1 & K2 & K3); [now rewrite C|]. exists (mkFV t1 q1 (if rotates o then c_light else c)).
    rewrite (four_step o q t c q1 t1), (four_step o' q1 t1 _ q t); auto; try (now rewrite ?K3, C). split; auto. rewrite R'. destruct (rotates o); [rewrite Hc|]; auto.
  - destruct (B q t Gq) as (q1 & t1 & K1 & K2 & K3); [now rewrite C|]. exists (mkFV t1 q1 (if rotates o' then c_light else c)).
    rewrite (four_step o' q t c q1 t1), (four_step o q1 t1 _ q t); auto; try (now rewrite ?K3, C). split; auto. rewrite R'. destruct (rotates o); [rewrite Hc|]; auto.
Qed.
Lemma place_step o q t q1 t1 : timeless_ext (ofinite o) = true ->
  call m' deg' F' (ofinite o) (VPosT (finite q) (Some t)) = Ok false (VPosT (finite q1) (Some t1)) ->
  call m' deg' F' (ofinite o) (VPos (finite q)) = Ok false (VPos (finite q1)).
Proof. intros T E. rewrite (call_agrees_p m' deg' F' (ofinite o) T (finite q) (Some t)), E. reflexivity. Qed.
Theorem inverse_place n o : good n o -> invertible o -> timeless o ->
  exists o', inverse m deg F (ofinite o) = Ok false (ofinite o') /\
    (forall q, good_pos n q -> is_cart (cls_of q) = true ->
      exists q1, call m' deg' F' (ofinite o) (VPos (finite q)) = Ok false (VPos (finite q1)) /\
        call m' deg' F' (ofinite o') (VPos (finite q1)) = Ok false (VPos (finite q))) /\
    (forall q, good_pos n q -> is_cart (cls_of q) = true ->
      exists q1, call m' deg' F' (ofinite o') (VPos (finite q)) = Ok false (VPos (finite q1)) /\
        call m' deg' F' (ofinite o) (VPos (finite q1)) = Ok false (VPos (finite q))).
Proof.
  intros G Iv T. destruct (inverse_cart n o G Iv) as (o' & E & A & B). exists o'. split; auto.
  pose proof (timeless_ofinite o T) as T1. pose proof (proj2 (inverse_flags _ _ _ E) T1) as T2.
  split; intros q Gq C.
  - destruct (A q 0 Gq C) as (q1 & t1 & K1 & K2 & K3). exists q1. split; eapply place_step; eauto.
  - destruct (B q 0 Gq C) as (q1 & t1 & K1 & K2 & K3). exists q1. split; eapply place_step; eauto.
Qed.
Lemma visits_cart n o q x t : good n o -> good_pos n q -> is_cart (cls_of q) = true -> denotes q x -> forall e1, visits o (x, t) e1 -> can_hold (cls_of q) (fst e1).
Proof.
  intros G (V & N & T & D) C Dx e1 V1. apply cart_hold; auto. rewrite D. eapply (visits_length n o G (x, t)); eauto. cbn. rewrite (denotes_length _ _ Dx T). auto.
Qed.
Theorem inverse_posvel n o : good n o -> invertible o -> steady o ->
  exists o', inverse m deg F (ofinite o) = Ok false (ofinite o') /\
    (forall q v, good_pos n q -> is_cart (cls_of q) = true -> cart_vel n v ->
      exists q1 v1, call m' deg' F' (ofinite o) (VPosVel (finite q) (vfin v)) = Ok false (VPosVel (finite q1) (vfin v1)) /\
        call m' deg' F' (ofinite o') (VPosVel (finite q1) (vfin v1)) = Ok false (VPosVel (finite q) (vfin v))) /\
    (forall q v, good_pos n q -> is_cart (cls_of q) = true -> cart_vel n v ->
      exists q1 v1, call m' deg' F' (ofinite o') (VPosVel (finite q) (vfin v)) = Ok false (VPosVel (finite q1) (vfin v1)) /\
        call m' deg' F' (ofinite o) (VPosVel (finite q1) (vfin v1)) = Ok false (VPosVel (finite q) (vfin v))).
Proof.
  intros G Iv St. destruct (inverse_ok m deg f n o G Iv) as (o' & E & G' & B1 & B2 & _ & _). exists o'. split; auto.
  destruct (inverse_vel m deg f n o G Iv St o' E) as (St' & W1 & W2).
  assert (X : forall o o' q v, good n o -> good n o' -> steady o -> steady o' ->
     (forall e e', length (fst e) = n -> acts o e e' -> acts o' e' e) -> (forall w, length w = n -> vel_acts o' (vel_acts o w) = w) ->
     good_pos n q -> is_cart (cls_of q) = true -> cart_vel n v ->
     exists q1 v1, call m' deg' F' (ofinite o) (VPosVel (finite q) (vfin v)) = Ok false (VPosVel (finite q1) (vfin v1)) /\
        call m' deg' F' (ofinite o') (VPosVel (finite q1) (vfin v1)) = Ok false (VPosVel (finite q) (vfin v))).
  { clear. intros o o' q v G G' St St' B W Gq C Cv. pose proof Gq as (V & N & T & D).
    destruct (denotes_total _ V) as (x & Dx). pose proof (denotes_length _ _ Dx T) as L. rewrite D in L.
    destruct (acts_total n o G (x, 0) L) as (e' & A & L').
    destruct (call_posvel m' deg' f' n o (x, 0) e' q v G St Gq Cv Dx A (visits_cart n o q x 0 G Gq C Dx)) as (q1 & K1 & K2 & K3 & K4).
    assert (Cv' : cart_vel n (mkVel (vc v) (vel_acts o (vcomps v)))). { apply cart_vel_with; auto. apply vel_acts_length; auto. apply Cv. }
    destruct e' as [x' t']. assert (C1 : is_cart (cls_of q1) = true) by now rewrite K2.
    destruct (call_posvel m' deg' f' n o' (x', t') (x, 0) q1 _ G' St' K3 Cv' K4 (B (x, 0) (x', t') L A) (visits_cart n o' q1 x' t' G' K3 C1 K4)) as (q2 & J1 & J2 & J3 & J4).
    cbn [vc vcomps] in J1. rewrite W in J1 by apply Cv.
    assert (q2 = q) as ->. { apply cart_same; [exact C|congruence|]. exact (same_of_denotes q2 q x (proj1 J3) V J4 Dx). }
    exists q1, (mkVel (vc v) (vel_acts o (vcomps v))). split; [exact K1|]. rewrite J1. destruct v; reflexivity. }
  split; intros q v Gq C Cv; [apply (X o o')|apply (X o' o)]; auto.
Qed.
End G.
