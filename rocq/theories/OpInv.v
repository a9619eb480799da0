(** * Lemmas: inverses of operators. *)
From Coq Require Import Reals Bool List ZArith Lra Lia.
From Verif Require Import Num Vectors Spec Transform Pos3D Pos3DThm Dispatch RoundTrip PosGlue Arith ArithThm ArithThm2 Vel SpecVel FourVec Operators SpecOp OpThm.
Import ListNotations.
Open Scope R_scope.

(** ** 3x3 matrices *)
Definition tr (M : mat R) : mat R := map (fun j => map (fun r => nth j r 0) M) (seq 0 3).
Lemma tr_fin M : transpose (mfin M) = mfin (tr M).
Proof.
  unfold transpose, tr. rewrite map_map. apply map_ext. intros j. unfold column. rewrite !map_map. apply map_ext. intros r.
  change (Some 0 : ext) with ((fun x => Some x : ext) 0). now rewrite map_nth.
Qed.
Lemma tr_square M : square3 M -> square3 (tr M).
Proof. intros [L F]. split; [reflexivity|]. unfold tr. rewrite Forall_map. apply Forall_forall. intros j _. now rewrite map_length. Qed.
Lemma tr_tr M : square3 M -> tr (tr M) = M.
Proof. intros [L F]. destruct M as [|r1 [|r2 [|r3 [|]]]]; cbn in L; try discriminate L.
  inversion F as [|? ? F1 F']; subst. inversion F' as [|? ? F2 F'']; subst. inversion F'' as [|? ? F3 _]; subst.
  destruct r1 as [|a [|b [|c [|]]]]; cbn in F1; try discriminate F1.
  destruct r2 as [|d [|e [|g [|]]]]; cbn in F2; try discriminate F2.
  destruct r3 as [|h [|i [|j [|]]]]; cbn in F3; try discriminate F3. reflexivity. Qed.

Lemma ortho_cols a b c d e g h i j :
  a*a+b*b+c*c = 1 -> d*d+e*e+g*g = 1 -> h*h+i*i+j*j = 1 -> a*d+b*e+c*g = 0 -> a*h+b*i+c*j = 0 -> d*h+e*i+g*j = 0 ->
  a*a+d*d+h*h = 1 /\ b*b+e*e+i*i = 1 /\ c*c+g*g+j*j = 1 /\ a*b+d*e+h*i = 0 /\ a*c+d*g+h*j = 0 /\ b*c+e*g+i*j = 0.
Proof.
  intros H1 H2 H3 H4 H5 H6.
  set (p := a*a+d*d+h*h - 1). set (q := b*b+e*e+i*i - 1). set (r := c*c+g*g+j*j - 1).
  set (s := a*b+d*e+h*i). set (t := a*c+d*g+h*j). set (u := b*c+e*g+i*j).
  assert (S : p*p + q*q + r*r + 2*(s*s) + 2*(t*t) + 2*(u*u) = 0).
  { transitivity ((a*a+b*b+c*c)*(a*a+b*b+c*c) + (d*d+e*e+g*g)*(d*d+e*e+g*g) + (h*h+i*i+j*j)*(h*h+i*i+j*j)
      + 2*((a*d+b*e+c*g)*(a*d+b*e+c*g)) + 2*((a*h+b*i+c*j)*(a*h+b*i+c*j)) + 2*((d*h+e*i+g*j)*(d*h+e*i+g*j))
      - 2 * ((a*a+b*b+c*c) + (d*d+e*e+g*g) + (h*h+i*i+j*j)) + 3).
    - unfold p, q, r, s, t, u. ring.
    - rewrite H1, H2, H3, H4, H5, H6. ring. }
  assert (P : p = 0) by nra. assert (Q : q = 0) by nra. assert (Rr : r = 0) by nra.
  assert (Sz : s = 0) by nra. assert (T : t = 0) by nra. assert (U : u = 0) by nra.
  unfold p, q, r, s, t, u in *. repeat split; lra.
Qed.
Lemma square3_inv M : square3 M -> exists a b c d e g h i j, M = [[a;b;c];[d;e;g];[h;i;j]].
Proof. intros [L F]. destruct M as [|r1 [|r2 [|r3 [|]]]]; cbn in L; try discriminate L.
  inversion F as [|? ? F1 F']; subst. inversion F' as [|? ? F2 F'']; subst. inversion F'' as [|? ? F3 _]; subst.
  destruct r1 as [|a [|b [|c [|]]]]; cbn in F1; try discriminate F1.
  destruct r2 as [|d [|e [|g [|]]]]; cbn in F2; try discriminate F2.
  destruct r3 as [|h [|i [|j [|]]]]; cbn in F3; try discriminate F3. repeat eexists. Qed.
Lemma ortho_inv M : orthogonal M -> exists a b c d e g h i j, M = [[a;b;c];[d;e;g];[h;i;j]] /\
  (a*a+b*b+c*c = 1 /\ d*d+e*e+g*g = 1 /\ h*h+i*i+j*j = 1 /\ a*d+b*e+c*g = 0 /\ a*h+b*i+c*j = 0 /\ d*h+e*i+g*j = 0) /\
  (a*a+d*d+h*h = 1 /\ b*b+e*e+i*i = 1 /\ c*c+g*g+j*j = 1 /\ a*b+d*e+h*i = 0 /\ a*c+d*g+h*j = 0 /\ b*c+e*g+i*j = 0).
Proof.
  intros [Sq O]. destruct (square3_inv M Sq) as (a & b & c & d & e & g & h & i & j & ->).
  exists a, b, c, d, e, g, h, i, j. split; auto.
  pose proof (O 0%nat 0%nat ltac:(lia) ltac:(lia)) as E1. pose proof (O 1%nat 1%nat ltac:(lia) ltac:(lia)) as E2. pose proof (O 2%nat 2%nat ltac:(lia) ltac:(lia)) as E3.
  pose proof (O 0%nat 1%nat ltac:(lia) ltac:(lia)) as E4. pose proof (O 0%nat 2%nat ltac:(lia) ltac:(lia)) as E5. pose proof (O 1%nat 2%nat ltac:(lia) ltac:(lia)) as E6.
  cbn in E1, E2, E3, E4, E5, E6.
  assert (X : a*a+b*b+c*c = 1 /\ d*d+e*e+g*g = 1 /\ h*h+i*i+j*j = 1 /\ a*d+b*e+c*g = 0 /\ a*h+b*i+c*j = 0 /\ d*h+e*i+g*j = 0) by (repeat split; lra).
  split; auto. destruct X as (X1 & X2 & X3 & X4 & X5 & X6). now apply ortho_cols.
Qed.
Lemma ortho_tr M : orthogonal M -> orthogonal (tr M).
Proof.
  intros O. split; [apply tr_square, O|]. destruct (ortho_inv M O) as (a & b & c & d & e & g & h & i & j & -> & _ & Y1 & Y2 & Y3 & Y4 & Y5 & Y6).
  intros k l Hk Hl. destruct k as [|[|[|]]]; try lia; destruct l as [|[|[|]]]; try lia; cbn; lra.
Qed.
Lemma rot_tr M x : orthogonal M -> length x = 3%nat -> rot (tr M) (rot M x) = x.
Proof.
  intros O L. destruct (ortho_inv M O) as (a & b & c & d & e & g & h & i & j & -> & _ & Y1 & Y2 & Y3 & Y4 & Y5 & Y6).
  destruct x as [|x [|y [|z [|]]]]; cbn in L; try discriminate L. cbn. repeat f_equal; rewrite ?Rplus_0_r.
  - transitivity (x * (a*a+d*d+h*h) + y * (a*b+d*e+h*i) + z * (a*c+d*g+h*j)); [ring|]. rewrite Y1, Y4, Y5. ring.
  - transitivity (x * (a*b+d*e+h*i) + y * (b*b+e*e+i*i) + z * (b*c+e*g+i*j)); [ring|]. rewrite Y2, Y4, Y6. ring.
  - transitivity (x * (a*c+d*g+h*j) + y * (b*c+e*g+i*j) + z * (c*c+g*g+j*j)); [ring|]. rewrite Y3, Y5, Y6. ring.
Qed.
Lemma rot_tr' M x : orthogonal M -> length x = 3%nat -> rot M (rot (tr M) x) = x.
Proof. intros O L. rewrite <- (tr_tr M) at 1 by apply O. apply rot_tr; auto. now apply ortho_tr. Qed.

(** ** The maps of events are total and functional *)
Lemma acts1_total n o e : simple o = true -> good n o -> length (fst e) = n -> exists e', acts o e e' /\ length (fst e') = n.
Proof.
  intros Sm G L. destruct e as [x t]; cbn in L. destruct o; try discriminate Sm; cbn [acts acts1 good good1] in *.
  - exists (x, t). auto.
  - destruct G as (V & N & T & D). destruct (denotes_total _ V) as (b & Db). exists (vadd x b, t). split; [eauto|].
    cbn. rewrite vadd_length, (denotes_length _ _ Db T), D, L. apply Nat.min_id.
  - destruct G as (-> & V & N & T & D). destruct (denotes_total _ V) as (b & Db). exists (vadd x b, t + ft translation). split; [eauto|].
    cbn. rewrite vadd_length, (denotes_length _ _ Db T), D, L. reflexivity.
  - destruct G as (-> & Lr & _). eexists. split; [reflexivity|]. cbn. now rewrite rot_length.
  - destruct G as (Lv & _). eexists. split; [reflexivity|]. cbn. rewrite vadd_length, vscale_length, Lv, L. apply Nat.min_id.
  - exists (x, t). auto.
Qed.
Lemma chain_total n ops : Forall (fun o => forall e, length (fst e) = n -> exists e', acts o e e' /\ length (fst e') = n) ops ->
  forall e, length (fst e) = n -> exists e', chain ops e e' /\ length (fst e') = n.
Proof.
  induction 1 as [|o ops Ho H IH]; intros e L. exists e; split; auto; reflexivity.
  destruct (Ho e L) as (e1 & A1 & L1). destruct (IH e1 L1) as (e2 & A2 & L2). exists e2. split; auto. exists e1; auto.
Qed.
Lemma acts_total n o : good n o -> forall e, length (fst e) = n -> exists e', acts o e e' /\ length (fst e') = n.
Proof.
  induction o using op_ind'; intros G e L; try (apply (acts1_total n); [reflexivity|exact G|exact L]).
  - rewrite good_pipe in G. destruct (chain_total n ops) with (e := e) as (e' & A & L'); auto.
    { rewrite Forall_forall in *. auto. }
    exists e'. split; auto. now apply acts_pipe.
  - pose proof (good_galilean _ _ _ _ G) as G'. destruct (chain_total n [ORotation M; OTranslation T; OBoost v]) with (e := e) as (e' & A & L'); auto.
    { rewrite Forall_forall in *. intros o Ho e0 L0. apply acts1_total; auto. destruct Ho as [<-|[<-|[<-|[]]]]; reflexivity. }
    exists e'. split; auto. now apply acts_galilean.
Qed.
Lemma acts1_fun n o e a b : simple o = true -> good n o -> acts o e a -> acts o e b -> a = b.
Proof.
  intros Sm G A B. destruct e as [x t]. destruct o; try discriminate Sm; cbn [acts acts1 good good1] in *; try congruence.
  - destruct A as (c & Dc & ->), B as (c' & Dc' & ->). now rewrite (denotes_fun _ _ _ (proj1 G) Dc Dc').
  - destruct A as (c & Dc & ->), B as (c' & Dc' & ->). destruct G as [_ G]. now rewrite (denotes_fun _ _ _ (proj1 G) Dc Dc').
Qed.
Lemma chain_fun ops : Forall (fun o => forall e a b, acts o e a -> acts o e b -> a = b) ops -> forall e a b, chain ops e a -> chain ops e b -> a = b.
Proof.
  induction 1 as [|o ops Ho H IH]; intros e a b A B; cbn [chain] in *. congruence.
  destruct A as (a1 & A1 & A2), B as (b1 & B1 & B2). rewrite (Ho _ _ _ A1 B1) in A2. eauto.
Qed.
Lemma acts_fun n o : good n o -> forall e a b, acts o e a -> acts o e b -> a = b.
Proof.
  induction o using op_ind'; intros G e a b A B; try (eapply acts1_fun; eauto; reflexivity).
  - rewrite acts_pipe in *. rewrite good_pipe in G. apply (chain_fun ops) with (e := e); auto. rewrite Forall_forall in *. intros o Ho e0 a0 b0. apply H; auto.
  - rewrite acts_galilean in *. apply good_galilean in G. apply (chain_fun [ORotation M; OTranslation T; OBoost v]) with (e := e); auto.
    rewrite Forall_forall in *. intros o Ho e0 a0 b0. eapply acts1_fun; eauto. destruct Ho as [<-|[<-|[<-|[]]]]; reflexivity.
Qed.
Lemma acts_length n o e e' : good n o -> length (fst e) = n -> acts o e e' -> length (fst e') = n.
Proof. intros G L A. destruct (acts_total n o G e L) as (e2 & A2 & L2). now rewrite (acts_fun n o G e e' e2). Qed.
Lemma acts_visits o e e' : acts o e e' -> visits o e e' \/ e' = e.
Proof.
  revert e e'. induction o using op_ind'; intros e e' A; try (left; exact A).
  - rewrite acts_pipe in A. rewrite visits_pipe. revert e A. induction H as [|o ops Ho H IH]; intros e A; cbn [chain vchain] in *; auto.
    destruct A as (e1 & A1 & A2). destruct (IH e1 A2) as [V| ->].
    + left. right. exists e1; auto.
    + destruct (Ho e e1 A1) as [V| ->]; auto.
  - left. destruct A as (e1 & e2 & A1 & A2 & A3). cbn [visits]. right. exists e1. split; auto. right. exists e2. auto.
Qed.
Lemma vchain_app a b e e' : vchain (a ++ b) e e' <-> vchain a e e' \/ exists e1, chain a e e1 /\ vchain b e1 e'.
Proof.
  revert e. induction a as [|o a IH]; intros e; cbn [app vchain chain].
  - split; [intros H; right; exists e; auto | intros [[]|(e1 & -> & H)]; auto].
  - split.
    + intros [A|(e1 & A & B)]; [left; now left|]. apply IH in B. destruct B as [B|(e2 & B & C)].
      * left. right. exists e1; auto.
      * right. exists e2. split; auto. exists e1; auto.
    + intros [[A|(e1 & A & B)]|(e2 & (e1 & A & B) & C)]; [now left| |]; right; exists e1; split; auto; apply IH; [now left|right; exists e2; auto].
Qed.

(** ** Inverses *)
Section Inv.
Variables (m : mode) (deg : bool) (f : nat).
Notation F := (4 + f)%nat.
Definition inverse_of (n : nat) (o o' : op R) : Prop :=
  good n o' /\
  (forall e e', length (fst e) = n -> acts o e e' -> acts o' e' e) /\
  (forall e e', length (fst e) = n -> acts o' e e' -> acts o e' e) /\
  (forall e e' e1, length (fst e) = n -> acts o e e' -> visits o' e' e1 -> visits o e e1 \/ e1 = e) /\
  (forall e e' e1, length (fst e) = n -> acts o' e e' -> visits o e' e1 -> visits o' e e1 \/ e1 = e).
Lemma neg_pos n q b : good_pos n q -> negatable q -> denotes q b ->
  exists q', pos_neg m deg F (finite q) = Ok false (finite q') /\ good_pos n q' /\ denotes q' (vscale (-1) b) /\ cls_of q' = cls_of q.
Proof.
  intros (V & N & T & D) Ng Db. destruct (neg_ok m deg f q b) as (s & A1 & A2 & A3 & A4 & A5); auto.
  exists s. split; auto. split; [|split; auto]. apply good_result; auto; now rewrite A2.
Qed.
Lemma vneg_fin v : vel_neg (vfin v) = vfin (mkVel (vc v) (vscale (-1) (vcomps v))).
Proof. unfold vel_neg, vel_map. cbn [vc vcomps]. f_equal. unfold vscale. rewrite !map_map. apply map_ext. intros x. cbn. f_equal. lra. Qed.
Lemma vscale_vscale a b x : vscale a (vscale b x) = vscale (a * b) x.
Proof. unfold vscale. rewrite map_map. apply map_ext. intros; ring. Qed.
Lemma simple_inverse n o : simple o = true -> good n o -> invertible o ->
  exists o', inverse m deg F (ofinite o) = Ok false (ofinite o') /\ inverse_of n o o' /\ simple o' = true.
Proof.
  intros Sm G I. destruct o; try discriminate Sm; unfold ofinite; cbn [op_map inverse].
  - exists OIdentity. split; auto. split; auto. split; [exact G|]. cbn.
    repeat split; intros [x t] [x' t']; try intros [x1 t1]; cbn; intros; try congruence; right; congruence.
  - pose proof G as (V & N & T & D). destruct (denotes_total _ V) as (b & Db).
    destruct (neg_pos n translation b G I Db) as (q' & E1 & E2 & E3 & _). fold (finite translation). rewrite E1, bind_ok.
    exists (OSpatial q'). split; [reflexivity|]. split; auto. pose proof (denotes_length _ _ Db T) as Lb. rewrite D in Lb.
    assert (A1 : forall e e', length (fst e) = n -> acts (OSpatial translation) e e' -> acts (OSpatial q') e' e).
    { intros [x t] e' L (c & Dc & ->). cbn in L |- *. exists (vscale (-1) b). split; auto. rewrite (denotes_fun _ _ _ V Dc Db).
      rewrite vadd_neg; auto. congruence. }
    assert (A2 : forall e e', length (fst e) = n -> acts (OSpatial q') e e' -> acts (OSpatial translation) e' e).
    { intros [x t] e' L (c & Dc & ->). cbn in L |- *. exists b. split; auto. rewrite (denotes_fun _ _ _ (proj1 E2) Dc E3).
      rewrite vadd_neg'; auto. congruence. }
    split; [exact E2|]. split; [exact A1|]. split; [exact A2|]. split; intros e e' e1 L A Vi; right.
    + eapply (acts_fun n (OSpatial q')); eauto.
    + eapply (acts_fun n (OSpatial translation)); eauto.
  - destruct G as (-> & G). pose proof G as (V & N & T & D). destruct (denotes_total _ V) as (b & Db).
    destruct (neg_pos 3 (fq translation) b G I Db) as (q' & E1 & E2 & E3 & _). unfold fv_neg. cbn [fq ft fc fv_map]. fold (finite (fq translation)). rewrite E1, bind_ok. unfold ret at 1. rewrite bind_ok.
    exists (OTranslation (mkFV (- ft translation) q' (fc translation))). split; [reflexivity|]. split; auto. pose proof (denotes_length _ _ Db T) as Lb. rewrite D in Lb.
    assert (A1 : forall e e', length (fst e) = 3%nat -> acts (OTranslation translation) e e' -> acts (OTranslation (mkFV (- ft translation) q' (fc translation))) e' e).
    { intros [x t] e' L (c & Dc & ->). cbn in L |- *. exists (vscale (-1) b). split; auto. rewrite (denotes_fun _ _ _ V Dc Db).
      rewrite vadd_neg by congruence. f_equal. lra. }
    assert (A2 : forall e e', length (fst e) = 3%nat -> acts (OTranslation (mkFV (- ft translation) q' (fc translation))) e e' -> acts (OTranslation translation) e' e).
    { intros [x t] e' L (c & Dc & ->). cbn in L |- *. exists b. split; auto. rewrite (denotes_fun _ _ _ (proj1 E2) Dc E3).
      rewrite vadd_neg' by congruence. f_equal. lra. }
    assert (G2 : good 3 (OTranslation (mkFV (- ft translation) q' (fc translation)))) by (split; auto).
    split; [exact G2|]. split; [exact A1|]. split; [exact A2|]. split; intros e e' e1 L A Vi; right.
    + eapply (acts_fun 3 _ G2); eauto.
    + eapply (acts_fun 3 (OTranslation translation)); eauto. split; auto.
  - destruct G as (-> & G). exists (ORotation (tr rotation)). split. { rewrite tr_fin. reflexivity. } split; auto.
    assert (G2 : good 3 (ORotation (tr rotation))) by (split; auto; now apply tr_square).
    assert (A1 : forall e e', length (fst e) = 3%nat -> acts (ORotation rotation) e e' -> acts (ORotation (tr rotation)) e' e).
    { intros [x t] e' L A. cbn [acts acts1 fst vcomps] in L, A |- *. subst e'. cbn [acts1]. cbn in I. now rewrite rot_tr. }
    assert (A2 : forall e e', length (fst e) = 3%nat -> acts (ORotation (tr rotation)) e e' -> acts (ORotation rotation) e' e).
    { intros [x t] e' L A. cbn [acts acts1 fst vcomps] in L, A |- *. subst e'. cbn [acts1]. cbn in I. now rewrite rot_tr'. }
    split; [exact G2|]. split; [exact A1|]. split; [exact A2|]. split; intros e e' e1 L A Vi; right.
    + eapply (acts_fun 3 _ G2); eauto.
    + eapply (acts_fun 3 (ORotation rotation)); eauto. split; auto.
  - exists (OBoost (mkVel (vc velocity) (vscale (-1) (vcomps velocity)))). split. { rewrite vneg_fin. reflexivity. } split; auto.
    assert (G2 : good n (OBoost (mkVel (vc velocity) (vscale (-1) (vcomps velocity))))). { destruct G as [G1 G3]. split; cbn; auto. now rewrite vscale_length. }
    assert (A1 : forall e e', length (fst e) = n -> acts (OBoost velocity) e e' -> acts (OBoost (mkVel (vc velocity) (vscale (-1) (vcomps velocity)))) e' e).
    { intros [x t] e' L A. cbn [acts acts1 fst vcomps] in L, A |- *. subst e'. cbn [acts1 vcomps]. rewrite vscale_vscale, (Rmult_comm t), <- vscale_vscale. rewrite vadd_neg; [reflexivity|]. rewrite vscale_length. destruct G as [G1 _]. congruence. }
    assert (A2 : forall e e', length (fst e) = n -> acts (OBoost (mkVel (vc velocity) (vscale (-1) (vcomps velocity)))) e e' -> acts (OBoost velocity) e' e).
    { intros [x t] e' L A. cbn [acts acts1 fst vcomps] in L, A |- *. subst e'. cbn [acts1]. rewrite vscale_vscale, (Rmult_comm t), <- vscale_vscale. rewrite vadd_neg'; [reflexivity|]. rewrite vscale_length. destruct G as [G1 _]. congruence. }
    split; [exact G2|]. split; [exact A1|]. split; [exact A2|]. split; intros e e' e1 L A Vi; right.
    + eapply (acts_fun n _ G2); eauto.
    + eapply (acts_fun n _ G); eauto.
  - exists (OVelBoost (mkVel (vc velocity) (vscale (-1) (vcomps velocity)))). split. { rewrite vneg_fin. reflexivity. } split; auto.
    split. { destruct G as [G1 G3]. split; cbn; auto. now rewrite vscale_length. }
    cbn. repeat split; intros [x t] [x' t']; try intros [x1 t1]; cbn; intros; try congruence; right; congruence.
Qed.

(** Chains of inverses, in reverse order. *)
Lemma chain_inverse n ops ops' : Forall (good n) ops -> Forall2 (inverse_of n) ops ops' -> inverse_of n (OPipe ops) (OPipe (rev ops')).
Proof.
  intros G H. induction H as [|o o' ops ops' Ho H IH].
  - split; [exact I|]. cbn. split; [|split; [|split]]; intros; subst; auto; try reflexivity; contradiction.
  - inversion G as [|? ? Go Gops]; subst. destruct (IH Gops) as (G' & C1 & C2 & C3 & C4). destruct Ho as (Go' & D1 & D2 & D3 & D4).
    clear IH. rewrite good_pipe in G'.
    assert (Gall : Forall (good n) (rev ops' ++ [o'])) by (apply Forall_app; auto).
    assert (FUN : forall l, Forall (good n) l -> forall e a b, chain l e a -> chain l e b -> a = b).
    { intros l Gl. apply chain_fun. rewrite Forall_forall in *. intros x Hx. eapply acts_fun; eauto. }
    assert (LEN : forall l, Forall (good n) l -> forall e e', length (fst e) = n -> chain l e e' -> length (fst e') = n).
    { intros l Gl e e' L A. eapply (acts_length n (OPipe l)); eauto. now apply good_pipe. now apply acts_pipe. }
    cbn [rev]. split; [apply good_pipe, Gall|].
    split; [|split; [|split]]; intros e e'.
    + intros L A. rewrite acts_pipe in *. cbn [chain] in A. destruct A as (e1 & A1 & A2). pose proof (acts_length n o e e1 Go L A1) as L1.
      apply chain_app. exists e1. split. { apply acts_pipe, C1; auto. now apply acts_pipe. } exists e. split; auto. reflexivity.
    + intros L A. rewrite acts_pipe in *. apply chain_app in A. destruct A as (e1 & A1 & e2 & A2 & ->). pose proof (LEN _ G' _ _ L A1) as L1.
      cbn [chain]. exists e1. split; auto. apply acts_pipe, C2; auto. now apply acts_pipe.
    + intros e1 L A Vi. rewrite acts_pipe in A. rewrite visits_pipe in *. cbn [chain] in A. destruct A as (ea & A1 & A2). pose proof (acts_length n o e ea Go L A1) as La.
      apply vchain_app in Vi. cbn [vchain].
      assert (B : chain (rev ops') e' ea). { apply acts_pipe, C1; auto. now apply acts_pipe. }
      destruct Vi as [Vi|(e2 & B2 & [Vi|(e3 & _ & [])])].
      * destruct (C3 ea e' e1 La) as [V1| ->]; auto. { now apply acts_pipe. } { now apply visits_pipe. }
        -- left. right. exists ea. split; auto. now apply visits_pipe.
        -- destruct (acts_visits _ _ _ A1) as [V1| ->]; auto.
      * rewrite (FUN _ G' e' e2 ea) in Vi by auto. destruct (D3 e ea e1 L) as [V1| ->]; auto.
    + intros e1 L A Vi. rewrite acts_pipe in A. rewrite visits_pipe in *. apply chain_app in A. destruct A as (ea & A1 & e2 & A2 & ->). pose proof (LEN _ G' _ _ L A1) as La.
      pose proof (acts_length n o' ea e2 Go' La A2) as L2.
      rewrite vchain_app. cbn [vchain] in Vi |- *. pose proof (D2 _ _ La A2) as B.
      destruct Vi as [Vi|(e3 & B2 & Vi)].
      * destruct (D4 ea e2 e1 La) as [V1| ->]; auto.
        -- left. right. exists ea. split; auto.
        -- destruct (acts_visits (OPipe (rev ops')) e ea) as [V1| ->]; auto. { now apply acts_pipe. } left. left. now apply visits_pipe.
      * rewrite (acts_fun n o Go e2 e3 ea) in Vi by auto. destruct (C4 e ea e1 L) as [V1| ->]; auto. { now apply acts_pipe. } { now apply visits_pipe. }
        left. left. now apply visits_pipe.
Qed.
Lemma inverse_pipe ops : inverse m deg F (OPipe ops) =
  do l <- (fix go ops := match ops with [] => ret [] | o :: ops => do l <- go ops; do i <- inverse m deg F o; ret (l ++ [i]) end) ops; ret (OPipe l).
Proof. reflexivity. Qed.
Lemma inverse_ok n o : good n o -> invertible o ->
  exists o', inverse m deg F (ofinite o) = Ok false (ofinite o') /\ inverse_of n o o'.
Proof.
  induction o using op_ind'; intros G Iv; try (match goal with |- exists _, inverse _ _ _ (ofinite ?o) = _ /\ _ => destruct (simple_inverse n o eq_refl G Iv) as (o' & A & B & _); exists o'; auto end; fail).
  - rewrite good_pipe in G. rewrite invertible_pipe in Iv. rewrite ofinite_pipe, inverse_pipe.
    assert (X : exists ops', (fix go ops := match ops with [] => ret [] | o :: ops => do l <- go ops; do i <- inverse m deg F o; ret (l ++ [i]) end) (map ofinite ops)
       = Ok false (map ofinite (rev ops')) /\ Forall2 (inverse_of n) ops ops').
    { clear -H G Iv. induction H as [|o ops Ho H IH]. exists []. split; auto.
      inversion G; subst. inversion Iv; subst. destruct IH as (ops' & E & F2); auto. destruct Ho as (o' & E' & I'); auto.
      exists (o' :: ops'). split; [|constructor; auto]. cbn [map rev]. rewrite E, bind_ok, E', bind_ok. unfold ret. now rewrite map_app. }
    destruct X as (ops' & E & F2). rewrite E, bind_ok. exists (OPipe (rev ops')). split; auto. now apply chain_inverse.
  - pose proof (good_galilean _ _ _ _ G) as G'. inversion G' as [|? ? G1 G1']; subst. inversion G1' as [|? ? G2 G2']; subst. inversion G2' as [|? ? G3 _]; subst.
    destruct Iv as [I1 I2].
    destruct (simple_inverse n (ORotation M) eq_refl G1 I1) as (r' & E1 & V1 & S1).
    destruct (simple_inverse n (OTranslation T) eq_refl G2 I2) as (t' & E2 & V2 & S2).
    destruct (simple_inverse n (OBoost v) eq_refl G3 I) as (b' & E3 & V3 & S3).
    exists (OPipe [b'; t'; r']). split.
    + unfold ofinite in *. cbn [op_map map inverse] in *.
      destruct (fv_neg m deg F (@fv_map R ext (@Some R) T)) as [w nT|]; [|discriminate]. unfold ret in *. cbn [bind] in E2. injection E2 as Ew E2. injection E1 as E1. injection E3 as E3.
      destruct w; [discriminate|]. cbn [bind orb]. rewrite <- E1, <- E2, <- E3. reflexivity.
    + pose proof (chain_inverse n [ORotation M; OTranslation T; OBoost v] [r'; t'; b'] G') as X.
      destruct X as (X0 & X1 & X2 & X3 & X4). { constructor; [exact V1|constructor; [exact V2|constructor; [exact V3|constructor]]]. }
      cbn [rev app] in *. split; auto.
      split; [|split; [|split]].
      * intros e e' L A. rewrite acts_galilean in A. apply X1; [exact L|now apply acts_pipe].
      * intros e e' L A. rewrite acts_galilean. apply acts_pipe. now apply X2.
      * intros e e' e1 L A Vi. rewrite acts_galilean in A. rewrite visits_galilean, <- visits_pipe. apply (X3 e e' e1); [exact L|now apply acts_pipe|exact Vi].
      * intros e e' e1 L A Vi. rewrite visits_galilean, <- visits_pipe in Vi. apply (X4 e e' e1); auto.
Qed.
End Inv.
