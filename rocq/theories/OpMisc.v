(** * Lemmas: pipes, rigid motions, four-vectors. *)
From Coq Require Import Reals Bool List ZArith Lra Lia.
From Verif Require Import Num Vectors Spec Transform Pos3D Pos3DThm Dispatch RoundTrip PosGlue Arith ArithThm ArithThm2 Vel SpecVel FourVec Operators SpecOp OpThm OpInv OpVel OpVel2 OpGlue.
Import ListNotations.
Open Scope R_scope.

(** ** Kinds of values *)
Section K.
Variables (m : mode) (deg : bool) (F : nat).
Notation call := (call m deg F).
Lemma simple_vector o x w y : simple o = true -> vector_kind x = true -> call o x = Ok w y -> vector_kind y = true.
Proof.
  intros Sm K E. destruct o; try discriminate Sm; destruct x; try discriminate K; cbn [call call_single call_vec] in E;
  try discriminate E; try (injection E as _ <-; reflexivity);
  try (apply bind_Ok in E; destruct E as (? & ? & ? & _ & E & _); try discriminate E; injection E as _ <-; reflexivity).
  - unfold translate_vel in E. do 5 (apply bind_Ok in E; destruct E as (? & ? & ? & _ & E & _)). injection E as _ <-. reflexivity.
  - destruct (dim_of (cls_of q)) as [|[|[|[|]]]]; try discriminate E. apply bind_Ok in E; destruct E as (? & ? & ? & _ & E & _). injection E as _ <-. reflexivity.
Qed.
Lemma loop_vector ops : Forall (fun o => forall x w y, vector_kind x = true -> call o x = Ok w y -> vector_kind y = true) ops ->
  forall x w y, vector_kind x = true -> loop call ops x = Ok w y -> vector_kind y = true.
Proof.
  induction 1 as [|o ops Ho H IH]; intros x w y K E. { injection E as _ <-. exact K. }
  cbn [loop] in E. apply bind_Ok in E. destruct E as (? & ? & z & E1 & E2 & _). eauto.
Qed.
Lemma call_vector o : forall x w y, vector_kind x = true -> call o x = Ok w y -> vector_kind y = true.
Proof.
  induction o using op_ind'; intros x w y K E; try (eapply simple_vector; eauto; reflexivity).
  - rewrite call_pipe in E by auto. eapply loop_vector; eauto.
  - rewrite call_galilean in E by auto. eapply loop_vector; [|exact K|exact E].
    repeat constructor; intros; eapply simple_vector; eauto; reflexivity.
Qed.
(** Sequential application. *)
Lemma bind_vector (a : res (value ext)) (g h : value ext -> res (value ext)) : (forall w y, a = Ok w y -> vector_kind y = true) -> (forall y, vector_kind y = true -> g y = h y) -> bind a g = bind a h.
Proof. intros A B. destruct a as [w y|]; auto. cbn. rewrite B; auto. eapply A; eauto. Qed.
Lemma call_app a b x : vector_kind x = true -> call (OPipe (a ++ b)) x = do y <- call (OPipe a) x; call (OPipe b) y.
Proof.
  intros K. rewrite !call_pipe, loop_app by auto. rewrite <- (call_pipe m deg F a) by auto.
  apply bind_vector; [intros w y E; eapply call_vector; eauto|]. intros y Ky. now rewrite call_pipe.
Qed.
Lemma call_one o x : vector_kind x = true -> call (OPipe [o]) x = call o x.
Proof. intros K. rewrite call_pipe by auto. cbn [loop]. apply bind_ret_r. Qed.
Lemma or_call a b c w x : op_or a b = Ok w c -> vector_kind x = true -> call c x = do y <- call a x; call b y.
Proof.
  intros E K. unfold op_or in E.
  assert (P2 : forall a b, call (OPipe [a; b]) x = do y <- call a x; call b y).
  { intros a0 b0. rewrite (call_app [a0] [b0]) by auto. rewrite call_one by auto. apply bind_vector; [intros w0 y E0; eapply call_vector; eauto|]. intros; now apply call_one. }
  destruct a; try (destruct b; try discriminate E; injection E as _ <-; apply P2).
  assert (X : forall b, call (OPipe (operators ++ [b])) x = do y <- call (OPipe operators) x; call b y).
  { intros b0. rewrite call_app by auto. apply bind_vector; [intros w0 y E0; eapply call_vector; eauto|]. intros; now apply call_one. }
  destruct b; injection E as _ <-; try apply X. now apply call_app.
Qed.
(** Nested pipes act as flat ones. *)
Lemma call_nested a b c x : vector_kind x = true -> call (OPipe (a ++ OPipe b :: c)) x = call (OPipe (a ++ b ++ c)) x.
Proof.
  intros K. rewrite !call_app by auto. apply bind_vector; [intros w0 y E0; eapply call_vector; eauto|]. intros y Ky.
  rewrite (call_app [OPipe b] c), (call_app b c), call_one by auto. reflexivity.
Qed.
End K.

(** ** Rigid motions *)
Lemma vsub_vadd x y b : length x = length b -> length y = length b -> vsub (vadd x b) (vadd y b) = vsub x y.
Proof.
  revert y b. induction x as [|a x IH]; intros [|c y] [|d b] L L'; cbn in L, L'; try lia; auto.
  unfold vsub, vadd in *. cbn. f_equal; [lra|]. apply IH; lia.
Qed.
Lemma rot_sub M x y : square3 M -> length x = 3%nat -> length y = 3%nat -> vsub (rot M x) (rot M y) = rot M (vsub x y).
Proof.
  intros Sq Lx Ly. destruct (square3_inv M Sq) as (a & b & c & d & e & g & h & i & j & ->).
  destruct x as [|x1 [|x2 [|x3 [|]]]]; try discriminate Lx. destruct y as [|y1 [|y2 [|y3 [|]]]]; try discriminate Ly.
  cbn. f_equal; [ring|f_equal; [ring|f_equal; ring]].
Qed.
Lemma rot_norm M x : orthogonal M -> length x = 3%nat -> norm_of (rot M x) = norm_of x.
Proof.
  intros O L. destruct (ortho_inv M O) as (a & b & c & d & e & g & h & i & j & -> & _ & Y1 & Y2 & Y3 & Y4 & Y5 & Y6).
  destruct x as [|x [|y [|z [|]]]]; try discriminate L. unfold norm_of. cbn. f_equal.
  transitivity (x*x*(a*a+d*d+h*h) + y*y*(b*b+e*e+i*i) + z*z*(c*c+g*g+j*j) + 2*x*y*(a*b+d*e+h*i) + 2*x*z*(a*c+d*g+h*j) + 2*y*z*(b*c+e*g+i*j)); [ring|].
  rewrite Y1, Y2, Y3, Y4, Y5, Y6. ring.
Qed.
Lemma rigid_pipe ops : rigid (OPipe ops) <-> Forall rigid ops.
Proof. cbn [rigid]. induction ops as [|o ops IH]; split; auto; cbn in *; rewrite IH.
  - intros [A B]; now constructor. - intros H; inversion H; auto. Qed.
Definition iso_ok n (o : op R) := forall x y t s x' y' t' s', length x = n -> length y = n -> acts o (x, t) (x', t') -> acts o (y, s) (y', s') ->
  t' - s' = t - s /\ (t = s -> norm_of (vsub x' y') = norm_of (vsub x y)).
Lemma rigid_motion n o : good n o -> rigid o -> iso_ok n o.
Proof.
  assert (single : forall o, simple o = true -> good n o -> rigid o -> iso_ok n o).
  { intros o0 Sm G Rg x y t s x' y' t' s' Lx Ly A B. destruct o0; try discriminate Sm; cbn [acts acts1] in A, B.
    - injection A as -> ->. injection B as -> ->. auto.
    - destruct A as (b & Db & A), B as (b' & Db' & B). injection A as -> ->. injection B as -> ->. destruct G as (V & _ & T & D).
      rewrite (denotes_fun _ _ _ V Db' Db). pose proof (denotes_length _ _ Db T) as L. rewrite vsub_vadd by congruence. auto.
    - destruct A as (b & Db & A), B as (b' & Db' & B). injection A as -> ->. injection B as -> ->. destruct G as (-> & V & _ & T & D).
      rewrite (denotes_fun _ _ _ V Db' Db). pose proof (denotes_length _ _ Db T) as L. rewrite vsub_vadd by congruence. split; auto. lra.
    - injection A as -> ->. injection B as -> ->. destruct G as (-> & Sq). rewrite rot_sub by auto. split; auto. intros _.
      apply rot_norm; auto. unfold vsub. rewrite map_length, combine_length. lia.
    - injection A as -> ->. injection B as -> ->. destruct G as (L & _). split; auto. intros <-. rewrite vsub_vadd; auto; now rewrite vscale_length, L.
    - injection A as -> ->. injection B as -> ->. auto. }
  assert (chains : forall ops, Forall (good n) ops -> Forall (iso_ok n) ops -> forall x y t s x' y' t' s', length x = n -> length y = n -> chain ops (x, t) (x', t') -> chain ops (y, s) (y', s') ->
    t' - s' = t - s /\ (t = s -> norm_of (vsub x' y') = norm_of (vsub x y))).
  { intros ops G H. induction H as [|o0 ops Ho H IH]; intros x y t s x' y' t' s' Lx Ly A B; cbn [chain] in A, B.
    - injection A as -> ->. injection B as -> ->. auto.
    - apply Forall_cons_iff in G. destruct G as [G0 G1]. destruct A as ([x1 t1] & A1 & A2), B as ([y1 s1] & B1 & B2).
      pose proof (acts_length n o0 (x, t) (x1, t1) G0 Lx A1) as L1. pose proof (acts_length n o0 (y, s) (y1, s1) G0 Ly B1) as L2. cbn in L1, L2.
      destruct (Ho x y t s x1 y1 t1 s1 Lx Ly A1 B1) as [E1 E2]. destruct (IH G1 x1 y1 t1 s1 x' y' t' s' L1 L2 A2 B2) as [E3 E4].
      split; [lra|]. intros E. rewrite E4 by lra. auto. }
  induction o using op_ind'; intros G Rg; try (apply single; [reflexivity|exact G|exact Rg]).
  - rewrite good_pipe in G. rewrite rigid_pipe in Rg. intros x y t s x' y' t' s' Lx Ly A B. rewrite acts_pipe in A, B. eapply chains; eauto.
    rewrite Forall_forall in *. intros o0 Ho. apply H; auto.
  - intros x y t s x' y' t' s' Lx Ly A B. rewrite acts_galilean in A, B. apply good_galilean in G. eapply chains; eauto.
    inversion G as [|? ? G1 G1']; subst. inversion G1' as [|? ? G2 G2']; subst. inversion G2' as [|? ? G3 _]; subst.
    constructor; [|constructor; [|constructor; [|constructor]]]; apply single; auto; exact I.
Qed.

(** ** Inverse of the inverse *)
Lemma vneg_neg x : vscale (-1) (vscale (-1) x) = x.
Proof. rewrite vscale_vscale. unfold vscale. rewrite <- (map_id x) at 2. apply map_ext. intros; ring. Qed.
Lemma negatable_neg n q q' b : good_pos n q -> denotes q b -> good_pos n q' -> cls_of q' = cls_of q -> denotes q' (vscale (-1) b) -> negatable q -> negatable q'.
Proof.
  intros (V & N & T & D) Db G' C Db' Ng b' Hb'. rewrite (denotes_fun q' b' (vscale (-1) b) (proj1 G') Hb' Db'), vneg_neg, C.
  specialize (Ng b Db). destruct Ng as [L X]. rewrite vscale_length in L. split; auto.
  destruct (cls_of q) eqn:Ec; auto.
  - intros x ->. destruct q; try discriminate Ec. cbn in Db. injection Db as ->. cbn in V. unfold valid_dist, len in *. cbn in X, N.
    destruct r as [k r]; cbn in *. destruct k; try lra.
    + specialize (X _ eq_refl). pose proof AU_pos. assert (0 < tan r) by (apply tan_gt_0; lra).
      apply Rmult_le_pos. lra. left. now apply Rinv_0_lt_compat.
    + left. apply Rmult_lt_0_compat. pose proof PC_pos; lra. apply exp_pos.
  - intros ->. apply X. cbn. repeat f_equal; ring.
  - intros ->. apply X. cbn. repeat f_equal; ring.
  - intros ->. apply X. cbn. repeat f_equal; ring.
Qed.

Section Invol.
Variables (m : mode) (deg : bool) (f : nat).
Notation F := (4 + f)%nat.
Notation fvfin := (@fv_map R ext (@Some R)).
Lemma simple_invertible n o : simple o = true -> good n o -> invertible o -> forall o', inverse m deg F (ofinite o) = Ok false (ofinite o') -> invertible o'.
Proof.
  intros Sm G Iv o' E. destruct o; try discriminate Sm.
  - injection E as E. change OIdentity with (ofinite OIdentity) in E. apply ofinite_inj in E. now subst o'.
  - pose proof G as (V & N & T & D). destruct (denotes_total _ V) as (b & Db). destruct (neg_pos m deg f n translation b G Iv Db) as (q' & E1 & E2 & E3 & E4).
    unfold ofinite in E at 1. cbn [op_map inverse] in E. fold (finite translation) in E. rewrite E1, bind_ok in E. injection E as E.
    change (OSpatial (finite q')) with (ofinite (OSpatial q')) in E. apply ofinite_inj in E. subst o'. exact (negatable_neg n translation q' b G Db E2 E4 E3 Iv).
  - destruct G as (-> & G). pose proof G as (V & N & T & D). destruct (denotes_total _ V) as (b & Db). destruct (neg_pos m deg f 3 (fq translation) b G Iv Db) as (q' & E1 & E2 & E3 & E4).
    unfold ofinite in E at 1. cbn [op_map inverse] in E. unfold fv_neg in E. cbn [fq ft fc fv_map] in E. fold (finite (fq translation)) in E. rewrite E1, bind_ok in E. unfold ret in E. rewrite bind_ok in E. injection E as E.
    change (OTranslation _) with (ofinite (OTranslation (mkFV (- ft translation) q' (fc translation)))) in E. apply ofinite_inj in E. subst o'. exact (negatable_neg 3 (fq translation) q' b G Db E2 E4 E3 Iv).
  - unfold ofinite in E at 1. cbn [op_map inverse] in E. injection E as E. rewrite tr_fin in E. change (ORotation (mfin (tr rotation))) with (ofinite (ORotation (tr rotation))) in E. apply ofinite_inj in E. subst o'. now apply ortho_tr.
  - unfold ofinite in E at 1. cbn [op_map inverse] in E. injection E as E. rewrite vneg_fin in E.
    change (OBoost (vfin ?x)) with (ofinite (OBoost x)) in E. apply ofinite_inj in E. subst o'. exact I.
  - unfold ofinite in E at 1. cbn [op_map inverse] in E. injection E as E. rewrite vneg_fin in E.
    change (OVelBoost (vfin ?x)) with (ofinite (OVelBoost x)) in E. apply ofinite_inj in E. subst o'. exact I.
Qed.
Lemma inverse_invertible n o : good n o -> invertible o -> forall o', inverse m deg F (ofinite o) = Ok false (ofinite o') -> invertible o'.
Proof.
  induction o using op_ind'; intros G Iv o' E; try (eapply (simple_invertible n); [|exact G|exact Iv|exact E]; reflexivity).
  - rewrite good_pipe in G. rewrite invertible_pipe in Iv. rewrite ofinite_pipe, inverse_pipe in E.
    assert (X : exists ops', (fix go ops := match ops with [] => ret [] | o :: ops => do l <- go ops; do i <- inverse m deg F o; ret (l ++ [i]) end) (map ofinite ops)
       = Ok false (map ofinite (rev ops')) /\ Forall invertible ops').
    { clear -H G Iv. induction H as [|o ops Ho H IH]. exists []. split; auto.
      inversion G; subst. inversion Iv; subst. destruct IH as (ops' & E & F2); auto. destruct (inverse_ok m deg f n o) as (o' & E' & I' & _); auto.
      exists (o' :: ops'). split; [|constructor; auto]. cbn [map rev]. rewrite E, bind_ok, E', bind_ok. unfold ret. now rewrite map_app. }
    destruct X as (ops' & E2 & F2). rewrite E2, bind_ok in E. unfold ret in E. injection E as E. rewrite <- ofinite_pipe in E. apply ofinite_inj in E. subst o'.
    apply invertible_pipe. now apply Forall_rev.
  - pose proof (good_galilean _ _ _ _ G) as G'. inversion G' as [|? ? G1 G1']; subst. inversion G1' as [|? ? G2 G2']; subst. inversion G2' as [|? ? G3 _]; subst.
    destruct Iv as [I1 I2].
    destruct (simple_inverse m deg f n (OTranslation T) eq_refl G2 I2) as (t' & E2 & V2 & S2).
    pose proof (simple_invertible n (OTranslation T) eq_refl G2 I2 t' E2) as It.
    unfold ofinite in E at 1. unfold ofinite in E2 at 1. cbn [op_map map inverse] in E, E2.
    destruct (fv_neg m deg F (fvfin T)) as [w nT|] eqn:ET; [|discriminate]. cbn [bind ret orb] in E, E2. injection E2 as Ew E2. injection E as _ E.
    rewrite vneg_fin, tr_fin, E2 in E.
    change (OPipe _) with (ofinite (OPipe [OBoost (mkVel (vc v) (vscale (-1) (vcomps v))); t'; ORotation (tr M)])) in E. apply ofinite_inj in E. subst o'.
    apply invertible_pipe. constructor; [exact I|]. constructor; auto. constructor; [|constructor]. cbn. now apply ortho_tr.
Qed.
Theorem involution n o : good n o -> invertible o ->
  exists o' o'', inverse m deg F (ofinite o) = Ok false (ofinite o') /\ inverse m deg F (ofinite o') = Ok false (ofinite o'') /\ good n o' /\ good n o'' /\
    forall e e', length (fst e) = n -> (acts o'' e e' <-> acts o e e').
Proof.
  intros G Iv. destruct (inverse_ok m deg f n o G Iv) as (o' & E & G' & B1 & B2 & _ & _).
  destruct (inverse_ok m deg f n o' G' (inverse_invertible n o G Iv o' E)) as (o'' & E' & G'' & C1 & C2 & _ & _).
  exists o', o''. repeat (split; auto).
  - intros A. pose proof (acts_length n o'' e e' G'' H A) as L'. apply B2; auto.
  - intros A. pose proof (acts_length n o e e' G H A) as L'. apply C1; auto.
Qed.
End Invol.

(** ** Two operators with the same action give the same results on Cartesian positions *)
Lemma same_calls m deg f n o o' : good n o -> good n o' -> (forall e e', length (fst e) = n -> (acts o e e' <-> acts o' e e')) ->
  forall q t, good_pos n q -> is_cart (cls_of q) = true ->
  call m deg (4 + f) (ofinite o') (VPosT (finite q) (Some t)) = call m deg (4 + f) (ofinite o) (VPosT (finite q) (Some t)).
Proof.
  intros G G' E q t Gq C. pose proof Gq as (V & N & T & D). destruct (denotes_total _ V) as (x & Dx). pose proof (denotes_length _ _ Dx T) as L. rewrite D in L.
  destruct (acts_total n o G (x, t) L) as (e' & A & L').
  destruct (call_posT m deg f n o (x, t) e' q G Gq Dx A (visits_cart n o q x t G Gq C Dx)) as (q1 & K1 & K2 & K3 & K4).
  destruct (call_posT m deg f n o' (x, t) e' q G' Gq Dx (proj1 (E (x, t) e' L) A) (visits_cart n o' q x t G' Gq C Dx)) as (q2 & J1 & J2 & J3 & J4).
  cbn [snd] in *. rewrite K1, J1. assert (q2 = q1) as ->; auto. apply cart_same; [now rewrite K2|congruence|].
  exact (same_of_denotes q2 q1 (fst e') (proj1 J3) (proj1 K3) J4 K4).
Qed.

(** ** Indexing *)
Lemma index_nth {T} (l : list T) i x : nth_error l i = Some x -> py_index l (Z.of_nat i) = Some x /\ py_index l (Z.of_nat i - Z.of_nat (length l)) = Some x.
Proof.
  intros H. assert (L : (i < length l)%nat) by (apply nth_error_Some; congruence). unfold py_index. split.
  - destruct (Z.of_nat i <? 0)%Z eqn:E1; [lia|]. rewrite E1. destruct (Z.of_nat (length l) <=? Z.of_nat i)%Z eqn:E2; [lia|]. cbn. now rewrite Nat2Z.id.
  - destruct (Z.of_nat i - Z.of_nat (length l) <? 0)%Z eqn:E1; [|lia]. replace (Z.of_nat i - Z.of_nat (length l) + Z.of_nat (length l))%Z with (Z.of_nat i) by lia.
    destruct (Z.of_nat i <? 0)%Z eqn:E2; [lia|]. destruct (Z.of_nat (length l) <=? Z.of_nat i)%Z eqn:E3; [lia|]. cbn. now rewrite Nat2Z.id.
Qed.
Lemma index_out {T} (l : list T) i : (i < - Z.of_nat (length l) \/ Z.of_nat (length l) <= i)%Z -> py_index l i = None.
Proof.
  intros H. unfold py_index. destruct (i <? 0)%Z eqn:E1.
  - destruct (i + Z.of_nat (length l) <? 0)%Z eqn:E2; [reflexivity|lia].
  - rewrite E1. destruct (Z.of_nat (length l) <=? i)%Z eqn:E3; [reflexivity|lia].
Qed.
Lemma flat_nth {T} (l : list T) (g : nat -> Z) n : (forall k, (k < n)%nat -> (0 <= g k < Z.of_nat (length l))%Z) ->
  forall i, nth_error (flat_map (fun k => match nth_error l (Z.to_nat (g k)) with Some x => [x] | None => [] end) (seq 0 n)) i =
    if (i <? n)%nat then nth_error l (Z.to_nat (g i)) else None.
Proof.
  intros H i.
  assert (X : forall s n, (forall k, (s <= k < s + n)%nat -> (0 <= g k < Z.of_nat (length l))%Z) -> forall i,
    nth_error (flat_map (fun k => match nth_error l (Z.to_nat (g k)) with Some x => [x] | None => [] end) (seq s n)) i =
    if (i <? n)%nat then nth_error l (Z.to_nat (g (s + i)%nat)) else None).
  { clear. intros s n; revert s. induction n as [|n IH]; intros s H i; cbn [seq flat_map]. { destruct i; reflexivity. }
    destruct (nth_error l (Z.to_nat (g s))) as [x|] eqn:E.
    - cbn [app]. destruct i as [|i]; cbn [nth_error]. + rewrite Nat.add_0_r. auto.
      + rewrite IH by (intros; apply H; lia). change (S i <? S n)%nat with (i <? n)%nat. now rewrite Nat.add_succ_r.
    - exfalso. apply nth_error_None in E. specialize (H s ltac:(lia)). lia. }
  rewrite X; auto. intros; apply H; lia.
Qed.
(** Every index a slice visits lies in the list, so the slice is the list of
    elements at start, start + step, ... *)
Lemma slice_ok {T} (l : list T) a b s : s <> 0%Z -> let n := Z.of_nat (length l) in
  let start := slice_start n s a in let k := Z.to_nat (slice_length start (slice_stop n s b) s) in
  length (py_slice l a b s) = k /\
  forall i, (i < k)%nat -> nth_error (py_slice l a b s) i = nth_error l (Z.to_nat (start + Z.of_nat i * s)) /\ (0 <= start + Z.of_nat i * s < n)%Z.
Proof.
  intros Hs n start k. set (stop := slice_stop n s b).
  assert (Hb : forall x, (s < 0 -> -1 <= slice_bound n s x <= n - 1)%Z /\ (0 < s -> 0 <= slice_bound n s x <= n)%Z).
  { intros x. unfold slice_bound. assert (0 <= n)%Z by (unfold n; lia). destruct (s <? 0)%Z eqn:E; split; intros; try lia;
    destruct (x <? 0)%Z eqn:E1; cbn zeta; try (destruct (x + n <? -1)%Z eqn:E2; lia); try (destruct (x + n <? 0)%Z eqn:E2; lia);
    try (destruct (n - 1 <? x)%Z eqn:E2; lia); destruct (n <? x)%Z eqn:E2; lia. }
  assert (Hst : (s < 0 -> -1 <= start <= n - 1)%Z /\ (0 < s -> 0 <= start <= n)%Z).
  { unfold start, slice_start. destruct a as [x|]; [apply Hb|]. assert (0 <= n)%Z by (unfold n; lia). destruct (s <? 0)%Z eqn:E; split; intros; lia. }
  assert (Hsp : (s < 0 -> -1 <= stop <= n - 1)%Z /\ (0 < s -> 0 <= stop <= n)%Z).
  { unfold stop, slice_stop. destruct b as [x|]; [apply Hb|]. assert (0 <= n)%Z by (unfold n; lia). destruct (s <? 0)%Z eqn:E; split; intros; lia. }
  assert (In : forall i, (i < k)%nat -> (0 <= start + Z.of_nat i * s < n)%Z).
  { intros i Hi. unfold k in Hi. fold stop in Hi. unfold slice_length in Hi. destruct (s <? 0)%Z eqn:E.
    - destruct (stop <? start)%Z eqn:E1; [|cbn in Hi; lia].
      assert (Z.of_nat i <= (start - stop - 1) / (- s))%Z as Hq by lia.
      assert ((- s) * ((start - stop - 1) / (- s)) <= start - stop - 1)%Z by (apply Z.mul_div_le; lia).
      assert (Z.of_nat i * (- s) <= start - stop - 1)%Z by nia. destruct Hst as [H1 _], Hsp as [H2 _]. nia.
    - destruct (start <? stop)%Z eqn:E1; [|cbn in Hi; lia].
      assert (Z.of_nat i <= (stop - start - 1) / s)%Z as Hq by lia.
      assert (s * ((stop - start - 1) / s) <= stop - start - 1)%Z by (apply Z.mul_div_le; lia).
      assert (Z.of_nat i * s <= stop - start - 1)%Z by nia. destruct Hst as [_ H1], Hsp as [_ H2]. nia. }
  assert (N : forall i, nth_error (py_slice l a b s) i = if (i <? k)%nat then nth_error l (Z.to_nat (start + Z.of_nat i * s)) else None).
  { intros i. unfold py_slice. fold n start stop k. apply (flat_nth l (fun i => (start + Z.of_nat i * s)%Z) k). exact In. }
  split.
  - apply Nat.le_antisymm.
    + apply nth_error_None. rewrite N. now rewrite Nat.ltb_irrefl.
    + destruct k as [|k0] eqn:Ek; [lia|].
      assert (nth_error (py_slice l a b s) k0 <> None). { rewrite N. replace (k0 <? S k0)%nat with true by (symmetry; apply Nat.ltb_lt; lia). apply nth_error_Some. specialize (In k0 ltac:(lia)). unfold n in In. lia. }
      apply nth_error_Some in H. lia.
  - intros i Hi. split; [|auto]. rewrite N. replace (i <? k)%nat with true by (symmetry; now apply Nat.ltb_lt). reflexivity.
Qed.

(** ** Four-vectors *)
Section Four.
Variables (m : mode) (deg : bool) (f : nat).
Notation F := (4 + f)%nat.
Notation fvfin := (@fv_map R ext (@Some R)).
Lemma fv_add_ok v w a b : good_pos 3 (fq v) -> good_pos 3 (fq w) -> denotes (fq v) a -> denotes (fq w) b -> can_hold (cls_of (fq v)) (vadd a b) ->
  exists s, fv_add m deg F (fvfin v) (fvfin w) = Ok false (fvfin s) /\ ft s = ft v + ft w /\ fc s = fc v /\ cls_of (fq s) = cls_of (fq v) /\ good_pos 3 (fq s) /\ denotes (fq s) (vadd a b).
Proof.
  intros Gv Gw Da Db H. destruct (translate_ok m deg f 3 (fq v) (fq w) a b Gv Gw Da Db H) as (s & A1 & A2 & A3 & A4).
  exists (mkFV (ft v + ft w) s (fc v)). split; [|auto]. unfold fv_add. cbn [fq fv_map]. fold (finite (fq v)) (finite (fq w)). rewrite A1, bind_ok. reflexivity.
Qed.
Lemma fv_sub_ok v w a b : good_pos 3 (fq v) -> good_pos 3 (fq w) -> denotes (fq v) a -> denotes (fq w) b -> can_hold (cls_of (fq v)) (vsub a b) ->
  exists s, fv_sub m deg F (fvfin v) (fvfin w) = Ok false (fvfin s) /\ ft s = ft v - ft w /\ fc s = fc v /\ cls_of (fq s) = cls_of (fq v) /\ good_pos 3 (fq s) /\ denotes (fq s) (vsub a b).
Proof.
  intros (V & N & T & D) (V' & N' & T' & D') Da Db H.
  destruct (sub_ok m deg f (fq v) (fq w) a b) as (s & A1 & A2 & A3 & A4 & A5); auto. { now rewrite D'. }
  exists (mkFV (ft v - ft w) s (fc v)). split; [|split; [auto|split; [auto|split; [auto|split; [|auto]]]]].
  - unfold fv_sub. cbn [fq fv_map]. fold (finite (fq v)) (finite (fq w)). rewrite A1, bind_ok. reflexivity.
  - apply good_result; auto; cbn [fq]; now rewrite A2.
Qed.
Lemma fv_neg_ok v a : good_pos 3 (fq v) -> denotes (fq v) a -> can_hold (cls_of (fq v)) (vscale (-1) a) ->
  exists s, fv_neg m deg F (fvfin v) = Ok false (fvfin s) /\ ft s = - ft v /\ fc s = fc v /\ cls_of (fq s) = cls_of (fq v) /\ good_pos 3 (fq s) /\ denotes (fq s) (vscale (-1) a).
Proof.
  intros (V & N & T & D) Da H.
  destruct (neg_ok m deg f (fq v) a) as (s & A1 & A2 & A3 & A4 & A5); auto.
  exists (mkFV (- ft v) s (fc v)). split; [|split; [auto|split; [auto|split; [auto|split; [|auto]]]]].
  - unfold fv_neg. cbn [fq fv_map]. fold (finite (fq v)). rewrite A1, bind_ok. reflexivity.
  - apply good_result; auto; cbn [fq]; now rewrite A2.
Qed.
Lemma fv_norm2_ok v a : good_pos 3 (fq v) -> length_radial (fq v) -> denotes (fq v) a ->
  fv_norm2 deg F (fvfin v) = Ok false (Some (interval2 (fc v) (ft v) a) : ext).
Proof.
  intros (V & N & T & D) LR Da. destruct (norm_ok deg f (fq v) a) as (d & A1 & A2 & A3 & A4); auto.
  unfold fv_norm2. cbn [fq fv_map ft fc]. fold (finite (fq v)). rewrite A1, bind_ok. cbn [dk dist_map]. rewrite (A4 LR).
  unfold ret, interval2. cbn. do 2 f_equal. unfold len in A3. rewrite (A4 LR) in A3. rewrite A3. ring.
Qed.
Lemma esqrt_some x : 0 <= x -> esqrt (Some x) = Some (sqrt x).
Proof. intros H. unfold esqrt. replace (Rleb 0 x) with true; auto. symmetry. now apply Rleb_true. Qed.
Lemma csqrt_ok x : exists re im, csqrt (Some x : ext) = (Some re, Some im) /\ re * re - im * im = x /\ re * im = 0 /\ 0 <= re /\ 0 <= im.
Proof.
  unfold csqrt. cbn [nltb Num_ext lift2b ncst nsqrt nneg lift1]. destruct (Rltb x 0) eqn:E.
  - apply Rltb_true in E. exists 0, (sqrt (- x)). rewrite esqrt_some by lra. pose proof (sqrt_sqrt (- x) ltac:(lra)). pose proof (sqrt_pos (- x)). repeat split; auto; lra.
  - apply Rltb_false in E. exists (sqrt x), 0. rewrite esqrt_some by lra. pose proof (sqrt_sqrt x ltac:(lra)). pose proof (sqrt_pos x). repeat split; auto; lra.
Qed.
Lemma fv_array_ok v a : good_pos 3 (fq v) -> denotes (fq v) a -> fv_to_array m deg F (fvfin v) = Ok false (efin (fc v * ft v :: a)).
Proof.
  intros (V & N & T & D) Da. unfold fv_to_array. cbn [fq fv_map]. fold (finite (fq v)). rewrite (cart_comp m deg f (fq v) a V N T Da), bind_ok. reflexivity.
Qed.
End Four.
