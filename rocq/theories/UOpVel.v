(** * Operators on velocities, on numbers that carry units: the model, and its
    simulation of the SI model. *)
From Coq Require Import Reals Bool List ZArith Lra Lia.
From Verif Require Import Num Vectors Spec Transform Pos3D Pos3DThm RoundTrip Dispatch Vel Units UQ Scale Rel UQThm UVel UVelThm Arith TreeArith RelArith FourVec Operators SpecOp.
From Verif Require Import GOp GOpThm PropUQ PropUVel PropUnitArith UOpThm GOpVel.
Import ListNotations.
Open Scope R_scope.

(** ** The model *)
(** [q.uconvert(unit)] *)
Definition uto (s : R) (q : uq ext) : uq ext := mkUq (scl (uqs q / s) (uqv q)) (uqd q) s.
(** [u.Quantity.from_([...])] of a list of quantities: everything in the unit of the
    first: base/compat.py:31-70, 84-112 *)
Definition ustack (l : list (uq ext)) : list (uq ext) :=
  match l with [] => [] | x :: _ => map (uto (uqs x)) l end.
Definition ucart (x : list (uq ext)) : pos (uq ext) :=
  match x with
  | [a] => PCart1 a
  | [a; b] => PCart2 a b
  | _ => PCart3 (nth 0 x (ncst 0)) (nth 1 x (ncst 0)) (nth 2 x (ncst 0))
  end.
(** [u.experimental.jacfwd(self.__call__, argnums=0, units=(q.unit,))(q)]: derivatives
    of the stored numbers, in the unit of the result over that of [q]:
    galilean/spatial_translation.py:352.  The sum checks units as TreeArith.v says. *)
Definition utcolumn m deg fuel (tr : pos (uq ext)) (x : list (uq ext)) (iq : nat * uq ext) : res (list (uq ext)) :=
  do b <- represent_as m deg fuel nokw tr (cart_cls (cls_of tr));
  do y <- tpos_add Traced deg fuel (useed (ucart x) (basis (length x) (fst iq))) (pos_map uconst b);
  ret (map (fun row => jac_entry row (snd iq)) (components y)).
Definition utjac m deg fuel (tr : pos (uq ext)) (x : list (uq ext)) : res (list (list (uq ext))) :=
  mapM (utcolumn m deg fuel tr x) (combine (seq 0%nat (length x)) x).
(** [op(p)] and [op(q, p)] *)
Definition ucallv m deg fuel : op (uq ext) -> value (uq ext) -> res (value (uq ext)) :=
  gcallv m deg fuel (ujacobian deg fuel) umatvec (utjac m deg fuel) ustack.

(** ** Simulation *)
(** a proof device: the same without the check of the units *)
Definition utcolumn0 m deg fuel (tr : pos (uq ext)) (x : list (uq ext)) (iq : nat * uq ext) : res (list (uq ext)) :=
  do b <- represent_as m deg fuel nokw tr (cart_cls (cls_of tr));
  do y <- pos_add Traced deg fuel (useed (ucart x) (basis (length x) (fst iq))) (pos_map uconst b);
  ret (map (fun row => jac_entry row (snd iq)) (components y)).
Definition utjac0 m deg fuel (tr : pos (uq ext)) (x : list (uq ext)) : res (list (list (uq ext))) :=
  mapM (utcolumn0 m deg fuel tr x) (combine (seq 0%nat (length x)) x).
Lemma weak_mapM {S T} (f g : S -> res T) l : (forall x, weak (f x) (g x)) -> weak (mapM f l) (mapM g l).
Proof. intros H. induction l as [|x l IH]; cbn [mapM]; [apply weak_refl|]. apply weak_bind; [apply H|]. intros. apply weak_bind; [exact IH|]. intros. apply weak_refl. Qed.
Lemma utjac_weak m deg fuel tr x : weak (utjac m deg fuel tr x) (utjac0 m deg fuel tr x).
Proof.
  apply weak_mapM. intros iq. unfold utcolumn, utcolumn0. apply weak_bind; [apply weak_refl|]. intros. apply weak_bind; [apply tpos_add_weak|]. intros. apply weak_refl.
Qed.
Lemma utjac_3d m deg fuel tr x : length x = 3%nat -> utjac m deg fuel tr x = utjac0 m deg fuel tr x.
Proof.
  intros L. destruct x as [|a [|b [|c [|]]]]; try discriminate L. unfold utjac, utjac0. generalize (combine (seq 0%nat (length [a; b; c])) [a; b; c]). intros l.
  induction l as [|iq l IH]; cbn [mapM]; [reflexivity|]. rewrite IH. reflexivity.
Qed.

Notation ru := (@relu ext Scal_ext).
Notation rud := (@relu dual Scal_dual).
Notation RPx := (relu_preserved scal_ext).
Notation RDx := (relu_preserved scal_dual).
Definition cart_class (c : pcls) : Prop := c = CCart1 \/ c = CCart2 \/ c = CCart3.
Definition arr_rel (c : pcls) (x : list (uq ext)) (X : list ext) : Prop :=
  exists p P, rpos ru True p P /\ cls_of P = c /\ cart_class c /\ x = components p /\ X = components P.
Lemma cart_of c : cart_class (cart_cls c).
Proof. unfold cart_class. destruct c; cbn; auto. Qed.
Lemma cadd_cls {A} {NA : Num A} m deg f (p q : pos A) w s : cart_class (cls_of p) -> pos_add m deg f p q = Ok w s -> cls_of s = cls_of p.
Proof.
  intros C. destruct p; destruct C as [C|[C|C]]; try discriminate C; cbn [pos_add cart_add cls_of];
  match goal with |- context [rep m deg f q ?c] => destruct (rep m deg f q c) as [w1 cy|e] end; cbn [bind]; try discriminate;
  destruct cy; try discriminate; unfold ret; cbn [bind]; intros E; injection E as _ <-; reflexivity.
Qed.
Lemma uto_rel k q (x : ext) s : 0 < s -> ru k q x -> ru k (uto s q) x.
Proof.
  intros Hs (D & P & ->). split; [exact D|]. split; [exact Hs|]. unfold uphys, uto. cbn [uqs uqv]. rewrite (s_comp scal_ext). f_equal. field. lra.
Qed.
Lemma du_uto d q (x : ext) s : 0 < s -> du d q x -> du d (uto s q) x.
Proof.
  intros Hs (D & P & ->). split; [exact D|]. split; [exact Hs|]. unfold uphys, uto. cbn [uqs uqv]. rewrite (s_comp scal_ext). f_equal. field. lra.
Qed.
Lemma stack_rel c x X : arr_rel c x X -> arr_rel c (ustack x) X.
Proof.
  intros (p & P & R & C & K & -> & ->). destruct P; destruct K as [K|[K|K]]; rewrite K in C; try discriminate C; destruct p; cbn [rpos] in R; try contradiction;
  cbn [components ustack map].
  - exists (PCart1 (uto (uqs x0) x0)), (PCart1 x). cbn [rpos components cls_of]. rewrite K. unfold cart_class. split; [|auto]. apply uto_rel; [apply R|exact R].
  - destruct R as [R1 R2]. eexists (PCart2 _ _), (PCart2 x y). cbn [rpos components cls_of]. rewrite K. unfold cart_class.
    split; [split; apply uto_rel; try eassumption; apply R1|]. auto.
  - destruct R as (R1 & R2 & R3). eexists (PCart3 _ _ _), (PCart3 x y z). cbn [rpos components cls_of]. rewrite K. unfold cart_class.
    split; [split; [|split]; apply uto_rel; try eassumption; apply R1|]. auto 6.
Qed.
Lemma speeds_stack j c u x : comps_rel j c u x -> cart_class c -> comps_rel j c (ustack u) x.
Proof.
  intros C K. destruct u as [|q u]; [exact C|]. unfold ustack.
  assert (Hs : 0 < uqs q). { destruct K as [->|[->| ->]]; unfold comps_rel in C; cbn [kinds all3] in C; destruct x; try contradiction; apply C. }
  revert C. generalize (q :: u). intros l. unfold comps_rel. generalize (kinds c) as ks. intros ks. revert l x. induction ks as [|k ks IH]; intros [|a l] [|b x]; cbn [all3 map]; try tauto.
  intros [A B]. split; [now apply du_uto|now apply IH].
Qed.
Section S.
Variables (m : mode) (deg : bool) (fuel : nat).
Lemma comps_r q Q : rpos ru False q Q -> rres (arr_rel (cart_cls (cls_of Q))) (cart_components m deg fuel q) (cart_components m deg fuel Q).
Proof.
  intros R. unfold cart_components, rep. rewrite (rpos_cls _ _ _ _ R).
  eapply (rr_bind' (rpos ru False)). { apply (represent_as_rel _ _ RPx); [apply nokw_rel|exact R]. }
  intros w x X E S. apply rep_class in E. destruct E as [E _]. pose proof (cart_of (cls_of Q)) as K. rewrite <- E in *.
  assert (S' : rpos ru True x X). { destruct X; destruct K as [K|[K|K]]; try discriminate K; destruct x; cbn [rpos] in S |- *; try contradiction; exact S. }
  destruct X; destruct K as [K|[K|K]]; try discriminate K; destruct x; cbn [rpos] in S; try contradiction; apply Rel.rr_ret;
  (do 2 eexists; split; [exact S'|]; unfold cart_class; cbn; auto 8).
Qed.
Lemma ucart_comps (p : pos (uq ext)) : cart_class (cls_of p) -> ucart (components p) = p.
Proof. intros K. destruct p; destruct K as [K|[K|K]]; try discriminate K; reflexivity. Qed.
Lemma seed_cart_eq (P : pos ext) i : cart_class (cls_of P) -> seed_cart (components P) i = seed P (basis (length (components P)) i).
Proof. intros K. destruct P; destruct K as [K|[K|K]]; try discriminate K; reflexivity. Qed.
Lemma kinds_cart c : cart_class c -> forall k, In k (kinds c) -> k = Len 1.
Proof. intros [->|[->| ->]] k; cbn; intuition congruence. Qed.
Lemma tcolumn_rel tr TR c x X i q k : rpos ru False tr TR -> arr_rel c x X -> nth_error x i = Some q -> nth_error (kinds c) i = Some k ->
  rres (col_rel c (dim_kind k)) (utcolumn0 m deg fuel tr x (i, q)) (translation_column m deg fuel TR X i).
Proof.
  intros RT (p & P & R & C & K & -> & ->) N Nk. unfold utcolumn0, translation_column. cbn [fst snd]. rewrite (rpos_cls _ _ _ _ RT).
  eapply (rr_bind' (rpos ru False)). { apply (represent_as_rel _ _ RPx); [apply nokw_rel|exact RT]. }
  intros w b B EB RB. apply rep_class in EB. destruct EB as [EB _]. pose proof (cart_of (cls_of TR)) as KB. rewrite <- EB in KB.
  assert (U : rpos rud True (pos_map uconst b) (pos_map dconst B)).
  { assert (cc : forall k q x, ru k q x -> rud k (uconst q) (dconst x)).
    { intros k0 q0 x0 H. pose proof (tan_rel k0 q0 x0 (Some 0) H) as T. unfold uconst, dconst. cbn in T. now rewrite Rmult_0_r in T. }
    destruct B; destruct KB as [KB|[KB|KB]]; try discriminate KB; destruct b; cbn [rpos] in RB; try contradiction; cbn [pos_map rpos]; intuition. }
  assert (T : rpos (relh (uqs q)) True (pos_map dconst B) (pos_map dconst B)).
  { assert (cc : forall k x, relh (uqs q) k (dconst x) (dconst x)). { intros k0 x0. split; auto. cbn. now rewrite Rmult_0_r. }
    destruct B; destruct KB as [KB|[KB|KB]]; try discriminate KB; cbn [pos_map rpos]; auto. }
  assert (Kp : cart_class (cls_of p)). { rewrite (rpos_cls _ _ _ _ R), C. exact K. }
  rewrite ucart_comps by exact Kp. rewrite seed_cart_eq by (rewrite C; exact K).
  assert (LP : length (components P) = length (components p)). { destruct p, P; cbn [rpos] in R; try contradiction; reflexivity. }
  rewrite LP. set (bb := basis _ i).
  pose proof (r_pos_add rud True RDx Traced deg fuel _ _ _ _ (useed_rel True p P bb R) U) as A1.
  pose proof (r_pos_add (relh (uqs q)) True (relh_preserved (uqs q)) Traced deg fuel _ _ _ _ (seed_rel p P i q R N) T) as A2. fold bb in A2.
  assert (CS : cls_of (sitan p P bb) = c). { destruct p, P; cbn [rpos] in R; try contradiction; exact C. }
  destruct (pos_add Traced deg fuel (useed p bb) _) as [w1 y1|e1],
    (pos_add Traced deg fuel (sitan p P bb) _) as [w2 y2|e2] eqn:E2,
    (pos_add Traced deg fuel (seed P bb) _) as [w3 y3|e3]; cbn [rres] in A1, A2; try contradiction; unfold ret; cbn [bind rres]; try congruence.
  destruct A1 as [-> A1], A2 as [-> A2]. split; [reflexivity|].
  destruct (rpos_comps _ _ _ A1) as [_ B1]. destruct (rpos_comps _ _ _ A2) as [_ B2]. apply cadd_cls in E2; [|rewrite CS; exact K]. rewrite E2, CS in *.
  destruct (rpos_comps _ _ _ R) as [_ CC]. rewrite C in CC. destruct (all3_nth _ _ _ _ CC i k q Nk N) as (z & _ & D & Hs & _).
  unfold col_rel. apply (entries (uqs q) _ _ (components y2)); auto.
Qed.
Lemma tjac_rel tr TR c x X : rpos ru False tr TR -> arr_rel c x X ->
  rres (jac_rel c c) (utjac0 m deg fuel tr x) (translation_jacobian m deg fuel TR X).
Proof.
  intros RT A. unfold utjac0, translation_jacobian.
  assert (L : length X = length x /\ length (kinds c) = length x).
  { destruct A as (p & P & R & C & K & -> & ->). destruct (rpos_comps _ _ _ R) as [_ CC]. rewrite C in CC. destruct (all3_len _ _ _ _ CC). split; congruence. }
  destruct L as [-> Lk]. apply (mapM_rel (kinds c) (fun k => col_rel c (dim_kind k))); [exact Lk|].
  intros j q k Hq Hk. cbn [plus]. eapply tcolumn_rel; eauto.
Qed.
Lemma arr_cart v c x X : arr_rel c x X -> rres (rpos ru False) (gcart_of_array v x) (gcart_of_array v X).
Proof.
  intros (p & P & R & C & K & -> & ->). destruct P; destruct K as [K|[K|K]]; rewrite K in C; try discriminate C; destruct p; cbn [rpos] in R; try contradiction;
  cbn [components]; unfold gcart_of_array; destruct (vdim v) as [|[|[|[|]]]]; try reflexivity; apply Rel.rr_ret; exact R.
Qed.
Notation uq_ := (gvel_represent_as_q m deg fuel (ujacobian deg fuel) umatvec).
Notation sq_ := (gvel_represent_as_q m deg fuel (jacobian deg fuel) matvec).
Lemma velq_rel v V c x X : vrel v V -> arr_rel c x X ->
  rres (fun p P => vrel p P /\ vc P = vcart_cls (vc V) /\ dim_of c = vdim (vc V)) (uq_ v (vcart_cls (vc v)) x) (sq_ V (vcart_cls (vc V)) X).
Proof.
  intros RV A. pose proof (proj1 RV) as E. rewrite E. unfold gvel_represent_as_q. rewrite E.
  destruct (negb (Nat.eqb (vdim (vc V)) (vdim (vcart_cls (vc V))))); [reflexivity|].
  assert (DL : forall w P, gcart_of_array (vc V) X = Ok w P -> dim_of c = vdim (vc V)).
  { intros w P EP. destruct A as (p0 & P0 & R0 & C0 & K0 & _ & EX). subst c X. unfold gcart_of_array in EP.
    destruct P0; destruct K0 as [K0|[K0|K0]]; try discriminate K0; cbn [components] in EP; destruct (vdim (vc V)) as [|[|[|[|]]]]; try discriminate EP; reflexivity. }
  assert (G : rres (fun p P => vrel p P /\ vc P = vcart_cls (vc V) /\ dim_of c = vdim (vc V)) (do p <- gcart_of_array (vc V) x; pvel_generic m deg fuel (ujacobian deg fuel) umatvec nokw v (vcart_cls (vc V)) p)
     (do p <- gcart_of_array (vc V) X; pvel_generic m deg fuel (jacobian deg fuel) matvec nokw V (vcart_cls (vc V)) p)).
  { eapply (rr_bind' (rpos ru False)). { eapply arr_cart; eauto. } intros w p P EP RP_.
    pose proof (generic_rel m deg fuel nokw nokw v V (vcart_cls (vc V)) p P nokw_rel RV RP_) as GG.
    destruct (pvel_generic m deg fuel (ujacobian deg fuel) umatvec nokw v (vcart_cls (vc V)) p), (pvel_generic m deg fuel (jacobian deg fuel) matvec nokw V (vcart_cls (vc V)) P) eqn:EG; cbn [rres] in *; auto.
    destruct GG as [-> GG]. split; [reflexivity|]. split; [exact GG|]. split; [eapply generic_vc; eauto|eauto]. }
  destruct (vc V) eqn:EV; cbn [vcart_cls] in *; try exact G. clear G.
  eapply (rr_bind' (rpos ru False)). { eapply arr_cart; eauto. } intros w p P EP RP_.
  eapply (Rel.rr_bind (fun a b => vrel a b /\ vc b = WLonLat)). { apply lcl_rel; auto. }
  change (vcart_cls WLonCosLat) with WCart3.   intros v' V' [R' E']. pose proof (vel_rel m deg fuel nokw nokw v' V' WCart3 p P nokw_rel R' RP_) as GG. rewrite vel_represent_as_is_poly in GG. unfold uvel_represent_as in GG.
  destruct (pvel_represent_as m deg fuel (ujacobian deg fuel) umatvec nokw v' WCart3 p), (pvel_represent_as m deg fuel (jacobian deg fuel) matvec nokw V' WCart3 P) eqn:EG; cbn [rres] in *; auto.
  destruct GG as [-> GG]. split; [reflexivity|]. split; [exact GG|]. split; [|eauto].
  unfold pvel_represent_as in EG. rewrite E' in EG. cbn in EG. eapply generic_vc; eauto.
Qed.
Lemma icart c : integral_cls (vcart_cls c) = CCart1 \/ integral_cls (vcart_cls c) = CCart2 \/ integral_cls (vcart_cls c) = CCart3.
Proof. destruct c; cbn; auto. Qed.
Lemma vdim_cart c : dim_of (integral_cls (vcart_cls c)) = vdim c.
Proof. destruct c; reflexivity. Qed.
Lemma cart_dim c d : cart_class c -> cart_class d -> dim_of c = dim_of d -> c = d.
Proof. intros [->|[->| ->]] [->|[->| ->]]; cbn; congruence. Qed.

(** *** Values *)
Notation utr := (gtranslate_vel m deg fuel (ujacobian deg fuel) umatvec (utjac m deg fuel) ustack).
Notation str := (gtranslate_vel m deg fuel (jacobian deg fuel) matvec (translation_jacobian m deg fuel) (fun x => x)).
Lemma ok_inv {T} w w' (x y : T) : Ok w x = Ok w' y -> x = y. Proof. intros E. now injection E. Qed.
(** the unit of a translated Cartesian velocity *)
Lemma translated_units tr q Q v V w q' v' : rpos ru False q Q -> vrel v V -> dim_of (cls_of q) = 3%nat -> vc v = WCart3 ->
  utr tr q v = Ok w (VPosVel q' v') -> exists a b c, vcomps v = [a; b; c] /\ map uqs (vcomps v') = [uqs a; uqs a; uqs a].
Proof.
  intros RQ [EV CV] D Cv E. destruct v as [vcl l]. cbn [vc vcomps] in *. rewrite Cv in *. rewrite <- EV in CV. cbn [integral_cls] in CV. unfold comps_rel in CV. cbn [kinds all3] in CV.
  destruct l as [|a [|b [|c [|]]]]; destruct (vcomps V) as [|A [|B [|C [|]]]]; try (cbn in CV; tauto). destruct CV as ((Da & Pa & _) & (Db & Pb & _) & (Dc & Pc & _) & _).
  pose proof (comps_r q Q RQ) as RC.
  destruct fuel as [|f]. { unfold gtranslate_vel in E. apply GOpVel.bind_inv in E. destruct E as (? & ? & ? & _ & E). apply GOpVel.bind_inv in E. destruct E as (? & ? & ? & E & _). discriminate E. }
  assert (K : forall A (NA : Num A) m (x y z : A), represent_as m deg (S f) nokw (PCart3 x y z) CCart3 = Ok false (PCart3 x y z)) by (intros; step; reflexivity).
  unfold gtranslate_vel in E.
  apply GOpVel.bind_inv in E. destruct E as (w1 & q1 & w2 & E1 & E).
  apply GOpVel.bind_inv in E. destruct E as (w5 & xx & w6 & E4 & E). rewrite E4 in RC. destruct (cart_components m deg (S f) Q) as [w0 XX|e]; [|contradiction]. destruct RC as [_ RC].
  assert (RX : exists x y z, xx = [x; y; z] /\ 0 < uqs x /\ 0 < uqs y /\ 0 < uqs z).
  { destruct RC as (p0 & P0 & R0 & C0 & K0 & -> & _). rewrite (rpos_cls _ _ _ _ RQ) in D. unfold cart_cls in C0. rewrite D in C0.
    destruct P0; try discriminate C0. destruct p0; cbn [rpos] in R0; try contradiction. destruct R0 as ((_ & ? & _) & (_ & ? & _) & (_ & ? & _)). do 3 eexists. split; [reflexivity|]. auto. }
  destruct RX as (x & y & z & -> & Px & Py & Pz). clear RC.
  set (st := ustack [x; y; z]) in E. cbn [ustack map] in st. cbv zeta in E.
  apply GOpVel.bind_inv in E. destruct E as (w7 & p & w8 & E5 & E).
  assert (Sp : map uqs (vcomps p) = [uqs a; uqs a; uqs a]).
  { subst st. unfold gvel_represent_as_q in E5. cbn [vc vcart_cls vdim integral_cls dim_of Nat.eqb negb gcart_of_array] in E5. unfold ret at 1 in E5. rewrite bind_ok in E5.
    unfold pvel_generic in E5. cbn [vc integral_cls] in E5. rewrite K, bind_ok in E5. cbn [pcast_distance] in E5. unfold ret at 1 in E5. rewrite bind_ok in E5.
    cbn [can_map] in E5. unfold ret at 1 in E5. rewrite bind_ok in E5. unfold ujacobian in E5. cbn [components length seq combine mapM] in E5.
    unfold ujac_column in E5. cbn [fst snd components length useed] in E5. rewrite !K in E5. rewrite !bind_ok in E5. unfold ret in E5. rewrite !bind_ok in E5. apply ok_inv in E5. subst p.
    cbn [vcomps components map umatvec combine]. unfold nmul, nadd. cbn [uqs Num_uq jac_entry utan uto]. repeat f_equal; field; lra. }
  assert (Lp : exists p1 p2 p3, vcomps p = [p1; p2; p3]) by (destruct (vcomps p) as [|? [|? [|? [|]]]]; try discriminate Sp; eauto).
  destruct Lp as (p1 & p2 & p3 & Lp). rewrite Lp in *. cbn [map] in Sp. injection Sp as S1 S2 S3.
  apply GOpVel.bind_inv in E. destruct E as (w9 & j & w10 & E6 & E).
  assert (Sj : exists j1 j2 j3 c2 c3, j = [[j1; j2; j3]; c2; c3] /\ uqs j1 = 1 /\ uqs j2 = 1 /\ uqs j3 = 1 /\ length c2 = 3%nat /\ length c3 = 3%nat).
  { subst st. rewrite utjac_3d in E6 by reflexivity. unfold utjac0 in E6. cbn [length seq combine mapM] in E6.
    apply GOpVel.bind_inv in E6. destruct E6 as (wa & c1 & wb & Ea & E6). apply GOpVel.bind_inv in E6. destruct E6 as (wc & cs & wd & Eb & E6). apply ok_inv in E6. subst j.
    apply GOpVel.bind_inv in Eb. destruct Eb as (we & c2 & wf & Ec & Eb). apply GOpVel.bind_inv in Eb. destruct Eb as (wg & cs' & wh & Ed & Eb). apply ok_inv in Eb. subst cs.
    apply GOpVel.bind_inv in Ed. destruct Ed as (wi & c3 & wj & Ee & Ed). apply GOpVel.bind_inv in Ed. destruct Ed as (wk & cs'' & wl & Ef & Ed). apply ok_inv in Ef, Ed. subst cs'' cs'.
    assert (COL : forall i q0 col wz, utcolumn0 m deg (S f) tr [uto (uqs x) x; uto (uqs x) y; uto (uqs x) z] (i, q0) = Ok wz col -> uqs q0 = uqs x ->
       exists j1 j2 j3, col = [j1; j2; j3] /\ uqs j1 = 1 /\ uqs j2 = 1 /\ uqs j3 = 1).
    { intros i q0 col wz EC EQ. unfold utcolumn0 in EC. cbn [fst snd ucart nth useed] in EC. apply GOpVel.bind_inv in EC. destruct EC as (? & bb & ? & _ & EC).
      apply GOpVel.bind_inv in EC. destruct EC as (? & yy & ? & EY & EC). apply ok_inv in EC. subst col. cbn [pos_add cart_add] in EY.
      apply GOpVel.bind_inv in EY. destruct EY as (? & tt' & ? & _ & EY). destruct tt' as [| | | | |u1 u2 u3| | | | |]; try discriminate EY. apply ok_inv in EY. subst yy.
      cbn [components map]. do 3 eexists. split; [reflexivity|]. unfold nadd. cbn [uqs Num_uq jac_entry utan uto]. rewrite EQ. repeat split; field; lra. }
    destruct (COL _ _ _ _ Ea eq_refl) as (j1 & j2 & j3 & -> & ? & ? & ?). destruct (COL _ _ _ _ Ec eq_refl) as (? & ? & ? & -> & _). destruct (COL _ _ _ _ Ee eq_refl) as (? & ? & ? & -> & _).
    do 5 eexists. split; [reflexivity|]. repeat split; auto. }
  destruct Sj as (j1 & j2 & j3 & c2 & c3 & -> & J1 & J2 & J3 & L2 & L3). destruct c2 as [|d1 [|d2 [|d3 [|]]]]; try discriminate L2. destruct c3 as [|e1 [|e2 [|e3 [|]]]]; try discriminate L3.
  apply GOpVel.bind_inv in E. destruct E as (w11 & v1 & w12 & E7 & E). cbn [vc vcart_cls] in E7.
  unfold pvel_represent_as in E7. cbn [vc vcls_eqb andb negb] in E7. apply ok_inv in E7. subst v1. apply ok_inv in E. injection E as <- <-.
  exists a, b, c. split; [reflexivity|].
  cbn [vcomps ustack map umatvec combine]. unfold nmul, nadd. cbn [uqs Num_uq uto]. rewrite J1, J2, J3, S1, !Rmult_1_l. reflexivity.
Qed.

(** [bx]: the ValueError of unequal units is possible.  It is not in space if every
    velocity boost and the velocity use one unit [us], or if there is no velocity boost
    ([nb]). *)
Variables (bx nb : Prop) (us : R).
Definition speeds_in (v : vel (uq ext)) : Prop := Forall (fun x => uqs x = us) (vcomps v).
Definition cartv (c : vcls) : Prop := c = WCart1 \/ c = WCart2 \/ c = WCart3.
Definition calm (v : vel (uq ext)) : Prop := bx \/ nb \/ (cartv (vc v) -> speeds_in v).
Definition calm_pos (q : pos (uq ext)) : Prop := bx \/ dim_of (cls_of q) = 3%nat.
Definition vvrel (x : value (uq ext)) (X : value ext) : Prop :=
  match x, X with
  | VVel v, VVel V => vrel v V /\ calm v
  | VPosVel q v, VPosVel Q V => (rpos ru False q Q /\ calm_pos q) /\ vrel v V /\ calm v
  | _, _ => False
  end.
Lemma addB tr TR q Q : rpos ru False tr TR -> rpos ru False q Q -> calm_pos q ->
  agreeB bx (fun p P => rpos ru False p P /\ calm_pos p) (tpos_add m deg fuel q tr) (tpos_add m deg fuel Q TR).
Proof.
  intros RT RQ D. apply same_rpos in RT, RQ. destruct (u_add m deg fuel bx q Q tr TR RQ RT D) as [A|A]; [left|now right].
  unfold agree in *. destruct (tpos_add m deg fuel q tr), (tpos_add m deg fuel Q TR); auto. destruct A as [-> [A A']]. split; [reflexivity|]. split; [now apply same_rpos|exact A'].
Qed.
Lemma weakB {T U} (R : T -> U -> Prop) r r0 r' : (r = r0 \/ (bx /\ r = Raise EValue)) -> rres R r0 r' -> agreeB bx R r r'.
Proof. intros [->|H] A; [now left|now right]. Qed.
Lemma pvel_cls {A} {NA : Num A} jac mv (v : vel A) t p w q : pvel_represent_as m deg fuel jac mv nokw v t p = Ok w q -> vc q = t.
Proof.
  assert (G : forall kw v t p w q, pvel_generic m deg fuel jac mv kw v t p = Ok w q -> vc q = t).
  { intros kw v0 t0 p0 w0 q0 E. unfold pvel_generic in E. repeat (apply GOpVel.bind_inv in E; destruct E as (? & ? & ? & _ & E)). apply ok_inv in E. now subst. }
  assert (G1 : forall v p w q, plcl_to_lonlat m deg fuel v p = Ok w q -> vc q = WLonLat).
  { intros v0 p0 w0 q0 E. unfold plcl_to_lonlat in E. repeat (apply GOpVel.bind_inv in E; destruct E as (? & ? & ? & _ & E)).
    repeat match type of E with context [match ?x with _ => _ end] => destruct x; try discriminate E end.
    repeat (apply GOpVel.bind_inv in E; destruct E as (? & ? & ? & _ & E)). apply ok_inv in E. now subst. }
  assert (G2 : forall v p w q, plonlat_to_lcl m deg fuel v p = Ok w q -> vc q = WLonCosLat).
  { intros v0 p0 w0 q0 E. unfold plonlat_to_lcl in E. repeat (apply GOpVel.bind_inv in E; destruct E as (? & ? & ? & _ & E)).
    repeat match type of E with context [match ?x with _ => _ end] => destruct x; try discriminate E end.
    repeat (apply GOpVel.bind_inv in E; destruct E as (? & ? & ? & _ & E)). apply ok_inv in E. now subst. }
  unfold pvel_represent_as. destruct (vcls_eqb (vc v) t && negb (vcls_eqb t WTwoSphere)) eqn:EQ.
  - apply andb_true_iff in EQ. destruct EQ as [EQ _]. intros E. apply ok_inv in E. subst q. destruct (vc v), t; try discriminate EQ; reflexivity.
  - destruct (negb (Nat.eqb (vdim (vc v)) (vdim t))); [discriminate|]. intros E.
    destruct (vc v), t; try (now apply G in E); try (now apply G1 in E); try (now apply G2 in E);
    (apply GOpVel.bind_inv in E; destruct E as (? & ? & ? & _ & E)); first [now apply G in E|now apply G2 in E].
Qed.
Lemma translate_rel tr TR q Q v V : rpos ru False tr TR -> rpos ru False q Q -> calm_pos q -> vrel v V -> calm v -> agreeB bx vvrel (utr tr q v) (str TR Q V).
Proof.
  intros RT RQ DQ RV CV0.
  assert (X : agreeB bx (fun x X => match x, X with VPosVel q' v', VPosVel Q' V' => (rpos ru False q' Q' /\ calm_pos q') /\ vrel v' V' /\ vc v' = vc v /\ vdim (vc v) = dim_of (cls_of q) | _, _ => False end) (utr tr q v) (str TR Q V)).
  { unfold gtranslate_vel. eapply agB_bind. { apply (addB tr TR q Q RT RQ DQ). } intros q' Q' [RQ' DQ'].
    eapply agB_bind. { left. now apply comps_r. } intros x X A. apply stack_rel in A. set (c := cart_cls (cls_of Q)) in *.
    eapply agB_bind. { left. apply velq_rel; eauto. } intros p P (Rp & Ep & D).
    assert (L : length (ustack x) = dim_of c /\ length X = dim_of c).
    { destruct A as (p0 & P0 & R0 & C0 & _ & -> & ->). destruct (rpos_comps _ _ _ R0) as [_ CC]. rewrite C0 in CC. destruct (all3_len _ _ _ _ CC) as [L1 L2]. rewrite kinds_len in *. auto. }
    assert (Dc : dim_of c = dim_of (cls_of q)). { subst c. rewrite (rpos_cls _ _ _ _ RQ). destruct (cls_of Q); reflexivity. }
    eapply agB_bind. { apply (weakB _ _ (utjac0 m deg fuel tr (ustack x))); [|apply tjac_rel; eauto].
      destruct DQ as [B|D3]; [|left; apply utjac_3d; rewrite (proj1 L); congruence]. destruct (utjac_weak m deg fuel tr (ustack x)); auto. }
    intros j J RJ.
    assert (Kc : cart_class c) by apply cart_of.
    assert (EC : c = integral_cls (vcart_cls (vc V))). { apply cart_dim; auto. apply icart. now rewrite vdim_cart. }
    destruct L as [-> ->]. destruct RV as [EV CV]. rewrite EV.
    pose proof (vel_rel m deg fuel nokw nokw (mkVel (vcart_cls (vc V)) (umatvec (dim_of c) j (ustack (vcomps p)))) (mkVel (vcart_cls (vc V)) (matvec (dim_of c) J (vcomps P))) (vc V) q' Q' nokw_rel) as VR.
    rewrite vel_represent_as_is_poly in VR. unfold uvel_represent_as in VR.
    eapply (agB_bind bx (fun v' V' => vrel v' V' /\ vc v' = vc V)).
    { left. assert (VR' : rres vrel (pvel_represent_as m deg fuel (ujacobian deg fuel) umatvec nokw (mkVel (vcart_cls (vc V)) (umatvec (dim_of c) j (ustack (vcomps p)))) (vc V) q')
          (pvel_represent_as m deg fuel (jacobian deg fuel) matvec nokw (mkVel (vcart_cls (vc V)) (matvec (dim_of c) J (vcomps P))) (vc V) Q')).
      { apply VR; [|exact RQ']. split; [reflexivity|]. cbn [vc vcomps]. rewrite <- EC.
        apply (matvec_rel 1 c (kinds c)); [apply nonempty_kinds|exact RJ|]. apply speeds_stack; [|exact Kc]. destruct Rp as [_ Rp]. rewrite Ep, <- EC in Rp. exact Rp. }
      unfold agree. unfold rres in VR'.
      match goal with |- match ?a with _ => _ end => destruct a as [w1 v1|e1] eqn:E1 end; match goal with |- match ?a with _ => _ end => destruct a as [w2 v2|e2] end; auto.
      destruct VR' as [-> VR']. split; [reflexivity|]. split; [exact VR'|]. now apply pvel_cls in E1. }
    intros v' V' [RV' EV']. apply agB_ret. split; [split; assumption|]. split; [assumption|]. split; [congruence|]. congruence. }
  destruct X as [X|X]; [left|now right]. pose proof (fun w q' v' => translated_units tr q Q v V w q' v' RQ RV) as TU.
  unfold agree in *. destruct (utr tr q v) as [w y|e], (str TR Q V) as [w' Y|e']; auto. destruct X as [-> X]. split; [reflexivity|].
  destruct y as [| | |q' v'| | |]; try contradiction. destruct Y as [| | |Q' V'| | |]; try contradiction. destruct X as (X1 & X2 & X3 & X4). split; [exact X1|]. split; [exact X2|].
  destruct CV0 as [B|[B|CV0]]; [now left|right; now left|]. destruct DQ as [B|DQ]; [now left|]. right; right. intros Kv. rewrite X3 in Kv. specialize (CV0 Kv).
  assert (W3 : vc v = WCart3). { destruct Kv as [Kv|[Kv|Kv]]; auto; rewrite Kv in X4; cbn in X4; congruence. }
  destruct (TU w' q' v' DQ W3 eq_refl) as (a & b & c & Ev & Eu). unfold speeds_in in *. rewrite Ev in CV0. apply Forall_cons_iff in CV0. destruct CV0 as [Ea _]. rewrite Ea in Eu.
  destruct (vcomps v') as [|x1 [|x2 [|x3 [|]]]]; try discriminate Eu. injection Eu as U1 U2 U3. repeat constructor; assumption.
Qed.
Lemma vel_add_rel v V w W : vrel v V -> vrel w W -> calm v -> bx \/ (~ nb /\ speeds_in w) -> agreeB bx (fun x X => vrel x X /\ calm x) (tvel_add v w) (tvel_add V W).
Proof.
  intros [E C] [E' C'] CV CW. rewrite tvel_eq. unfold tvel_add, vel_add. rewrite E, E'.
  assert (G : forall c, cartv c -> vc V = c -> vc W = c ->
    agreeB bx (fun x X => vrel x X /\ calm x) (if forallb (fun '(x, y) => same_unit x y) (combine (vcomps v) (vcomps w)) then ret (mkVel c (map (fun '(x, y) => nadd x y) (combine (vcomps v) (vcomps w)))) else Raise EValue)
      (ret (mkVel c (vplus (vcomps V) (vcomps W))))).
  { intros c Kc EV EW. rewrite EV, EW in *.
    assert (R : vrel (mkVel c (map (fun '(x, y) => nadd x y) (combine (vcomps v) (vcomps w)))) (mkVel c (vplus (vcomps V) (vcomps W)))).
    { split; [reflexivity|]. cbn [vc vcomps]. now apply sum_cols. }
    destruct CW as [B|[NB CW]].
    { destruct (forallb _ _); [|now right]. apply agB_ret. split; [exact R|now left]. }
    destruct CV as [B|[B|CV]]; [|contradiction|].
    { destruct (forallb _ _); [|now right]. apply agB_ret. split; [exact R|now left]. }
    rewrite E in CV. specialize (CV Kc). unfold speeds_in in *.
    assert (F : forallb (fun '(x, y) => same_unit x y) (combine (vcomps v) (vcomps w)) = true /\ Forall (fun x => uqs x = us) (map (fun '(x, y) => nadd x y) (combine (vcomps v) (vcomps w)))).
    { clear -C C' CV CW. revert C C' CV CW. unfold comps_rel. generalize (vcomps v) (vcomps w) (vcomps V) (vcomps W). generalize (kinds (integral_cls c)).
      intros ks. induction ks as [|k ks IH]; intros [|x u] [|y u'] [|X U] [|Y U'] A A' F F'; cbn [all3] in A, A'; try contradiction; [split; [reflexivity|constructor]|].
      destruct A as [(D & _ & _) A], A' as [(D' & _ & _) A']. apply Forall_cons_iff in F, F'. destruct F as [F1 F], F' as [F1' F']. destruct (IH u u' U U' A A' F F') as [I1 I2].
      cbn [combine forallb map]. split.
      - rewrite I1, andb_true_r. cbn [same_unit Static_uq]. rewrite D, D'. cbn [udim_eqb]. apply andb_true_iff. split; [now apply UnitsThm.dim_eqb_true|]. apply Reqb_true. congruence.
      - constructor; [|exact I2]. unfold nadd. cbn [uqs Num_uq]. exact F1. }
    destruct F as [-> F]. apply agB_ret. split; [exact R|]. right; right. intros _. exact F. }
  destruct (vc V) eqn:EV; try apply agB_raise; destruct (vc W) eqn:EW; try apply agB_raise; (apply G; unfold cartv; auto).
Qed.
Inductive voprel : op (uq ext) -> op ext -> Prop :=
| vo_id : voprel OIdentity OIdentity
| vo_sp q Q : rpos ru False q Q -> voprel (OSpatial q) (OSpatial Q)
| vo_tr v V : voprel (OTranslation v) (OTranslation V)
| vo_rot M N : voprel (ORotation M) (ORotation N)
| vo_boost v V : voprel (OBoost v) (OBoost V)
| vo_vb v V : vrel v V /\ (bx \/ (~ nb /\ speeds_in v)) -> voprel (OVelBoost v) (OVelBoost V)
| vo_pipe l L : Forall2 voprel l L -> voprel (OPipe l) (OPipe L)
| vo_gal M T v N T' V : voprel (OGalilean M T v) (OGalilean N T' V).
Notation ucv := (gcallv_vec m deg fuel (ujacobian deg fuel) umatvec (utjac m deg fuel) ustack).
Notation scv := (gcallv_vec m deg fuel (jacobian deg fuel) matvec (translation_jacobian m deg fuel) (fun x => x)).
Notation scall := (gcallv m deg fuel (jacobian deg fuel) matvec (translation_jacobian m deg fuel) (fun x => x)).
Lemma callv_vec_rel o O x X : voprel o O -> vvrel x X -> agreeB bx vvrel (ucv o x) (scv O X).
Proof.
  intros RO RX. destruct RO as [|q1 Q1 H1|v1 V1|M N|v1 V1|v1 V1 [H1 H2]|l L H1|M T v1 N T' V1]; destruct x, X; cbn [vvrel] in RX; try contradiction; cbn [gcallv_vec]; try apply agB_raise; try (apply agB_ret; exact RX).
  - apply translate_rel; tauto.
  - eapply agB_bind; [apply vel_add_rel; [apply RX|exact H1|apply RX|exact H2]|]. intros a b R. apply agB_ret. split; [apply RX|exact R].
  - eapply agB_bind; [apply vel_add_rel; [apply RX|exact H1|apply RX|exact H2]|]. intros a b R. apply agB_ret. exact R.
Qed.
Fixpoint vloop {A} (call : op A -> value A -> res (value A)) (ops : list (op A)) (x : value A) : res (value A) :=
  match ops with [] => ret x | o :: ops => do y <- call o x; vloop call ops y end.
Lemma pipe_vloop {A} {NA : Num A} {SA : Static A} jac mv tjac (st : list A -> list A) ops q v :
  gcallv m deg fuel jac mv tjac st (OPipe ops) (VPosVel q v) = vloop (gcallv m deg fuel jac mv tjac st) ops (VPosVel q v).
Proof.
  cbn [gcallv]. generalize (VPosVel q v). induction ops as [|o ops IH]; intros x; cbn [vloop]; auto. apply bind_ext. auto.
Qed.
Fixpoint voprel_ind' (P : op (uq ext) -> op ext -> Prop)
  (H : forall o O, parts o = None -> voprel o O -> P o O)
  (HP : forall l L, Forall2 P l L -> P (OPipe l) (OPipe L))
  (HG : forall M T v N T' V, P (OGalilean M T v) (OGalilean N T' V)) o O (r : voprel o O) {struct r} : P o O :=
  match r in voprel o O return P o O with
  | vo_id => H OIdentity OIdentity eq_refl vo_id
  | vo_sp q Q x => H (OSpatial q) (OSpatial Q) eq_refl (vo_sp q Q x)
  | vo_tr v V => H (OTranslation v) (OTranslation V) eq_refl (vo_tr v V)
  | vo_rot M N => H (ORotation M) (ORotation N) eq_refl (vo_rot M N)
  | vo_boost v V => H (OBoost v) (OBoost V) eq_refl (vo_boost v V)
  | vo_vb v V x => H (OVelBoost v) (OVelBoost V) eq_refl (vo_vb v V x)
  | vo_pipe l L f => HP l L ((fix go l L (f : Forall2 voprel l L) : Forall2 P l L :=
      match f in Forall2 _ a b return Forall2 P a b with @Forall2_nil _ _ _ => @Forall2_nil _ _ P | @Forall2_cons _ _ _ x y l l' r F => @Forall2_cons _ _ P x y l l' (voprel_ind' P H HP HG _ _ r) (go _ _ F) end) l L f)
  | vo_gal M T v N T' V => HG M T v N T' V
  end.
Lemma callv_rel o O : voprel o O -> forall x X, vvrel x X -> agreeB bx vvrel (ucallv m deg fuel o x) (scall O X).
Proof.
  unfold ucallv. intros RO. induction RO as [o O Pn RO|l L F|M T v N T' V] using voprel_ind'; intros x X RX.
  - pose proof (callv_vec_rel o O x X RO RX) as K. destruct RO; cbn in Pn; try discriminate; exact K.
  - destruct x as [| | |q v|v| |], X as [| | |Q V|V| |]; cbn [vvrel] in RX; try contradiction.
    + rewrite !pipe_vloop. assert (RX' : vvrel (VPosVel q v) (VPosVel Q V)) by exact RX. revert RX'. generalize (VPosVel q v) (VPosVel Q V). clear RX q v Q V.
      induction F as [|o O l L Ho F IH]; intros x X RX; cbn [vloop]; [now apply agB_ret|].
      eapply agB_bind; [now apply Ho|]. intros y Y RY. now apply IH.
    + cbn [gcallv]. destruct F as [|o O l L Ho F]; [apply agB_raise|].
      assert (K : vvrel (VVel v) (VVel V)) by exact RX. specialize (Ho _ _ K).
      destruct F; [exact Ho|]. eapply agB_bind; [exact Ho|]. intros. apply agB_raise.
  - destruct x, X; cbn [vvrel] in RX; try contradiction; apply agB_raise.
Qed.
End S.
