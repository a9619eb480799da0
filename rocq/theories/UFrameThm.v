(** * The frame operators on numbers that carry units simulate those on SI numbers. *)
From Coq Require Import Reals Bool List ZArith Lra Lia.
From Verif Require Import Num Vectors Spec Transform Pos3D Pos3DThm RoundTrip Dispatch Vel Units UQ Scale Rel UQThm UVel UVelThm Arith RelArith FourVec Operators SpecOp GOp GOpThm PropUQ PropUVel PropUnitArith UOpThm GFrame.
From Verif Require Frames.
Import ListNotations.
Import Frames(gcf, mkGCF, g_lon, g_lat, g_dist, g_roll, g_zsun, g_vsun, fop, fvalue, FIdentity, FToGCF, FToICRS, FPipe, FPos, FPosVel, FArr, FArrs, easin, roll0).
Open Scope R_scope.

(** ** The model on unit-carrying numbers *)
(** [u.Quantity(jnp.asin(u.ustrip("", z_d)), "rad")]: frame_transforms.py:99-100 *)
Definition uasin (q : uq ext) : uq ext := mkUq (easin (uphys q)) (arg_dim one_d_ angle_d (uqd q)) 1.
(** 58.5986320306 deg: galactocentric.py:79 *)
Definition uroll0 : uq ext := mkUq (Some (585986320306 / 10000000000) : ext) (Some angle_d) (PI / 180).
(** Column [i] of [u.experimental.jacfwd(self._call_q, units=(q.unit,))(q)]: the
    derivative of the stored numbers, in the unit of the result over the unit of [q]:
    frame_transforms.py:255, 487 *)
Definition ucolumn m deg fuel (ps : gparts (A := uq ext)) (x : list (uq ext)) (i : nat) : res (list (uq ext)) :=
  let '(M, offset, _) := ps in
  let s := map (fun j => utan (nth j x (ncst 0)) (Some (if Nat.eqb i j then 1 else 0))) (seq 0 3) in
  match map (fun r => gdot (map uconst r) s) M with
  | [a; b; c] =>
      do o <- represent_as m deg fuel nokw offset CCart3;
      do y <- pos_add Traced deg fuel (PCart3 a b c) (pos_map uconst o);
      ret (map (fun row => jac_entry row (nth i x (ncst 0))) (components y))
  | _ => Raise EValue
  end.
Definition ujac m deg fuel (ps : gparts (A := uq ext)) (x : list (uq ext)) : res (list (list (uq ext))) :=
  mapM (ucolumn m deg fuel ps x) (seq 0 3).
(** [op(...)] *)
Definition ufcall m deg fuel : fop (uq ext) -> fvalue (uq ext) -> res (fvalue (uq ext)) :=
  gfcall m deg fuel uasin uroll0 (ujac m deg fuel) umatvec (uvel_represent_as m deg fuel nokw).

(** ** Matrices, for any relation between number types that respects the operations *)
Lemma add_cls {A} {NA : Num A} m deg f (p q : pos A) w s : cls_of p = CCart3 -> pos_add m deg f p q = Ok w s -> cls_of s = CCart3.
Proof.
  intros C. destruct p; try discriminate C. cbn [pos_add cart_add]. destruct (rep m deg f q CCart3) as [w1 c|e]; cbn [bind]; [|discriminate].
  destruct c; try discriminate. unfold ret; cbn [bind]. intros E. injection E as _ <-. reflexivity.
Qed.
Section Gen.
Context {A B : Type} {NA : Num A} {NB : Num B}.
Variable rel : kind -> A -> B -> Prop.
Hypothesis H : preserved rel.
Definition rmat (M : mat A) (N : mat B) : Prop :=
  length M = 3%nat /\ Forall2 (fun r s => length r = 3%nat /\ Forall2 (rel (Len 0)) r s) M N.
Lemma F2len {S T} (P : S -> T -> Prop) a b : Forall2 P a b -> length a = length b.
Proof. induction 1; cbn; auto. Qed.
Lemma r_gdot a r s x X : length r = 3%nat -> Forall2 (rel (Len 0)) r s -> length x = 3%nat -> Forall2 (rel (Len a)) x X ->
  rel (Len a) (gdot r x) (gdot s X).
Proof.
  intros L F L' F'. destruct r as [|r1 [|r2 [|r3 [|]]]]; try discriminate. destruct x as [|x1 [|x2 [|x3 [|]]]]; try discriminate.
  repeat match goal with Y : Forall2 _ (_ :: _) _ |- _ => inversion Y; clear Y; subst | Y : Forall2 _ [] _ |- _ => inversion Y; clear Y; subst end.
  unfold gdot. cbn [combine map sum_list fold_left].
  repeat apply (r_add _ H); (apply (r_mul _ H) with (a := 0%Z) (b := a); [assumption|assumption|reflexivity]).
Qed.
Lemma rmat_intro a b c d e f g h i a' b' c' d' e' f' g' h' i' : rel (Len 0) a a' -> rel (Len 0) b b' -> rel (Len 0) c c' ->
  rel (Len 0) d d' -> rel (Len 0) e e' -> rel (Len 0) f f' -> rel (Len 0) g g' -> rel (Len 0) h h' -> rel (Len 0) i i' ->
  rmat [[a; b; c]; [d; e; f]; [g; h; i]] [[a'; b'; c']; [d'; e'; f']; [g'; h'; i']].
Proof. intros. split; [reflexivity|]. repeat (constructor; [split; [reflexivity|]; repeat (constructor; auto)|]). constructor. Qed.
Lemma rmat_elim M N : rmat M N -> exists a b c d e f g h i a' b' c' d' e' f' g' h' i',
  M = [[a; b; c]; [d; e; f]; [g; h; i]] /\ N = [[a'; b'; c']; [d'; e'; f']; [g'; h'; i']] /\
  (rel (Len 0) a a' /\ rel (Len 0) b b' /\ rel (Len 0) c c') /\ (rel (Len 0) d d' /\ rel (Len 0) e e' /\ rel (Len 0) f f') /\
  (rel (Len 0) g g' /\ rel (Len 0) h h' /\ rel (Len 0) i i').
Proof.
  intros [L F]. destruct M as [|r1 [|r2 [|r3 [|]]]]; try discriminate. inversion F as [|? s1 ? ? [L1 F1] Fa]; subst. inversion Fa as [|? s2 ? ? [L2 F2] Fb]; subst. inversion Fb as [|? s3 ? ? [L3 F3] Fc]; subst. inversion Fc; subst.
  destruct r1 as [|? [|? [|? [|]]]]; try discriminate. destruct r2 as [|? [|? [|? [|]]]]; try discriminate. destruct r3 as [|? [|? [|? [|]]]]; try discriminate.
  repeat match goal with Y : Forall2 _ (_ :: _) _ |- _ => inversion Y; clear Y; subst | Y : Forall2 _ [] _ |- _ => inversion Y; clear Y; subst end.
  do 18 eexists. split; [reflexivity|]. split; [reflexivity|]. tauto.
Qed.
Lemma r_transpose M N : rmat M N -> rmat (gtranspose M) (gtranspose N).
Proof.
  intros R. apply rmat_elim in R. destruct R as (a & b & c & d & e & f & g & h & i & a' & b' & c' & d' & e' & f' & g' & h' & i' & -> & -> & (?&?&?) & (?&?&?) & ?&?&?).
  apply rmat_intro; assumption.
Qed.
Lemma r_matmul_vec a M N x X : rmat M N -> length x = 3%nat -> Forall2 (rel (Len a)) x X ->
  length (gmatmul_vec M x) = 3%nat /\ Forall2 (rel (Len a)) (gmatmul_vec M x) (gmatmul_vec N X).
Proof.
  intros [L F] Lx Fx. unfold gmatmul_vec. rewrite map_length. split; auto. clear L. induction F as [|r s M N [L R] F IH]; cbn [map]; constructor; auto. apply r_gdot; auto.
Qed.
Lemma r_matmul M N P Q : rmat M N -> rmat P Q -> rmat (gmatmul M P) (gmatmul N Q).
Proof.
  intros [L F] R. apply r_transpose in R. unfold gmatmul. split; [now rewrite map_length|]. clear L. induction F as [|r s M N [L Rr] F IH]; cbn [map]; constructor; auto.
  destruct R as [LP FP]. split; [now rewrite map_length|]. clear - H L Rr FP. induction FP as [|x y ? ? [Lx Fx] FP IH]; cbn [map]; constructor; auto. apply r_gdot; auto.
Qed.
Lemma r_matneg M N : rmat M N -> rmat (map (map nneg) M) (map (map nneg) N).
Proof.
  intros R. apply rmat_elim in R. destruct R as (a & b & c & d & e & f & g & h & i & a' & b' & c' & d' & e' & f' & g' & h' & i' & -> & -> & (?&?&?) & (?&?&?) & ?&?&?).
  apply rmat_intro; now apply (r_neg _ H).
Qed.
Lemma r_ex a a' : rel Ang a a' -> rmat (geuler_x a) (geuler_x a').
Proof. intros. apply rmat_intro; try apply (r_num _ H); try apply (r_neg _ H); try (now apply (r_cos _ H)); now apply (r_sin _ H). Qed.
Lemma r_ey a a' : rel Ang a a' -> rmat (geuler_y a) (geuler_y a').
Proof. intros. apply rmat_intro; try apply (r_num _ H); try apply (r_neg _ H); try (now apply (r_cos _ H)); now apply (r_sin _ H). Qed.
Lemma r_ez a a' : rel Ang a a' -> rmat (geuler_z a) (geuler_z a').
Proof. intros. apply rmat_intro; try apply (r_num _ H); try apply (r_neg _ H); try (now apply (r_cos _ H)); now apply (r_sin _ H). Qed.
Variable strict : Prop.
Notation rp := (rpos rel strict).
Lemma r_cart_from x X : length x = 3%nat -> Forall2 (rel (Len 1)) x X -> rres rp (gcart_from x) (gcart_from X).
Proof.
  intros L F. destruct x as [|x1 [|x2 [|x3 [|]]]]; try discriminate.
  repeat match goal with Y : Forall2 _ (_ :: _) _ |- _ => inversion Y; clear Y; subst | Y : Forall2 _ [] _ |- _ => inversion Y; clear Y; subst end.
  cbn. auto.
Qed.
Lemma r_comps m deg f q Q : rp q Q -> dim_of (cls_of Q) = 3%nat -> rres (fun x X => length x = 3%nat /\ Forall2 (rel (Len 1)) x X) (cart_components m deg f q) (cart_components m deg f Q).
Proof.
  intros R D. unfold cart_components, rep. rewrite (rpos_cls _ _ _ _ R).
  eapply (rr_bind' rp). { apply (represent_as_rel _ _ H); [apply (r_nokw rel)|exact R]. }
  intros w x X E S. apply rep_class in E. destruct E as [E _]. assert (C : cart_cls (cls_of Q) = CCart3) by (destruct Q; try discriminate D; reflexivity).
  rewrite C in E. destruct X; try discriminate E. destruct x; cbn [rpos] in S; try contradiction. cbn. split; auto. split; auto. destruct S as (?&?&?). auto.
Qed.
(** the two frame-dependent constants *)
Variables (asn : A -> A) (asn' : B -> B) (r0 : A) (r0' : B).
Hypothesis Hasn : forall x X, rel (Len 0) x X -> rel Ang (asn x) (asn' X).
Hypothesis Hr0 : rel Ang r0 r0'.
Definition rgcf (g : gcf A) (g' : gcf B) : Prop :=
  rel Ang (g_lon g) (g_lon g') /\ rel Ang (g_lat g) (g_lat g') /\ rdist rel False (g_dist g) (g_dist g') /\
  rel Ang (g_roll g) (g_roll g') /\ rel (Len 1) (g_zsun g) (g_zsun g').
Lemma r_to_gcf g g' : rgcf g g' ->
  rres (fun p p' => rmat (fst (fst p)) (fst (fst p')) /\ rp (snd (fst p)) (snd (fst p')) /\ snd p = g_vsun g /\ snd p' = g_vsun g')
    (gto_gcf_parts asn r0 g) (gto_gcf_parts asn' r0' g').
Proof.
  intros (Lo & La & (K & _ & D) & Ro & Z). unfold gto_gcf_parts. rewrite <- K in *. destruct (dk (g_dist g)); try reflexivity. cbv zeta. cbn [kind_of] in D.
  assert (RH : rmat (geuler_y (asn (ndiv (g_zsun g) (dval (g_dist g))))) (geuler_y (asn' (ndiv (g_zsun g') (dval (g_dist g')))))).
  { apply r_ey, Hasn. eapply (r_div _ H) with (a := 1%Z) (b := 1%Z); auto. }
  eapply Rel.rr_bind.
  { eapply r_cart_from; (eapply r_matmul_vec; [apply r_matneg, RH|reflexivity|repeat (constructor; [apply (r_mul1 _ H); [exact D|apply (r_num _ H)]|]); constructor]). }
  intros o o' Ro'. apply Rel.rr_ret. cbn [fst snd]. split; [|auto].
  apply r_matmul; auto. apply r_matmul; [apply r_matmul|].
  - apply r_ex. now apply (r_sub _ H).
  - now apply r_ey.
  - apply r_ez. now apply (r_neg _ H).
Qed.
Lemma r_grotate m deg f M N q Q : rmat M N -> rp q Q -> rres rp (grotate m deg f M q) (grotate m deg f N Q).
Proof.
  intros RM R. unfold grotate. rewrite (rpos_cls rel strict _ _ R). destruct (dim_of (cls_of Q)) as [|[|[|[|]]]]; try reflexivity.
  eapply (Rel.rr_bind rp). { apply (represent_as_rel _ _ H); [apply (r_nokw rel)|exact R]. }
  intros x X S. destruct x, X; cbn [rpos] in S; try contradiction; try reflexivity. destruct S as (S1 & S2 & S3).
  assert (F : Forall2 (rel (Len 1)) [x; y; z] [x0; y0; z0]) by auto.
  destruct (r_matmul_vec 1 M N [x; y; z] [x0; y0; z0] RM eq_refl F) as [L F']. destruct (gmatmul_vec M [x; y; z]) as [|a [|b [|c [|]]]]; try discriminate.
  repeat match goal with Y : Forall2 _ (_ :: _) _ |- _ => inversion Y; clear Y; subst | Y : Forall2 _ [] _ |- _ => inversion Y; clear Y; subst end.
  apply (represent_as_rel _ _ H); [apply (r_nokw rel)|]. cbn [rpos]. auto.
Qed.
End Gen.

(** ** Units *)
Notation RD := (relu_preserved scal_dual).
Notation ru := (@relu ext Scal_ext).
Notation rud := (@relu dual Scal_dual).
Definition lens (x : list (uq ext)) (X : list ext) : Prop := length x = 3%nat /\ Forall2 (ru (Len 1)) x X.
Definition speeds (p : list (uq ext)) (P : list ext) : Prop := comps_rel 1 CCart3 p P.
Definition prel (p : gparts (A := uq ext)) (P : gparts (A := ext)) : Prop :=
  rmat ru (fst (fst p)) (fst (fst P)) /\ rpos ru False (snd (fst p)) (snd (fst P)) /\ speeds (snd p) (snd P).

Lemma u_asin x X : ru (Len 0) x X -> ru Ang (uasin x) (easin X).
Proof.
  intros (D & P & ->). split; [unfold uasin; cbn [uqd]; rewrite D; reflexivity|]. split; [cbn; lra|].
  unfold uphys at 2. cbn [uasin uqs uqv]. now rewrite (s_one scal_ext).
Qed.
Lemma u_roll0 : ru Ang uroll0 (ncst roll0).
Proof. split; [reflexivity|]. split; [cbn; pose proof PI_RGT_0; lra|]. cbn. unfold roll0. f_equal. ring. Qed.
Lemma speeds3 p P : speeds p P -> exists a b c a' b' c', p = [a; b; c] /\ P = [a'; b'; c'] /\ du (per 1 length_d) a a' /\ du (per 1 length_d) b b' /\ du (per 1 length_d) c c'.
Proof.
  intros S. unfold speeds, comps_rel in S. cbn [kinds] in S. destruct p as [|a [|b [|c [|]]]], P as [|a' [|b' [|c' [|]]]]; cbn [all3] in S; try tauto.
  do 6 eexists. split; [reflexivity|]. split; [reflexivity|]. tauto.
Qed.
Lemma speeds_intro a b c a' b' c' : du (per 1 length_d) a a' -> du (per 1 length_d) b b' -> du (per 1 length_d) c c' -> speeds [a; b; c] [a'; b'; c'].
Proof. intros. cbn. auto. Qed.
Lemma one_mul d : dim_mul one_d_ d = d. Proof. destruct d; reflexivity. Qed.
Lemma du_gdot a b c a' b' c' x y z x' y' z' d : ru (Len 0) a a' -> ru (Len 0) b b' -> ru (Len 0) c c' ->
  du d x x' -> du d y y' -> du d z z' -> du d (gdot [a; b; c] [x; y; z]) (gdot [a'; b'; c'] [x'; y'; z']).
Proof.
  intros. unfold gdot. cbn [combine map sum_list fold_left]. rewrite <- (one_mul d). repeat apply du_add; apply du_mul; assumption.
Qed.
Lemma du_neg d (q : uq ext) x : du d q x -> du d (nneg q) (nneg x).
Proof. intros (D & P & ->). split; [exact D|]. split; [exact P|]. unfold uphys. cbn [nneg Num_uq uqs uqv]. apply (s_neg scal_ext). Qed.
Lemma u_mat_speeds M N p P : rmat ru M N -> speeds p P -> speeds (gmatmul_vec M p) (gmatmul_vec N P).
Proof.
  intros R S. apply rmat_elim in R. destruct R as (a & b & c & d & e & f & g & h & i & a' & b' & c' & d' & e' & f' & g' & h' & i' & -> & -> & (?&?&?) & (?&?&?) & ?&?&?).
  apply speeds3 in S. destruct S as (x & y & z & x' & y' & z' & -> & -> & ? & ? & ?). unfold gmatmul_vec. cbn [map]. apply speeds_intro; apply du_gdot; assumption.
Qed.
Lemma u_neg_speeds p P : speeds p P -> speeds (map nneg p) (map nneg P).
Proof.
  intros S. apply speeds3 in S. destruct S as (x & y & z & x' & y' & z' & -> & -> & ? & ? & ?). cbn [map]. apply speeds_intro; now apply du_neg.
Qed.
Lemma u_plus p P q Q : speeds p P -> speeds q Q -> speeds (gplus p q) (vplus P Q).
Proof. intros S S'. apply (sum_cols 1 CCart3); assumption. Qed.

Section S.
Variables (m : mode) (deg : bool) (fuel : nat).
Definition urgcf (g : gcf (uq ext)) (g' : gcf ext) : Prop := rgcf ru g g' /\ speeds (g_vsun g) (g_vsun g').
Lemma u_to_gcf g g' : urgcf g g' -> rres prel (gto_gcf_parts uasin uroll0 g) (gto_gcf_parts easin (ncst roll0) g').
Proof.
  intros [R V]. eapply rr_mono; [|apply (r_to_gcf ru RP False uasin easin uroll0 (ncst roll0) u_asin u_roll0 g g' R)].
  intros p P (A & B & C & D). split; [exact A|]. split; [exact B|]. rewrite C, D. exact V.
Qed.
Lemma u_to_icrs g g' : urgcf g g' -> rres prel (gto_icrs_parts m deg fuel uasin uroll0 g) (gto_icrs_parts m deg fuel easin (ncst roll0) g').
Proof.
  intros R. unfold gto_icrs_parts. eapply Rel.rr_bind; [now apply u_to_gcf|]. intros [[M o] v] [[N O] V] (A & B & C). cbn [fst snd] in *.
  eapply Rel.rr_bind. { apply (r_pos_neg ru False RP); exact B. } intros n n' Rn.
  eapply Rel.rr_bind. { apply (r_grotate ru RP); [apply r_transpose; exact A|exact Rn]. } intros o' O' Ro. apply Rel.rr_ret.
  split; [now apply r_transpose|]. split; [exact Ro|]. cbn [snd]. apply u_mat_speeds; [now apply r_transpose|now apply u_neg_speeds].
Qed.
Lemma u_apply_q p P x X : prel p P -> lens x X -> rres lens (gapply_q m deg fuel p x) (gapply_q m deg fuel P X).
Proof.
  destruct p as [[M o] v], P as [[N O] V]. intros (A & B & _) [L F]. cbn [fst snd] in *. unfold gapply_q.
  destruct (r_matmul_vec ru RP 1 M N x X A L F) as [L' F'].
  eapply (rr_bind' (rpos ru False)). { now apply r_cart_from. } intros w q Q EQ R.
  assert (CQ : cls_of Q = CCart3). { destruct (gmatmul_vec N X) as [|? [|? [|? [|]]]]; cbn in EQ; try discriminate; injection EQ as _ <-; auto; apply F2len in F'; cbn in F'; lia. }
  eapply (rr_bind' (rpos ru False)). { apply (r_pos_add ru False RP); eauto. } intros w' q' Q' EQ' R'.
  apply (r_comps ru RP False); auto. apply add_cls in EQ'; auto. rewrite EQ'. reflexivity.
Qed.

(** *** The Jacobian *)
Lemma dc k (q : uq ext) x : ru k q x -> rud k (uconst q) (dconst x).
Proof. intros R. pose proof (tan_rel k q x (Some 0) R) as T. unfold uconst, dconst. cbn in T. now rewrite Rmult_0_r in T. Qed.
Lemma hc s k (x : ext) : relh s k (dconst x) (dconst x).
Proof. split; auto. cbn. now rewrite Rmult_0_r. Qed.
Lemma dual_add0 (x : dual) : nadd x (ncst 0) = x.
Proof. destruct x as [a b]. cbn. apply mkd_eq; [destruct a|destruct b]; cbn; auto; now rewrite Rplus_0_r. Qed.
Lemma dual_assoc (x y z : dual) : nadd (nadd x y) z = nadd x (nadd y z).
Proof. destruct x as [a a'], y as [b b'], z as [c c']. cbn. apply mkd_eq; [destruct a, b, c|destruct a', b', c']; cbn; auto; now rewrite Rplus_assoc. Qed.
Lemma fgdot (a b c x y z : dual) : Frames.gdot [a; b; c] [x; y; z] = gdot [a; b; c] [x; y; z].
Proof. unfold Frames.gdot, gdot. cbn [combine map fold_right sum_list fold_left]. now rewrite dual_add0, dual_assoc. Qed.
Lemma u_column p P x X i : prel p P -> lens x X -> (i < 3)%nat ->
  rres (col_rel CCart3 length_d) (ucolumn m deg fuel p x i) (Frames.frame_column m deg fuel P X i).
Proof.
  destruct p as [[M o] v], P as [[N O] V]. intros (A & B & _) [L F] Hi. cbn [fst snd] in *.
  apply rmat_elim in A. destruct A as (a & b & c & d & e & f & g & h & k & a' & b' & c' & d' & e' & f' & g' & h' & k' & -> & -> & (?&?&?) & (?&?&?) & ?&?&?).
  destruct x as [|x [|y [|z [|]]]]; try discriminate.
  repeat match goal with Y : Forall2 _ (_ :: _) _ |- _ => inversion Y; clear Y; subst | Y : Forall2 _ [] _ |- _ => inversion Y; clear Y; subst end.
  match goal with Hx : ru (Len 1) x ?x', Hy : ru (Len 1) y ?y', Hz : ru (Len 1) z ?z' |- _ => rename x' into X, y' into Y, z' into Z, Hx into Rx, Hy into Ry, Hz into Rz end.
  unfold ucolumn, Frames.frame_column. cbn [seq map nth]. rewrite !fgdot. set (xi := nth i [x; y; z] (ncst 0)). set (s := uqs xi).
  assert (Rxi : uqd xi = Some length_d /\ 0 < s).
  { unfold s, xi. destruct i as [|[|[|]]]; try lia; cbn [nth]; split; first [apply Rx|apply Ry|apply Rz]. }
  set (E := fun j => Some (if Nat.eqb i j then 1 else 0) : ext).
  change (Some (if Nat.eqb i 0 then 1 else 0) : ext) with (E 0%nat). change (Some (if Nat.eqb i 1 then 1 else 0) : ext) with (E 1%nat). change (Some (if Nat.eqb i 2 then 1 else 0) : ext) with (E 2%nat).
  set (S1 := mkDual X (scl (uqs x) (E 0%nat))). set (S2 := mkDual Y (scl (uqs y) (E 1%nat))). set (S3 := mkDual Z (scl (uqs z) (E 2%nat))).
  assert (U : Forall2 (rud (Len 1)) [utan x (E 0%nat); utan y (E 1%nat); utan z (E 2%nat)] [S1; S2; S3]).
  { repeat (constructor; [apply tan_rel; assumption|]). constructor. }
  assert (T : Forall2 (relh s (Len 1)) [mkDual X (E 0%nat); mkDual Y (E 1%nat); mkDual Z (E 2%nat)] [S1; S2; S3]).
  { constructor; [|constructor; [|constructor; [|constructor]]].
    all: apply h_tan, scl_e; intros Ei; unfold s, xi; rewrite Ei; reflexivity. }
  eapply (rr_bind' (rpos ru False)). { apply (represent_as_rel _ _ RP); [apply (r_nokw ru)|exact B]. }
  intros w o1 O1 EO RO. apply rep_class in EO. destruct EO as [EO _]. destruct O1 as [| | | | |o1' o2' o3'| | | | |]; try discriminate EO. destruct o1 as [| | | | |q1 q2 q3| | | | |]; cbn [rpos] in RO; try contradiction. destruct RO as (Q1 & Q2 & Q3).
  cbn [pos_map].
  set (ua := gdot [uconst a; uconst b; uconst c] _). set (ub := gdot [uconst d; uconst e; uconst f] _). set (uc := gdot [uconst g; uconst h; uconst k] _).
  set (da := gdot [dconst a'; dconst b'; dconst c'] _). set (db := gdot [dconst d'; dconst e'; dconst f'] _). set (dc_ := gdot [dconst g'; dconst h'; dconst k'] _).
  set (sa := gdot [dconst a'; dconst b'; dconst c'] [S1; S2; S3]). set (sb := gdot [dconst d'; dconst e'; dconst f'] [S1; S2; S3]). set (sc_ := gdot [dconst g'; dconst h'; dconst k'] [S1; S2; S3]).
  assert (RA : rud (Len 1) ua sa /\ rud (Len 1) ub sb /\ rud (Len 1) uc sc_).
  { repeat match goal with |- _ /\ _ => split end; apply (r_gdot rud RD); auto; repeat (constructor; [now apply dc|]); constructor. }
  assert (RB : relh s (Len 1) da sa /\ relh s (Len 1) db sb /\ relh s (Len 1) dc_ sc_).
  { repeat match goal with |- _ /\ _ => split end; apply (r_gdot (relh s) (relh_preserved s)); auto; repeat (constructor; [apply hc|]); constructor. }
  assert (P1 : rpos rud True (PCart3 ua ub uc) (PCart3 sa sb sc_)) by exact RA.
  assert (P2 : rpos (relh s) True (PCart3 da db dc_) (PCart3 sa sb sc_)) by exact RB.
  assert (O1 : rpos rud True (PCart3 (uconst q1) (uconst q2) (uconst q3)) (PCart3 (dconst o1') (dconst o2') (dconst o3'))). { cbn [rpos]. split; [|split]; now apply dc. }
  assert (O2 : rpos (relh s) True (PCart3 (dconst o1') (dconst o2') (dconst o3')) (PCart3 (dconst o1') (dconst o2') (dconst o3'))). { cbn [rpos]. split; [|split]; apply hc. }
  pose proof (r_pos_add rud True RD Traced deg fuel _ _ _ _ P1 O1) as A1.
  pose proof (r_pos_add (relh s) True (relh_preserved s) Traced deg fuel _ _ _ _ P2 O2) as A2.
  destruct (pos_add Traced deg fuel (PCart3 ua ub uc) _) as [w1 y1|e1],
    (pos_add Traced deg fuel (PCart3 sa sb sc_) _) as [w2 y2|e2] eqn:E2,
    (pos_add Traced deg fuel (PCart3 da db dc_) _) as [w3 y3|e3]; cbn [rres] in A1, A2; try contradiction; unfold ret; cbn [bind rres]; try congruence.
  destruct A1 as [-> A1], A2 as [-> A2]. split; [reflexivity|].
  destruct (rpos_comps _ _ _ A1) as [_ B1]. destruct (rpos_comps _ _ _ A2) as [_ B2]. apply add_cls in E2; auto. rewrite E2 in *.
  unfold col_rel. apply (entries s _ _ (components y2)); auto; apply Rxi.
Qed.
Lemma u_jac p P x X : prel p P -> lens x X -> rres (jac_rel CCart3 CCart3) (ujac m deg fuel p x) (sjac m deg fuel P X).
Proof.
  intros A B. unfold ujac, sjac. cbn [seq mapM].
  eapply Rel.rr_bind; [apply (u_column _ _ _ _ 0 A B); lia|]. intros c1 C1 R1. eapply (Rel.rr_bind (fun l L => exists a b A' B', l = [a; b] /\ L = [A'; B'] /\ col_rel CCart3 length_d a A' /\ col_rel CCart3 length_d b B')).
  { eapply Rel.rr_bind; [apply (u_column _ _ _ _ 1 A B); lia|]. intros c2 C2 R2. eapply (Rel.rr_bind (fun l L => exists b B', l = [b] /\ L = [B'] /\ col_rel CCart3 length_d b B')).
    { eapply Rel.rr_bind; [apply (u_column _ _ _ _ 2 A B); lia|]. intros c3 C3 R3. eapply (Rel.rr_bind (fun l L => l = [] /\ L = [])); [apply Rel.rr_ret; auto|].
      intros ? ? [-> ->]. apply Rel.rr_ret. eauto. }
    intros ? ? (? & ? & -> & -> & R3). apply Rel.rr_ret. do 4 eexists. eauto. }
  intros ? ? (? & ? & ? & ? & -> & -> & R2 & R3). apply Rel.rr_ret. cbn. auto.
Qed.
Lemma u_apply_qp p P x X v V : prel p P -> lens x X -> speeds v V ->
  rres (fun y Y => lens (fst y) (fst Y) /\ speeds (snd y) (snd Y)) (gapply_qp m deg fuel (ujac m deg fuel) umatvec p x v) (gapply_qp m deg fuel (sjac m deg fuel) matvec P X V).
Proof.
  intros A B C. unfold gapply_qp. eapply Rel.rr_bind; [now apply u_apply_q|]. intros q Q RQ. eapply Rel.rr_bind; [now apply u_jac|]. intros j J RJ.
  apply Rel.rr_ret. cbn [fst snd]. split; [exact RQ|]. apply u_plus; [|apply A]. apply (matvec_rel 1 CCart3 (kinds CCart3)); [discriminate|exact RJ|exact C].
Qed.
(** *** Calls *)
Definition fvrel (x : fvalue (uq ext)) (X : fvalue ext) : Prop :=
  match x, X with
  | FPos q, FPos Q => rpos ru False q Q
  | FPosVel q v, FPosVel Q V => rpos ru False q Q /\ vrel v V
  | FArr a, FArr A => Forall2 (ru (Len 1)) a A
  | FArrs a p, FArrs A P => Forall2 (ru (Len 1)) a A /\ Forall2 (du (per 1 length_d)) p P
  | _, _ => False
  end.
Lemma speeds_F2 p P : speeds p P -> Forall2 (du (per 1 length_d)) p P.
Proof. intros S. apply speeds3 in S. destruct S as (x & y & z & x' & y' & z' & -> & -> & ? & ? & ?). auto. Qed.
Notation vr := (vel_represent_as m deg fuel nokw).
Notation uvr := (uvel_represent_as m deg fuel nokw).
Lemma vel_rep_cls v q w c : vr v WCart3 q = Ok w c -> vc c = WCart3.
Proof.
  rewrite vel_represent_as_is_poly. unfold pvel_represent_as. destruct (vcls_eqb (vc v) WCart3 && _) eqn:E.
  { intros X. injection X as _ <-. destruct (vc v); cbn in E; try discriminate E; reflexivity. }
  intros X. destruct (negb (Nat.eqb _ _)); [discriminate X|]. destruct (vc v); try (now apply generic_vc in X).
  destruct (plcl_to_lonlat m deg fuel v q) as [w1 v1|]; cbn [bind] in X; [|discriminate].
  destruct (pvel_generic _ _ _ _ _ _ _ _ _) eqn:G in X; [|discriminate]. injection X as _ <-. now apply generic_vc in G.
Qed.
Lemma u_frame_call p P x X : rres prel p P -> fvrel x X ->
  rres fvrel (gframe_call m deg fuel (ujac m deg fuel) umatvec uvr p x) (gframe_call m deg fuel (sjac m deg fuel) matvec vr P X).
Proof.
  intros RP_ R. destruct x as [q|q v|a|a s], X as [Q|Q V|A|A S]; cbn [fvrel] in R; try contradiction; cbn [gframe_call]; try reflexivity.
  - destruct R as [Rq Rv]. rewrite (rpos_cls _ _ _ _ Rq). destruct (dim_of (cls_of Q)) as [|[|[|[|]]]] eqn:D; try reflexivity.
    eapply (rr_bind' vrel). { apply vel_rel; [apply nokw_rel|exact Rv|exact Rq]. }
    intros w c C EC Rc. eapply (Rel.rr_bind lens). { apply (r_comps ru RP False); auto. } intros x X Rx.
    eapply Rel.rr_bind; [exact RP_|]. intros ps PS Rps. destruct Rc as [Ec Rc].
    assert (CV : vc C = WCart3).
    { eapply vel_rep_cls; eauto. }
    rewrite CV in Rc. cbn [integral_cls] in Rc. eapply Rel.rr_bind; [now apply u_apply_qp|]. intros y Y [Ry Ry'].
    eapply (Rel.rr_bind (rpos ru False)). { apply r_cart_from; apply Ry. } intros q' Q' Rq'. apply Rel.rr_ret. cbn [fvrel]. split; [exact Rq'|]. split; [reflexivity|]. exact Ry'.
  - pose proof (F2len _ _ _ R) as L. destruct a as [|a1 [|a2 [|a3 [|]]]], A as [|A1 [|A2 [|A3 [|]]]]; try discriminate L; try reflexivity.
    eapply Rel.rr_bind; [exact RP_|]. intros ps PS Rps. eapply Rel.rr_bind; [apply u_apply_q; [exact Rps|split; [reflexivity|exact R]]|]. intros y Y [_ Ry]. apply Rel.rr_ret. exact Ry.
  - destruct R as [R R']. pose proof (F2len _ _ _ R) as L. pose proof (F2len _ _ _ R') as L'.
    destruct a as [|a1 [|a2 [|a3 [|]]]], A as [|A1 [|A2 [|A3 [|]]]]; try discriminate L; try reflexivity.
    destruct s as [|s1 [|s2 [|s3 [|]]]], S as [|S1 [|S2 [|S3 [|]]]]; try discriminate L'; try reflexivity.
    eapply Rel.rr_bind; [exact RP_|]. intros ps PS Rps. eapply Rel.rr_bind.
    { apply u_apply_qp; [exact Rps|split; [reflexivity|exact R]|]. repeat match goal with Y : Forall2 _ (_ :: _) _ |- _ => inversion Y; clear Y; subst end. now apply speeds_intro. }
    intros y Y [Ry Ry']. apply Rel.rr_ret. cbn [fvrel]. split; [apply Ry|now apply speeds_F2].
Qed.
Inductive foprel : fop (uq ext) -> fop ext -> Prop :=
| fr_id : foprel FIdentity FIdentity
| fr_gcf g g' : urgcf g g' -> foprel (FToGCF g) (FToGCF g')
| fr_icrs g g' : urgcf g g' -> foprel (FToICRS g) (FToICRS g')
| fr_pipe ops ops' : Forall2 foprel ops ops' -> foprel (FPipe ops) (FPipe ops').
Notation sfcall := (gfcall m deg fuel easin (ncst roll0) (sjac m deg fuel) matvec vr).
Fixpoint gfloop {A} (call : fop A -> fvalue A -> res (fvalue A)) (ops : list (fop A)) (x : fvalue A) : res (fvalue A) :=
  match ops with [] => ret x | o :: ops => do y <- call o x; gfloop call ops y end.
Lemma gfcall_pipe {A} {NA : Num A} asn r0 jac mv vrep ops x :
  gfcall m deg fuel asn r0 jac mv vrep (FPipe ops) x
  = match x with
    | FArr a => do q <- gcart_from a; do r <- gfloop (gfcall m deg fuel asn r0 jac mv vrep) ops (FPos q);
                match r with FPos q' => do y <- cart_components m deg fuel q'; ret (FArr y) | _ => Raise EType end
    | _ => gfloop (gfcall m deg fuel asn r0 jac mv vrep) ops x
    end.
Proof.
  assert (G : forall y, (fix go ops x := match ops with [] => ret x | o :: ops => do y <- gfcall m deg fuel asn r0 jac mv vrep o x; go ops y end) ops y
     = gfloop (gfcall m deg fuel asn r0 jac mv vrep) ops y).
  { induction ops as [|o ops IH]; intros y; cbn [gfloop]; auto. apply bind_ext. auto. }
  cbn [gfcall]. destruct x; try apply G. apply bind_ext. intros. now rewrite G.
Qed.
Lemma u_cart_from x X : Forall2 (ru (Len 1)) x X -> rres (rpos ru False) (gcart_from x) (gcart_from X).
Proof.
  intros F. destruct F as [|a A x X Ra F]; [reflexivity|]. destruct F as [|b B x X Rb F]; [apply Rel.rr_ret; exact Ra|]. destruct F as [|c C x X Rc F]; [apply Rel.rr_ret; cbn; auto|].
  destruct F; [apply Rel.rr_ret; cbn; auto|reflexivity].
Qed.
Lemma u_comps q Q : rpos ru False q Q -> rres (Forall2 (ru (Len 1))) (cart_components m deg fuel q) (cart_components m deg fuel Q).
Proof.
  intros R. unfold cart_components, rep. rewrite (rpos_cls _ _ _ _ R).
  eapply (Rel.rr_bind (rpos ru False)). { apply (represent_as_rel _ _ RP); [apply (r_nokw ru)|exact R]. }
  intros x X S. destruct x, X; cbn [rpos] in S; try contradiction; try reflexivity; apply Rel.rr_ret; [|destruct S|destruct S as (?&?&?)]; auto.
Qed.
Fixpoint foprel_ind' (P : fop (uq ext) -> fop ext -> Prop) (H1 : P FIdentity FIdentity)
  (H2 : forall g g', urgcf g g' -> P (FToGCF g) (FToGCF g')) (H3 : forall g g', urgcf g g' -> P (FToICRS g) (FToICRS g'))
  (H4 : forall ops ops', Forall2 P ops ops' -> P (FPipe ops) (FPipe ops')) o o' (R : foprel o o') {struct R} : P o o' :=
  match R in foprel o o' return P o o' with
  | fr_id => H1
  | fr_gcf g g' r => H2 g g' r
  | fr_icrs g g' r => H3 g g' r
  | fr_pipe ops ops' F => H4 ops ops' ((fix go a b (F : Forall2 foprel a b) : Forall2 P a b :=
      match F in Forall2 _ a b return Forall2 P a b with @Forall2_nil _ _ _ => @Forall2_nil _ _ P | @Forall2_cons _ _ _ x y l l' r F => @Forall2_cons _ _ P x y l l' (foprel_ind' P H1 H2 H3 H4 _ _ r) (go _ _ F) end) _ _ F)
  end.
Lemma u_fcall o o' : foprel o o' -> forall x X, fvrel x X -> rres fvrel (ufcall m deg fuel o x) (sfcall o' X).
Proof.
  intros R. induction R as [|g g' R|g g' R|ops ops' F] using foprel_ind'; intros x X Rx; unfold ufcall.
  - apply Rel.rr_ret. exact Rx.
  - apply u_frame_call; [now apply u_to_gcf|exact Rx].
  - apply u_frame_call; [now apply u_to_icrs|exact Rx].
  - rewrite !gfcall_pipe.
    assert (G : forall y Y, fvrel y Y -> rres fvrel (gfloop (ufcall m deg fuel) ops y) (gfloop sfcall ops' Y)).
    { induction F as [|o o' ops ops' Ho F IH]; intros y Y Ry; cbn [gfloop]; [apply Rel.rr_ret; exact Ry|].
      eapply Rel.rr_bind; [apply Ho, Ry|]. intros z Z Rz. now apply IH. }
    destruct x, X; cbn [fvrel] in Rx; try contradiction; try (apply G; exact Rx).
    eapply Rel.rr_bind; [apply u_cart_from, Rx|]. intros q Q Rq. eapply Rel.rr_bind; [apply (G (FPos q) (FPos Q)), Rq|].
    intros r r' Rr. destruct r, r'; cbn [fvrel] in Rr; try contradiction; try reflexivity.
    eapply Rel.rr_bind; [apply u_comps, Rr|]. intros y Y Ry. apply Rel.rr_ret. exact Ry.
Qed.
End S.
