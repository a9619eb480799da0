(** * Unit-carrying velocity and acceleration conversions simulate the SI ones. *)
From Coq Require Import Reals Bool List ZArith Lra Lia.
From Verif Require Import Num Vectors Transform Vel Units Scale UQ Rel UQThm UVel Dispatch.
Import ListNotations.
Open Scope R_scope.

(** ** Scaling the tangents scales the derivative *)
Definition relh (s : R) (k : kind) (D D' : dual) : Prop := dv D' = dv D /\ dd D' = scl s (dd D).
Lemma scl_divl s (x y : ext) : ndiv (scl s x) y = scl s (ndiv x y).
Proof. destruct x as [x|], y as [y|]; cbn; auto. destruct (Reqb y 0) eqn:E; cbn; auto. f_equal. apply Reqb_false in E. field. auto. Qed.
Lemma scl_mull s (x y : ext) : nmul (scl s x) y = scl s (nmul x y). Proof. apply sc_mull. Qed.
Lemma scl_mulr s (x y : ext) : nmul x (scl s y) = scl s (nmul x y). Proof. apply sc_mulr. Qed.
Lemma h_cst s k r : relh s k (ncst r) (ncst r).
Proof. split; auto. cbn. now rewrite Rmult_0_r. Qed.
Lemma h_add s k x X y Y : relh s k x X -> relh s k y Y -> relh s k (nadd x y) (nadd X Y).
Proof. intros [A B] [C D]. split; cbn [nadd Num_dual dv dd]; rewrite ?A, ?C; auto. rewrite B, D. apply (s_add scal_ext). Qed.
Lemma h_mul s k k' k'' x X y Y : relh s k x X -> relh s k' y Y -> relh s k'' (nmul x y) (nmul X Y).
Proof.
  intros [A B] [C D]. split; cbn [nmul Num_dual dv dd]; rewrite ?A, ?C; auto.
  rewrite B, D, scl_mull, scl_mulr. apply (s_add scal_ext).
Qed.
Lemma h_div s k k' k'' x X y Y : relh s k x X -> relh s k' y Y -> relh s k'' (ndiv x y) (ndiv X Y).
Proof.
  intros [A B] [C D]. split; cbn [ndiv Num_dual dv dd]; rewrite ?A, ?C; auto.
  rewrite B, D, scl_divl, scl_mull, scl_divl. apply (s_sub scal_ext).
Qed.
Lemma relh_preserved s : preserved (relh s).
Proof.
  split; try (intros; apply h_cst); try (intros; eapply h_add; eassumption); try (intros; eapply h_mul; eassumption); try (intros; eapply h_div; eassumption).
  - intros x X [A B]. unfold length_of_kind. apply h_div with (k := Ang) (k' := Ang); [apply (h_cst s Ang AU)|].
    split; cbn [ntan Num_dual dv dd]; rewrite ?A; auto. rewrite B. apply scl_mull.
  - intros x X H. unfold length_of_kind. apply h_mul with (k := Ang) (k' := Ang); [|apply (h_cst s Ang PC)].
    assert (Q : relh s Mag (nadd (ndiv x (ncst 5)) (ncst 1)) (nadd (ndiv X (ncst 5)) (ncst 1))).
    { apply h_add; [|apply h_cst]. eapply h_div; [eassumption|]. apply (h_cst s Ang). }
    destruct Q as [A B]. split; cbn [nexp10 Num_dual dv dd]; rewrite A; auto. rewrite B, !scl_mull. reflexivity.
  - intros k x X y Y [A B] [C D]. split; cbn [nsub Num_dual dv dd]; rewrite ?A, ?C; auto. rewrite B, D. apply (s_sub scal_ext).
  - intros k x X [A B]. split; cbn [nneg Num_dual dv dd]; rewrite ?A; auto. rewrite B. apply (s_neg scal_ext).
  - intros k x X [A B]. split; cbn [nabs Num_dual dv dd]; rewrite ?A; auto. rewrite B. apply scl_mull.
  - intros a c x X [A B] _. split; cbn [nsqrt Num_dual dv dd]; rewrite ?A; auto. rewrite B. apply scl_mull.
  - intros x X [A B]. split; cbn [nsin Num_dual dv dd]; rewrite ?A; auto. rewrite B. apply scl_mull.
  - intros x X [A B]. split; cbn [ncos Num_dual dv dd]; rewrite ?A; auto. rewrite B, scl_mull. apply (s_neg scal_ext).
  - intros x X [A B]. split; cbn [nacos Num_dual dv dd]; rewrite ?A; auto. rewrite B, scl_divl. apply (s_neg scal_ext).
  - intros a x X y Y [A B] [C D]. split; cbn [natan2 Num_dual dv dd]; rewrite ?A, ?C; auto. rewrite B, D, !scl_mull. apply (s_sub scal_ext).
  - intros k x X [A B]. split; cbn [nsign Num_dual dv dd]; rewrite ?A; auto. cbn. now rewrite Rmult_0_r.
  - intros x X [A B]. split; cbn [nwrap Num_dual dv dd]; rewrite ?A; auto.
  - intros k x X y Y [A B] [C D]. cbn [nltb Num_dual]. now rewrite A, C.
  - intros k x X y Y [A B] [C D]. cbn [nleb Num_dual]. now rewrite A, C.
  - intros k x X [A B]. cbn [nltb Num_dual]. now rewrite A.
  - intros k x X [A B]. cbn [nleb Num_dual]. now rewrite A.
  - intros k x X [A B]. cbn [nleb Num_dual]. now rewrite A.
  - intros k x X [A B]. cbn [neqb Num_dual]. now rewrite A.
Qed.

(** ** Components *)
(** [q] has dimension [d], a positive scale, and SI value [x] *)
Definition du {A} `{Scal A} (d : dim) (q : uq A) (x : A) : Prop := uqd q = Some d /\ 0 < uqs q /\ x = uphys q.
Fixpoint all3 {S T U} (P : S -> T -> U -> Prop) (a : list S) (b : list T) (c : list U) : Prop :=
  match a, b, c with
  | [], [], [] => True
  | x :: a, y :: b, z :: c => P x y z /\ all3 P a b c
  | _, _, _ => False
  end.
Definition kinds (c : pcls) : list kind :=
  match c with
  | CCart1 | CRadial => [Len 1] | CCart2 => [Len 1; Len 1] | CPolar => [Len 1; Ang] | CTwoSphere => [Ang; Ang]
  | CCart3 => [Len 1; Len 1; Len 1] | CCyl => [Len 1; Ang; Len 1] | CSph | CMSph => [Len 1; Ang; Ang]
  | CLonLat => [Ang; Ang; Len 1] | CProlate => [Len 2; Len 2; Ang]
  end.
Lemma rpos_comps {A B} `{Num A} `{Num B} (rel : kind -> A -> B -> Prop) p P : rpos rel True p P ->
  cls_of p = cls_of P /\ all3 rel (kinds (cls_of P)) (components p) (components P).
Proof.
  intros R. split. { eapply rpos_cls; eauto. }
  destruct p, P; cbn [rpos] in R; try contradiction; repeat match goal with X : _ /\ _ |- _ => destruct X end;
  repeat match goal with X : rdist _ _ _ _ |- _ => destruct X as (? & ST & ?); pose proof (ST I) end;
  repeat match goal with d : dist _ |- _ => destruct d end; cbn in *; subst; repeat split; auto.
Qed.

(** ** The Jacobian *)
Lemma tan_rel k (q : uq ext) x t : relu k q x -> relu k (utan q t) (mkDual x (scl (uqs q) t)).
Proof. intros (D & P & ->). split; [exact D|]. split; [exact P|]. reflexivity. Qed.
Definition rtan (r : dist (uq ext)) (t : ext) : dist (uq dual) := mkDist (dk r) (utan (dval r) t).
Definition dtan (r : dist (uq ext)) (R' : dist ext) (t : ext) : dist dual := mkDist (dk R') (mkDual (dval R') (scl (uqs (dval r)) t)).
Lemma tan_rdist st (r : dist (uq ext)) R' t : rdist relu st r R' -> rdist relu st (rtan r t) (dtan r R' t).
Proof. intros (E & ST & R). split; [exact E|]. split; [exact ST|]. cbn. now apply tan_rel. Qed.
Definition sitan (p : pos (uq ext)) (P : pos ext) (ts : list ext) : pos dual :=
  let u i := nth i ts (Some 0) in
  let tan (q : uq ext) x i := mkDual x (scl (uqs q) (u i)) in
  let rad r R' i := dtan r R' (u i) in
  match p, P with
  | PCart1 x, PCart1 X => PCart1 (tan x X 0%nat)
  | PRadial r, PRadial r' => PRadial (rad r r' 0%nat)
  | PCart2 x y, PCart2 X Y => PCart2 (tan x X 0%nat) (tan y Y 1%nat)
  | PPolar r a, PPolar r' a' => PPolar (rad r r' 0%nat) (tan a a' 1%nat)
  | PTwoSphere a b, PTwoSphere a' b' => PTwoSphere (tan a a' 0%nat) (tan b b' 1%nat)
  | PCart3 x y z, PCart3 X Y Z => PCart3 (tan x X 0%nat) (tan y Y 1%nat) (tan z Z 2%nat)
  | PCyl x y z, PCyl X Y Z => PCyl (tan x X 0%nat) (tan y Y 1%nat) (tan z Z 2%nat)
  | PSph r a b, PSph r' a' b' => PSph (rad r r' 0%nat) (tan a a' 1%nat) (tan b b' 2%nat)
  | PMSph r a b, PMSph r' a' b' => PMSph (rad r r' 0%nat) (tan a a' 1%nat) (tan b b' 2%nat)
  | PLonLat a b d, PLonLat a' b' d' => PLonLat (tan a a' 0%nat) (tan b b' 1%nat) (rad d d' 2%nat)
  | PProlate a b c D, PProlate a' b' c' D' => PProlate (tan a a' 0%nat) (tan b b' 1%nat) (tan c c' 2%nat) (mkDual D' (scl (uqs D) (Some 0)))
  | _, _ => seed P ts
  end.
Lemma useed_rel st p P ts : rpos relu st p P -> rpos relu st (useed p ts) (sitan p P ts).
Proof.
  intros R. destruct p, P; cbn [rpos] in R; try contradiction; repeat match goal with X : _ /\ _ |- _ => destruct X end;
  cbn [useed sitan rpos]; repeat match goal with |- _ /\ _ => split end;
  first [apply tan_rel; assumption | apply (tan_rdist st _ _ _); assumption].
Qed.
Lemma h_tan k s x a t : scl a t = scl s t -> relh s k (mkDual x t) (mkDual x (scl a t)).
Proof. intros E. split; auto. Qed.
Lemma scl_e s a (i j : nat) : (i = j -> s = a) -> scl a (Some (if Nat.eqb i j then 1 else 0) : ext) = scl s (Some (if Nat.eqb i j then 1 else 0) : ext).
Proof.
  intros E. destruct (Nat.eqb i j) eqn:Q; cbn. apply Nat.eqb_eq in Q. now rewrite E. now rewrite !Rmult_0_r.
Qed.
Lemma seed_rel p P i q : rpos relu True p P -> nth_error (components p) i = Some q ->
  rpos (relh (uqs q)) True (seed P (basis (length (components p)) i)) (sitan p P (basis (length (components p)) i)).
Proof.
  intros R N.
  destruct p, P; cbn [rpos] in R; try contradiction; repeat match goal with X : _ /\ _ |- _ => destruct X end;
  repeat match goal with X : rdist _ _ _ _ |- _ => destruct X as (? & ST & ?); specialize (ST I) end;
  cbn [components length] in N;
  (destruct i as [|[|[|i]]]; cbn [nth_error] in N; try discriminate; try (destruct i; discriminate); injection N as <-);
  cbn [useed sitan seed rpos components length]; unfold dtan, basis; cbn [seq map nth Nat.eqb];
  repeat match goal with |- _ /\ _ => split end;
  try (split; [reflexivity|]; split; [cbn; congruence|]; cbn [dk dval]);
  (split; [reflexivity|]); cbn; now rewrite ?Rmult_0_r.
Qed.
Lemma kwc_rel kw kw' : rkw relu kw kw' -> rkw relu (kw_map uconst kw) (kw_map dconst kw').
Proof.
  assert (C : forall k q x, relu k q x -> relu k (uconst q) (dconst x)).
  { intros k q x H. pose proof (tan_rel k q x (Some 0) H) as T. unfold uconst, dconst. cbn in T. now rewrite Rmult_0_r in T. }
  destruct kw as [a b c d e], kw' as [a' b' c' d' e']. intros (H1 & H2 & H3 & H4 & H5). unfold rkw. cbn [kw_map kw_Delta kw_y kw_z kw_theta kw_phi] in *.
  repeat match goal with |- _ /\ _ => split end.
  - destruct a, a'; cbn [ropt rang omap ang_map] in *; auto.
  - destruct b, b'; cbn [ropt rang omap ang_map] in *; auto.
  - destruct c, c'; cbn [ropt rang omap ang_map] in *; auto.
  - destruct d as [[]|], d' as [[]|]; cbn [ropt rang omap ang_map] in *; auto.
  - destruct e as [[]|], e' as [[]|]; cbn [ropt rang omap ang_map] in *; auto.
Qed.
Lemma kwh_rel s (kw : kwargs ext) : rkw (relh s) (kw_map dconst kw) (kw_map dconst kw).
Proof.
  assert (C : forall k x, relh s k (dconst x) (dconst x)). { intros k x. split; auto. cbn. now rewrite Rmult_0_r. }
  destruct kw as [a b c d e]. unfold rkw. cbn [kw_map kw_Delta kw_y kw_z kw_theta kw_phi]. repeat match goal with |- _ /\ _ => split end.
  - destruct a; cbn [ropt rang omap ang_map]; auto.
  - destruct b; cbn [ropt rang omap ang_map]; auto.
  - destruct c; cbn [ropt rang omap ang_map]; auto.
  - destruct d as [[]|]; cbn [ropt rang omap ang_map]; auto.
  - destruct e as [[]|]; cbn [ropt rang omap ang_map]; auto.
Qed.

(** One column: the derivatives of the stored numbers, in the units [row / column],
    are the SI derivatives. *)
Definition col_rel (c : pcls) (col : dim) (u : list (uq ext)) (x : list ext) : Prop :=
  all3 (fun k q y => du (dim_div (dim_kind k) col) q y) (kinds c) u x.
Lemma entries s (ks : list kind) (b : list (uq dual)) (B' B : list dual) (x : uq ext) d : 0 < s -> uqs x = s -> uqd x = Some d ->
  all3 (@relu dual Scal_dual) ks b B' -> all3 (relh s) ks B B' ->
  all3 (fun k q y => du (dim_div (dim_kind k) d) q y) ks (map (fun row => jac_entry row x) b) (map dd B).
Proof.
  intros Hs Es Ed. revert b B' B. induction ks as [|k ks IH]; intros [|q b] [|D' B'] [|D B]; cbn; try tauto.
  intros [(D1 & P1 & E1) HU] [[V H] HH]. split; [|eauto].
  split; [cbn; rewrite D1, Ed; reflexivity|]. split; [cbn; apply Rdiv_lt_0_compat; lra|].
  subst D'. unfold uphys in *. cbn [jac_entry uqs uqv] in *.
  transitivity (scl (1 / s) (scl s (dd D))).
  { rewrite (s_comp scal_ext). replace (1 / s * s) with 1 by (field; lra). now rewrite (s_one scal_ext). }
  rewrite <- H. cbn [scl Scal_dual dd]. rewrite (s_comp scal_ext). f_equal. rewrite Es. field. lra.
Qed.
Lemma all3_comps_h s (p P : pos dual) : rpos (relh s) True p P -> all3 (relh s) (kinds (cls_of P)) (components p) (components P).
Proof. intros R. now destruct (rpos_comps _ _ _ R). Qed.
Lemma column_rel deg fuel kw kw' p P t i q k : rkw relu kw kw' -> rpos relu True p P ->
  nth_error (components p) i = Some q -> uqd q = Some (dim_kind k) -> 0 < uqs q ->
  rres (col_rel t (dim_kind k)) (ujac_column deg fuel kw p t (i, q)) (jac_column deg fuel kw' P t i).
Proof.
  intros K R N D Hs.
  assert (LP : length (components P) = length (components p)).
  { destruct p, P; cbn [rpos] in R; try contradiction; reflexivity. }
  unfold ujac_column, jac_column. cbn [fst snd]. rewrite LP. set (b := basis _ i).
  pose proof (represent_as_rel relu True (relu_preserved scal_dual) Traced deg fuel _ _ _ _ t (kwc_rel _ _ K) (useed_rel True p P b R)) as A1.
  pose proof (represent_as_rel (relh (uqs q)) True (relh_preserved (uqs q)) Traced deg fuel _ _ _ _ t (kwh_rel (uqs q) kw') (seed_rel p P i q R N)) as A2.
  fold b in A2.
  destruct (represent_as Traced deg fuel (kw_map uconst kw) (useed p b) t) as [w u|e] eqn:E1,
           (represent_as Traced deg fuel (kw_map dconst kw') (sitan p P b) t) as [w' U|e'] eqn:E2,
           (represent_as Traced deg fuel (kw_map dconst kw') (seed P b) t) as [w2 U2|e2] eqn:E3; cbn in A1, A2; try contradiction; cbn; try congruence.
  destruct A1 as [-> A1], A2 as [-> A2]. split; [reflexivity|].
  destruct (rpos_comps _ _ _ A1) as [_ B1]. destruct (rpos_comps _ _ _ A2) as [_ B2].
  assert (CT : cls_of U = t).
  { eapply (proj1 (rep_class _ _ _ _ _ _ _ _ E2)). }
  rewrite CT in *. unfold col_rel. eapply entries; eauto.
Qed.

Definition jac_rel (c t : pcls) (u : list (list (uq ext))) (x : list (list ext)) : Prop :=
  all3 (fun k => col_rel t (dim_kind k)) (kinds c) u x.
Lemma mapM_rel {K T U} (ks : list K) (P : K -> T -> U -> Prop) (f : nat * uq ext -> res T) (g : nat -> res U) :
  forall (l : list (uq ext)) n,
  length ks = length l ->
  (forall j q k, nth_error l j = Some q -> nth_error ks j = Some k -> rres (P k) (f ((n + j)%nat, q)) (g (n + j)%nat)) ->
  rres (all3 P ks) (mapM f (combine (seq n (length l)) l)) (mapM g (seq n (length l))).
Proof.
  revert ks. intros ks l. revert ks. induction l as [|q l IH]; intros [|k ks] n L H; cbn in L; try discriminate.
  - cbn. auto.
  - cbn [length seq combine mapM]. eapply rr_bind.
    { specialize (H 0%nat q k eq_refl eq_refl). rewrite Nat.add_0_r in H. exact H. }
    intros x y R. eapply rr_bind.
    { apply (IH ks (S n)); [congruence|]. intros j q' k' Hq Hk. specialize (H (S j) q' k' Hq Hk). now rewrite Nat.add_succ_r in H. }
    intros xs ys RS. split; [reflexivity|]. cbn. auto.
Qed.
Lemma all3_nth {S T U} (P : S -> T -> U -> Prop) a : forall b c, all3 P a b c ->
  forall i x y, nth_error a i = Some x -> nth_error b i = Some y -> exists z, nth_error c i = Some z /\ P x y z.
Proof.
  induction a as [|x0 a IH]; intros [|y0 b] [|z0 c] H i x y; cbn in H; try contradiction; destruct i; cbn; try discriminate.
  - intros [= <-] [= <-]. destruct H. eauto.
  - destruct H. eauto.
Qed.
Lemma all3_len {S T U} (P : S -> T -> U -> Prop) a : forall b c, all3 P a b c -> length b = length a /\ length c = length a.
Proof. induction a; intros [|] [|]; cbn; try tauto. intros [_ H]. destruct (IHa _ _ H). auto. Qed.
Lemma jacobian_rel deg fuel kw kw' p P t : rkw relu kw kw' -> rpos relu True p P ->
  rres (jac_rel (cls_of P) t) (ujacobian deg fuel kw p t) (jacobian deg fuel kw' P t).
Proof.
  intros K R. unfold ujacobian, jacobian. destruct (rpos_comps _ _ _ R) as [_ C]. destruct (all3_len _ _ _ _ C) as [L1 L2].
  rewrite L2, <- L1. apply (mapM_rel (kinds (cls_of P)) (fun k => col_rel t (dim_kind k))); [congruence|].
  intros j q k Hq Hk. cbn [plus]. destruct (all3_nth _ _ _ _ C j k q Hk Hq) as (z & _ & D & Hs & _).
  eapply column_rel; eauto.
Qed.

(** ** The product *)
(** dimension [d] per time to the power [j] *)
Definition per (j : Z) (d : dim) : dim := mkDim (d_len d) (d_mass d) (d_time d - j) (d_ang d) (d_mag d).
Definition comps_rel (j : Z) (c : pcls) (u : list (uq ext)) (x : list ext) : Prop :=
  all3 (fun k => du (per j (dim_kind k))) (kinds c) u x.
Lemma per_mul j a b : dim_mul (dim_div a b) (per j b) = per j a.
Proof. unfold dim_mul, dim_div, per. destruct a, b; cbn. f_equal; ring. Qed.
Lemma du_mul a b (x y : uq ext) X Y : du a x X -> du b y Y -> du (dim_mul a b) (nmul x y) (nmul X Y).
Proof.
  intros (D1 & P1 & ->) (D2 & P2 & ->). split; [cbn; now rewrite D1, D2|]. split; [cbn; now apply Rmult_lt_0_compat|].
  apply (s_mul scal_ext).
Qed.
Lemma du_add d (x y : uq ext) X Y : du d x X -> du d y Y -> du d (nadd x y) (nadd X Y).
Proof.
  intros (D1 & P1 & ->) (D2 & P2 & ->). split; [cbn [nadd Num_uq uqd]; rewrite D1, D2; apply sum_refl|]. split; [exact P1|].
  unfold uphys at 1. rewrite <- (inunit_sc scal_ext x y), (s_add scal_ext) by auto. reflexivity.
Qed.
Lemma scaled_col j c col d u x (q : uq ext) y : d = per j col -> col_rel c col u x -> du d q y ->
  comps_rel j c (map (fun e => nmul e q) u) (map (fun e => nmul e y) x).
Proof.
  intros -> H Q. unfold col_rel, comps_rel in *. revert u x H. induction (kinds c) as [|k ks IH]; intros [|a u] [|b x]; cbn [all3 map]; try tauto.
  intros [A B]. split; [|now apply IH]. rewrite <- per_mul with (b := col). now apply du_mul.
Qed.
Lemma sum_cols j c u x u' x' : comps_rel j c u x -> comps_rel j c u' x' ->
  comps_rel j c (map (fun '(a, b) => nadd a b) (combine u u')) (vplus x x').
Proof.
  unfold comps_rel, vplus. revert u x u' x'. induction (kinds c) as [|k ks IH]; intros [|a u] [|b x] [|a' u'] [|b' x']; cbn [all3 map combine]; try tauto.
  intros [A B] [A' B']. split; [now apply du_add|now apply IH].
Qed.
Lemma vplus_zero x n : length x = n -> vplus x (repeat (Some 0 : ext) n) = x.
Proof.
  intros <-. unfold vplus. induction x as [|[a|] x IH]; cbn; auto; f_equal; auto. now rewrite Rplus_0_r.
Qed.
Lemma kinds_len c : length (kinds c) = dim_of c. Proof. destruct c; reflexivity. Qed.
Lemma matvec_rel j t ks : ks <> [] -> forall cols Cols v V,
  all3 (fun k => col_rel t (dim_kind k)) ks cols Cols -> all3 (fun k => du (per j (dim_kind k))) ks v V ->
  comps_rel j t (umatvec (dim_of t) cols v) (matvec (dim_of t) Cols V).
Proof.
  induction ks as [|k ks IH]; [congruence|]. intros _ cols Cols v V HC HV.
  destruct cols as [|c cols], Cols as [|C Cols], v as [|q v], V as [|Q V]; cbn [all3] in HC, HV; try tauto.
  destruct HC as [HC HCs], HV as [HV HVs].
  pose proof (scaled_col j t (dim_kind k) _ _ _ _ _ eq_refl HC HV) as S.
  destruct (all3_len _ _ _ _ HC) as [_ LC]. rewrite kinds_len in LC.
  destruct ks as [|k2 ks].
  - destruct cols, Cols, v, V; cbn [all3] in HCs, HVs; try tauto. cbn [umatvec matvec].
    rewrite vplus_zero by (now rewrite map_length). exact S.
  - destruct cols as [|c2 cols], Cols as [|C2 Cols], v as [|q2 v], V as [|Q2 V]; cbn [all3] in HCs, HVs; try tauto.
    cbn [matvec]. replace (umatvec (dim_of t) (c :: c2 :: cols) (q :: q2 :: v)) with
      (map (fun '(a, b) => nadd a b) (combine (map (fun e => nmul e q) c) (umatvec (dim_of t) (c2 :: cols) (q2 :: v)))) by reflexivity.
    apply sum_cols; [exact S|]. apply (IH ltac:(discriminate) (c2 :: cols) (C2 :: Cols) (q2 :: v) (Q2 :: V)); cbn [all3]; tauto.
Qed.

(** ** The conversions *)
Lemma weaken (p : pos (uq ext)) P : (match p with PRadial _ | PPolar _ _ | PSph _ _ _ | PMSph _ _ _ | PLonLat _ _ _ => False | _ => True end) ->
  rpos relu False p P -> rpos relu True p P.
Proof. destruct p, P; cbn; tauto. Qed.
Lemma cast_rel m (p : pos (uq ext)) P : rpos relu False p P -> rres (rpos relu True) (pcast_distance m p) (pcast_distance m P).
Proof.
  intros R. pose proof (relu_preserved scal_ext) as H.
  assert (DC : forall (r : dist (uq ext)) (r' : dist ext), rdist relu False r r' -> rrarg relu True (pcast r) (pcast r')).
  { intros r r' X. cbn. split; [reflexivity|]. split; [reflexivity|]. exact (r_distance relu False H r r' X). }
  destruct p, P; cbn [rpos] in R; try contradiction; repeat match goal with X : _ /\ _ |- _ => destruct X end; cbn [pcast_distance].
  - apply rr_ret. cbn. auto.
  - apply (r_Radial relu True H); auto.
  - apply rr_ret. cbn. auto.
  - apply (r_Polar relu True H); auto.
  - apply rr_ret. cbn. auto.
  - apply rr_ret. cbn. auto.
  - apply rr_ret. cbn. auto.
  - apply (r_Sph relu True H); auto.
  - apply (r_MSph relu True H); auto.
  - apply (r_LonLat relu True H); auto.
  - apply (r_Prolate relu True H); auto.
Qed.
Definition vrel (v : vel (uq ext)) (V : vel ext) : Prop := vc v = vc V /\ comps_rel 1 (integral_cls (vc V)) (vcomps v) (vcomps V).
Definition xrel (a : acc (uq ext)) (X : acc ext) : Prop :=
  xc a = xc X /\ comps_rel 2 (integral_cls (acc_integral_cls (xc X))) (xcomps a) (xcomps X).
Lemma nonempty_kinds c : kinds c <> []. Proof. destruct c; discriminate. Qed.
Lemma cast_cls m (p : pos ext) w q : pcast_distance m p = Ok w q -> cls_of q = cls_of p.
Proof.
  destruct p; cbn [pcast_distance]; unfold mk_Radial, mk_Polar, mk_Sph, mk_MSph, mk_LonLat, mk_Prolate, ret; cbv zeta; intros E;
  repeat match goal with X : bind _ _ = Ok _ _ |- _ => apply bind_inv in X; destruct X as (? & ? & ? & _ & X & _) end;
  injection E; intros; subst; reflexivity.
Qed.
Lemma rr_bind' {T U T' U'} (R : T -> U -> Prop) (R' : T' -> U' -> Prop) r r' k k' : rres R r r' ->
  (forall w x y, r' = Ok w y -> R x y -> rres R' (k x) (k' y)) -> rres R' (bind r k) (bind r' k').
Proof.
  intros Hr K. destruct r as [w x|e], r' as [w' y|e']; cbn in *; try tauto. destruct Hr as [-> Hr].
  specialize (K _ x y eq_refl Hr). destruct (k x), (k' y); cbn in *; tauto || (destruct K as [-> ?]; auto).
Qed.

Section Conv.
Variables (m : mode) (deg : bool) (fuel : nat).
Lemma generic_rel kw kw' v V t p P : rkw relu kw kw' -> vrel v V -> rpos relu False p P ->
  rres vrel (pvel_generic m deg fuel (ujacobian deg fuel) umatvec kw v t p) (pvel_generic m deg fuel (jacobian deg fuel) matvec kw' V t P).
Proof.
  intros K [E C] R. unfold pvel_generic. rewrite E.
  eapply rr_bind'. { apply (represent_as_rel relu False (relu_preserved scal_ext)); eauto. }
  intros w1 q Q EQ RQ. eapply rr_bind'. { apply cast_rel, RQ. }
  intros w2 q2 Q2 EQ2 RQ2. apply rr_chk; [reflexivity|].
  eapply rr_bind. { apply jacobian_rel; eauto. }
  intros j J RJ. apply rr_ret. split; [reflexivity|]. cbn [vc vcomps]. unfold vdim.
  rewrite (cast_cls _ _ _ _ EQ2), (proj1 (rep_class _ _ _ _ _ _ _ _ EQ)) in RJ.
  eapply matvec_rel; [apply nonempty_kinds|exact RJ|exact C].
Qed.
Lemma lat_rel (p : pos (uq ext)) P : rpos relu False p P -> rres (@relu ext Scal_ext Ang) (platitude m deg fuel p) (platitude m deg fuel P).
Proof.
  intros R. unfold platitude. eapply rr_bind. { apply (represent_as_rel relu False (relu_preserved scal_ext)); eauto. cbn. repeat split. }
  intros q Q RQ. destruct q, Q; cbn [rpos] in RQ; try contradiction; try reflexivity. split; tauto.
Qed.
Lemma three (c : pcls) ks j u x : kinds c = ks -> length ks = 3%nat -> comps_rel j c u x ->
  exists a b d a' b' d', u = [a; b; d] /\ x = [a'; b'; d'].
Proof.
  intros E L H. destruct (all3_len _ _ _ _ H) as [A B]. rewrite E, L in A, B.
  destruct u as [|a [|b [|d [|]]]]; try discriminate. destruct x as [|a' [|b' [|d' [|]]]]; try discriminate. repeat eexists.
Qed.
Lemma du_cos d (q : uq ext) x (l : uq ext) y : du d q x -> relu Ang l y -> du d (nmul q (ncos l)) (nmul x (ncos y)).
Proof.
  intros Q R. pose proof (r_cos _ (relu_preserved scal_ext) _ _ R) as C. rewrite <- (mul_one d). apply du_mul; auto.
Qed.
Lemma du_div d (q : uq ext) x (l : uq ext) y : du d q x -> relu Ang l y -> du d (ndiv q (ncos l)) (ndiv x (ncos y)).
Proof.
  intros (D1 & P1 & ->) R. destruct (r_cos _ (relu_preserved scal_ext) _ _ R) as (D2 & P2 & C).
  set (c := ncos l) in *. split; [cbn [ndiv Num_uq uqd]; rewrite D1, D2; cbn; f_equal; destruct d; unfold dim_div; cbn; now rewrite !Z.sub_0_r|].
  split; [cbn; now apply Rdiv_lt_0_compat|]. rewrite C. unfold uphys at 1 2.
  pose proof (s_div scal_ext (uqs q / uqs c) (uqs c) (uqv q) (uqv c) P2) as E.
  replace (uqs q / uqs c * uqs c) with (uqs q) in E by (field; lra). exact E.
Qed.
Lemma lcl_rel v V p P : vc V = WLonCosLat -> vrel v V -> rpos relu False p P ->
  rres (fun a b => vrel a b /\ vc b = WLonLat) (plcl_to_lonlat m deg fuel v p) (plcl_to_lonlat m deg fuel V P).
Proof.
  intros EV [E C] R. rewrite EV in C. destruct (three CLonLat _ 1 _ _ eq_refl eq_refl C) as (a & b & d & a' & b' & d' & Hu & Hx).
  unfold plcl_to_lonlat. rewrite Hu, Hx in *. eapply rr_bind. { apply lat_rel, R. }
  intros l L RL. apply rr_ret. split; [|reflexivity]. split; [reflexivity|]. cbn [comps_rel vc vcomps integral_cls kinds all3] in *.
  unfold comps_rel in *. cbn [kinds all3] in *. destruct C as (C1 & C2 & C3 & _). refine (conj _ (conj C2 (conj C3 I))). now apply du_div.
Qed.
Lemma lonlat_rel v V p P : vc V = WLonLat -> vrel v V -> rpos relu False p P ->
  rres (fun a b => vrel a b /\ vc b = WLonCosLat) (plonlat_to_lcl m deg fuel v p) (plonlat_to_lcl m deg fuel V P).
Proof.
  intros EV [E C] R. rewrite EV in C. destruct (three CLonLat _ 1 _ _ eq_refl eq_refl C) as (a & b & d & a' & b' & d' & Hu & Hx).
  unfold plonlat_to_lcl. rewrite Hu, Hx in *. eapply rr_bind. { apply lat_rel, R. }
  intros l L RL. apply rr_ret. split; [|reflexivity]. split; [reflexivity|].
  unfold comps_rel in *. cbn [kinds all3 vc vcomps integral_cls] in *. destruct C as (C1 & C2 & C3 & _). refine (conj _ (conj C2 (conj C3 I))). now apply du_cos.
Qed.
Lemma rr_mono {T U} (R R' : T -> U -> Prop) r r' : (forall x y, R x y -> R' x y) -> rres R r r' -> rres R' r r'.
Proof. intros I. destruct r, r'; cbn; auto. intros [-> ?]. auto. Qed.
Lemma nokw_rel : rkw (@relu ext Scal_ext) nokw nokw. Proof. cbn. repeat split. Qed.
Lemma generic_vc kw (V : vel ext) t P w q : pvel_generic m deg fuel (jacobian deg fuel) matvec kw V t P = Ok w q -> vc q = t.
Proof.
  unfold pvel_generic. intros E. repeat match goal with X : bind _ _ = Ok _ _ |- _ => apply bind_inv in X; destruct X as (? & ? & ? & _ & X & _) end.
  injection E; intros; subst; reflexivity.
Qed.
Lemma vel_rel kw kw' v V t p P : rkw relu kw kw' -> vrel v V -> rpos relu False p P ->
  rres vrel (uvel_represent_as m deg fuel kw v t p) (vel_represent_as m deg fuel kw' V t P).
Proof.
  intros K RV R. rewrite vel_represent_as_is_poly. unfold uvel_represent_as, pvel_represent_as.
  pose proof (proj1 RV) as E. rewrite E. destruct (vcls_eqb (vc V) t && negb (vcls_eqb t WTwoSphere)); [now apply rr_ret|].
  destruct (negb (Nat.eqb (vdim (vc V)) (vdim t))); [reflexivity|].
  assert (G : rres vrel (pvel_generic m deg fuel (ujacobian deg fuel) umatvec kw v t p) (pvel_generic m deg fuel (jacobian deg fuel) matvec kw' V t P))
    by now apply generic_rel.
  assert (TO : rres vrel (do v' <- pvel_generic m deg fuel (ujacobian deg fuel) umatvec nokw v WLonLat p; plonlat_to_lcl m deg fuel v' p)
                         (do v' <- pvel_generic m deg fuel (jacobian deg fuel) matvec nokw V WLonLat P; plonlat_to_lcl m deg fuel v' P)).
  { eapply rr_bind'. { apply generic_rel; eauto using nokw_rel. }
    intros w v' V' EV' R'. apply rr_mono with (R := fun a b => vrel a b /\ vc b = WLonCosLat); [intros ? ? [? _]; assumption|eapply lonlat_rel; eauto using generic_vc]. }
  destruct (vc V) eqn:EV; destruct t; try exact G; try exact TO.
  - apply rr_mono with (R := fun a b => vrel a b /\ vc b = WLonCosLat); [intros ? ? [? _]; assumption|eapply lonlat_rel; eauto].
  - eapply rr_bind. { eapply lcl_rel; eauto. } intros v' V' [R' _]. apply generic_rel; auto using nokw_rel.
  - eapply rr_bind. { eapply lcl_rel; eauto. } intros v' V' [R' _]. apply generic_rel; auto using nokw_rel.
  - eapply rr_bind. { eapply lcl_rel; eauto. } intros v' V' [R' _]. apply generic_rel; auto using nokw_rel.
  - eapply rr_bind. { eapply lcl_rel; eauto. } intros v' V' [R' _]. apply generic_rel; auto using nokw_rel.
  - eapply rr_bind. { eapply lcl_rel; eauto. } intros v' V' [R' _]. apply generic_rel; auto using nokw_rel.
  - eapply rr_bind. { eapply lcl_rel; eauto. } intros v' V' [R' _]. apply generic_rel; auto using nokw_rel.
  - eapply rr_bind. { eapply lcl_rel; eauto. } intros v' V' [R' _]. apply generic_rel; auto using nokw_rel.
  - eapply rr_bind. { eapply lcl_rel; eauto. } intros v' V' [R' _]. apply generic_rel; auto using nokw_rel.
  - eapply rr_bind. { eapply lcl_rel; eauto. } intros v' V' [R' _]. apply generic_rel; auto using nokw_rel.
  - apply rr_mono with (R := fun a b => vrel a b /\ vc b = WLonLat); [intros ? ? [? _]; assumption|eapply lcl_rel; eauto].
  - eapply rr_bind. { eapply lcl_rel; eauto. } intros v' V' [R' _]. apply generic_rel; auto using nokw_rel.
  - eapply rr_bind. { eapply lcl_rel; eauto. } intros v' V' [R' _]. apply generic_rel; auto using nokw_rel.
Qed.
Lemma strict_lax (p : pos (uq ext)) P : rpos relu True p P -> rpos relu False p P.
Proof.
  destruct p, P; cbn [rpos]; unfold rdist; try tauto.
Qed.
Lemma acc_rel kw kw' a X t v V p P : rkw relu kw kw' -> xrel a X -> vrel v V -> rpos relu False p P ->
  rres xrel (uacc_represent_as m deg fuel kw a t v p) (acc_represent_as m deg fuel kw' X t V P).
Proof.
  intros K RX RV R. rewrite acc_represent_as_is_poly. unfold uacc_represent_as, pacc_represent_as. pose proof (proj1 RX) as E. rewrite E. cbv zeta.
  destruct (negb _); [reflexivity|]. destruct (_ && _); [now apply rr_ret|].
  eapply rr_bind'. { apply (represent_as_rel relu False (relu_preserved scal_ext)); eauto. }
  intros w1 q Q EQ RQ. eapply rr_bind'. { apply cast_rel, RQ. }
  intros w2 q2 Q2 EQ2 RQ2. eapply rr_bind. { apply vel_rel; eauto using strict_lax. }
  intros v' V' _. apply rr_chk; [reflexivity|].
  eapply rr_bind. { apply jacobian_rel; eauto using nokw_rel. }
  intros j J RJ. rewrite (cast_cls _ _ _ _ EQ2), (proj1 (rep_class _ _ _ _ _ _ _ _ EQ)) in RJ.
  pose proof (matvec_rel 2 (integral_cls (acc_integral_cls t)) _ (nonempty_kinds _) _ _ _ _ RJ (proj2 RX)) as M.
  destruct (acc_integral_cls t) eqn:ET; try reflexivity; (apply rr_ret; split; [reflexivity|cbn [xc xcomps]; rewrite ET; exact M]).
Qed.
End Conv.
