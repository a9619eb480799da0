(** * C74: velocities in floating point (first part: to Cartesian velocities).

    [represent_as] of a velocity multiplies the components by the Jacobian that
    forward-mode differentiation computes in the same floating-point format
    (FVel.v).  [e] bounds the absolute error of the library's sine and cosine,
    [u = fu f] is the relative rounding error, [eta f] the smallest positive
    number.  The exact values in the statements are the textbook formulas. *)
From Coq Require Import Reals Bool List ZArith Lra Lia.
From Flocq Require Import Core.
From Verif Require Import Num Vectors Transform Pos3D Pos3DThm Vel UVel Float FloatThm FloatConv PropFloat PropFloat3 FVel.
Import ListNotations.
Open Scope R_scope.

Section Ops.
Variable f : fmt.
Variable L : libm.
Hypothesis ok : fmt_ok f.
Hypothesis Lok : libm_ok f L.
Notation "a *! b" := (@nmul ext (NF f L) a b) (at level 40, left associativity).
Notation "a +! b" := (@nadd ext (NF f L) a b) (at level 50, left associativity).
Lemma fop_id x : isf f x -> fop f x = Some x.
Proof. intros [F B]. unfold fop, fin. rewrite rn_id by auto. now rewrite (proj2 (Rltb_true _ _)). Qed.
Lemma isf0 : isf f 0.
Proof. split; [apply generic_format_0|]. rewrite Rabs_R0. apply bpow_gt_0. Qed.
Lemma isf1 : isf f 1.
Proof. apply small_isf; auto. now apply F1. rewrite Rabs_R1. lra. Qed.
Lemma m1 x : isf f x -> (Some 1 : ext) *! Some x = Some x.
Proof. intros I. cbn. rewrite Rmult_1_l. now apply fop_id. Qed.
Lemma m0 (x : R) : (Some 0 : ext) *! Some x = Some 0.
Proof. cbn. rewrite Rmult_0_l. apply fop_id, isf0. Qed.
Lemma mx0 (x : R) : (Some x : ext) *! Some 0 = Some 0.
Proof. cbn. rewrite Rmult_0_r. apply fop_id, isf0. Qed.
Lemma mx1 x : isf f x -> (Some x : ext) *! Some 1 = Some x.
Proof. intros I. cbn. rewrite Rmult_1_r. now apply fop_id. Qed.
Lemma a0 x : isf f x -> (Some 0 : ext) +! Some x = Some x.
Proof. intros I. cbn. rewrite Rplus_0_l. now apply fop_id. Qed.
Lemma ax0 x : isf f x -> (Some x : ext) +! Some 0 = Some x.
Proof. intros I. cbn. rewrite Rplus_0_r. now apply fop_id. Qed.
Lemma ng x : @nneg ext (NF f L) (Some x) = Some (- x).
Proof. reflexivity. Qed.
Lemma n0 : @nneg ext (NF f L) (Some 0) = Some 0.
Proof. cbn. now rewrite Ropp_0. Qed.
Lemma isf_opp x : isf f x -> isf f (- x).
Proof. intros [F B]. split. now apply F_opp. now rewrite Rabs_Ropp. Qed.
Lemma a00 : (Some 0 : ext) +! Some 0 = Some 0. Proof. apply a0, isf0. Qed.

(** [v] is a number of the format that approximates [x] to within [E] and is at
    most [B] in size. *)
Definition ap (x E B : R) (v : ext) : Prop :=
  exists a, v = Some a /\ isf f a /\ Rabs (a - x) <= E /\ Rabs a <= B.
Lemma u_pos : 0 < fu f <= / 16.
Proof. split. apply fu_pos. now apply fu_small. Qed.
Lemma eta_bnd : 0 < eta f <= / 16.
Proof.
  split. apply bpow_gt_0. unfold eta. pose proof (emin_neg f ok).
  apply Rle_trans with (bpow radix2 (-4)). apply bpow_le. lia. cbn. lra.
Qed.
Lemma max_big : 256 <= fmax f.
Proof. unfold fmax. pose proof (emax_big f ok). apply Rle_trans with (bpow radix2 8). cbn. lra. now apply bpow_le. Qed.
Lemma ap_w x E B E' B' v : ap x E B v -> E <= E' -> B <= B' -> ap x E' B' v.
Proof. intros (a & -> & I & H & K) ? ?. exists a. repeat split; try apply I; lra. Qed.
Lemma ap_mul x E B y E' B' v w X : ap x E B v -> ap y E' B' w -> Rabs x <= X -> B * B' <= fmax f / 4 ->
  ap (x * y) (E * B' + X * E' + fu f * (B * B') + eta f) ((1 + fu f) * (B * B') + eta f) (v *! w).
Proof.
  intros (a & -> & I & H & K) (b & -> & I' & H' & K') HX O.
  pose proof u_pos. pose proof eta_bnd. pose proof max_big.
  assert (P : Rabs (a * b) <= B * B').
  { rewrite Rabs_mult. apply Rmult_le_compat; auto using Rabs_pos. }
  pose proof (rn_err f ok (a * b)) as Er. fold (eta f) in Er.
  assert (Er' : Rabs (frnd f (a * b) - a * b) <= fu f * (B * B') + eta f) by nra.
  assert (Bd : Rabs (frnd f (a * b)) <= (1 + fu f) * (B * B') + eta f).
  { replace (frnd f (a * b)) with ((frnd f (a * b) - a * b) + a * b) by ring.
    eapply Rle_trans; [apply Rabs_triang|]. lra. }
  exists (frnd f (a * b)). split.
  { cbn. unfold fop. apply fin_some. nra. }
  split. { split. now apply rn_F. nra. }
  split; auto.
  replace (frnd f (a * b) - x * y) with ((frnd f (a * b) - a * b) + ((a - x) * b + x * (b - y))) by ring.
  eapply Rle_trans; [apply Rabs_triang|].
  assert (Rabs ((a - x) * b + x * (b - y)) <= E * B' + X * E').
  { eapply Rle_trans; [apply Rabs_triang|]. rewrite !Rabs_mult.
    apply Rplus_le_compat; apply Rmult_le_compat; auto using Rabs_pos. }
  lra.
Qed.
(** a factor of size at most 1 does not make the product larger *)
Lemma ap_mul1 x E y E' B v w X : ap x E 1 v -> ap y E' B w -> isf f B -> Rabs x <= X ->
  ap (x * y) (E * B + X * E' + fu f * B + eta f) B (v *! w).
Proof.
  intros (a & -> & I & H & K) (b & -> & I' & H' & K') IB HX.
  assert (Bp : 0 <= B) by (eapply Rle_trans; [apply Rabs_pos | exact K']).
  pose proof u_pos. pose proof eta_bnd.
  assert (P : Rabs (a * b) <= B).
  { rewrite Rabs_mult. pose proof (Rabs_pos a). pose proof (Rabs_pos b). nra. }
  pose proof (rn_err f ok (a * b)) as Er. fold (eta f) in Er.
  assert (Bd : Rabs (frnd f (a * b)) <= B) by (apply rn_abs_le; auto; apply IB).
  assert (M : B < fmax f) by (destruct IB as [_ IB]; rewrite Rabs_pos_eq in IB by auto; auto).
  exists (frnd f (a * b)). split. { cbn. unfold fop. apply fin_some. lra. }
  split. { split. now apply rn_F. lra. }
  split; auto.
  replace (frnd f (a * b) - x * y) with ((frnd f (a * b) - a * b) + ((a - x) * b + x * (b - y))) by ring.
  eapply Rle_trans; [apply Rabs_triang|].
  assert (Rabs ((a - x) * b + x * (b - y)) <= E * B + X * E').
  { eapply Rle_trans; [apply Rabs_triang|]. rewrite !Rabs_mult.
    apply Rplus_le_compat; apply Rmult_le_compat; auto using Rabs_pos. }
  nra.
Qed.
Lemma ap_add x E B y E' B' v w : ap x E B v -> ap y E' B' w -> B + B' <= fmax f / 4 ->
  ap (x + y) (E + E' + fu f * (B + B')) ((1 + fu f) * (B + B')) (v +! w).
Proof.
  intros (a & -> & I & H & K) (b & -> & I' & H' & K') O.
  pose proof u_pos. pose proof max_big.
  assert (P : Rabs (a + b) <= B + B') by (eapply Rle_trans; [apply Rabs_triang|]; lra).
  destruct (rn_add_rel f ok a b (proj1 I) (proj1 I')) as (d & Hd & Ed).
  assert (Er : Rabs (frnd f (a + b) - (a + b)) <= fu f * (B + B')).
  { rewrite Ed. replace ((a + b) * (1 + d) - (a + b)) with (d * (a + b)) by ring. rewrite Rabs_mult.
    apply Rmult_le_compat; auto using Rabs_pos. }
  assert (Bd : Rabs (frnd f (a + b)) <= (1 + fu f) * (B + B')).
  { replace (frnd f (a + b)) with ((frnd f (a + b) - (a + b)) + (a + b)) by ring.
    eapply Rle_trans; [apply Rabs_triang|]. lra. }
  exists (frnd f (a + b)). split. { cbn. unfold fop. apply fin_some. pose proof (Rabs_pos (a + b)). nra. }
  split. { split. now apply rn_F. pose proof (Rabs_pos (a + b)). nra. }
  split; auto.
  replace (frnd f (a + b) - (x + y)) with ((frnd f (a + b) - (a + b)) + ((a - x) + (b - y))) by ring.
  eapply Rle_trans; [apply Rabs_triang|].
  assert (Rabs ((a - x) + (b - y)) <= E + E') by (eapply Rle_trans; [apply Rabs_triang|]; lra). lra.
Qed.
Lemma ap_opp x E B v : ap x E B v -> ap (- x) E B (@nneg ext (NF f L) v).
Proof.
  intros (a & -> & I & H & K). exists (- a). rewrite ng. split; auto. split. now apply isf_opp.
  split. replace (- a - - x) with (- (a - x)) by ring. now rewrite Rabs_Ropp. now rewrite Rabs_Ropp.
Qed.
Lemma ap_exact x : isf f x -> ap x 0 (Rabs x) (Some x).
Proof. intros I. exists x. split; auto. split; auto. split. unfold Rminus. rewrite Rplus_opp_r, Rabs_R0. lra. lra. Qed.
Lemma isf_abs x : isf f x -> isf f (Rabs x).
Proof. intros [F B]. split. now apply F_abs. now rewrite Rabs_Rabsolu. Qed.

Lemma seed_polar r phi i : seed (PPolar (fdist r) (Some phi)) (basis 2 i) = 
  PPolar (mkDist KDistance (mkDual (Some r) (Some (if Nat.eqb i 0 then 1 else 0)))) (mkDual (Some phi) (Some (if Nat.eqb i 1 then 1 else 0))).
Proof. reflexivity. Qed.

(** Jacobian of polar -> Cartesian *)
Lemma jac_polar deg n r phi : isf f r -> isf f phi ->
  fjacobian f L deg (S n) nokw (PPolar (fdist r) (Some phi)) CCart2
    = Ok false [[Some (m_cos L phi); Some (m_sin L phi)]; [Some r *! Some (- m_sin L phi); Some r *! Some (m_cos L phi)]].
Proof.
  intros Ir Ip. unfold fjacobian, fjac_column. cbn [components length seq mapM map].
  rewrite !seed_polar. cbn [Nat.eqb].
  destruct Lok as (Hs & Hc & _). destruct (Hs _ Ip) as [Is Bs]. destruct (Hc _ Ip) as [Ic Bc].
  step. unfold mk_Cart2, ret. rewrite ?bind_ok. step. unfold mk_Cart2, ret. rewrite ?bind_ok.
  cbn [components map dd]. unfold distance, length_of_kind. cbn [fdist dk dval].
  cbn [nmul Num_fdual dd dv nsin ncos]. change (Num_fl f L) with (NF f L).
  change (@ncos ext (NF f L) (Some phi)) with (Some (m_cos L phi) : ext).
  change (@nsin ext (NF f L) (Some phi)) with (Some (m_sin L phi) : ext).
  rewrite !m1, !m0, !n0, !mx0 by auto. rewrite !ax0, ng by auto.
  destruct (fl_mul f L ok r (- m_sin L phi) Ir ltac:(lra)) as (E1 & I1 & _).
  destruct (fl_mul f L ok r (m_cos L phi) Ir Bc) as (E2 & I2 & _).
  rewrite E1, E2, !a0 by auto. reflexivity.
Qed.

Lemma seed_cyl r phi z i : seed (cyl r phi z) (basis 3 i) =
  PCyl (mkDual (Some r) (Some (if Nat.eqb i 0 then 1 else 0))) (mkDual (Some phi) (Some (if Nat.eqb i 1 then 1 else 0)))
       (mkDual (Some z) (Some (if Nat.eqb i 2 then 1 else 0))).
Proof. reflexivity. Qed.
Lemma jac_cyl deg n r phi z : isf f r -> isf f phi ->
  fjacobian f L deg (S n) nokw (cyl r phi z) CCart3
    = Ok false [[Some (m_cos L phi); Some (m_sin L phi); Some 0];
                [Some r *! Some (- m_sin L phi); Some r *! Some (m_cos L phi); Some 0]; [Some 0; Some 0; Some 1]].
Proof.
  intros Ir Ip. unfold fjacobian, fjac_column. cbn [cyl components length seq mapM map].
  change (PCyl (Some r) (Some phi) (Some z)) with (cyl r phi z). rewrite !seed_cyl. cbn [Nat.eqb].
  destruct Lok as (Hs & Hc & _). destruct (Hs _ Ip) as [Is Bs]. destruct (Hc _ Ip) as [Ic Bc].
  step. unfold mk_Cart3, ret. rewrite ?bind_ok. step. unfold mk_Cart3, ret. rewrite ?bind_ok. step. unfold mk_Cart3, ret. rewrite ?bind_ok.
  cbn [components map dd].
  cbn [nmul Num_fdual dd dv nsin ncos]. change (Num_fl f L) with (NF f L).
  change (@ncos ext (NF f L) (Some phi)) with (Some (m_cos L phi) : ext).
  change (@nsin ext (NF f L) (Some phi)) with (Some (m_sin L phi) : ext).
  rewrite !m1, !m0, !n0, !mx0 by auto. rewrite !ax0, ng by (auto using isf0).
  destruct (fl_mul f L ok r (- m_sin L phi) Ir ltac:(lra)) as (E1 & I1 & _).
  destruct (fl_mul f L ok r (m_cos L phi) Ir Bc) as (E2 & I2 & _).
  rewrite E1, E2, !a0 by (auto using isf0). reflexivity.
Qed.

Lemma seed_sph r th ph i : seed (PSph (fdist r) (Some th) (Some ph)) (basis 3 i) =
  PSph (mkDist KDistance (mkDual (Some r) (Some (if Nat.eqb i 0 then 1 else 0)))) (mkDual (Some th) (Some (if Nat.eqb i 1 then 1 else 0)))
       (mkDual (Some ph) (Some (if Nat.eqb i 2 then 1 else 0))).
Proof. reflexivity. Qed.
Lemma jac_sph deg n r th ph : isf f r -> isf f th -> isf f ph ->
  let s := m_sin L th in let c := m_cos L th in let s' := m_sin L ph in let c' := m_cos L ph in
  fjacobian f L deg (S n) nokw (PSph (fdist r) (Some th) (Some ph)) CCart3
    = Ok false [[Some s *! Some c'; Some s *! Some s'; Some c];
                [Some r *! Some c *! Some c'; Some r *! Some c *! Some s'; Some r *! Some (- s)];
                [Some r *! Some s *! Some (- s'); Some r *! Some s *! Some c'; Some 0]].
Proof.
  intros Ir It Ip s c s' c'. unfold fjacobian, fjac_column. cbn [components length seq mapM map].
  rewrite !seed_sph. cbn [Nat.eqb].
  destruct Lok as (Hs & Hc & _). destruct (Hs _ Ip) as [Is Bs]. destruct (Hc _ Ip) as [Ic Bc].
  destruct (Hs _ It) as [Is' Bs']. destruct (Hc _ It) as [Ic' Bc'].
  fold s' in Is, Bs. fold c' in Ic, Bc. fold s in Is', Bs'. fold c in Ic', Bc'.
  step. unfold mk_Cart3, ret. rewrite ?bind_ok. step. unfold mk_Cart3, ret. rewrite ?bind_ok. step. unfold mk_Cart3, ret. rewrite ?bind_ok.
  cbn [components map dd]. unfold distance, length_of_kind. cbn [dk dval].
  cbn [nmul Num_fdual dd dv nsin ncos]. change (Num_fl f L) with (NF f L).
  change (@ncos ext (NF f L) (Some ph)) with (Some c' : ext).
  change (@nsin ext (NF f L) (Some ph)) with (Some s' : ext).
  change (@ncos ext (NF f L) (Some th)) with (Some c : ext).
  change (@nsin ext (NF f L) (Some th)) with (Some s : ext).
  rewrite !m1, !m0, !n0, !mx0 by auto. rewrite !ax0, !ng by (auto using isf0).
  destruct (fl_mul f L ok r (- s) Ir ltac:(lra)) as (E1 & I1 & _).
  destruct (fl_mul f L ok r s Ir Bs') as (E2 & I2 & _).
  destruct (fl_mul f L ok r c Ir Bc') as (E3 & I3 & _).
  rewrite E1, E2, E3, !a0 by (auto using isf0). rewrite !m0, !mx0. rewrite ?a00.
  destruct (fl_mul f L ok _ s' I3 Bs) as (E4 & I4 & _).
  destruct (fl_mul f L ok _ c' I3 Bc) as (E5 & I5 & _).
  destruct (fl_mul f L ok _ (- s') I2 ltac:(lra)) as (E6 & I6 & _).
  destruct (fl_mul f L ok _ c' I2 Bc) as (E7 & I7 & _).
  destruct (fl_mul f L ok s s' Is' Bs) as (E8 & I8 & _).
  destruct (fl_mul f L ok s c' Is' Bc) as (E9 & I9 & _).
  rewrite E4, E5, E6, E7, E8, E9, !a0, !ax0 by (auto using isf0). reflexivity.
Qed.

(** The velocity, given the Jacobian. *)
Lemma vel_polar m deg n r phi vr vp : isf f r -> isf f phi -> 0 <= r ->
  fvel_represent_as f L m deg (S n) nokw (mkVel WPolar [Some vr; Some vp]) WCart2 (PPolar (fdist r) (Some phi)) =
  Ok false (mkVel WCart2 [Some (m_cos L phi) *! Some vr +! Some r *! Some (- m_sin L phi) *! Some vp;
                          Some (m_sin L phi) *! Some vr +! Some r *! Some (m_cos L phi) *! Some vp]).
Proof.
  intros Ir Ip H. unfold fvel_represent_as, pvel_represent_as. cbn [vc vcls_eqb andb negb vdim integral_cls dim_of Nat.eqb].
  unfold pvel_generic. cbn [vc integral_cls]. step. unfold ret. rewrite bind_ok. unfold pcast_distance, pcast, mk_Polar.
  unfold distance, length_of_kind. cbn [fdist dk dval conv_r conv_az]. change (Num_fl f L) with (NF f L). rewrite fl_check_nonneg by auto.
  unfold ret, can_map. rewrite !bind_ok. change (PPolar {| dk := KDistance; dval := Some r |} (Some phi)) with (PPolar (fdist r) (Some phi)).
  unfold ret. rewrite bind_ok, jac_polar by auto. rewrite bind_ok. reflexivity.
Qed.
Lemma vel_cyl m deg n r phi z vr vp vz : isf f r -> isf f phi -> isf f vz -> 0 <= r ->
  exists x y, fvel_represent_as f L m deg (S n) nokw (mkVel WCyl [Some vr; Some vp; Some vz]) WCart3 (cyl r phi z) =
    Ok false (mkVel WCart3 [x +! Some 0; y +! Some 0; Some vz]) /\
    x = Some (m_cos L phi) *! Some vr +! Some r *! Some (- m_sin L phi) *! Some vp /\
    y = Some (m_sin L phi) *! Some vr +! Some r *! Some (m_cos L phi) *! Some vp.
Proof.
  intros Ir Ip Iz H. unfold fvel_represent_as, pvel_represent_as. cbn [vc vcls_eqb andb negb vdim integral_cls dim_of Nat.eqb].
  unfold pvel_generic. cbn [vc integral_cls]. unfold cyl. step. unfold ret. rewrite bind_ok. unfold pcast_distance.
  unfold ret, can_map. rewrite !bind_ok. change (PCyl (Some r) (Some phi) (Some z)) with (cyl r phi z).
  unfold ret. rewrite bind_ok, jac_cyl by auto. rewrite bind_ok. do 2 eexists. split; [|split; reflexivity].
  f_equal. unfold fmatvec. cbn [combine fold_left fscale map vcomps vdim integral_cls dim_of].
  change (Num_fl f L) with (NF f L). rewrite !m0, m1 by auto. rewrite a00, a0 by auto. reflexivity.
Qed.

Lemma mulC (v w : ext) : v *! w = w *! v.
Proof. destruct v, w; cbn; auto. now rewrite Rmult_comm. Qed.
Variable e : R.
Hypothesis Lacc : libm_accurate f L e.
Lemma ap_sin a : isf f a -> ap (sin a) e 1 (Some (m_sin L a)).
Proof.
  intros I. destruct (sin_fl f L Lok e Lacc a I) as (I' & B & A). exists (m_sin L a).
  split; auto. split; auto. split; auto. apply Rabs_le. lra.
Qed.
Lemma ap_cos a : isf f a -> ap (cos a) e 1 (Some (m_cos L a)).
Proof.
  intros I. destruct (cos_fl f L Lok e Lacc a I) as (I' & B & A). exists (m_cos L a).
  split; auto. split; auto. split; auto. apply Rabs_le. lra.
Qed.
Lemma e_pos : 0 <= e.
Proof. destruct (sin_fl f L Lok e Lacc 0 isf0) as (_ & _ & A). eapply Rle_trans; [apply Rabs_pos|exact A]. Qed.

(** a row [c dr + (r s) dphi] of the product Jacobian times velocity *)
Lemma row2 c s c' s' r vr vp : ap c e 1 c' -> ap s e 1 s' -> Rabs c <= 1 -> Rabs s <= 1 ->
  isf f r -> isf f vr -> isf f vp -> 0 <= r -> Rabs vr + r * Rabs vp <= fmax f / 16 ->
  ap (c * vr + r * s * vp) ((4 * fu f + e) * (Rabs vr + r * Rabs vp) + eta f * (3 + Rabs vp)) (fmax f / 4)
     (c' *! Some vr +! Some r *! s' *! Some vp).
Proof.
  intros C S Bc Bs Ir Iv Ip Hr O. pose proof u_pos. pose proof eta_bnd. pose proof max_big. pose proof e_pos.
  pose proof (Rabs_pos vr). pose proof (Rabs_pos vp).
  assert (0 <= r * Rabs vp) by (apply Rmult_le_pos; auto).
  pose proof (ap_mul1 _ _ _ _ _ _ _ 1 C (ap_exact _ Iv) (isf_abs _ Iv) Bc) as T1.
  pose proof (ap_exact _ Ir) as Ar. rewrite (Rabs_pos_eq r) in Ar by auto.
  pose proof (ap_mul1 _ _ _ _ _ _ _ 1 S Ar Ir Bs) as J2. rewrite mulC in J2.
  assert (Brs : Rabs (s * r) <= r) by (rewrite Rabs_mult, (Rabs_pos_eq r) by auto; nra).
  pose proof (ap_mul _ _ _ _ _ _ _ _ r J2 (ap_exact _ Ip) Brs ltac:(lra)) as T2.
  assert (W : fu f * (r * Rabs vp) <= / 16 * (r * Rabs vp)) by (apply Rmult_le_compat_r; lra).
  assert (W1 : Rabs vr + ((1 + fu f) * (r * Rabs vp) + eta f) <= 2 * (fmax f / 16) + / 16) by lra.
  assert (W0 : 0 <= Rabs vr + ((1 + fu f) * (r * Rabs vp) + eta f)) by nra.
  pose proof (ap_add _ _ _ _ _ _ _ _ T1 T2 ltac:(lra)) as T.
  replace (c * vr + r * s * vp) with (c * vr + s * r * vp) by ring.
  assert (W2 : (1 + fu f) * (Rabs vr + ((1 + fu f) * (r * Rabs vp) + eta f)) <= 17 / 16 * (Rabs vr + ((1 + fu f) * (r * Rabs vp) + eta f)))
    by (apply Rmult_le_compat_r; lra).
  eapply ap_w; [exact T| |]; [|lra].
  assert (fu f * (fu f * (r * Rabs vp)) <= / 16 * (fu f * (r * Rabs vp))) by (apply Rmult_le_compat_r; [apply Rmult_le_pos; lra|lra]).
  assert (fu f * eta f <= / 16 * eta f) by (apply Rmult_le_compat_r; lra).
  assert (0 <= fu f * Rabs vr) by (apply Rmult_le_pos; lra). assert (0 <= fu f * (r * Rabs vp)) by (apply Rmult_le_pos; lra).
  lra.
Qed.

(** a row [j1 dr + (r j2) dtheta + (r j3) dphi] *)
Lemma row3 j1 j2 j3 J1 J2 J3 r vr vt vp :
  ap j1 (2 * e + fu f + eta f) 1 J1 -> ap (r * j2) (2 * (fu f + e) * r + 2 * eta f) r J2 ->
  ap (r * j3) (2 * (fu f + e) * r + 2 * eta f) r J3 ->
  Rabs j1 <= 1 -> Rabs j2 <= 1 -> Rabs j3 <= 1 -> isf f vr -> isf f vt -> isf f vp -> 0 <= r ->
  Rabs vr + r * Rabs vt + r * Rabs vp <= fmax f / 16 ->
  ap (j1 * vr + r * j2 * vt + r * j3 * vp)
     ((6 * fu f + 2 * e) * (Rabs vr + r * Rabs vt + r * Rabs vp) + eta f * (4 + Rabs vr + 2 * Rabs vt + 2 * Rabs vp)) (fmax f / 2)
     (J1 *! Some vr +! J2 *! Some vt +! J3 *! Some vp).
Proof.
  intros A1 A2 A3 B1 B2 B3 Iv It Ip Hr O. pose proof u_pos as U. pose proof eta_bnd as Et. pose proof max_big as M. pose proof e_pos as Pe.
  pose proof (Rabs_pos vr) as Pv. pose proof (Rabs_pos vt) as Pt. pose proof (Rabs_pos vp) as Pp.
  pose proof (ap_mul1 _ _ _ _ _ _ _ 1 A1 (ap_exact _ Iv) (isf_abs _ Iv) B1) as T1.
  assert (R2 : Rabs (r * j2) <= r) by (rewrite Rabs_mult, (Rabs_pos_eq r) by auto; nra).
  assert (R3 : Rabs (r * j3) <= r) by (rewrite Rabs_mult, (Rabs_pos_eq r) by auto; nra).
  assert (P0 : 0 <= r * Rabs vt) by (apply Rmult_le_pos; auto). assert (Q0 : 0 <= r * Rabs vp) by (apply Rmult_le_pos; auto).
  pose proof (ap_mul _ _ _ _ _ _ _ _ r A2 (ap_exact _ It) R2 ltac:(lra)) as T2.
  pose proof (ap_mul _ _ _ _ _ _ _ _ r A3 (ap_exact _ Ip) R3 ltac:(lra)) as T3.
  set (P := r * Rabs vt) in *. set (Q := r * Rabs vp) in *. set (A := Rabs vr) in *. set (u := fu f) in *. set (h := eta f) in *.
  assert (uP : 0 <= u * P <= / 16 * P) by (split; [apply Rmult_le_pos; lra|apply Rmult_le_compat_r; lra]).
  assert (uQ : 0 <= u * Q <= / 16 * Q) by (split; [apply Rmult_le_pos; lra|apply Rmult_le_compat_r; lra]).
  assert (uA : 0 <= u * A <= / 16 * A) by (split; [apply Rmult_le_pos; lra|apply Rmult_le_compat_r; lra]).
  assert (uh : 0 <= u * h <= / 16 * h) by (split; [apply Rmult_le_pos; lra|apply Rmult_le_compat_r; lra]).
  pose proof (ap_add _ _ _ _ _ _ _ _ T1 T2 ltac:(lra)) as S1. fold u in S1.
  set (B := A + ((1 + u) * P + h)) in *.
  assert (Bb : 0 <= B <= A + 17 / 16 * P + h) by (unfold B; lra).
  assert (uB : 0 <= u * B <= / 16 * B) by (split; [apply Rmult_le_pos; lra|apply Rmult_le_compat_r; lra]).
  pose proof (ap_add _ _ _ _ _ _ _ _ S1 T3 ltac:(lra)) as S. fold u in S.
  set (B' := (1 + u) * B + ((1 + u) * Q + h)) in *.
  assert (Bb' : 0 <= B' <= 17 / 16 * B + 17 / 16 * Q + h) by (unfold B'; lra).
  assert (uB' : 0 <= u * B' <= / 16 * B') by (split; [apply Rmult_le_pos; lra|apply Rmult_le_compat_r; lra]).
  eapply ap_w; [exact S| |lra].
  assert (uuP : u * (u * P) <= / 16 * (u * P)) by (apply Rmult_le_compat_r; lra).
  assert (uuQ : u * (u * Q) <= / 16 * (u * Q)) by (apply Rmult_le_compat_r; lra).
  assert (uuA : u * (u * A) <= / 16 * (u * A)) by (apply Rmult_le_compat_r; lra).
  assert (uuh : u * (u * h) <= / 16 * (u * h)) by (apply Rmult_le_compat_r; lra).
  assert (EB : u * B = u * A + u * P + u * (u * P) + u * h) by (unfold B; ring).
  assert (uuuP : u * (u * (u * P)) <= / 16 * (u * (u * P))) by (apply Rmult_le_compat_r; [apply Rmult_le_pos; lra|lra]).
  assert (EB' : u * B' = u * B + u * (u * A + u * P + u * (u * P) + u * h) + u * Q + u * (u * Q) + u * h) by (rewrite <- EB; unfold B'; ring).
  rewrite EB', EB.
  assert (E2 : (2 * (u + e) * r + 2 * h) * Rabs vt = 2 * (u * P) + 2 * (e * P) + 2 * (h * Rabs vt)) by (unfold P; ring).
  assert (E3 : (2 * (u + e) * r + 2 * h) * Rabs vp = 2 * (u * Q) + 2 * (e * Q) + 2 * (h * Rabs vp)) by (unfold Q; ring).
  rewrite E2, E3. lra.
Qed.
Lemma jac1 s c S C : ap s e 1 S -> ap c e 1 C -> Rabs s <= 1 -> ap (s * c) (2 * e + fu f + eta f) 1 (S *! C).
Proof.
  intros A1 A2 B. eapply ap_w; [exact (ap_mul1 _ _ _ _ _ _ _ 1 A1 A2 isf1 B)| |]; lra.
Qed.
Lemma jac2 r s c S C : isf f r -> 0 <= r -> ap s e 1 S -> ap c e 1 C -> Rabs s <= 1 -> Rabs c <= 1 ->
  ap (r * (s * c)) (2 * (fu f + e) * r + 2 * eta f) r (Some r *! S *! C).
Proof.
  intros Ir Hr A1 A2 B1 B2. pose proof (ap_exact _ Ir) as Ar. rewrite (Rabs_pos_eq r) in Ar by auto.
  pose proof (ap_mul1 _ _ _ _ _ _ _ 1 A1 Ar Ir B1) as T. rewrite mulC in T.
  pose proof (ap_mul1 _ _ _ _ _ _ _ 1 A2 T Ir B2) as T'. rewrite mulC in T'.
  replace (r * (s * c)) with (c * (s * r)) by ring. eapply ap_w; [exact T'| |]; lra.
Qed.
Lemma vel_sph m deg n r th ph vr vt vp : isf f r -> isf f th -> isf f ph -> 0 <= r -> 0 <= th <= frnd f PI ->
  let s := m_sin L th in let c := m_cos L th in let s' := m_sin L ph in let c' := m_cos L ph in
  fvel_represent_as f L m deg (S n) nokw (mkVel WSph [Some vr; Some vt; Some vp]) WCart3 (PSph (fdist r) (Some th) (Some ph)) =
  Ok false (mkVel WCart3 [Some s *! Some c' *! Some vr +! Some r *! Some c *! Some c' *! Some vt +! Some r *! Some s *! Some (- s') *! Some vp;
                          Some s *! Some s' *! Some vr +! Some r *! Some c *! Some s' *! Some vt +! Some r *! Some s *! Some c' *! Some vp;
                          Some c *! Some vr +! Some r *! Some (- s) *! Some vt +! Some 0]).
Proof.
  intros Ir It Ip H Ht s c s' c'. unfold fvel_represent_as, pvel_represent_as. cbn [vc vcls_eqb andb negb vdim integral_cls dim_of Nat.eqb].
  unfold pvel_generic. cbn [vc integral_cls]. step. unfold ret. rewrite bind_ok. unfold pcast_distance, pcast, mk_Sph.
  unfold distance, length_of_kind. cbn [fdist dk dval conv_r conv_az]. change (Num_fl f L) with (NF f L). rewrite fl_check_nonneg by auto.
  rewrite fl_ang0, fl_angPI, fl_check_polar by auto.
  unfold ret, can_map. rewrite !bind_ok. change ({| dk := KDistance; dval := Some r |}) with (fdist r).
  unfold ret. rewrite bind_ok, jac_sph by auto. rewrite bind_ok. f_equal. unfold fmatvec.
  cbn [combine fold_left fscale map vcomps vdim integral_cls dim_of]. change (Num_fl f L) with (NF f L).
  rewrite (m0 vp). reflexivity.
Qed.
End Ops.

(** ** Polar and cylindrical velocities to Cartesian velocities *)
Theorem C74_polar_to_cartesian_accuracy : forall f L e m deg n r phi vr vphi,
  fmt_ok f -> libm_ok f L -> libm_accurate f L e ->
  isf f r -> isf f phi -> isf f vr -> isf f vphi -> 0 <= r -> Rabs vr + r * Rabs vphi <= fmax f / 16 ->
  exists vx vy,
    fvel_represent_as f L m deg (S n) nokw (mkVel WPolar [Some vr; Some vphi]) WCart2 (PPolar (fdist r) (Some phi))
      = Ok false (mkVel WCart2 [Some vx; Some vy]) /\ isf f vx /\ isf f vy /\
    Rabs (vx - (cos phi * vr - r * sin phi * vphi)) <= (4 * fu f + e) * (Rabs vr + r * Rabs vphi) + eta f * (3 + Rabs vphi) /\
    Rabs (vy - (sin phi * vr + r * cos phi * vphi)) <= (4 * fu f + e) * (Rabs vr + r * Rabs vphi) + eta f * (3 + Rabs vphi).
Proof.
  intros f L e m deg n r phi vr vp ok Lok Lacc Ir Iphi Iv Ip Hr O.
  assert (Bs : Rabs (sin phi) <= 1) by apply sin_abs_1.
  assert (Bc : Rabs (cos phi) <= 1) by (apply Rabs_le; pose proof (COS_bound phi); lra).
  pose proof (ap_sin f L Lok e Lacc phi Iphi) as S. pose proof (ap_cos f L Lok e Lacc phi Iphi) as C.
  pose proof (ap_opp f L _ _ _ _ S) as NS. assert (Bn : Rabs (- sin phi) <= 1) by now rewrite Rabs_Ropp.
  destruct (row2 f L ok Lok e Lacc _ _ _ _ r vr vp C NS Bc Bn Ir Iv Ip Hr O) as (vx & Ex & Ix & Ax & _).
  destruct (row2 f L ok Lok e Lacc _ _ _ _ r vr vp S C Bs Bc Ir Iv Ip Hr O) as (vy & Ey & Iy & Ay & _).
  exists vx, vy. rewrite vel_polar by auto. rewrite ng in Ex. rewrite Ex, Ey.
  split; auto. split; auto. split; auto. split; auto.
  replace (cos phi * vr - r * sin phi * vp) with (cos phi * vr + r * - sin phi * vp) by ring. exact Ax.
Qed.
Print Assumptions C74_polar_to_cartesian_accuracy.

Theorem C74_cylindrical_to_cartesian_accuracy : forall f L e m deg n rho phi z vr vphi vz,
  fmt_ok f -> libm_ok f L -> libm_accurate f L e ->
  isf f rho -> isf f phi -> isf f vr -> isf f vphi -> isf f vz -> 0 <= rho -> Rabs vr + rho * Rabs vphi <= fmax f / 16 ->
  exists vx vy,
    fvel_represent_as f L m deg (S n) nokw (mkVel WCyl [Some vr; Some vphi; Some vz]) WCart3 (cyl rho phi z)
      = Ok false (mkVel WCart3 [Some vx; Some vy; Some vz]) /\ isf f vx /\ isf f vy /\
    Rabs (vx - (cos phi * vr - rho * sin phi * vphi)) <= (4 * fu f + e) * (Rabs vr + rho * Rabs vphi) + eta f * (3 + Rabs vphi) /\
    Rabs (vy - (sin phi * vr + rho * cos phi * vphi)) <= (4 * fu f + e) * (Rabs vr + rho * Rabs vphi) + eta f * (3 + Rabs vphi).
Proof.
  intros f L e m deg n r phi z vr vp vz ok Lok Lacc Ir Iphi Iv Ip Iz Hr O.
  assert (Bs : Rabs (sin phi) <= 1) by apply sin_abs_1.
  assert (Bc : Rabs (cos phi) <= 1) by (apply Rabs_le; pose proof (COS_bound phi); lra).
  pose proof (ap_sin f L Lok e Lacc phi Iphi) as S. pose proof (ap_cos f L Lok e Lacc phi Iphi) as C.
  pose proof (ap_opp f L _ _ _ _ S) as NS. assert (Bn : Rabs (- sin phi) <= 1) by now rewrite Rabs_Ropp.
  destruct (row2 f L ok Lok e Lacc _ _ _ _ r vr vp C NS Bc Bn Ir Iv Ip Hr O) as (vx & Ex & Ix & Ax & _).
  destruct (row2 f L ok Lok e Lacc _ _ _ _ r vr vp S C Bs Bc Ir Iv Ip Hr O) as (vy & Ey & Iy & Ay & _).
  exists vx, vy. destruct (vel_cyl f L ok Lok m deg n r phi z vr vp vz Ir Iphi Iz Hr) as (x & y & -> & Hx & Hy).
  rewrite ng in Ex. rewrite Ex in Hx. rewrite Ey in Hy. subst x y. rewrite !ax0 by auto.
  split; auto. split; auto. split; auto. split; auto.
  replace (cos phi * vr - r * sin phi * vp) with (cos phi * vr + r * - sin phi * vp) by ring. exact Ax.
Qed.
Print Assumptions C74_cylindrical_to_cartesian_accuracy.

(** ** Spherical velocities to Cartesian velocities *)
Theorem C74_spherical_to_cartesian_accuracy : forall f L e m deg n r th ph vr vt vp,
  fmt_ok f -> libm_ok f L -> libm_accurate f L e ->
  isf f r -> isf f th -> isf f ph -> isf f vr -> isf f vt -> isf f vp -> 0 <= r -> 0 <= th <= frnd f PI ->
  Rabs vr + r * Rabs vt + r * Rabs vp <= fmax f / 16 ->
  let bound := (6 * fu f + 2 * e) * (Rabs vr + r * Rabs vt + r * Rabs vp) + eta f * (4 + Rabs vr + 2 * Rabs vt + 2 * Rabs vp) in
  exists vx vy vz,
    fvel_represent_as f L m deg (S n) nokw (mkVel WSph [Some vr; Some vt; Some vp]) WCart3 (PSph (fdist r) (Some th) (Some ph))
      = Ok false (mkVel WCart3 [Some vx; Some vy; Some vz]) /\ isf f vx /\ isf f vy /\ isf f vz /\
    Rabs (vx - (sin th * cos ph * vr + r * cos th * cos ph * vt - r * sin th * sin ph * vp)) <= bound /\
    Rabs (vy - (sin th * sin ph * vr + r * cos th * sin ph * vt + r * sin th * cos ph * vp)) <= bound /\
    Rabs (vz - (cos th * vr - r * sin th * vt)) <= bound.
Proof.
  intros f L e m deg n r th ph vr vt vp ok Lok Lacc Ir Ith Iph Iv It Ip Hr Ht O bound.
  assert (BS : forall a, Rabs (sin a) <= 1) by (intros; apply sin_abs_1).
  assert (BC : forall a, Rabs (cos a) <= 1) by (intros a; apply Rabs_le; pose proof (COS_bound a); lra).
  assert (BP : forall a b, Rabs a <= 1 -> Rabs b <= 1 -> Rabs (a * b) <= 1).
  { intros a b Ha Hb. rewrite Rabs_mult. pose proof (Rabs_pos a). pose proof (Rabs_pos b). nra. }
  pose proof (ap_sin f L Lok e Lacc th Ith) as S. pose proof (ap_cos f L Lok e Lacc th Ith) as C.
  pose proof (ap_sin f L Lok e Lacc ph Iph) as S'. pose proof (ap_cos f L Lok e Lacc ph Iph) as C'.
  pose proof (ap_opp f L _ _ _ _ S) as NS. pose proof (ap_opp f L _ _ _ _ S') as NS'. rewrite ng in NS, NS'.
  assert (Bn : forall a, Rabs (- sin a) <= 1) by (intros; rewrite Rabs_Ropp; auto).
  destruct (row3 f L ok Lok e Lacc (sin th * cos ph) (cos th * cos ph) (sin th * - sin ph) _ _ _ r vr vt vp
    (jac1 f L ok e _ _ _ _ S C' (BS _)) (jac2 f L ok e r _ _ _ _ Ir Hr C C' (BC _) (BC _)) (jac2 f L ok e r _ _ _ _ Ir Hr S NS' (BS _) (Bn _)))
    as (vx & Ex & Ix & Ax & _); auto.
  destruct (row3 f L ok Lok e Lacc (sin th * sin ph) (cos th * sin ph) (sin th * cos ph) _ _ _ r vr vt vp
    (jac1 f L ok e _ _ _ _ S S' (BS _)) (jac2 f L ok e r _ _ _ _ Ir Hr C S' (BC _) (BS _)) (jac2 f L ok e r _ _ _ _ Ir Hr S C' (BS _) (BC _)))
    as (vy & Ey & Iy & Ay & _); auto.
  assert (Q0 : 0 <= r * Rabs vp) by (apply Rmult_le_pos; auto using Rabs_pos).
  assert (P0 : 0 <= r * Rabs vt) by (apply Rmult_le_pos; auto using Rabs_pos).
  destruct (row2 f L ok Lok e Lacc _ _ _ _ r vr vt C NS (BC _) (Bn _) Ir Iv It Hr ltac:(lra)) as (vz & Ez & Iz & Az & _).
  exists vx, vy, vz. rewrite vel_sph by auto. rewrite Ex, Ey, Ez, ax0 by auto.
  split; auto. split; auto. split; auto. split; auto. fold bound in Ax, Ay. split; [|split].
  - replace (sin th * cos ph * vr + r * cos th * cos ph * vt - r * sin th * sin ph * vp)
      with (sin th * cos ph * vr + r * (cos th * cos ph) * vt + r * (sin th * - sin ph) * vp) by ring. exact Ax.
  - replace (sin th * sin ph * vr + r * cos th * sin ph * vt + r * sin th * cos ph * vp)
      with (sin th * sin ph * vr + r * (cos th * sin ph) * vt + r * (sin th * cos ph) * vp) by ring. exact Ay.
  - replace (cos th * vr - r * sin th * vt) with (cos th * vr + r * - sin th * vt) by ring.
    eapply Rle_trans; [exact Az|]. unfold bound.
    pose proof (u_pos f ok). pose proof (eta_bnd f ok). pose proof (e_pos f L Lok e Lacc). pose proof (Rabs_pos vr). pose proof (Rabs_pos vt). pose proof (Rabs_pos vp).
    assert (0 <= (2 * fu f + e) * (Rabs vr + r * Rabs vt)) by (apply Rmult_le_pos; lra).
    assert (0 <= (6 * fu f + 2 * e) * (r * Rabs vp)) by (apply Rmult_le_pos; lra).
    assert (0 <= eta f * (1 + Rabs vr + Rabs vt + 2 * Rabs vp)) by (apply Rmult_le_pos; lra). lra.
Qed.
Print Assumptions C74_spherical_to_cartesian_accuracy.

(** The hypotheses are met: binary64 with the correctly rounded library. *)
Example C74_to_cartesian_ex : let f := binary64 in let L := cr_libm binary64 in
  fmt_ok f /\ libm_ok f L /\ libm_accurate f L (fu f + eta f) /\
  isf f 5 /\ isf f 1 /\ isf f 2 /\ isf f (-3) /\ isf f 7 /\ 0 <= 1 <= frnd f PI /\
  Rabs (-3) + 5 * Rabs 2 <= fmax f / 16 /\ Rabs 2 + 5 * Rabs 1 + 5 * Rabs 1 <= fmax f / 16.
Proof.
  intros f L. assert (ok := binary64_ok). split; auto. split; [now apply cr_libm_ok|]. split; [now apply cr_libm_accurate|].
  do 5 (split; [match goal with |- isf _ ?v => apply (usable_int binary64); auto; lia end|]).
  pose proof (rnPI_bounds binary64 ok). split; [unfold f; lra|].
  assert (M : 65536 <= fmax f) by (unfold fmax, f; apply Rle_trans with (bpow radix2 16); [cbn; lra|apply bpow_le; cbn; lia]).
  rewrite (Rabs_left (-3)) by lra. rewrite (Rabs_pos_eq 2), (Rabs_pos_eq 1) by lra. lra.
Qed.
