(** * C86: quantities with units in floating point. *)
From Coq Require Import Reals Bool List ZArith Lra Lia.
From Flocq Require Import Core Relative.
From Verif Require Import Num Vectors Transform Pos3D Units UQ UQThm Rel Float FloatThm FloatConv PropFloat PropFloat2 PropFloat3 PropFloat17 FUQ Arith TreeArith RelArith.
From Verif Require Dispatch.
Import ListNotations.
Open Scope R_scope.

(** Specification.  The conversion factors: relative accuracy [ec]; the factor
    between equal units is 1. *)
Definition factors_ok (fac : R -> R) (ec : R) : Prop :=
  fac 1 = 1 /\ forall a, 0 < a -> Rabs (fac a - a) <= ec * a.
(** A number of the format, or not finite. *)
Definition fmtd (f : fmt) (x : ext) : Prop := forall v, x = Some v -> isf f v.
(** The numbers of a vector with units attached: lengths in one unit (the base unit,
    of scale 1), angles in radian. *)
Definition inlen (x : ext) : uq ext := mkUq x (Some length_d) 1.
Definition inarea (x : ext) : uq ext := mkUq x (Some area_d) 1.
Definition inrad (x : ext) : uq ext := mkUq x (Some angle_d) 1.
Definition inmag (x : ext) : uq ext := mkUq x (Some mag_d) 1.
Definition inradial (d : dist ext) : dist (uq ext) :=
  mkDist (dk d) (match dk d with KDistance => inlen | KParallax => inrad | KDistMod => inmag end (dval d)).
Definition in_units (p : pos ext) : pos (uq ext) :=
  match p with
  | PCart1 x => PCart1 (inlen x)
  | PRadial r => PRadial (inradial r)
  | PCart2 x y => PCart2 (inlen x) (inlen y)
  | PPolar r phi => PPolar (inradial r) (inrad phi)
  | PTwoSphere a b => PTwoSphere (inrad a) (inrad b)
  | PCart3 x y z => PCart3 (inlen x) (inlen y) (inlen z)
  | PCyl rho phi z => PCyl (inlen rho) (inrad phi) (inlen z)
  | PSph r a b => PSph (inradial r) (inrad a) (inrad b)
  | PMSph r a b => PMSph (inradial r) (inrad a) (inrad b)
  | PLonLat a b r => PLonLat (inrad a) (inrad b) (inradial r)
  | PProlate mu nu phi D => PProlate (inarea mu) (inarea nu) (inrad phi) (inlen D)
  end.
Definition ang_in (a : ang ext) : ang (uq ext) :=
  match a with AsAngle x => AsAngle (inrad x) | AsQty x => AsQty (inrad x) end.
Definition kw_in_units (kw : kwargs ext) : kwargs (uq ext) :=
  mkKw (option_map inlen (kw_Delta kw)) (option_map inlen (kw_y kw)) (option_map inlen (kw_z kw))
       (option_map ang_in (kw_theta kw)) (option_map ang_in (kw_phi kw)).
(** all numbers of a vector are in the format *)
Definition pos_fmtd (f : fmt) (p : pos ext) : Prop :=
  match p with
  | PCart1 x => fmtd f x
  | PRadial r => fmtd f (dval r)
  | PCart2 x y => fmtd f x /\ fmtd f y
  | PPolar r phi => fmtd f (dval r) /\ fmtd f phi
  | PTwoSphere a b => fmtd f a /\ fmtd f b
  | PCart3 x y z => fmtd f x /\ fmtd f y /\ fmtd f z
  | PCyl rho phi z => fmtd f rho /\ fmtd f phi /\ fmtd f z
  | PSph r a b | PMSph r a b | PLonLat a b r => fmtd f (dval r) /\ fmtd f a /\ fmtd f b
  | PProlate mu nu phi D => fmtd f mu /\ fmtd f nu /\ fmtd f phi /\ fmtd f D
  end.
Definition kw_fmtd (f : fmt) (kw : kwargs ext) : Prop :=
  (forall x, kw_Delta kw = Some x -> fmtd f x) /\ (forall x, kw_y kw = Some x -> fmtd f x) /\
  (forall x, kw_z kw = Some x -> fmtd f x) /\
  (forall a, kw_theta kw = Some a -> fmtd f (ang_val a)) /\ (forall a, kw_phi kw = Some a -> fmtd f (ang_val a)).

(** ** The unit machinery is transparent when no unit changes *)
Section Same.
Variable f : fmt.
Variable L : libm.
Variable fac : R -> R.
Hypothesis ok : fmt_ok f.
Hypothesis Lok : libm_ok f L.
Hypothesis U1 : fac 1 = 1.
Notation "'SF'" := (Scal_fl f fac).

Lemma scl1 x : fmtd f x -> @scl ext SF 1 x = x.
Proof.
  intros H. destruct x as [v|]; [|reflexivity]. destruct (H v eq_refl) as [Fv Ov]. cbn.
  rewrite U1, Rmult_1_l. unfold fop. rewrite rn_id by auto. now apply fin_some.
Qed.
Lemma fmtd_fop x : fmtd f (fop f x).
Proof. intros v E. now apply (fop_isf f ok) in E. Qed.
Lemma fmtd_none : fmtd f None. Proof. intros v [=]. Qed.

Definition relf (k : kind) (q : uq ext) (x : ext) : Prop :=
  q = mkUq x (Some (dim_kind k)) 1 /\ fmtd f x.

Lemma isf_rnd_pi2 : isf f (frnd f (2 * PI)) /\ 0 < frnd f (2 * PI).
Proof.
  pose proof PI_bounds. split.
  - apply small_isf; auto. apply rn_F; auto. apply rn_abs_le; auto. apply (F_small_int f ok 16); lia.
    rewrite Rabs_pos_eq; lra.
  - apply Rlt_le_trans with 1; [lra|]. apply rn_ge_F; auto. now apply F1. lra.
Qed.
Lemma isf_sign x : isf f (Rsign x).
Proof.
  unfold Rsign. assert (G : forall n, (Z.abs n <= 16)%Z -> isf f (IZR n)) by (intros; now apply usable_int).
  repeat destruct (Rltb _ _); apply G; lia.
Qed.

Lemma relf_preserved : @preserved (uq ext) ext (Num_fuq f L fac) (Num_fl f L) relf.
Proof.
  assert (D1 : 1 / 1 = 1) by field. assert (M1 : 1 * 1 = 1) by ring.
  assert (C : forall r, fmtd f (@ncst ext (Num_fl f L) r)) by (intros; apply fmtd_fop).
  assert (N2 : forall (g : R -> R -> ext) x y, (forall a b, fmtd f (g a b)) -> fmtd f (flift2 g x y)).
  { intros g [a|] [b|] G; cbn; auto using fmtd_none. }
  assert (NA : forall x y, fmtd f (@nadd ext (Num_fl f L) x y)) by (intros; apply N2; intros; apply fmtd_fop).
  assert (NS : forall x y, fmtd f (@nsub ext (Num_fl f L) x y)) by (intros; apply N2; intros; apply fmtd_fop).
  assert (NM : forall x y, fmtd f (@nmul ext (Num_fl f L) x y)) by (intros; apply N2; intros; apply fmtd_fop).
  assert (ND : forall x y, fmtd f (@ndiv ext (Num_fl f L) x y)).
  { intros; apply N2; intros. destruct (Reqb b 0); [apply fmtd_none | apply fmtd_fop]. }
  destruct Lok as (Ls & Lc & La & _ & Lt).
  split.
  - intros r. split; [reflexivity | apply C].
  - intros r. split; [reflexivity | apply C].
  - intros r. split; [reflexivity | apply C].
  - intros x X (-> & Fx). split; [| apply ND]. unfold length_of_kind.
    cbn [Num_fuq Num_uq ndiv nlen ntan uqv uqd uqs]. unfold uphys. cbn [uqv uqs]. rewrite scl1 by auto. rewrite D1. reflexivity.
  - intros x X (-> & Fx). split; [| apply NM]. unfold length_of_kind.
    cbn [Num_fuq Num_uq ndiv nlen nadd nmul ncst nexp10 uqv uqd uqs]. unfold uphys, inunit. cbn [uqv uqs ncst Num_uq].
    rewrite !D1, M1. rewrite (scl1 (@ncst ext (Num_fl f L) 1)) by apply C. rewrite scl1 by apply NA. reflexivity.
  - intros k x X y Y (-> & Fx) (-> & Fy). split; [| apply NA].
    cbn [Num_fuq Num_uq nadd uqv uqd uqs]. unfold inunit. cbn [uqv uqs]. rewrite D1, scl1, sum_refl by auto. reflexivity.
  - intros k x X y Y (-> & Fx) (-> & Fy). split; [| apply NS].
    cbn [Num_fuq Num_uq nsub uqv uqd uqs]. unfold inunit. cbn [uqv uqs]. rewrite D1, scl1, sum_refl by auto. reflexivity.
  - intros k x X (-> & Fx). split; [reflexivity|]. destruct X as [v|]; [| exact fmtd_none].
    intros w [= <-]. destruct (Fx v eq_refl) as [A B]. split; [now apply F_opp | now rewrite Rabs_Ropp].
  - intros k x X (-> & Fx). split; [reflexivity|]. destruct X as [v|]; [| exact fmtd_none].
    intros w [= <-]. destruct (Fx v eq_refl) as [A B]. split; [now apply F_abs | now rewrite Rabs_Rabsolu].
  - intros a b c x X y Y (-> & Fx) (-> & Fy) ->. split; [| apply NM]. cbn [Num_fuq Num_uq nmul uqv uqd uqs]. rewrite M1. reflexivity.
  - intros k x X y Y (-> & Fx) (-> & Fy). split; [| apply NM]. cbn [Num_fuq Num_uq nmul uqv uqd uqs]. rewrite M1.
    cbn [dim2]. change (dim_kind (Len 0)) with one_d_. rewrite mul_one. reflexivity.
  - intros a b c x X y Y (-> & Fx) (-> & Fy) ->. split; [| apply ND]. cbn [Num_fuq Num_uq ndiv uqv uqd uqs]. rewrite D1. reflexivity.
  - intros a c x X (-> & Fx) ->. split.
    + cbn [Num_fuq Num_uq nsqrt uqv uqd uqs]. rewrite sqrt_1. unfold sqrt_dim. rewrite sqrt_len. reflexivity.
    + destruct X as [v|]; [| exact fmtd_none]. cbn. destruct (Rleb 0 v); [apply fmtd_fop | apply fmtd_none].
  - intros x X (-> & Fx). split.
    + cbn [Num_fuq Num_uq nsin uqv uqd uqs]. unfold uphys. cbn [uqv uqs]. rewrite scl1 by auto. reflexivity.
    + destruct X as [v|]; [| exact fmtd_none]. intros w [= <-]. now apply Ls, Fx.
  - intros x X (-> & Fx). split.
    + cbn [Num_fuq Num_uq ncos uqv uqd uqs]. unfold uphys. cbn [uqv uqs]. rewrite scl1 by auto. reflexivity.
    + destruct X as [v|]; [| exact fmtd_none]. intros w [= <-]. now apply Lc, Fx.
  - intros x X (-> & Fx). split.
    + cbn [Num_fuq Num_uq nacos uqv uqd uqs]. unfold uphys. cbn [uqv uqs]. rewrite scl1 by auto. reflexivity.
    + destruct X as [v|]; [| exact fmtd_none]. cbn. destruct (Rleb (-1) v && Rleb v 1) eqn:E; [| exact fmtd_none].
      apply andb_true_iff in E as [E1 E2]. apply Rleb_true in E1. apply Rleb_true in E2.
      intros w [= <-]. apply La; auto.
  - intros a x X y Y (-> & Fx) (-> & Fy). split.
    + cbn [Num_fuq Num_uq natan2 uqv uqd uqs]. unfold inunit. cbn [uqv uqs]. rewrite D1, scl1, sum_refl by auto. reflexivity.
    + destruct X as [v|]; [| exact fmtd_none]. destruct Y as [w|]; [| exact fmtd_none]. intros z [= <-]. apply Lt; auto.
  - intros k x X (-> & Fx). split; [reflexivity|]. destruct X as [v|]; [| exact fmtd_none]. intros w [= <-]. apply isf_sign.
  - intros x X (-> & Fx).
    assert (W : fmtd f (@nwrap ext (Num_fl f L) X)).
    { destruct X as [v|]; [| exact fmtd_none]. destruct isf_rnd_pi2 as [P1 P2].
      destruct (fmod_range f ok _ v P1 P2) as (w & E & I & _). apply (Fx v eq_refl). cbn. rewrite E. intros ? [= <-]. exact I. }
    split; auto. cbn [Num_fuq Num_uq nwrap uqv uqd uqs]. unfold uphys. cbn [uqv uqs]. rewrite D1, (scl1 X), scl1 by auto. reflexivity.
  - intros k x X y Y (-> & Fx) (-> & Fy). cbn [Num_fuq Num_uq nltb uqv uqd uqs]. unfold inunit. cbn [uqv uqs]. now rewrite D1, scl1.
  - intros k x X y Y (-> & Fx) (-> & Fy). cbn [Num_fuq Num_uq nleb uqv uqd uqs]. unfold inunit. cbn [uqv uqs]. now rewrite D1, scl1.
  - intros k x X (-> & Fx). cbn [Num_fuq Num_uq nltb ncst uqv uqd uqs]. unfold inunit. cbn [uqv uqs]. rewrite D1, scl1 by apply C. reflexivity.
  - intros k x X (-> & Fx). cbn [Num_fuq Num_uq nleb ncst uqv uqd uqs]. unfold inunit. cbn [uqv uqs]. rewrite D1, scl1 by apply C. reflexivity.
  - intros k x X (-> & Fx). cbn [Num_fuq Num_uq nleb ncst uqv uqd uqs]. unfold inunit. cbn [uqv uqs]. rewrite D1, scl1 by auto. reflexivity.
  - intros k x X (-> & Fx). cbn [Num_fuq Num_uq neqb ncst uqv uqd uqs]. unfold inunit. cbn [uqv uqs]. rewrite D1, scl1 by apply C. reflexivity.
Qed.

Lemma relf_dist r : fmtd f (dval r) -> rdist relf False (inradial r) r.
Proof. intros H. destruct r as [ [ ] v]; cbn in *; (split; [reflexivity | split; [intros [ ] | split; auto] ]). Qed.
Lemma relf_in p : pos_fmtd f p -> rpos relf False (in_units p) p.
Proof.
  destruct p; cbn [pos_fmtd in_units rpos]; intros H; repeat match goal with X : _ /\ _ |- _ => destruct X end;
  repeat match goal with |- _ /\ _ => split end; auto using relf_dist; split; auto.
Qed.
Lemma relf_kw kw : kw_fmtd f kw -> rkw relf (kw_in_units kw) kw.
Proof.
  destruct kw as [kD ky kz kt kp]. intros (H1 & H2 & H3 & H4 & H5). cbn in *. unfold rkw. cbn.
  repeat match goal with |- _ /\ _ => split end.
  - destruct kD; cbn; auto. split; auto.
  - destruct ky; cbn; auto. split; auto.
  - destruct kz; cbn; auto. split; auto.
  - destruct kt as [ [a|a] |]; cbn; auto; split; auto; exact (H4 _ eq_refl).
  - destruct kp as [ [a|a] |]; cbn; auto; split; auto; exact (H5 _ eq_refl).
Qed.
Lemma relf_rdist_out q Q : rdist relf False q Q -> q = inradial Q /\ fmtd f (dval Q).
Proof. intros (E & _ & (V & W)). destruct q as [k v], Q as [k' v']. cbn in *. subst. split; auto. unfold inradial. cbn. destruct k'; reflexivity. Qed.
Lemma relf_out q Q : rpos relf False q Q -> q = in_units Q /\ pos_fmtd f Q.
Proof.
  destruct q, Q; cbn [rpos]; try tauto; intros H; repeat match goal with X : _ /\ _ |- _ => destruct X end;
  repeat match goal with X : rdist relf _ _ _ |- _ => apply relf_rdist_out in X; destruct X end;
  repeat match goal with X : relf _ _ _ |- _ => destruct X end; subst; cbn; auto.
Qed.
End Same.

(** Every conversion, with every keyword argument: when all lengths are in one unit and
    all angles in radian, quantities go through exactly the operations of the plain
    numbers (C59 to C84 apply to them), bit for bit, and the results carry the
    matching units. *)
Theorem C86_units_are_transparent :
  forall f L fac m deg n kw p t,
    fmt_ok f -> libm_ok f L -> fac 1 = 1 -> kw_fmtd f kw -> pos_fmtd f p ->
    match qrepresent_as f L fac m deg n (kw_in_units kw) (in_units p) t, frepresent_as f L m deg n kw p t with
    | Ok w q, Ok w' Q => w = w' /\ q = in_units Q /\ pos_fmtd f Q
    | Raise e, Raise e' => e = e'
    | _, _ => False
    end.
Proof.
  intros f L fac m deg n kw p t ok Lok U1 K P.
  pose proof (@represent_as_rel (uq ext) ext (Num_fuq f L fac) (Num_fl f L) (relf f) False (relf_preserved f L fac ok Lok U1)
    m deg n _ _ _ _ t (relf_kw f kw K) (relf_in f p P)) as R.
  unfold qrepresent_as, frepresent_as. unfold rres in R.
  destruct (@represent_as (uq ext) (Num_fuq f L fac) m deg n (kw_in_units kw) (in_units p) t), (@represent_as ext (Num_fl f L) m deg n kw p t);
  try contradiction; auto.
  destruct R as [-> R]. split; auto. now apply relf_out.
Qed.

(** ** Sums, differences and comparisons of positions in the same units *)
(** the operators with the unit check of [jax.tree.map] (TreeArith.v), on quantities *)
Definition qpos_add (f : fmt) (L : libm) (fac : R -> R) := @tpos_add (uq ext) (Num_fuq f L fac) Static_uq.
Definition qpos_sub (f : fmt) (L : libm) (fac : R -> R) := @tpos_sub (uq ext) (Num_fuq f L fac) Static_uq.
Definition qpos_eq (f : fmt) (L : libm) (fac : R -> R) := @tpos_eq (uq ext) (Num_fuq f L fac) Static_uq.
Section SameArith.
Variable f : fmt.
Variable L : libm.
Variable fac : R -> R.
Hypothesis ok : fmt_ok f.
Hypothesis Lok : libm_ok f L.
Hypothesis U1 : fac 1 = 1.
Variables (m : mode) (deg : bool) (n : nat).
Notation NU := (Num_fuq f L fac).
Notation repU := (@rep (uq ext) NU m deg n).

Lemma relf_arith : @preserved_arith (uq ext) ext NU (Num_fl f L) (relf f).
Proof.
  assert (D1 : 1 / 1 = 1) by field. assert (M1 : 1 * 1 = 1) by ring.
  assert (N2 : forall (g : R -> R -> ext) x y, (forall a b, fmtd f (g a b)) -> fmtd f (flift2 g x y)).
  { intros g [a|] [b|] G; cbn; auto using fmtd_none. }
  split.
  - intros k x X y Y (-> & Fx) (-> & Fy). split; [| apply N2; intros; now apply fmtd_fop].
    cbn [Num_fuq Num_uq nmul uqv uqd uqs]. rewrite M1. cbn [dim2]. f_equal. f_equal. destruct (dim_kind k); reflexivity.
  - intros k x X y Y (-> & Fx) (-> & Fy). split.
    + cbn [Num_fuq Num_uq ndiv uqv uqd uqs]. rewrite D1. cbn [dim2]. f_equal. f_equal. destruct (dim_kind k). unfold dim_div; cbn. now rewrite !Z.sub_0_r.
    + apply N2; intros. destruct (Reqb b 0); [apply fmtd_none | now apply fmtd_fop].
  - intros k x X y Y (-> & Fx) (-> & Fy). cbn [Num_fuq Num_uq neqb uqv uqd uqs]. unfold inunit. cbn [uqv uqs]. rewrite D1, scl1; auto.
Qed.
Notation P1 := (relf_preserved f L fac ok Lok U1).

(** what [rep] gives on quantities in the same units *)
Lemma rep_in q t : pos_fmtd f q -> (exists e, repU (in_units q) t = Raise e) \/
  exists w Q, repU (in_units q) t = Ok w (in_units Q) /\ pos_fmtd f Q /\ cls_of Q = t.
Proof.
  intros P. pose proof (r_rep _ False P1 m deg n _ _ t (relf_in f q P)) as R. unfold rres in R.
  destruct (repU (in_units q) t) as [w r|e] eqn:E; [right | left; eauto].
  destruct (@rep ext (Num_fl f L) m deg n q t) as [w' Q|] eqn:E'; [| contradiction].
  destruct R as [_ R]. apply relf_out in R as [-> R]. exists w, Q. repeat split; auto.
  apply Dispatch.rep_class in E'. apply E'.
Qed.
Lemma unit_len x y : same_unit (inlen x) (inlen y) = true.
Proof. cbn -[Reqb]. now apply Reqb_true. Qed.
Lemma leaf_len {T} (g : uq ext -> uq ext -> T) x y : leaf g (inlen x) (inlen y) = ret (g (inlen x) (inlen y)).
Proof. unfold leaf. now rewrite unit_len. Qed.
Lemma tcart_add_in p q : pos_fmtd f q -> @tcart_add _ NU Static_uq m deg n (in_units p) (in_units q) = @cart_add _ NU m deg n (in_units p) (in_units q).
Proof.
  intros Q. destruct p; try reflexivity; cbn [in_units tcart_add cart_add].
  - destruct (rep_in q CCart1 Q) as [(e & ->) | (w & c & -> & _ & K)]; [reflexivity|].
    destruct c; try discriminate K. cbn [in_units bind]. rewrite leaf_len. reflexivity.
  - destruct (rep_in q CCart2 Q) as [(e & ->) | (w & c & -> & _ & K)]; [reflexivity|].
    destruct c; try discriminate K. cbn [in_units bind]. rewrite !leaf_len. reflexivity.
Qed.
Lemma tcart_sub_in p q : pos_fmtd f q -> @tcart_sub _ NU Static_uq m deg n (in_units p) (in_units q) = @cart_sub _ NU m deg n (in_units p) (in_units q).
Proof.
  intros Q. destruct p; try reflexivity; cbn [in_units tcart_sub cart_sub].
  - destruct (rep_in q CCart1 Q) as [(e & ->) | (w & c & -> & _ & K)]; [reflexivity|].
    destruct c; try discriminate K. cbn [in_units bind]. rewrite leaf_len. reflexivity.
  - destruct (rep_in q CCart2 Q) as [(e & ->) | (w & c & -> & _ & K)]; [reflexivity|].
    destruct c; try discriminate K. cbn [in_units bind]. rewrite !leaf_len. reflexivity.
  - destruct (rep_in q CCart3 Q) as [(e & ->) | (w & c & -> & _ & K)]; [reflexivity|].
    destruct c; try discriminate K. cbn [in_units bind]. rewrite !leaf_len. reflexivity.
Qed.
Lemma tpos_add_in p q : pos_fmtd f p -> pos_fmtd f q ->
  @tpos_add _ NU Static_uq m deg n (in_units p) (in_units q) = @pos_add _ NU m deg n (in_units p) (in_units q).
Proof.
  intros P Q. pose proof (tcart_add_in p q Q) as C.
  assert (G : forall t, (do a <- repU (in_units p) t; do b <- repU (in_units q) t; do s <- @tcart_add _ NU Static_uq m deg n a b; repU s (cls_of (in_units p)))
    = (do a <- repU (in_units p) t; do b <- repU (in_units q) t; do s <- @cart_add _ NU m deg n a b; repU s (cls_of (in_units p)))).
  { intros t. destruct (rep_in p t P) as [(e & ->) | (w & c & -> & _ & _)]; [reflexivity|].
    destruct (rep_in q t Q) as [(e & ->) | (w' & c' & -> & Q' & _)]; [reflexivity|]. cbn [bind]. now rewrite tcart_add_in. }
  destruct p; try exact C; apply G.
Qed.
Lemma tpos_sub_in p q : pos_fmtd f p -> pos_fmtd f q ->
  @tpos_sub _ NU Static_uq m deg n (in_units p) (in_units q) = @pos_sub _ NU m deg n (in_units p) (in_units q).
Proof.
  intros P Q. pose proof (tcart_sub_in p q Q) as C.
  assert (G : forall t, (do a <- repU (in_units p) t; do b <- repU (in_units q) t; do s <- @tcart_sub _ NU Static_uq m deg n a b; repU s (cls_of (in_units p)))
    = (do a <- repU (in_units p) t; do b <- repU (in_units q) t; do s <- @cart_sub _ NU m deg n a b; repU s (cls_of (in_units p)))).
  { intros t. destruct (rep_in p t P) as [(e & ->) | (w & c & -> & _ & _)]; [reflexivity|].
    destruct (rep_in q t Q) as [(e & ->) | (w' & c' & -> & Q' & _)]; [reflexivity|]. cbn [bind]. now rewrite tcart_sub_in. }
  destruct p; try exact C; apply G.
Qed.
Definition cartesian_class (t : pcls) : Prop := t = CCart1 \/ t = CCart2 \/ t = CCart3.
Lemma tpos_eq_in p q : pos_fmtd f p -> pos_fmtd f q -> cartesian_class (cls_of p) ->
  @tpos_eq _ NU Static_uq m deg n (in_units p) (in_units q) = @pos_eq _ NU m deg n (in_units p) (in_units q).
Proof.
  intros P Q C. unfold tpos_eq, pos_eq.
  destruct (rep_in q (cls_of (in_units p)) Q) as [(e & ->) | (w & c & -> & _ & K)]; [reflexivity|]. cbn [bind].
  destruct C as [C | [C | C] ]; destruct p; try discriminate C; cbn in K; destruct c; try discriminate K;
  cbn [in_units leaves same_units eq_components]; rewrite !unit_len; cbn [andb]; reflexivity.
Qed.
End SameArith.

Definition same_outcome (f : fmt) (r : res (pos (uq ext))) (r' : res (pos ext)) : Prop :=
  match r, r' with
  | Ok w q, Ok w' Q => w = w' /\ q = in_units Q /\ pos_fmtd f Q
  | Raise e, Raise e' => e = e'
  | _, _ => False
  end.
Lemma same_outcome_of f r r' : rres (rpos (relf f) False) r r' -> same_outcome f r r'.
Proof. destruct r, r'; cbn; auto. intros [-> R]. split; auto. now apply relf_out. Qed.
Theorem C86_sums_in_one_unit :
  forall f L fac m deg n p q, fmt_ok f -> libm_ok f L -> fac 1 = 1 -> pos_fmtd f p -> pos_fmtd f q ->
    same_outcome f (qpos_add f L fac m deg n (in_units p) (in_units q)) (@pos_add ext (Num_fl f L) m deg n p q) /\
    same_outcome f (qpos_sub f L fac m deg n (in_units p) (in_units q)) (@pos_sub ext (Num_fl f L) m deg n p q).
Proof.
  intros f L fac m deg n p q ok Lok U1 P Q. unfold qpos_add, qpos_sub.
  rewrite tpos_add_in, tpos_sub_in by auto. split; apply same_outcome_of.
  - apply (r_pos_add _ False (relf_preserved f L fac ok Lok U1)); now apply relf_in.
  - apply (r_pos_sub _ False (relf_preserved f L fac ok Lok U1)); now apply relf_in.
Qed.
Theorem C86_equality_in_one_unit :
  forall f L fac m deg n p q, fmt_ok f -> libm_ok f L -> fac 1 = 1 -> pos_fmtd f p -> pos_fmtd f q -> cartesian_class (cls_of p) ->
    qpos_eq f L fac m deg n (in_units p) (in_units q) = @pos_eq ext (Num_fl f L) m deg n p q.
Proof.
  intros f L fac m deg n p q ok Lok U1 P Q C. unfold qpos_eq. rewrite tpos_eq_in by auto.
  apply (r_pos_eq _ False (relf_preserved f L fac ok Lok U1) (relf_arith f L fac ok U1)); now apply relf_in.
Qed.

(** ** Conversion of one number to another unit *)
Section Conv.
Variable f : fmt.
Variable fac : R -> R.
Variable ec : R.
Hypothesis ok : fmt_ok f.
Hypothesis fok : factors_ok fac ec.

Lemma ec_pos : 0 <= ec.
Proof. destruct fok as [_ H]. specialize (H 1 ltac:(lra)). pose proof (Rabs_pos (fac 1 - 1)). lra. Qed.
Lemma fac_up c : 0 < c -> Rabs (fac c) <= (1 + ec) * c.
Proof.
  intros Hc. destruct fok as [_ H]. specialize (H c Hc).
  replace (fac c) with ((fac c - c) + c) by ring. eapply Rle_trans. apply Rabs_triang. rewrite (Rabs_pos_eq c) by lra. lra.
Qed.
Lemma fop_half x : Rabs x <= fmax f / 2 -> fop f x = Some (frnd f x).
Proof.
  intros H. destruct ok as (A & B & C). apply fop_some with (femax f - 1)%Z; auto. lia.
  unfold fmax in H. replace (femax f) with (femax f - 1 + 1)%Z in H by lia. rewrite bpow_plus in H.
  change (bpow radix2 1) with 2 in H. lra.
Qed.
Lemma convert_err c v : 0 < c ->
  Rabs (frnd f (fac c * v) - c * v) <= ((1 + ec) * (1 + fu f) - 1) * (c * Rabs v) + eta f.
Proof.
  intros Hc. pose proof (fu_pos f) as Pu. pose proof ec_pos as Pe. pose proof (Rabs_pos v) as Pv.
  replace (frnd f (fac c * v) - c * v) with ((frnd f (fac c * v) - fac c * v) + (fac c - c) * v) by ring.
  eapply Rle_trans. apply Rabs_triang. rewrite (Rabs_mult (fac c - c)).
  assert (A : Rabs (fac c - c) * Rabs v <= ec * c * Rabs v) by (apply Rmult_le_compat_r; auto; now apply fok).
  pose proof (rn_err f ok (fac c * v)) as B. fold (eta f) in B. rewrite Rabs_mult in B.
  assert (C : Rabs (fac c) * Rabs v <= (1 + ec) * c * Rabs v) by (apply Rmult_le_compat_r; auto using fac_up).
  assert (D : fu f * (Rabs (fac c) * Rabs v) <= fu f * ((1 + ec) * c * Rabs v)) by (apply Rmult_le_compat_l; lra).
  lra.
Qed.
Lemma convert_ok c v : 0 < c -> (1 + ec) * (c * Rabs v) <= fmax f / 2 ->
  convert f fac c v = Some (frnd f (fac c * v)) /\ isf f (frnd f (fac c * v)).
Proof.
  intros Hc H. assert (E : convert f fac c v = Some (frnd f (fac c * v))).
  { cbn. apply fop_half. rewrite Rabs_mult. eapply Rle_trans; [| exact H]. rewrite <- Rmult_assoc.
    apply Rmult_le_compat_r; auto using fac_up, Rabs_pos. }
  split; auto. cbn in E. now apply (fop_isf f ok) in E.
Qed.
End Conv.

(** Accuracy, and no overflow, for every number, every pair of units *)
Theorem C86_unit_conversion_accuracy :
  forall f fac ec c v, fmt_ok f -> factors_ok fac ec -> 0 < c -> (1 + ec) * (c * Rabs v) <= fmax f / 2 ->
    exists w, convert f fac c v = Some w /\ isf f w /\
      Rabs (w - c * v) <= ((1 + ec) * (1 + fu f) - 1) * (c * Rabs v) + eta f.
Proof.
  intros f fac ec c v ok fok Hc H. destruct (convert_ok f fac ec ok fok c v Hc H) as [E I].
  exists (frnd f (fac c * v)). split; auto. split; auto. now apply convert_err.
Qed.
(** There and back *)
Theorem C86_unit_conversion_round_trip :
  forall f fac ec c v w v', fmt_ok f -> factors_ok fac ec -> 0 < c ->
    convert f fac c v = Some w -> convert f fac (/ c) w = Some v' ->
    let g := (1 + ec) * (1 + fu f) in
    Rabs (v' - v) <= (g * g - 1) * Rabs v + (g / c + 1) * eta f.
Proof.
  intros f fac ec c v w v' ok fok Hc H1 H2 g.
  cbn in H1, H2. apply (fop_isf f ok) in H1 as [_ ->]. apply (fop_isf f ok) in H2 as [_ ->].
  set (w := frnd f (fac c * v)).
  pose proof (Rinv_0_lt_compat c Hc) as Hi.
  pose proof (convert_err f fac ec ok fok c v Hc) as A. pose proof (convert_err f fac ec ok fok (/ c) w Hi) as B.
  fold w in A. fold g in A, B. set (v' := frnd f (fac (/ c) * w)) in *.
  pose proof (fu_pos f) as Pu. pose proof (ec_pos fac ec fok) as Pe. pose proof (Rabs_pos v) as Pv.
  assert (G : 1 <= g) by (unfold g; nra).
  assert (Pn : 0 <= eta f) by apply bpow_ge_0.
  assert (A' : Rabs (/ c * w - v) <= (g - 1) * Rabs v + / c * eta f).
  { replace (/ c * w - v) with (/ c * (w - c * v)) by (field; lra). rewrite Rabs_mult, (Rabs_pos_eq (/ c)) by lra.
    assert (/ c * Rabs (w - c * v) <= / c * ((g - 1) * (c * Rabs v) + eta f)) by (apply Rmult_le_compat_l; lra).
    replace ((g - 1) * Rabs v) with (/ c * ((g - 1) * (c * Rabs v))) by (field; lra). lra. }
  assert (W : / c * Rabs w <= g * Rabs v + / c * eta f).
  { rewrite <- (Rabs_pos_eq (/ c)) at 1 by lra. rewrite <- Rabs_mult.
    replace (/ c * w) with ((/ c * w - v) + v) by ring. eapply Rle_trans. apply Rabs_triang. lra. }
  replace (v' - v) with ((v' - / c * w) + (/ c * w - v)) by ring. eapply Rle_trans. apply Rabs_triang.
  assert (Q : (g - 1) * (/ c * Rabs w) <= (g - 1) * (g * Rabs v + / c * eta f)) by (apply Rmult_le_compat_l; lra).
  unfold Rdiv. lra.
Qed.
(** Conversion never changes the order of two numbers nor the sign of one *)
Theorem C86_unit_conversion_keeps_order :
  forall f fac ec c v v' w w', fmt_ok f -> factors_ok fac ec -> ec <= 1 -> 0 < c -> v <= v' ->
    convert f fac c v = Some w -> convert f fac c v' = Some w' ->
    w <= w' /\ (0 <= v -> 0 <= w) /\ (v <= 0 -> w <= 0).
Proof.
  intros f fac ec c v v' w w' ok fok He Hc Hv H1 H2.
  cbn in H1, H2. apply (fop_isf f ok) in H1 as [_ ->]. apply (fop_isf f ok) in H2 as [_ ->].
  assert (P : 0 <= fac c).
  { destruct fok as [_ H]. specialize (H c Hc). apply Rabs_le_inv in H. nra. }
  split. { apply rn_le; auto. now apply Rmult_le_compat_l. }
  split; intros K.
  - apply rn_ge_F; auto. apply F0. now apply Rmult_le_pos.
  - apply rn_le_F; auto. apply F0. nra.
Qed.
(** The same unit: the same bits.  Units whose ratio is a power of two: exact, and
    there and back the same bits. *)
Theorem C86_same_unit_same_bits :
  forall f fac ec v, fmt_ok f -> factors_ok fac ec -> isf f v -> convert f fac 1 v = Some v.
Proof.
  intros f fac ec v ok [E _] I. unfold convert. apply (scl1 f fac E). intros w [= <-]. exact I.
Qed.
Theorem C86_power_of_two_units :
  forall f fac k v, fmt_ok f -> fac (bpow radix2 k) = bpow radix2 k -> fac (bpow radix2 (- k)) = bpow radix2 (- k) ->
    isf f v -> isf f (v * bpow radix2 k) ->
    convert f fac (bpow radix2 k) v = Some (v * bpow radix2 k) /\
    convert f fac (bpow radix2 (- k)) (v * bpow radix2 k) = Some v.
Proof.
  intros f fac k v ok E1 E2 [Fv Ov] [Fw Ow]. unfold convert. cbn. rewrite E1, E2. split.
  - rewrite Rmult_comm. unfold fop. rewrite rn_id by auto. now apply fin_some.
  - replace (bpow radix2 (- k) * (v * bpow radix2 k)) with v.
    + unfold fop. rewrite rn_id by auto. now apply fin_some.
    + replace (bpow radix2 (- k) * (v * bpow radix2 k)) with (v * (bpow radix2 k * bpow radix2 (- k))) by ring.
      rewrite <- bpow_plus. replace (k + - k)%Z with 0%Z by lia. cbn. ring.
Qed.

(** ** Spherical coordinates in any units (degrees, kpc ...) to Cartesian: the lengths
    come in the unit of the radius, and converting the angles to radian adds at most
    their relative conversion error. *)
Definition qty (d : dim) (s v : R) : uq ext := mkUq (Some v : ext) (Some d) s.
Theorem C86_spherical_in_any_units_accuracy :
  forall f L fac e ec m deg n sr st sp r th ph,
    fmt_ok f -> libm_ok f L -> libm_accurate f L e -> factors_ok fac ec -> 0 < st -> 0 < sp ->
    isf f r -> (1 + ec) * (st * Rabs th) <= fmax f / 2 -> (1 + ec) * (sp * Rabs ph) <= fmax f / 2 ->
    exists x y z,
      qrepresent_as f L fac m deg (S n) nokw
        (PSph (mkDist KDistance (qty length_d sr r)) (qty angle_d st th) (qty angle_d sp ph)) CCart3
        = Ok false (PCart3 (qty length_d sr x) (qty length_d sr y) (qty length_d sr z)) /\
      let g := (1 + ec) * (1 + fu f) - 1 in
      let err := 2 * (fu f + e) * Rabs r + 2 * eta f +
                 Rabs r * ((g * (st * Rabs th) + eta f) + (g * (sp * Rabs ph) + eta f)) in
      Rabs (x - r * sin (st * th) * cos (sp * ph)) <= err /\
      Rabs (y - r * sin (st * th) * sin (sp * ph)) <= err /\
      Rabs (z - r * cos (st * th)) <= err.
Proof.
  intros f L fac e ec m deg n sr st sp r th ph ok Lok Lacc fok Pt Pp Ir Ht Hp.
  destruct (convert_ok f fac ec ok fok st th Pt Ht) as [Et It].
  destruct (convert_ok f fac ec ok fok sp ph Pp Hp) as [Ep Ip].
  pose proof (convert_err f fac ec ok fok st th Pt) as At. pose proof (convert_err f fac ec ok fok sp ph Pp) as Ap.
  set (g := (1 + ec) * (1 + fu f) - 1) in *.
  set (t' := frnd f (fac st * th)) in *. set (p' := frnd f (fac sp * ph)) in *.
  destruct (C61_spherical_to_cartesian_accuracy f L e m deg n r t' p' ok Lok Lacc Ir It Ip)
    as (x & y & z & E & _ & _ & _ & Ax & Ay & Az).
  exists x, y, z. split.
  { unfold frepresent_as in E. revert E. step. unfold qrepresent_as. step.
    unfold mk_Cart3, ret, fdist, distance, length_of_kind, cart3. cbn [dk dval].
    intros E. injection E as Ex Ey Ez.
    unfold qty. cbn [Num_fuq Num_uq nmul nsin ncos uqv uqd uqs]. unfold uphys. cbn [uqv uqs].
    unfold convert in Et, Ep. rewrite Et, Ep.
    rewrite !Rmult_1_r.
    exact (f_equal3 (fun a b c : ext => Ok false (PCart3 (mkUq a (Some length_d) sr) (mkUq b (Some length_d) sr) (mkUq c (Some length_d) sr))) Ex Ey Ez). }
  cbv zeta. pose proof (Rabs_pos r) as Pr. pose proof (fu_pos f) as Pu. pose proof (ec_pos fac ec fok) as Pe.
  assert (Pn : 0 <= eta f) by apply bpow_ge_0.
  set (dt := g * (st * Rabs th) + eta f) in *. set (dp := g * (sp * Rabs ph) + eta f) in *.
  assert (Dt : 0 <= dt) by (eapply Rle_trans; [apply Rabs_pos | exact At]).
  assert (Dp : 0 <= dp) by (eapply Rle_trans; [apply Rabs_pos | exact Ap]).
  assert (Pe' : 0 <= e).
  { destruct Lacc as [A _]. eapply Rle_trans. apply Rabs_pos. apply (A r Ir). }
  assert (K : forall a b c d, Rabs a <= 1 -> Rabs d <= 1 -> Rabs (a - b) <= dt -> Rabs (c - d) <= dp ->
     forall v, Rabs (v - r * a * c) <= 2 * (fu f + e) * Rabs r + 2 * eta f -> 
     Rabs (v - r * b * d) <= 2 * (fu f + e) * Rabs r + 2 * eta f + Rabs r * (dt + dp)).
  { intros a b c d Ha Hd Hab Hcd v Hv.
    replace (v - r * b * d) with ((v - r * a * c) + r * (a * (c - d) + (a - b) * d)) by ring.
    eapply Rle_trans. apply Rabs_triang. apply Rplus_le_compat; auto. rewrite Rabs_mult.
    apply Rmult_le_compat_l; auto. eapply Rle_trans. apply Rabs_triang. rewrite !Rabs_mult.
    assert (Rabs a * Rabs (c - d) <= 1 * dp) by (apply Rmult_le_compat; auto using Rabs_pos).
    assert (Rabs (a - b) * Rabs d <= dt * 1) by (apply Rmult_le_compat; auto using Rabs_pos).
    lra. }
  assert (C1 : forall t, Rabs (cos t) <= 1) by (intros; apply Rabs_le; pose proof (COS_bound t); lra).
  split; [| split].
  - apply (K (sin t') _ (cos p') _); auto using sin_abs_1.
    eapply Rle_trans; [apply sin_lip | exact At]. eapply Rle_trans; [apply cos_lip | exact Ap].
  - apply (K (sin t') _ (sin p') _); auto using sin_abs_1.
    eapply Rle_trans; [apply sin_lip | exact At]. eapply Rle_trans; [apply sin_lip | exact Ap].
  - replace (z - r * cos (st * th)) with (z - r * cos (st * th) * 1) by ring.
    apply (K (cos t') _ 1 1); auto. rewrite Rabs_R1; lra.
    eapply Rle_trans; [apply cos_lip | exact At]. unfold Rminus. rewrite Rplus_opp_r, Rabs_R0. exact Dp.
    rewrite Rmult_1_r. eapply Rle_trans. exact Az.
    assert (0 <= (fu f + e) * Rabs r) by (apply Rmult_le_pos; lra). lra.
Qed.
(** Cylindrical and plane polar coordinates *)
Theorem C86_cylindrical_in_any_units_accuracy :
  forall f L fac e ec m deg n sr sp sz rho ph z,
    fmt_ok f -> libm_ok f L -> libm_accurate f L e -> factors_ok fac ec -> 0 < sp ->
    isf f rho -> isf f z -> (1 + ec) * (sp * Rabs ph) <= fmax f / 2 ->
    exists x y,
      qrepresent_as f L fac m deg (S n) nokw
        (PCyl (qty length_d sr rho) (qty angle_d sp ph) (qty length_d sz z)) CCart3
        = Ok false (PCart3 (qty length_d sr x) (qty length_d sr y) (qty length_d sz z)) /\
      let g := (1 + ec) * (1 + fu f) - 1 in
      let err := (fu f + e) * Rabs rho + eta f + Rabs rho * (g * (sp * Rabs ph) + eta f) in
      Rabs (x - rho * cos (sp * ph)) <= err /\ Rabs (y - rho * sin (sp * ph)) <= err.
Proof.
  intros f L fac e ec m deg n sr sp sz r ph z ok Lok Lacc fok Pp Ir Iz Hp.
  destruct (convert_ok f fac ec ok fok sp ph Pp Hp) as [Ep Ip].
  pose proof (convert_err f fac ec ok fok sp ph Pp) as Ap.
  set (g := (1 + ec) * (1 + fu f) - 1) in *. set (p' := frnd f (fac sp * ph)) in *.
  destruct (C61_cylindrical_to_cartesian_accuracy f L e m deg n r p' z ok Lok Lacc Ir Ip Iz)
    as (x & y & E & _ & _ & Ax & Ay).
  exists x, y. split.
  { unfold frepresent_as, cyl in E. revert E. step. unfold qrepresent_as. step.
    unfold mk_Cart3, ret, cart3.
    intros E. injection E as Ex Ey.
    unfold qty. cbn [Num_fuq Num_uq nmul nsin ncos uqv uqd uqs]. unfold uphys. cbn [uqv uqs].
    unfold convert in Ep. rewrite Ep. rewrite !Rmult_1_r.
    exact (f_equal2 (fun a b : ext => Ok false (PCart3 (mkUq a (Some length_d) sr) (mkUq b (Some length_d) sr) (qty length_d sz z))) Ex Ey). }
  cbv zeta. pose proof (Rabs_pos r) as Pr.
  set (dp := g * (sp * Rabs ph) + eta f) in *.
  assert (K : forall c d v, Rabs (c - d) <= dp -> Rabs (v - r * c) <= (fu f + e) * Rabs r + eta f -> 
     Rabs (v - r * d) <= (fu f + e) * Rabs r + eta f + Rabs r * dp).
  { intros c d v Hcd Hv. replace (v - r * d) with ((v - r * c) + r * (c - d)) by ring.
    eapply Rle_trans. apply Rabs_triang. apply Rplus_le_compat; auto. rewrite Rabs_mult.
    apply Rmult_le_compat_l; auto. }
  split.
  - apply (K (cos p')); auto. eapply Rle_trans; [apply cos_lip | exact Ap].
  - apply (K (sin p')); auto. eapply Rle_trans; [apply sin_lip | exact Ap].
Qed.
Theorem C86_polar_in_any_units_accuracy :
  forall f L fac e ec m deg n sr sp r ph,
    fmt_ok f -> libm_ok f L -> libm_accurate f L e -> factors_ok fac ec -> 0 < sp ->
    isf f r -> (1 + ec) * (sp * Rabs ph) <= fmax f / 2 ->
    exists x y,
      qrepresent_as f L fac m deg (S n) nokw
        (PPolar (mkDist KDistance (qty length_d sr r)) (qty angle_d sp ph)) CCart2
        = Ok false (PCart2 (qty length_d sr x) (qty length_d sr y)) /\
      let g := (1 + ec) * (1 + fu f) - 1 in
      let err := (fu f + e) * Rabs r + eta f + Rabs r * (g * (sp * Rabs ph) + eta f) in
      Rabs (x - r * cos (sp * ph)) <= err /\ Rabs (y - r * sin (sp * ph)) <= err.
Proof.
  intros f L fac e ec m deg n sr sp r ph ok Lok Lacc fok Pp Ir Hp.
  destruct (convert_ok f fac ec ok fok sp ph Pp Hp) as [Ep Ip].
  pose proof (convert_err f fac ec ok fok sp ph Pp) as Ap.
  set (g := (1 + ec) * (1 + fu f) - 1) in *. set (p' := frnd f (fac sp * ph)) in *.
  destruct (C61_polar_to_cartesian_accuracy f L e m deg n r p' ok Lok Lacc Ir Ip)
    as (x & y & E & _ & _ & Ax & Ay).
  exists x, y. split.
  { unfold frepresent_as in E. revert E. step. unfold qrepresent_as. step.
    unfold mk_Cart2, ret, fdist, distance, length_of_kind. cbn [dk dval].
    intros E. injection E as Ex Ey.
    unfold qty. cbn [Num_fuq Num_uq nmul nsin ncos uqv uqd uqs]. unfold uphys. cbn [uqv uqs].
    unfold convert in Ep. rewrite Ep. rewrite !Rmult_1_r.
    exact (f_equal2 (fun a b : ext => Ok false (PCart2 (mkUq a (Some length_d) sr) (mkUq b (Some length_d) sr))) Ex Ey). }
  cbv zeta. pose proof (Rabs_pos r) as Pr.
  set (dp := g * (sp * Rabs ph) + eta f) in *.
  assert (K : forall c d v, Rabs (c - d) <= dp -> Rabs (v - r * c) <= (fu f + e) * Rabs r + eta f -> 
     Rabs (v - r * d) <= (fu f + e) * Rabs r + eta f + Rabs r * dp).
  { intros c d v Hcd Hv. replace (v - r * d) with ((v - r * c) + r * (c - d)) by ring.
    eapply Rle_trans. apply Rabs_triang. apply Rplus_le_compat; auto. rewrite Rabs_mult.
    apply Rmult_le_compat_l; auto. }
  split.
  - apply (K (cos p')); auto. eapply Rle_trans; [apply cos_lip | exact Ap].
  - apply (K (sin p')); auto. eapply Rle_trans; [apply sin_lip | exact Ap].
Qed.

(** ** Sums of Cartesian positions in different units: the second operand is converted
    to the unit of the first, and the sum comes in that unit. *)
Lemma mixed_sum f fac ec c x y : fmt_ok f -> factors_ok fac ec -> 0 < c ->
  Rabs x <= fmax f / 4 -> (1 + ec) * (c * Rabs y) <= fmax f / 4 ->
  exists w, (match convert f fac c y with Some v => fop f (x + v) | None => None end) = Some w /\ isf f w /\
    let d := ((1 + ec) * (1 + fu f) - 1) * (c * Rabs y) + eta f in
    Rabs (w - (x + c * y)) <= fu f * Rabs (x + c * y) + (1 + fu f) * d + eta f.
Proof.
  intros ok fok Hc Hx Hy. pose proof (fu_pos f) as Pu.
  assert (M : 0 < fmax f) by apply bpow_gt_0.
  destruct (convert_ok f fac ec ok fok c y Hc) as [E I]; [lra|].
  pose proof (convert_err f fac ec ok fok c y Hc) as A. rewrite E. set (v := frnd f (fac c * y)) in *.
  assert (B : Rabs v <= fmax f / 4).
  { destruct ok as (H1 & H2 & H3).
    assert (Q : fmax f / 4 = bpow radix2 (femax f - 2)).
    { unfold fmax. replace (femax f) with (femax f - 2 + 2)%Z at 1 by lia. rewrite bpow_plus. change (bpow radix2 2) with 4. field. }
    rewrite Q. apply rn_abs_le. { repeat split; auto. } apply F_bpow. { repeat split; auto. } lia.
    rewrite <- Q. eapply Rle_trans; [| exact Hy]. rewrite Rabs_mult, <- Rmult_assoc.
    apply Rmult_le_compat_r; [apply Rabs_pos | now apply fac_up]. }
  assert (S : fop f (x + v) = Some (frnd f (x + v))).
  { apply fop_half; auto. eapply Rle_trans. apply Rabs_triang. lra. }
  exists (frnd f (x + v)). split; auto. split. { apply (fop_isf f ok) in S. tauto. }
  cbv zeta. set (d := ((1 + ec) * (1 + fu f) - 1) * (c * Rabs y) + eta f) in *.
  replace (frnd f (x + v) - (x + c * y)) with ((frnd f (x + v) - (x + v)) + (v - c * y)) by ring.
  eapply Rle_trans. apply Rabs_triang. pose proof (rn_err f ok (x + v)) as C. fold (eta f) in C.
  assert (D : Rabs (x + v) <= Rabs (x + c * y) + d).
  { replace (x + v) with ((x + c * y) + (v - c * y)) by ring. eapply Rle_trans. apply Rabs_triang. lra. }
  assert (fu f * Rabs (x + v) <= fu f * (Rabs (x + c * y) + d)) by (apply Rmult_le_compat_l; lra). lra.
Qed.
(** no overflow when [y] is converted by [c] and added to [x] *)
Definition room_for (f : fmt) (ec c x y : R) : Prop :=
  Rabs x <= fmax f / 4 /\ (1 + ec) * (c * Rabs y) <= fmax f / 4.
Definition sum_error (f : fmt) (ec c x y : R) : R :=
  fu f * Rabs (x + c * y) + (1 + fu f) * (((1 + ec) * (1 + fu f) - 1) * (c * Rabs y) + eta f) + eta f.
Theorem C86_sum_in_mixed_units_accuracy :
  forall f L fac ec m deg n x y z x' y' z' s1 s2 s3 t1 t2 t3,
    fmt_ok f -> factors_ok fac ec -> 0 < s1 -> 0 < s2 -> 0 < s3 -> 0 < t1 -> 0 < t2 -> 0 < t3 ->
    room_for f ec (t1 / s1) x x' -> room_for f ec (t2 / s2) y y' -> room_for f ec (t3 / s3) z z' ->
    exists a b c,
      qpos_add f L fac m deg (S n) (PCart3 (qty length_d s1 x) (qty length_d s2 y) (qty length_d s3 z))
        (PCart3 (qty length_d t1 x') (qty length_d t2 y') (qty length_d t3 z'))
      = Ok false (PCart3 (qty length_d s1 a) (qty length_d s2 b) (qty length_d s3 c)) /\
      Rabs (a - (x + t1 / s1 * x')) <= sum_error f ec (t1 / s1) x x' /\
      Rabs (b - (y + t2 / s2 * y')) <= sum_error f ec (t2 / s2) y y' /\
      Rabs (c - (z + t3 / s3 * z')) <= sum_error f ec (t3 / s3) z z'.
Proof.
  intros f L fac ec m deg n x y z x' y' z' s1 s2 s3 t1 t2 t3 ok fok Hs1 Hs2 Hs3 Ht1 Ht2 Ht3 [X1 X2] [Y1 Y2] [Z1 Z2].
  destruct (mixed_sum f fac ec (t1 / s1) x x' ok fok (Rdiv_lt_0_compat _ _ Ht1 Hs1) X1 X2) as (a & Ea & _ & Ba).
  destruct (mixed_sum f fac ec (t2 / s2) y y' ok fok (Rdiv_lt_0_compat _ _ Ht2 Hs2) Y1 Y2) as (b & Eb & _ & Bb).
  destruct (mixed_sum f fac ec (t3 / s3) z z' ok fok (Rdiv_lt_0_compat _ _ Ht3 Hs3) Z1 Z2) as (c & Ec & _ & Bc).
  exists a, b, c. split; [| split; [exact Ba | split; [exact Bb | exact Bc] ] ].
  unfold qpos_add, tpos_add, tcart_add, cart_add, rep. step. unfold ret. cbn [bind orb].
  exact (f_equal3 (fun a b c : ext => Ok false (PCart3 (mkUq a (Some length_d) s1) (mkUq b (Some length_d) s2) (mkUq c (Some length_d) s3))) Ea Eb Ec).
Qed.

(** ** Cases.  Correctly rounded factors satisfy the assumptions. *)
Definition cr_fac (f : fmt) (a : R) : R := round radix2 (FLX_exp (fprec f)) ZnearestE a.
Lemma cr_fac_ok f : fmt_ok f -> factors_ok (cr_fac f) (fu f).
Proof.
  intros ok. assert (P : (0 < fprec f)%Z) by (destruct ok; lia).
  assert (Pg : Prec_gt_0 (fprec f)) by exact P. split.
  - unfold cr_fac. apply round_generic; [apply valid_rnd_N|].
    change 1 with (bpow radix2 0). apply generic_format_bpow. unfold FLX_exp. lia.
  - intros a Ha. unfold cr_fac.
    pose proof (relative_error_N_FLX radix2 (fprec f) Pg (fun t => negb (Z.even t)) a) as H.
    eapply Rle_trans. exact H. rewrite (Rabs_pos_eq a) by lra. apply Rmult_le_compat_r; [lra|].
    unfold fu. rewrite bpow_plus. change (bpow radix2 1) with 2. lra.
Qed.
Lemma ex_u : 0 < fu binary32 <= / 1000000 /\ 0 <= eta binary32 <= / 1000000 /\ 4096 <= fmax binary32 / 2.
Proof.
  split; [split; [apply fu_pos|]|split; [split; [apply bpow_ge_0|]|]].
  - unfold fu. change (bpow radix2 (- fprec binary32)) with (/ 16777216). lra.
  - unfold eta. apply Rle_trans with (bpow radix2 (-24)). apply bpow_le; simpl; lia.
    change (bpow radix2 (-24)) with (/ 16777216). lra.
  - unfold fmax. replace (femax binary32) with (127 + 1)%Z by reflexivity. rewrite bpow_plus. change (bpow radix2 1) with 2.
    assert (bpow radix2 12 <= bpow radix2 127) by (apply bpow_le; lia). change (bpow radix2 12) with 4096 in *. lra.
Qed.
Example C86_units_are_transparent_ex : exists x y,
  qrepresent_as binary32 (cr_libm binary32) (cr_fac binary32) Eager true 1 nokw
    (PCyl (inlen (Some 5)) (inrad (Some 1)) (inlen (Some 7))) CCart3
  = Ok false (PCart3 (inlen (Some x)) (inlen (Some y)) (inlen (Some 7))).
Proof.
  assert (ok := binary32_ok). assert (Lok := cr_libm_ok _ ok).
  assert (I : forall n, (Z.abs n <= 16)%Z -> isf binary32 (IZR n)) by (intros; now apply usable_int).
  assert (I' : forall n, (Z.abs n <= 16)%Z -> fmtd binary32 (Some (IZR n))) by (intros n H v [= <-]; auto).
  destruct (C61_cylindrical_to_cartesian_accuracy binary32 (cr_libm binary32) _ Eager true 0 5 1 7 ok Lok (cr_libm_accurate _ ok))
    as (x & y & E & _); try (apply I; lia).
  pose proof (C86_units_are_transparent binary32 (cr_libm binary32) (cr_fac binary32) Eager true 1 nokw (cyl 5 1 7) CCart3 ok Lok
    (proj1 (cr_fac_ok _ ok))) as T. rewrite E in T.
  assert (K : kw_fmtd binary32 nokw) by (refine (conj _ (conj _ (conj _ (conj _ _)))); intros ? [=]).
  assert (P : pos_fmtd binary32 (cyl 5 1 7)) by (cbn; refine (conj _ (conj _ _)); apply I'; lia).
  specialize (T K P). exists x, y.
  change (kw_in_units nokw) with (nokw : kwargs (uq ext)) in T.
  change (PCyl (inlen (Some 5)) (inrad (Some 1)) (inlen (Some 7))) with (in_units (cyl 5 1 7)).
  destruct (qrepresent_as _ _ _ _ _ _ _ _ _) as [w q|]; [| contradiction]. destruct T as (-> & -> & _). reflexivity.
Qed.
(** 5 kpc, polar angle 30 deg, azimuth 60 deg *)
Example C86_spherical_in_degrees_ex : exists x y z,
  qrepresent_as binary32 (cr_libm binary32) (cr_fac binary32) Eager true 1 nokw
    (PSph (mkDist KDistance (qty length_d 1000 5)) (qty angle_d (PI / 180) 30) (qty angle_d (PI / 180) 60)) CCart3
  = Ok false (PCart3 (qty length_d 1000 x) (qty length_d 1000 y) (qty length_d 1000 z)) /\
  Rabs (x - 5 / 4) <= / 1000.
Proof.
  assert (ok := binary32_ok). assert (Lok := cr_libm_ok _ ok). destruct ex_u as ((U0 & U1) & (N0 & N1) & M).
  pose proof PI_bounds as PB. pose proof (fu_pos binary32).
  assert (T : PI / 180 * Rabs 30 = PI / 6) by (rewrite Rabs_pos_eq by lra; field).
  assert (Q : PI / 180 * Rabs 60 = PI / 3) by (rewrite Rabs_pos_eq by lra; field).
  destruct (C86_spherical_in_any_units_accuracy binary32 (cr_libm binary32) (cr_fac binary32) _ _ Eager true 0 1000 (PI / 180) (PI / 180)
    5 30 60 ok Lok (cr_libm_accurate _ ok) (cr_fac_ok _ ok)) as (x & y & z & E & A & _); try lra.
  - apply (usable_int binary32 5); auto; lia.
  - rewrite T. set (u := fu binary32) in *. nra.
  - rewrite Q. set (u := fu binary32) in *. nra.
  - exists x, y, z. split; [exact E|]. cbv zeta in A. rewrite T, Q, (Rabs_pos_eq 5) in A by lra.
    replace (PI / 180 * 30) with (PI / 6) in A by field. replace (PI / 180 * 60) with (PI / 3) in A by field.
    rewrite sin_PI6, cos_PI3 in A. replace (5 * (1 / 2) * (1 / 2)) with (5 / 4) in A by field.
    eapply Rle_trans. exact A. set (u := fu binary32) in *. set (t := eta binary32) in *.
    assert (G : 0 <= (1 + u) * (1 + u) - 1 <= 3 * u) by nra.
    set (g := (1 + u) * (1 + u) - 1) in *.
    assert (g * (PI / 6) <= 3 * u * 1) by (apply Rmult_le_compat; lra).
    assert (g * (PI / 3) <= 3 * u * 2) by (apply Rmult_le_compat; lra).
    lra.
Qed.
Example C86_power_of_two_units_ex :
  convert binary32 (cr_fac binary32) (bpow radix2 3) 2 = Some (2 * bpow radix2 3) /\
  convert binary32 (cr_fac binary32) (bpow radix2 (- 3)) (2 * bpow radix2 3) = Some 2.
Proof.
  assert (ok := binary32_ok). assert (Pg : Prec_gt_0 (fprec binary32)) by (destruct ok; red; lia).
  assert (K : forall k, cr_fac binary32 (bpow radix2 k) = bpow radix2 k).
  { intros k. unfold cr_fac. apply round_generic; [apply valid_rnd_N|]. apply generic_format_bpow. unfold FLX_exp. simpl; lia. }
  apply C86_power_of_two_units; auto. apply (usable_int binary32 2); auto; lia.
  change (bpow radix2 3) with 8. replace (2 * 8) with 16 by ring. apply (usable_int binary32 16); auto; lia.
Qed.
Example C86_unit_conversion_round_trip_ex : exists w v',
  convert binary32 (cr_fac binary32) 1000 7 = Some w /\ convert binary32 (cr_fac binary32) (/ 1000) w = Some v' /\
  Rabs (v' - 7) <= / 10000.
Proof.
  assert (ok := binary32_ok). destruct ex_u as ((U0 & U1) & (N0 & N1) & M).
  pose proof (cr_fac_ok _ ok) as FO. set (u := fu binary32) in *.
  assert (R7 : Rabs 7 = 7) by (rewrite Rabs_pos_eq; lra).
  assert (M' : 1000000 <= fmax binary32 / 2).
  { unfold fmax. replace (femax binary32) with (127 + 1)%Z by reflexivity. rewrite bpow_plus. change (bpow radix2 1) with 2.
    assert (bpow radix2 20 <= bpow radix2 127) by (apply bpow_le; lia). change (bpow radix2 20) with 1048576 in *. lra. }
  destruct (C86_unit_conversion_accuracy binary32 (cr_fac binary32) _ 1000 7 ok FO) as (w & E & I & A); [lra | rewrite R7; fold u; lra |].
  assert (W : Rabs w <= 8000).
  { fold u in A. rewrite R7 in A. replace w with ((w - 1000 * 7) + 7000) by ring. eapply Rle_trans. apply Rabs_triang.
    rewrite (Rabs_pos_eq 7000) by lra. assert ((1 + u) * (1 + u) - 1 <= 3 * u) by nra. lra. }
  destruct (C86_unit_conversion_accuracy binary32 (cr_fac binary32) _ (/ 1000) w ok FO) as (v' & E' & I' & A'); [lra | fold u; pose proof (Rabs_pos w); nra |].
  exists w, v'. split; auto. split; auto.
  pose proof (C86_unit_conversion_round_trip binary32 (cr_fac binary32) u 1000 7 w v' ok FO ltac:(lra) E E') as B.
  cbv zeta in B. fold u in B. rewrite R7 in B. eapply Rle_trans. exact B.
  assert (G : 0 <= (1 + u) * (1 + u) <= 1 + 3 * u) by nra. set (g := (1 + u) * (1 + u)) in *.
  assert (g * g - 1 <= 7 * u) by nra.
  assert (0 <= eta binary32 * g <= eta binary32 * 2) by (split; [apply Rmult_le_pos; lra | apply Rmult_le_compat_l; lra]).
  unfold Rdiv. lra.
Qed.
(** (1, 2, 3) kpc + (4, 5, 6) pc *)
Example C86_sum_in_mixed_units_ex : exists a b c,
  qpos_add binary32 (cr_libm binary32) (cr_fac binary32) Eager true 1
    (PCart3 (qty length_d 1000 1) (qty length_d 1000 2) (qty length_d 1000 3))
    (PCart3 (qty length_d 1 4) (qty length_d 1 5) (qty length_d 1 6))
  = Ok false (PCart3 (qty length_d 1000 a) (qty length_d 1000 b) (qty length_d 1000 c)) /\
  Rabs (a - 1.004) <= / 10000.
Proof.
  assert (ok := binary32_ok). destruct ex_u as ((U0 & U1) & (N0 & N1) & M).
  assert (G : forall v w, 0 <= v <= 6 -> 0 <= w <= 6 -> room_for binary32 (fu binary32) (1 / 1000) v w).
  { intros v w Hv Hw. unfold room_for. rewrite !Rabs_pos_eq by lra. split; [lra|]. set (u := fu binary32) in *. nra. }
  destruct (C86_sum_in_mixed_units_accuracy binary32 (cr_libm binary32) (cr_fac binary32) _ Eager true 0 1 2 3 4 5 6
    1000 1000 1000 1 1 1 ok (cr_fac_ok _ ok)) as (a & b & c & E & A & _); try lra; try (apply G; lra).
  exists a, b, c. split; [exact E|]. unfold sum_error in A. rewrite (Rabs_pos_eq (1 + 1 / 1000 * 4)), (Rabs_pos_eq 4) in A by lra.
  replace (a - 1.004) with (a - (1 + 1 / 1000 * 4)) by lra. eapply Rle_trans. exact A.
  set (u := fu binary32) in *. set (t := eta binary32) in *.
  assert (0 <= (1 + u) * (1 + u) - 1 <= 3 * u) by nra. set (g := (1 + u) * (1 + u) - 1) in *.
  assert ((1 + u) * (g * (1 / 1000 * 4) + t) <= 2 * (g * (1 / 1000 * 4) + t)) by (apply Rmult_le_compat_r; lra).
  lra.
Qed.
Print Assumptions C86_units_are_transparent.
Print Assumptions C86_unit_conversion_accuracy.
Print Assumptions C86_unit_conversion_round_trip.
Print Assumptions C86_unit_conversion_keeps_order.
Print Assumptions C86_same_unit_same_bits.
Print Assumptions C86_power_of_two_units.
Print Assumptions C86_spherical_in_any_units_accuracy.
Print Assumptions C86_cylindrical_in_any_units_accuracy.
Print Assumptions C86_polar_in_any_units_accuracy.
Print Assumptions C86_sums_in_one_unit.
Print Assumptions C86_equality_in_one_unit.
Print Assumptions C86_sum_in_mixed_units_accuracy.
