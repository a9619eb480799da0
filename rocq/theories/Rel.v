(** * Two runs of the same conversion code on different number types.

    [represent_as] (Transform.v) is one program, polymorphic in the number type.
    If a relation between two number types, indexed by a physical kind (a power of
    length, or an angle), is kept by every primitive operation, it is kept by
    every conversion.  Used by C57 (numbers carrying units against SI numbers) and
    C58 (the same for dual numbers, i.e. for the Jacobian). *)
From Coq Require Import Reals Bool List ZArith Lia.
From Verif Require Import Num Vectors Transform Pos3D.
Import ListNotations.

(** Kinds: a power of length, an angle, a magnitude. *)
Inductive kind := Len (n : Z) | Ang | Mag.
Definition kind_of (k : dkind) : kind := match k with KDistance => Len 1 | KParallax => Ang | KDistMod => Mag end.

Section Rel.
Context {A B : Type} {NA : Num A} {NB : Num B}.
Variable rel : kind -> A -> B -> Prop.
(** [strict]: radial parts are lengths *)
Variable strict : Prop.
(** Every primitive keeps the relation. *)
Record preserved : Prop := {
  r_num : forall r, rel (Len 0) (ncst r) (ncst r);
  r_ang : forall r, rel Ang (nang r) (nang r);
  r_len : forall r, rel (Len 1) (nlen r) (nlen r);
  r_plx : forall x X, rel Ang x X -> rel (Len 1) (length_of_kind KParallax x) (length_of_kind KParallax X);
  r_dm : forall x X, rel Mag x X -> rel (Len 1) (length_of_kind KDistMod x) (length_of_kind KDistMod X);
  r_add : forall k x X y Y, rel k x X -> rel k y Y -> rel k (nadd x y) (nadd X Y);
  r_sub : forall k x X y Y, rel k x X -> rel k y Y -> rel k (nsub x y) (nsub X Y);
  r_neg : forall k x X, rel k x X -> rel k (nneg x) (nneg X);
  r_abs : forall k x X, rel k x X -> rel k (nabs x) (nabs X);
  r_mul : forall a b c x X y Y, rel (Len a) x X -> rel (Len b) y Y -> c = (a + b)%Z -> rel (Len c) (nmul x y) (nmul X Y);
  r_mul1 : forall k x X y Y, rel k x X -> rel (Len 0) y Y -> rel k (nmul x y) (nmul X Y);
  r_div : forall a b c x X y Y, rel (Len a) x X -> rel (Len b) y Y -> c = (a - b)%Z -> rel (Len c) (ndiv x y) (ndiv X Y);
  r_sqrt : forall a c x X, rel (Len a) x X -> a = (2 * c)%Z -> rel (Len c) (nsqrt x) (nsqrt X);
  r_sin : forall x X, rel Ang x X -> rel (Len 0) (nsin x) (nsin X);
  r_cos : forall x X, rel Ang x X -> rel (Len 0) (ncos x) (ncos X);
  r_acos : forall x X, rel (Len 0) x X -> rel Ang (nacos x) (nacos X);
  r_atan2 : forall a x X y Y, rel (Len a) x X -> rel (Len a) y Y -> rel Ang (natan2 x y) (natan2 X Y);
  r_sign : forall k x X, rel k x X -> rel (Len 0) (nsign x) (nsign X);
  r_wrap : forall x X, rel Ang x X -> rel Ang (nwrap x) (nwrap X);
  r_ltb : forall k x X y Y, rel k x X -> rel k y Y -> nltb x y = nltb X Y;
  r_leb : forall k x X y Y, rel k x X -> rel k y Y -> nleb x y = nleb X Y;
  r_lt0 : forall k x X, rel k x X -> nltb x (ncst 0) = nltb X (ncst 0);
  r_le0 : forall k x X, rel k x X -> nleb x (ncst 0) = nleb X (ncst 0);
  r_0le : forall k x X, rel k x X -> nleb (ncst 0) x = nleb (ncst 0) X;
  r_eq0 : forall k x X, rel k x X -> neqb x (ncst 0) = neqb X (ncst 0) }.
Hypothesis H : preserved.

(** Related radial fields, positions, keyword arguments, outcomes. *)
Definition rdist (d : dist A) (D : dist B) : Prop :=
  dk d = dk D /\ (strict -> dk d = KDistance) /\ rel (kind_of (dk d)) (dval d) (dval D).
Definition rpos (p : pos A) (P : pos B) : Prop :=
  match p, P with
  | PCart1 x, PCart1 X => rel (Len 1) x X
  | PRadial r, PRadial r' => rdist r r'
  | PCart2 x y, PCart2 X Y => rel (Len 1) x X /\ rel (Len 1) y Y
  | PPolar r a, PPolar r' a' => rdist r r' /\ rel Ang a a'
  | PTwoSphere a b, PTwoSphere a' b' => rel Ang a a' /\ rel Ang b b'
  | PCart3 x y z, PCart3 X Y Z => rel (Len 1) x X /\ rel (Len 1) y Y /\ rel (Len 1) z Z
  | PCyl x a z, PCyl X a' Z => rel (Len 1) x X /\ rel Ang a a' /\ rel (Len 1) z Z
  | PSph r a b, PSph r' a' b' | PMSph r a b, PMSph r' a' b' => rdist r r' /\ rel Ang a a' /\ rel Ang b b'
  | PLonLat a b r, PLonLat a' b' r' => rel Ang a a' /\ rel Ang b b' /\ rdist r r'
  | PProlate mu nu a D, PProlate mu' nu' a' D' =>
      rel (Len 2) mu mu' /\ rel (Len 2) nu nu' /\ rel Ang a a' /\ rel (Len 1) D D'
  | _, _ => False
  end.
Definition ropt {T U} (R : T -> U -> Prop) (o : option T) (o' : option U) : Prop :=
  match o, o' with Some x, Some y => R x y | None, None => True | _, _ => False end.
Definition rang (a : ang A) (a' : ang B) : Prop :=
  match a, a' with AsAngle x, AsAngle y | AsQty x, AsQty y => rel Ang x y | _, _ => False end.
Definition rkw (kw : kwargs A) (kw' : kwargs B) : Prop :=
  ropt (rel (Len 1)) (kw_Delta kw) (kw_Delta kw') /\ ropt (rel (Len 1)) (kw_y kw) (kw_y kw') /\
  ropt (rel (Len 1)) (kw_z kw) (kw_z kw') /\ ropt rang (kw_theta kw) (kw_theta kw') /\ ropt rang (kw_phi kw) (kw_phi kw').
Definition rres {T U} (R : T -> U -> Prop) (r : res T) (r' : res U) : Prop :=
  match r, r' with Ok w x, Ok w' y => w = w' /\ R x y | Raise e, Raise e' => e = e' | _, _ => False end.

Lemma rr_ret {T U} (R : T -> U -> Prop) x y : R x y -> rres R (ret x) (ret y).
Proof. now split. Qed.
Lemma rr_bind {T U T' U'} (R : T -> U -> Prop) (R' : T' -> U' -> Prop) r r' k k' : rres R r r' ->
  (forall x y, R x y -> rres R' (k x) (k' y)) -> rres R' (bind r k) (bind r' k').
Proof.
  intros Hr K. destruct r as [w x|e], r' as [w' y|e']; cbn in *; try tauto. destruct Hr as [-> Hr].
  specialize (K x y Hr). destruct (k x), (k' y); cbn in *; tauto || (destruct K as [-> ?]; auto).
Qed.
Lemma rr_warn {T U} (R : T -> U -> Prop) r r' : rres R r r' -> rres R (warn r) (warn r').
Proof. destruct r, r'; cbn; intuition auto. Qed.
Lemma rr_raise {T U} (R : T -> U -> Prop) e : rres R (Raise e) (Raise e). Proof. reflexivity. Qed.
Lemma rr_chk {T U} (R : T -> U -> Prop) (c c' : res unit) k k' : c = c' -> rres R k k' ->
  rres R (bind c (fun _ => k)) (bind c' (fun _ => k')).
Proof. intros <- K. destruct c as [w []|]; cbn; auto. destruct k, k'; cbn in *; tauto || (destruct K as [-> ?]; auto). Qed.
Lemma r_if (c c' : bool) k x X y Y : c = c' -> rel k x X -> rel k y Y -> rel k (if c then x else y) (if c' then X else Y).
Proof. intros <-. now destruct c. Qed.
Lemma r_sel (c c' : bool) k x X y Y : c = c' -> rel k x X -> rel k y Y -> rel k (sel c x y) (sel c' X Y).
Proof. intros <-. now destruct c. Qed.

(** Solves [rel k e e'] along the structure of the expressions. *)
Ltac rl :=
  unfold nsq in *;
  first
  [ eassumption
  | match goal with
    | |- rel (Len 0) (ncst _) _ => apply (r_num H)
    | |- rel _ (nang _) _ => apply (r_ang H)
    | |- rel _ (nlen _) _ => apply (r_len H)
    | |- rel _ (ncst _) _ => apply (r_num H)
    | |- rel _ (nadd _ _) _ => eapply (r_add H); [rl|rl]
    | |- rel _ (nsub _ _) _ => eapply (r_sub H); [rl|rl]
    | |- rel _ (nneg _) _ => eapply (r_neg H); rl
    | |- rel _ (nabs _) _ => eapply (r_abs H); rl
    | |- rel _ (nmul _ _) _ => eapply (r_mul H); [rl|rl|reflexivity]
    | |- rel _ (ndiv _ _) _ => eapply (r_div H); [rl|rl|reflexivity]
    | |- rel _ (nsqrt _) _ =>
        first [ eapply (r_sqrt H _ 1%Z); [rl|reflexivity] | eapply (r_sqrt H _ 2%Z); [rl|reflexivity]
              | eapply (r_sqrt H _ 0%Z); [rl|reflexivity] ]
    | |- rel _ (nsin _) _ => eapply (r_sin H); rl
    | |- rel _ (ncos _) _ => eapply (r_cos H); rl
    | |- rel _ (nacos _) _ => eapply (r_acos H); rl
    | |- rel _ (natan2 _ _) _ => eapply (r_atan2 H); [rl|rl]
    | |- rel _ (nsign _) _ => eapply (r_sign H); rl
    | |- rel _ (nwrap _) _ => eapply (r_wrap H); rl
    | |- rel _ (if _ then _ else _) _ => apply r_if; [rl|rl|rl]
    | |- rel _ (sel _ _ _) _ => apply r_sel; [rl|rl|rl]
    | |- nltb _ (ncst 0) = nltb _ (ncst 0) => eapply (r_lt0 H); rl
    | |- nleb (ncst 0) _ = nleb (ncst 0) _ => eapply (r_0le H); rl
    | |- nleb _ (ncst 0) = nleb _ (ncst 0) => eapply (r_le0 H); rl
    | |- neqb _ (ncst 0) = neqb _ (ncst 0) => eapply (r_eq0 H); rl
    | |- nltb _ _ = nltb _ _ => first [apply (r_ltb H Ang); [rl|rl] | eapply (r_ltb H); [rl|rl]]
    | |- nleb _ _ = nleb _ _ => eapply (r_leb H); [rl|rl]
    end ].

(** ** Constructors *)
Definition rrarg (a : rarg A) (a' : rarg B) : Prop :=
  match a, a' with
  | RKeep d, RKeep d' => rdist d d'
  | RQty k v, RQty k' v' => k = k' /\ rel (kind_of k) v v'
  | _, _ => False
  end.
Lemma r_conv_r a a' : rrarg a a' -> rdist (conv_r a) (conv_r a').
Proof.
  destruct a as [d|k v], a' as [d'|k' v']; cbn [rrarg conv_r]; try tauto. intros [<- R]. split; [reflexivity|]. split; [reflexivity|]. cbn [dk dval kind_of].
  destruct k; [exact R|now apply (r_plx H)|now apply (r_dm H)].
Qed.
Lemma r_conv_az a a' : rang a a' -> rel Ang (conv_az a) (conv_az a').
Proof. destruct a, a'; cbn; try tauto. intros. rl. Qed.
Lemma r_ang_val a a' : rang a a' -> rel Ang (ang_val a) (ang_val a').
Proof. destruct a, a'; cbn; tauto. Qed.
Lemma r_nonneg m k x X : rel k x X -> check_nonneg m x = check_nonneg m X.
Proof. intros. destruct m; auto. unfold check_nonneg. erewrite (r_lt0 H); [reflexivity|eassumption]. Qed.
Lemma r_polar m l L u U x X : rel Ang l L -> rel Ang u U -> rel Ang x X -> check_polar m l u x = check_polar m L U X.
Proof.
  intros. destruct m; auto. unfold check_polar.
  erewrite (r_ltb H _ x X l L), (r_ltb H _ u U x X) by eassumption. reflexivity.
Qed.
Lemma r_prolate m mu mu' nu nu' D D' : rel (Len 2) mu mu' -> rel (Len 2) nu nu' -> rel (Len 1) D D' ->
  check_prolate m mu nu D = check_prolate m mu' nu' D'.
Proof.
  intros. destruct m; auto. unfold check_prolate.
  rewrite (r_le0 H (Len 1) D D') by rl.
  rewrite (r_ltb H (Len 2) mu mu' (nsq D) (nsq D')) by rl.
  rewrite (r_ltb H (Len 2) (nsq D) (nsq D') (nabs nu) (nabs nu')) by rl. reflexivity.
Qed.
Notation rp := (rres rpos).
Ltac mk := repeat (apply rr_chk; [first [eapply r_nonneg; eassumption | apply r_polar; rl | apply r_prolate; rl]|]);
           apply rr_ret; cbn; repeat split; auto using r_conv_az.
Lemma r_Radial m a a' : rrarg a a' -> rp (mk_Radial m a) (mk_Radial m a').
Proof. intros R. destruct (r_conv_r _ _ R) as (? & ? & ?). unfold mk_Radial. cbv zeta. mk. Qed.
Lemma r_Polar m a a' b b' : rrarg a a' -> rang b b' -> rp (mk_Polar m a b) (mk_Polar m a' b').
Proof. intros R R2. destruct (r_conv_r _ _ R) as (? & ? & ?). unfold mk_Polar. cbv zeta. mk. Qed.
Lemma r_Cyl m x X b b' z Z : rel (Len 1) x X -> rang b b' -> rel (Len 1) z Z -> rp (mk_Cyl m x b z) (mk_Cyl m X b' Z).
Proof. intros. unfold mk_Cyl. mk. Qed.
Lemma r_Sph m a a' x X b b' : rrarg a a' -> rel Ang x X -> rang b b' -> rp (mk_Sph m a x b) (mk_Sph m a' X b').
Proof. intros R ? ?. destruct (r_conv_r _ _ R) as (? & ? & ?). unfold mk_Sph. cbv zeta. mk. Qed.
Lemma r_MSph m a a' x X b b' : rrarg a a' -> rel Ang x X -> rang b b' -> rp (mk_MSph m a b x) (mk_MSph m a' b' X).
Proof. intros R ? ?. destruct (r_conv_r _ _ R) as (? & ? & ?). unfold mk_MSph. cbv zeta. mk. Qed.
Lemma r_LonLat m a a' x X b b' : rrarg a a' -> rel Ang x X -> rang b b' -> rp (mk_LonLat m b x a) (mk_LonLat m b' X a').
Proof. intros R ? ?. destruct (r_conv_r _ _ R) as (? & ? & ?). unfold mk_LonLat. cbv zeta. mk. Qed.
Lemma r_TwoSphere m x X b b' : rel Ang x X -> rang b b' -> rp (mk_TwoSphere m x b) (mk_TwoSphere m X b').
Proof. intros. unfold mk_TwoSphere. mk. Qed.
Lemma r_Prolate m mu mu' nu nu' b b' D D' : rel (Len 2) mu mu' -> rel (Len 2) nu nu' -> rang b b' -> rel (Len 1) D D' ->
  rp (mk_Prolate m mu nu b D) (mk_Prolate m mu' nu' b' D').
Proof. intros. unfold mk_Prolate. mk. Qed.
Lemma r_redec deg x X : rel Ang x X -> rang (redecorate deg x) (redecorate deg X).
Proof. now destruct deg. Qed.
Lemma r_from_Sph m deg a a' x X b b' : rrarg a a' -> rel Ang x X -> rang b b' -> rp (from_Sph m deg a x b) (from_Sph m deg a' X b').
Proof.
  intros R ? Rb. destruct (r_conv_r _ _ R) as (? & ? & ?). pose proof (r_conv_az _ _ Rb). unfold from_Sph. cbv zeta.
  apply r_Sph.
  - cbn. repeat split; auto. cbn. rl.
  - rl.
  - apply r_redec. rl.
Qed.
Lemma r_from_MSph m deg a a' x X b b' : rrarg a a' -> rel Ang x X -> rang b b' -> rp (from_MSph m deg a b x) (from_MSph m deg a' b' X).
Proof.
  intros R ? Rb. destruct (r_conv_r _ _ R) as (? & ? & ?). pose proof (r_conv_az _ _ Rb). unfold from_MSph. cbv zeta.
  apply r_MSph.
  - cbn. repeat split; auto. cbn. rl.
  - rl.
  - apply r_redec. rl.
Qed.
Lemma r_from_LonLat m deg a a' x X b b' : rrarg a a' -> rel Ang x X -> rang b b' ->
  rp (from_LonLat m deg b x a) (from_LonLat m deg b' X a').
Proof.
  intros R ? Rb. destruct (r_conv_r _ _ R) as (? & ? & ?). pose proof (r_conv_az _ _ Rb). unfold from_LonLat. cbv zeta.
  apply r_LonLat.
  - cbn. repeat split; auto. cbn. rl.
  - rl.
  - apply r_redec. rl.
Qed.
Lemma r_prolate_coords rho rho' z z' D D' : rel (Len 1) rho rho' -> rel (Len 1) z z' -> rel (Len 1) D D' ->
  rel (Len 2) (fst (prolate_coords rho z D)) (fst (prolate_coords rho' z' D')) /\
  rel (Len 2) (snd (prolate_coords rho z D)) (snd (prolate_coords rho' z' D')).
Proof. intros. unfold prolate_coords. cbv zeta. cbn [fst snd]. split; rl. Qed.

(** ** Keyword arguments *)
Lemma r_nokw : rkw nokw nokw. Proof. cbn. repeat split. Qed.
Lemma r_kD D D' : rel (Len 1) D D' -> rkw (kw_Delta_only D) (kw_Delta_only D').
Proof. intros. cbn. repeat split; auto. Qed.
Lemma r_kz D D' : rel (Len 1) D D' -> rkw (kw_z_only D) (kw_z_only D').
Proof. intros. cbn. repeat split; auto. Qed.
Lemma r_dfltL o o' : ropt (rel (Len 1)) o o' -> rel (Len 1) (dflt o zeroL) (dflt o' zeroL).
Proof. destruct o, o'; cbn; try tauto. intros _. apply (r_len H). Qed.
Lemma r_dfltA o o' : ropt rang o o' -> rang (dflt o zeroA) (dflt o' zeroA).
Proof. destruct o, o'; cbn; try tauto. intros _. apply (r_ang H). Qed.
Lemma rpos_cls p P : rpos p P -> cls_of p = cls_of P.
Proof. destruct p, P; cbn; tauto. Qed.
Lemma r_as_length d D : rdist d D -> rres (rel (Len 1)) (as_length d) (as_length D).
Proof. intros (E & ST & R). unfold as_length. rewrite <- E. destruct (dk d); try reflexivity. now apply rr_ret. Qed.
Lemma r_length_times d D x X : rdist d D -> rel (Len 0) x X -> rres (rel (Len 1)) (length_times d x) (length_times D X).
Proof. intros (E & ST & R) K. unfold length_times. rewrite <- E. destruct (dk d); try reflexivity. cbn in R. apply rr_ret. rl. Qed.
Lemma r_distance d D : rdist d D -> rel (Len 1) (distance d) (distance D).
Proof.
  intros (E & ST & R). unfold distance. rewrite <- E. destruct (dk d); [exact R|now apply (r_plx H)|now apply (r_dm H)].
Qed.

Lemma represent_as_rel m deg f : forall kw kw' p P t, rkw kw kw' -> rpos p P ->
  rp (represent_as m deg f kw p t) (represent_as m deg f kw' P t).
Proof.
  induction f as [|f IH]; intros kw kw' p P t K R; [reflexivity|].
  rewrite !rep_S, (rpos_cls _ _ R). destruct kw as [kD ky kz kt kp], kw' as [kD' ky' kz' kt' kp'].
  destruct K as (K1 & K2 & K3 & K4 & K5). cbn [kw_Delta kw_y kw_z kw_theta kw_phi] in *.
  pose proof (r_dfltL _ _ K2) as D2. pose proof (r_dfltL _ _ K3) as D3.
  pose proof (r_dfltA _ _ K4) as D4. pose proof (r_dfltA _ _ K5) as D5.
  pose proof (r_ang_val _ _ D4) as D4'. pose proof (r_ang_val _ _ D5) as D5'.
  assert (IHn : forall q Q t, rpos q Q -> rp (represent_as m deg f nokw q t) (represent_as m deg f nokw Q t))
    by (intros; apply IH; auto using r_nokw).
  assert (IHD : forall D D' q Q t, rel (Len 1) D D' -> rpos q Q ->
    rp (represent_as m deg f (kw_Delta_only D) q t) (represent_as m deg f (kw_Delta_only D') Q t))
    by (intros; apply IH; auto using r_kD).
  assert (IHz : forall D D' q Q t, rel (Len 1) D D' -> rpos q Q ->
    rp (represent_as m deg f (kw_z_only D) q t) (represent_as m deg f (kw_z_only D') Q t))
    by (intros; apply IH; auto using r_kz).
  destruct p, P; cbn [rpos] in R; try contradiction;
  repeat match goal with X : _ /\ _ |- _ => destruct X end;
  repeat match goal with X : rdist ?d ?D |- _ =>
    let a := fresh "RD" in assert (a := r_distance _ _ X); revert X end; intros;
  destruct t; cbn [cls_of]; resolve1; cbn [run kw_Delta kw_y kw_z kw_theta kw_phi]; cbv zeta;
  try reflexivity.
  all: repeat first
   [ apply rr_warn
   | apply rr_raise
   | match goal with
     | |- rp (ret _) (ret _) => apply rr_ret; cbn [rpos]; repeat match goal with |- _ /\ _ => split end; assumption
     | |- rp (bind (represent_as _ _ _ nokw _ _) _) _ => eapply rr_bind; [apply IHn|intros ? ? ?]
     | |- rp (bind (represent_as _ _ _ (kw_z_only _) _ _) _) _ => eapply rr_bind; [apply IHz|intros ? ? ?]
     | |- rp (represent_as _ _ _ nokw _ _) _ => apply IHn
     | |- rp (represent_as _ _ _ (kw_Delta_only _) _ _) _ => apply IHD
     | |- rp (bind (as_length _) _) _ => eapply rr_bind; [apply r_as_length; assumption|intros ? ? ?]
     | |- rp (bind (length_times _ _) _) _ => eapply rr_bind; [apply r_length_times; [assumption|rl]|intros ? ? ?]
     | |- rp (mk_Cart1 _) _ => unfold mk_Cart1; apply rr_ret; cbn; rl
     | |- rp (mk_Cart2 _ _) _ => unfold mk_Cart2; apply rr_ret; cbn; repeat split; rl
     | |- rp (mk_Cart3 _ _ _) _ => unfold mk_Cart3; apply rr_ret; cbn; repeat split; rl
     | |- rp (mk_Radial _ _) _ => apply r_Radial
     | |- rp (mk_Polar _ _ _) _ => apply r_Polar
     | |- rp (mk_Cyl _ _ _ _) _ => apply r_Cyl
     | |- rp (mk_Sph _ _ _ _) _ => apply r_Sph
     | |- rp (mk_MSph _ _ _ _) _ => apply r_MSph
     | |- rp (mk_LonLat _ _ _ _) _ => apply r_LonLat
     | |- rp (mk_Prolate _ _ _ _ _) _ => apply r_Prolate
     | |- rp (from_Sph _ _ _ _ _) _ => apply r_from_Sph
     | |- rp (from_MSph _ _ _ _ _) _ => apply r_from_MSph
     | |- rp (match ?k with _ => _ end) _ =>
         match type of K1 with ropt _ k ?k' => destruct k, k'; cbn in K1; try contradiction; [|reflexivity] end
     | |- rp (match ?k with _ => _ end) _ =>
         match type of K1 with ropt _ k ?k' => destruct k, k'; cbn in K1; try contradiction end
     | |- rpos _ _ => cbn [rpos]; repeat match goal with |- _ /\ _ => split end; assumption
     | |- rpos _ _ => eassumption
     | |- rrarg (RKeep _) (RKeep _) => assumption
     | |- rrarg (RQty _ _) (RQty _ _) =>
         cbn; first [match goal with X : rdist ?d ?D |- dk ?d = dk ?D /\ rel _ (dval _) (dval _) => exact (conj (proj1 X) (proj2 (proj2 X))) end | match goal with X : rdist ?d ?D |- dk ?d = dk ?D /\ _ => split; [exact (proj1 X)|]; apply (r_mul1 H); [exact (proj2 (proj2 X))|rl] end | refine (conj eq_refl _); cbn; rl]
     | |- rang (AsAngle _) (AsAngle _) => cbn; rl
     | |- rang (AsQty _) (AsQty _) => cbn; rl
     | |- rang _ _ => assumption
     | |- rel _ (fst (prolate_coords _ _ _)) _ => apply r_prolate_coords; assumption
     | |- rel _ (snd (prolate_coords _ _ _)) _ => apply r_prolate_coords; assumption
     | |- rel _ _ _ => rl
     end ].
Qed.
End Rel.
