(** * Change of the unit of length commutes with [represent_as] (used by C44). *)
From Coq Require Import Reals Bool List ZArith Lra.
From Verif Require Import Num Vectors Spec Transform Pos3D Pos3DThm Dispatch.
Import ListNotations.
Open Scope R_scope.

Section Scale.
Variable l : R.
Hypothesis Hl : 0 < l.

Definition sc (a : R) (x : ext) : ext := match x with Some v => Some (a * v) | None => None end.
Definition sdist (d : dist ext) : dist ext := mkDist (dk d) (sc l (dval d)).
(** Every length multiplied by [l], the squared lengths [mu], [nu] by [l * l], angles kept. *)
Definition scale_pos (p : pos ext) : pos ext :=
  match p with
  | PCart1 x => PCart1 (sc l x)
  | PRadial r => PRadial (sdist r)
  | PCart2 x y => PCart2 (sc l x) (sc l y)
  | PPolar r phi => PPolar (sdist r) phi
  | PTwoSphere a b => PTwoSphere a b
  | PCart3 x y z => PCart3 (sc l x) (sc l y) (sc l z)
  | PCyl rho phi z => PCyl (sc l rho) phi (sc l z)
  | PSph r theta phi => PSph (sdist r) theta phi
  | PMSph r theta phi => PMSph (sdist r) theta phi
  | PLonLat lon lat d => PLonLat lon lat (sdist d)
  | PProlate mu nu phi D => PProlate (sc (l * l) mu) (sc (l * l) nu) phi (sc l D)
  end.
Definition scale_kw (kw : kwargs ext) : kwargs ext :=
  mkKw (option_map (sc l) (kw_Delta kw)) (option_map (sc l) (kw_y kw)) (option_map (sc l) (kw_z kw))
       (kw_theta kw) (kw_phi kw).
(** radial parts are lengths *)
Definition len_kind (p : pos ext) : Prop :=
  match p with
  | PRadial r | PPolar r _ | PSph r _ _ | PMSph r _ _ | PLonLat _ _ r => dk r = KDistance
  | _ => True
  end.
Definition rres (r r' : res (pos ext)) : Prop :=
  match r with Ok w q => r' = Ok w (scale_pos q) /\ len_kind q | Raise e => r' = Raise e end.

(** ** Arithmetic *)
Lemma l2 : 0 < l * l. Proof. nra. Qed.
Lemma Rltb_sc a x y : 0 < a -> Rltb (a * x) (a * y) = Rltb x y.
Proof. intros. unfold Rltb. destruct (Rlt_dec (a*x) (a*y)), (Rlt_dec x y); auto; exfalso; nra. Qed.
Lemma Rleb_sc a x y : 0 < a -> Rleb (a * x) (a * y) = Rleb x y.
Proof. intros. unfold Rleb. destruct (Rle_dec (a*x) (a*y)), (Rle_dec x y); auto; exfalso; nra. Qed.
Lemma Reqb_sc a x y : 0 < a -> Reqb (a * x) (a * y) = Reqb x y.
Proof. intros. unfold Reqb. destruct (Req_EM_T (a*x) (a*y)), (Req_EM_T x y); auto; exfalso; nra. Qed.
Lemma zero_sc a : (ncst 0 : ext) = sc a (ncst 0). Proof. cbn. now rewrite Rmult_0_r. Qed.

Lemma sc_ltb a x y : 0 < a -> nltb (sc a x) (sc a y) = nltb x y.
Proof. intros. destruct x, y; cbn; auto. now apply Rltb_sc. Qed.
Lemma sc_leb a x y : 0 < a -> nleb (sc a x) (sc a y) = nleb x y.
Proof. intros. destruct x, y; cbn; auto. now apply Rleb_sc. Qed.
Lemma sc_eqb a x y : 0 < a -> neqb (sc a x) (sc a y) = neqb x y.
Proof. intros. destruct x, y; cbn; auto. now apply Reqb_sc. Qed.
Lemma sc_neg0 a x : 0 < a -> nltb (sc a x) (ncst 0) = nltb x (ncst 0).
Proof. intros. rewrite (zero_sc a) at 1. now apply sc_ltb. Qed.
Lemma sc_le0 a x : 0 < a -> nleb (sc a x) (ncst 0) = nleb x (ncst 0).
Proof. intros. rewrite (zero_sc a) at 1. now apply sc_leb. Qed.
Lemma sc_eq0 a x : 0 < a -> neqb (sc a x) (ncst 0) = neqb x (ncst 0).
Proof. intros. rewrite (zero_sc a) at 1. now apply sc_eqb. Qed.
Lemma sc_0le a x : 0 < a -> nleb (ncst 0) (sc a x) = nleb (ncst 0) x.
Proof. intros. rewrite (zero_sc a) at 1. now apply sc_leb. Qed.
Lemma sc_add a x y : nadd (sc a x) (sc a y) = sc a (nadd x y).
Proof. destruct x, y; cbn; auto. f_equal. ring. Qed.
Lemma sc_sub a x y : nsub (sc a x) (sc a y) = sc a (nsub x y).
Proof. destruct x, y; cbn; auto. f_equal. ring. Qed.
Lemma sc_neg a x : nneg (sc a x) = sc a (nneg x).
Proof. destruct x; cbn; auto. f_equal. ring. Qed.
Lemma sc_mul2 a b x y : nmul (sc a x) (sc b y) = sc (a * b) (nmul x y).
Proof. destruct x, y; cbn; auto. f_equal. ring. Qed.
Lemma sc_mull a x y : nmul (sc a x) y = sc a (nmul x y).
Proof. destruct x, y; cbn; auto. f_equal. ring. Qed.
Lemma sc_mulr a x y : nmul x (sc a y) = sc a (nmul x y).
Proof. destruct x, y; cbn; auto. f_equal. ring. Qed.
Lemma sc_sq a x : nsq (sc a x) = sc (a * a) (nsq x).
Proof. unfold nsq. apply sc_mul2. Qed.
Lemma sc_sqrt a x : 0 < a -> nsqrt (sc (a * a) x) = sc a (nsqrt x).
Proof.
  intros H. destruct x as [x|]; cbn; auto. replace 0 with (a * a * 0) at 1 by ring. rewrite Rleb_sc by nra.
  destruct (Rleb 0 x) eqn:E; cbn; auto. apply Rleb_true in E. f_equal. rewrite sqrt_mult by nra. now rewrite sqrt_square by lra.
Qed.
Lemma sc_div a b x y : 0 < b -> ndiv (sc (a * b) x) (sc b y) = sc a (ndiv x y).
Proof.
  intros H. destruct x as [x|], y as [y|]; cbn; auto. replace 0 with (b * 0) at 1 by ring. rewrite Reqb_sc by auto.
  destruct (Reqb y 0) eqn:E; cbn; auto. apply Reqb_false in E. f_equal. field. lra.
Qed.
Lemma sc_div1 b x y : 0 < b -> ndiv (sc b x) (sc b y) = ndiv x y.
Proof.
  intros H. replace (sc b x) with (sc (1 * b) x) by now rewrite Rmult_1_l. rewrite sc_div by auto.
  destruct (ndiv x y); cbn; auto. now rewrite Rmult_1_l.
Qed.
Lemma sc_atan2 a x y : 0 < a -> natan2 (sc a x) (sc a y) = natan2 x y.
Proof.
  intros H. destruct x as [x|], y as [y|]; cbn; auto. f_equal. unfold Ratan2.
  assert (Q1 : forall u, Rltb 0 (a * u) = Rltb 0 u) by (intros; rewrite <- (Rltb_sc a 0 u), Rmult_0_r by auto; reflexivity).
  assert (Q2 : forall u, Rltb (a * u) 0 = Rltb u 0) by (intros; rewrite <- (Rltb_sc a u 0), Rmult_0_r by auto; reflexivity).
  assert (Q3 : forall u, Rleb 0 (a * u) = Rleb 0 u) by (intros; rewrite <- (Rleb_sc a 0 u), Rmult_0_r by auto; reflexivity).
  rewrite !Q1, !Q2, Q3.
  destruct (Rltb 0 y) eqn:E1; [apply Rltb_true in E1; f_equal; field; lra|].
  destruct (Rltb y 0) eqn:E2; [apply Rltb_true in E2|reflexivity].
  replace (a * x / (a * y)) with (x / y) by (field; lra). reflexivity.
Qed.
Lemma sc_abs a x : 0 < a -> nabs (sc a x) = sc a (nabs x).
Proof. intros. destruct x as [x|]; cbn; auto. rewrite Rabs_mult, (Rabs_pos_eq a) by lra. reflexivity. Qed.
Lemma sc_sign a x : 0 < a -> nsign (sc a x) = nsign x.
Proof.
  intros H. destruct x as [x|]; cbn; auto. unfold Rsign. f_equal.
  rewrite <- (Rltb_sc a 0 x), <- (Rltb_sc a x 0), Rmult_0_r by auto. reflexivity.
Qed.
Lemma sc_if a (b : bool) x y : (if b then sc a x else sc a y) = sc a (if b then x else y).
Proof. now destruct b. Qed.
Lemma dflt_sc (o : option ext) : dflt (option_map (sc l) o) zeroL = sc l (dflt o zeroL).
Proof. destruct o; cbn; auto. unfold zeroL. now rewrite (zero_sc l) at 1. Qed.

(** ** Constructors *)
Lemma rr_ret q : len_kind q -> rres (ret q) (ret (scale_pos q)).
Proof. split; auto. Qed.
Lemma rr_bind r r' k k' : rres r r' -> (forall q, len_kind q -> rres (k q) (k' (scale_pos q))) -> rres (bind r k) (bind r' k').
Proof.
  intros H K. destruct r as [w q|e]; cbn in *; [destruct H as [-> L]|now subst].
  specialize (K q L). cbn. destruct (k q); cbn in *; [destruct K as [-> ?]|subst; rewrite K]; auto.
Qed.
Lemma rr_warn r r' : rres r r' -> rres (warn r) (warn r').
Proof. intros H. destruct r; cbn in *; [destruct H as [-> ?]|subst]; auto. Qed.
Lemma nonneg_sc m x : check_nonneg m (sc l x) = check_nonneg m x.
Proof. destruct m; cbn [check_nonneg]; auto. now rewrite sc_neg0. Qed.
Lemma rr_chk (c : res unit) k k' : rres k k' -> rres (bind c (fun _ => k)) (bind c (fun _ => k')).
Proof. intros H. destruct c as [w []|]; cbn; auto. destruct k; cbn in *; [destruct H as [-> ?]|subst]; auto. Qed.
Definition srarg (r : rarg ext) : rarg ext := match r with RKeep d => RKeep (sdist d) | RQty k v => RQty k (sc l v) end.
Definition rlen (r : rarg ext) : Prop := match r with RKeep d => dk d = KDistance | RQty k _ => k = KDistance end.
Lemma conv_r_sc r : rlen r -> conv_r (srarg r) = sdist (conv_r r) /\ dk (conv_r r) = KDistance.
Proof. destruct r as [d|k v]; cbn; intros ?; subst; auto. Qed.
Ltac mk := rewrite ?nonneg_sc; repeat apply rr_chk; apply rr_ret; cbn; auto.
Lemma rr_Radial m r : rlen r -> rres (mk_Radial m r) (mk_Radial m (srarg r)).
Proof. intros H. destruct (conv_r_sc r H) as [E K]. unfold mk_Radial. rewrite E. cbn [sdist dval]. mk. Qed.
Lemma rr_Polar m r a : rlen r -> rres (mk_Polar m r a) (mk_Polar m (srarg r) a).
Proof. intros H. destruct (conv_r_sc r H) as [E K]. unfold mk_Polar. rewrite E. cbn [sdist dval]. mk. Qed.
Lemma rr_Cyl m a b c : rres (mk_Cyl m a b c) (mk_Cyl m (sc l a) b (sc l c)).
Proof. unfold mk_Cyl. mk. Qed.
Lemma rr_Sph m r a b : rlen r -> rres (mk_Sph m r a b) (mk_Sph m (srarg r) a b).
Proof. intros H. destruct (conv_r_sc r H) as [E K]. unfold mk_Sph. rewrite E. cbn [sdist dval]. mk. Qed.
Lemma rr_MSph m r a b : rlen r -> rres (mk_MSph m r a b) (mk_MSph m (srarg r) a b).
Proof. intros H. destruct (conv_r_sc r H) as [E K]. unfold mk_MSph. rewrite E. cbn [sdist dval]. mk. Qed.
Lemma rr_LonLat m r a b : rlen r -> rres (mk_LonLat m a b r) (mk_LonLat m a b (srarg r)).
Proof. intros H. destruct (conv_r_sc r H) as [E K]. unfold mk_LonLat. rewrite E. cbn [sdist dval]. mk. Qed.
Lemma prolate_sc m mu nu D : check_prolate m (sc (l*l) mu) (sc (l*l) nu) (sc l D) = check_prolate m mu nu D.
Proof. pose proof l2. destruct m; cbn [check_prolate]; auto. now rewrite sc_le0, sc_sq, sc_ltb, sc_abs, sc_ltb by auto. Qed.
Lemma rr_Prolate m a b c d : rres (mk_Prolate m a b c d) (mk_Prolate m (sc (l*l) a) (sc (l*l) b) c (sc l d)).
Proof. unfold mk_Prolate. rewrite prolate_sc. mk. Qed.
Lemma sel_sc (b : bool) x y : sel b (sc l x) (sc l y) = sc l (sel b x y).
Proof. now destruct b. Qed.
Lemma rr_from_Sph m deg r a b : rlen r -> rres (from_Sph m deg r a b) (from_Sph m deg (srarg r) a b).
Proof.
  intros H. destruct (conv_r_sc r H) as [E K]. unfold from_Sph. rewrite E. cbn [sdist dval dk]. cbv zeta. rewrite sc_neg0, sc_neg, sel_sc by auto.
  match goal with |- rres (mk_Sph _ (RKeep ?d) ?x ?y) _ => exact (rr_Sph m (RKeep d) x y K) end.
Qed.
Lemma rr_from_MSph m deg r a b : rlen r -> rres (from_MSph m deg r a b) (from_MSph m deg (srarg r) a b).
Proof.
  intros H. destruct (conv_r_sc r H) as [E K]. unfold from_MSph. rewrite E. cbn [sdist dval dk]. cbv zeta. rewrite sc_neg0, sc_neg, sel_sc by auto.
  match goal with |- rres (mk_MSph _ (RKeep ?d) ?x ?y) _ => exact (rr_MSph m (RKeep d) x y K) end.
Qed.

Lemma prolate_coords_sc rho z D :
  prolate_coords (sc l rho) (sc l z) (sc l D) =
  (sc (l*l) (fst (prolate_coords rho z D)), sc (l*l) (snd (prolate_coords rho z D))).
Proof.
  pose proof l2. unfold prolate_coords. cbv zeta. cbn [fst snd].
  assert (M4 : forall x y, nmul (nmul (ncst 4) (sc (l*l) x)) (sc (l*l) y) = sc (l*l*(l*l)) (nmul (nmul (ncst 4) x) y)).
  { intros. rewrite (sc_mulr (l*l) (ncst 4)), sc_mul2. reflexivity. }
  rewrite !(sc_sq l), ?sc_add, ?sc_sub, (sc_sq (l*l)), M4, sc_add, sc_sqrt by auto.
  rewrite !sc_eq0, !sc_sign by auto. rewrite sc_abs by auto. rewrite !sc_if, ?sc_add, ?sc_sub, ?sc_if.
  rewrite !sc_mul2. 
  repeat (rewrite ?(sc_mulr (l*l) (ncst (1/2))), ?(sc_mulr (l*l) (ncst 2))).
  rewrite !(sc_div (l*l) (l*l)) by auto. rewrite !sc_0le by auto. rewrite ?sc_if.
  repeat first [rewrite sc_div1 by auto | rewrite (sc_mulr (l*l)) | rewrite (sc_mull (l*l)) | rewrite sc_ltb by auto
               | rewrite sc_add | rewrite sc_sub | rewrite sc_if].
  reflexivity.
Qed.

(** ** [represent_as] *)
Lemma sbret {T U} (x : T) (f : T -> res U) : bind (ret x) f = f x.
Proof. cbn. now destruct (f x). Qed.
Lemma cls_scale p : cls_of (scale_pos p) = cls_of p. Proof. now destruct p. Qed.
Lemma scale_nokw : scale_kw nokw = nokw. Proof. reflexivity. Qed.
Lemma scale_kz z : scale_kw (kw_z_only z) = kw_z_only (sc l z). Proof. reflexivity. Qed.
Lemma scale_kD D : scale_kw (kw_Delta_only D) = kw_Delta_only (sc l D). Proof. reflexivity. Qed.
Lemma rep_scale m deg f : forall kw p t, len_kind p ->
  rres (represent_as m deg f kw p t) (represent_as m deg f (scale_kw kw) (scale_pos p) t).
Proof.
  pose proof l2 as Hl2.
  induction f as [|f IH]; intros kw p t L; [reflexivity|].
  rewrite !rep_S, cls_scale. destruct kw as [kD ky kz kt kp].
  assert (LD : forall v : ext, distance (mkDist KDistance v) = v) by reflexivity.
  destruct p as [x|[k r]|x y|[k r] a|a b|x y z|rho a z|[k r] a b|[k r] a b|a b [k r]|mu nu a D]; cbn [len_kind dk] in L; subst;
  destruct t; cbn [cls_of]; resolve1; cbn [run scale_pos sdist dk dval scale_kw kw_Delta kw_y kw_z kw_theta kw_phi]; cbv zeta;
  rewrite ?LD; unfold as_length, length_times; cbn [dk dval];
  try reflexivity.
  all: repeat (first
    [ exact eq_refl
    | apply rr_warn
    | match goal with |- rres (bind (represent_as _ _ _ _ _ _) _) _ => apply rr_bind; [|intros; cbv beta] end
    | match goal with |- rres (represent_as _ _ _ nokw _ _) _ => apply (IH nokw); cbn; auto; fail end
    | match goal with |- rres (represent_as _ _ _ (kw_Delta_only ?d) _ _) _ => apply (IH (kw_Delta_only d)); cbn; auto; fail end
    | match goal with |- rres (represent_as _ _ _ (kw_z_only ?d) _ _) _ => rewrite ?dflt_sc; apply (IH (kw_z_only d)); cbn; auto; fail end
    ]).
  all: repeat match goal with |- context [sdist (mkDist KDistance ?r)] => change (sdist (mkDist KDistance r)) with (mkDist KDistance (sc l r)) end;
    rewrite ?LD; cbn [dk dval]; rewrite ?sbret.
  all: try match goal with |- context [match option_map (sc l) ?k with _ => _ end] => destruct k as [D0|]; cbn [option_map]; [|reflexivity] end.
  all: try (rewrite prolate_coords_sc; cbn [fst snd]).
  all: repeat first [rewrite sc_sq | rewrite sc_add | rewrite sc_sub | rewrite sc_sqrt by auto | rewrite sc_atan2 by auto | rewrite sc_abs by auto
     | rewrite sc_sign by auto | rewrite sc_div1 by auto | rewrite sc_mull | rewrite dflt_sc].
  all: try (unfold mk_Cart1, mk_Cart2, mk_Cart3; apply rr_ret; cbn; auto; fail).
  all: try (first [ apply rr_Cyl | apply rr_Prolate
     | apply (rr_Radial m (RQty KDistance _)); reflexivity | apply (rr_Radial m (RKeep (mkDist KDistance _))); reflexivity
     | apply (rr_Polar m (RQty KDistance _)); reflexivity | apply (rr_Polar m (RKeep (mkDist KDistance _))); reflexivity
     | apply (rr_Sph m (RQty KDistance _)); reflexivity | apply (rr_Sph m (RKeep (mkDist KDistance _))); reflexivity
     | apply (rr_MSph m (RQty KDistance _)); reflexivity | apply (rr_MSph m (RKeep (mkDist KDistance _))); reflexivity
     | apply (rr_LonLat m (RKeep (mkDist KDistance _))); reflexivity
     | apply (rr_from_Sph m deg (RQty KDistance _)); reflexivity | apply (rr_from_Sph m deg (RKeep (mkDist KDistance _))); reflexivity
     | apply (rr_from_MSph m deg (RQty KDistance _)); reflexivity | apply (rr_from_MSph m deg (RKeep (mkDist KDistance _))); reflexivity ]).
  all: try match goal with |- context [match option_map (sc l) ?k with _ => _ end] => destruct k as [D0|]; cbn [option_map]; [|apply rr_ret; exact I] end.
  all: apply rr_bind; [|intros; apply (IH (kw_Delta_only D0)); assumption].
  all: match goal with |- rres (represent_as _ _ _ nokw ?p ?t) _ => apply (IH nokw p t); cbn; auto end.
Qed.
End Scale.
