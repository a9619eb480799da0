(** * Property C64: the arithmetic of positions is correct in every choice of units.

    C11-C15 are about SI values.  Here the same functions (Arith.v; sums, differences
    and comparisons with the unit check of [jax.tree.map]: TreeArith.v) run on numbers
    that carry units and obey unxt's unit rules (UQ.v); the operands may use
    different units, and each component its own.  Sums in space always work; sums in one
    or two dimensions, differences and comparisons are right when the operands have the
    same units in Cartesian coordinates (for [==]: in those of the left operand), and
    raise ValueError otherwise.  Vocabulary as for C57:
    [pos_units p] = every component of [p] is a quantity of the right dimension in
    some unit; [si p] = the SI values of the components. *)
From Coq Require Import Reals Bool List ZArith Lra Lia.
From Verif Require UnitsThm Dispatch.
From Verif Require Import Num Vectors Spec Transform Pos3D Pos3DThm RoundTrip Vel Units UQ Scale Rel UQThm Arith TreeArith ArithThm ArithThm2 RelArith PropPos PropArith PropUQ.
Import ListNotations.
Open Scope R_scope.

(** The run in units and the SI run: the same exception, or the same warning flag
    and results related by [R]. *)
Definition agree {T U} (R : T -> U -> Prop) (r : res T) (r' : res U) : Prop :=
  match r, r' with Ok w x, Ok w' y => w = w' /\ R x y | Raise e, Raise e' => e = e' | _, _ => False end.
Definition same_position (q : pos (uq ext)) (Q : pos ext) : Prop := pos_units q /\ si q = Q.
Definition same_radius (d : dist (uq ext)) (D : dist ext) : Prop := is_radial d /\ dist_map uphys d = D.
Definition same_area (x : uq ext) (X : ext) : Prop := is_a area_d x /\ uphys x = X.
(** a bare number *)
Definition number (k : ext) : uq ext := mkUq k (Some one_d_) 1.

Lemma relu_arith : preserved_arith (relu (A := ext)).
Proof.
  pose proof scal_ext as L. split.
  - intros k x X y Y (D1 & P1 & ->) (D2 & P2 & ->). split.
    { cbn. rewrite D1, D2. cbn. f_equal. destruct (dim_kind k). reflexivity. }
    split; [cbn; now apply Rmult_lt_0_compat|]. apply (s_mul L).
  - intros k x X y Y (D1 & P1 & ->) (D2 & P2 & ->). split.
    { cbn. rewrite D1, D2. cbn. f_equal. destruct (dim_kind k). unfold dim_div; cbn. now rewrite !Z.sub_0_r. }
    split; [cbn; now apply Rdiv_lt_0_compat|]. unfold uphys at 1 2.
    pose proof (s_div L (uqs x / uqs y) (uqs y) (uqv x) (uqv y) P2) as E.
    replace (uqs x / uqs y * uqs y) with (uqs x) in E by (field; lra). exact E.
  - intros k x X y Y (D1 & P1 & ->) (D2 & P2 & ->). unfold uphys at 1. rewrite <- (inunit_sc L x y) by auto.
    rewrite (s_eqb L) by auto. reflexivity.
Qed.
Lemma relu_number k : relu (Len 0) (number k) k.
Proof. split; [reflexivity|]. split; [cbn; lra|]. symmetry. apply (s_one scal_ext). Qed.
Lemma agree_pos r r' : rres (rpos relu False) r r' -> agree same_position r r'.
Proof.
  destruct r, r'; cbn; auto. intros [-> R]. destruct (si_relu _ _ R) as [? ->]. repeat split; auto.
Qed.
Notation H1 := (relu_preserved scal_ext).
Notation H2 := relu_arith.

(** ** C64 *)
(** The sum of two positions in space: the same exception as on SI values, or the same
    result up to the units it is written in. *)
Theorem C64_add_in_any_units : forall m deg f p q, pos_units p -> pos_units q -> dim_of (cls_of p) = 3%nat ->
  agree same_position (tpos_add m deg f p q) (pos_add m deg f (si p) (si q)).
Proof. intros m deg f p q U V D. rewrite tpos_add_3d by auto. apply agree_pos, (r_pos_add _ _ H1); now apply relu_si. Qed.
Print Assumptions C64_add_in_any_units.
(** In every dimension: as on SI values, or ValueError. *)
Lemma weak_agree {T U} (R : T -> U -> Prop) r r1 r' : weak r r1 -> agree R r1 r' -> agree R r r' \/ r = Raise EValue.
Proof. intros [->| ->]; auto. Qed.
Theorem C64_add_right_or_ValueError : forall m deg f p q, pos_units p -> pos_units q ->
  agree same_position (tpos_add m deg f p q) (pos_add m deg f (si p) (si q)) \/ tpos_add m deg f p q = Raise EValue.
Proof. intros. eapply weak_agree; [apply tpos_add_weak|]. apply agree_pos, (r_pos_add _ _ H1); now apply relu_si. Qed.
Print Assumptions C64_add_right_or_ValueError.
Theorem C64_sub_right_or_ValueError : forall m deg f p q, pos_units p -> pos_units q ->
  agree same_position (tpos_sub m deg f p q) (pos_sub m deg f (si p) (si q)) \/ tpos_sub m deg f p q = Raise EValue.
Proof. intros. eapply weak_agree; [apply tpos_sub_weak|]. apply agree_pos, (r_pos_sub _ _ H1); now apply relu_si. Qed.
Print Assumptions C64_sub_right_or_ValueError.
(** Equality of positions compares SI values, or raises ValueError. *)
Theorem C64_equality_right_or_ValueError : forall m deg f p q, pos_units p -> pos_units q ->
  tpos_eq m deg f p q = pos_eq m deg f (si p) (si q) \/ tpos_eq m deg f p q = Raise EValue.
Proof. intros m deg f p q U V. rewrite <- (r_pos_eq _ False H1 H2 m deg f p _ q _ (relu_si _ U) (relu_si _ V)). apply tpos_eq_weak. Qed.
Print Assumptions C64_equality_right_or_ValueError.

(** *** Exactly when the units are accepted *)
(** the units of the numbers in a position *)
Definition units_of (p : pos (uq ext)) : list (udim_ * R) :=
  match p with
  | PCart1 x => [unit_of x]
  | PRadial r => [unit_of (dval r)]
  | PCart2 x y => [unit_of x; unit_of y]
  | PPolar r a => [unit_of (dval r); unit_of a]
  | PTwoSphere a b => [unit_of a; unit_of b]
  | PCart3 x y z => [unit_of x; unit_of y; unit_of z]
  | PCyl x y z => [unit_of x; unit_of y; unit_of z]
  | PSph r a b | PMSph r a b => [unit_of (dval r); unit_of a; unit_of b]
  | PLonLat a b r => [unit_of a; unit_of b; unit_of (dval r)]
  | PProlate mu nu phi d => [unit_of mu; unit_of nu; unit_of phi; unit_of d]
  end.
Lemma units_of_leaves p : units_of p = map unit_of (leaves p).
Proof. destruct p; reflexivity. Qed.
Lemma same_unit_spec (x y : uq ext) : same_unit x y = true <-> unit_of x = unit_of y.
Proof.
  cbn [same_unit Static_uq]. unfold unit_of. rewrite andb_true_iff. split.
  - intros [D S]. apply Reqb_true in S. rewrite S. f_equal. destruct (uqd x), (uqd y); cbn in D; try discriminate; auto. f_equal. now apply UnitsThm.dim_eqb_true.
  - intros E. injection E as -> ->. split; [destruct (uqd y); cbn; auto; now apply UnitsThm.dim_eqb_true|now apply Reqb_true].
Qed.
Lemma same_units_spec (l l' : list (uq ext)) : same_units l l' = true <-> map unit_of l = map unit_of l'.
Proof.
  revert l'. induction l as [|x l IH]; intros [|y l']; cbn [same_units map]; split; intros E; try discriminate E; auto.
  - apply andb_true_iff in E. destruct E as [E E']. f_equal; [now apply same_unit_spec|now apply IH].
  - injection E as E1 E2 E3. apply andb_true_iff. split; [apply same_unit_spec; unfold unit_of; congruence|now apply IH].
Qed.
(** [a], [b]: the operands in Cartesian coordinates. *)
Theorem C64_sub_needs_equal_units : forall m deg f p q wa a wb b, pos_units p -> pos_units q ->
  represent_as m deg f nokw p (cart_cls (cls_of p)) = Ok wa a -> represent_as m deg f nokw q (cart_cls (cls_of p)) = Ok wb b ->
  (units_of a = units_of b -> agree same_position (tpos_sub m deg f p q) (pos_sub m deg f (si p) (si q))) /\
  (units_of a <> units_of b -> tpos_sub m deg f p q = Raise EValue).
Proof.
  intros m deg f p q wa a wb b U V Ea Eb. rewrite (tpos_sub_exact m deg f p q wa a wb b Ea Eb). pose proof (same_units_spec (leaves a) (leaves b)) as S. rewrite !units_of_leaves.
  destruct (same_units (leaves a) (leaves b)).
  - split; [intros _; apply agree_pos, (r_pos_sub _ _ H1); now apply relu_si|]. intros N. destruct N. now apply S.
  - split; [|reflexivity]. intros E. now apply S in E.
Qed.
Print Assumptions C64_sub_needs_equal_units.
Theorem C64_add_in_low_dimensions_needs_equal_units : forall m deg f p q wa a wb b, pos_units p -> pos_units q -> dim_of (cls_of p) <> 3%nat ->
  represent_as m deg f nokw p (cart_cls (cls_of p)) = Ok wa a -> represent_as m deg f nokw q (cart_cls (cls_of p)) = Ok wb b ->
  (units_of a = units_of b -> agree same_position (tpos_add m deg f p q) (pos_add m deg f (si p) (si q))) /\
  (units_of a <> units_of b -> tpos_add m deg f p q = Raise EValue).
Proof.
  intros m deg f p q wa a wb b U V D Ea Eb. rewrite (tpos_add_exact m deg f p q wa a wb b D Ea Eb). pose proof (same_units_spec (leaves a) (leaves b)) as S. rewrite !units_of_leaves.
  destruct (same_units (leaves a) (leaves b)).
  - split; [intros _; apply agree_pos, (r_pos_add _ _ H1); now apply relu_si|]. intros N. destruct N. now apply S.
  - split; [|reflexivity]. intros E. now apply S in E.
Qed.
Print Assumptions C64_add_in_low_dimensions_needs_equal_units.
(** [c]: the right operand in the class of the left one. *)
Theorem C64_equality_needs_equal_units : forall m deg f p q w c, pos_units p -> pos_units q ->
  represent_as m deg f nokw q (cls_of p) = Ok w c ->
  (units_of p = units_of c -> tpos_eq m deg f p q = pos_eq m deg f (si p) (si q)) /\
  (units_of p <> units_of c -> tpos_eq m deg f p q = Raise EValue).
Proof.
  intros m deg f p q w c U V E. rewrite (tpos_eq_exact m deg f p q w c E). pose proof (same_units_spec (leaves p) (leaves c)) as S. rewrite !units_of_leaves.
  destruct (same_units (leaves p) (leaves c)).
  - split; [intros _; apply (r_pos_eq _ False H1 H2); now apply relu_si|]. intros N. destruct N. now apply S.
  - split; [intros E'; now apply S in E'|]. intros _.
    assert (X : forall e, pos_eq m deg f p q = Raise e -> e = EValue).
    { intros e X. unfold pos_eq, rep in X. rewrite E in X. apply Dispatch.rep_class in E. destruct E as [E _]. cbn [bind] in X.
      destruct p, c; try discriminate E; cbn [eq_components] in X; try discriminate X; unfold eq_dist in X;
      repeat match type of X with context [dk ?d] => destruct (dk d) end; cbn in X; congruence. }
    destruct (pos_eq m deg f p q); [reflexivity|]. now rewrite (X _ eq_refl).
Qed.
Print Assumptions C64_equality_needs_equal_units.
Theorem C64_neg_in_any_units : forall m deg f p, pos_units p ->
  agree same_position (pos_neg m deg f p) (pos_neg m deg f (si p)).
Proof. intros. apply agree_pos, (r_pos_neg _ _ H1); now apply relu_si. Qed.
Print Assumptions C64_neg_in_any_units.
Theorem C64_multiple_in_any_units : forall m deg f k p, pos_units p ->
  agree same_position (pos_mul m deg f (number k) p) (pos_mul m deg f k (si p)).
Proof. intros. apply agree_pos, (r_pos_mul _ _ H1 H2); [apply relu_number|now apply relu_si]. Qed.
Print Assumptions C64_multiple_in_any_units.
Theorem C64_quotient_in_any_units : forall m b k p, pos_units p ->
  agree same_position (pos_div m b p (number k)) (pos_div m b (si p) k).
Proof. intros. apply agree_pos, (r_pos_div _ _ H1 H2); [apply relu_number|now apply relu_si]. Qed.
Print Assumptions C64_quotient_in_any_units.
(** The product of two positions is an array of areas (each entry has its own unit
    in the model; the library stacks them into one array). *)
Theorem C64_product_in_any_units : forall m deg f p q, pos_units p -> pos_units q ->
  agree (Forall2 same_area) (pos_mul_pos m deg f p q) (pos_mul_pos m deg f (si p) (si q)).
Proof.
  intros m deg f p q U V. pose proof (r_mul_pos _ _ H1 m deg f p (si p) q (si q) (relu_si _ U) (relu_si _ V)) as R.
  unfold rres, agree in *. destruct (pos_mul_pos m deg f p q), (pos_mul_pos m deg f (si p) (si q)); auto.
  destruct R as [-> R]. split; auto. clear -R. induction R as [|x X l L (D & P & ->) R IH]; constructor; auto. repeat split; auto.
Qed.
Print Assumptions C64_product_in_any_units.
Theorem C64_norm_in_any_units : forall deg f p, pos_units p ->
  agree same_radius (pos_norm deg f p) (pos_norm deg f (si p)).
Proof.
  intros deg f p U. pose proof (r_norm _ _ H1 deg f p (si p) (relu_si _ U)) as R.
  unfold rres, agree in *. destruct (pos_norm deg f p), (pos_norm deg f (si p)); auto.
  destruct R as [-> R]. split; auto. destruct (rdist_fun _ _ R) as [R' ->]. split; [now apply l4|reflexivity].
Qed.
Print Assumptions C64_norm_in_any_units.
(** ** What this means for points of space: C11-C15 in units *)
Lemma agree_ok {r : res (pos (uq ext))} {r'} {S : pos R} : agree same_position r r' -> r' = Ok false (finite S) ->
  exists s, r = Ok false s /\ pos_units s /\ si s = finite S /\ cls_of s = cls_of S.
Proof.
  intros A E. rewrite E in A. destruct r as [w s|e]; cbn in A; [|contradiction]. destruct A as (-> & U & E').
  exists s. repeat split; auto. transitivity (cls_of (si s)); [destruct s; reflexivity|]. rewrite E'. destruct S; reflexivity.
Qed.
Theorem C64_sum_is_the_vector_sum : forall m deg f p q P Q a b,
  pos_units p -> pos_units q -> si p = finite P -> si q = finite Q -> dim_of (cls_of P) = 3%nat ->
  valid P -> ~ negative_field P -> valid Q -> ~ negative_field Q ->
  cls_of Q <> CTwoSphere -> dim_of (cls_of Q) = 3%nat -> denotes P a -> denotes Q b ->
  can_hold (cls_of P) (vadd a b) ->
  exists s S, tpos_add m deg (4 + f) p q = Ok false s /\ pos_units s /\ cls_of s = cls_of P /\ si s = finite S /\
    valid S /\ denotes S (vadd a b).
Proof.
  intros m deg f p q P Q a b U V E F D3 VP NP VQ NQ T D DP DQ C. rewrite <- D3 in D.
  destruct (C12_add m deg f P Q a b VP NP VQ NQ T D DP DQ C) as (S & EQ & CS & VS & DS & _).
  assert (D3' : dim_of (cls_of p) = 3%nat). { replace (cls_of p) with (cls_of (si p)) by (destruct p; reflexivity). rewrite E. destruct P; exact D3. }
  pose proof (C64_add_in_any_units m deg (4 + f) p q U V D3') as A. rewrite E, F in A.
  destruct (agree_ok A EQ) as (s & ? & ? & ? & ?). exists s, S. rewrite <- CS. auto 10.
Qed.
Print Assumptions C64_sum_is_the_vector_sum.

(** The unit of each Cartesian coordinate of a position: that of the component for
    Cartesian positions, that of the radius for polar and spherical ones. *)
Definition cart_units (p : pos (uq ext)) : option (list R) :=
  let radial n (r : dist (uq ext)) := match dk r with KDistance => Some (repeat (uqs (dval r)) n) | _ => None end in
  match p with
  | PCart1 x => Some [uqs x]
  | PCart2 x y => Some [uqs x; uqs y]
  | PCart3 x y z => Some [uqs x; uqs y; uqs z]
  | PRadial r => radial 1%nat r
  | PPolar r _ => radial 2%nat r
  | PCyl rho _ z => Some [uqs rho; uqs rho; uqs z]
  | PSph r _ _ | PMSph r _ _ | PLonLat _ _ r => radial 3%nat r
  | _ => None
  end.
Lemma si_dim p P : si p = finite P -> cls_of p = cls_of P.
Proof. intros E. replace (cls_of p) with (cls_of (si p)) by (destruct p; reflexivity). rewrite E. destruct P; reflexivity. Qed.
Lemma ok_inv {T} w w' (x y : T) : Ok w x = Ok w' y -> x = y. Proof. intros E. now injection E. Qed.
Lemma bind_inv {T U} (r : res T) (k : T -> res U) w y : bind r k = Ok w y -> exists w1 x w2, r = Ok w1 x /\ k x = Ok w2 y.
Proof. destruct r as [w1 x|e]; cbn; [|discriminate]. destruct (k x) as [w2 y'|e] eqn:K; [|discriminate]. intros E. injection E as _ <-. do 3 eexists; split; [reflexivity|exact K]. Qed.
Lemma cart_units_ok m deg f p w a l : pos_units p -> cart_units p = Some l ->
  represent_as m deg f nokw p (cart_cls (cls_of p)) = Ok w a -> units_of a = map (fun s => (Some length_d, s)) l.
Proof.
  intros U C E.
  destruct f as [|f]; [discriminate E|].
  assert (L1 : forall x : uq ext, is_a length_d x -> unit_of x = (Some length_d, uqs x)) by (intros x [D _]; unfold unit_of; now rewrite D).
  assert (M1 : forall (x y : uq ext) s, unit_of x = (Some length_d, s) -> unit_of y = (Some one_d_, 1) -> unit_of (nmul x y) = (Some length_d, s)).
  { intros x y s X Y. injection X as X1 X2. injection Y as Y1 Y2. unfold unit_of. cbn. rewrite X1, X2, Y1, Y2. cbn. now rewrite Rmult_1_r. }
  assert (T1 : forall x : uq ext, is_a angle_d x -> unit_of (nsin x) = (Some one_d_, 1) /\ unit_of (ncos x) = (Some one_d_, 1)).
  { intros x [D _]. unfold unit_of. cbn. rewrite D. split; reflexivity. }
  assert (SPH : forall r theta phi w a, is_a length_d r -> is_a angle_d theta -> is_a angle_d phi -> represent_as m deg f nokw (PSph (mkDist KDistance r) theta phi) CCart3 = Ok w a -> units_of a = map (fun s => (Some length_d, s)) (repeat (uqs r) 3)).
  { intros r theta phi w' a' Ur Ut Up. destruct f as [|f']; [discriminate|]. step. unfold mk_Cart3, ret. intros K. apply ok_inv in K. subst a'. rewrite ?units_of_leaves. cbn [leaves map repeat distance dk dval].
    repeat f_equal; repeat apply M1; auto; first [apply T1|apply L1]; auto. }
  destruct p; cbn [cart_units] in C; try discriminate C; cbn [cls_of cart_cls dim_of] in E;
  try (match type of C with context [dk ?d] => destruct d as [k r]; destruct k; cbn [dk dval] in C; try discriminate C; unfold pos_units, is_radial in U; cbn [dk dval] in U end);
  injection C as <-; revert E; step; cbv zeta; unfold mk_Cart1, mk_Cart2, mk_Cart3.
  9: { intros K. apply bind_inv in K. destruct K as (w1 & b & w2 & K1 & K2).
    assert (Ub : pos_units b).
    { pose proof (represent_as_rel _ _ H1 m deg f nokw nokw _ _ CSph (r_nokw _) (relu_si (PLonLat lon lat (mkDist KDistance r)) U)) as R. rewrite K1 in R.
      destruct (represent_as m deg f nokw (si _) CSph); [|contradiction]. destruct R as [_ R]. now apply si_relu in R. }
    destruct f as [|f']; [discriminate K1|]. revert K1. step. unfold from_LonLat, mk_Sph, from_Sph, mk_Sph. cbv zeta. intros K1.
    apply bind_inv in K1. destruct K1 as (? & ? & ? & _ & K1). apply bind_inv in K1. destruct K1 as (? & ? & ? & _ & K1). apply ok_inv in K1. subst b.
    cbn [conv_r conv_az] in *. unfold pos_units in Ub. exact (SPH r _ lon w2 a (proj2 (proj2 U)) (proj1 (proj2 Ub)) (proj1 U) K2). }
  all: unfold ret; intros K; apply ok_inv in K; subst a; rewrite ?units_of_leaves; cbn [leaves map distance dk dval];
    unfold pos_units in U; repeat match goal with X : _ /\ _ |- _ => destruct X end.
  all: repeat f_equal; repeat apply M1; auto; try (apply T1; auto); try (apply L1; auto).
Qed.

Lemma cart_rep m deg f p P a : pos_units p -> si p = finite P -> valid P -> ~ negative_field P -> cls_of P <> CTwoSphere -> denotes P a ->
  exists c, represent_as m deg (4 + f) nokw p (cart_cls (cls_of P)) = Ok false c.
Proof.
  intros U E V N T D. pose proof (to_cart' m deg f P a V N T D) as K. unfold rep in K. rewrite <- E in K.
  pose proof (represent_as_rel _ _ H1 m deg (4 + f) nokw nokw p (si p) (cart_cls (cls_of P)) (r_nokw _) (relu_si _ U)) as R.
  rewrite K in R. destruct (represent_as m deg (4 + f) nokw p (cart_cls (cls_of P))) as [w c|e]; [|contradiction]. destruct R as [-> _]. now exists c.
Qed.
Lemma cart_cls_dim c d : dim_of c = dim_of d -> cart_cls c = cart_cls d. Proof. unfold cart_cls. now intros ->. Qed.
Lemma units_inj (l l' : list R) : map (fun s => (Some length_d, s)) l = map (fun s => (Some length_d, s)) l' -> l = l'.
Proof. revert l'. induction l as [|x l IH]; intros [|y l'] E; try discriminate E; auto. injection E as -> E. f_equal. now apply IH. Qed.
(** Both operands in Cartesian coordinates, with their units. *)
Lemma both_cart m deg f p q P Q a b l l' : pos_units p -> pos_units q -> si p = finite P -> si q = finite Q -> cart_units p = Some l -> cart_units q = Some l' ->
  valid P -> ~ negative_field P -> valid Q -> ~ negative_field Q -> dim_of (cls_of Q) = dim_of (cls_of P) -> denotes P a -> denotes Q b ->
  exists c d, represent_as m deg (4 + f) nokw p (cart_cls (cls_of p)) = Ok false c /\ represent_as m deg (4 + f) nokw q (cart_cls (cls_of p)) = Ok false d /\
    (units_of c = units_of d <-> l = l').
Proof.
  intros U V E F Cp Cq VP NP VQ NQ D DP DQ.
  assert (TP : cls_of P <> CTwoSphere) by (rewrite <- (si_dim _ _ E); destruct p; try discriminate).
  assert (TQ : cls_of Q <> CTwoSphere) by (rewrite <- (si_dim _ _ F); destruct q; try discriminate).
  destruct (cart_rep m deg f p P a U E VP NP TP DP) as [c Kc]. destruct (cart_rep m deg f q Q b V F VQ NQ TQ DQ) as [d Kd].
  rewrite <- (si_dim _ _ E) in Kc. rewrite <- (si_dim _ _ F) in Kd. exists c, d. split; [exact Kc|].
  pose proof (cart_units_ok _ _ _ _ _ _ _ U Cp Kc) as -> . pose proof (cart_units_ok _ _ _ _ _ _ _ V Cq Kd) as ->.
  split; [|split; [apply units_inj|now intros ->]].
  rewrite (cart_cls_dim (cls_of p) (cls_of q)); [exact Kd|]. rewrite (si_dim _ _ E), (si_dim _ _ F). auto.
Qed.
Theorem C64_difference_is_the_vector_difference : forall m deg f p q P Q a b l,
  pos_units p -> pos_units q -> si p = finite P -> si q = finite Q -> cart_units p = Some l -> cart_units q = Some l ->
  valid P -> ~ negative_field P -> valid Q -> ~ negative_field Q ->
  dim_of (cls_of Q) = dim_of (cls_of P) -> denotes P a -> denotes Q b ->
  can_hold (cls_of P) (vsub a b) ->
  exists s S, tpos_sub m deg (4 + f) p q = Ok false s /\ pos_units s /\ cls_of s = cls_of P /\ si s = finite S /\
    valid S /\ denotes S (vsub a b).
Proof.
  intros m deg f p q P Q a b l U V E F Cp Cq VP NP VQ NQ D DP DQ C.
  assert (TQ : cls_of Q <> CTwoSphere) by (rewrite <- (si_dim _ _ F); destruct q; try discriminate).
  destruct (C12_sub m deg f P Q a b VP NP VQ NQ TQ D DP DQ C) as (S & EQ & CS & VS & DS & _).
  destruct (both_cart m deg f p q P Q a b l l U V E F Cp Cq VP NP VQ NQ D DP DQ) as (c & d & Kc & Kd & Hu).
  destruct (C64_sub_needs_equal_units m deg (4 + f) p q _ _ _ _ U V Kc Kd) as [A _]. specialize (A (proj2 Hu eq_refl)). rewrite E, F in A.
  destruct (agree_ok A EQ) as (s & ? & ? & ? & ?). exists s, S. rewrite <- CS. auto 10.
Qed.
Print Assumptions C64_difference_is_the_vector_difference.
(** Finding: a difference of positions in different units raises ValueError. *)
Theorem C64_finding_difference_of_unlike_units_raises : forall m deg f p q P Q a b l l',
  pos_units p -> pos_units q -> si p = finite P -> si q = finite Q -> cart_units p = Some l -> cart_units q = Some l' -> l <> l' ->
  valid P -> ~ negative_field P -> valid Q -> ~ negative_field Q -> dim_of (cls_of Q) = dim_of (cls_of P) -> denotes P a -> denotes Q b ->
  tpos_sub m deg (4 + f) p q = Raise EValue.
Proof.
  intros m deg f p q P Q a b l l' U V E F Cp Cq N VP NP VQ NQ D DP DQ.
  destruct (both_cart m deg f p q P Q a b l l' U V E F Cp Cq VP NP VQ NQ D DP DQ) as (c & d & Kc & Kd & Hu).
  destruct (C64_sub_needs_equal_units m deg (4 + f) p q _ _ _ _ U V Kc Kd) as [_ A]. apply A. intros K. apply N. now apply Hu.
Qed.
Print Assumptions C64_finding_difference_of_unlike_units_raises.
(** Sums on a line and in the plane. *)
Theorem C64_sum_in_low_dimensions : forall m deg f p q P Q a b l,
  pos_units p -> pos_units q -> si p = finite P -> si q = finite Q -> dim_of (cls_of P) <> 3%nat -> cart_units p = Some l -> cart_units q = Some l ->
  valid P -> ~ negative_field P -> valid Q -> ~ negative_field Q ->
  dim_of (cls_of Q) = dim_of (cls_of P) -> denotes P a -> denotes Q b ->
  can_hold (cls_of P) (vadd a b) ->
  exists s S, tpos_add m deg (4 + f) p q = Ok false s /\ pos_units s /\ cls_of s = cls_of P /\ si s = finite S /\
    valid S /\ denotes S (vadd a b).
Proof.
  intros m deg f p q P Q a b l U V E F D3 Cp Cq VP NP VQ NQ D DP DQ C.
  assert (TQ : cls_of Q <> CTwoSphere) by (rewrite <- (si_dim _ _ F); destruct q; try discriminate).
  destruct (C12_add m deg f P Q a b VP NP VQ NQ TQ D DP DQ C) as (S & EQ & CS & VS & DS & _).
  destruct (both_cart m deg f p q P Q a b l l U V E F Cp Cq VP NP VQ NQ D DP DQ) as (c & d & Kc & Kd & Hu). rewrite <- (si_dim _ _ E) in D3.
  destruct (C64_add_in_low_dimensions_needs_equal_units m deg (4 + f) p q _ _ _ _ U V D3 Kc Kd) as [A _]. specialize (A (proj2 Hu eq_refl)). rewrite E, F in A.
  destruct (agree_ok A EQ) as (s & ? & ? & ? & ?). exists s, S. rewrite <- CS. auto 10.
Qed.
Print Assumptions C64_sum_in_low_dimensions.
Theorem C64_finding_plane_sum_of_unlike_units_raises : forall m deg f p q P Q a b l l',
  pos_units p -> pos_units q -> si p = finite P -> si q = finite Q -> dim_of (cls_of P) <> 3%nat -> cart_units p = Some l -> cart_units q = Some l' -> l <> l' ->
  valid P -> ~ negative_field P -> valid Q -> ~ negative_field Q -> dim_of (cls_of Q) = dim_of (cls_of P) -> denotes P a -> denotes Q b ->
  tpos_add m deg (4 + f) p q = Raise EValue.
Proof.
  intros m deg f p q P Q a b l l' U V E F D3 Cp Cq N VP NP VQ NQ D DP DQ.
  destruct (both_cart m deg f p q P Q a b l l' U V E F Cp Cq VP NP VQ NQ D DP DQ) as (c & d & Kc & Kd & Hu). rewrite <- (si_dim _ _ E) in D3.
  destruct (C64_add_in_low_dimensions_needs_equal_units m deg (4 + f) p q _ _ _ _ U V D3 Kc Kd) as [_ A]. apply A. intros K. apply N. now apply Hu.
Qed.
Print Assumptions C64_finding_plane_sum_of_unlike_units_raises.
Theorem C64_multiple_is_the_vector_multiple : forall m deg f k p P a,
  pos_units p -> si p = finite P -> valid P -> ~ negative_field P -> denotes P a -> can_hold (cls_of P) (vscale k a) ->
  radial_scaled (cls_of P) = false ->
  exists s S, pos_mul m deg (4 + f) (number (Some k)) p = Ok false s /\ pos_units s /\ cls_of s = cls_of P /\
    si s = finite S /\ valid S /\ denotes S (vscale k a).
Proof.
  intros m deg f k p P a U E V N D C R.
  destruct (C13_scalar_multiple m deg f k P a V N D C R) as (S & EQ & CS & VS & DS & _).
  pose proof (C64_multiple_in_any_units m deg (4 + f) (Some k) p U) as A. rewrite E in A.
  destruct (agree_ok A EQ) as (s & ? & ? & ? & ?). exists s, S. rewrite <- CS. auto 10.
Qed.
Print Assumptions C64_multiple_is_the_vector_multiple.
(** The norm has the SI value of the Euclidean length. *)
Theorem C64_norm_is_the_length : forall deg f p P a,
  pos_units p -> si p = finite P -> valid P -> ~ negative_field P -> cls_of P <> CTwoSphere -> denotes P a ->
  length_radial P ->
  exists d, pos_norm deg (4 + f) p = Ok false d /\ dk d = KDistance /\ is_a length_d (dval d) /\ uphys (dval d) = Some (norm_of a).
Proof.
  intros deg f p P a U E V N T D L.
  destruct (C11_norm_is_distance_to_origin deg f P a V N T D) as (d & EQ & VD & LD & KD).
  pose proof (C64_norm_in_any_units deg (4 + f) p U) as A. rewrite E, EQ in A.
  destruct (pos_norm deg (4 + f) p) as [w d'|e]; cbn in A; [|contradiction]. destruct A as (-> & IR & E').
  specialize (KD L). exists d'. split; [reflexivity|]. destruct d' as [k' v'], d as [k v]. cbn in *. subst k.
  injection E' as -> E'. unfold is_radial in IR. cbn in IR. repeat split; try apply IR. rewrite E'. unfold len in LD. cbn in LD. now rewrite LD.
Qed.
Print Assumptions C64_norm_is_the_length.
(** A Cartesian position is equal to another position in the same units exactly when
    they are the same point; unequal units raise ValueError. *)
Theorem C64_equal_iff_same_point : forall m deg f p q P Q a b l l',
  pos_units p -> pos_units q -> si p = finite P -> si q = finite Q -> cart_units p = Some l -> cart_units q = Some l' ->
  is_cart (cls_of P) = true -> valid Q -> ~ negative_field Q ->
  dim_of (cls_of Q) = dim_of (cls_of P) -> denotes P a -> denotes Q b ->
  (l = l' -> exists e, tpos_eq m deg (4 + f) p q = Ok false e /\ (e = true <-> a = b)) /\
  (l <> l' -> tpos_eq m deg (4 + f) p q = Raise EValue).
Proof.
  intros m deg f p q P Q a b l l' U V E F Cp Cq IC VQ NQ D DP DQ.
  assert (TQ : cls_of Q <> CTwoSphere) by (rewrite <- (si_dim _ _ F); destruct q; try discriminate).
  destruct (cart_rep m deg f q Q b V F VQ NQ TQ DQ) as [d Kd].
  pose proof Kd as Kd'. rewrite <- (si_dim _ _ F) in Kd'. pose proof (cart_units_ok _ _ _ _ _ _ _ V Cq Kd') as Ud.
  assert (Up : units_of p = map (fun s => (Some length_d, s)) l).
  { pose proof (si_dim _ _ E) as CP. rewrite <- CP in IC. unfold units_of. destruct p; try discriminate IC; cbn in U, Cp; injection Cp as <-; cbn [leaves map]; unfold is_a in *;
    repeat match goal with X : _ /\ _ |- _ => destruct X end; unfold unit_of; repeat match goal with X : uqd _ = _ |- _ => rewrite X end; reflexivity. }
  rewrite (cart_cls_dim (cls_of Q) (cls_of P) D), <- (si_dim _ _ E) in Kd.
  assert (Kp : represent_as m deg (4 + f) nokw q (cls_of p) = Ok false d).
  { replace (cls_of p) with (cart_cls (cls_of p)) at 1; [exact Kd|]. rewrite <- (si_dim _ _ E) in IC. destruct p; try discriminate IC; reflexivity. }
  destruct (C64_equality_needs_equal_units m deg (4 + f) p q _ _ U V Kp) as [A B]. rewrite Up, Ud in A, B. split.
  - intros ->. rewrite (A eq_refl), E, F. apply C15_cartesian; auto.
  - intros N. apply B. intros K. apply N. now apply units_inj.
Qed.
Print Assumptions C64_equal_iff_same_point.

(** ** The units of the results *)
(** A sum is in the units of the left operand, component by component. *)
Theorem C64_sum_has_left_units : forall m deg f x y z x' y' z' s1 s2 s3 t1 t2 t3,
  tpos_add m deg (S f) (PCart3 (q_ length_d x s1) (q_ length_d y s2) (q_ length_d z s3))
                  (PCart3 (q_ length_d x' t1) (q_ length_d y' t2) (q_ length_d z' t3))
  = Ok false (PCart3 (q_ length_d (x + t1 / s1 * x') s1) (q_ length_d (y + t2 / s2 * y') s2) (q_ length_d (z + t3 / s3 * z') s3)).
Proof. intros. cbn [tpos_add tcart_add cart_add]. unfold rep. step. reflexivity. Qed.
Print Assumptions C64_sum_has_left_units.
(** so [v + w] and [w + v] have the same SI values, but are equal positions for [==]
    only if the operands have the same units; otherwise comparing them raises. *)
Theorem C64_sum_commutes_up_to_units : forall m deg f x y z x' y' z' s1 s2 s3 t1 t2 t3,
  0 < s1 -> 0 < s2 -> 0 < s3 -> 0 < t1 -> 0 < t2 -> 0 < t3 ->
  let p := PCart3 (q_ length_d x s1) (q_ length_d y s2) (q_ length_d z s3) in
  let q := PCart3 (q_ length_d x' t1) (q_ length_d y' t2) (q_ length_d z' t3) in
  exists s t, tpos_add m deg (S f) p q = Ok false s /\ tpos_add m deg (S f) q p = Ok false t /\ si s = si t /\
    ([s1; s2; s3] = [t1; t2; t3] -> tpos_eq m deg (S f) s t = Ok false true) /\
    ([s1; s2; s3] <> [t1; t2; t3] -> tpos_eq m deg (S f) s t = Raise EValue).
Proof.
  intros m deg f x y z x' y' z' s1 s2 s3 t1 t2 t3 A1 A2 A3 B1 B2 B3 p q. unfold p, q. rewrite !C64_sum_has_left_units.
  eexists _, _. split; [reflexivity|]. split; [reflexivity|].
  match goal with |- ?G /\ _ => assert (E : G) end.
  { cbn. f_equal; f_equal; field; lra. }
  split; [exact E|].
  match goal with |- context [tpos_eq m deg (S f) ?s ?t] => set (S_ := s) in *; set (T_ := t) in * end.
  assert (K : represent_as m deg (S f) nokw T_ (cls_of S_) = Ok false T_) by (unfold S_, T_; step; reflexivity).
  assert (US : pos_units S_) by (cbn; unfold is_a; cbn; auto 10). assert (UT : pos_units T_) by (cbn; unfold is_a; cbn; auto 10).
  destruct (C64_equality_needs_equal_units m deg (S f) S_ T_ false T_ US UT K) as [Q1 Q2]. split.
  - intros H. injection H as -> -> ->. rewrite Q1 by reflexivity. rewrite E.
    unfold pos_eq, rep, T_. cbn [si pos_map cls_of]. step. unfold ret. rewrite bind_ok. cbn. now rewrite !(proj2 (Reqb_true _ _) eq_refl).
  - intros H. apply Q2. intros G. apply H. unfold units_of, S_, T_, unit_of in G. cbn in G. injection G as -> -> ->. reflexivity.
Qed.
Print Assumptions C64_sum_commutes_up_to_units.
(** The norm of a Cartesian position comes in the unit of its first component. *)
Theorem C64_norm_unit : forall deg f x y z s1 s2 s3, 0 < s1 -> 0 < s2 -> 0 < s3 ->
  exists v, pos_norm deg (S f) (PCart3 (q_ length_d x s1) (q_ length_d y s2) (q_ length_d z s3))
    = Ok false (mkDist KDistance v) /\ unit_of v = (Some length_d, s1).
Proof.
  intros deg f x y z s1 s2 s3 A1 A2 A3. cbn [pos_norm]. unfold pos_mul_pos, cart_components, rep. step. unfold ret. rewrite !bind_ok.
  cbn [cart_cls cls_of dim_of map combine]. rewrite ?bind_ok. cbn [map combine]. eexists. split; [reflexivity|].
  unfold unit_of. cbn. f_equal. apply sqrt_square. lra.
Qed.
Print Assumptions C64_norm_unit.

(** Finding: a polar position in degrees cannot be compared with a Cartesian one, even
    with the same lengths: the azimuth of the converted position is in radian. *)
Theorem C64_finding_degrees_do_not_compare : forall m deg f r s a x y, 0 < s ->
  tpos_eq m deg (4 + f) (PPolar (mkDist KDistance (q_ length_d r s)) (q_ angle_d a (PI / 180))) (PCart2 (q_ length_d x s) (q_ length_d y s)) = Raise EValue.
Proof.
  intros m deg f r s a x y P.
  set (p := PPolar (mkDist KDistance (q_ length_d r s)) (q_ angle_d a (PI / 180))). set (q := PCart2 (q_ length_d x s) (q_ length_d y s)).
  assert (Hpi : 0 < PI / 180) by (pose proof PI_RGT_0; lra).
  assert (Up : pos_units p) by (cbn; unfold is_radial, is_a; cbn; auto). assert (Uq : pos_units q) by (cbn; unfold is_a; cbn; auto).
  assert (K : exists c, represent_as m deg (4 + f) nokw q CPolar = Ok false c).
  { pose proof (represent_as_rel _ _ H1 m deg (4 + f) nokw nokw q (si q) CPolar (r_nokw _) (relu_si _ Uq)) as R.
    change (si q) with (finite (PCart2 (s * x) (s * y))) in R. 
    destruct (C02_represent_as_2d_keeps_point m deg (3 + f) nokw (PCart2 (s * x) (s * y)) CPolar) as (c0 & E & _); [exact I|cbn; auto|cbn; auto|]. change (S (3 + f)) with (4 + f)%nat in E.
    rewrite E in R. destruct (represent_as m deg (4 + f) nokw q CPolar) as [w c|e]; [|contradiction]. destruct R as [-> _]. now exists c. }
  destruct K as [c K]. apply (proj2 (C64_equality_needs_equal_units m deg (4 + f) p q false c Up Uq K)).
  revert K. unfold q. change (4 + f)%nat with (S (3 + f)). step. unfold mk_Polar. cbv zeta. intros K. apply bind_inv in K. destruct K as (? & ? & ? & _ & K). apply ok_inv in K. subst c.
  unfold units_of, p. cbn. intros G. injection G as G1 G2. pose proof PI_RGT_0. pose proof PI_4. lra.
Qed.
Print Assumptions C64_finding_degrees_do_not_compare.

(** Not vacuous: a Cartesian position in kpc/m/pc plus a spherical one in pc, deg. *)
Example C64_case : pos_units (PCart3 (q_ length_d 8 (3.0857e19)) (q_ length_d 2 1) (q_ length_d 3 (3.0857e16)))
  /\ pos_units (PSph (mkDist KDistance (q_ length_d 2 3.0857e16)) (q_ angle_d 90 (PI / 180)) (q_ angle_d 3 1)).
Proof. pose proof PI_RGT_0. unfold pos_units, is_radial, is_a, q_. cbn [uqd uqs dk dval]. repeat split; auto; try lra. Qed.
(** Operands in the same units in Cartesian coordinates: metres. *)
Example C64_units_case : exists p q, pos_units p /\ pos_units q /\ cart_units p = cart_units q /\ cls_of p <> cls_of q /\ si p = finite (PCart3 3 4 5).
Proof.
  pose proof PI_RGT_0. exists (PCart3 (q_ length_d 3 1) (q_ length_d 4 1) (q_ length_d 5 1)), (PSph (mkDist KDistance (q_ length_d 2 1)) (q_ angle_d 90 (PI / 180)) (q_ angle_d 3 1)).
  split; [|split; [|split; [reflexivity|split; [discriminate|] ] ] ].
  - unfold pos_units, is_a, q_. cbn [uqd uqs]. repeat split; lra.
  - unfold pos_units, is_radial, is_a, q_. cbn [uqd uqs dk dval]. repeat split; lra.
  - unfold si, finite. cbn. repeat first [lra | progress f_equal].
Qed.
