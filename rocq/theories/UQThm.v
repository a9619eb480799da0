(** * Unit-carrying numbers simulate SI numbers. *)
From Coq Require Import Reals Bool List ZArith Lra Lia.
From Verif Require Import Num Vectors Transform Vel Units UQ Rel Scale.
Import ListNotations.
Open Scope R_scope.

Definition dim_kind (k : kind) : dim := match k with Len n => mkDim n 0 0 0 0 | Ang => angle_d | Mag => mag_d end.

Lemma dim_eqb_refl d : dim_eqb d d = true.
Proof. unfold dim_eqb. now rewrite !Z.eqb_refl. Qed.
Lemma sum_refl d : sum_dim (Some d) (Some d) = Some d.
Proof. cbn. now rewrite dim_eqb_refl. Qed.
Lemma sqrt_len c : dim_sqrt (dim_kind (Len (2 * c))) = Some (dim_kind (Len c)).
Proof.
  unfold dim_sqrt, dim_kind, half. cbn [d_len d_mass d_time d_ang d_mag].
  replace (Z.even (2 * c)) with true by (symmetry; rewrite Z.even_mul; reflexivity). cbn [Z.even].
  rewrite Z.mul_comm, Z.div_mul by lia. reflexivity.
Qed.
Lemma mul_one d : dim_mul d one_d_ = d.
Proof. destruct d. unfold dim_mul; cbn. now rewrite !Z.add_0_r. Qed.

(** ** What is needed of the stored numbers *)
Section Generic.
Context {A : Type} {NA : Num A} {SA : Scal A}.
Record scal_laws : Prop := {
  s_one : forall x : A, scl 1 x = x;
  s_comp : forall a b (x : A), scl a (scl b x) = scl (a * b) x;
  s_add : forall a (x y : A), nadd (scl a x) (scl a y) = scl a (nadd x y);
  s_sub : forall a (x y : A), nsub (scl a x) (scl a y) = scl a (nsub x y);
  s_neg : forall a (x : A), nneg (scl a x) = scl a (nneg x);
  s_abs : forall a (x : A), 0 < a -> nabs (scl a x) = scl a (nabs x);
  s_mul : forall a b (x y : A), nmul (scl a x) (scl b y) = scl (a * b) (nmul x y);
  s_div : forall a b (x y : A), 0 < b -> ndiv (scl (a * b) x) (scl b y) = scl a (ndiv x y);
  s_sqrt : forall a (x : A), 0 < a -> nsqrt (scl (a * a) x) = scl a (nsqrt x);
  s_atan2 : forall a (x y : A), 0 < a -> natan2 (scl a x) (scl a y) = natan2 x y;
  s_sign : forall a (x : A), 0 < a -> nsign (scl a x) = nsign x;
  s_ltb : forall a (x y : A), 0 < a -> nltb (scl a x) (scl a y) = nltb x y;
  s_leb : forall a (x y : A), 0 < a -> nleb (scl a x) (scl a y) = nleb x y;
  s_eqb : forall a (x y : A), 0 < a -> neqb (scl a x) (scl a y) = neqb x y;
  s_zero : forall a, scl a (ncst 0 : A) = ncst 0 }.
Hypothesis L : scal_laws.

(** [q] has the dimension of kind [k], a positive scale, and SI value [x]. *)
Definition relu (k : kind) (q : uq A) (x : A) : Prop := uqd q = Some (dim_kind k) /\ 0 < uqs q /\ x = uphys q.

Lemma inunit_sc (a b : uq A) : 0 < uqs a -> scl (uqs a) (inunit a b) = uphys b.
Proof. intros H. unfold inunit, uphys. rewrite (s_comp L). f_equal. field. lra. Qed.
Lemma zero_in (x : uq A) : inunit x (ncst 0) = ncst 0.
Proof. unfold inunit. cbn. apply (s_zero L). Qed.

Lemma relu_preserved : preserved relu.
Proof.
  assert (U1 : forall (x : A) d, uphys (mkUq x d 1) = x) by (intros; unfold uphys; cbn; apply (s_one L)).
  split.
  - intros r. split; [reflexivity|]. split; [cbn; lra|]. symmetry. apply U1.
  - intros r. split; [reflexivity|]. split; [cbn; lra|]. symmetry. apply U1.
  - intros r. split; [reflexivity|]. split; [cbn; lra|]. symmetry. apply U1.
  - intros x X (D & P & ->). split; [cbn; rewrite D; reflexivity|]. split; [cbn; lra|].
    unfold length_of_kind. symmetry. unfold uphys at 1. cbn. replace (1 / 1) with 1 by field. apply (s_one L).
  - intros x X (D & P & ->). split; [cbn; rewrite D; reflexivity|]. split; [cbn; lra|].
    unfold length_of_kind. symmetry. unfold uphys at 1. cbn. replace (1 * 1) with 1 by ring. rewrite (s_one L).
    f_equal. f_equal. unfold uphys, inunit. cbn. rewrite <- (s_add L), (s_comp L).
    replace (uqs x / 1 * (1 / (uqs x / 1))) with 1 by (field; lra). rewrite (s_one L). f_equal.
    replace (scl (uqs x) (uqv x)) with (scl (uqs x * 1) (uqv x)) by now rewrite Rmult_1_r.
    rewrite <- (s_one L (ncst 5)) at 2. rewrite (s_div L) by lra. f_equal. field.
  - intros k x X y Y (D1 & P1 & ->) (D2 & P2 & ->). split; [cbn [nadd Num_uq uqd]; rewrite D1, D2; apply sum_refl|]. split; [exact P1|].
    unfold uphys at 1. rewrite <- (inunit_sc x y), (s_add L) by auto. reflexivity.
  - intros k x X y Y (D1 & P1 & ->) (D2 & P2 & ->). split; [cbn [nsub Num_uq uqd]; rewrite D1, D2; apply sum_refl|]. split; [exact P1|].
    unfold uphys at 1. rewrite <- (inunit_sc x y), (s_sub L) by auto. reflexivity.
  - intros k x X (D1 & P1 & ->). split; [exact D1|]. split; [exact P1|]. apply (s_neg L).
  - intros k x X (D1 & P1 & ->). split; [exact D1|]. split; [exact P1|]. now apply (s_abs L).
  - intros a b c x X y Y (D1 & P1 & ->) (D2 & P2 & ->) ->. split; [cbn; rewrite D1, D2; reflexivity|].
    split; [cbn; now apply Rmult_lt_0_compat|]. apply (s_mul L).
  - intros k x X y Y (D1 & P1 & ->) (D2 & P2 & ->). split; [cbn; rewrite D1, D2; cbn; f_equal; apply mul_one|].
    split; [cbn; now apply Rmult_lt_0_compat|]. apply (s_mul L).
  - intros a b c x X y Y (D1 & P1 & ->) (D2 & P2 & ->) ->. split; [cbn; rewrite D1, D2; reflexivity|].
    split; [cbn; now apply Rdiv_lt_0_compat|]. unfold uphys at 1 2.
    pose proof (s_div L (uqs x / uqs y) (uqs y) (uqv x) (uqv y) P2) as E.
    replace (uqs x / uqs y * uqs y) with (uqs x) in E by (field; lra). exact E.
  - intros a c x X (D1 & P1 & ->) ->. split; [cbn; rewrite D1; apply sqrt_len|]. split; [cbn; now apply sqrt_lt_R0|].
    pose proof (s_sqrt L (sqrt (uqs x)) (uqv x) (sqrt_lt_R0 _ P1)) as E. rewrite sqrt_sqrt in E by lra. exact E.
  - intros x X (D1 & P1 & ->). split; [cbn; rewrite D1; reflexivity|]. split; [cbn; lra|]. symmetry. apply U1.
  - intros x X (D1 & P1 & ->). split; [cbn; rewrite D1; reflexivity|]. split; [cbn; lra|]. symmetry. apply U1.
  - intros x X (D1 & P1 & ->). split; [cbn; rewrite D1; reflexivity|]. split; [cbn; lra|]. symmetry. apply U1.
  - intros a x X y Y (D1 & P1 & ->) (D2 & P2 & ->). split; [cbn [natan2 Num_uq uqd]; rewrite D1, D2, sum_refl; reflexivity|].
    split; [cbn; lra|]. unfold uphys at 1. rewrite <- (inunit_sc x y), (s_atan2 L) by auto. symmetry. apply U1.
  - intros k x X (D1 & P1 & ->). split; [cbn; rewrite D1; reflexivity|]. split; [cbn; lra|].
    unfold uphys at 1. rewrite (s_sign L) by auto. symmetry. apply U1.
  - intros x X (D1 & P1 & ->). split; [cbn; rewrite D1; reflexivity|]. split; [exact P1|].
    unfold uphys at 2. cbn. rewrite (s_comp L). replace (uqs x * (1 / uqs x)) with 1 by (field; lra). symmetry. apply (s_one L).
  - intros k x X y Y (D1 & P1 & ->) (D2 & P2 & ->). unfold uphys at 1. rewrite <- (inunit_sc x y), (s_ltb L) by auto. reflexivity.
  - intros k x X y Y (D1 & P1 & ->) (D2 & P2 & ->). unfold uphys at 1. rewrite <- (inunit_sc x y), (s_leb L) by auto. reflexivity.
  - intros k x X (D1 & P1 & ->). cbn [nltb Num_uq]. rewrite zero_in. unfold uphys. rewrite <- (s_zero L (uqs x)) at 2. now rewrite (s_ltb L).
  - intros k x X (D1 & P1 & ->). cbn [nleb Num_uq]. rewrite zero_in. unfold uphys. rewrite <- (s_zero L (uqs x)) at 2. now rewrite (s_leb L).
  - intros k x X (D1 & P1 & ->). cbn [nleb Num_uq]. unfold inunit. cbn [uqv ncst Num_uq uqs].
    unfold uphys. rewrite <- (s_zero L (uqs x / 1)) at 1. rewrite (s_leb L) by (apply Rdiv_lt_0_compat; lra).
    rewrite <- (s_zero L (uqs x)) at 2. now rewrite (s_leb L).
  - intros k x X (D1 & P1 & ->). cbn [neqb Num_uq]. rewrite zero_in. unfold uphys. rewrite <- (s_zero L (uqs x)) at 2. now rewrite (s_eqb L).
Qed.
End Generic.

(** ** Plain numbers and numbers with tangents satisfy the laws *)
Lemma scal_ext : scal_laws (A := ext).
Proof.
  split; try (intros; reflexivity).
  - intros [x|]; cbn; auto. now rewrite Rmult_1_l.
  - intros a b [x|]; cbn; auto. f_equal. ring.
  - intros. apply sc_add.
  - intros. apply sc_sub.
  - intros. apply sc_neg.
  - intros. now apply sc_abs.
  - intros. apply sc_mul2.
  - intros. now apply sc_div.
  - intros. now apply sc_sqrt.
  - intros. now apply sc_atan2.
  - intros. now apply sc_sign.
  - intros. now apply sc_ltb.
  - intros. now apply sc_leb.
  - intros. now apply sc_eqb.
  - intros. cbn. now rewrite Rmult_0_r.
Qed.
Lemma mkd_eq (a b a' b' : ext) : a = a' -> b = b' -> mkDual a b = mkDual a' b'.
Proof. now intros -> ->. Qed.
Lemma scal_dual : scal_laws (A := dual).
Proof.
  pose proof scal_ext as E. split.
  - intros [x d]. cbn [scl Scal_dual dv dd]. now rewrite !(s_one E).
  - intros a b [x d]. cbn [scl Scal_dual dv dd]. now rewrite !(s_comp E).
  - intros a [x d] [y e]. apply mkd_eq; apply (s_add E).
  - intros a [x d] [y e]. apply mkd_eq; apply (s_sub E).
  - intros a [x d]. apply mkd_eq; apply (s_neg E).
  - intros a [x d] H. apply mkd_eq; [now apply (s_abs E)|]. cbn [dv dd scl Scal_dual]. rewrite (s_sign E) by auto. apply sc_mull.
  - intros a b [x d] [y e]. apply mkd_eq; [apply (s_mul E)|]. cbn [dv dd scl Scal_dual]. rewrite !(s_mul E). apply (s_add E).
  - intros a b [x d] [y e] H. apply mkd_eq; [now apply (s_div E)|]. cbn [dv dd scl Scal_dual].
    rewrite (s_div E), !(s_mul E) by auto. replace (b * (a * b)) with (a * (b * b)) by ring.
    rewrite (s_div E) by nra. apply (s_sub E).
  - intros a [x d] H. apply mkd_eq; [now apply (s_sqrt E)|]. cbn [dv dd scl Scal_dual]. rewrite (s_sqrt E) by auto.
    assert (Q : forall h r : ext, nmul (scl (a * a) d) (ndiv h (scl a r)) = scl a (nmul d (ndiv h r))).
    { intros h r. replace h with (scl (1 / a * a) h) at 1 by (replace (1 / a * a) with 1 by (field; lra); apply (s_one E)).
      rewrite (s_div E) by auto. rewrite (s_mul E). f_equal. field. lra. }
    apply Q.
  - intros a [x d] [y e] H. apply mkd_eq; [now apply (s_atan2 E)|]. cbn [dv dd scl Scal_dual]. rewrite !(s_mul E), (s_add E).
    assert (Q : forall (u w s : ext), nmul (scl a u) (ndiv (scl a w) (scl (a * a) s)) = nmul u (ndiv w s)).
    { intros u w s. replace a with (1 / a * (a * a)) at 2 by (field; lra). rewrite (s_div E) by nra. rewrite (s_mul E).
      replace (a * (1 / a)) with 1 by (field; lra). apply (s_one E). }
    cbv zeta. now rewrite !Q.
  - intros a [x d] H. apply mkd_eq; [now apply (s_sign E)|]. reflexivity.
  - intros a [x d] [y e] H. now apply (s_ltb E).
  - intros a [x d] [y e] H. now apply (s_leb E).
  - intros a [x d] [y e] H. now apply (s_eqb E).
  - intros a. cbn. now rewrite Rmult_0_r.
Qed.
