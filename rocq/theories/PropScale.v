(** * C44: results do not depend on the unit of length.

    Every theorem below compares a call on some numbers with the same call on the
    numbers one gets in another unit of length ([l] old units per new one, inverted):
    all lengths multiplied by [l > 0], the squared lengths mu, nu by [l * l], angles
    untouched ([scale_pos], Scale.v:18-31).  Positions carry [Distance] radial parts;
    components may be NaN.  So the model, which works with plain numbers, speaks about
    every unit of length at once. *)
From Coq Require Import Reals Bool List Lra.
From Verif Require Import Num Vectors Spec Transform Arith Pos3D Scale.
Import ListNotations.
Open Scope R_scope.

(** A result, read in the other unit. *)
Definition scale_res (l : R) (r : res (pos ext)) : res (pos ext) :=
  match r with Ok w q => Ok w (scale_pos l q) | Raise e => Raise e end.

Section Theorems.
Variables (l : R) (m : mode) (deg : bool) (f : nat).
Hypothesis Hl : 0 < l.
Notation rr := (rres l).
Lemma rr_elim r r' : rr r r' -> r' = scale_res l r.
Proof. destruct r; cbn; intros H; [apply H|exact H]. Qed.
Lemma rr_rep p t : len_kind p -> rr (rep m deg f p t) (rep m deg f (scale_pos l p) t).
Proof. intros. exact (rep_scale l Hl m deg f nokw p t H). Qed.

Theorem C44_represent_as kw p t : len_kind p ->
  represent_as m deg f (scale_kw l kw) (scale_pos l p) t = scale_res l (represent_as m deg f kw p t).
Proof. intros. apply rr_elim. now apply rep_scale. Qed.

Lemma rr_raise e : rr (Raise e) (Raise e). Proof. reflexivity. Qed.
Hint Resolve rr_rep rr_raise : rr.
Lemma rr_cadd p q : len_kind p -> len_kind q -> rr (cart_add m deg f p q) (cart_add m deg f (scale_pos l p) (scale_pos l q)).
Proof.
  intros Hp Hq. destruct p; cbn [cart_add scale_pos]; auto with rr; (apply rr_bind; [now apply rr_rep|]); intros c Hc; destruct c; cbn [scale_pos]; auto with rr;
    rewrite ?sc_add; split; cbn; auto.
Qed.
Lemma rr_csub p q : len_kind p -> len_kind q -> rr (cart_sub m deg f p q) (cart_sub m deg f (scale_pos l p) (scale_pos l q)).
Proof.
  intros Hp Hq. destruct p; cbn [cart_sub scale_pos]; auto with rr; (apply rr_bind; [now apply rr_rep|]); intros c Hc; destruct c; cbn [scale_pos]; auto with rr;
    rewrite ?sc_sub; split; cbn; auto.
Qed.
Lemma rr_cneg p : len_kind p -> rr (cart_neg p) (cart_neg (scale_pos l p)).
Proof. intros Hp. destruct p; cbn [cart_neg scale_pos]; auto with rr; rewrite ?sc_neg; split; cbn; auto. Qed.
Lemma rr_cmul k p : len_kind p -> rr (cart_mul k p) (cart_mul k (scale_pos l p)).
Proof. intros Hp. destruct p; cbn [cart_mul scale_pos]; auto with rr; unfold mk_Cart1, mk_Cart2, mk_Cart3; rewrite ?sc_mulr; split; cbn; auto. Qed.

Theorem C44_add p q : len_kind p -> len_kind q ->
  pos_add m deg f (scale_pos l p) (scale_pos l q) = scale_res l (pos_add m deg f p q).
Proof.
  intros Hp Hq. apply rr_elim. pose proof (rr_cadd p q Hp Hq) as C.
  assert (G : rr (do a <- rep m deg f p (cart_cls (cls_of p)); do b <- rep m deg f q (cart_cls (cls_of p)); do s <- cart_add m deg f a b; rep m deg f s (cls_of p))
                 (do a <- rep m deg f (scale_pos l p) (cart_cls (cls_of p)); do b <- rep m deg f (scale_pos l q) (cart_cls (cls_of p)); do s <- cart_add m deg f a b; rep m deg f s (cls_of p))).
  { apply rr_bind; [now apply rr_rep|]. intros a Ha. apply rr_bind; [now apply rr_rep|]. intros b Hb. apply rr_bind; [now apply rr_cadd|]. intros s Hs. now apply rr_rep. }
  destruct p; try exact C; exact G.
Qed.
Theorem C44_sub p q : len_kind p -> len_kind q ->
  pos_sub m deg f (scale_pos l p) (scale_pos l q) = scale_res l (pos_sub m deg f p q).
Proof.
  intros Hp Hq. apply rr_elim. pose proof (rr_csub p q Hp Hq) as C.
  assert (G : rr (do a <- rep m deg f p (cart_cls (cls_of p)); do b <- rep m deg f q (cart_cls (cls_of p)); do s <- cart_sub m deg f a b; rep m deg f s (cls_of p))
                 (do a <- rep m deg f (scale_pos l p) (cart_cls (cls_of p)); do b <- rep m deg f (scale_pos l q) (cart_cls (cls_of p)); do s <- cart_sub m deg f a b; rep m deg f s (cls_of p))).
  { apply rr_bind; [now apply rr_rep|]. intros a Ha. apply rr_bind; [now apply rr_rep|]. intros b Hb. apply rr_bind; [now apply rr_csub|]. intros s Hs. now apply rr_rep. }
  destruct p; try exact C; exact G.
Qed.
Theorem C44_neg p : len_kind p -> pos_neg m deg f (scale_pos l p) = scale_res l (pos_neg m deg f p).
Proof.
  intros Hp. apply rr_elim. pose proof (rr_cneg p Hp) as C.
  assert (G : rr (do c <- rep m deg f p (cart_cls (cls_of p)); do n <- cart_neg c; rep m deg f n (cls_of p))
                 (do c <- rep m deg f (scale_pos l p) (cart_cls (cls_of p)); do n <- cart_neg c; rep m deg f n (cls_of p))).
  { apply rr_bind; [now apply rr_rep|]. intros a Ha. apply rr_bind; [now apply rr_cneg|]. intros s Hs. now apply rr_rep. }
  destruct p; try exact C; exact G.
Qed.
Theorem C44_scalar_multiple k p : len_kind p -> pos_mul m deg f k (scale_pos l p) = scale_res l (pos_mul m deg f k p).
Proof.
  intros Hp. apply rr_elim. pose proof (rr_cmul k p Hp) as C.
  assert (G : rr (do c <- rep m deg f p (cart_cls (cls_of p)); do n <- cart_mul k c; rep m deg f n (cls_of p))
                 (do c <- rep m deg f (scale_pos l p) (cart_cls (cls_of p)); do n <- cart_mul k c; rep m deg f n (cls_of p))).
  { apply rr_bind; [now apply rr_rep|]. intros a Ha. apply rr_bind; [now apply rr_cmul|]. intros s Hs. now apply rr_rep. }
  destruct p as [x|r|x y|[kd r] a|a b|x y z|rho a z|r a b|[kd r] a b|a b r|mu nu a D]; try exact C; try exact G; cbn in Hp; subst; cbn [pos_mul scale_pos]; unfold scale_dist; cbn [sdist dk dval]; rewrite sc_mulr.
  - exact (rr_Polar l Hl m (RKeep (mkDist KDistance (nmul k r))) (AsAngle a) eq_refl).
  - exact (rr_MSph l Hl m (RKeep (mkDist KDistance (nmul k r))) (AsAngle a) b eq_refl).
Qed.
End Theorems.

(** The norm is a length. *)
Lemma comps_scale l m deg f p : 0 < l -> len_kind p ->
  cart_components m deg f (scale_pos l p) =
  match cart_components m deg f p with Ok w x => Ok w (map (sc l) x) | Raise e => Raise e end.
Proof.
  intros Hl Hp. unfold cart_components. pose proof (rr_rep l m deg f Hl p (cart_cls (cls_of p)) Hp) as R.
  assert (cls_of (scale_pos l p) = cls_of p) as -> by now destruct p.
  destruct (rep m deg f p (cart_cls (cls_of p))) as [w q|e]; cbn in R; [destruct R as [-> Hq]|now rewrite R].
  destruct q; reflexivity.
Qed.
Lemma fold_sc_acc a (xs : list ext) : forall x, fold_left nadd (map (sc a) xs) (sc a x) = sc a (fold_left nadd xs x).
Proof. induction xs as [|y xs IH]; intros x; [reflexivity|]. cbn [map fold_left]. rewrite <- IH. f_equal. apply sc_add. Qed.
Lemma fold_sc a (xs : list ext) : sum_list (map (sc a) xs) = sc a (sum_list xs).
Proof. destruct xs as [|x xs]; [exact (zero_sc a)|]. apply fold_sc_acc. Qed.
Lemma map_prod a (xs ys : list ext) :
  map (fun '(x, y) => nmul x y) (combine (map (sc a) xs) (map (sc a) ys)) = map (sc (a * a)) (map (fun '(x, y) => nmul x y) (combine xs ys)).
Proof. revert ys. induction xs as [|x xs IH]; intros [|y ys]; cbn [map combine]; auto. rewrite IH. f_equal. apply sc_mul2. Qed.
Theorem C44_norm l deg f p : 0 < l -> len_kind p ->
  pos_norm deg f (scale_pos l p) =
  match pos_norm deg f p with Ok w d => Ok w (mkDist (dk d) (sc l (dval d))) | Raise e => Raise e end.
Proof.
  intros Hl Hp.
  assert (G : (do sq <- pos_mul_pos Traced deg f (scale_pos l p) (scale_pos l p); ret (mkDist KDistance (nsqrt (sum_list sq)))) =
    match (do sq <- pos_mul_pos Traced deg f p p; ret (mkDist KDistance (nsqrt (sum_list sq)))) with Ok w d => Ok w (mkDist (dk d) (sc l (dval d))) | Raise e => Raise e end).
  { unfold pos_mul_pos. rewrite comps_scale by auto. destruct (cart_components Traced deg f p) as [w x|e]; [|reflexivity]. cbn [bind ret].
    rewrite map_prod, fold_sc, sc_sqrt by auto. cbn [orb dk dval]. reflexivity. }
  destruct p; try exact G; try reflexivity.
  cbn [pos_norm scale_pos]. rewrite !sc_sq, sc_add, sc_sqrt by auto. reflexivity.
Qed.
(** Equality does not depend on the unit. *)
Theorem C44_eq l m deg f p q : 0 < l -> len_kind p -> len_kind q ->
  pos_eq m deg f (scale_pos l p) (scale_pos l q) = pos_eq m deg f p q.
Proof.
  intros Hl Hp Hq. unfold pos_eq. assert (cls_of (scale_pos l p) = cls_of p) as -> by now destruct p.
  pose proof (rr_rep l m deg f Hl q (cls_of p) Hq) as R.
  destruct (rep m deg f q (cls_of p)) as [w c|e]; cbn in R; [destruct R as [-> Hc]|now rewrite R]. cbn [bind].
  replace (eq_components (scale_pos l p) (scale_pos l c)) with (eq_components p c); [reflexivity|].
  pose proof (l2 l Hl).
  destruct p, c; try reflexivity; cbn [eq_components scale_pos] in *; unfold eq_dist; cbn [sdist dk dval]; rewrite ?sc_eqb by auto; reflexivity.
Qed.

(** ** A concrete case (1 kpc = 1000 pc): the converted numbers differ, the claim is not vacuous *)
Example C44_case :
  len_kind (PCart2 (Some 3 : ext) (Some 4)) /\
  scale_pos 1000 (PCart2 (Some 3 : ext) (Some 4)) = PCart2 (Some (1000 * 3)) (Some (1000 * 4)).
Proof. split; [exact I|reflexivity]. Qed.

Print Assumptions C44_represent_as.
Print Assumptions C44_add.
Print Assumptions C44_scalar_multiple.
Print Assumptions C44_norm.
Print Assumptions C44_eq.
