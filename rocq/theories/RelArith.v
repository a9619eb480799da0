(** * The arithmetic of positions, run on two number types.

    The functions of Arith.v are polymorphic in the number type, as [represent_as]
    is; a relation kept by the primitives is kept by sums, differences, negations,
    multiples, quotients, products, norms and equality tests (C64). *)
From Coq Require Import Reals Bool List ZArith Lia.
From Verif Require Import Num Vectors Transform Pos3D Arith Rel.
Import ListNotations.

Section RelArith.
Context {A B : Type} {NA : Num A} {NB : Num B}.
Variable rel : kind -> A -> B -> Prop.
Variable strict : Prop.
Hypothesis H : preserved rel.
(** Also kept: a number times a quantity, a quantity divided by a number, equality. *)
Record preserved_arith : Prop := {
  r_mull : forall k x X y Y, rel (Len 0) x X -> rel k y Y -> rel k (nmul x y) (nmul X Y);
  r_div1 : forall k x X y Y, rel k x X -> rel (Len 0) y Y -> rel k (ndiv x y) (ndiv X Y);
  r_eqb : forall k x X y Y, rel k x X -> rel k y Y -> neqb x y = neqb X Y }.
Hypothesis H2 : preserved_arith.
Notation rp := (rres (rpos rel strict)).
Notation rpo := (rpos rel strict).

Lemma r_rep m deg f p P t : rpo p P -> rp (rep m deg f p t) (rep m deg f P t).
Proof. intros. apply (represent_as_rel rel strict H); auto. apply r_nokw. Qed.

Ltac post := apply rr_ret; cbn [rpos] in *; intuition eauto using (r_add _ H), (r_sub _ H), (r_neg _ H).
Ltac side := intros [] []; cbn [rpos]; try tauto; intros; try reflexivity; post.
Lemma r_cart_add m deg f p P q Q : rpo p P -> rpo q Q -> rp (cart_add m deg f p q) (cart_add m deg f P Q).
Proof.
  intros R R'. destruct p, P; cbn [rpos] in R; try contradiction; try reflexivity; cbn [cart_add];
  (eapply rr_bind; [apply r_rep; eassumption|]); side.
Qed.
Lemma r_cart_sub m deg f p P q Q : rpo p P -> rpo q Q -> rp (cart_sub m deg f p q) (cart_sub m deg f P Q).
Proof.
  intros R R'. destruct p, P; cbn [rpos] in R; try contradiction; try reflexivity; cbn [cart_sub];
  (eapply rr_bind; [apply r_rep; eassumption|]); side.
Qed.
Lemma r_cart_neg p P : rpo p P -> rp (cart_neg p) (cart_neg P).
Proof. intros R. destruct p, P; cbn [rpos] in R; try contradiction; try reflexivity; cbn [cart_neg]; post. Qed.
Lemma r_cart_mul k K p P : rel (Len 0) k K -> rpo p P -> rp (cart_mul k p) (cart_mul K P).
Proof.
  intros RK R. destruct p, P; cbn [rpos] in R; try contradiction; try reflexivity; cbn [cart_mul];
  unfold mk_Cart1, mk_Cart2, mk_Cart3; apply rr_ret; cbn [rpos] in *; intuition eauto using (r_mull H2).
Qed.
Lemma r_pos_add m deg f p P q Q : rpo p P -> rpo q Q -> rp (pos_add m deg f p q) (pos_add m deg f P Q).
Proof.
  intros R R'. pose proof (rpos_cls _ _ _ _ R) as E.
  assert (G : rp (do a <- rep m deg f p (cart_cls (cls_of p)); do b <- rep m deg f q (cart_cls (cls_of p)); do s <- cart_add m deg f a b; rep m deg f s (cls_of p))
    (do a <- rep m deg f P (cart_cls (cls_of P)); do b <- rep m deg f Q (cart_cls (cls_of P)); do s <- cart_add m deg f a b; rep m deg f s (cls_of P))).
  { rewrite E. eapply rr_bind; [now apply r_rep|]. intros a a' Ra. eapply rr_bind; [now apply r_rep|]. intros b b' Rb.
    eapply rr_bind; [now apply r_cart_add|]. intros. now apply r_rep. }
  pose proof (r_cart_add m deg f p P q Q R R') as C.
  destruct p, P; cbn [rpos] in R; try contradiction; first [exact C | exact G].
Qed.
Lemma r_pos_sub m deg f p P q Q : rpo p P -> rpo q Q -> rp (pos_sub m deg f p q) (pos_sub m deg f P Q).
Proof.
  intros R R'. pose proof (rpos_cls _ _ _ _ R) as E.
  assert (G : rp (do a <- rep m deg f p (cart_cls (cls_of p)); do b <- rep m deg f q (cart_cls (cls_of p)); do s <- cart_sub m deg f a b; rep m deg f s (cls_of p))
    (do a <- rep m deg f P (cart_cls (cls_of P)); do b <- rep m deg f Q (cart_cls (cls_of P)); do s <- cart_sub m deg f a b; rep m deg f s (cls_of P))).
  { rewrite E. eapply rr_bind; [now apply r_rep|]. intros a a' Ra. eapply rr_bind; [now apply r_rep|]. intros b b' Rb.
    eapply rr_bind; [now apply r_cart_sub|]. intros. now apply r_rep. }
  pose proof (r_cart_sub m deg f p P q Q R R') as C.
  destruct p, P; cbn [rpos] in R; try contradiction; first [exact C | exact G].
Qed.
Lemma r_pos_neg m deg f p P : rpo p P -> rp (pos_neg m deg f p) (pos_neg m deg f P).
Proof.
  intros R. pose proof (rpos_cls _ _ _ _ R) as E.
  assert (G : rp (do c <- rep m deg f p (cart_cls (cls_of p)); do n <- cart_neg c; rep m deg f n (cls_of p))
    (do c <- rep m deg f P (cart_cls (cls_of P)); do n <- cart_neg c; rep m deg f n (cls_of P))).
  { rewrite E. eapply rr_bind; [now apply r_rep|]. intros a a' Ra. eapply rr_bind; [now apply r_cart_neg|]. intros. now apply r_rep. }
  pose proof (r_cart_neg p P R) as C.
  destruct p, P; cbn [rpos] in R; try contradiction; first [exact C | exact G].
Qed.
Lemma r_scale_dist k K d D : rel (Len 0) k K -> rdist rel strict d D -> rrarg rel strict (scale_dist k d) (scale_dist K D).
Proof. intros RK (E & S & R). cbn. repeat split; cbn; auto. rewrite <- ?E. now apply (r_mull H2). Qed.
Lemma r_pos_mul m deg f k K p P : rel (Len 0) k K -> rpo p P -> rp (pos_mul m deg f k p) (pos_mul m deg f K P).
Proof.
  intros RK R. pose proof (rpos_cls _ _ _ _ R) as E.
  assert (G : rp (do c <- rep m deg f p (cart_cls (cls_of p)); do n <- cart_mul k c; rep m deg f n (cls_of p))
    (do c <- rep m deg f P (cart_cls (cls_of P)); do n <- cart_mul K c; rep m deg f n (cls_of P))).
  { rewrite E. eapply rr_bind; [now apply r_rep|]. intros a a' Ra. eapply rr_bind; [now apply r_cart_mul|]. intros. now apply r_rep. }
  pose proof (r_cart_mul k K p P RK R) as C.
  destruct p, P; cbn [rpos] in R; try contradiction; try first [exact C | exact G]; cbn [pos_mul].
  - apply (r_Polar _ _ H); [now apply r_scale_dist|apply R].
  - apply (r_MSph _ _ H); [now apply r_scale_dist|apply R|apply R].
Qed.
Lemma r_build m b p P : rpo p P -> rp (build m b p) (build m b P).
Proof.
  intros R. destruct p, P; cbn [rpos] in R; try contradiction; cbn [build]; cbv zeta;
  try (unfold mk_Cart1, mk_Cart2, mk_Cart3; now apply rr_ret).
  - apply (r_Radial _ _ H); exact R.
  - apply (r_Polar _ _ H); destruct b; apply R.
  - apply (r_TwoSphere _ _ H); destruct b; apply R.
  - apply (r_Cyl _ _ H); destruct b; apply R.
  - apply (r_Sph _ _ H); destruct b; apply R.
  - apply (r_MSph _ _ H); destruct b; apply R.
  - apply (r_LonLat _ _ H); destruct b; apply R.
  - apply (r_Prolate _ _ H); destruct b; apply R.
Qed.
Lemma r_div_dist k K d D : rel (Len 0) k K -> rdist rel strict d D -> rdist rel strict (dist_map (fun x => ndiv x k) d) (dist_map (fun x => ndiv x K) D).
Proof. intros RK (E & S & R). destruct d, D. cbn in *. repeat split; auto. now apply (r_div1 H2). Qed.
Lemma r_pos_div m b p P k K : rel (Len 0) k K -> rpo p P -> rp (pos_div m b p k) (pos_div m b P K).
Proof.
  intros RK R. apply r_build. destruct p, P; cbn [rpos] in R; try contradiction; cbn [div_components pos_map rpos];
  repeat match goal with X : _ /\ _ |- _ => destruct X end; repeat match goal with |- _ /\ _ => split end; eauto using (r_div1 H2), r_div_dist.
Qed.
Lemma r_comps m deg f p P : rpo p P -> rres (Forall2 (rel (Len 1))) (cart_components m deg f p) (cart_components m deg f P).
Proof.
  intros R. unfold cart_components. rewrite (rpos_cls _ _ _ _ R). eapply rr_bind; [now apply r_rep|].
  intros [] []; cbn [rpos]; try tauto; intros; try reflexivity; apply rr_ret; repeat constructor; tauto.
Qed.
Lemma r_prods a a' b b' : Forall2 (rel (Len 1)) a a' -> Forall2 (rel (Len 1)) b b' ->
  Forall2 (rel (Len 2)) (map (fun '(x, y) => nmul x y) (combine a b)) (map (fun '(x, y) => nmul x y) (combine a' b')).
Proof.
  intros F. revert b b'. induction F as [|x X a a' Rx Fa IH]; intros b b' G; [constructor|].
  destruct G as [|y Y b b' Ry Fb]; [constructor|]. cbn. constructor; auto. now apply (r_mul _ H) with (a := 1%Z) (b := 1%Z).
Qed.
Lemma r_mul_pos m deg f p P q Q : rpo p P -> rpo q Q ->
  rres (Forall2 (rel (Len 2))) (pos_mul_pos m deg f p q) (pos_mul_pos m deg f P Q).
Proof.
  intros R R'. unfold pos_mul_pos. eapply rr_bind; [now apply r_comps|]. intros. eapply rr_bind; [now apply r_comps|]. intros.
  apply rr_ret. now apply r_prods.
Qed.
Lemma r_sum k l L : Forall2 (rel k) l L -> l <> [] -> rel k (sum_list l) (sum_list L).
Proof.
  intros F N. destruct F as [|x X l L Rx F]; [easy|]. clear N. cbn. revert x X Rx.
  induction F as [|y Y l L Ry F IH]; intros x X Rx; cbn; auto. apply IH. now apply (r_add _ H).
Qed.
Lemma comps_nil m deg f p w : cart_components m deg f p <> Ok w (@nil A).
Proof.
  unfold cart_components. destruct (rep m deg f p (cart_cls (cls_of p))) as [w' c|e]; [|discriminate].
  cbn [bind]. destruct c; cbn; discriminate.
Qed.
Lemma prods_nil m deg f (p : pos A) w : pos_mul_pos m deg f p p <> Ok w (@nil A).
Proof.
  unfold pos_mul_pos. pose proof (comps_nil m deg f p) as N. destruct (cart_components m deg f p) as [w' c|e]; [|discriminate].
  cbn [bind ret]. destruct c as [|x c]; [now specialize (N w')|]. cbn. discriminate.
Qed.
Lemma r_norm deg f p P : rpo p P -> rres (rdist rel strict) (pos_norm deg f p) (pos_norm deg f P).
Proof.
  intros R.
  assert (G : rres (rdist rel strict) (do sq <- pos_mul_pos Traced deg f p p; ret (mkDist KDistance (nsqrt (sum_list sq))))
     (do sq <- pos_mul_pos Traced deg f P P; ret (mkDist KDistance (nsqrt (sum_list sq))))).
  { pose proof (r_mul_pos Traced deg f p P p P R R) as M. pose proof (prods_nil Traced deg f p) as N.
    destruct (pos_mul_pos Traced deg f p p) as [w l|e], (pos_mul_pos Traced deg f P P) as [w' L|e']; cbn in M; try contradiction; [|now subst].
    destruct M as [-> M]. cbn [bind ret]. split; [reflexivity|]. repeat split. cbn [dk dval kind_of].
    apply (r_sqrt _ H 2); [|reflexivity]. apply r_sum; auto. intros ->. now apply (N w'). }
  destruct p, P; cbn [rpos] in R; try contradiction; try exact G; cbn [pos_norm].
  - apply rr_ret. repeat split. cbn [dk dval kind_of]. unfold nsq. destruct R as (R1 & R2 & R3).
    apply (r_sqrt _ H 2); [|reflexivity]. apply (r_add _ H); now apply (r_mul _ H) with (a := 1%Z) (b := 1%Z).
  - apply rr_ret. apply R.
  - apply rr_ret. apply R.
Qed.
Lemma r_eq_dist a a' b b' : rdist rel strict a a' -> rdist rel strict b b' -> eq_dist a b = eq_dist a' b'.
Proof.
  intros (E & _ & R) (E' & _ & R'). unfold eq_dist. rewrite <- E, <- E'. destruct (dk a), (dk b); auto; cbn in R, R'; now rewrite (r_eqb H2 _ _ _ _ _ R R').
Qed.
Lemma r_pos_eq m deg f p P q Q : rpo p P -> rpo q Q -> pos_eq m deg f p q = pos_eq m deg f P Q.
Proof.
  intros R R'. unfold pos_eq. rewrite (rpos_cls _ _ _ _ R). pose proof (r_rep m deg f q Q (cls_of P) R') as K.
  destruct (rep m deg f q (cls_of P)) as [w q1|e], (rep m deg f Q (cls_of P)) as [w' Q1|e']; cbn in K; try contradiction; [|now subst].
  destruct K as [-> K]. cbn [bind].
  assert (eq_components p q1 = eq_components P Q1) as ->; [|reflexivity].
  destruct p, P; cbn [rpos] in R; try contradiction; destruct q1, Q1; cbn [rpos] in K; try contradiction; try reflexivity;
  cbn [eq_components]; repeat match goal with X : _ /\ _ |- _ => destruct X end.
  all: repeat match goal with
    | |- context [neqb ?x ?y] => match goal with X : rel ?k x ?X0, Y : rel ?k y ?Y0 |- _ => rewrite (r_eqb H2 k x X0 y Y0 X Y) end
    end; try reflexivity.
  all: match goal with |- context [eq_dist ?x ?y] => match goal with X : rdist _ _ x ?X0, Y : rdist _ _ y ?Y0 |- _ => rewrite (r_eq_dist x X0 y Y0 X Y) end end; reflexivity.
Qed.
End RelArith.
