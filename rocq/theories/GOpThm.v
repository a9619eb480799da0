(** * On SI values the polymorphic operators are those of Operators.v. *)
From Coq Require Import Reals Bool List ZArith Lra Lia.
From Verif Require Import Num Vectors Transform Arith TreeArith Vel FourVec Operators GOp.
Import ListNotations.
Open Scope R_scope.

Notation cl := (ncst c_light : ext).
Lemma ext_add_0 (x : ext) : nadd x (Some 0%R : ext) = x.
Proof. destruct x; cbn; auto. now rewrite Rplus_0_r. Qed.
Lemma ext_add_assoc (x y z : ext) : nadd (nadd x y) z = nadd x (nadd y z).
Proof. destruct x, y, z; cbn; auto. now rewrite Rplus_assoc. Qed.
Lemma sum_acc (l : list ext) : forall x, fold_left nadd l x = nadd x (fold_right nadd (Some 0%R : ext) l).
Proof.
  induction l as [|y l IH]; intros x; cbn [fold_left fold_right]; [now rewrite ext_add_0|].
  rewrite IH. apply ext_add_assoc.
Qed.
Lemma gdot_eq r x : gdot r x = dot r x.
Proof. unfold gdot, dot, sum_list. destruct (map _ _) as [|y l]; [reflexivity|]. apply sum_acc. Qed.
Lemma gmatmul_eq R x : gmatmul_vec R x = matmul_vec R x.
Proof. unfold gmatmul_vec, matmul_vec. apply map_ext. intros. apply gdot_eq. Qed.
Lemma gtranspose_eq R : gtranspose R = transpose R. Proof. reflexivity. Qed.
Section Eq.
Variables (m : mode) (deg : bool) (fuel : nat).
Lemma grotate_eq R q : grotate m deg fuel R q = rotate m deg fuel R q.
Proof.
  unfold grotate, rotate. destruct (dim_of (cls_of q)) as [|[|[|[|]]]]; auto.
  destruct (represent_as m deg fuel nokw q CCart3) as [w x|e]; auto. cbn [bind]. destruct x; auto. now rewrite gmatmul_eq.
Qed.
Lemma tadd_eq (p q : pos ext) : tpos_add m deg fuel p q = pos_add m deg fuel p q. Proof. now apply tpos_add_eq. Qed.
Lemma tsub_eq (p q : pos ext) : tpos_sub m deg fuel p q = pos_sub m deg fuel p q. Proof. now apply tpos_sub_eq. Qed.
Lemma gboost_eq v q t : gboost_pos m deg fuel v q t = boost_pos m deg fuel v q t.
Proof. unfold gboost_pos, boost_pos. destruct (gvel_mul_time m v t) as [w d|e] eqn:E; change (vel_mul_time m v t) with (gvel_mul_time m v t); rewrite E; [|reflexivity]. cbn [bind]. now rewrite tadd_eq. Qed.
Lemma gfv_add_eq v w : gfv_add m deg fuel v w = fv_add m deg fuel v w.
Proof. unfold gfv_add, fv_add. now rewrite tadd_eq. Qed.
Lemma gfv_sub_eq v w : gfv_sub m deg fuel v w = fv_sub m deg fuel v w.
Proof. unfold gfv_sub, fv_sub. now rewrite tsub_eq. Qed.
Lemma gcall_vec_eq o x : vector_value x -> gcall_vec m deg fuel cl o x = call_vec m deg fuel o x.
Proof. intros V. destruct o, x; cbn in V; try contradiction; cbn [gcall_vec call_vec]; rewrite ?grotate_eq, ?gboost_eq, ?tadd_eq, ?gfv_add_eq; reflexivity. Qed.
Lemma call_vec_value o x w y : vector_value x -> call_vec m deg fuel o x = Ok w y -> vector_value y.
Proof.
  intros V. destruct o, x; cbn in V; try contradiction; cbn [call_vec]; intros E; try discriminate; try (injection E as _ <-; exact I).
  all: repeat match type of E with
    | bind ?r _ = _ => destruct r; cbn [bind ret] in E; [|discriminate]
    | context [match dim_of ?x with _ => _ end] => destruct (dim_of x) as [|[|[|[|]]]]; try discriminate
    end; injection E as _ <-; exact I.
Qed.
Lemma call_single_vec o x : vector_value x -> call_single m deg fuel o x = call_vec m deg fuel o x.
Proof. intros V. destruct o, x; cbn in V; try contradiction; reflexivity. Qed.
Lemma bind_ext {T U} (r : res T) (k k' : T -> res U) : (forall w x, r = Ok w x -> k x = k' x) -> bind r k = bind r k'.
Proof. intros H. destruct r as [w x|e]; cbn; auto. now rewrite (H w x). Qed.
(** induction on operators *)
Fixpoint op_ind' {A} (P : op A -> Prop) (H : forall o, parts o = None -> P o)
  (HP : forall ops, Forall P ops -> P (OPipe ops)) (HG : forall R T V, P (OGalilean R T V)) (o : op A) : P o :=
  match o return P o with
  | OIdentity => H OIdentity eq_refl
  | OSpatial q => H (OSpatial q) eq_refl
  | OTranslation v => H (OTranslation v) eq_refl
  | ORotation R => H (ORotation R) eq_refl
  | OBoost v => H (OBoost v) eq_refl
  | OVelBoost v => H (OVelBoost v) eq_refl
  | OPipe ops => HP ops ((fix go l : Forall P l := match l with [] => Forall_nil _ | o :: l => Forall_cons o (op_ind' P H HP HG o) (go l) end) ops)
  | OGalilean R T V => HG R T V
  end.
Lemma gcall_eq o : forall x, vector_value x ->
  gcall m deg fuel cl o x = call m deg fuel o x /\ (forall w y, call m deg fuel o x = Ok w y -> vector_value y).
Proof.
  induction o as [o P|ops IH|R T V] using op_ind'; intros x Vx.
  - assert (E : call m deg fuel o x = call_vec m deg fuel o x).
    { rewrite <- call_single_vec by auto. destruct o; cbn in P; try discriminate; reflexivity. }
    rewrite E. split; [|intros w y; now apply call_vec_value]. rewrite <- gcall_vec_eq by auto. destruct o; cbn in P; try discriminate; reflexivity.
  - assert (E : call m deg fuel (OPipe ops) x = loop (call m deg fuel) ops x).
    { destruct x; cbn in Vx; try contradiction; cbn [call]; clear IH;
      match goal with |- _ ?x = _ => generalize x end; induction ops as [|o ops IH]; intros val0; cbn [loop]; auto;
      apply bind_ext; intros; apply IH. }
    rewrite E.
    assert (E' : gcall m deg fuel cl (OPipe ops) x = loop (gcall m deg fuel cl) ops x).
    { cbn [gcall]. clear IH E Vx. revert x. induction ops as [|o ops IH]; intros v; cbn [loop]; auto. apply bind_ext; intros; apply IH. }
    rewrite E'. clear E E'. revert x Vx. induction IH as [|o ops Ho _ IH]; intros x Vx; cbn [loop].
    + split; auto. intros w y E. injection E as _ <-. exact Vx.
    + destruct (Ho x Vx) as [-> V']. destruct (call m deg fuel o x) as [w1 x1|e]; cbn [bind]; [|split; [auto|discriminate]].
      destruct (IH x1 (V' w1 x1 eq_refl)) as [-> V'']. split; auto. destruct (loop (call m deg fuel) ops x1) as [w2 x2|]; [|discriminate].
      intros w y E. injection E as _ <-. eapply V''; reflexivity.
  - assert (E : call m deg fuel (OGalilean R T V) x = do y <- call_vec m deg fuel (ORotation R) x; do z <- call_vec m deg fuel (OTranslation T) y; call_vec m deg fuel (OBoost V) z).
    { transitivity (do y <- call_single m deg fuel (ORotation R) x; do z <- call_single m deg fuel (OTranslation T) y; call_single m deg fuel (OBoost V) z).
      { destruct x; cbn in Vx; try contradiction; reflexivity. }
      rewrite call_single_vec by auto. apply bind_ext. intros w1 x1 E1. apply call_vec_value in E1; auto.
      rewrite call_single_vec by auto. apply bind_ext. intros w2 x2 E2. apply call_vec_value in E2; auto.
      now rewrite call_single_vec by auto. }
    rewrite E. cbn [gcall]. rewrite gcall_vec_eq by auto.
    destruct (call_vec m deg fuel (ORotation R) x) as [w1 x1|e] eqn:E1; [|split; [auto|discriminate]]. apply call_vec_value in E1; auto. cbn [bind].
    rewrite gcall_vec_eq by auto. destruct (call_vec m deg fuel (OTranslation T) x1) as [w2 x2|e] eqn:E2; [|split; [auto|discriminate]].
    apply call_vec_value in E2; auto. cbn [bind]. rewrite gcall_vec_eq by auto. split; auto.
    destruct (call_vec m deg fuel (OBoost V) x2) as [w3 x3|e] eqn:E3; [|discriminate]. apply call_vec_value in E3; auto. intros w y K. injection K as _ <-. auto.
Qed.
Lemma ginverse_eq o : ginverse m deg fuel o = inverse m deg fuel o.
Proof.
  induction o as [o P|ops IH|R T V] using op_ind'; [destruct o; cbn in P; try discriminate; reflexivity| |reflexivity].
  cbn [ginverse inverse]. match goal with |- bind (?f ops) _ = bind (?g ops) _ => assert (E : f ops = g ops) end; [|now rewrite E].
  induction IH as [|o ops Ho _ IH]; auto.
Qed.
End Eq.
