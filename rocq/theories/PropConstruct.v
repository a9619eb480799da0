(** * C50: constructing operators, frames and vectors from other objects. *)
From Coq Require Import Reals Bool List ZArith Lra Lia.
From Verif Require Import Num Vectors Spec Transform Pos3D Pos3DThm FromThm Arith Vel SpecVel FourVec Operators SpecOp PropOp3 Frames SpecFrame Construct.
Import ListNotations.
Open Scope R_scope.

(** ** Specification vocabulary *)
(** What sort of vector: position, velocity, acceleration; and how many dimensions. *)
Inductive sort := SPos | SVel | SAcc.
Definition vec_cls (v : anyvec) : veccls :=
  match v with VecP p => KPos (cls_of p) | VecV v => KVel (vc v) | VecA a => KAcc (xc a) | VecF _ => KFour end.
Definition vec_sort (v : anyvec) : sort * nat :=
  match v with
  | VecP p => (SPos, dim_of (cls_of p)) | VecV v => (SVel, vdim (vc v)) | VecA a => (SAcc, xdim (xc a)) | VecF _ => (SPos, 4%nat)
  end.
Definition cls_sort (c : veccls) : option (sort * nat) :=
  match c with
  | KPos c => Some (SPos, dim_of c) | KVel c => Some (SVel, vdim c) | KAcc c => Some (SAcc, xdim c) | KFour => Some (SPos, 4%nat)
  | KVector => None
  | KAbsPos n => option_map (fun n => (SPos, n)) n | KAbsVel n => option_map (fun n => (SVel, n)) n
  | KAbsAcc n => option_map (fun n => (SAcc, n)) n
  end.
Notation fins x := (@map R ext (@Some R) x).

(** ** Vectors from vectors *)
(** [cls.from_(v)] never changes a vector: it is [v] itself or an error. *)
Theorem C50_vector_from_vector_is_itself : forall c v w x, vec_from c v = Ok w x -> w = false /\ x = v.
Proof.
  intros c v w x. unfold vec_from. destruct (overload3 c v); [intros [= <- <-]; auto|].
  destruct (negb (isinstance v c)); [discriminate|]. destruct (concrete c); [intros [= <- <-]; auto|discriminate].
Qed.
Print Assumptions C50_vector_from_vector_is_itself.
Lemma pcls_eqb_iff a b : pcls_eqb a b = true <-> a = b.
Proof. split; [destruct a, b; intros H; try discriminate H; auto|intros <-; destruct a; auto]. Qed.
Lemma vcls_eqb_iff a b : vcls_eqb a b = true <-> a = b.
Proof. split; [destruct a, b; intros H; try discriminate H; auto|intros <-; destruct a; auto]. Qed.
Lemma xcls_eqb_iff a b : xcls_eqb a b = true <-> a = b.
Proof. split; [destruct a, b; intros H; try discriminate H; auto|intros <-; destruct a; auto]. Qed.
(** It succeeds exactly when the class is the vector's own, or when both are
    three-dimensional and of one sort; otherwise it is a TypeError. *)
Theorem C50_vector_from_vector_domain : forall c v,
  let accepted := c = vec_cls v \/ (cls_sort c = Some (vec_sort v) /\ snd (vec_sort v) = 3%nat) in
  (accepted -> vec_from c v = Ok false v) /\ (~ accepted -> vec_from c v = Raise EType).
Proof.
  intros c v acc. unfold acc; clear acc. unfold vec_from.
  assert (O : overload3 c v = true <-> (cls_sort c = Some (vec_sort v) /\ snd (vec_sort v) = 3%nat)).
  { destruct c as [c|c|c| | |[n|]|[n|]|[n|]], v as [p|w|a|g]; cbn [overload3 cls_sort vec_sort option_map snd];
      rewrite ?andb_true_iff, ?Nat.eqb_eq;
      try (split; [discriminate|intros [[=] ?]; congruence]); try (split; [discriminate|intros [[=] [=]]]);
      try (split; [intros [A B]; split; congruence|intros [[= A] B]; split; congruence]).
    all: try (destruct n as [|[|[|[|n]]]]; rewrite ?Nat.eqb_eq; (split; [try discriminate; intros A; split; congruence|intros [[= A] B]; congruence])).
    all: try (split; [discriminate|intros [[= A] B]; try lia; congruence]). }
  assert (I : concrete c = true -> (isinstance v c = true <-> c = vec_cls v)).
  { destruct c as [c|c|c| | |[n|]|[n|]|[n|]], v as [p|w|a|g]; cbn [concrete isinstance vec_cls]; intros K; try discriminate K;
      rewrite ?pcls_eqb_iff, ?vcls_eqb_iff, ?xcls_eqb_iff; split; intros H; try congruence; try discriminate H; auto. }
  assert (V : concrete (vec_cls v) = true) by (destruct v; reflexivity).
  split.
  - intros [E|E].
    + destruct (overload3 c v); [reflexivity|]. rewrite E in I |- *. rewrite (proj2 (I V)) by auto. cbn. now rewrite V.
    + now rewrite (proj2 O).
  - intros N. destruct (overload3 c v); [exfalso; apply N; right; now apply O|].
    destruct (isinstance v c) eqn:J; [|reflexivity]. cbn [negb]. destruct (concrete c) eqn:K; [|reflexivity].
    exfalso. apply N. left. now apply I.
Qed.
Print Assumptions C50_vector_from_vector_domain.
Example C50_vector_ex : vec_from (KPos CCart2) (VecP (PCart2 (Some 1) (Some 2))) = Ok false (VecP (PCart2 (Some 1) (Some 2))) /\
  vec_from (KPos CCart2) (VecP (PPolar (mkDist KDistance (Some 1)) (Some 2))) = Raise EType.
Proof. split; reflexivity. Qed.
(** Finding: the result need not be of the requested class: [SphericalPos.from_] of a
    Cartesian position is that Cartesian position. *)
Theorem C50_requested_class_refuted : exists c v, concrete c = true /\ vec_from c v = Ok false v /\ vec_cls v <> c.
Proof. exists (KPos CSph), (VecP (PCart3 (Some 1) (Some 2) (Some 3))). repeat split; discriminate. Qed.
Print Assumptions C50_requested_class_refuted.
(** Finding: an abstract class refuses its own instances, except AbstractPos3D,
    AbstractVel3D and AbstractAcc3D. *)
Theorem C50_abstract_class_refuted : forall c v, concrete c = false -> isinstance v c = true ->
  (vec_from c v = Ok false v <-> c = KAbsPos (Some 3%nat) \/ c = KAbsVel (Some 3%nat) \/ c = KAbsAcc (Some 3%nat)) /\
  (vec_from c v = Ok false v \/ vec_from c v = Raise EType).
Proof.
  intros c v K I. unfold vec_from. rewrite I, K. cbn [negb].
  destruct (overload3 c v) eqn:O.
  - split; [split; [intros _|reflexivity]|auto].
    destruct c as [c|c|c| | |[n|]|[n|]|[n|]]; try discriminate K; destruct v; try discriminate O; destruct n as [|[|[|[|n]]]]; try discriminate O; auto.
  - split; [split; [discriminate|]|auto]. intros [->|[->| ->]]; destruct v; try discriminate I; cbn [overload3 isinstance within] in O, I; rewrite Nat.eqb_sym in I; congruence.
Qed.
Print Assumptions C50_abstract_class_refuted.
Example C50_abstract_class_ex : isinstance (VecP (PCart2 (Some 1) (Some 2))) (KAbsPos (Some 2%nat)) = true /\
  vec_from (KAbsPos (Some 2%nat)) (VecP (PCart2 (Some 1) (Some 2))) = Raise EType.
Proof. split; reflexivity. Qed.

(** ** Operators from operators *)
Theorem C50_operator_from_operator : forall c o,
  (c = opcls_of o -> op_from c (XOp o) = Ok false o) /\ (c <> opcls_of o -> op_from c (XOp o) = Raise EType).
Proof.
  intros c o. split.
  - intros ->. destruct o; reflexivity.
  - intros H. destruct c, o; try reflexivity; exfalso; now apply H.
Qed.
Print Assumptions C50_operator_from_operator.
(** Finding: so the abstract operator classes refuse every operator, their own instances
    included. *)
Theorem C50_abstract_operator_refuted : forall o, op_isinstance o OCAbstract = true /\ op_from OCAbstract (XOp o) = Raise EType.
Proof. intros o. destruct o; split; reflexivity. Qed.
Print Assumptions C50_abstract_operator_refuted.

(** ** Operators from arrays *)
(** A translation built from a length array moves every point by that vector. *)
Theorem C50_spatial_translation : forall m deg f x y t, (length x = 1 \/ length x = 2 \/ length x = 3)%nat -> length y = length x ->
  exists o, construct OCSpatial (XQty Length (fins x)) = Ok false o /\
    op_from OCSpatial (XQty Length (fins x)) = Ok false o /\
    call m deg (4 + f) o (VPosT (finite (cart_pos y)) (Some t)) = Ok false (VPosT (finite (cart_pos (vadd y x))) (Some t)).
Proof.
  intros m deg f x y t L Ly. exists (ofinite (OSpatial (cart_pos x))).
  split; [|split].
  1, 2: destruct x as [|a [|b [|c [|]]]]; cbn in L; try lia; reflexivity.
  apply (C29_spatial_translation m deg f (length x)); auto.
  - destruct x as [|a [|b [|c [|]]]]; cbn in L; try lia; cbn [cart_pos]; repeat split; cbn; auto; discriminate.
  - destruct x as [|a [|b [|c [|]]]]; cbn in L; try lia; reflexivity.
Qed.
Print Assumptions C50_spatial_translation.
(** Any position, any rigid translation object: kept as it is. *)
Theorem C50_spatial_translation_of_vector : forall q, construct OCSpatial (XVec (VecP q)) = Ok false (OSpatial q) /\
  construct OCSpatial (XOp (OSpatial q)) = Ok false (OSpatial q) /\ op_from OCSpatial (XVec (VecP q)) = Ok false (OSpatial q).
Proof. repeat split. Qed.
Print Assumptions C50_spatial_translation_of_vector.
(** Everything else is refused. *)
Theorem C50_spatial_translation_refuses : forall d x v M l o,
  (d <> Length -> (length x = 1 \/ length x = 2 \/ length x = 3)%nat -> construct OCSpatial (XQty d x) = Raise EUnit) /\
  (length x = 0%nat \/ (4 <= length x)%nat -> construct OCSpatial (XQty d x) = Raise EType) /\
  construct OCSpatial (XVec (VecV v)) = Raise EType /\ construct OCSpatial (XMat (Some d) M) = Raise EType /\ construct OCSpatial (XSeq l) = Raise EType /\
  construct OCSpatial XNone = Raise EType /\ (opcls_of o <> OCSpatial -> construct OCSpatial (XOp o) = Raise EType).
Proof.
  intros d x v M l o. repeat split.
  - intros D L. destruct x as [|a [|b [|c [|]]]]; cbn in L; try lia; destruct d; try contradiction; reflexivity.
  - intros L. destruct x as [|a [|b [|c [|]]]]; cbn in L; try lia; destruct d; reflexivity.
  - intros H. destruct o; try reflexivity. now contradiction H.
Qed.
Print Assumptions C50_spatial_translation_refuses.

(** A four-translation built from [(ct, x, y, z)]: [c * dt = ct]. *)
Theorem C50_translation : forall m deg f ct x y t, length x = 3%nat -> length y = 3%nat ->
  exists o dt, construct OCTranslation (XQty Length (fins (ct :: x))) = Ok false o /\ c_light * dt = ct /\
    call m deg (4 + f) o (VPosT (finite (cart_pos y)) (Some t)) = Ok false (VPosT (finite (cart_pos (vadd y x))) (Some (t + dt))).
Proof.
  intros m deg f ct x y t L Ly. exists (ofinite (OTranslation (mkFV (ct / c_light) (cart_pos x) c_light))), (ct / c_light).
  assert (C : c_light <> 0) by (unfold c_light; lra).
  split; [|split].
  - destruct x as [|a [|b [|c [|]]]]; try discriminate L. unfold construct, conv_four. cbn [map fv_from_array].
    replace (ndiv (Some ct : ext) (ncst c_light)) with (Some (ct / c_light) : ext); [reflexivity|].
    cbn. unfold Reqb. destruct (Req_EM_T c_light 0); [contradiction|reflexivity].
  - field. auto.
  - apply (C29_translation m deg f (mkFV (ct / c_light) (cart_pos x) c_light)); auto.
    + destruct x as [|a [|b [|c [|]]]]; try discriminate L; cbn [cart_pos fq]; repeat split; cbn; auto; discriminate.
    + destruct x as [|a [|b [|c [|]]]]; try discriminate L; reflexivity.
Qed.
Print Assumptions C50_translation.
Theorem C50_translation_refuses : forall d x v M l o p,
  (length x <> 4%nat -> exists e, construct OCTranslation (XQty d x) = Raise e) /\
  (d <> Length -> exists e, construct OCTranslation (XQty d x) = Raise e) /\
  construct OCTranslation (XVec (VecP p)) = Raise EType /\ construct OCTranslation (XVec (VecV v)) = Raise EType /\
  construct OCTranslation (XMat (Some d) M) = Raise ENotFound /\ construct OCTranslation (XSeq l) = Raise ENotFound /\ construct OCTranslation (XOp o) = Raise ENotFound.
Proof.
  intros d x v M l o p. repeat split.
  - intros L. destruct x as [|a [|b [|c [|e [|]]]]]; cbn in L; try lia; eexists; reflexivity.
  - intros D. destruct x as [|a [|b [|c [|e [|]]]]]; destruct d; try contradiction; eexists; reflexivity.
Qed.
Print Assumptions C50_translation_refuses.

(** A rotation is the same whether given as an array, a dimensionless quantity, a scipy
    rotation, or a rotation operator; and it multiplies by the matrix. *)
Theorem C50_rotation : forall m deg f M x t, square3 M -> length x = 3%nat ->
  let o := ofinite (ORotation M) in let N := @map _ (list ext) (fun r => fins r) M in
  construct OCRotation (XMat None N) = Ok false o /\ construct OCRotation (XMat (Some Dimless) N) = Ok false o /\
  construct OCRotation (XOp o) = Ok false o /\ rotation_from_scipy N = Ok false o /\
  op_from OCRotation (XMat None N) = Ok false o /\ op_from OCRotation (XOp o) = Ok false o /\
  call m deg (4 + f) o (VPosT (finite (cart_pos x)) (Some t)) = Ok false (VPosT (finite (cart_pos (rot M x))) (Some t)).
Proof.
  intros m deg f M x t S L o N. repeat (split; [reflexivity|]). now apply C29_rotation.
Qed.
Print Assumptions C50_rotation.
Theorem C50_rotation_refuses : forall d M x o v,
  (d <> Dimless -> construct OCRotation (XMat (Some d) M) = Raise EUnit /\ construct OCRotation (XQty d x) = Raise EUnit) /\
  (opcls_of o <> OCRotation -> construct OCRotation (XOp o) = Raise EType) /\ construct OCRotation (XVec v) = Raise EType.
Proof.
  intros d M x o v. repeat split.
  - destruct d; try contradiction; reflexivity.
  - destruct d; try contradiction; reflexivity.
  - intros H. destruct o; try reflexivity. now contradiction H.
Qed.
Print Assumptions C50_rotation_refuses.

(** Boosts from a speed array of three entries. *)
Theorem C50_boost : forall m deg f u x t, length u = 3%nat -> length x = 3%nat ->
  exists o, construct OCBoost (XQty Speed (fins u)) = Ok false o /\ op_from OCBoost (XQty Speed (fins u)) = Ok false o /\
    call m deg (4 + f) o (VPosT (finite (cart_pos x)) (Some t)) = Ok false (VPosT (finite (cart_pos (vadd x (vscale t u)))) (Some t)).
Proof.
  intros m deg f u x t L Lx. exists (ofinite (OBoost (mkVel WCart3 u))).
  split; [|split]; try (destruct u as [|a [|b [|c [|]]]]; try discriminate L; reflexivity).
  apply (C29_boost m deg f 3 (mkVel WCart3 u)); auto. split; auto.
Qed.
Print Assumptions C50_boost.
(** Finding: the number of entries is not checked; missing entries repeat the last one,
    further ones are ignored. *)
Theorem C50_boost_length_refuted : forall a b l,
  construct OCBoost (XQty Speed [a]) = Ok false (OBoost (mkVel WCart3 [a; a; a])) /\
  construct OCBoost (XQty Speed [a; b]) = Ok false (OBoost (mkVel WCart3 [a; b; b])) /\
  forall c, construct OCBoost (XQty Speed (a :: b :: c :: l)) = Ok false (OBoost (mkVel WCart3 [a; b; c])).
Proof.
  intros a b l. split; [reflexivity|]. split; [reflexivity|]. intros c.
  unfold construct, conv_boost, vel3_from, clamped.
  replace (length (a :: b :: c :: l) - 1)%nat with (2 + length l)%nat by (cbn [length]; lia).
  replace (Nat.min 0 (2 + length l)) with 0%nat by lia. replace (Nat.min 1 (2 + length l)) with 1%nat by lia. replace (Nat.min 2 (2 + length l)) with 2%nat by lia.
  reflexivity.
Qed.
Print Assumptions C50_boost_length_refuted.
Theorem C50_boost_of_vector : forall v, construct OCBoost (XVec (VecV v)) = Ok false (OBoost v) /\ construct OCVelBoost (XVec (VecV v)) = Ok false (OVelBoost v).
Proof. repeat split. Qed.
Print Assumptions C50_boost_of_vector.
(** A velocity boost adds its velocity, and the two boost classes accept the same. *)
Theorem C50_velocity_boost : forall x, (exists w v, construct OCBoost x = Ok w (OBoost v) /\ construct OCVelBoost x = Ok w (OVelBoost v)) \/
  (exists e, construct OCBoost x = Raise e /\ construct OCVelBoost x = Raise e).
Proof.
  intros x. unfold construct. destruct (conv_boost x) as [w v|e] eqn:E; [left|right; exists e; auto].
  exists w, v. cbn. rewrite orb_false_r. auto.
Qed.
Print Assumptions C50_velocity_boost.
(** Finding: a class called on an operator of its own kind unwraps it only for spatial
    translations, rotations and pipes. *)
Theorem C50_class_of_operator : forall q M l T v,
  construct OCSpatial (XOp (OSpatial q)) = Ok false (OSpatial q) /\ construct OCRotation (XOp (ORotation M)) = Ok false (ORotation M) /\
  construct OCPipe (XOp (OPipe l)) = Ok false (OPipe l) /\ construct OCTranslation (XOp (OTranslation T)) = Raise ENotFound /\
  construct OCBoost (XOp (OBoost v)) = Raise ERecursion /\ construct OCVelBoost (XOp (OVelBoost v)) = Raise ERecursion.
Proof. repeat split. Qed.
Print Assumptions C50_class_of_operator.

(** ** Pipes *)
Theorem C50_pipe : forall l (o : op R), construct OCPipe (XSeq l) = Ok false (OPipe l) /\
  exists p, construct OCPipe (XOp (ofinite o)) = Ok false (ofinite p) /\ opcls_of (ofinite p) = OCPipe /\
    forall e e', acts p e e' <-> acts o e e'.
Proof.
  intros l o. split; [reflexivity|].
  destruct o; try (exists (OPipe operators); split; [reflexivity|]; split; [reflexivity|tauto]).
  all: match goal with |- exists p, construct OCPipe (XOp (ofinite ?o)) = _ /\ _ =>
    exists (OPipe [o]); split; [reflexivity|]; split; [reflexivity|]; intros e e'; cbn [acts]; split;
    [intros (e1 & A & ->); exact A|intros A; exists e'; auto] end.
Qed.
Print Assumptions C50_pipe.
Theorem C50_pipe_refuses : forall d x v M, construct OCPipe (XQty d x) = Raise EType /\ construct OCPipe (XVec v) = Raise EType /\
  construct OCPipe (XMat (Some d) M) = Raise EType /\ construct OCPipe XNone = Raise EType.
Proof. repeat split. Qed.
Print Assumptions C50_pipe_refuses.

(** ** GalileanOperator: omitted parts do nothing. *)
Definition id3 : mat R := [[1; 0; 0]; [0; 1; 0]; [0; 0; 1]].
Lemma four_zero : conv_four (XQty Length (zeros 4)) = Ok false (fvfinite (mkFV 0 (PCart3 0 0 0) c_light)).
Proof.
  unfold conv_four, zeros. cbn [repeat fv_from_array]. replace (ndiv (Some 0 : ext) (ncst c_light)) with (Some 0 : ext); [reflexivity|].
  cbn. unfold Reqb. destruct (Req_EM_T c_light 0) as [E|]; [exfalso; unfold c_light in E; lra|]. f_equal. unfold Rdiv. ring.
Qed.
Lemma opt_bind {A B} (x : A) (k : A -> res B) : (do y <- Ok false x; k y) = k x. Proof. apply bind_ok. Qed.
Lemma galilean_ok R T V r t v : rotation_from (dflt_arg R (XMat None eye3)) = Ok false r -> translation_from (dflt_arg T (XQty Length (zeros 4))) = Ok false t ->
  boost_from (dflt_arg V (XQty Speed (zeros 3))) = Ok false v -> galilean_new R T V = Ok false (OGalilean r t v).
Proof. intros A B C. unfold galilean_new. rewrite A, bind_ok, B, bind_ok, C, bind_ok. reflexivity. Qed.
(** [R], [b], [dt], [u]: the parts given, or nothing at all; the operator acts as the
    rotation, then the translation, then the boost, with the omitted ones left out. *)
Theorem C50_galilean_operator : forall m deg f (M : option (mat R)) (T : option (R * list R)) (u : option (list R)) x t,
  (forall N, M = Some N -> square3 N) -> (forall ct b, T = Some (ct, b) -> length b = 3%nat) -> (forall w, u = Some w -> length w = 3%nat) ->
  length x = 3%nat ->
  let x1 := match M with Some N => rot N x | None => x end in
  exists o dt, galilean_new (option_map (fun N => XMat None (@map _ (list ext) (fun r => fins r) N)) M)
                         (option_map (fun p => XQty Length (fins (fst p :: snd p))) T)
                         (option_map (fun w => XQty Speed (fins w)) u) = Ok false o /\
    c_light * dt = match T with Some (ct, _) => ct | None => 0 end /\
    let x2 := match T with Some (_, b) => vadd x1 b | None => x1 end in
    let x3 := match u with Some w => vadd x2 (vscale (t + dt) w) | None => x2 end in
    call m deg (4 + f) o (VPosT (finite (cart_pos x)) (Some t)) = Ok false (VPosT (finite (cart_pos x3)) (Some (t + dt))).
Proof.
  intros m deg f M T u x t HM HT Hu L x1.
  assert (C : c_light <> 0) by (unfold c_light; lra).
  set (N := match M with Some N => N | None => id3 end).
  set (FV := match T with Some (ct, b) => mkFV (ct / c_light) (cart_pos b) c_light | None => mkFV 0 (PCart3 0 0 0) c_light end).
  set (b := match T with Some (ct, b) => b | None => [0; 0; 0] end).
  set (w := match u with Some w => w | None => [0; 0; 0] end).
  exists (ofinite (OGalilean N FV (mkVel WCart3 w))), (ft FV).
  assert (Lb : length b = 3%nat) by (unfold b; destruct T as [[ct b']|]; [now apply (HT ct)|reflexivity]).
  assert (Lw : length w = 3%nat) by (unfold w; destruct u as [w'|]; [now apply Hu|reflexivity]).
  assert (SN : square3 N). { unfold N. destruct M as [N'|]; [now apply HM|]. split; [reflexivity|repeat constructor]. }
  assert (Fb : fq FV = cart_pos b). { unfold FV, b. destruct T as [[ct b']|]; reflexivity. }
  split; [|split].
  - apply galilean_ok.
    + unfold N. destruct M; reflexivity.
    + unfold FV. destruct T as [[ct b']|]; [|apply four_zero]. cbn [option_map dflt_arg fst snd translation_from]. unfold conv_four.
      specialize (HT ct b' eq_refl). destruct b' as [|a [|c [|d [|]]]]; try discriminate HT. cbn [map fv_from_array].
      replace (ndiv (Some ct : ext) (ncst c_light)) with (Some (ct / c_light) : ext); [reflexivity|].
      cbn. unfold Reqb. destruct (Req_EM_T c_light 0); [contradiction|reflexivity].
    + unfold w. destruct u as [w'|]; [|reflexivity]. specialize (Hu w' eq_refl). destruct w' as [|a [|c [|d [|]]]]; try discriminate Hu. reflexivity.
  - unfold FV. destruct T as [[ct b']|]; cbn [ft]; [field; auto|ring].
  - assert (G : good 3 (OGalilean N FV (mkVel WCart3 w))).
    { cbn [good good1]. repeat split; try apply SN; auto; rewrite Fb; destruct b as [|a [|c [|d [|]]]]; try discriminate Lb; cbn; auto; discriminate. }
    rewrite (C29_galilean_operator m deg f N FV (mkVel WCart3 w) b x t G); auto.
    2: { rewrite Fb. destruct b as [|a [|c [|d [|]]]]; try discriminate Lb; reflexivity. }
    do 4 f_equal.
    cbn [vcomps]. 
    assert (R1 : rot N x = x1).
    { unfold N, x1. destruct M as [N'|]; [reflexivity|]. destruct x as [|a [|c [|d [|]]]]; try discriminate L.
      cbv [rot id3 map vsum vmul combine fold_right]. repeat f_equal; ring. }
    assert (L1 : length x1 = 3%nat). { rewrite <- R1. unfold rot. rewrite map_length. apply SN. }
    rewrite R1.
    assert (R2 : vadd x1 b = match T with Some (_, b) => vadd x1 b | None => x1 end).
    { unfold b. destruct T as [[ct b']|]; [reflexivity|]. destruct x1 as [|a [|c [|d [|]]]]; try discriminate L1. cbv [vadd map combine]. repeat f_equal; ring. }
    rewrite <- R2. unfold w. destruct u as [w'|]; [reflexivity|].
    assert (L2 : length (vadd x1 b) = 3%nat). { destruct x1 as [|a [|c [|d [|]]]]; try discriminate L1. destruct b as [|a' [|c' [|d' [|]]]]; try discriminate Lb. reflexivity. }
    destruct (vadd x1 b) as [|a [|c [|d [|]]]]; try discriminate L2. cbv [vadd vscale map combine]. f_equal. repeat f_equal; ring.
Qed.
Print Assumptions C50_galilean_operator.
(** In particular the operator with no arguments is the identity. *)
Theorem C50_galilean_default : forall m deg f x t, length x = 3%nat ->
  exists o, galilean_new None None None = Ok false o /\
    call m deg (4 + f) o (VPosT (finite (cart_pos x)) (Some t)) = Ok false (VPosT (finite (cart_pos x)) (Some t)).
Proof.
  intros m deg f x t L. destruct (C50_galilean_operator m deg f None None None x t) as (o & dt & E & D & K); try discriminate; auto.
  exists o. split; [exact E|]. cbv zeta in K. rewrite K. do 3 f_equal. assert (c_light <> 0) by (unfold c_light; lra). nra.
Qed.
Print Assumptions C50_galilean_default.
Example C50_galilean_ex : square3 id3 /\ length [1; 2; 3] = 3%nat. Proof. split; [split; [reflexivity|repeat constructor]|reflexivity]. Qed.
(** The parts may be operators; operators of another kind are refused. *)
Theorem C50_galilean_parts : forall M T v o, galilean_new (Some (XOp (ORotation M))) (Some (XOp (OTranslation T))) (Some (XOp (OBoost v))) = Ok false (OGalilean M T v) /\
  (opcls_of o <> OCRotation -> forall T V, galilean_new (Some (XOp o)) T V = Raise EType).
Proof.
  intros M T v o. split; [reflexivity|]. intros H T' V'. unfold galilean_new. cbn [dflt_arg rotation_from].
  destruct o; try reflexivity. now contradiction H.
Qed.
Print Assumptions C50_galilean_parts.

(** ** Frames *)
Theorem C50_frame_from_frame : forall c f, (c = None \/ c = Some (fcls_of f) -> frame_from c f = Ok false f) /\
  (forall d, c = Some d -> d <> fcls_of f -> frame_from c f = Raise EType).
Proof.
  intros c f. split.
  - intros [->| ->]; [reflexivity|]. destruct f; reflexivity.
  - intros d -> H. destruct d, f; try reflexivity; now contradiction H.
Qed.
Print Assumptions C50_frame_from_frame.
(** A Galactocentric frame imported from astropy has the same centre, Sun, roll and solar
    velocity. *)
Theorem C50_astropy_galactocentric : forall m ra dec d roll z v, - (PI / 2) <= dec <= PI / 2 -> 0 <= d ->
  let a := mkGCF ra dec (mkDist KDistance d) roll z v in
  exists g, gcf_from_astropy m (mkApy false (Some ra) (Some dec) (Some d) (Some roll) (Some z) (fins v)) = Ok false (GCF (gfinite g)) /\
    galactic_centre g = galactic_centre a /\ sun_place g = sun_place a /\ g_roll g = roll /\ g_vsun g = v /\ g_dist g = mkDist KDistance d /\
    0 <= g_lon g < 2 * PI.
Proof.
  intros m ra dec d roll z v Hd Hr a.
  exists (mkGCF (azR (AsQty ra)) dec (mkDist KDistance d) roll z v).
  split; [|split; [|repeat split; auto]].
  - unfold gcf_from_astropy. cbn [ay_has_data ay_ra ay_dec ay_dist ay_roll ay_zsun ay_vsun].
    unfold mk_LonLat. cbn [conv_r length_of_kind dval dk].
    change (nneg (nang (PI/2)) : ext) with (Some (- (PI / 2)) : ext). change (nang (PI/2) : ext) with (Some (PI / 2) : ext).
    rewrite polar_ok, nonneg_ok by lra. reflexivity.
  - unfold galactic_centre, a. cbn [g_lat g_lon g_dist dval]. rewrite cos_azR, sin_azR. reflexivity.
  - unfold azR. cbn. apply Rwrap_range.
  - unfold azR. cbn. apply Rwrap_range.
Qed.
Print Assumptions C50_astropy_galactocentric.
Theorem C50_astropy_with_data_raises : forall m a, ay_has_data a = true -> gcf_from_astropy m a = Raise ERuntime /\ icrs_from_astropy true = Raise ERuntime /\ icrs_from_astropy false = Ok false ICRS.
Proof. intros m a H. unfold gcf_from_astropy. rewrite H. repeat split. Qed.
Print Assumptions C50_astropy_with_data_raises.
(** Finding: a Galactic centre given in another class than LonLatSphericalPos is not
    converted; the frame cannot be used. *)
Theorem C50_galcen_class_refuted : forall p roll z v, dim_of (cls_of p) = 3%nat -> cls_of p <> CLonLat -> length (vcomps v) = 3%nat -> vc v = WCart3 ->
  vec_from (KPos CLonLat) (VecP p) = Ok false (VecP p) /\ galactocentric_new p roll z v = Raise EAttribute.
Proof.
  intros p roll z v D N L W. assert (E : vec_from (KPos CLonLat) (VecP p) = Ok false (VecP p)).
  { unfold vec_from. cbn [overload3]. rewrite D. reflexivity. }
  split; [exact E|]. unfold galactocentric_new. rewrite E, bind_ok. unfold vec_from. cbn [overload3]. rewrite W. unfold vdim. cbn [Nat.eqb integral_cls dim_of andb]. unfold ret. rewrite bind_ok.
  destruct p; try reflexivity. now contradiction N.
Qed.
Print Assumptions C50_galcen_class_refuted.
