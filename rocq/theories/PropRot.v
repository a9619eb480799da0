(** * C48: the algebra of rotations.

    Specification vocabulary: [rot M x] (matrix times column), [orthogonal], [square3]:
    SpecOp.v; here: the determinant, the right-handed rotation by an angle about a
    coordinate axis. *)
From Coq Require Import Reals Bool List ZArith Lra Lia.
From Verif Require Import Num Vectors Spec Transform Arith Vel SpecVel FourVec Operators SpecOp OpThm OpInv OpSimp Frames SpecFrame FrameThm Rotations.
From Verif Require Import Pos3DThm ArithThm ArithThm2 OpMisc OpGlue VelAt.
Import ListNotations.
Open Scope R_scope.

Definition det (M : mat R) : R :=
  let e i j := nth j (nth i M []) 0 in
  e 0%nat 0%nat * (e 1%nat 1%nat * e 2%nat 2%nat - e 1%nat 2%nat * e 2%nat 1%nat)
  - e 0%nat 1%nat * (e 1%nat 0%nat * e 2%nat 2%nat - e 1%nat 2%nat * e 2%nat 0%nat)
  + e 0%nat 2%nat * (e 1%nat 0%nat * e 2%nat 1%nat - e 1%nat 1%nat * e 2%nat 0%nat).
(** counter-clockwise by [t] seen from the tip of the axis *)
Definition turn_about (a : axis) (t : R) (v : list R) : list R :=
  match a, v with
  | AX, [x; y; z] => [x; y * cos t - z * sin t; y * sin t + z * cos t]
  | AY, [x; y; z] => [x * cos t + z * sin t; y; z * cos t - x * sin t]
  | AZ, [x; y; z] => [x * cos t - y * sin t; x * sin t + y * cos t; z]
  | _, _ => v
  end.
Definition one3 : mat R := [[1; 0; 0]; [0; 1; 0]; [0; 0; 1]].
Notation mfin := (@map (list R) (list ext) (@map R ext (@Some R))).
Notation rotation_op M := (ofinite (ORotation M)).

Ltac sh M H := let a := fresh "a" in let b := fresh "b" in let c := fresh "c" in let d := fresh "d" in let e := fresh "e" in
  let g := fresh "g" in let h := fresh "h" in let i := fresh "i" in let j := fresh "j" in
  destruct (square3_shape M H) as (a & b & c & d & e & g & h & i & j & ->).
Ltac mat_eq := cbv [mm tr rot map seq nth vsum vmul combine fold_right]; repeat (f_equal; try ring).

Lemma efin_inj (a b : list R) : @map R ext (@Some R) a = map (@Some R) b -> a = b.
Proof. revert b; induction a as [|x a IH]; intros [|y b] K; try discriminate; auto. injection K as -> K. f_equal; auto. Qed.
Lemma mfin_inj (a b : mat R) : mfin a = mfin b -> a = b.
Proof. revert b; induction a as [|x a IH]; intros [|y b] K; try discriminate; auto. injection K as K1 K2. f_equal; auto using efin_inj. Qed.

(** [A @ B] is a rotation that first does B, then A; on positions of every class. *)
Theorem C48_matmul : forall P Q, square3 P -> square3 Q -> exists S,
  op_matmul (rotation_op P) (rotation_op Q) = Ok false (rotation_op S) /\ square3 S /\
  (forall x, length x = 3%nat -> rot S x = rot P (rot Q x)) /\ det S = det P * det Q /\
  (orthogonal P -> orthogonal Q -> orthogonal S).
Proof.
  intros P Q SP SQ. exists (mm P Q). split; [|split; [|split; [|split]]].
  - unfold ofinite. cbn [op_map op_matmul]. now rewrite mm_fin.
  - sh P SP. sh Q SQ. split; [reflexivity|repeat constructor].
  - intros. now apply mm_rot.
  - sh P SP. sh Q SQ. cbv [det mm tr map seq nth vsum vmul combine fold_right]. ring.
  - apply mm_orthogonal.
Qed.
Print Assumptions C48_matmul.
Theorem C48_matmul_calls : forall m deg f P Q AB q x, square3 P -> square3 Q ->
  op_matmul (rotation_op P) (rotation_op Q) = Ok false AB ->
  good_pos 3 q -> denotes q x -> can_hold (cls_of q) (rot Q x) -> can_hold (cls_of q) (rot P (rot Q x)) ->
  exists q1 q2 q2', call m deg (4 + f) (rotation_op Q) (VPos (finite q)) = Ok false (VPos (finite q1)) /\
    call m deg (4 + f) (rotation_op P) (VPos (finite q1)) = Ok false (VPos (finite q2)) /\
    call m deg (4 + f) AB (VPos (finite q)) = Ok false (VPos (finite q2')) /\
    cls_of q2 = cls_of q /\ cls_of q2' = cls_of q /\ same_point q2 q2'.
Proof.
  intros m deg f P Q AB q x SP SQ E G D H1 H2.
  destruct (C48_matmul P Q SP SQ) as (S & ES & SS & RS & _). rewrite ES in E. injection E as <-.
  destruct G as (G1 & G2 & G3 & G4). assert (L : length x = 3%nat) by (pose proof (denotes_length q x D G3); congruence).
  destruct (rotate_ok m deg f Q q x) as (q1 & A1 & A2 & A3 & A4); auto. { repeat split; auto. }
  destruct (rotate_ok m deg f P q1 (rot Q x)) as (q2 & B1 & B2 & B3 & B4); auto. { now rewrite A2. }
  destruct (rotate_ok m deg f S q x) as (q3 & C1 & C2 & C3 & C4); auto. { repeat split; auto. } { now rewrite RS. }
  exists q1, q2, q3. unfold ofinite. cbn [op_map]. cbn [call call_single call_vec]. rewrite A1, B1, C1.
  split; [reflexivity|]. split; [reflexivity|]. split; [reflexivity|]. split; [congruence|]. split; [auto|].
  rewrite RS in C4 by auto. eapply same_of_denotes; eauto. apply B3. apply C3.
Qed.
Print Assumptions C48_matmul_calls.

(** Algebraic laws, as equalities of operators. *)
Theorem C48_matmul_associative : forall P Q S, square3 P -> square3 Q -> square3 S ->
  (do x <- op_matmul (rotation_op P) (rotation_op Q); op_matmul x (rotation_op S)) =
  (do x <- op_matmul (rotation_op Q) (rotation_op S); op_matmul (rotation_op P) x).
Proof.
  intros P Q S SP SQ SS. unfold ofinite. cbn [op_map op_matmul bind ret orb]. rewrite ?mm_fin. cbn [op_matmul bind ret orb]. rewrite ?mm_fin.
  do 3 f_equal. sh P SP. sh Q SQ. sh S SS. mat_eq.
Qed.
Print Assumptions C48_matmul_associative.
Theorem C48_matmul_identity : forall P, square3 P ->
  op_matmul (rotation_op one3) (rotation_op P) = Ok false (rotation_op P) /\
  op_matmul (rotation_op P) (rotation_op one3) = Ok false (rotation_op P).
Proof.
  intros P SP. unfold ofinite. cbn [op_map op_matmul]. change (map (map (@Some R)) one3) with (mfin one3). rewrite ?mm_fin. unfold ret.
  sh P SP. split; do 3 f_equal; unfold one3; mat_eq.
Qed.
Print Assumptions C48_matmul_identity.
(** (A @ B).inverse = B.inverse @ A.inverse, for all matrices *)
Theorem C48_matmul_inverse : forall m deg f P Q, square3 P -> square3 Q ->
  (do x <- op_matmul (rotation_op P) (rotation_op Q); inverse m deg f x) =
  (do b <- inverse m deg f (rotation_op Q); do a <- inverse m deg f (rotation_op P); op_matmul b a).
Proof.
  intros m deg f P Q SP SQ. unfold ofinite. cbn [op_map op_matmul inverse bind ret orb]. rewrite ?mm_fin.
  cbn [op_matmul inverse bind ret orb]. rewrite ?tr_fin. cbn [op_matmul bind ret orb]. rewrite ?mm_fin. do 3 f_equal.
  sh P SP. sh Q SQ. mat_eq.
Qed.
Print Assumptions C48_matmul_inverse.
(** A @ A.inverse and A.inverse @ A are the identity matrix exactly for orthogonal
    matrices; the constructor accepts any matrix. *)
Theorem C48_inverse_cancels : forall m deg f P, square3 P ->
  ((do a <- inverse m deg f (rotation_op P); op_matmul (rotation_op P) a) = Ok false (rotation_op one3) <-> orthogonal P) /\
  (orthogonal P -> (do a <- inverse m deg f (rotation_op P); op_matmul a (rotation_op P)) = Ok false (rotation_op one3)).
Proof.
  intros m deg f P SP. unfold ofinite. cbn [op_map op_matmul inverse bind ret orb]. rewrite ?tr_fin. cbn [op_matmul bind ret orb].
  rewrite ?mm_fin. change (map (map (@Some R)) one3) with (mfin one3). split; [split|].
  - intros H. injection H as H. assert (H' : mm P (tr P) = one3).
    { now apply mfin_inj. }
    split; auto. intros i j Hi Hj. sh P SP. cbv [mm tr map seq nth vsum vmul combine fold_right] in H'. unfold one3 in H'.
    injection H' as E1 E2 E3 E4 E5 E6 E7 E8 E9.
    destruct i as [|[|[|]]]; try lia; destruct j as [|[|[|]]]; try lia; cbv [nth vsum vmul combine map fold_right Nat.eqb]; lra.
  - intros O. do 3 f_equal. sh P SP. destruct O as [_ O].
    pose proof (O 0 0)%nat as O1. pose proof (O 0 1)%nat as O2. pose proof (O 0 2)%nat as O3.
    pose proof (O 1 0)%nat as O4. pose proof (O 1 1)%nat as O5. pose proof (O 1 2)%nat as O6.
    pose proof (O 2 0)%nat as O7. pose proof (O 2 1)%nat as O8. pose proof (O 2 2)%nat as O9. clear O.
    cbv [mm tr map seq nth vsum vmul combine fold_right Nat.eqb one3] in *.
    rewrite O1, O2, O3, O4, O5, O6, O7, O8, O9 by lia. reflexivity.
  - intros O. do 3 f_equal. assert (OT := ortho_tr P O). 
    destruct OT as [_ O']. sh P SP.
    pose proof (O' 0 0)%nat as O1. pose proof (O' 0 1)%nat as O2. pose proof (O' 0 2)%nat as O3.
    pose proof (O' 1 0)%nat as O4. pose proof (O' 1 1)%nat as O5. pose proof (O' 1 2)%nat as O6.
    pose proof (O' 2 0)%nat as O7. pose proof (O' 2 1)%nat as O8. pose proof (O' 2 2)%nat as O9. clear O' O.
    cbv [mm tr map seq nth vsum vmul combine fold_right Nat.eqb one3] in *.
    rewrite O1, O2, O3, O4, O5, O6, O7, O8, O9 by lia. reflexivity.
Qed.
Print Assumptions C48_inverse_cancels.
(** Finding: so for a matrix that is not orthogonal, [op.inverse(op(x))] is not [x]. *)
Lemma rotate_cart m deg f P x y z : square3 P -> exists a b c, rot P [x; y; z] = [a; b; c] /\
  call m deg (4 + f) (rotation_op P) (VPos (finite (PCart3 x y z))) = Ok false (VPos (finite (PCart3 a b c))).
Proof.
  intros SP. sh P SP. eexists _, _, _. split; [reflexivity|].
  unfold ofinite. cbn [op_map call call_single call_vec].
  destruct (rotate_ok m deg f [[a; b; c]; [d; e; g]; [h; i; j]] (PCart3 x y z) [x; y; z]) as (q & A1 & A2 & A3 & A4).
  { exact SP. } { repeat split; cbn; try tauto; discriminate. } { reflexivity. } { split; [reflexivity|exact I]. }
  change (map (map (@Some R)) [[a; b; c]; [d; e; g]; [h; i; j]]) with (mfin [[a; b; c]; [d; e; g]; [h; i; j]]).
  rewrite A1. destruct q; try discriminate A2. cbn in A4. injection A4 as <- <- <-. reflexivity.
Qed.
Theorem C48_finding_unchecked_matrix : forall m deg f, exists P, square3 P /\ ~ orthogonal P /\
  exists o', inverse m deg f (rotation_op P) = Ok false o' /\
    (do y <- call m deg (4 + f) (rotation_op P) (VPos (finite (PCart3 1 0 0))); call m deg (4 + f) o' y) =
    Ok false (VPos (finite (PCart3 4 0 0))).
Proof.
  intros m deg f. set (P := [[2; 0; 0]; [0; 2; 0]; [0; 0; 2]]). assert (SP : square3 P) by (split; [reflexivity|repeat constructor]).
  exists P. split; auto. split.
  { intros [_ O]. specialize (O 0 0)%nat. cbn in O. assert (2 * 2 + (0 * 0 + (0 * 0 + 0)) = 1) by (apply O; lia). lra. }
  exists (rotation_op (tr P)). split. { unfold ofinite. cbn [op_map inverse]. now rewrite tr_fin. }
  destruct (rotate_cart m deg f P 1 0 0 SP) as (a & b & c & E1 & E2). rewrite E2, bind_ok.
  destruct (rotate_cart m deg f (tr P) a b c) as (a' & b' & c' & E3 & E4). { split; [reflexivity|repeat constructor]. }
  rewrite E4. cbv [rot P tr map seq nth vsum vmul combine fold_right] in E1, E3. injection E1 as <- <- <-. injection E3 as <- <- <-.
  cbn [finite pos_map]. do 4 f_equal; ring.
Qed.
Print Assumptions C48_finding_unchecked_matrix.

(** ** Unary minus *)
(** [-R] is the point reflection after R: orthogonal again, but improper. *)
Theorem C48_neg_rotation : forall m deg f P, square3 P -> exists S,
  op_neg m deg f (rotation_op P) = Ok false (rotation_op S) /\ square3 S /\
  (forall x, length x = 3%nat -> rot S x = vscale (-1) (rot P x)) /\ det S = - det P /\ (orthogonal P -> orthogonal S).
Proof.
  intros m deg f P SP. exists (map (map Ropp) P). split; [|split; [|split; [|split]]].
  - unfold ofinite. cbn [op_map op_neg]. unfold ret. do 2 f_equal. rewrite !map_map. apply map_ext. intros l. rewrite !map_map. now apply map_ext.
  - sh P SP. split; [reflexivity|repeat constructor].
  - intros x L. sh P SP. destruct x as [|x [|y [|z [|]]]]; try discriminate L. cbv [rot map vscale vsum vmul combine fold_right]. repeat (f_equal; try ring).
  - sh P SP. cbv [det map nth]. ring.
  - intros [_ O]. split. { sh P SP. split; [reflexivity|repeat constructor]. }
    intros i j Hi Hj. specialize (O i j Hi Hj). sh P SP. destruct i as [|[|[|]]]; try lia; destruct j as [|[|[|]]]; try lia;
    cbv [map nth vsum vmul combine fold_right Nat.eqb] in *; lra.
Qed.
Print Assumptions C48_neg_rotation.
(** The minus of a translation or boost, on the other hand, is its inverse. *)
Theorem C48_neg_is_inverse : forall m deg f o,
  match o with OSpatial _ | OBoost _ | OVelBoost _ => True | _ => False end -> op_neg m deg f o = inverse m deg f o.
Proof. intros m deg f o H. destruct o; try contradiction; reflexivity. Qed.
Print Assumptions C48_neg_is_inverse.
(** Finding: for a rotation it is not, even for the identity matrix. *)
Theorem C48_finding_neg_rotation_not_inverse : forall m deg f P, orthogonal P ->
  op_neg m deg f (rotation_op P) <> inverse m deg f (rotation_op P).
Proof.
  intros m deg f P O E. pose proof (proj1 O) as SP.
  destruct (C48_neg_rotation m deg f P SP) as (S & E1 & _ & R1 & D1 & O1). rewrite E1 in E.
  unfold ofinite in E. cbn [op_map inverse] in E. rewrite tr_fin in E. injection E as E.
  assert (E' : S = tr P) by now apply mfin_inj.
  (* det (tr P) = det P, so det P = 0, but det P * det P = 1 *)
  assert (D2 : det (tr P) = det P). { sh P SP. cbv [det tr map seq nth]. ring. }
  destruct (C48_matmul P (tr P) SP (proj1 (ortho_tr P O))) as (T & E2 & _ & _ & D3 & _).
  assert (D4 : det T = 1).
  { pose proof (proj2 (proj1 (C48_inverse_cancels m deg f P SP)) O) as K. unfold ofinite in K, E2. cbn [op_map inverse bind ret orb] in K, E2.
    rewrite tr_fin in K. cbn [op_matmul] in K, E2. rewrite E2 in K. cbn in K. 
    assert (T = one3). 
    { injection K as K. now apply mfin_inj. }
    subst T. cbv [det one3 nth]. ring. }
  rewrite E', D2 in D1. rewrite D3, D2 in D4. assert (det P = 0) by lra. rewrite H in D4. lra.
Qed.
Print Assumptions C48_finding_neg_rotation_not_inverse.

(** ** [from_euler] *)
Definition elemR (a : axis) (t : R) : mat R := match a with AX => ex t | AY => ey t | AZ => ez t end.
Fixpoint cmp (lower : bool) (acc : mat R) (s : list (axis * R)) : mat R :=
  match s with
  | [] => acc
  | (a, t) :: s => cmp lower (if lower then mm (elemR a t) acc else mm acc (elemR a t)) s
  end.
Lemma elem_fin a t : elementary a (Some t) = mfin (elemR a t).
Proof. destruct a; reflexivity. Qed.
Lemma elemR_ortho a t : orthogonal (elemR a t).
Proof. destruct a; [apply ex_ortho|apply ey_ortho|apply ez_ortho]. Qed.
Lemma elemR_det a t : det (elemR a t) = 1.
Proof. pose proof (sin2_cos2 t) as H. unfold Rsqr in H. destruct a; cbv [det elemR ex ey ez nth]; lra. Qed.
Lemma elemR_rot a t x : length x = 3%nat -> rot (elemR a t) x = turn_about a t x.
Proof.
  intros L. destruct x as [|x [|y [|z [|]]]]; try discriminate L. destruct a; cbv [rot elemR ex ey ez turn_about map vsum vmul combine fold_right];
  repeat (f_equal; try ring).
Qed.
Lemma elemR_tr a t : tr (elemR a t) = elemR a (- t).
Proof. destruct a; cbv [elemR ex ey ez tr map seq nth]; rewrite cos_neg, sin_neg, ?Ropp_involutive; reflexivity. Qed.
Lemma mm_det P Q : square3 P -> square3 Q -> det (mm P Q) = det P * det Q.
Proof. intros SP SQ. sh P SP. sh Q SQ. cbv [det mm tr map seq nth vsum vmul combine fold_right]. ring. Qed.
Lemma mm_tr P Q : square3 P -> square3 Q -> tr (mm P Q) = mm (tr Q) (tr P).
Proof. intros SP SQ. sh P SP. sh Q SQ. mat_eq. Qed.
Lemma mm_assoc P Q T : square3 P -> square3 Q -> square3 T -> mm (mm P Q) T = mm P (mm Q T).
Proof. intros SP SQ ST. sh P SP. sh Q SQ. sh T ST. mat_eq. Qed.
Lemma cmp_fin lower s : forall M, compose_euler lower (mfin M) (map (fun '(a, t) => (a, Some t)) s) = mfin (cmp lower M s).
Proof.
  induction s as [|[a t] s IH]; intros M; cbn [map compose_euler cmp]; auto. rewrite elem_fin.
  destruct lower; rewrite mm_fin; apply IH.
Qed.
Lemma cmp_ortho lower s : forall M, orthogonal M -> orthogonal (cmp lower M s) /\ det (cmp lower M s) = det M.
Proof.
  induction s as [|[a t] s IH]; intros M O; cbn [cmp]; auto.
  destruct (IH (if lower then mm (elemR a t) M else mm M (elemR a t))) as [A B].
  { destruct lower; apply mm_orthogonal; auto using elemR_ortho. }
  split; auto. rewrite B. destruct lower; rewrite mm_det; try apply O; try apply elemR_ortho; rewrite elemR_det; ring.
Qed.
Definition in_turn (l : list (axis * R)) (x : list R) : list R := fold_left (fun v '(a, t) => turn_about a t v) l x.
Lemma turn_length a t x : length x = 3%nat -> length (turn_about a t x) = 3%nat.
Proof. intros L. destruct x as [|x [|y [|z [|]]]]; try discriminate L. destruct a; reflexivity. Qed.
Lemma in_turn_length l : forall x, length x = 3%nat -> length (in_turn l x) = 3%nat.
Proof. induction l as [|[a t] l IH]; intros x L; cbn [in_turn fold_left]; auto. apply IH. now apply turn_length. Qed.
Lemma cmp_lower s : forall M x, orthogonal M -> length x = 3%nat -> rot (cmp true M s) x = in_turn s (rot M x).
Proof.
  induction s as [|[a t] s IH]; intros M x O L; cbn [cmp in_turn fold_left]; auto.
  rewrite IH; auto. 2:{ apply mm_orthogonal; auto using elemR_ortho. }
  rewrite mm_rot; auto; try apply O; try apply elemR_ortho. rewrite elemR_rot; auto. rewrite rot_length. apply O.
Qed.
Lemma cmp_upper s : forall M x, orthogonal M -> length x = 3%nat -> rot (cmp false M s) x = rot M (in_turn (rev s) x).
Proof.
  induction s as [|[a t] s IH]; intros M x O L; cbn [cmp rev]; auto.
  rewrite IH; auto. 2:{ apply mm_orthogonal; auto using elemR_ortho. }
  pose proof (in_turn_length (rev s) x L) as L'.
  rewrite mm_rot; auto; try apply O; try apply elemR_ortho. rewrite elemR_rot; auto. unfold in_turn. now rewrite fold_left_app.
Qed.

(** Rotations about the coordinate axes: lower-case letters are applied one after the
    other about the fixed axes; upper-case letters (about the moved axes) amount to
    the opposite order about the fixed axes.  The result is a proper rotation. *)
Theorem C48_from_euler : forall (lower : bool) seq angles,
  (1 <= length seq <= 3)%nat -> length angles = length seq ->
  (forall i a, nth_error seq i = Some a -> nth_error seq (S i) <> Some a) ->
  exists M, from_euler lower seq (map (@Some R) angles) = Ok false (rotation_op M) /\ orthogonal M /\ det M = 1 /\
    forall x, length x = 3%nat ->
      rot M x = in_turn (if lower then combine seq angles else rev (combine seq angles)) x.
Proof.
  intros lower s angles L E NR.
  assert (Rp : repeats s = false).
  { clear L E angles. induction s as [|a [|b s] IH]; auto. cbn [repeats]. apply orb_false_intro.
    - pose proof (NR 0%nat a eq_refl) as K. cbn in K. destruct a, b; auto; congruence.
    - apply IH. intros i c H. exact (NR (S i) c H). }
  unfold from_euler. rewrite map_length, E, Nat.eqb_refl, Rp.
  replace (Nat.leb 1 (length s)) with true by (symmetry; apply Nat.leb_le; lia).
  replace (Nat.leb (length s) 3) with true by (symmetry; apply Nat.leb_le; lia). cbn [andb negb].
  destruct s as [|a s]; [cbn in L; lia|]. destruct angles as [|t angles]; [discriminate E|]. cbn [map combine].
  assert (C : @combine axis ext s (@map R ext (@Some R) angles) = map (fun '(a, t) => (a, (Some t : ext))) (combine s angles)).
  { clear. revert angles; induction s as [|a s IH]; intros [|t angles]; auto. cbn. f_equal. apply IH. }
  exists (cmp lower (elemR a t) (combine s angles)). split.
  { change (@combine axis (option R)) with (@combine axis ext). change (@map R (option R) (@Some R)) with (@map R ext (@Some R)).
    rewrite C, elem_fin. rewrite cmp_fin. reflexivity. }
  destruct (cmp_ortho lower (combine s angles) (elemR a t) (elemR_ortho a t)) as [A B].
  split; auto. split. { rewrite B. apply elemR_det. }
  intros x Lx. destruct lower.
  - rewrite cmp_lower, elemR_rot; auto using elemR_ortho.
  - rewrite cmp_upper, elemR_rot; auto using elemR_ortho, in_turn_length. cbn [rev]. unfold in_turn. now rewrite fold_left_app.
Qed.
Print Assumptions C48_from_euler.
Example C48_from_euler_case : (forall i a, nth_error [AZ; AX; AZ] i = Some a -> nth_error [AZ; AX; AZ] (S i) <> Some a).
Proof. intros [|[|[|i]]] a H; cbn in *; try congruence; destruct i; discriminate. Qed.
(** Other sequences are rejected. *)
Theorem C48_from_euler_rejects : forall lower seq angles,
  length seq = 0%nat \/ (3 < length seq)%nat \/ length angles <> length seq \/
  (exists i a, nth_error seq i = Some a /\ nth_error seq (S i) = Some a) ->
  from_euler lower seq angles = Raise EValue.
Proof.
  intros lower s angles H. unfold from_euler.
  destruct (Nat.leb_spec 1 (length s)); auto. destruct (Nat.leb_spec (length s) 3); auto. cbn [andb].
  destruct (repeats s) eqn:Rp; auto. destruct (Nat.eqb_spec (length angles) (length s)); auto.
  destruct H as [H|[H|[H|(i & a & H & H')]]]; try lia.
  exfalso. clear - Rp H H'. revert i Rp H H'. induction s as [|a0 [|b0 l] IHl]; intros i Rp H H'.
  - destruct i; discriminate.
  - destruct i; [discriminate|destruct i; discriminate].
  - cbn [repeats] in Rp. apply orb_false_elim in Rp as [R1 R2]. destruct i.
    + cbn in H, H'. injection H as ->. injection H' as ->. destruct a; discriminate.
    + apply (IHl i); auto.
Qed.
Print Assumptions C48_from_euler_rejects.
(** Turning back: the inverse is the sequence in reverse order with the opposite angles. *)
Theorem C48_from_euler_inverse : forall m deg f (lower : bool) seq angles,
  (1 <= length seq <= 3)%nat -> length angles = length seq ->
  (forall i a, nth_error seq i = Some a -> nth_error seq (S i) <> Some a) ->
  (do o <- from_euler lower seq (map (@Some R) angles); inverse m deg f o) =
  from_euler lower (rev seq) (map (@Some R) (rev (map Ropp angles))).
Proof.
  intros m deg f lower s angles L E NR.
  destruct s as [|a [|b [|c [|]]]]; cbn in L; try lia; destruct angles as [|ta [|tb [|tc [|]]]]; try discriminate E.
  - cbn [map rev app]. unfold from_euler. cbn [length Nat.leb Nat.eqb andb negb repeats combine compose_euler bind ret orb inverse].
    rewrite !elem_fin, tr_fin, elemR_tr. reflexivity.
  - pose proof (NR 0%nat a eq_refl) as K. cbn in K.
    assert (N1 : axis_eqb a b = false) by (destruct a, b; auto; congruence). assert (N2 : axis_eqb b a = false) by (destruct a, b; auto; congruence).
    cbn [map rev app]. unfold from_euler. cbn [length Nat.leb Nat.eqb andb negb repeats]. rewrite N1, N2. cbn [orb negb andb combine compose_euler bind ret inverse].
    rewrite !elem_fin. destruct lower; rewrite !mm_fin, tr_fin, mm_tr, !elemR_tr by apply elemR_ortho; reflexivity.
  - pose proof (NR 0%nat a eq_refl) as K. pose proof (NR 1%nat b eq_refl) as K'. cbn in K, K'.
    assert (N1 : axis_eqb a b = false) by (destruct a, b; auto; congruence). assert (N2 : axis_eqb b a = false) by (destruct a, b; auto; congruence).
    assert (N3 : axis_eqb b c = false) by (destruct c, b; auto; congruence). assert (N4 : axis_eqb c b = false) by (destruct c, b; auto; congruence).
    cbn [map rev app]. unfold from_euler. cbn [length Nat.leb Nat.eqb andb negb repeats]. rewrite N1, N2, N3, N4. cbn [orb negb andb combine compose_euler bind ret inverse].
    assert (SQ : forall x y z w, square3 (mm (elemR x y) (elemR z w))) by (intros; apply mm_orthogonal; apply elemR_ortho).
    rewrite !elem_fin. destruct lower; rewrite !mm_fin, tr_fin, !mm_tr, !elemR_tr by (auto; apply elemR_ortho);
    rewrite mm_assoc by apply elemR_ortho; reflexivity.
Qed.
Print Assumptions C48_from_euler_inverse.
(** Two turns about the same axis add up. *)
Theorem C48_same_axis_adds : forall (lower : bool) a s t,
  (do A <- from_euler lower [a] [Some s]; do B <- from_euler lower [a] [Some t]; op_matmul A B) = from_euler lower [a] [Some (s + t)].
Proof.
  intros lower a s t. unfold from_euler. cbn [length Nat.leb Nat.eqb andb negb repeats combine compose_euler bind ret orb op_matmul].
  rewrite !elem_fin, mm_fin. assert (E : mm (elemR a s) (elemR a t) = elemR a (s + t)); [|now rewrite E].
  destruct a; cbv [elemR ex ey ez]; rewrite cos_plus, sin_plus; cbv [mm tr map seq nth vsum vmul combine fold_right];
  repeat match goal with |- cons _ _ = cons _ _ => f_equal end; ring.
Qed.
Print Assumptions C48_same_axis_adds.
