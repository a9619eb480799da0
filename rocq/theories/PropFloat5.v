(** * Property C67: operators in floating point.

    Vocabulary: Float.v.  [isf f x]: [x] is a finite number of the format [f]
    (binary32, binary64, ...); [fu f]: the relative rounding error u = 2^-precision;
    [feta f]: the smallest positive number; [fmax f]: the overflow limit.  Nothing is
    assumed about the mathematical library. *)
From Coq Require Import Reals Bool List ZArith Lra Lia.
From Flocq Require Import Core Plus_error.
From Verif Require Import Num Vectors Spec Transform Pos3D Pos3DThm Arith TreeArith Vel FourVec Operators SpecOp OpMisc GOp GOpThm Float FloatThm FloatConv FloatArith FloatOp PropFloat PropFloat4.
Import ListNotations.
Open Scope R_scope.

Definition feta (f : fmt) : R := bpow radix2 (femin f).

(** Operators whose parameters are Cartesian vectors and 3x3 matrices. *)
Definition mat33 {A} (M : mat A) : Prop := length M = 3%nat /\ Forall (fun r => length r = 3%nat) M.
Fixpoint cart_op {A} (o : op A) : Prop :=
  match o with
  | OSpatial q => cartesian q
  | OTranslation v => cartesian (fq v)
  | ORotation M => mat33 M
  | OPipe ops => (fix all ops := match ops with [] => True | o :: ops => cart_op o /\ all ops end) ops
  | OGalilean M T _ => mat33 M /\ cartesian (fq T)
  | _ => True
  end.
Fixpoint no_galilean {A} (o : op A) : Prop :=
  match o with
  | OPipe ops => (fix all ops := match ops with [] => True | o :: ops => no_galilean o /\ all ops end) ops
  | OGalilean _ _ _ => False
  | _ => True
  end.

Section S.
Variables (f : fmt) (L : libm).
Lemma tr_eq (M : mat ext) : mat33 M -> @gtranspose ext (Num_fl f L) M = gtranspose M.
Proof.
  intros [LM FM]. destruct M as [|r1 [|r2 [|r3 [|]]]]; try discriminate.
  repeat match goal with X : Forall _ (_ :: _) |- _ => apply Forall_cons_iff in X; destruct X as [? X] end.
  destruct r1 as [|a1 [|a2 [|a3 [|]]]]; try discriminate. destruct r2 as [|b1 [|b2 [|b3 [|]]]]; try discriminate. destruct r3 as [|c1 [|c2 [|c3 [|]]]]; try discriminate.
  reflexivity.
Qed.
Lemma neg_eq m deg n (q : pos ext) : cartesian q -> @pos_neg ext (Num_fl f L) m deg n q = pos_neg m deg n q.
Proof. destruct q; cbn; try tauto. Qed.
Lemma fvneg_eq m deg n (v : fourvec ext) : cartesian (fq v) -> @gfv_neg ext (Num_fl f L) m deg n v = fv_neg m deg n v.
Proof. intros C. unfold gfv_neg. rewrite neg_eq by auto. reflexivity. Qed.
Lemma inv_eq m deg n (o : op ext) : cart_op o -> finverse f L m deg n o = inverse m deg n o.
Proof.
  rewrite <- ginverse_eq. unfold finverse. induction o as [o P|ops IH|R T V] using op_ind'; intros C.
  - destruct o; cbn in P; try discriminate; cbn [ginverse]; try reflexivity.
    + now rewrite neg_eq.
    + now rewrite fvneg_eq.
    + now rewrite tr_eq.
  - cbn [ginverse]. match goal with |- bind (?g ops) _ = bind (?h ops) _ => assert (E : g ops = h ops) end; [|now rewrite E].
    induction IH as [|o ops Ho _ IH]; auto. destruct C as [C1 C2]. rewrite (IH C2), (Ho C1). reflexivity.
  - destruct C as [C1 C2]. cbn [ginverse]. rewrite fvneg_eq, tr_eq by auto. reflexivity.
Qed.
End S.

(** ** C67 *)
(** *** Inverses are computed without any rounding: the floating-point inverse is bit
    for bit that of exact arithmetic, for every tree of operators. *)
Theorem C67_inverse_is_exact : forall f L m deg n (o : op ext), cart_op o ->
  finverse f L m deg n o = inverse m deg n o.
Proof. exact inv_eq. Qed.
Print Assumptions C67_inverse_is_exact.

Lemma extneg (x : ext) : nneg (nneg x) = x. Proof. destruct x; cbn; auto. now rewrite Ropp_involutive. Qed.
Lemma posneg2 m deg n (q : pos ext) : cartesian q -> exists s, pos_neg m deg n q = Ok false s /\ cartesian s /\ pos_neg m deg n s = Ok false q.
Proof. destruct q; intros C; try (destruct C; fail); clear C; eexists; (split; [cbn [pos_neg cart_neg]; reflexivity|]); (split; [exact I|]); cbn [pos_neg cart_neg]; unfold ret; now rewrite !extneg. Qed.
Lemma velneg2 (v : vel ext) : gvel_neg (gvel_neg v) = v.
Proof. destruct v as [c l]. unfold gvel_neg. cbn [vc vcomps]. f_equal. induction l as [|x l IH]; cbn [map]; [auto|]. now rewrite extneg, IH. Qed.
Lemma tr2 {A} {N : Num A} (M : mat A) : mat33 M -> mat33 (gtranspose M) /\ gtranspose (gtranspose M) = M.
Proof.
  intros [LM FM]. destruct M as [|r1 [|r2 [|r3 [|]]]]; try discriminate.
  repeat match goal with X : Forall _ (_ :: _) |- _ => apply Forall_cons_iff in X; destruct X as [? X] end.
  destruct r1 as [|a1 [|a2 [|a3 [|]]]]; try discriminate. destruct r2 as [|b1 [|b2 [|b3 [|]]]]; try discriminate. destruct r3 as [|c1 [|c2 [|c3 [|]]]]; try discriminate.
  split; [split; [reflexivity|repeat constructor]|reflexivity].
Qed.
Lemma cart_app {A} (a b : list (op A)) : cart_op (OPipe a) -> cart_op (OPipe b) -> cart_op (OPipe (a ++ b)).
Proof. induction a as [|o a IH]; [auto|]. intros [A1 A2] B. split; [exact A1|]. exact (IH A2 B). Qed.
Definition ginv_list m deg n := fix go (ops : list (op ext)) : res (list (op ext)) :=
    match ops with [] => ret [] | o :: ops => do l <- go ops; do i <- ginverse m deg n o; ret (l ++ [i]) end.
Lemma ginv_app m deg n a b la lb : ginv_list m deg n a = Ok false la -> ginv_list m deg n b = Ok false lb -> ginv_list m deg n (a ++ b) = Ok false (lb ++ la).
Proof.
  revert la. induction a as [|o a IH]; intros la Ea Eb; cbn [ginv_list app] in *.
  - injection Ea as <-. now rewrite app_nil_r.
  - destruct (ginv_list m deg n a) as [w l|] eqn:E; [|discriminate]. cbn [bind] in Ea. destruct (ginverse m deg n o) as [w' i|] eqn:E'; [|discriminate].
    cbn in Ea. destruct w; [discriminate|]. destruct w'; [discriminate|]. injection Ea as <-. rewrite (IH l eq_refl Eb). cbn. unfold ret. now rewrite app_assoc.
Qed.
Lemma inv2 m deg n (o : op ext) : cart_op o -> no_galilean o ->
  exists o', ginverse m deg n o = Ok false o' /\ cart_op o' /\ ginverse m deg n o' = Ok false o.
Proof.
  induction o as [o P|ops IH|R T V] using op_ind'; intros C G; [| |destruct G].
  - destruct o as [|q|v|M|v|v| |]; cbn in P; try discriminate; cbn [ginverse].
    + exists OIdentity. repeat split.
    + destruct (posneg2 m deg n q C) as (s & E & Cs & E'). rewrite E. exists (OSpatial s). split; [reflexivity|]. split; [exact Cs|]. cbn [ginverse]. now rewrite E'.
    + destruct v as [t q c]. cbn in C. destruct (posneg2 m deg n q C) as (s & E & Cs & E'). unfold gfv_neg. cbn [fq ft fc]. rewrite E. eexists. split; [reflexivity|].
      split; [exact Cs|]. cbn [ginverse]. unfold gfv_neg. cbn [fq ft fc]. rewrite E'. unfold ret. rewrite bind_ok, extneg. reflexivity.
    + destruct (tr2 M C) as [C' E]. eexists. split; [reflexivity|]. split; [exact C'|]. cbn [ginverse]. rewrite E. reflexivity.
    + eexists. split; [reflexivity|]. split; [exact I|]. cbn [ginverse]. rewrite velneg2. reflexivity.
    + eexists. split; [reflexivity|]. split; [exact I|]. cbn [ginverse]. rewrite velneg2. reflexivity.
  - assert (K : exists l, ginv_list m deg n ops = Ok false l /\ cart_op (OPipe l) /\ ginv_list m deg n l = Ok false ops).
    { induction IH as [|o ops Ho _ IH]. { exists []. repeat split. }
      destruct C as [C1 C2], G as [G1 G2]. destruct (IH C2 G2) as (l & E1 & D1 & E2). destruct (Ho C1 G1) as (i & E3 & D2 & E4).
      exists (l ++ [i]). split; [cbn [ginv_list]; rewrite E1, bind_ok, E3, bind_ok; reflexivity|].
      split; [apply cart_app; auto; now split|].
      apply (ginv_app m deg n l [i] ops [o] E2). cbn [ginv_list]. unfold ret at 1. rewrite bind_ok, E4, bind_ok. reflexivity. }
    destruct K as (l & E1 & D & E2). exists (OPipe l). split; [|split; [exact D|]].
    + transitivity (do l <- ginv_list m deg n ops; ret (OPipe l)); [reflexivity|]. now rewrite E1, bind_ok.
    + transitivity (do l <- ginv_list m deg n l; ret (OPipe l)); [reflexivity|]. now rewrite E2, bind_ok.
Qed.
(** Inverting twice gives the operator back bit for bit (a GalileanOperator comes
    back as the pipe of its parts). *)
Theorem C67_inverse_of_inverse_is_the_operator : forall f L m deg n (o : op ext), cart_op o -> no_galilean o ->
  exists o', finverse f L m deg n o = Ok false o' /\ finverse f L m deg n o' = Ok false o.
Proof.
  intros f L m deg n o C G. destruct (inv2 m deg n o C G) as (o' & E & C' & E'). exists o'.
  rewrite !inv_eq, <- !ginverse_eq by auto. auto.
Qed.
Print Assumptions C67_inverse_of_inverse_is_the_operator.

(** *** Identity and composition are exact, for operators of every kind. *)
Theorem C67_identity_and_composition : forall f L m deg n (a b : list (op ext)) x,
  fcall f L m deg n OIdentity x = Ok false x /\ fcall f L m deg n (OPipe []) x = Ok false x /\
  fcall f L m deg n (OPipe (a ++ b)) x = do y <- fcall f L m deg n (OPipe a) x; fcall f L m deg n (OPipe b) y.
Proof.
  intros f L m deg n a b x. split; [reflexivity|]. split; [reflexivity|]. revert x. induction a as [|o a IH]; intros x.
  - cbn [app]. unfold fcall at 2. cbn [gcall]. unfold ret. now rewrite bind_ok.
  - assert (Q : forall l, fcall f L m deg n (OPipe (o :: l)) x = do y <- fcall f L m deg n o x; fcall f L m deg n (OPipe l) y) by reflexivity.
    cbn [app]. rewrite !Q. destruct (fcall f L m deg n o x) as [w y|e]; [|reflexivity]. cbn [bind]. rewrite (IH y).
    destruct (fcall f L m deg n (OPipe a) y) as [w' y'|e]; [|reflexivity]. cbn [bind].
    destruct (fcall f L m deg n (OPipe b) y'); cbn; rewrite ?orb_assoc; reflexivity.
Qed.
Print Assumptions C67_identity_and_composition.

(** *** Translations *)
Lemma fop_ok f x : fmt_ok f -> Rabs x <= fmax f * (1 - fu f) -> exists r, fop f x = Some r /\ isf f r /\ r = frnd f x.
Proof.
  intros ok H. destruct (fop f x) as [r|] eqn:E. { exists r. destruct (fop_isf f ok x r E). auto. }
  pose proof (fop_overflow f x ok E). lra.
Qed.
Lemma rnd_add_err f x y : fmt_ok f -> isf f x -> isf f y -> Rabs (frnd f (x + y) - (x + y)) <= fu f * Rabs (x + y).
Proof.
  intros ok [Fx _] [Fy _]. destruct (rn_add_rel f ok x y Fx Fy) as (e & He & ->). replace ((x + y) * (1 + e) - (x + y)) with (e * (x + y)) by ring.
  rewrite Rabs_mult. apply Rmult_le_compat_r; auto. apply Rabs_pos.
Qed.
Lemma fmax_pos f : 0 < fmax f. Proof. apply bpow_gt_0. Qed.
Lemma there_and_back f x b : fmt_ok f -> isf f x -> isf f b -> Rabs x + Rabs b <= fmax f / 4 ->
  exists s r, fop f (x + b) = Some s /\ fop f (s + - b) = Some r /\ isf f r /\
    Rabs (r - x) <= fu f * Rabs x + fu f * (1 + fu f) * Rabs (x + b) /\ (isf f (x + b) -> r = x).
Proof.
  intros ok Ix Ib B. pose proof (fu_pos f) as P0. pose proof (fu_small f ok) as P1. pose proof (fmax_pos f) as PM.
  pose proof (Rabs_triang x b) as T1. pose proof (Rabs_pos x). pose proof (Rabs_pos b). pose proof (Rabs_pos (x + b)).
  destruct (fop_ok f (x + b) ok) as (s & Es & Is & Rs). { nra. }
  pose proof (rnd_add_err f x b ok Ix Ib) as E1. rewrite <- Rs in E1.
  assert (T2 : Rabs (s + - b) <= Rabs x + fu f * Rabs (x + b)).
  { replace (s + - b) with (x + (s - (x + b))) by ring. eapply Rle_trans; [apply Rabs_triang|]. lra. }
  destruct (fop_ok f (s + - b) ok) as (r & Er & Ir & Rr). { nra. }
  pose proof (rnd_add_err f s (- b) ok Is (isf_opp f b Ib)) as E2. rewrite <- Rr in E2.
  exists s, r. split; [auto|]. split; [auto|]. split; [auto|]. split.
  - replace (r - x) with ((r - (s + - b)) + (s - (x + b))) by ring. eapply Rle_trans; [apply Rabs_triang|]. nra.
  - intros [Fs _]. assert (Q : s = x + b) by (rewrite Rs; now apply rn_id).
    rewrite Rr, Q. replace (x + b + - b) with x by ring. apply rn_id; auto. apply Ix.
Qed.
Definition zipc (g : ext -> ext -> ext) (p q : pos ext) : pos ext :=
  match p, q with
  | PCart1 a, PCart1 b => PCart1 (g a b) | PCart2 a a', PCart2 b b' => PCart2 (g a b) (g a' b')
  | PCart3 a a' a'', PCart3 b b' b'' => PCart3 (g a b) (g a' b') (g a'' b'') | _, _ => p
  end.
Lemma fshift f L m deg n p q : cartesian p -> cls_of q = cls_of p ->
  fcall f L m deg (S n) (OSpatial q) (VPos p) = Ok false (VPos (zipc (@nadd ext (Num_fl f L)) p q)).
Proof.
  intros C E. unfold fcall. cbn [gcall gcall_vec].
  destruct p, q; cbn in C, E; try contradiction; try discriminate; cbn [tpos_add tcart_add cart_add]; unfold rep; step; unfold ret; rewrite !bind_ok; unfold leaf; cbn [same_unit Static_ext]; unfold ret; rewrite ?bind_ok; reflexivity.
Qed.
Lemma fpipe f L m deg n o l x : fcall f L m deg n (OPipe (o :: l)) x = do y <- fcall f L m deg n o x; fcall f L m deg n (OPipe l) y.
Proof. reflexivity. Qed.
Lemma fpipe0 f L m deg n x : fcall f L m deg n (OPipe []) x = Ok false x. Proof. reflexivity. Qed.
(** Translating by [b] and back by the inverse: exact whenever [x + b] is a number of
    the format, and otherwise off by at most about u (|x| + |x + b|). *)
Theorem C67_translation_round_trip : forall f L m deg n p b, fmt_ok f -> cartesian p -> cls_of b = cls_of p ->
  exists o' r, finverse f L m deg n (OSpatial b) = Ok false o' /\
    fcall f L m deg (S n) (OPipe [OSpatial b; o']) (VPos p) = Ok false (VPos r) /\ cls_of r = cls_of p /\
    pairwise (fun vx vb vr => forall x b, vx = Some x -> vb = Some b -> isf f x -> isf f b -> Rabs x + Rabs b <= fmax f / 4 ->
       exists r, vr = Some r /\ isf f r /\
         Rabs (r - x) <= fu f * Rabs x + fu f * (1 + fu f) * Rabs (x + b) /\ (isf f (x + b) -> r = x))
      (coords p) (coords b) (coords r).
Proof.
  intros f L m deg n p b ok C E.
  assert (K : forall vx vb : ext, forall x b, vx = Some x -> vb = Some b -> isf f x -> isf f b -> Rabs x + Rabs b <= fmax f / 4 ->
       exists r, @nadd ext (Num_fl f L) (@nadd ext (Num_fl f L) vx vb) (@nneg ext (Num_fl f L) vb) = Some r /\ isf f r /\
         Rabs (r - x) <= fu f * Rabs x + fu f * (1 + fu f) * Rabs (x + b) /\ (isf f (x + b) -> r = x)).
  { intros vx vb x c -> -> Ix Ib B. destruct (there_and_back f x c ok Ix Ib B) as (s & r & E1 & E2 & I & Er & Ex). exists r. split; auto.
    cbn. rewrite E1. exact E2. }
  destruct p, b; cbn in C, E; try contradiction; try discriminate;
  (eexists; eexists; split; [unfold finverse; cbn [ginverse pos_neg cart_neg]; reflexivity|]; split;
    [rewrite fpipe, fshift, bind_ok, fpipe, fshift, bind_ok, fpipe0 by (exact I || reflexivity); reflexivity|]; split; [reflexivity|]; cbn [coords]; pw; apply K).
Qed.
Print Assumptions C67_translation_round_trip.

(** A chain of any number [n] of translations: the rounding errors add up to at most
    (1+u)^n - 1 relative to the sum of the absolute values. *)
Definition total (l : list R) : R := fold_right Rplus 0 l.
Definition total_abs (l : list R) : R := fold_right Rplus 0 (map Rabs l).
Lemma total_abs_pos l : 0 <= total_abs l.
Proof. induction l as [|x l IH]; cbn; [lra|]. pose proof (Rabs_pos x). fold (total_abs l). lra. Qed.
Lemma pow_ge1 u n : 0 < u -> 1 <= (1 + u) ^ n.
Proof. intros P. induction n as [|n IH]; cbn; nra. Qed.
Lemma chain f L bs : fmt_ok f -> forall s S A g, 1 <= g -> Rabs S <= A -> isf f s -> Forall (isf f) bs ->
  Rabs (s - S) <= (g - 1) * A -> (A + total_abs bs) * (g * (1 + fu f) ^ length bs) <= fmax f * (1 - fu f) ->
  exists r, fold_left (@nadd ext (Num_fl f L)) (map (@Some R) bs) (Some s) = Some r /\ isf f r /\
    Rabs (r - (S + total bs)) <= (g * (1 + fu f) ^ length bs - 1) * (A + total_abs bs).
Proof.
  intros ok. pose proof (fu_pos f) as P0. induction bs as [|b bs IH]; intros s S A g Hg HS Is F E B; cbn [total total_abs map fold_right length pow fold_left] in *.
  - exists s. split; [auto|]. split; [auto|]. rewrite !Rplus_0_r, Rmult_1_r. exact E.
  - fold (total bs) (total_abs bs) in *. apply Forall_cons_iff in F. destruct F as [Ib F].
    pose proof (pow_ge1 (fu f) (length bs) P0) as Pn. set (w := (1 + fu f) ^ length bs) in *. pose proof (total_abs_pos bs) as PT. set (T := total_abs bs) in *. pose proof (Rabs_pos b) as Pb.
    assert (PA : 0 <= A) by (pose proof (Rabs_pos S); lra).
    assert (Bs : Rabs (s + b) <= g * A + Rabs b).
    { replace (s + b) with ((s - S) + (S + b)) by ring. eapply Rle_trans; [apply Rabs_triang|]. pose proof (Rabs_triang S b). nra. }
    assert (Q : g * A + Rabs b <= (A + (Rabs b + T)) * (g * ((1 + fu f) * w))).
    { assert (Q1 : g <= g * ((1 + fu f) * w)). { replace g with (g * 1) at 1 by ring. apply Rmult_le_compat_l; [lra|]. nra. }
      apply Rle_trans with ((A + (Rabs b + T)) * g); [nra|]. apply Rmult_le_compat_l; [lra|exact Q1]. }
    destruct (fop_ok f (s + b) ok) as (r1 & E1 & I1 & R1). { lra. }
    change (@nadd ext (Num_fl f L) (Some s) (Some b)) with (fop f (s + b)). rewrite E1.
    pose proof (rnd_add_err f s b ok Is Ib) as Er. rewrite <- R1 in Er.
    destruct (IH r1 (S + b) (A + Rabs b) (g * (1 + fu f))) as (r & G1 & G2 & G3).
    + nra.
    + eapply Rle_trans; [apply Rabs_triang|]. lra.
    + exact I1.
    + exact F.
    + replace (r1 - (S + b)) with ((r1 - (s + b)) + (s - S)) by ring. eapply Rle_trans; [apply Rabs_triang|].
      assert (fu f * Rabs (s + b) <= fu f * (g * A + Rabs b)) by (apply Rmult_le_compat_l; lra).
      assert (0 <= (g - 1) * Rabs b * (1 + fu f)) by (apply Rmult_le_pos; [apply Rmult_le_pos; lra|lra]).
      nra.
    + eapply Rle_trans; [|exact B]. right. ring.
    + exists r. split; [exact G1|]. split; [exact G2|].
      replace (S + (b + total bs)) with (S + b + total bs) by ring. eapply Rle_trans; [exact G3|]. right. ring.
Qed.
Lemma fold_zip f L l p : cartesian p -> Forall (fun q => cls_of q = cls_of p) l -> forall m deg n,
  fcall f L m deg (S n) (OPipe (map (@OSpatial ext) l)) (VPos p) = Ok false (VPos (fold_left (zipc (@nadd ext (Num_fl f L))) l p)).
Proof.
  revert p. induction l as [|q l IH]; intros p C F m deg n; [reflexivity|]. apply Forall_cons_iff in F. destruct F as [E F].
  cbn [map fold_left]. rewrite fpipe, fshift, bind_ok by auto.
  assert (Ec : cls_of (zipc (@nadd ext (Num_fl f L)) p q) = cls_of p) by (destruct p, q; cbn in *; congruence).
  apply IH; [unfold cartesian in *; now rewrite Ec|]. now rewrite Ec.
Qed.
Definition shift3 (b : R * R * R) : op ext := let '(x, y, z) := b in OSpatial (cart3 x y z).
Definition xs (bs : list (R * R * R)) := map (fun '(x, y, z) => x) bs.
Definition ys (bs : list (R * R * R)) := map (fun '(x, y, z) => y) bs.
Definition zs (bs : list (R * R * R)) := map (fun '(x, y, z) => z) bs.
Theorem C67_chain_of_translations : forall f L m deg n bs x y z, fmt_ok f ->
  (forall l, l = x :: xs bs \/ l = y :: ys bs \/ l = z :: zs bs ->
     Forall (isf f) l /\ total_abs l * (1 + fu f) ^ length bs <= fmax f * (1 - fu f)) ->
  exists rx ry rz, fcall f L m deg (S n) (OPipe (map shift3 bs)) (VPos (cart3 x y z)) = Ok false (VPos (cart3 rx ry rz)) /\
    isf f rx /\ isf f ry /\ isf f rz /\
    Rabs (rx - total (x :: xs bs)) <= ((1 + fu f) ^ length bs - 1) * total_abs (x :: xs bs) /\
    Rabs (ry - total (y :: ys bs)) <= ((1 + fu f) ^ length bs - 1) * total_abs (y :: ys bs) /\
    Rabs (rz - total (z :: zs bs)) <= ((1 + fu f) ^ length bs - 1) * total_abs (z :: zs bs).
Proof.
  intros f L m deg n bs x y z ok H.
  assert (K : forall v l, length l = length bs -> Forall (isf f) (v :: l) -> total_abs (v :: l) * (1 + fu f) ^ length bs <= fmax f * (1 - fu f) ->
    exists r, fold_left (@nadd ext (Num_fl f L)) (map (@Some R) l) (Some v) = Some r /\ isf f r /\
      Rabs (r - total (v :: l)) <= ((1 + fu f) ^ length bs - 1) * total_abs (v :: l)).
  { intros v l E F B. apply Forall_cons_iff in F. destruct F as [Iv F]. destruct (chain f L l ok v v (Rabs v) 1) as (r & G1 & G2 & G3); auto; try lra.
    { rewrite Rminus_diag_eq, Rabs_R0 by auto. lra. }
    { rewrite E. rewrite Rmult_1_l. exact B. }
    exists r. split; [auto|]. split; [auto|]. rewrite E, Rmult_1_l in G3. exact G3. }
  destruct (H (x :: xs bs)) as [F1 B1]; auto. destruct (H (y :: ys bs)) as [F2 B2]; auto. destruct (H (z :: zs bs)) as [F3 B3]; auto.
  destruct (K x (xs bs)) as (rx & X1 & X2 & X3); auto. { apply map_length. }
  destruct (K y (ys bs)) as (ry & Y1 & Y2 & Y3); auto. { apply map_length. }
  destruct (K z (zs bs)) as (rz & Z1 & Z2 & Z3); auto. { apply map_length. }
  exists rx, ry, rz. split; [|auto 10].
  replace (map shift3 bs) with (map (@OSpatial ext) (map (fun '(a, b, c) => cart3 a b c) bs)) by (rewrite map_map; apply map_ext; intros [[? ?] ?]; reflexivity).
  rewrite fold_zip; [|exact I|].
  2:{ apply Forall_forall. intros q Hq. apply in_map_iff in Hq. destruct Hq as ([[a b] c] & <- & _). reflexivity. }
  f_equal. f_equal. clear -X1 Y1 Z1. unfold cart3 in *.
  assert (G : forall a b c : ext, fold_left (zipc (@nadd ext (Num_fl f L))) (map (fun '(a, b, c) => PCart3 (Some a) (Some b) (Some c)) bs) (PCart3 a b c)
     = PCart3 (fold_left (@nadd ext (Num_fl f L)) (map (@Some R) (xs bs)) a) (fold_left (@nadd ext (Num_fl f L)) (map (@Some R) (ys bs)) b) (fold_left (@nadd ext (Num_fl f L)) (map (@Some R) (zs bs)) c)).
  { clear. induction bs as [|[[u v] w] bs IH]; intros a b c; [reflexivity|]. cbn [xs ys zs map fold_left zipc]. apply IH. }
  rewrite G, X1, Y1, Z1. reflexivity.
Qed.
Print Assumptions C67_chain_of_translations.

(** *** Rotations *)
Lemma frotate f L m deg n M r1 r2 r3 (x y z : ext) : M = [r1; r2; r3] ->
  fcall f L m deg (S n) (ORotation M) (VPos (PCart3 x y z)) =
  Ok false (VPos (PCart3 (@gdot ext (Num_fl f L) r1 [x; y; z]) (@gdot ext (Num_fl f L) r2 [x; y; z]) (@gdot ext (Num_fl f L) r3 [x; y; z]))).
Proof.
  intros ->. unfold fcall. cbn [gcall gcall_vec]. unfold grotate. cbn [cls_of dim_of].
  assert (K : forall x y z : ext, @represent_as ext (Num_fl f L) m deg (S n) nokw (PCart3 x y z) CCart3 = Ok false (PCart3 x y z)) by (intros; step; reflexivity).
  rewrite K, bind_ok. cbn [gmatmul_vec map]. rewrite K, bind_ok. reflexivity.
Qed.
Definition row (a b c : R) : list ext := [Some a; Some b; Some c].
Lemma mul_err f x y : fmt_ok f -> Rabs (frnd f (x * y) - x * y) <= fu f * Rabs (x * y) + feta f.
Proof. intros ok. apply rn_err. exact ok. Qed.
Lemma eta_small f : fmt_ok f -> 0 < feta f <= fmax f / 65536.
Proof.
  intros (P & E1 & E2). split; [apply bpow_gt_0|]. unfold feta, fmax, Rdiv. change (/ 65536) with (bpow radix2 (-16)). rewrite <- bpow_plus. apply bpow_le. lia.
Qed.
Lemma dot_err f L a b c x y z : fmt_ok f -> isf f x -> isf f y -> isf f z ->
  (Rabs (a * x) + Rabs (b * y) + Rabs (c * z)) <= fmax f / 2 ->
  exists r, @gdot ext (Num_fl f L) (row a b c) [Some x; Some y; Some z] = Some r /\ isf f r /\
    Rabs (r - (a * x + b * y + c * z)) <= ((1 + fu f) ^ 3 - 1) * (Rabs (a * x) + Rabs (b * y) + Rabs (c * z)) + 3 * (1 + fu f) ^ 2 * feta f.
Proof.
  intros ok Ix Iy Iz B. pose proof (fu_pos f) as P0. pose proof (fu_small f ok) as P1. pose proof (fmax_pos f) as PM. pose proof (eta_small f ok) as [N0 N1].
  pose proof (Rabs_pos (a * x)) as A0. pose proof (Rabs_pos (b * y)) as B0. pose proof (Rabs_pos (c * z)) as C0.
  set (A := Rabs (a * x)) in *. set (B' := Rabs (b * y)) in *. set (C := Rabs (c * z)) in *. set (u := fu f) in *. set (e := feta f) in *. set (M := fmax f) in *.
  destruct (fop_ok f (a * x) ok) as (p1 & E1 & I1 & R1). { fold u M A. nra. }
  destruct (fop_ok f (b * y) ok) as (p2 & E2 & I2 & R2). { fold u M B'. nra. }
  destruct (fop_ok f (c * z) ok) as (p3 & E3 & I3 & R3). { fold u M C. nra. }
  pose proof (mul_err f a x ok) as D1. pose proof (mul_err f b y ok) as D2. pose proof (mul_err f c z ok) as D3.
  rewrite <- R1 in D1. rewrite <- R2 in D2. rewrite <- R3 in D3. fold u e A B' C in D1, D2, D3.
  assert (Q1 : Rabs p1 <= (1 + u) * A + e). { replace p1 with ((p1 - a * x) + a * x) by ring. eapply Rle_trans; [apply Rabs_triang|]. fold A. lra. }
  assert (Q2 : Rabs p2 <= (1 + u) * B' + e). { replace p2 with ((p2 - b * y) + b * y) by ring. eapply Rle_trans; [apply Rabs_triang|]. fold B'. lra. }
  assert (Q3 : Rabs p3 <= (1 + u) * C + e). { replace p3 with ((p3 - c * z) + c * z) by ring. eapply Rle_trans; [apply Rabs_triang|]. fold C. lra. }
  pose proof (Rabs_triang p1 p2) as T1.
  destruct (fop_ok f (p1 + p2) ok) as (s & E4 & I4 & R4). { fold u M. nra. }
  pose proof (rnd_add_err f p1 p2 ok I1 I2) as D4. rewrite <- R4 in D4. fold u in D4.
  assert (Q4 : Rabs s <= (1 + u) * Rabs (p1 + p2)). { replace s with ((s - (p1 + p2)) + (p1 + p2)) by ring. eapply Rle_trans; [apply Rabs_triang|]. lra. }
  pose proof (Rabs_triang s p3) as T2. pose proof (Rabs_pos (p1 + p2)). pose proof (Rabs_pos p3).
  assert (Q5 : Rabs (s + p3) <= (1 + u) * ((1 + u) * (A + B' + C) + 3 * e)).
  { assert (Rabs (p1 + p2) <= (1 + u) * (A + B') + 2 * e) by lra.
    assert ((1 + u) * Rabs (p1 + p2) <= (1 + u) * ((1 + u) * (A + B') + 2 * e)) by (apply Rmult_le_compat_l; lra).
    assert (0 <= u * ((1 + u) * C + e)) by (apply Rmult_le_pos; [lra|]; nra). nra. }
  destruct (fop_ok f (s + p3) ok) as (r & E5 & I5 & R5).
  { eapply Rle_trans; [exact Q5|]. fold u M. assert (S2 : A + B' + C <= M / 2) by lra.
    assert ((1 + u) * (A + B' + C) <= (17 / 16) * (M / 2)) by (apply Rmult_le_compat; lra).
    apply Rle_trans with (17 / 16 * (17 / 16 * (M / 2) + 3 * (M / 65536))); [apply Rmult_le_compat; nra|nra]. }
  pose proof (rnd_add_err f s p3 ok I4 I3) as D5. rewrite <- R5 in D5. fold u in D5.
  exists r. split.
  { unfold gdot, row. cbn [combine map sum_list fold_left]. cbn [nmul nadd Num_fl flift2]. rewrite E1, E2, E3. cbn [flift2]. rewrite E4. exact E5. }
  split; [exact I5|].
  replace (r - (a * x + b * y + c * z)) with ((r - (s + p3)) + (s - (p1 + p2)) + ((p1 - a * x) + (p2 - b * y) + (p3 - c * z))) by ring.
  eapply Rle_trans; [apply Rabs_triang|]. eapply Rle_trans; [apply Rplus_le_compat; apply Rabs_triang|].
  pose proof (Rabs_triang (p1 - a * x) (p2 - b * y)) as T3.
  assert (Q6 : u * Rabs (s + p3) <= u * ((1 + u) * ((1 + u) * (A + B' + C) + 3 * e))) by (apply Rmult_le_compat_l; lra).
  assert (Q7 : u * Rabs (p1 + p2) <= u * ((1 + u) * (A + B' + C) + 3 * e)).
  { apply Rmult_le_compat_l; [lra|]. assert (0 <= (1 + u) * C) by nra. nra. }
  replace (((1 + u) ^ 3 - 1) * (A + B' + C) + 3 * (1 + u) ^ 2 * e) with
    (u * ((1 + u) * ((1 + u) * (A + B' + C) + 3 * e)) + u * ((1 + u) * (A + B' + C) + 3 * e) + (u * (A + B' + C) + 3 * e)) by ring.
  lra.
Qed.
(** Each component of a rotated position: relative to the sum of the absolute values
    of its three terms the error is at most (1+u)^3 - 1, plus underflow. *)
Definition rot_row (r : R * R * R) (x y z : R) : R := let '(a, b, c) := r in a * x + b * y + c * z.
Definition rot_abs (r : R * R * R) (x y z : R) : R := let '(a, b, c) := r in Rabs (a * x) + Rabs (b * y) + Rabs (c * z).
Definition frow (r : R * R * R) : list ext := let '(a, b, c) := r in row a b c.
Definition dot_bound (f : fmt) (r : R * R * R) (x y z : R) : R := ((1 + fu f) ^ 3 - 1) * rot_abs r x y z + 3 * (1 + fu f) ^ 2 * feta f.
Theorem C67_rotation_accuracy : forall f L m deg n r1 r2 r3 x y z, fmt_ok f -> isf f x -> isf f y -> isf f z ->
  rot_abs r1 x y z <= fmax f / 2 -> rot_abs r2 x y z <= fmax f / 2 -> rot_abs r3 x y z <= fmax f / 2 ->
  exists a b c, fcall f L m deg (S n) (ORotation [frow r1; frow r2; frow r3]) (VPos (cart3 x y z)) = Ok false (VPos (cart3 a b c)) /\
    isf f a /\ isf f b /\ isf f c /\
    Rabs (a - rot_row r1 x y z) <= dot_bound f r1 x y z /\
    Rabs (b - rot_row r2 x y z) <= dot_bound f r2 x y z /\
    Rabs (c - rot_row r3 x y z) <= dot_bound f r3 x y z.
Proof.
  intros f L m deg n [[a1 b1] c1] [[a2 b2] c2] [[a3 b3] c3] x y z ok Ix Iy Iz B1 B2 B3. cbn [rot_abs rot_row frow] in *. unfold dot_bound; cbn [rot_abs].
  destruct (dot_err f L a1 b1 c1 x y z ok Ix Iy Iz B1) as (a & Ea & Ia & Da).
  destruct (dot_err f L a2 b2 c2 x y z ok Ix Iy Iz B2) as (b & Eb & Ib & Db).
  destruct (dot_err f L a3 b3 c3 x y z ok Ix Iy Iz B3) as (c & Ec & Ic & Dc).
  exists a, b, c. split; [|auto 10]. unfold cart3. erewrite frotate by reflexivity. f_equal. f_equal. f_equal; [exact Ea|exact Eb|exact Ec].
Qed.
Print Assumptions C67_rotation_accuracy.
(** Rotation by a matrix that is an exact rotation [Q] up to [e] in each entry (a
    matrix built from sines and cosines): within [near] of the exactly rotated
    position, in each coordinate; so the length changes by at most twice that. *)
Definition near (f : fmt) (e : R) (x y z : R) : R :=
  (e + (1 + e) * ((1 + fu f) ^ 3 - 1)) * (Rabs x + Rabs y + Rabs z) + 3 * (1 + fu f) ^ 2 * feta f.
Definition close_row (e : R) (r q : R * R * R) : Prop :=
  let '(a, b, c) := r in let '(a', b', c') := q in
  Rabs (a - a') <= e /\ Rabs (b - b') <= e /\ Rabs (c - c') <= e.
Definition unit_row (q : R * R * R) : Prop := let '(a, b, c) := q in a * a + b * b + c * c = 1.
Definition rl (q : R * R * R) : list R := let '(a, b, c) := q in [a; b; c].
Lemma unit_le1 a b c : a * a + b * b + c * c = 1 -> Rabs a <= 1 /\ Rabs b <= 1 /\ Rabs c <= 1.
Proof. intros H. repeat split; apply Rabs_le; nra. Qed.
Lemma row_close f e r q x y z : 0 < fu f -> 0 <= e -> close_row e r q -> unit_row q ->
  rot_abs r x y z <= (1 + e) * (Rabs x + Rabs y + Rabs z) /\
  Rabs (rot_row r x y z - rot_row q x y z) <= e * (Rabs x + Rabs y + Rabs z).
Proof.
  destruct r as [[a b] c], q as [[a' b'] c']. cbn. intros P Pe (Ha & Hb & Hc) U. destruct (unit_le1 _ _ _ U) as (La & Lb & Lc).
  pose proof (Rabs_pos x). pose proof (Rabs_pos y). pose proof (Rabs_pos z).
  assert (K : forall v w v', Rabs (v - v') <= e -> Rabs v' <= 1 -> Rabs (v * w) <= (1 + e) * Rabs w).
  { intros v w v' H1' H2'. rewrite Rabs_mult. apply Rmult_le_compat_r; [apply Rabs_pos|].
    replace v with ((v - v') + v') by ring. eapply Rle_trans; [apply Rabs_triang|]. lra. }
  pose proof (K a x a' Ha La). pose proof (K b y b' Hb Lb). pose proof (K c z c' Hc Lc). split; [lra|].
  replace (a * x + b * y + c * z - (a' * x + b' * y + c' * z)) with ((a - a') * x + (b - b') * y + (c - c') * z) by ring.
  eapply Rle_trans; [apply Rabs_triang|]. eapply Rle_trans; [apply Rplus_le_compat_r; apply Rabs_triang|]. rewrite !Rabs_mult. nra.
Qed.
Definition norm3 (x y z : R) : R := sqrt (x * x + y * y + z * z).
Lemma norm3_triang x y z a b c : norm3 (x + a) (y + b) (z + c) <= norm3 x y z + norm3 a b c.
Proof.
  unfold norm3. assert (P : 0 <= x * x + y * y + z * z) by nra. assert (Q : 0 <= a * a + b * b + c * c) by nra.
  pose proof (sqrt_pos (x * x + y * y + z * z)) as S1. pose proof (sqrt_pos (a * a + b * b + c * c)) as S2.
  pose proof (sqrt_sqrt _ P) as E1. pose proof (sqrt_sqrt _ Q) as E2. set (s := sqrt (x * x + y * y + z * z)) in *. set (t := sqrt (a * a + b * b + c * c)) in *.
  assert (CS : x * a + y * b + z * c <= s * t).
  { destruct (Rle_or_lt (x * a + y * b + z * c) 0); [apply Rle_trans with 0; [auto|now apply Rmult_le_pos]|]. apply Rsqr_incr_0_var; [|nra]. unfold Rsqr.
    replace (s * t * (s * t)) with ((s * s) * (t * t)) by ring. rewrite E1, E2.
    pose proof (Rle_0_sqr (x * b - y * a)) as G1. pose proof (Rle_0_sqr (x * c - z * a)) as G2. pose proof (Rle_0_sqr (y * c - z * b)) as G3. unfold Rsqr in *. lra. }
  rewrite <- (sqrt_Rsqr (s + t)) by lra. apply sqrt_le_1_alt. unfold Rsqr. nra.
Qed.
Lemma norm3_bound a b c d : Rabs a <= d -> Rabs b <= d -> Rabs c <= d -> norm3 a b c <= 2 * d.
Proof.
  intros A B C. assert (P : 0 <= d) by (pose proof (Rabs_pos a); lra). unfold norm3. rewrite <- (sqrt_Rsqr (2 * d)) by lra. apply sqrt_le_1_alt. unfold Rsqr.
  assert (K : forall v, Rabs v <= d -> v * v <= d * d) by (intros v H; apply Rabs_le_inv in H; nra).
  pose proof (K a A). pose proof (K b B). pose proof (K c C). nra.
Qed.
Lemma orth_unit q1 q2 q3 : orthogonal [rl q1; rl q2; rl q3] -> unit_row q1 /\ unit_row q2 /\ unit_row q3.
Proof.
  destruct q1 as [[a1 b1] c1], q2 as [[a2 b2] c2], q3 as [[a3 b3] c3]. intros [_ H].
  pose proof (H 0%nat 0%nat ltac:(lia) ltac:(lia)) as G1. pose proof (H 1%nat 1%nat ltac:(lia) ltac:(lia)) as G2. pose proof (H 2%nat 2%nat ltac:(lia) ltac:(lia)) as G3.
  cbn in *. repeat split; lra.
Qed.
Lemma orth_norm q1 q2 q3 x y z : orthogonal [rl q1; rl q2; rl q3] ->
  norm3 (rot_row q1 x y z) (rot_row q2 x y z) (rot_row q3 x y z) = norm3 x y z.
Proof.
  destruct q1 as [[a1 b1] c1], q2 as [[a2 b2] c2], q3 as [[a3 b3] c3]. intros O.
  pose proof (OpMisc.rot_norm _ [x; y; z] O eq_refl) as E. unfold norm_of, rot, norm3 in *. cbn in E. cbn [rot_row].
  etransitivity; [|etransitivity; [exact E|]]; f_equal; ring.
Qed.
Theorem C67_rotation_keeps_lengths : forall f L m deg n e r1 r2 r3 q1 q2 q3 x y z, fmt_ok f -> isf f x -> isf f y -> isf f z ->
  0 <= e <= 1 -> orthogonal [rl q1; rl q2; rl q3] -> close_row e r1 q1 -> close_row e r2 q2 -> close_row e r3 q3 ->
  Rabs x + Rabs y + Rabs z <= fmax f / 4 ->
  exists a b c, fcall f L m deg (S n) (ORotation [frow r1; frow r2; frow r3]) (VPos (cart3 x y z)) = Ok false (VPos (cart3 a b c)) /\
    isf f a /\ isf f b /\ isf f c /\
    Rabs (a - rot_row q1 x y z) <= near f e x y z /\
    Rabs (b - rot_row q2 x y z) <= near f e x y z /\
    Rabs (c - rot_row q3 x y z) <= near f e x y z /\
    Rabs (norm3 a b c - norm3 x y z) <= 2 * near f e x y z.
Proof.
  intros f L m deg n e r1 r2 r3 q1 q2 q3 x y z ok Ix Iy Iz Pe O C1 C2 C3 B. pose proof (fu_pos f) as P0. pose proof (fu_small f ok) as P1.
  destruct (orth_unit _ _ _ O) as (U1 & U2 & U3).
  pose proof (Rabs_pos x). pose proof (Rabs_pos y). pose proof (Rabs_pos z). set (W := Rabs x + Rabs y + Rabs z) in *.
  destruct (row_close f e r1 q1 x y z) as [S1 D1]; auto; try lra. destruct (row_close f e r2 q2 x y z) as [S2 D2]; auto; try lra. destruct (row_close f e r3 q3 x y z) as [S3 D3]; auto; try lra. fold W in S1, S2, S3, D1, D2, D3.
  assert (PW : 0 <= W) by (unfold W; lra).
  destruct (C67_rotation_accuracy f L m deg n r1 r2 r3 x y z ok Ix Iy Iz) as (a & b & c & E & Ia & Ib & Ic & Ha & Hb & Hc); try nra.
  exists a, b, c. split; [exact E|]. split; [auto|]. split; [auto|]. split; [auto|].
  assert (G0 : 0 <= (1 + fu f) ^ 3 - 1) by (pose proof (pow_ge1 (fu f) 3 P0); lra).
  assert (K : forall v r q, Rabs (v - rot_row r x y z) <= dot_bound f r x y z -> rot_abs r x y z <= (1 + e) * W -> Rabs (rot_row r x y z - rot_row q x y z) <= e * W -> Rabs (v - rot_row q x y z) <= near f e x y z).
  { intros v r q H1' H2' H3'. replace (v - rot_row q x y z) with ((v - rot_row r x y z) + (rot_row r x y z - rot_row q x y z)) by ring.
    eapply Rle_trans; [apply Rabs_triang|]. unfold dot_bound in H1'. unfold near. fold W.
    assert (((1 + fu f) ^ 3 - 1) * rot_abs r x y z <= ((1 + fu f) ^ 3 - 1) * ((1 + e) * W)) by (apply Rmult_le_compat_l; auto). lra. }
  pose proof (K a r1 q1 Ha S1 D1) as Na. pose proof (K b r2 q2 Hb S2 D2) as Nb. pose proof (K c r3 q3 Hc S3 D3) as Nc.
  split; [auto|]. split; [auto|]. split; [auto|].
  rewrite <- (orth_norm q1 q2 q3 x y z O).
  set (u1 := rot_row q1 x y z) in *. set (u2 := rot_row q2 x y z) in *. set (u3 := rot_row q3 x y z) in *.
  pose proof (norm3_triang u1 u2 u3 (a - u1) (b - u2) (c - u3)) as T1.
  pose proof (norm3_triang a b c (u1 - a) (u2 - b) (u3 - c)) as T2.
  replace (u1 + (a - u1)) with a in T1 by ring. replace (u2 + (b - u2)) with b in T1 by ring. replace (u3 + (c - u3)) with c in T1 by ring.
  replace (a + (u1 - a)) with u1 in T2 by ring. replace (b + (u2 - b)) with u2 in T2 by ring. replace (c + (u3 - c)) with u3 in T2 by ring.
  pose proof (norm3_bound (a - u1) (b - u2) (c - u3) _ Na Nb Nc) as B1.
  rewrite Rabs_minus_sym in Na. rewrite Rabs_minus_sym in Nb. rewrite Rabs_minus_sym in Nc.
  pose proof (norm3_bound (u1 - a) (u2 - b) (u3 - c) _ Na Nb Nc) as B2. apply Rabs_le. lra.
Qed.
Print Assumptions C67_rotation_keeps_lengths.

(** *** Exact rotations: quarter turns about the axes, reflections and their products
    (orthogonal matrices with entries 0, 1, -1) do not round at all. *)
Definition axis_row (r : R * R * R) : Prop :=
  let '(a, b, c) := r in a * a + b * b + c * c = 1 /\
  (a = 0 \/ a = 1 \/ a = -1) /\ (b = 0 \/ b = 1 \/ b = -1) /\ (c = 0 \/ c = 1 \/ c = -1).
Lemma fop_id f x : fmt_ok f -> isf f x -> fop f x = Some x.
Proof. intros ok [F B]. unfold fop. rewrite rn_id by auto. now apply fin_some. Qed.
Lemma isf0 f : isf f 0. Proof. split; [apply generic_format_0|]. rewrite Rabs_R0. apply fmax_pos. Qed.
Lemma axis_dot f L r x y z : fmt_ok f -> isf f x -> isf f y -> isf f z -> axis_row r ->
  @gdot ext (Num_fl f L) (frow r) [Some x; Some y; Some z] = Some (rot_row r x y z) /\ isf f (rot_row r x y z).
Proof.
  intros ok Ix Iy Iz. destruct r as [[a b] c]. intros (U & Ha & Hb & Hc). cbn [rot_row frow].
  pose proof (isf_opp f x Ix) as Jx. pose proof (isf_opp f y Iy) as Jy. pose proof (isf_opp f z Iz) as Jz. pose proof (isf0 f) as I0.
  assert (K : forall p q r e, e = p + q + r -> isf f p -> isf f q -> isf f r -> isf f (p + q) -> isf f e -> a * x = p -> b * y = q -> c * z = r ->
    @gdot ext (Num_fl f L) (row a b c) [Some x; Some y; Some z] = Some e /\ isf f e).
  { intros p q r e -> Ip Iq Ir Ipq Ie E1 E2 E3. unfold gdot, row. cbn [combine map sum_list fold_left]. cbn [nmul nadd Num_fl flift2].
    rewrite E1, E2, E3, !fop_id by auto. cbn [flift2]. rewrite !fop_id by auto. cbn [flift2]. rewrite !fop_id by auto. auto. }
  destruct Ha as [-> | [-> | ->] ], Hb as [-> | [-> | ->] ], Hc as [-> | [-> | ->] ]; try (exfalso; lra);
  match goal with |- _ = Some ?t /\ isf _ ?t => idtac end;
  (eapply K; [ reflexivity | | | | | | reflexivity | reflexivity | reflexivity ]);
  rewrite ?Rmult_0_l, ?Rmult_1_l, ?Rplus_0_r, ?Rplus_0_l; auto;
  match goal with |- isf _ (-1 * ?v) => replace (-1 * v) with (- v) by ring; auto end.
Qed.
Theorem C67_axis_rotations_are_exact : forall f L m deg n r1 r2 r3 x y z, fmt_ok f -> isf f x -> isf f y -> isf f z ->
  axis_row r1 -> axis_row r2 -> axis_row r3 ->
  fcall f L m deg (S n) (ORotation [frow r1; frow r2; frow r3]) (VPos (cart3 x y z)) =
    Ok false (VPos (cart3 (rot_row r1 x y z) (rot_row r2 x y z) (rot_row r3 x y z))).
Proof.
  intros f L m deg n r1 r2 r3 x y z ok Ix Iy Iz A1 A2 A3. unfold cart3. erewrite frotate by reflexivity. f_equal. f_equal.
  f_equal; apply axis_dot; auto.
Qed.
Print Assumptions C67_axis_rotations_are_exact.
(** ... and their inverses undo them bit for bit. *)
Theorem C67_axis_rotation_round_trip : forall f L m deg n r1 r2 r3 x y z, fmt_ok f -> isf f x -> isf f y -> isf f z ->
  orthogonal [rl r1; rl r2; rl r3] -> axis_row r1 -> axis_row r2 -> axis_row r3 ->
  exists o', finverse f L m deg n (ORotation [frow r1; frow r2; frow r3]) = Ok false o' /\
    fcall f L m deg (S n) (OPipe [ORotation [frow r1; frow r2; frow r3]; o']) (VPos (cart3 x y z)) = Ok false (VPos (cart3 x y z)).
Proof.
  intros f L m deg n r1 r2 r3 x y z ok Ix Iy Iz O A1 A2 A3.
  assert (I1 := proj2 (axis_dot f L r1 x y z ok Ix Iy Iz A1)). assert (I2 := proj2 (axis_dot f L r2 x y z ok Ix Iy Iz A2)). assert (I3 := proj2 (axis_dot f L r3 x y z ok Ix Iy Iz A3)).
  pose proof (OpInv.rot_tr _ [x; y; z] O eq_refl) as RT. pose proof (OpInv.ortho_tr _ O) as OT.
  pose proof (C67_axis_rotations_are_exact f L m deg n r1 r2 r3 x y z ok Ix Iy Iz A1 A2 A3) as E1.
  destruct r1 as [[a1 b1] c1], r2 as [[a2 b2] c2], r3 as [[a3 b3] c3].
  assert (B : axis_row (a1, a2, a3) /\ axis_row (b1, b2, b3) /\ axis_row (c1, c2, c3)).
  { destruct (orth_unit (a1, a2, a3) (b1, b2, b3) (c1, c2, c3) OT) as (U1 & U2 & U3).
    destruct A1 as (_ & ? & ? & ?), A2 as (_ & ? & ? & ?), A3 as (_ & ? & ? & ?). cbn [unit_row axis_row] in *.
    split; [split; [exact U1|split; [assumption|split; assumption] ]|]. split; [split; [exact U2|split; [assumption|split; assumption] ]|]. split; [exact U3|split; [assumption|split; assumption] ]. }
  destruct B as (B1 & B2 & B3).
  exists (ORotation [frow (a1, a2, a3); frow (b1, b2, b3); frow (c1, c2, c3)]). split; [reflexivity|].
  rewrite fpipe, E1, bind_ok, fpipe.
  rewrite (C67_axis_rotations_are_exact f L m deg n (a1, a2, a3) (b1, b2, b3) (c1, c2, c3)) by auto. rewrite bind_ok, fpipe0.
  cbn in RT. injection RT as Q1 Q2 Q3. f_equal. f_equal. unfold cart3. cbn [rot_row]. f_equal; f_equal; lra.
Qed.
Print Assumptions C67_axis_rotation_round_trip.

(** *** Boosts *)
Lemma fboost f L m deg n (v1 v2 v3 x y z t : ext) :
  fcall f L m deg (S n) (OBoost (mkVel WCart3 [v1; v2; v3])) (VPosT (PCart3 x y z) t) =
  Ok false (VPosT (PCart3 (@nadd ext (Num_fl f L) x (@nmul ext (Num_fl f L) v1 t)) (@nadd ext (Num_fl f L) y (@nmul ext (Num_fl f L) v2 t)) (@nadd ext (Num_fl f L) z (@nmul ext (Num_fl f L) v3 t))) t).
Proof.
  unfold fcall. cbn [gcall gcall_vec]. unfold gboost_pos, gvel_mul_time. cbn [vc vcomps integral_cls map gpos_from_components]. unfold mk_Cart3, ret. rewrite bind_ok.
  cbn [tpos_add tcart_add cart_add]. unfold rep. step. unfold ret. rewrite !bind_ok. reflexivity.
Qed.
Lemma boost_err f L x v t : fmt_ok f -> isf f x -> Rabs x <= fmax f / 4 -> Rabs (v * t) <= fmax f / 4 ->
  exists r, @nadd ext (Num_fl f L) (Some x) (@nmul ext (Num_fl f L) (Some v) (Some t)) = Some r /\ isf f r /\
    Rabs (r - (x + v * t)) <= fu f * Rabs x + (2 * fu f + fu f * fu f) * Rabs (v * t) + (1 + fu f) * feta f.
Proof.
  intros ok Ix B1 B2. pose proof (fu_pos f) as P0. pose proof (fu_small f ok) as P1. pose proof (fmax_pos f) as PM. pose proof (eta_small f ok) as [N0 N1].
  pose proof (Rabs_pos x). pose proof (Rabs_pos (v * t)).
  destruct (fop_ok f (v * t) ok) as (p & E1 & I1 & R1). { nra. }
  pose proof (mul_err f v t ok) as D1. rewrite <- R1 in D1.
  assert (Q : Rabs (x + p) <= Rabs x + (1 + fu f) * Rabs (v * t) + feta f).
  { replace (x + p) with (x + ((p - v * t) + v * t)) by ring. eapply Rle_trans; [apply Rabs_triang|]. pose proof (Rabs_triang (p - v * t) (v * t)). lra. }
  destruct (fop_ok f (x + p) ok) as (r & E2 & I2 & R2). { nra. }
  pose proof (rnd_add_err f x p ok Ix I1) as D2. rewrite <- R2 in D2.
  exists r. split; [cbn [nmul nadd Num_fl flift2]; rewrite E1; exact E2|]. split; [exact I2|].
  replace (r - (x + v * t)) with ((r - (x + p)) + (p - v * t)) by ring. eapply Rle_trans; [apply Rabs_triang|].
  assert (fu f * Rabs (x + p) <= fu f * (Rabs x + (1 + fu f) * Rabs (v * t) + feta f)) by (apply Rmult_le_compat_l; lra). lra.
Qed.
Definition boost_bound (f : fmt) (x d : R) : R := fu f * Rabs x + (2 * fu f + fu f * fu f) * Rabs d + (1 + fu f) * feta f.
Theorem C67_boost_accuracy : forall f L m deg n v1 v2 v3 x y z t, fmt_ok f -> isf f x -> isf f y -> isf f z ->
  (forall w, w = x \/ w = y \/ w = z \/ w = v1 * t \/ w = v2 * t \/ w = v3 * t -> Rabs w <= fmax f / 4) ->
  exists a b c, fcall f L m deg (S n) (OBoost (mkVel WCart3 [Some v1; Some v2; Some v3])) (VPosT (cart3 x y z) (Some t)) = Ok false (VPosT (cart3 a b c) (Some t)) /\
    isf f a /\ isf f b /\ isf f c /\
    Rabs (a - (x + v1 * t)) <= boost_bound f x (v1 * t) /\
    Rabs (b - (y + v2 * t)) <= boost_bound f y (v2 * t) /\
    Rabs (c - (z + v3 * t)) <= boost_bound f z (v3 * t).
Proof.
  intros f L m deg n v1 v2 v3 x y z t ok Ix Iy Iz B. unfold boost_bound.
  destruct (boost_err f L x v1 t ok Ix) as (a & Ea & Ia & Da); try (apply B; tauto).
  destruct (boost_err f L y v2 t ok Iy) as (b & Eb & Ib & Db); try (apply B; tauto).
  destruct (boost_err f L z v3 t ok Iz) as (c & Ec & Ic & Dc); try (apply B; tauto).
  exists a, b, c. split; [|auto 10]. unfold cart3. rewrite fboost. f_equal. f_equal. f_equal; assumption.
Qed.
Print Assumptions C67_boost_accuracy.
(** At time zero a boost does nothing, bit for bit. *)
Theorem C67_boost_at_time_zero_is_exact : forall f L m deg n v1 v2 v3 x y z, fmt_ok f -> isf f x -> isf f y -> isf f z ->
  fcall f L m deg (S n) (OBoost (mkVel WCart3 [Some v1; Some v2; Some v3])) (VPosT (cart3 x y z) (Some 0)) = Ok false (VPosT (cart3 x y z) (Some 0)).
Proof.
  intros f L m deg n v1 v2 v3 x y z ok Ix Iy Iz. unfold cart3. rewrite fboost.
  assert (K : forall v w, isf f w -> @nadd ext (Num_fl f L) (Some w) (@nmul ext (Num_fl f L) (Some v) (Some 0)) = Some w).
  { intros v w Iw. cbn [nmul nadd Num_fl flift2]. rewrite Rmult_0_r, (fop_id f 0) by (auto using isf0). cbn [flift2]. rewrite Rplus_0_r. now apply fop_id. }
  rewrite !K by auto. reflexivity.
Qed.
Print Assumptions C67_boost_at_time_zero_is_exact.

(** *** What does not hold *)
(** Finding: a translation followed by its inverse may lose the position altogether. *)
Theorem C67_finding_round_trip_loses_small_positions : forall f L m deg n w, fmt_ok f -> isf f w -> 0 < w < fu f ->
  exists o', finverse f L m deg n (OSpatial (PCart1 (Some 1))) = Ok false o' /\
    fcall f L m deg (S n) (OPipe [OSpatial (PCart1 (Some 1)); o']) (VPos (PCart1 (Some w))) = Ok false (VPos (PCart1 (Some 0))).
Proof.
  intros f L m deg n w ok Iw Hw. pose proof (fu_small f ok) as Su. eexists. split; [unfold finverse; cbn [ginverse pos_neg cart_neg]; reflexivity|].
  rewrite fpipe, fshift, bind_ok, fpipe, fshift, bind_ok, fpipe0 by (exact I || reflexivity). cbn [zipc]. f_equal. f_equal. f_equal.
  rewrite fadd1 by (auto; rewrite Rabs_pos_eq; lra). rewrite (Rplus_comm w 1), rn_absorb by (auto; lra).
  cbn [nneg Num_fl lift1]. rewrite fadd1 by (auto; replace (1 + - (1)) with 0 by ring; rewrite Rabs_R0; lra).
  replace (1 + - (1)) with 0 by ring. now rewrite rn0.
Qed.
Print Assumptions C67_finding_round_trip_loses_small_positions.
(** Finding: merging two translations into one, as simplification does, can change
    the result: the sum is rounded before it is applied. *)
Theorem C67_finding_merging_translations_changes_results : forall f L m deg n, fmt_ok f ->
  exists p b s r1 r2, isf f p /\ isf f b /\
    fpos_add f L m deg (S n) (PCart1 (Some b)) (PCart1 (Some b)) = Ok false s /\
    fcall f L m deg (S n) (OPipe [OSpatial (PCart1 (Some b)); OSpatial (PCart1 (Some b))]) (VPos (PCart1 (Some p))) = Ok false (VPos r1) /\
    fcall f L m deg (S n) (OSpatial s) (VPos (PCart1 (Some p))) = Ok false (VPos r2) /\ r1 <> r2.
Proof.
  intros f L m deg n ok. pose proof (fu_pos f) as Pu. pose proof (fu_small f ok) as Su. pose proof (w34_eq f) as W.
  assert (I1 : isf f 1) by (apply small_isf; auto; [now apply F1|rewrite Rabs_R1; lra]).
  exists 1, (w34 f), (PCart1 (Some (w34 f + w34 f))), (PCart1 (Some 1)), (PCart1 (Some (1 + 2 * fu f))).
  split; [exact I1|]. split; [now apply w34_isf|]. split.
  { unfold fpos_add; cbn [pos_add cart_add]; unfold rep. step. unfold ret. rewrite bind_ok. rewrite fadd1 by (auto; rewrite Rabs_pos_eq; lra). now rewrite w34_double by auto. }
  split.
  { rewrite fpipe, fshift, bind_ok, fpipe, fshift, bind_ok, fpipe0 by (exact I || reflexivity). cbn [zipc].
    rewrite fadd1 by (auto; rewrite Rabs_pos_eq; lra). rewrite (rn_absorb f ok (w34 f)) by lra. rewrite fadd1 by (auto; rewrite Rabs_pos_eq; lra). now rewrite (rn_absorb f ok (w34 f)) by lra. }
  split.
  { rewrite fshift by (exact I || reflexivity). cbn [zipc]. rewrite fadd1 by (auto; rewrite Rabs_pos_eq; lra). now rewrite (rn_next f ok (w34 f + w34 f)) by lra. }
  intros E. injection E as E. lra.
Qed.
Print Assumptions C67_finding_merging_translations_changes_results.

(** ** The hypotheses are met *)
Example C67_nonvacuous :
  fmt_ok binary32 /\ cart_op (OPipe [ORotation [row 0 (-1) 0; row 1 0 0; row 0 0 1]; OSpatial (cart3 1 2 3)]) /\
  no_galilean (OPipe [ORotation [row 0 (-1) 0; row 1 0 0; row 0 0 1]; OSpatial (cart3 1 2 3)]) /\
  isf binary32 1 /\ isf binary32 2 /\ Rabs 1 + Rabs 2 <= fmax binary32 / 4 /\
  axis_row (0, -1, 0) /\ axis_row (1, 0, 0) /\ axis_row (0, 0, 1) /\ orthogonal [rl (0, -1, 0); rl (1, 0, 0); rl (0, 0, 1)] /\
  rot_abs (0, -1, 0) 1 2 3 <= fmax binary32 / 2 /\
  total_abs (1 :: xs [(2, 0, 0); (1, 0, 0)]) * (1 + fu binary32) ^ 2 <= fmax binary32 * (1 - fu binary32).
Proof.
  pose proof binary32_ok as ok. assert (M : 64 <= fmax binary32). { unfold fmax. change 64 with (bpow radix2 6). apply bpow_le. simpl. lia. }
  pose proof (fu_pos binary32). pose proof (fu_small binary32 ok).
  split; [exact ok|]. split; [cbn; repeat split; repeat constructor|]. split; [cbn; auto|].
  split; [apply (usable_int binary32 1); auto; lia|]. split; [apply (usable_int binary32 2); auto; lia|].
  split; [rewrite !Rabs_pos_eq by lra; lra|].
  split; [cbn; repeat split; auto; lra|]. split; [cbn; repeat split; auto; lra|]. split; [cbn; repeat split; auto; lra|].
  split. { split; [split; [reflexivity|repeat constructor]|]. intros i j Hi Hj. destruct i as [|[|[|]]]; try lia; destruct j as [|[|[|]]]; try lia; cbn; lra. }
  split. { cbn [rot_abs]. replace (0 * 1) with 0 by ring. replace (-1 * 2) with (- (2)) by ring. replace (0 * 3) with 0 by ring. rewrite Rabs_R0, Rabs_Ropp, Rabs_pos_eq by lra. lra. }
  unfold total_abs, xs. cbn [map fold_right]. rewrite !Rabs_pos_eq by lra. cbn [pow].
  assert ((1 + fu binary32) * ((1 + fu binary32) * 1) <= 2) by nra. nra.
Qed.
