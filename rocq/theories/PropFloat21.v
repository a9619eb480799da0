(** * C86, continued: operators on quantities in floating point.

    GOp.v (operators/*.py, cited there) on the numbers of FUQ.v. *)
From Coq Require Import Reals Bool List ZArith Lra Lia.
From Flocq Require Import Core.
From Verif Require Import Num Vectors Transform Pos3D Units UQ UQThm UVelThm Rel Float FloatThm PropFloat FUQ Arith TreeArith RelArith Vel FourVec Operators GOp GOpThm FloatArith FloatOp GFour FFour Dispatch Pos3DThm PropFloat4 PropFloat5 PropFloat19.
From Verif Require Dispatch.
Import ListNotations.
Open Scope R_scope.

(** ** Specification *)
(** Parameters and values in one coherent system of units: lengths in one unit, angles in
    radian, times in one unit, (angular) speeds in the quotient. *)
Definition intime (t : ext) : uq ext := mkUq t (Some (mkDim 0 0 1 0 0)) 1.
Definition inone (x : ext) : uq ext := mkUq x (Some (mkDim 0 0 0 0 0)) 1.
Definition inspeed (x : ext) : uq ext := mkUq x (Some (mkDim 1 0 (-1) 0 0)) 1.
Definition inper (k : kind) (x : ext) : uq ext := mkUq x (Some (per 1 (dim_kind k))) 1.
Definition in_speeds (v : vel ext) : vel (uq ext) :=
  mkVel (vc v) (map (fun '(k, x) => inper k x) (combine (kinds (integral_cls (vc v))) (vcomps v))).
Definition in_event (v : fourvec ext) : fourvec (uq ext) := mkFV (intime (ft v)) (in_units (fq v)) (inspeed (fc v)).
Definition in_matrix (M : mat ext) : mat (uq ext) := map (map inone) M.
Fixpoint op_in (o : op ext) : op (uq ext) :=
  match o with
  | OIdentity => OIdentity
  | OSpatial q => OSpatial (in_units q)
  | OTranslation v => OTranslation (in_event v)
  | ORotation M => ORotation (in_matrix M)
  | OBoost v => OBoost (in_speeds v)
  | OVelBoost v => OVelBoost (in_speeds v)
  | OPipe ops => OPipe (map op_in ops)
  | OGalilean M T V => OGalilean (in_matrix M) (in_event T) (in_speeds V)
  end.
(** Every number is a number of the format; every velocity has the components of its class;
    rotation matrices are 3x3. *)
Definition speeds_fmtd (f : fmt) (v : vel ext) : Prop :=
  length (vcomps v) = length (kinds (integral_cls (vc v))) /\ Forall (fmtd f) (vcomps v).
Definition event_fmtd (f : fmt) (v : fourvec ext) : Prop := fmtd f (ft v) /\ pos_fmtd f (fq v).
Definition matrix_fmtd (f : fmt) (M : mat ext) : Prop :=
  length M = 3%nat /\ Forall (fun r => length r = 3%nat /\ Forall (fmtd f) r) M.
Fixpoint op_fmtd (f : fmt) (o : op ext) : Prop :=
  match o with
  | OIdentity => True
  | OSpatial q => pos_fmtd f q
  | OTranslation v => event_fmtd f v
  | ORotation M => matrix_fmtd f M
  | OBoost v | OVelBoost v => speeds_fmtd f v
  | OPipe ops => (fix all ops := match ops with [] => True | o :: ops => op_fmtd f o /\ all ops end) ops
  | OGalilean M T V => matrix_fmtd f M /\ event_fmtd f T /\ speeds_fmtd f V
  end.
(** a position, with or without a time, or a FourVector, and the same with units (nothing is
    said about the speed of light a FourVector carries: rotations reset it to the default,
    which is in km/s, and no operator uses it) *)
Definition same_at (f : fmt) (y : value (uq ext)) (Y : value ext) : Prop :=
  match y, Y with
  | VPos q, VPos Q => q = in_units Q /\ pos_fmtd f Q
  | VPosT q t, VPosT Q T => q = in_units Q /\ pos_fmtd f Q /\ t = intime T /\ fmtd f T
  | VFour v, VFour V => fq v = in_units (fq V) /\ pos_fmtd f (fq V) /\ ft v = intime (ft V) /\ fmtd f (ft V)
  | _, _ => False
  end.
(** calls of operators on quantities; [c]: the default speed of light *)
Definition qcall (f : fmt) (L : libm) (fac : R -> R) (m : mode) (deg : bool) (n : nat) (c : uq ext) :=
  @gcall (uq ext) (Num_fuq f L fac) Static_uq m deg n c.

(** sums and differences of FourVectors *)
Definition qfv_add (f : fmt) (L : libm) (fac : R -> R) := @gfv_add (uq ext) (Num_fuq f L fac) Static_uq.
Definition qfv_sub (f : fmt) (L : libm) (fac : R -> R) := @gfv_sub (uq ext) (Num_fuq f L fac) Static_uq.
Definition same_fourvec (f : fmt) (r : res (fourvec (uq ext))) (r' : res (fourvec ext)) : Prop :=
  match r, r' with
  | Ok w v, Ok w' V => w = w' /\ v = in_event V /\ event_fmtd f V
  | Raise e, Raise e' => e = e'
  | _, _ => False
  end.
Definition qinverse (f : fmt) (L : libm) (fac : R -> R) := @ginverse (uq ext) (Num_fuq f L fac).

(** ** Proof *)
Section Ops.
Variable f : fmt.
Variable L : libm.
Variable fac : R -> R.
Hypothesis ok : fmt_ok f.
Hypothesis Lok : libm_ok f L.
Hypothesis U1 : fac 1 = 1.
Variables (m : mode) (deg : bool) (n : nat).
Variables (cq : uq ext) (cx : ext).
Notation NU := (Num_fuq f L fac).
Notation FN := (Num_fl f L).
Notation P1 := (relf_preserved f L fac ok Lok U1).
Notation same_pos := (fun (q : pos (uq ext)) (Q : pos ext) => q = in_units Q /\ pos_fmtd f Q).
Notation rU := (@tpos_add (uq ext) NU Static_uq m deg n).
Notation rF := (@tpos_add ext FN Static_ext m deg n).

Lemma rr_out r r' : rres (rpos (relf f) False) r r' -> rres same_pos r r'.
Proof. destruct r, r'; cbn; auto. intros [-> R]. split; auto. now apply relf_out. Qed.
Lemma f_tadd p q : rF p q = @pos_add ext FN m deg n p q.
Proof. now apply tpos_add_eq. Qed.
Lemma i_add p q : pos_fmtd f p -> pos_fmtd f q -> rres same_pos (rU (in_units p) (in_units q)) (rF p q).
Proof.
  intros P Q. rewrite f_tadd, (tpos_add_in f L fac ok Lok U1) by auto. apply rr_out.
  apply (r_pos_add _ False P1); now apply relf_in.
Qed.
Lemma i_rep q t : pos_fmtd f q -> rres same_pos (@represent_as _ NU m deg n nokw (in_units q) t) (@represent_as _ FN m deg n nokw q t).
Proof. intros P. apply rr_out, (represent_as_rel _ _ P1); [apply r_nokw|now apply relf_in]. Qed.
Lemma fm2 g x y : (forall a b, fmtd f (g a b)) -> fmtd f (flift2 g x y).
Proof. destruct x, y; cbn; auto using fmtd_none. Qed.
Lemma i_time_add t T : fmtd f T -> @nadd _ NU (intime t) (intime T) = intime (@nadd _ FN t T).
Proof.
  intros F. unfold intime. cbn [Num_fuq Num_uq nadd uqv uqd uqs intime]. unfold inunit. cbn [uqv uqs]. assert (D1 : 1 / 1 = 1) by field. rewrite D1.
  rewrite scl1 by auto. rewrite sum_refl. reflexivity.
Qed.
Lemma i_fadd x y : fmtd f (@nadd _ FN x y). Proof. apply fm2. intros. now apply fmtd_fop. Qed.
Lemma i_fmul x y : fmtd f (@nmul _ FN x y). Proof. apply fm2. intros. now apply fmtd_fop. Qed.
Lemma i_times k x t : relf f k (@nmul _ NU (inper k x) (intime t)) (@nmul _ FN x t).
Proof.
  split; [|apply i_fmul]. cbn [Num_fuq Num_uq nmul uqv uqd uqs inper intime]. rewrite Rmult_1_l. f_equal. cbn [dim2]. f_equal.
  destruct k; cbn; unfold dim_mul, per, dim_div; cbn; f_equal; first [lia|reflexivity].
Qed.
Lemma i_vel_time v t : speeds_fmtd f v -> rres same_pos (@gvel_mul_time _ NU m (in_speeds v) (intime t)) (@gvel_mul_time _ FN m v t).
Proof.
  intros [Hl _]. destruct v as [c x]. unfold gvel_mul_time. apply rr_out. unfold in_speeds. cbn [vc vcomps] in *.
  destruct c; cbn [integral_cls kinds length] in *; try reflexivity;
  repeat (destruct x as [|? x]; try discriminate Hl); cbn [combine map gpos_from_components]; try reflexivity; unfold mk_Cart1, mk_Cart2, mk_Cart3;
  first [ apply (r_Radial _ _ P1) | apply (r_Polar _ _ P1) | apply (r_TwoSphere _ _ P1)
        | apply (r_Cyl _ _ P1) | apply (r_Sph _ _ P1) | apply (r_MSph _ _ P1) | apply (r_LonLat _ _ P1) | apply Rel.rr_ret; cbn [rpos] ];
  cbn [rrarg rang kind_of]; repeat match goal with |- _ /\ _ => split end; first [reflexivity | apply i_times].
Qed.
Lemma i_boost v q t : speeds_fmtd f v -> pos_fmtd f q ->
  rres same_pos (@gboost_pos _ NU Static_uq m deg n (in_speeds v) (in_units q) (intime t)) (@gboost_pos _ FN Static_ext m deg n v q t).
Proof. intros V Q. unfold gboost_pos. eapply rr_bind; [now apply i_vel_time|]. intros y Y [-> F]. now apply i_add. Qed.
Lemma i_one x : fmtd f x -> relf f (Len 0) (inone x) x. Proof. intros F. now split. Qed.
Lemma i_dot r x : length r = 3%nat -> Forall (fmtd f) r -> length x = 3%nat -> Forall (fmtd f) x ->
  relf f (Len 1) (@gdot _ NU (map inone r) (map inlen x)) (@gdot _ FN r x).
Proof.
  intros Hl F Hl' F'. destruct r as [|a [|b [|c [|]]]]; try discriminate. destruct x as [|x [|y [|z [|]]]]; try discriminate.
  repeat match goal with X : Forall _ (_ :: _) |- _ => apply Forall_cons_iff in X; destruct X as [? X] end.
  unfold gdot. cbn [combine map sum_list fold_left].
  repeat apply (r_add _ P1); (apply (r_mul _ P1) with (a := 0%Z) (b := 1%Z); [now apply i_one|now split|reflexivity]).
Qed.
Lemma cls_in q : cls_of (in_units q) = cls_of q. Proof. now destruct q. Qed.
Lemma i_rotate M q : matrix_fmtd f M -> pos_fmtd f q ->
  rres same_pos (@grotate _ NU m deg n (in_matrix M) (in_units q)) (@grotate _ FN m deg n M q).
Proof.
  intros [LM FM] Q. unfold grotate. rewrite cls_in. destruct (dim_of (cls_of q)) as [|[|[|[|]]]]; try reflexivity.
  eapply rr_bind; [now apply i_rep|]. intros x X [-> F]. destruct X; cbn [in_units]; try reflexivity.
  destruct M as [|r1 [|r2 [|r3 [|]]]]; try discriminate.
  repeat match goal with X : Forall _ (_ :: _) |- _ => apply Forall_cons_iff in X; destruct X as [[? ?] X] end.
  cbn [pos_fmtd] in F. destruct F as (Fx & Fy & Fz).
  match goal with |- rres _ (match gmatmul_vec _ [inlen ?x; inlen ?y; inlen ?z] with _ => _ end) _ => assert (FX : Forall (fmtd f) [x; y; z]) by auto end.
  cbn [in_matrix gmatmul_vec map].
  apply rr_out, (represent_as_rel _ _ P1); [apply r_nokw|]. cbn [rpos].
  split; [|split]; apply (i_dot _ [_; _; _]); auto.
Qed.
Lemma i_call_vec o x X : op_fmtd f o -> same_at f x X ->
  rres (same_at f) (@gcall_vec _ NU Static_uq m deg n cq (op_in o) x) (@gcall_vec _ FN Static_ext m deg n cx o X).
Proof.
  intros O S. destruct x, X; cbn [same_at] in S; try contradiction.
  - destruct S as [-> Q]. destruct o; cbn [op_in gcall_vec]; try reflexivity; cbn [op_fmtd] in O.
    + apply rr_ret. now split.
    + eapply rr_bind; [now apply i_add|]. intros y Y [-> F]. apply rr_ret. now split.
    + eapply rr_bind; [now apply i_rotate|]. intros y Y [-> F]. apply rr_ret. now split.
    + apply rr_ret. now split.
  - destruct S as (-> & Q & -> & T). destruct o; cbn [op_in gcall_vec]; try reflexivity; cbn [op_fmtd] in O.
    + apply rr_ret; cbn [same_at]; auto.
    + eapply rr_bind; [now apply i_add|]. intros y Y [-> F]. apply rr_ret; cbn [same_at]; auto.
    + rewrite cls_in. destruct (dim_of (cls_of q0)) as [|[|[|[|]]]]; try reflexivity. destruct O as [O1 O2].
      eapply rr_bind; [now apply i_add|]. intros y Y [-> F]. apply rr_ret. split; [auto|split; [auto|split; [now apply i_time_add|apply i_fadd]]].
    + eapply rr_bind; [now apply i_rotate|]. intros y Y [-> F]. apply rr_ret; cbn [same_at]; auto.
    + eapply rr_bind; [now apply i_boost|]. intros y Y [-> F]. apply rr_ret; cbn [same_at]; auto.
    + apply rr_ret; cbn [same_at]; auto.
  - destruct S as (E & Q & E' & T). destruct o; cbn [op_in gcall_vec]; try reflexivity; cbn [op_fmtd] in O; rewrite ?E, ?E'.
    + apply rr_ret; cbn [same_at]; auto.
    + eapply rr_bind; [now apply i_add|]. intros y Y [-> F]. apply rr_ret; cbn [same_at fq ft]; auto.
    + destruct O as [O1 O2]. unfold gfv_add. rewrite E, E'.
      eapply rr_bind with (R := fun y Y => same_at f (VFour y) (VFour Y)); [|intros y Y S; now apply rr_ret].
      eapply rr_bind; [now apply i_add|]. intros y Y [-> F]. apply rr_ret. cbn [same_at fq ft].
      split; [auto|split; [auto|split; [now apply i_time_add|apply i_fadd]]].
    + eapply rr_bind; [now apply i_rotate|]. intros y Y [-> F]. apply rr_ret; cbn [same_at fq ft]; auto.
    + eapply rr_bind; [now apply i_boost|]. intros y Y [-> F]. apply rr_ret; cbn [same_at fq ft]; auto.
    + apply rr_ret; cbn [same_at]; auto.
Qed.
Lemma i_call o : forall x X, op_fmtd f o -> same_at f x X ->
  rres (same_at f) (@gcall _ NU Static_uq m deg n cq (op_in o) x) (@gcall _ FN Static_ext m deg n cx o X).
Proof.
  induction o as [o P|ops IH|R T V] using op_ind'; intros x X O S.
  - pose proof (i_call_vec o x X O S) as K. destruct o; cbn in P; try discriminate; exact K.
  - cbn [gcall op_in]. revert x X S. induction IH as [|o ops Ho _ IH]; intros x X S; cbn [map].
    + now apply rr_ret.
    + destruct O as [O Os]. eapply rr_bind; [now apply Ho|]. intros y Y Sy. apply (IH Os y Y Sy).
  - destruct O as (O1 & O2 & O3). cbn [gcall op_in].
    eapply rr_bind; [apply (i_call_vec (ORotation R)); eassumption|]. intros y Y Sy.
    eapply rr_bind; [apply (i_call_vec (OTranslation T)); eassumption|]. intros z Z Sz.
    apply (i_call_vec (OBoost V)); auto.
Qed.

(** *** FourVectors *)
Notation same_event := (fun (v : fourvec (uq ext)) (V : fourvec ext) => v = in_event V /\ event_fmtd f V).
Lemma i_sub p q : pos_fmtd f p -> pos_fmtd f q ->
  rres same_pos (@tpos_sub _ NU Static_uq m deg n (in_units p) (in_units q)) (@tpos_sub _ FN Static_ext m deg n p q).
Proof.
  intros P Q. replace (@tpos_sub _ FN Static_ext m deg n p q) with (@pos_sub _ FN m deg n p q) by (symmetry; now apply tpos_sub_eq).
  rewrite (tpos_sub_in f L fac ok Lok U1) by auto. apply rr_out. apply (r_pos_sub _ False P1); now apply relf_in.
Qed.
Lemma i_time_sub t T : fmtd f T -> @nsub _ NU (intime t) (intime T) = intime (@nsub _ FN t T).
Proof.
  intros F. unfold intime. cbn [Num_fuq Num_uq nsub uqv uqd uqs]. unfold inunit. cbn [uqv uqs]. assert (D1 : 1 / 1 = 1) by field. rewrite D1.
  rewrite scl1 by auto. rewrite sum_refl. reflexivity.
Qed.
Lemma i_fv_add v w : event_fmtd f v -> event_fmtd f w ->
  rres same_event (@gfv_add _ NU Static_uq m deg n (in_event v) (in_event w)) (@gfv_add _ FN Static_ext m deg n v w).
Proof.
  intros [T Q] [T' Q']. unfold gfv_add. cbn [in_event ft fq fc]. eapply rr_bind; [now apply i_add|]. intros y Y [-> F]. apply rr_ret.
  unfold in_event, event_fmtd. cbn [ft fq fc]. split; [now rewrite i_time_add|]. split; [apply i_fadd|exact F].
Qed.
Lemma i_fv_sub v w : event_fmtd f v -> event_fmtd f w ->
  rres same_event (@gfv_sub _ NU Static_uq m deg n (in_event v) (in_event w)) (@gfv_sub _ FN Static_ext m deg n v w).
Proof.
  intros [T Q] [T' Q']. unfold gfv_sub. cbn [in_event ft fq fc]. eapply rr_bind; [now apply i_sub|]. intros y Y [-> F]. apply rr_ret.
  unfold in_event, event_fmtd. cbn [ft fq fc]. split; [now rewrite i_time_sub|]. split; [apply fm2; intros; now apply fmtd_fop|exact F].
Qed.

(** *** Norms, intervals, multiples *)
Lemma i_interval v : event_fmtd f v -> fmtd f (fc v) ->
  rres (relf f (Len 2)) (@gfv_norm2 _ NU deg n (in_event v)) (@gfv_norm2 _ FN deg n v).
Proof.
  intros [T Q] C. unfold gfv_norm2. cbn [in_event ft fq fc]. eapply rr_bind; [apply (r_norm _ False P1); now apply relf_in|].
  intros d D R. apply relf_rdist_out in R. destruct R as [-> F]. unfold inradial. cbn [dk dval]. destruct (dk D); try reflexivity. cbn [dk dval].
  apply rr_ret. assert (N : relf f (Len 1) (inlen (dval D)) (dval D)) by now split.
  assert (CT : relf f (Len 1) (@nmul _ NU (inspeed (fc v)) (intime (ft v))) (@nmul _ FN (fc v) (ft v))) by exact (i_times (Len 1) (fc v) (ft v)).
  unfold nsq. apply (r_add _ P1); [apply (r_neg _ P1)|]; (eapply (r_mul _ P1); [eassumption|eassumption|reflexivity]).
Qed.

(** *** Inverses *)
Notation same_operator := (fun (o : op (uq ext)) (O : op ext) => o = op_in O /\ op_fmtd f O).
Lemma fm_neg x : fmtd f x -> fmtd f (@nneg _ FN x).
Proof. intros F. destruct x as [v|]; [|exact (fmtd_none f)]. intros w [= <-]. destruct (F v eq_refl) as [A B]. split; [now apply F_opp|now rewrite Rabs_Ropp]. Qed.
Lemma i_neg q : pos_fmtd f q -> rres same_pos (@pos_neg _ NU m deg n (in_units q)) (@pos_neg _ FN m deg n q).
Proof. intros Q. apply rr_out, (r_pos_neg _ False P1). now apply relf_in. Qed.
Lemma i_fv_neg v : event_fmtd f v -> rres (fun y Y => y = in_event Y /\ event_fmtd f Y) (@gfv_neg _ NU m deg n (in_event v)) (@gfv_neg _ FN m deg n v).
Proof.
  intros [T Q]. unfold gfv_neg, in_event at 1. cbn [ft fq fc]. eapply rr_bind; [now apply i_neg|]. intros y Y [-> F]. apply rr_ret.
  split; [reflexivity|]. split; [now apply fm_neg|exact F].
Qed.
Lemma i_vel_neg v : speeds_fmtd f v -> @gvel_neg _ NU (in_speeds v) = in_speeds (@gvel_neg _ FN v) /\ speeds_fmtd f (@gvel_neg _ FN v).
Proof.
  intros [Hl F]. destruct v as [c x]. unfold gvel_neg, in_speeds, speeds_fmtd in *. cbn [vc vcomps] in *. split.
  - f_equal. clear F. revert x Hl. generalize (kinds (integral_cls c)) as ks.
    induction ks as [|k ks IH]; intros [|x xs] Hl; try discriminate; cbn [combine map]; [reflexivity|]. f_equal. apply IH. now injection Hl.
  - split; [now rewrite map_length|]. clear Hl. induction F; cbn; constructor; auto. now apply fm_neg.
Qed.
Lemma i_transpose M : matrix_fmtd f M -> @gtranspose _ NU (in_matrix M) = in_matrix (@gtranspose _ FN M) /\ matrix_fmtd f (@gtranspose _ FN M).
Proof.
  intros [LM FM]. destruct M as [|r1 [|r2 [|r3 [|]]]]; try discriminate.
  repeat match goal with X : Forall _ (_ :: _) |- _ => apply Forall_cons_iff in X; destruct X as [[? ?] X] end.
  destruct r1 as [|a1 [|a2 [|a3 [|]]]]; try discriminate. destruct r2 as [|b1 [|b2 [|b3 [|]]]]; try discriminate. destruct r3 as [|c1 [|c2 [|c3 [|]]]]; try discriminate.
  repeat match goal with X : Forall _ (_ :: _) |- _ => apply Forall_cons_iff in X; destruct X as [? X] end.
  split; [reflexivity|]. split; [reflexivity|]. cbn. repeat (constructor; auto).
Qed.
Lemma fmtd_app a b : op_fmtd f (OPipe a) -> op_fmtd f (OPipe b) -> op_fmtd f (OPipe (a ++ b)).
Proof. induction a as [|o a IH]; [auto|]. intros [A1 A2] B. split; [exact A1|]. exact (IH A2 B). Qed.
Lemma i_inverse o : op_fmtd f o -> rres same_operator (@ginverse _ NU m deg n (op_in o)) (@ginverse _ FN m deg n o).
Proof.
  induction o as [o P|ops IH|R T V] using op_ind'; intros O.
  - destruct o; cbn in P; try discriminate; cbn [ginverse op_in]; cbn [op_fmtd] in O.
    + apply rr_ret. now split.
    + eapply rr_bind; [now apply i_neg|]. intros y Y [-> F]. apply rr_ret. now split.
    + eapply rr_bind; [now apply i_fv_neg|]. intros y Y [-> F]. apply rr_ret. now split.
    + destruct (i_transpose _ O) as [E F]. apply rr_ret. split; [|exact F]. cbn [op_in]. now rewrite E.
    + destruct (i_vel_neg _ O) as [E F]. apply rr_ret. split; [|exact F]. cbn [op_in]. now rewrite E.
    + destruct (i_vel_neg _ O) as [E F]. apply rr_ret. split; [|exact F]. cbn [op_in]. now rewrite E.
  - cbn [ginverse op_in]. eapply rr_bind with (R := fun l L0 => l = map op_in L0 /\ op_fmtd f (OPipe L0)); [|intros l L0 [-> F]; apply rr_ret; split; auto].
    induction IH as [|o ops Ho _ IH]; cbn [map].
    + apply rr_ret. now split.
    + destruct O as [O Os]. eapply rr_bind; [apply (IH Os)|]. intros l L0 [-> F]. eapply rr_bind; [apply (Ho O)|]. intros i I0 [-> Fi].
      apply rr_ret. split; [now rewrite map_app|]. apply fmtd_app; auto. now split.
  - destruct O as (O1 & O2 & O3). cbn [ginverse op_in]. eapply rr_bind; [now apply (i_fv_neg T)|]. intros y Y [-> F].
    destruct (i_transpose _ O1) as [E1 F1'], (i_vel_neg _ O3) as [E3 F3]. apply rr_ret. split.
    + cbn [op_in map]. now rewrite E1, E3.
    + cbn [op_fmtd]. auto.
Qed.
End Ops.

(** ** Theorem *)
(** Every operator, composites and sequences of any length included, applied to a position
    (and a time) or a FourVector: with everything in one coherent system of units, quantities go through
    exactly the operations of the plain numbers (C67 and the other theorems on operators in
    floating point apply to them), bit for bit, and the results carry the matching units. *)
Theorem C86_operators_in_one_unit :
  forall f L fac m deg n c o x X, fmt_ok f -> libm_ok f L -> fac 1 = 1 -> op_fmtd f o -> same_at f x X ->
    match qcall f L fac m deg n c (op_in o) x, fcall f L m deg n o X with
    | Ok w y, Ok w' Y => w = w' /\ same_at f y Y
    | Raise e, Raise e' => e = e'
    | _, _ => False
    end.
Proof.
  intros f L fac m deg n c o x X ok Lok U1 O S.
  exact (i_call f L fac ok Lok U1 m deg n c (fop f c_light) o x X O S).
Qed.

Theorem C86_inverses_in_one_unit :
  forall f L fac m deg n o, fmt_ok f -> libm_ok f L -> fac 1 = 1 -> op_fmtd f o ->
    match qinverse f L fac m deg n (op_in o), finverse f L m deg n o with
    | Ok w y, Ok w' Y => w = w' /\ y = op_in Y /\ op_fmtd f Y
    | Raise e, Raise e' => e = e'
    | _, _ => False
    end.
Proof. intros f L fac m deg n o ok Lok U1 O. exact (i_inverse f L fac ok Lok U1 m deg n o O). Qed.
Theorem C86_fourvectors_in_one_unit :
  forall f L fac m deg n v w, fmt_ok f -> libm_ok f L -> fac 1 = 1 -> event_fmtd f v -> event_fmtd f w ->
    same_fourvec f (qfv_add f L fac m deg n (in_event v) (in_event w)) (ffv_add f L m deg n v w) /\
    same_fourvec f (qfv_sub f L fac m deg n (in_event v) (in_event w)) (ffv_sub f L m deg n v w).
Proof.
  intros f L fac m deg n v w ok Lok U1 V W. split;
  [exact (i_fv_add f L fac ok Lok U1 m deg n v w V W)|exact (i_fv_sub f L fac ok Lok U1 m deg n v w V W)].
Qed.
(** The norm of a position of any class; multiples and quotients by a pure number. *)
Theorem C86_norms_and_multiples_in_one_unit :
  forall f L fac m b deg n p k, fmt_ok f -> libm_ok f L -> fac 1 = 1 -> pos_fmtd f p -> fmtd f k ->
    match @pos_norm _ (Num_fuq f L fac) deg n (in_units p), fpos_norm f L deg n p with
    | Ok w d, Ok w' D => w = w' /\ d = inradial D /\ fmtd f (dval D)
    | Raise e, Raise e' => e = e'
    | _, _ => False
    end /\
    same_outcome f (@pos_mul _ (Num_fuq f L fac) m deg n (inone k) (in_units p)) (@pos_mul _ (Num_fl f L) m deg n k p) /\
    same_outcome f (@pos_div _ (Num_fuq f L fac) m b (in_units p) (inone k)) (@pos_div _ (Num_fl f L) m b p k).
Proof.
  intros f L fac m b deg n p k ok Lok U1 P K. pose proof (relf_preserved f L fac ok Lok U1) as PR. pose proof (relf_in f p P) as RP.
  assert (RK : relf f (Len 0) (inone k) k) by now split. split; [|split].
  - pose proof (r_norm _ False PR deg n _ _ RP) as R. unfold fpos_norm. destruct (@pos_norm _ (Num_fuq f L fac) deg n (in_units p)), (@pos_norm _ (Num_fl f L) deg n p); cbn in R; auto.
    destruct R as [-> R]. split; auto. now apply relf_rdist_out.
  - apply same_outcome_of. now apply (r_pos_mul _ False PR (relf_arith f L fac ok U1)).
  - apply same_outcome_of. now apply (r_pos_div _ False PR (relf_arith f L fac ok U1)).
Qed.
(** The interval of a FourVector comes in the square of the unit of length. *)
Theorem C86_interval_in_one_unit :
  forall f L fac deg n v, fmt_ok f -> libm_ok f L -> fac 1 = 1 -> event_fmtd f v -> fmtd f (fc v) ->
    match @gfv_norm2 _ (Num_fuq f L fac) deg n (in_event v), ffv_norm2 f L deg n v with
    | Ok w s, Ok w' Y => w = w' /\ s = inarea Y /\ fmtd f Y
    | Raise e, Raise e' => e = e'
    | _, _ => False
    end.
Proof. intros f L fac deg n v ok Lok U1 V C. exact (i_interval f L fac ok Lok U1 deg n v V C). Qed.
Print Assumptions C86_norms_and_multiples_in_one_unit.
Print Assumptions C86_interval_in_one_unit.
Print Assumptions C86_fourvectors_in_one_unit.
Print Assumptions C86_operators_in_one_unit.
Print Assumptions C86_inverses_in_one_unit.

(** ** The hypotheses are met *)
(** a translation by (4, 5, 6) and a boost by (1, 2, -1) of the position (1, 2, 3) at time 2 *)
Definition ex_op : op ext := OPipe [OSpatial (cart3 4 5 6); OBoost (mkVel WCart3 [Some 1; Some 2; Some (-1)] )].
Lemma fmtd_int z : (Z.abs z <= 16)%Z -> fmtd binary32 (Some (IZR z)).
Proof. intros H w [= <-]. exact (proj1 (usable_int binary32 z binary32_ok H)). Qed.
Lemma ex_op_ok : op_fmtd binary32 ex_op.
Proof.
  cbn [ex_op op_fmtd cart3 pos_fmtd speeds_fmtd vc vcomps kinds integral_cls length]. unfold speeds_fmtd. cbn [vc vcomps kinds integral_cls length].
  repeat match goal with |- _ /\ _ => split end; try reflexivity; try exact I; try (apply fmtd_int; lia).
  repeat (apply Forall_cons; [apply fmtd_int; lia|]). apply Forall_nil.
Qed.
Lemma fop_int z : (Z.abs z <= 16)%Z -> fop binary32 (IZR z) = Some (IZR z).
Proof. intros H. destruct (usable_int binary32 z binary32_ok H) as [[F B] _]. pose proof binary32_ok. unfold fop. rewrite rn_id by exact F. apply fin_some. exact B. Qed.
Example C86_operators_in_one_unit_ex :
  qcall binary32 (cr_libm binary32) (cr_fac binary32) Eager true 1 (inspeed None) (op_in ex_op)
    (VPosT (PCart3 (inlen (Some 1)) (inlen (Some 2)) (inlen (Some 3))) (intime (Some 2))) =
  Ok false (VPosT (PCart3 (inlen (Some 7)) (inlen (Some 11)) (inlen (Some 7))) (intime (Some 2))).
Proof.
  assert (ok := binary32_ok).
  assert (S : same_at binary32 (VPosT (PCart3 (inlen (Some 1)) (inlen (Some 2)) (inlen (Some 3))) (intime (Some 2))) (VPosT (cart3 1 2 3) (Some 2))).
  { cbn [same_at cart3 in_units pos_fmtd]. repeat match goal with |- _ /\ _ => split end; try reflexivity; apply fmtd_int; lia. }
  assert (E1 : fcall binary32 (cr_libm binary32) Eager true 1 (OSpatial (cart3 4 5 6)) (VPosT (cart3 1 2 3) (Some 2)) = Ok false (VPosT (cart3 5 7 9) (Some 2))).
  { unfold fcall. cbn [gcall gcall_vec]. rewrite (f_tadd binary32 (cr_libm binary32)). cbn [pos_add cart_add cart3]. unfold rep. step. unfold ret. rewrite !bind_ok. unfold cart3. cbn [nadd Num_fl flift2].
    replace (1 + 4) with 5 by ring. replace (2 + 5) with 7 by ring. replace (3 + 6) with 9 by ring. rewrite !fop_int by lia. rewrite ?bind_ok. reflexivity. }
  assert (E : fcall binary32 (cr_libm binary32) Eager true 1 ex_op (VPosT (cart3 1 2 3) (Some 2)) = Ok false (VPosT (cart3 7 11 7) (Some 2))).
  { unfold ex_op. rewrite fpipe, E1, bind_ok, fpipe. unfold cart3. rewrite fboost, bind_ok, fpipe0. cbn [nadd nmul Num_fl flift2].
    replace (1 * 2) with 2 by ring. replace (2 * 2) with 4 by ring. replace (-1 * 2) with (-2) by ring. rewrite !fop_int by lia. cbn [flift2].
    replace (5 + 2) with 7 by ring. replace (7 + 4) with 11 by ring. replace (9 + -2) with 7 by ring. rewrite !fop_int by lia. reflexivity. }
  pose proof (C86_operators_in_one_unit binary32 (cr_libm binary32) (cr_fac binary32) Eager true 1 (inspeed None) ex_op _ _ ok (cr_libm_ok _ ok) (proj1 (cr_fac_ok _ ok)) ex_op_ok S) as K.
  rewrite E in K. destruct (qcall _ _ _ _ _ _ _ _ _) as [w y|e]; [|contradiction]. destruct K as [-> K].
  destruct y; cbn [same_at] in K; try contradiction. destruct K as (-> & _ & -> & _). reflexivity.
Qed.

(** the same translation and boost of the event (2; 1, 2, 3) *)
Example C86_operators_on_events_ex : exists v,
  qcall binary32 (cr_libm binary32) (cr_fac binary32) Eager true 1 (inspeed None) (op_in ex_op)
    (VFour (mkFV (intime (Some 2)) (PCart3 (inlen (Some 1)) (inlen (Some 2)) (inlen (Some 3))) (inspeed None))) = Ok false (VFour v) /\
  fq v = PCart3 (inlen (Some 7)) (inlen (Some 11)) (inlen (Some 7)) /\ ft v = intime (Some 2).
Proof.
  assert (ok := binary32_ok).
  set (V := mkFV (Some 2) (cart3 1 2 3) None). set (x := mkFV _ _ _).
  assert (S : same_at binary32 (VFour x) (VFour V)).
  { unfold x, V. cbn [same_at fq ft cart3 in_units pos_fmtd]. repeat match goal with |- _ /\ _ => split end; try reflexivity; apply fmtd_int; lia. }
  assert (E : fcall binary32 (cr_libm binary32) Eager true 1 ex_op (VFour V) = Ok false (VFour (mkFV (Some 2) (cart3 7 11 7) None))).
  { unfold ex_op. rewrite fpipe.
    assert (E1 : fcall binary32 (cr_libm binary32) Eager true 1 (OSpatial (cart3 4 5 6)) (VFour V) = Ok false (VFour (mkFV (Some 2) (cart3 5 7 9) None))).
    { unfold fcall, V. cbn [gcall gcall_vec fq ft fc]. rewrite (f_tadd binary32 (cr_libm binary32)). cbn [pos_add cart_add cart3]. unfold rep. step. unfold ret. rewrite !bind_ok. unfold cart3. cbn [nadd Num_fl flift2].
      replace (1 + 4) with 5 by ring. replace (2 + 5) with 7 by ring. replace (3 + 6) with 9 by ring. rewrite !fop_int by lia. rewrite ?bind_ok. reflexivity. }
    rewrite E1, bind_ok, fpipe.
    assert (E2 : fcall binary32 (cr_libm binary32) Eager true 1 (OBoost (mkVel WCart3 [Some 1; Some 2; Some (-1)] )) (VFour (mkFV (Some 2) (cart3 5 7 9) None)) = Ok false (VFour (mkFV (Some 2) (cart3 7 11 7) None))).
    { unfold fcall. cbn [gcall gcall_vec fq ft fc]. unfold gboost_pos, gvel_mul_time. cbn [vc vcomps integral_cls map gpos_from_components]. unfold mk_Cart3, ret. rewrite bind_ok.
      rewrite (f_tadd binary32 (cr_libm binary32)). cbn [pos_add cart_add cart3]. unfold rep. step. unfold ret. rewrite !bind_ok. unfold cart3. cbn [nadd nmul Num_fl flift2].
      replace (1 * 2) with 2 by ring. replace (2 * 2) with 4 by ring. replace (-1 * 2) with (-2) by ring. rewrite !fop_int by lia.
      replace (5 + 2) with 7 by ring. replace (7 + 4) with 11 by ring. replace (9 + -2) with 7 by ring. rewrite !fop_int by lia. rewrite ?bind_ok. reflexivity. }
    rewrite E2, bind_ok, fpipe0. reflexivity. }
  pose proof (C86_operators_in_one_unit binary32 (cr_libm binary32) (cr_fac binary32) Eager true 1 (inspeed None) ex_op _ _ ok (cr_libm_ok _ ok) (proj1 (cr_fac_ok _ ok)) ex_op_ok S) as K.
  rewrite E in K. destruct (qcall _ _ _ _ _ _ _ _ _) as [w y|e]; [|contradiction]. destruct K as [-> K].
  destruct y; cbn [same_at] in K; try contradiction. destruct K as (K1 & _ & K2 & _). exists v. split; [reflexivity|]. now split.
Qed.
Example C86_multiples_in_one_unit_ex :
  @pos_mul _ (Num_fuq binary32 (cr_libm binary32) (cr_fac binary32)) Eager true 1 (inone (Some 2)) (in_units (cart3 1 2 3)) = Ok false (in_units (cart3 2 4 6)).
Proof.
  assert (ok := binary32_ok).
  assert (E : @pos_mul _ (Num_fl binary32 (cr_libm binary32)) Eager true 1 (Some 2) (cart3 1 2 3) = Ok false (cart3 2 4 6)).
  { cbn [pos_mul cart_mul cart3 cls_of cart_cls dim_of]. unfold cart3. cbn [nmul Num_fl flift2].
    replace (1 * 2) with 2 by ring. replace (2 * 1) with 2 by ring. replace (2 * 2) with 4 by ring. replace (3 * 2) with 6 by ring. replace (2 * 3) with 6 by ring. rewrite !fop_int by lia. reflexivity. }
  pose proof (proj1 (proj2 (C86_norms_and_multiples_in_one_unit binary32 (cr_libm binary32) (cr_fac binary32) Eager true true 1 (cart3 1 2 3) (Some 2) ok (cr_libm_ok _ ok) (proj1 (cr_fac_ok _ ok))
    (conj (fmtd_int 1 ltac:(lia)) (conj (fmtd_int 2 ltac:(lia)) (fmtd_int 3 ltac:(lia)))) (fmtd_int 2 ltac:(lia))))) as K.
  rewrite E in K. unfold same_outcome in K. destruct (@pos_mul _ (Num_fuq binary32 (cr_libm binary32) (cr_fac binary32)) _ _ _ _ _) as [w y|e]; [|destruct K]. destruct K as (-> & -> & _). reflexivity.
Qed.
Example C86_interval_in_one_unit_ex :
  @gfv_norm2 _ (Num_fuq binary32 (cr_libm binary32) (cr_fac binary32)) true 1 (in_event (mkFV (Some 3) (cart3 0 0 2) (Some 1))) = Ok false (inarea (Some 5)).
Proof.
  assert (ok := binary32_ok). set (v := mkFV (Some 3) (cart3 0 0 2) (Some 1)).
  assert (E : ffv_norm2 binary32 (cr_libm binary32) true 1 v = Ok false (Some 5)).
  { unfold ffv_norm2, gfv_norm2, v. cbn [fq ft fc]. unfold cart3. cbn [pos_norm]. unfold pos_mul_pos, cart_components. cbn [cls_of cart_cls dim_of]. unfold rep. step. unfold ret. rewrite !bind_ok.
    cbn [components combine map sum_list fold_left nsq nmul nadd nneg nsqrt Num_fl flift2 flift1].
    unfold nsq. cbn [nmul nadd nneg nsqrt Num_fl flift2 flift1 dk dval].
    replace (0 * 0) with 0 by ring. replace (2 * 2) with 4 by ring. replace (1 * 3) with 3 by ring. rewrite !fop_int by lia. cbn [flift2].
    replace (0 + 0) with 0 by ring. rewrite !fop_int by lia. cbn [flift2]. replace (0 + 4) with 4 by ring. rewrite !fop_int by lia.
    cbn [flift1]. replace (Rleb 0 4) with true by (symmetry; apply Rleb_true; lra). replace (sqrt 4) with 2 by (replace 4 with (2 * 2) by ring; rewrite sqrt_square; lra).
    rewrite !fop_int by lia. cbn [flift2]. replace (2 * 2) with 4 by ring. replace (3 * 3) with 9 by ring. rewrite !fop_int by lia. cbn [flift2 lift1].
    replace (- (4) + 9) with 5 by ring. rewrite !fop_int by lia. reflexivity. }
  pose proof (C86_interval_in_one_unit binary32 (cr_libm binary32) (cr_fac binary32) true 1 v ok (cr_libm_ok _ ok) (proj1 (cr_fac_ok _ ok))) as K.
  rewrite E in K. specialize (K (conj (fmtd_int 3 ltac:(lia)) (conj (fmtd_int 0 ltac:(lia)) (conj (fmtd_int 0 ltac:(lia)) (fmtd_int 2 ltac:(lia))))) (fmtd_int 1 ltac:(lia))).
  destruct (gfv_norm2 _ _ _) as [w y|e]; [|contradiction]. destruct K as (-> & -> & _). reflexivity.
Qed.

(** *** C67, continued: translations in space and time round each coordinate and the time
    once; FourVectors keep their speed of light.  /repo/src/coordinax/_src/operators/
    galilean/translation.py *)
Definition ev (t x y z c : R) : fourvec ext := mkFV (Some t) (cart3 x y z) (Some c).
Theorem C67_translation_of_events :
  forall f L m deg n x y z t a b c s k k', fmt_ok f ->
    isf f x -> isf f y -> isf f z -> isf f t -> isf f a -> isf f b -> isf f c -> isf f s ->
    exists rx ry rz rt,
      rounded_to f (x + a) rx /\ rounded_to f (y + b) ry /\ rounded_to f (z + c) rz /\ rounded_to f (t + s) rt /\
      fcall f L m deg (S n) (OTranslation (ev s a b c k)) (VPosT (cart3 x y z) (Some t)) = Ok false (VPosT (PCart3 rx ry rz) rt) /\
      fcall f L m deg (S n) (OTranslation (ev s a b c k)) (VFour (ev t x y z k')) = Ok false (VFour (mkFV rt (PCart3 rx ry rz) (Some k'))).
Proof.
  intros f L m deg n x y z t a b c s k k' ok Ix Iy Iz It Ia Ib Ic Is.
  exists (fop f (x + a)), (fop f (y + b)), (fop f (z + c)), (fop f (t + s)).
  assert (E : @tpos_add ext (Num_fl f L) Static_ext m deg (S n) (cart3 x y z) (cart3 a b c) = Ok false (PCart3 (fop f (x + a)) (fop f (y + b)) (fop f (z + c)))).
  { rewrite (f_tadd f L). cbn [pos_add cart_add cart3]. unfold rep. step. unfold ret. rewrite !bind_ok. reflexivity. }
  do 4 (split; [now apply sum_rounded|]).
  split; unfold fcall, ev; cbn [gcall gcall_vec]; unfold gfv_add; cbn [fq ft fc cls_of dim_of cart3]; fold (cart3 x y z) (cart3 a b c); rewrite E; unfold ret; rewrite !bind_ok; reflexivity.
Qed.
Print Assumptions C67_translation_of_events.
(** (2; 1, 2, 3) translated by (1; 4, 5, 6), in single precision *)
Example C67_translation_of_events_ex : exists r,
  fcall binary32 (cr_libm binary32) Eager true 1 (OTranslation (ev 1 4 5 6 1)) (VPosT (cart3 1 2 3) (Some 2)) = Ok false (VPosT r (Some 3)).
Proof.
  assert (ok := binary32_ok). assert (G : forall z, (Z.abs z <= 16)%Z -> isf binary32 (IZR z)) by (intros z H; exact (proj1 (usable_int binary32 z ok H))).
  destruct (C67_translation_of_events binary32 (cr_libm binary32) Eager true 0 1 2 3 2 4 5 6 1 1 1 ok) as (rx & ry & rz & rt & _ & _ & _ & R & E & _); try (apply G; lia).
  assert (T : rt = Some 3).
  { unfold fcall, ev in E. cbn [gcall gcall_vec cls_of dim_of cart3 fq ft] in E.
    destruct (@tpos_add _ _ _ _ _ _ _ _) as [w q|]; [|discriminate]. cbn [bind ret] in E. injection E as _ _ <-. cbn [nadd Num_fl flift2]. replace (2 + 1) with 3 by ring. now rewrite fop_int by lia. }
  rewrite E, T. eauto.
Qed.
