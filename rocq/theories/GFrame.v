(** * The ICRS <-> Galactocentric operators, for every number type.

    Frames.v models these operators on SI values.  The same functions are written here
    once for every number type, so that they can run on numbers that carry units
    (C68).  [gframe_call_eq] below proves that on SI values they *are* the functions of
    Frames.v.

    Files modelled: as Frames.v; the lines are cited there and below.
    Simplification: one array element; the sum in a matrix product is taken from left
    to right. *)
From Coq Require Import Reals Bool List.
From Verif Require Import Num Vectors Transform Dispatch Arith Vel UVel FourVec Operators GOp GOpThm.
From Verif Require Frames.
Import ListNotations.
Import Frames(gcf, mkGCF, g_lon, g_lat, g_dist, g_roll, g_zsun, g_vsun, fop, fvalue, FIdentity, FToGCF, FToICRS, FPipe, FPos, FPosVel, FArr, FArrs, easin, roll0).

Section GFrame.
Context {A : Type} {NA : Num A}.
Variables (m : mode) (deg : bool) (fuel : nat).
(** [jnp.asin] of a ratio, as an angle: frame_transforms.py:99-100 *)
Variable asn : A -> A.
(** [Galactocentric.roll0]: galactocentric.py:79 *)
Variable r0 : A.
Local Open Scope num_scope.
Notation zero := (ncst 0 : A).
Notation one := (ncst 1 : A).

(** galilean/rotation.py:141-164 *)
Definition geuler_x (a : A) : mat A := [[one; zero; zero]; [zero; ncos a; - nsin a]; [zero; nsin a; ncos a]].
Definition geuler_y (a : A) : mat A := [[ncos a; zero; nsin a]; [zero; one; zero]; [- nsin a; zero; ncos a]].
Definition geuler_z (a : A) : mat A := [[ncos a; - nsin a; zero]; [nsin a; ncos a; zero]; [zero; zero; one]].
(** [R1 @ R2]: galilean/rotation.py:291-321 *)
Definition gmatmul (P Q : mat A) : mat A := map (fun r => map (gdot r) (gtranspose Q)) P.
Definition gcart_from (x : list A) : res (pos A) :=
  match x with
  | [a] => ret (PCart1 a) | [a; b] => ret (PCart2 a b) | [a; b; c] => ret (PCart3 a b c)
  | _ => Raise EValue
  end.

Definition gparts : Type := mat A * pos A * list A.
(** frame_transforms.py:84-108 *)
Definition gto_gcf_parts (g : gcf A) : res gparts :=
  match dk (g_dist g) with
  | KDistance =>
      let mat1 := geuler_y (g_lat g) in
      let mat2 := geuler_z (- g_lon g) in
      let mat0 := geuler_x (g_roll g - r0) in
      let R := gmatmul (gmatmul mat0 mat1) mat2 in
      let z_d := g_zsun g / dval (g_dist g) in
      let H := geuler_y (asn z_d) in
      do offset <- gcart_from (gmatmul_vec (map (map nneg) H) [dval (g_dist g) * one; dval (g_dist g) * zero; dval (g_dist g) * zero]);
      ret (gmatmul H R, offset, g_vsun g)
  | _ => Raise EUnit
  end.
(** frame_transforms.py:322-334 *)
Definition gto_icrs_parts (g : gcf A) : res gparts :=
  do x <- gto_gcf_parts g;
  let '(M, offset, offset_v) := x in
  let B := gtranspose M in
  do n <- pos_neg m deg fuel offset;
  do offset' <- grotate m deg fuel B n;
  ret (B, offset', gmatmul_vec B (map nneg offset_v)).
(** [_call_q]: frame_transforms.py:204-207, 435-438; compat.py:122-152 *)
Definition gapply_q (ps : gparts) (x : list A) : res (list A) :=
  let '(M, offset, _) := ps in
  do q <- gcart_from (gmatmul_vec M x);
  do q' <- pos_add m deg fuel q offset;
  cart_components m deg fuel q'.
(** The Jacobian of [_call_q], and its product with a velocity. *)
Variable jac : gparts -> list A -> res (list (list A)).
Variable mv : nat -> list (list A) -> list A -> list A.
Definition gplus (a b : list A) : list A := map (fun '(x, y) => x + y) (combine a b).
(** frame_transforms.py:227-258, 458-490 *)
Definition gapply_qp (ps : gparts) (x p : list A) : res (list A * list A) :=
  do q' <- gapply_q ps x;
  do j <- jac ps x;
  ret (q', gplus (mv 3 j p) (snd ps)).
(** Conversion of a velocity at a position: UVel.v *)
Variable vrep : vel A -> vcls -> pos A -> res (vel A).
(** frame_transforms.py:209-290, 440-523 *)
Definition gframe_call (parts : res gparts) (x : fvalue A) : res (fvalue A) :=
  match x with
  | FArr x => match x with
              | [_; _; _] => do ps <- parts; do y <- gapply_q ps x; ret (FArr y)
              | _ => Raise ENotFound
              end
  | FArrs x p => match x, p with
                 | [_; _; _], [_; _; _] => do ps <- parts; do y <- gapply_qp ps x p; ret (FArrs (fst y) (snd y))
                 | _, _ => Raise ENotFound
                 end
  | FPosVel q v =>
      match dim_of (cls_of q) with
      | 3%nat =>
          do c <- vrep v WCart3 q;
          do x <- cart_components m deg fuel q;
          do ps <- parts;
          do y <- gapply_qp ps x (vcomps c);
          do q' <- gcart_from (fst y);
          ret (FPosVel q' (mkVel WCart3 (snd y)))
      | _ => Raise ENotFound
      end
  | FPos _ => Raise ENotFound
  end.
(** operators/pipe.py:89-133, compat.py:122-152 *)
Fixpoint gfcall (o : fop A) (x : fvalue A) {struct o} : res (fvalue A) :=
  let fix go (ops : list (fop A)) (x : fvalue A) : res (fvalue A) :=
    match ops with
    | [] => ret x
    | o :: ops => do y <- gfcall o x; go ops y
    end in
  match o with
  | FIdentity => ret x
  | FToGCF g => gframe_call (gto_gcf_parts g) x
  | FToICRS g => gframe_call (gto_icrs_parts g) x
  | FPipe ops =>
      match x with
      | FArr a =>
          do q <- gcart_from a; do r <- go ops (FPos q);
          match r with FPos q' => do y <- cart_components m deg fuel q'; ret (FArr y) | _ => Raise EType end
      | _ => go ops x
      end
  end.
(** identity.py:104-119, frame_transforms.py:187-202, 418-433; composite.py:44-63 *)
Fixpoint gfinverse (o : fop A) : fop A :=
  let fix go (ops : list (fop A)) : list (fop A) :=
    match ops with [] => [] | o :: ops => go ops ++ [gfinverse o] end in
  match o with
  | FIdentity => FIdentity
  | FToGCF g => FToICRS g
  | FToICRS g => FToGCF g
  | FPipe ops => FPipe (go ops)
  end.
End GFrame.

(** ** On SI values these are the functions of Frames.v *)
Section Eq.
Variables (m : mode) (deg : bool) (fuel : nat).
(** frame_transforms.py:255, 487 *)
Definition sjac (ps : gparts (A := ext)) (x : list ext) : res (list (list ext)) := mapM (Frames.frame_column m deg fuel ps x) (seq 0 3).
Notation r0 := (ncst roll0 : ext).
Notation gcall_ := (gfcall m deg fuel easin r0 sjac matvec (vel_represent_as m deg fuel nokw)).
Lemma gmatmul_eq' P Q : gmatmul P Q = matmul P Q.
Proof. unfold gmatmul, matmul. apply map_ext. intros. rewrite gtranspose_eq. apply map_ext. intros. apply gdot_eq. Qed.
Lemma to_gcf_eq g : gto_gcf_parts easin r0 g = Frames.to_gcf_parts g.
Proof.
  unfold gto_gcf_parts, Frames.to_gcf_parts. destruct (dk (g_dist g)); auto. cbv zeta. rewrite !gmatmul_eq', gmatmul_eq. reflexivity.
Qed.
Lemma to_icrs_eq g : gto_icrs_parts m deg fuel easin r0 g = Frames.to_icrs_parts m deg fuel g.
Proof.
  unfold gto_icrs_parts, Frames.to_icrs_parts. rewrite to_gcf_eq. destruct (Frames.to_gcf_parts g) as [w [[M o] v]|]; auto. cbn [bind].
  rewrite gtranspose_eq. destruct (pos_neg m deg fuel o); auto. cbn [bind]. rewrite grotate_eq. now rewrite gmatmul_eq.
Qed.
Lemma apply_q_eq ps a b c : length (fst (fst ps)) = 3%nat -> gapply_q m deg fuel ps [a; b; c] = Frames.apply_q m deg fuel ps [a; b; c].
Proof.
  destruct ps as [[M o] v]. cbn [fst]. intros L. unfold gapply_q, Frames.apply_q. rewrite gmatmul_eq.
  destruct M as [|r1 [|r2 [|r3 [|]]]]; try discriminate. unfold matmul_vec. cbn [map].
  unfold call at 1. cbn [call_single]. unfold ret at 1. unfold matmul_vec; cbn [map bind]. cbn [call call_single]. unfold on_array. cbn [length cart_from gcart_from call_vec].
  unfold ret. cbn [bind]. destruct (pos_add m deg fuel _ o) as [w q'|e]; [|reflexivity]. cbn [bind].
  destruct (cart_components m deg fuel q'); cbn [bind]; [|reflexivity]. now rewrite !orb_false_r.
Qed.
Lemma rows_gcf g w ps : Frames.to_gcf_parts g = Ok w ps -> length (fst (fst ps)) = 3%nat.
Proof.
  unfold Frames.to_gcf_parts. destruct (dk (g_dist g)); try discriminate. cbv zeta. unfold matmul_vec, Frames.euler_y. cbn [map cart_from]. unfold ret. cbn [bind].
  intros E. injection E as _ <-. reflexivity.
Qed.
Lemma rows_icrs g w ps : Frames.to_icrs_parts m deg fuel g = Ok w ps -> length (fst (fst ps)) = 3%nat.
Proof.
  unfold Frames.to_icrs_parts. destruct (Frames.to_gcf_parts g) as [w1 [[M o] v]|]; [|discriminate]. cbn [bind].
  destruct (pos_neg m deg fuel o) as [w2 n|]; [|discriminate]. cbn [bind]. destruct (rotate m deg fuel (transpose M) n); [|discriminate]. unfold ret; cbn [bind].
  intros E. injection E as _ <-. reflexivity.
Qed.
Lemma comps3 (q : pos ext) w x : dim_of (cls_of q) = 3%nat -> cart_components m deg fuel q = Ok w x -> exists a b c, x = [a; b; c].
Proof.
  intros D. unfold cart_components, rep. assert (C : cart_cls (cls_of q) = CCart3) by (destruct q; try discriminate D; reflexivity). rewrite C.
  destruct (represent_as m deg fuel nokw q CCart3) as [w1 p|] eqn:E; cbn [bind]; [|intros X; discriminate X]. apply rep_class in E. destruct E as [E _].
  destruct p; try discriminate E. unfold ret. cbn [bind]. intros X. injection X as _ <-. eauto.
Qed.
Lemma frame_call_eq parts x : (forall w ps, parts = Ok w ps -> length (fst (fst ps)) = 3%nat) ->
  gframe_call m deg fuel sjac matvec (vel_represent_as m deg fuel nokw) parts x = Frames.frame_call m deg fuel parts x.
Proof.
  intros L. destruct x as [q|q v|x|x p]; cbn [gframe_call Frames.frame_call]; auto.
  - destruct (dim_of (cls_of q)) as [|[|[|[|]]]] eqn:D; auto. apply bind_ext. intros w1 c _. apply bind_ext. intros w2 x Ex. apply comps3 in Ex; auto.
    destruct Ex as (a & b & d & ->). apply bind_ext. intros w3 ps Ep. apply L in Ep. f_equal.
    unfold gapply_qp, Frames.apply_qp. rewrite apply_q_eq by auto. reflexivity.
  - destruct x as [|a [|b [|c [|]]]]; auto. apply bind_ext. intros w ps E. rewrite apply_q_eq; eauto.
  - destruct x as [|a [|b [|c [|]]]]; auto. destruct p as [|a' [|b' [|c' [|]]]]; auto. apply bind_ext. intros w ps E.
    unfold gapply_qp, Frames.apply_qp. rewrite apply_q_eq; eauto.
Qed.
Lemma fop_ind' {A} (P : fop A -> Prop) : P FIdentity -> (forall g, P (FToGCF g)) -> (forall g, P (FToICRS g)) ->
  (forall ops, Forall P ops -> P (FPipe ops)) -> forall o, P o.
Proof.
  intros H1 H2 H3 H4. fix IH 1. intros [|g|g|ops]; [exact H1|apply H2|apply H3|]. apply H4.
  induction ops as [|o ops IHo]; constructor; [apply IH|exact IHo].
Qed.
Lemma gfcall_eq o : forall x, gcall_ o x = Frames.fcall m deg fuel o x.
Proof.
  induction o as [|g|g|ops IH] using fop_ind'; intros x.
  - reflexivity.
  - cbn [gfcall Frames.fcall]. rewrite to_gcf_eq. apply frame_call_eq. intros; eapply rows_gcf; eauto.
  - cbn [gfcall Frames.fcall]. rewrite to_icrs_eq. apply frame_call_eq. intros; eapply rows_icrs; eauto.
  - cbn [gfcall Frames.fcall].
    match goal with |- match x with _ => _ end = match x with _ => _ end => idtac end.
    assert (G : forall y, (fix go ops x := match ops with [] => ret x | o :: ops => do y <- gcall_ o x; go ops y end) ops y
       = (fix go ops x := match ops with [] => ret x | o :: ops => do y <- Frames.fcall m deg fuel o x; go ops y end) ops y).
    { induction IH as [|o ops Ho _ IH]; intros y; cbn; auto. rewrite Ho. apply bind_ext. auto. }
    destruct x; try apply G. apply bind_ext. intros w q _. rewrite G. reflexivity.
Qed.
Lemma gfinverse_eq o : gfinverse o = Frames.finverse o.
Proof. reflexivity. Qed.
End Eq.
