(** Linearity of the conversions of velocities and accelerations. *)
From Coq Require Import Reals Bool List Arith Lra Lia.
From Verif Require Import Num Vectors Transform Vel Spec SpecVel VelArith.
Import ListNotations.
Open Scope R_scope.

(** [k a + l b], component by component; undefined entries stay undefined. *)
Definition lin1 (k l : R) (x y : ext) : ext :=
  match x, y with Some x, Some y => Some (k * x + l * y) | _, _ => None end.
Definition lin (k l : R) (a b : list ext) : list ext := map (fun '(x, y) => lin1 k l x y) (combine a b).

Lemma lin_nil k l a : lin k l a [] = [].
Proof. destruct a; reflexivity. Qed.
Lemma vplus_nil a : vplus a [] = [].
Proof. destruct a; reflexivity. Qed.
Lemma lin_vplus k l a b c d : lin k l (vplus a b) (vplus c d) = vplus (lin k l a c) (lin k l b d).
Proof.
  revert b c d. induction a as [|x a IH]; intros b c d; [reflexivity|].
  destruct b as [|y b]; [change (lin k l [] d) with (@nil ext); rewrite !vplus_nil; reflexivity|].
  destruct c as [|z c]; [change (vplus [] d) with (@nil ext); rewrite !lin_nil; reflexivity|].
  destruct d as [|u d]; [rewrite vplus_nil, !lin_nil, vplus_nil; reflexivity|].
  change (lin1 k l (nadd x y) (nadd z u) :: lin k l (vplus a b) (vplus c d) =
          nadd (lin1 k l x z) (lin1 k l y u) :: vplus (lin k l a c) (lin k l b d)).
  rewrite IH. f_equal. destruct x, y, z, u; cbn; try reflexivity. f_equal. ring.
Qed.
Lemma lin_scale k l j x y : lin k l (map (fun a => nmul a x) j) (map (fun a => nmul a y) j) =
  map (fun a => nmul a (lin1 k l x y)) j.
Proof.
  induction j as [|a j IH]; [reflexivity|].
  change (lin1 k l (nmul a x) (nmul a y) :: lin k l (map (fun a => nmul a x) j) (map (fun a => nmul a y) j) =
          nmul a (lin1 k l x y) :: map (fun a => nmul a (lin1 k l x y)) j).
  rewrite IH. f_equal. destruct a, x, y; cbn; try reflexivity. f_equal. ring.
Qed.
Lemma lin_zero k l n : lin k l (repeat (Some 0 : ext) n) (repeat (Some 0 : ext) n) = repeat (Some 0 : ext) n.
Proof.
  induction n; [reflexivity|].
  change (lin1 k l (Some 0) (Some 0) :: lin k l (repeat (Some 0 : ext) n) (repeat (Some 0 : ext) n) = (Some 0 : ext) :: repeat (Some 0 : ext) n).
  rewrite IHn. f_equal. cbn. f_equal. ring.
Qed.
Lemma lin_length k l a b : length a = length b -> length (lin k l a b) = length a.
Proof. intros E. unfold lin. rewrite map_length, combine_length. lia. Qed.

Lemma matvec_lin k l n cols : forall v w, length v = length w ->
  matvec n cols (lin k l v w) = lin k l (matvec n cols v) (matvec n cols w).
Proof.
  induction cols as [|c cols IH]; intros v w L.
  - symmetry. exact (lin_zero k l n).
  - destruct v as [|x v], w as [|y w]; try discriminate L.
    + symmetry. exact (lin_zero k l n).
    + injection L as L. change (lin k l (x :: v) (y :: w)) with (lin1 k l x y :: lin k l v w).
      cbn [matvec]. rewrite (IH v w L), <- lin_scale, lin_vplus. reflexivity.
Qed.

(** Pairs of results: same error, or the same warning flag and [k], [l]-combination. *)
Definition vlin (k l : R) (v w : vel ext) : vel ext := mkVel (vc v) (lin k l (vcomps v) (vcomps w)).
Definition alike (v w : vel ext) : Prop := vc v = vc w /\ length (vcomps v) = length (vcomps w).
Definition together (k l : R) (r1 r2 r : res (vel ext)) : Prop :=
  (exists b x y, r1 = Ok b x /\ r2 = Ok b y /\ r = Ok b (vlin k l x y) /\ alike x y) \/
  (exists e, r1 = Raise e /\ r2 = Raise e /\ r = Raise e).

Lemma together_bind {T} k l (m : res T) f g h :
  (forall x, together k l (f x) (g x) (h x)) -> together k l (bind m f) (bind m g) (bind m h).
Proof.
  intros H. destruct m as [w x|e]; cbn.
  - destruct (H x) as [(b & p & q & -> & -> & -> & A)|(e & -> & -> & ->)].
    + left. exists (w || b)%bool, p, q. auto.
    + right. exists e. auto.
  - right. exists e. auto.
Qed.
Lemma together_then k l r1 r2 r f :
  together k l r1 r2 r ->
  (forall x y, alike x y -> together k l (f x) (f y) (f (vlin k l x y))) ->
  together k l (bind r1 f) (bind r2 f) (bind r f).
Proof.
  intros [(b & x & y & -> & -> & -> & A)|(e & -> & -> & ->)] H; cbn.
  - destruct (H x y A) as [(b' & p & q & -> & -> & -> & A')|(e & -> & -> & ->)].
    + left. exists (b || b')%bool, p, q. auto.
    + right. exists e. auto.
  - right. exists e. auto.
Qed.

Lemma matvec_length n cols : forall v w, length v = length w -> length (matvec n cols v) = length (matvec n cols w).
Proof.
  induction cols as [|c cols IH]; intros v w L; [reflexivity|].
  destruct v, w; try discriminate L; [reflexivity|]. injection L as L.
  cbn [matvec]. unfold vplus. rewrite !map_length, !combine_length, !map_length, (IH v w L). reflexivity.
Qed.

Section L.
Variables (m : mode) (deg : bool) (fuel : nat) (k l : R).

Lemma generic_lin kw v w t P : alike v w ->
  together k l (vel_generic m deg fuel kw v t P) (vel_generic m deg fuel kw w t P)
    (vel_generic m deg fuel kw (vlin k l v w) t P).
Proof.
  intros [C L]. unfold vel_generic. change (vc (vlin k l v w)) with (vc v). rewrite <- C.
  apply together_bind; intros cp. apply together_bind; intros cp'. apply together_bind; intros _.
  apply together_bind; intros j. left. eexists false, _, _. split; [reflexivity|]. split; [reflexivity|].
  unfold ret, vlin, alike; cbn [vc vcomps]. split; [rewrite (matvec_lin k l _ _ _ _ L); reflexivity|].
  split; [reflexivity|]. apply matvec_length, L.
Qed.
Lemma len3 (v w : vel ext) : alike v w ->
  match vcomps v, vcomps w with
  | [_; _; _], [_; _; _] => True
  | [_; _; _], _ | _, [_; _; _] => False | _, _ => True end.
Proof. intros [_ L]. destruct (vcomps v) as [|? [|? [|? [|? ?]]]], (vcomps w) as [|? [|? [|? [|? ?]]]]; try exact I; cbn in L; lia. Qed.

Lemma to_lonlat_lin v w P : alike v w ->
  together k l (lcl_to_lonlat m deg fuel v P) (lcl_to_lonlat m deg fuel w P) (lcl_to_lonlat m deg fuel (vlin k l v w) P).
Proof.
  intros [C L]. unfold lcl_to_lonlat, vlin; cbn [vcomps].
  destruct (vcomps v) as [|a [|b [|c [|d ?]]]], (vcomps w) as [|a' [|b' [|c' [|d' ?]]]]; try (cbn in L; lia);
    try (right; eexists; split; [reflexivity|]; split; reflexivity).
  cbn [lin combine map]. apply together_bind; intros lat. left. eexists false, _, _. split; [reflexivity|]. split; [reflexivity|].
  split; [|split; reflexivity]. unfold ret, vlin; cbn [vc vcomps lin combine map]. do 3 f_equal.
  assert (H : forall x y d : ext, ediv (lin1 k l x y) d = lin1 k l (ediv x d) (ediv y d)).
  { intros [x|] [y|] [d0|]; try reflexivity; unfold ediv, lin1; unfold Reqb; destruct (Req_EM_T d0 0); try reflexivity.
    f_equal. field. assumption. }
  apply H.
Qed.
Lemma to_lcl_lin v w P : alike v w ->
  together k l (lonlat_to_lcl m deg fuel v P) (lonlat_to_lcl m deg fuel w P) (lonlat_to_lcl m deg fuel (vlin k l v w) P).
Proof.
  intros [C L]. unfold lonlat_to_lcl, vlin; cbn [vcomps].
  destruct (vcomps v) as [|a [|b [|c [|d ?]]]], (vcomps w) as [|a' [|b' [|c' [|d' ?]]]]; try (cbn in L; lia);
    try (right; eexists; split; [reflexivity|]; split; reflexivity).
  cbn [lin combine map]. apply together_bind; intros lat. left. eexists false, _, _. split; [reflexivity|]. split; [reflexivity|].
  split; [|split; reflexivity]. unfold ret, vlin; cbn [vc vcomps lin combine map]. do 3 f_equal.
  destruct a, a', lat; cbn; try reflexivity. f_equal. ring.
Qed.

Theorem represent_lin kw v w t P : alike v w ->
  together k l (vel_represent_as m deg fuel kw v t P) (vel_represent_as m deg fuel kw w t P)
    (vel_represent_as m deg fuel kw (vlin k l v w) t P).
Proof.
  intros A. pose proof A as [C L]. unfold vel_represent_as.
  change (vc (vlin k l v w)) with (vc v). rewrite <- C.
  destruct (vcls_eqb (vc v) t && negb (vcls_eqb t WTwoSphere))%bool.
  { left. exists false, v, w. auto. }
  destruct (negb (Nat.eqb (vdim (vc v)) (vdim t))).
  { right. eexists; split; [reflexivity|]; split; reflexivity. }
  destruct (vc v), t; first [apply generic_lin, A | apply to_lonlat_lin, A | apply to_lcl_lin, A
    | apply together_then; [apply to_lonlat_lin, A|]; intros x y B; apply generic_lin, B
    | apply together_then; [apply generic_lin, A|]; intros x y B; apply to_lcl_lin, B].
Qed.
Theorem represent_q_lin kw v w t x : alike v w ->
  together k l (vel_represent_as_q m deg fuel kw v t x) (vel_represent_as_q m deg fuel kw w t x)
    (vel_represent_as_q m deg fuel kw (vlin k l v w) t x).
Proof.
  intros A. pose proof A as [C L]. unfold vel_represent_as_q.
  change (vc (vlin k l v w)) with (vc v). rewrite <- C.
  destruct (negb (Nat.eqb (vdim (vc v)) (vdim t))).
  { right. eexists; split; [reflexivity|]; split; reflexivity. }
  destruct (vc v), t;
    first [ right; eexists; split; [reflexivity|]; split; reflexivity | apply together_bind; intros p];
    first [apply generic_lin, A | apply to_lonlat_lin, A | apply to_lcl_lin, A
    | apply together_then; [apply to_lonlat_lin, A|]; intros y z B; apply represent_lin, B
    | apply together_then; [apply represent_lin, A|]; intros y z B; apply to_lcl_lin, B].
Qed.
End L.

(** Accelerations: the velocity enters only through the check that it can be converted. *)
Definition xalike (a b : acc ext) : Prop := xc a = xc b /\ length (xcomps a) = length (xcomps b).
Definition xlin (k l : R) (a b : acc ext) : acc ext := mkAcc (xc a) (lin k l (xcomps a) (xcomps b)).
Definition xtogether (k l : R) (r1 r2 r : res (acc ext)) : Prop :=
  (exists w x y, r1 = Ok w x /\ r2 = Ok w y /\ r = Ok w (xlin k l x y) /\ xalike x y) \/
  (exists e, r1 = Raise e /\ r2 = Raise e /\ r = Raise e).
Lemma xtogether_bind {T} k l (m : res T) f g h :
  (forall x, xtogether k l (f x) (g x) (h x)) -> xtogether k l (bind m f) (bind m g) (bind m h).
Proof.
  intros H. destruct m as [w x|e]; cbn.
  - destruct (H x) as [(b & p & q & -> & -> & -> & A)|(e & -> & -> & ->)].
    + left. exists (w || b)%bool, p, q. auto.
    + right. exists e. auto.
  - right. exists e. auto.
Qed.
Theorem acc_represent_lin m deg fuel k l kw a b t velocity P : xalike a b ->
  xtogether k l (acc_represent_as m deg fuel kw a t velocity P) (acc_represent_as m deg fuel kw b t velocity P)
    (acc_represent_as m deg fuel kw (xlin k l a b) t velocity P).
Proof.
  intros [C L]. unfold acc_represent_as. cbv zeta. change (xc (xlin k l a b)) with (xc a). rewrite <- C.
  destruct (negb (Nat.eqb (vdim (acc_integral_cls (xc a))) (vdim (acc_integral_cls t)))).
  { right. eexists; split; [reflexivity|]; split; reflexivity. }
  destruct (xcls_eqb (xc a) t && Nat.eqb (vdim (acc_integral_cls (xc a))) 1)%bool.
  { left. exists false, a, b. unfold xalike. auto. }
  do 4 (apply xtogether_bind; intros ?). apply xtogether_bind; intros j.
  destruct (acc_integral_cls t);
    first [ right; eexists; split; [reflexivity|]; split; reflexivity
          | left; eexists false, _, _; split; [reflexivity|]; split; [reflexivity|];
            unfold ret, xlin, xalike; cbn [xc xcomps]; split;
              [rewrite (matvec_lin k l _ _ _ _ L); reflexivity|split; [reflexivity|apply matvec_length, L]]].
Qed.

(** Finite values. *)
Lemma lin_finite k l : forall a b : list R, length a = length b ->
  lin k l (@map R ext (@Some R) a) (@map R ext (@Some R) b) = @map R ext (@Some R) (vadd (vscale k a) (vscale l b)).
Proof.
  induction a as [|x a IH]; intros [|y b] L; try discriminate L; [reflexivity|]. injection L as L.
  change (lin1 k l (Some x) (Some y) :: lin k l (@map R ext (@Some R) a) (@map R ext (@Some R) b) =
          (Some (k * x + l * y) : ext) :: @map R ext (@Some R) (vadd (vscale k a) (vscale l b))).
  rewrite (IH b L). reflexivity.
Qed.
