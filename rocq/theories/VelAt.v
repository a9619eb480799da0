(** * Explicit Cartesian velocities of the moving coordinates. *)
From Coq Require Import Reals Bool List ZArith Lra Lia.
From Coquelicot Require Import Coquelicot.
From Verif Require Import Num Vectors Spec Vel SpecVel RoundTrip.
Import ListNotations.
Open Scope R_scope.

Lemma can_map_ok c : c <> CProlate -> can_map c = Ok false tt.
Proof. destruct c; try reflexivity; congruence. Qed.

Definition cart_at (p : pos R) : list R :=
  match p with
  | PCart1 x => [x]
  | PRadial r => [len r]
  | PCart2 x y => [x; y]
  | PPolar r phi => [len r * cos phi; len r * sin phi]
  | PTwoSphere theta phi => [sin theta * cos phi; sin theta * sin phi; cos theta]
  | PCart3 x y z => [x; y; z]
  | PCyl rho phi z => [rho * cos phi; rho * sin phi; z]
  | PSph r theta phi =>
      [len r * sin theta * cos phi; len r * sin theta * sin phi; len r * cos theta]
  | PMSph r theta phi =>
      [len r * sin phi * cos theta; len r * sin phi * sin theta; len r * cos phi]
  | PLonLat lon lat d =>
      [len d * cos lat * cos lon; len d * cos lat * sin lon; len d * sin lat]
  | PProlate _ _ _ _ => []
  end.
Definition vel_at (p : pos R) (u : list R) : list R :=
  match p, u with
  | PCart1 x, [a] => [a]
  | PRadial r, [a] => [a]
  | PCart2 x y, [a; b] => [a; b]
  | PPolar r phi, [a; b] => [a * cos phi - len r * sin phi * b; a * sin phi + len r * cos phi * b]
  | PTwoSphere th ph, [a; b] =>
      [cos th * cos ph * a - sin th * sin ph * b; cos th * sin ph * a + sin th * cos ph * b; - sin th * a]
  | PCart3 x y z, [a; b; c] => [a; b; c]
  | PCyl rho phi z, [a; b; c] => [a * cos phi - rho * sin phi * b; a * sin phi + rho * cos phi * b; c]
  | PSph r th ph, [a; b; c] =>
      [a * sin th * cos ph + len r * cos th * cos ph * b - len r * sin th * sin ph * c;
       a * sin th * sin ph + len r * cos th * sin ph * b + len r * sin th * cos ph * c;
       a * cos th - len r * sin th * b]
  | PMSph r th ph, [a; b; c] =>
      [a * sin ph * cos th + len r * cos ph * cos th * c - len r * sin ph * sin th * b;
       a * sin ph * sin th + len r * cos ph * sin th * c + len r * sin ph * cos th * b;
       a * cos ph - len r * sin ph * c]
  | PLonLat lon lat d, [a; b; c] =>
      [c * cos lat * cos lon - len d * sin lat * cos lon * b - len d * cos lat * sin lon * a;
       c * cos lat * sin lon - len d * sin lat * sin lon * b + len d * cos lat * cos lon * a;
       c * sin lat + len d * cos lat * b]
  | _, _ => []
  end.
Definition curve (p : pos R) (u : list R) (i : nat) (t : R) : R := nth i (cart_at (shift p u t)) 0.

Lemma denotes_cart_at p pt : cls_of p <> CProlate -> (denotes p pt <-> pt = cart_at p).
Proof. destruct p; cbn; try tauto; intros H; congruence. Qed.
Lemma cls_shift p u t : cls_of (shift p u t) = cls_of p. Proof. destruct p; reflexivity. Qed.

(** [dim_of] counts coordinates; TwoSpherePos denotes a point of space. *)
Definition pt_dim (p : pos R) : nat := match p with PTwoSphere _ _ => 3%nat | _ => dim_of (cls_of p) end.

Lemma vel_at_length p u : cls_of p <> CProlate -> length u = dim_of (cls_of p) -> length (vel_at p u) = pt_dim p.
Proof.
  intros H L. destruct p; cbn in *; try congruence;
  repeat (destruct u as [|? u]; cbn in *; try discriminate); reflexivity.
Qed.
Lemma cart_at_length p : cls_of p <> CProlate -> length (cart_at p) = pt_dim p.
Proof. intros H. destruct p; cbn in *; try congruence; reflexivity. Qed.

Lemma curve_derive p u : cls_of p <> CProlate -> length u = dim_of (cls_of p) ->
  forall i, (i < pt_dim p)%nat -> is_derive (curve p u i) 0 (nth i (vel_at p u) 0).
Proof.
  intros H L i Hi. unfold curve.
  destruct p; cbn in H, L; try congruence;
  repeat (destruct u as [|? u]; cbn in L; try discriminate); clear L;
  do 3 (try (destruct i as [|i]; [cbn; unfold len; cbn [dk dval]; auto_derive; auto; 
   rewrite ?Rmult_0_l, ?Rplus_0_r; ring|])); cbn in Hi; lia.
Qed.

Lemma list_nth_eq (a b : list R) : length a = length b ->
  (forall i, (i < length a)%nat -> nth i a 0 = nth i b 0) -> a = b.
Proof.
  revert b. induction a as [|x a IH]; intros [|y b] L H; cbn in *; try discriminate; auto.
  f_equal. apply (H 0%nat). lia. apply IH. lia. intros i Hi. apply (H (S i)). lia.
Qed.
Lemma map_seq_nth (f : nat -> R) n i : (i < n)%nat -> nth i (map f (seq 0 n)) 0 = f i.
Proof.
  intros H. rewrite (nth_indep _ 0 (f 0%nat)) by (rewrite map_length, seq_length; auto).
  rewrite map_nth, seq_nth by auto. reflexivity.
Qed.

Theorem moves_iff p u w : cls_of p <> CProlate -> length u = dim_of (cls_of p) ->
  (moves p u w <-> w = vel_at p u).
Proof.
  intros H L. split.
  - intros (c & eps & He & Hc & Hd).
    assert (E0 : forall t, Rabs t < eps -> map (fun i => c i t) (seq 0 (length w)) = cart_at (shift p u t)).
    { intros t Ht. specialize (Hc t Ht). apply denotes_cart_at in Hc; auto. now rewrite cls_shift. }
    assert (Lw : length w = pt_dim p).
    { specialize (E0 0). rewrite Rabs_R0 in E0. specialize (E0 He).
      apply (f_equal (@length R)) in E0. rewrite map_length, seq_length in E0. rewrite E0.
      rewrite cart_at_length by (now rewrite cls_shift). destruct p; reflexivity. }
    apply list_nth_eq. { rewrite vel_at_length; auto. }
    intros i Hi. specialize (Hd i Hi). apply is_derive_Reals in Hd.
    assert (Hl : is_derive (curve p u i) 0 (nth i w 0)).
    { eapply is_derive_ext_loc; [|exact Hd].
      exists (mkposreal eps He). intros t Ht.
      rewrite <- (map_seq_nth (fun i => c i t) (length w) i Hi). unfold curve. f_equal. apply E0.
      unfold ball in Ht; cbn in Ht. unfold AbsRing_ball, abs, minus, plus, opp in Ht; cbn in Ht.
      now rewrite Ropp_0, Rplus_0_r in Ht. }
    rewrite Lw in Hi. pose proof (curve_derive p u H L i Hi) as Hl'.
    apply is_derive_unique in Hl. apply is_derive_unique in Hl'. congruence.
  - intros ->. exists (curve p u), 1. split; [lra|]. rewrite vel_at_length by auto. split.
    + intros t _. apply denotes_cart_at. now rewrite cls_shift.
      apply list_nth_eq. rewrite map_length, seq_length, cart_at_length, <- ?cls_shift.
      destruct p; reflexivity. now rewrite cls_shift.
      intros i Hi. rewrite map_length, seq_length in Hi. rewrite map_seq_nth by auto. reflexivity.
    + intros i Hi. apply is_derive_Reals. now apply curve_derive.
Qed.
