(** * The Jacobian times a vector, from the derivative of the conversion. *)
From Coq Require Import Reals Bool List ZArith Lra Lia.
From Verif Require Import Num Vectors Spec Transform Pos3D Pos3DThm RoundTrip PosGlue Vel SpecVel VelAt DualPos DualThm VelHom.
Import ListNotations.
Open Scope R_scope.

Definition linear (n d : nat) (L : list R -> list R) : Prop :=
  L (repeat 0 n) = repeat 0 d /\
  forall k a b, length a = n -> length b = n -> L (vadd (vscale k a) b) = vadd (vscale k (L a)) (L b).

Lemma kw_dv kw : kw_map dv (kw_map dconst kw) = kw.
Proof.
  destruct kw as [a b c d e]. unfold kw_map; cbn.
  destruct a, b, c; cbn; destruct d as [[]|]; cbn; destruct e as [[]|]; reflexivity.
Qed.
Lemma dv_dpos p u : pos_map dv (dpos p u) = finite p.
Proof. destruct p; reflexivity. Qed.
Lemma dd_dpos q u : length u = dim_of (cls_of q) -> map dd (components (dpos q u)) = map (@Some R) u.
Proof.
  intros L. destruct q; cbn in L; repeat (destruct u as [|? u]; cbn in L; try discriminate); reflexivity.
Qed.
Lemma components_finite p : length (components (finite p)) = dim_of (cls_of p).
Proof. destruct p; reflexivity. Qed.

Lemma dual_value deg f kw p u t q u' q0 :
  represent_as Traced deg f (kw_map dconst kw) (dpos p u) t = Ok false (dpos q u') ->
  represent_as Traced deg f kw (finite p) t = Ok false (finite q0) -> q = q0.
Proof.
  intros H H0. pose proof (rep_dv Traced deg f (kw_map dconst kw) (dpos p u) t) as E.
  rewrite H, kw_dv, dv_dpos, H0 in E. cbn [res_map] in E. rewrite dv_dpos in E. apply finite_inj. congruence.
Qed.

Section Push.
Variables (deg : bool) (f : nat) (kw : kwargs ext) (p q0 : pos R) (t : pcls) (d : nat)
  (LP : list R -> list R) (LQ : pos R -> list R -> list R).
Let n := dim_of (cls_of p).
Hypothesis Hrep : represent_as Traced deg f kw (finite p) t = Ok false (finite q0).
Hypothesis Hq : cls_of q0 = t.
Hypothesis Hdim : dim_of t = n.
Hypothesis Hd : forall u, length u = n -> exists q u',
  represent_as Traced deg f (kw_map dconst kw) (dpos p u) t = Ok false (dpos q u') /\
  length u' = n /\ LQ q u' = LP u.
Hypothesis LinP : linear n d LP.
Hypothesis LinQ : linear n d (LQ q0).

Definition runit (i : nat) : list R := map (fun j => if Nat.eqb i j then 1 else 0) (seq 0 n).
Lemma jac_col i : exists c, jac_column deg f kw (finite p) t i = Ok false (map (@Some R) c) /\ length c = n /\
  LQ q0 c = LP (runit i).
Proof.
  destruct (Hd (runit i)) as (q & c & H1 & H2 & H3).
  { unfold runit. now rewrite map_length, seq_length. }
  pose proof (dual_value _ _ _ _ _ _ _ _ _ H1 Hrep) as E. subst q.
  exists c. split; [|auto]. unfold jac_column. rewrite components_finite. fold n.
  replace (seed (finite p) (basis n i)) with (dpos p (runit i)).
  - rewrite H1. cbn [bind]. cbn. unfold ret. cbn. f_equal. apply dd_dpos. now rewrite Hq, Hdim.
  - unfold dpos. f_equal. unfold runit, basis. rewrite map_map. reflexivity.
Qed.

Lemma jac_push v : length v = n -> exists cols v',
  jacobian deg f kw (finite p) t = Ok false cols /\
  matvec n cols (map (@Some R) v) = map (@Some R) v' /\ length v' = n /\ LQ q0 v' = LP v.
Proof.
  intros L. unfold jacobian. rewrite components_finite. fold n.
  destruct LinP as [P0 P1], LinQ as [Q0 Q1].
  assert (N : n = 1%nat \/ n = 2%nat \/ n = 3%nat) by (unfold n; destruct (cls_of p); cbn; auto).
  destruct (jac_col 0) as (c0 & J0 & L0 & E0).
  destruct (jac_col 1) as (c1 & J1 & L1 & E1).
  destruct (jac_col 2) as (c2 & J2 & L2 & E2).
  unfold runit in *.
  destruct N as [N|[N|N]]; rewrite N in *; cbn [seq map Nat.eqb] in E0, E1, E2;
    cbn [seq mapM]; rewrite ?J0, ?J1, ?J2; cbn [bind ret orb mapM].
  - destruct c0 as [|a0 [|]]; try discriminate L0. destruct v as [|x [|]]; try discriminate L.
    exists [map (@Some R) [a0]]. exists [a0*x+0]. split; [reflexivity|]. split; [reflexivity|]. split; [reflexivity|].
    transitivity (LQ q0 (vadd (vscale x [a0]) (repeat 0 1))).
    { f_equal. cbn. f_equal; ring. }
    rewrite Q1, E0, Q0, <- P0, <- P1 by reflexivity. f_equal. cbn. f_equal; ring.
  - destruct c0 as [|a0 [|b0 [|]]]; try discriminate L0. destruct c1 as [|a1 [|b1 [|]]]; try discriminate L1.
    destruct v as [|x [|y [|]]]; try discriminate L.
    exists [map (@Some R) [a0;b0]; map (@Some R) [a1;b1]]. exists [a0*x+(a1*y+0); b0*x+(b1*y+0)].
    split; [reflexivity|]. split; [reflexivity|]. split; [reflexivity|].
    transitivity (LQ q0 (vadd (vscale x [a0;b0]) (vadd (vscale y [a1;b1]) (repeat 0 2)))).
    { f_equal. cbn. f_equal; [ring|f_equal; ring]. }
    rewrite !Q1, E0, E1, Q0, <- P0, <- !P1 by reflexivity. f_equal. cbn. f_equal; [ring|f_equal; ring].
  - destruct c0 as [|a0 [|b0 [|g0 [|]]]]; try discriminate L0. destruct c1 as [|a1 [|b1 [|g1 [|]]]]; try discriminate L1.
    destruct c2 as [|a2 [|b2 [|g2 [|]]]]; try discriminate L2.
    destruct v as [|x [|y [|z [|]]]]; try discriminate L.
    exists [map (@Some R) [a0;b0;g0]; map (@Some R) [a1;b1;g1]; map (@Some R) [a2;b2;g2]].
    exists [a0*x+(a1*y+(a2*z+0)); b0*x+(b1*y+(b2*z+0)); g0*x+(g1*y+(g2*z+0))].
    split; [reflexivity|]. split; [reflexivity|]. split; [reflexivity|].
    transitivity (LQ q0 (vadd (vscale x [a0;b0;g0]) (vadd (vscale y [a1;b1;g1]) (vadd (vscale z [a2;b2;g2]) (repeat 0 3))))).
    { f_equal. cbn. f_equal; [ring|f_equal; [ring|f_equal; ring]]. }
    rewrite !Q1, E0, E1, E2, Q0, <- P0, <- !P1 by reflexivity. f_equal. cbn. f_equal; [ring|f_equal; [ring|f_equal; ring]].
Qed.
End Push.

Ltac listring := repeat (apply (f_equal2 (@cons R)); [ring|]); try reflexivity.
Lemma vel_at_linear p : cls_of p <> CProlate -> linear (dim_of (cls_of p)) (pt_dim p) (vel_at p).
Proof.
  intros N. split.
  - destruct p; cbn in *; try congruence; listring.
  - intros k a b La Lb. destruct p; cbn in *; try congruence;
    repeat (destruct a as [|? a]; cbn in La; try discriminate);
    repeat (destruct b as [|? b]; cbn in Lb; try discriminate); cbn; listring.
Qed.
