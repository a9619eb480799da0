(** * Forward-mode derivatives of the basic 3-D conversions. *)
From Coq Require Import Reals Bool List ZArith Lra Lia.
From Verif Require Import Num Vectors Spec Transform Pos3D Pos3DThm RoundTrip Vel SpecVel VelAt.
Import ListNotations.
Open Scope R_scope.

Definition dpos (p : pos R) (u : list R) : pos dual := seed (finite p) (map (@Some R) u).

Ltac dstep := rewrite rep_S; cbn [cls_of dpos seed finite pos_map]; resolve1; cbn [run].
Ltac dred :=
  cbn [dpos seed nth map finite pos_map dist_map dval dk nokw kw_Delta kw_y kw_z kw_theta kw_phi
       mk_Cart1 mk_Cart2 mk_Cart3 mk_Radial mk_Polar mk_TwoSphere mk_Cyl mk_Sph mk_MSph mk_LonLat
       mk_Prolate conv_r conv_az ang_val check_nonneg check_polar check_prolate ret bind warn
       ncst nlen nang nadd nsub nmul ndiv nneg nsqrt nsin ncos ntan nacos natan2 nabs nsign nwrap nexp10
       nltb nleb neqb Num_ext Num_dual dv dd lift1 lift2 lift2b nsq distance length_of_kind orb dflt fst snd].

Definition Dist (v : R) : dist R := mkDist KDistance v.

Section Base.
Variables (deg : bool) (f : nat) (kw : kwargs dual).
Notation rep := (represent_as Traced deg (S f) kw).

Lemma d_Cart3_Cyl x y z a b c : x*x+y*y <> 0 ->
  rep (dpos (PCart3 x y z) [a;b;c]) CCyl
  = Ok false (dpos (PCyl (sqrt (x*x+y*y)) (Rwrap (Ratan2 y x)) z)
      [ (a*x + x*a + (b*y + y*b)) * ((1/2) / sqrt (x*x+y*y));
        b * (x/(y*y+x*x)) - a * (y/(y*y+x*x)); c ]).
Proof.
  intros H. dstep. unfold mk_Cyl. dred.
  rewrite !esqrt_some by apply hyp2_nonneg.
  rewrite !ediv_some by (try apply sqrt_ne0; try apply hyp2_nonneg; lra). reflexivity.
Qed.

Lemma sph_dz (z r : R) : 0 < r -> z*z < r*r -> 0 <= 1 - z/r*(z/r) /\ sqrt (1 - z/r*(z/r)) <> 0.
Proof.
  intros Hr Hz. assert (0 < 1 - z/r*(z/r)).
  { replace (1 - z/r*(z/r)) with ((r*r-z*z)/(r*r)) by (field; lra). apply Rdiv_lt_0_compat; nra. }
  split; [lra|]. apply sqrt_ne0; lra.
Qed.

Definition dacos (z r dz dr : R) : R := - ((dz / r - dr * z / (r*r)) / sqrt (1 - z/r*(z/r))).
Lemma d_Cart3_Sph x y z a b c : x*x+y*y <> 0 ->
  let r := sqrt (x*x+y*y+z*z) in
  let dr := (a*x + x*a + (b*y + y*b) + (c*z + z*c)) * ((1/2) / r) in
  rep (dpos (PCart3 x y z) [a;b;c]) CSph
  = Ok false (dpos (PSph (Dist r) (acos (z / r)) (Rwrap (Ratan2 y x)))
      [ dr; dacos z r c dr; b * (x/(y*y+x*x)) - a * (y/(y*y+x*x)) ]).
Proof.
  intros H r dr.
  assert (N : x*x+y*y+z*z <> 0) by (pose proof (hyp2_nonneg x y); pose proof (sq_nonneg z); lra).
  assert (Hr : r <> 0) by (apply sqrt_ne0; auto using hyp3_nonneg).
  destruct (acos_ratio x y z Hr) as (B & Hp & _ & _ & Hb). fold r in B, Hp, Hb.
  assert (R2 : r * r = x*x+y*y+z*z) by (apply sqrt_sqrt, hyp3_nonneg).
  destruct (sph_dz z r Hp) as [P1 P2]. { rewrite R2. pose proof (hyp2_nonneg x y). lra. }
  dstep. cbv zeta. unfold mk_Sph. dred.
  rewrite !esqrt_some by apply hyp3_nonneg. fold r.
  rewrite !ediv_some by (auto; lra). dred. fold dr.
  rewrite !ediv_some by (auto; nra). dred.
  rewrite !esqrt_some by auto. dred. rewrite eacos_some by auto. rewrite !ediv_some by auto.
  reflexivity.
Qed.

Lemma d_Cyl_Cart3 rho phi z a b c :
  rep (dpos (PCyl rho phi z) [a;b;c]) CCart3
  = Ok false (dpos (PCart3 (rho * cos phi) (rho * sin phi) z)
      [ a * cos phi + rho * - (b * sin phi); a * sin phi + rho * (b * cos phi); c]).
Proof. dstep. reflexivity. Qed.

Lemma d_Cyl_Sph rho phi z a b c : 0 < rho ->
  let r := sqrt (rho*rho+z*z) in
  let dr := (a*rho + rho*a + (c*z + z*c)) * ((1/2) / r) in
  rep (dpos (PCyl rho phi z) [a;b;c]) CSph
  = Ok false (dpos (PSph (Dist r) (acos (z / r)) phi) [ dr; dacos z r c dr; b ]).
Proof.
  intros H r dr.
  assert (N : rho*rho+z*z <> 0) by (pose proof (sq_nonneg z); nra).
  assert (Hr : r <> 0) by (apply sqrt_ne0; auto using hyp2_nonneg).
  assert (R2 : r * r = rho*rho+z*z) by (apply sqrt_sqrt, hyp2_nonneg).
  destruct (acos_ratio2 rho z) as (B & Hp & _ & _ & Hb); [lra|exact Hr|]. fold r in B, Hp, Hb.
  destruct (sph_dz z r Hp) as [P1 P2]. { rewrite R2. nra. }
  dstep. cbv zeta. unfold mk_Sph. dred.
  rewrite !esqrt_some by apply hyp2_nonneg. fold r.
  rewrite !ediv_some by (auto; lra). dred. fold dr.
  rewrite !ediv_some by (auto; nra). dred.
  rewrite !esqrt_some by auto. dred. rewrite eacos_some by auto. rewrite !ediv_some by auto.
  reflexivity.
Qed.

Lemma d_Sph_Cart3 r th ph a b c :
  rep (dpos (PSph (Dist r) th ph) [a;b;c]) CCart3
  = Ok false (dpos (PCart3 (r * sin th * cos ph) (r * sin th * sin ph) (r * cos th))
      [ (a * sin th + r * (b * cos th)) * cos ph + r * sin th * - (c * sin ph);
        (a * sin th + r * (b * cos th)) * sin ph + r * sin th * (c * cos ph);
        a * cos th + r * - (b * sin th)]).
Proof. dstep. reflexivity. Qed.
Lemma d_MSph_Cart3 r th ph a b c :
  rep (dpos (PMSph (Dist r) th ph) [a;b;c]) CCart3
  = Ok false (dpos (PCart3 (r * sin ph * cos th) (r * sin ph * sin th) (r * cos ph))
      [ (a * sin ph + r * (c * cos ph)) * cos th + r * sin ph * - (b * sin th);
        (a * sin ph + r * (c * cos ph)) * sin th + r * sin ph * (b * cos th);
        a * cos ph + r * - (c * sin ph)]).
Proof. dstep. reflexivity. Qed.

Lemma d_Sph_Cyl r th ph a b c :
  rep (dpos (PSph (Dist r) th ph) [a;b;c]) CCyl
  = Ok false (dpos (PCyl (Rabs (r * sin th)) ph (r * cos th))
      [ (a * sin th + r * (b * cos th)) * Rsign (r * sin th); c; a * cos th + r * - (b * sin th)]).
Proof. dstep. reflexivity. Qed.
Lemma d_MSph_Cyl r th ph a b c :
  rep (dpos (PMSph (Dist r) th ph) [a;b;c]) CCyl
  = Ok false (dpos (PCyl (Rabs (r * sin ph)) th (r * cos ph))
      [ (a * sin ph + r * (c * cos ph)) * Rsign (r * sin ph); b; a * cos ph + r * - (c * sin ph)]).
Proof. dstep. reflexivity. Qed.

Lemma d_Sph_LonLat r th ph a b c :
  rep (dpos (PSph (Dist r) th ph) [a;b;c]) CLonLat
  = Ok false (dpos (PLonLat ph (PI/2 - th) (Dist r)) [c; 0 - b; a]).
Proof. dstep. reflexivity. Qed.
Lemma d_LonLat_Sph r lon lat a b c :
  rep (dpos (PLonLat lon lat (Dist r)) [a;b;c]) CSph
  = Ok false (dpos (PSph (Dist r) (PI/2 - lat) lon) [c; 0 - b; a]).
Proof. dstep. reflexivity. Qed.
Lemma d_Sph_MSph r th ph a b c :
  rep (dpos (PSph (Dist r) th ph) [a;b;c]) CMSph
  = Ok false (dpos (PMSph (Dist r) ph th) [a; c; b]).
Proof. dstep. reflexivity. Qed.
Lemma d_MSph_Sph r th ph a b c :
  rep (dpos (PMSph (Dist r) th ph) [a;b;c]) CSph
  = Ok false (dpos (PSph (Dist r) ph th) [a; c; b]).
Proof. dstep. reflexivity. Qed.
Lemma d_self p u : plain3 (cls_of p) -> rep (dpos p u) (cls_of p) = Ok false (dpos p u).
Proof. destruct p; cbn [plain3 cls_of]; intros H; try contradiction; dstep; reflexivity. Qed.
End Base.
