(** * Running a conversion on dual numbers or under tracing: relation to the
      plain eager run. *)
From Coq Require Import Reals Bool List ZArith Lra Lia.
From Verif Require Import Num Vectors Spec Transform Pos3D Vel.
Import ListNotations.
Open Scope R_scope.

Definition res_map {A B} (f : A -> B) (r : res A) : res B :=
  match r with Ok w v => Ok w (f v) | Raise e => Raise e end.
Definition rarg_map {A B} (f : A -> B) (a : rarg A) : rarg B :=
  match a with RKeep d => RKeep (dist_map f d) | RQty k v => RQty k (f v) end.

Lemma res_map_bind {A B A' B'} (g : A -> A') (h : B -> B') (r : res A) (k : A -> res B) (k' : A' -> res B') :
  (forall a, res_map h (k a) = k' (g a)) -> res_map h (bind r k) = bind (res_map g r) k'.
Proof. intros H. destruct r as [w v|]; cbn; auto. rewrite <- H. destruct (k v); reflexivity. Qed.
Lemma res_map_warn {A B} (h : A -> B) (r : res A) : res_map h (warn r) = warn (res_map h r).
Proof. destruct r; reflexivity. Qed.

(** ** [dv] is a homomorphism *)
Notation vpos := (res_map (pos_map dv)).

Lemma kind_dv k (v : dual) : dv (length_of_kind k v) = length_of_kind k (dv v).
Proof. destruct k; reflexivity. Qed.
Lemma distance_dv (d : dist dual) : dv (distance d) = distance (dist_map dv d).
Proof. destruct d as [k v]. apply kind_dv. Qed.
Lemma conv_r_dv a : dist_map dv (conv_r a) = conv_r (rarg_map dv a).
Proof. destruct a; cbn; auto. unfold dist_map; cbn. now rewrite kind_dv. Qed.
Lemma conv_az_dv a : dv (conv_az a) = conv_az (ang_map dv a).
Proof. destruct a; reflexivity. Qed.
Lemma ang_val_dv (a : ang dual) : dv (ang_val a) = ang_val (ang_map dv a).
Proof. destruct a; reflexivity. Qed.
Lemma nonneg_dv m (x : dual) : check_nonneg m x = check_nonneg m (dv x).
Proof. reflexivity. Qed.
Lemma polar_dv m (l u x : dual) : check_polar m l u x = check_polar m (dv l) (dv u) (dv x).
Proof. reflexivity. Qed.
Lemma prolate_dv m (a b c : dual) : check_prolate m a b c = check_prolate m (dv a) (dv b) (dv c).
Proof. reflexivity. Qed.
Lemma bind_unit_eq {A B} (c : res unit) (k : res A) (h : A -> B) (k' : res B) :
  res_map h k = k' -> res_map h (bind c (fun _ => k)) = bind c (fun _ => k').
Proof. intros <-. destruct c as [w []|]; cbn; auto. destruct k; reflexivity. Qed.

Lemma mk_Radial_dv m a : vpos (mk_Radial m a) = mk_Radial m (rarg_map dv a).
Proof.
  unfold mk_Radial. rewrite nonneg_dv. cbv zeta. rewrite <- !conv_r_dv. cbn [dist_map dval]. now apply bind_unit_eq.
Qed.
Lemma mk_Polar_dv m a b : vpos (mk_Polar m a b) = mk_Polar m (rarg_map dv a) (ang_map dv b).
Proof.
  unfold mk_Polar. rewrite nonneg_dv. cbv zeta. rewrite <- !conv_r_dv, <- conv_az_dv. cbn [dist_map dval]. now apply bind_unit_eq.
Qed.
Lemma mk_TwoSphere_dv m a b : vpos (mk_TwoSphere m a b) = mk_TwoSphere m (dv a) (ang_map dv b).
Proof. unfold mk_TwoSphere. rewrite polar_dv, <- conv_az_dv. now apply bind_unit_eq. Qed.
Lemma mk_Cyl_dv m a b c : vpos (mk_Cyl m a b c) = mk_Cyl m (dv a) (ang_map dv b) (dv c).
Proof. unfold mk_Cyl. rewrite nonneg_dv, <- conv_az_dv. now apply bind_unit_eq. Qed.
Lemma mk_Sph_dv m a b c : vpos (mk_Sph m a b c) = mk_Sph m (rarg_map dv a) (dv b) (ang_map dv c).
Proof.
  unfold mk_Sph. rewrite nonneg_dv, polar_dv. cbv zeta. rewrite <- !conv_r_dv, <- conv_az_dv. cbn [dist_map dval].
  apply bind_unit_eq. now apply bind_unit_eq.
Qed.
Lemma mk_MSph_dv m a b c : vpos (mk_MSph m a b c) = mk_MSph m (rarg_map dv a) (ang_map dv b) (dv c).
Proof.
  unfold mk_MSph. rewrite nonneg_dv, polar_dv. cbv zeta. rewrite <- !conv_r_dv, <- conv_az_dv. cbn [dist_map dval].
  apply bind_unit_eq. now apply bind_unit_eq.
Qed.
Lemma mk_LonLat_dv m a b c : vpos (mk_LonLat m a b c) = mk_LonLat m (ang_map dv a) (dv b) (rarg_map dv c).
Proof.
  unfold mk_LonLat. rewrite nonneg_dv, polar_dv. cbv zeta. rewrite <- !conv_r_dv, <- conv_az_dv. cbn [dist_map dval].
  apply bind_unit_eq. now apply bind_unit_eq.
Qed.
Lemma mk_Prolate_dv m a b c d : vpos (mk_Prolate m a b c d) = mk_Prolate m (dv a) (dv b) (ang_map dv c) (dv d).
Proof. unfold mk_Prolate. rewrite prolate_dv, <- conv_az_dv. now apply bind_unit_eq. Qed.

Lemma dv_if (b : bool) (x y : dual) : dv (if b then x else y) = if b then dv x else dv y.
Proof. destruct b; reflexivity. Qed.
Lemma dv_sel (b : bool) (x y : dual) : dv (sel b x y) = sel b (dv x) (dv y).
Proof. destruct b; reflexivity. Qed.
Lemma dv_add (a b : dual) : dv (a + b)%num = (dv a + dv b)%num. Proof. reflexivity. Qed.
Lemma dv_sub (a b : dual) : dv (a - b)%num = (dv a - dv b)%num. Proof. reflexivity. Qed.
Lemma dv_mul (a b : dual) : dv (a * b)%num = (dv a * dv b)%num. Proof. reflexivity. Qed.
Lemma dv_div (a b : dual) : dv (a / b)%num = (dv a / dv b)%num. Proof. reflexivity. Qed.
Lemma dv_neg (a : dual) : dv (- a)%num = (- dv a)%num. Proof. reflexivity. Qed.
Lemma dv_wrap (a : dual) : dv (nwrap a) = nwrap (dv a). Proof. reflexivity. Qed.
Lemma dv_cst r : dv (ncst r : dual) = (ncst r : ext). Proof. reflexivity. Qed.
Lemma ltb_dv (a b : dual) : (a <? b)%num = (dv a <? dv b)%num. Proof. reflexivity. Qed.

Lemma redecorate_dv deg (a : dual) : ang_map dv (redecorate deg a) = redecorate deg (dv a).
Proof. destruct deg; reflexivity. Qed.
Ltac pushdv := rewrite ?dv_sel, ?dv_add, ?dv_sub, ?dv_neg, ?dv_wrap, ?dv_cst, ?conv_az_dv, ?ltb_dv.
Lemma from_Sph_dv m deg a b c : vpos (from_Sph m deg a b c) = from_Sph m deg (rarg_map dv a) (dv b) (ang_map dv c).
Proof.
  unfold from_Sph. cbv zeta. rewrite mk_Sph_dv, <- conv_r_dv, redecorate_dv. cbn [rarg_map dist_map dk dval].
  repeat (progress pushdv). unfold dist_map; cbn [dk dval]. repeat (progress pushdv). reflexivity.
Qed.
Lemma from_MSph_dv m deg a b c : vpos (from_MSph m deg a b c) = from_MSph m deg (rarg_map dv a) (ang_map dv b) (dv c).
Proof.
  unfold from_MSph. cbv zeta. rewrite mk_MSph_dv, <- conv_r_dv, redecorate_dv. cbn [rarg_map dist_map dk dval].
  repeat (progress pushdv). unfold dist_map; cbn [dk dval]. repeat (progress pushdv). reflexivity.
Qed.

Lemma as_length_dv (d : dist dual) : res_map dv (as_length d) = as_length (dist_map dv d).
Proof. destruct d as [[] v]; reflexivity. Qed.
Lemma length_times_dv (d : dist dual) x : res_map dv (length_times d x) = length_times (dist_map dv d) (dv x).
Proof. destruct d as [[] v]; reflexivity. Qed.
Lemma dflt_dv (o : option dual) d : dv (dflt o d) = dflt (omap dv o) (dv d).
Proof. destruct o; reflexivity. Qed.
Lemma dflta_dv (o : option (ang dual)) d : ang_map dv (dflt o d) = dflt (omap (ang_map dv) o) (ang_map dv d).
Proof. destruct o; reflexivity. Qed.

Lemma prolate_coords_dv (a b c : dual) :
  (dv (fst (prolate_coords a b c)), dv (snd (prolate_coords a b c))) = prolate_coords (dv a) (dv b) (dv c).
Proof.
  unfold prolate_coords. cbv zeta. cbn [fst snd].
  rewrite !dv_add, !dv_mul. rewrite !dv_if.
  cbn [dv nadd nmul nsub ndiv nsq nabs nsqrt nsign ncst nltb nleb neqb Num_dual].
  rewrite ?dv_if. cbn [dv nadd nmul nsub ndiv nsq nabs nsqrt nsign ncst nltb nleb neqb Num_dual].
  rewrite ?dv_if. cbn [dv nadd nmul nsub ndiv nsq nabs nsqrt nsign ncst nltb nleb neqb Num_dual].
  reflexivity.
Qed.


Lemma bind_dv (r : res (pos dual)) r' k k' :
  vpos r = r' -> (forall a, vpos (k a) = k' (pos_map dv a)) -> vpos (bind r k) = bind r' k'.
Proof. intros <- H. now apply res_map_bind. Qed.
Lemma bindx_dv (r : res dual) r' k k' :
  res_map dv r = r' -> (forall a, vpos (k a) = k' (dv a)) -> vpos (bind r k) = bind r' k'.
Proof. intros <- H. now apply res_map_bind. Qed.


Lemma run_dv m deg rec rec' me kw p t :
  (forall kw p t, vpos (rec kw p t) = rec' (kw_map dv kw) (pos_map dv p) t) ->
  vpos (run m deg rec me kw p t) = run m deg rec' me (kw_map dv kw) (pos_map dv p) t.
Proof.
  intros H.
  assert (N : forall p t, vpos (rec nokw p t) = rec' nokw (pos_map dv p) t) by (intros; apply (H nokw)).
  assert (D : forall x p t, vpos (rec (kw_Delta_only x) p t) = rec' (kw_Delta_only (dv x)) (pos_map dv p) t)
    by (intros x; apply (H (kw_Delta_only x))).
  assert (Z : forall x p t, vpos (rec (kw_z_only x) p t) = rec' (kw_z_only (dv x)) (pos_map dv p) t)
    by (intros x; apply (H (kw_z_only x))).
  destruct me; cbn [run];
  try reflexivity;
  try (apply bind_dv; intros; apply N);
  try (cbn [kw_map kw_Delta]; destruct (kw_Delta kw); cbn [omap]; [apply bind_dv; intros; auto | reflexivity]; fail);
  try (apply bind_dv; [apply N|]; intros; apply bind_dv; [|intros; apply N]; rewrite Z, dflt_dv; reflexivity);
  try (rewrite res_map_warn; f_equal; apply bind_dv; intros; apply N);
  try (destruct p; cbn [pos_map]; try reflexivity;
       rewrite ?mk_Radial_dv, ?mk_Polar_dv, ?mk_Cyl_dv, ?mk_Sph_dv, ?mk_MSph_dv, ?mk_LonLat_dv,
               ?res_map_warn, ?mk_Radial_dv, ?mk_Polar_dv;
       cbn [rarg_map ang_map]; try reflexivity).
  all: try (unfold mk_Cart1, mk_Cart2, mk_Cart3; cbn [res_map ret pos_map]; rewrite ?dv_mul, ?distance_dv; reflexivity).
  all: try (rewrite ?dflt_dv, ?dflta_dv; reflexivity).
  all: try (unfold nabs, Num_dual; cbn [dv]; unfold distance; rewrite ?dv_mul, ?kind_dv; reflexivity).
  all: try (f_equal; apply bindx_dv; [apply length_times_dv|]; intros; reflexivity).
  all: try (apply bindx_dv; [apply as_length_dv|]; intros; rewrite ?mk_Cyl_dv, <- ?dflta_dv, <- ?dflt_dv;
            unfold mk_Cart2, mk_Cart3; cbn [res_map ret pos_map]; rewrite ?dflt_dv, ?dflta_dv; reflexivity).
  all: try (destruct t; try reflexivity; rewrite ?from_Sph_dv, ?from_MSph_dv, ?ang_val_dv, ?dflta_dv; reflexivity).
  all: try (rewrite ?from_Sph_dv, ?from_MSph_dv, ?ang_val_dv, ?dflta_dv; reflexivity).
  all: try (f_equal; apply bind_dv; [apply (N (PCart3 _ _ _))|intros; apply N]).
  all: try (cbn [kw_map kw_Delta]; destruct (kw_Delta kw); cbn [omap]; [|reflexivity];
    rewrite mk_Prolate_dv; pose proof (prolate_coords_dv rho z d) as E; apply pair_equal_spec in E;
    destruct E as [-> ->]; reflexivity).
  all: unfold mk_Cart2, mk_Cart3; cbn [res_map ret pos_map]; rewrite ?dflt_dv; reflexivity.
Qed.

Theorem rep_dv m deg f : forall kw p t,
  vpos (represent_as m deg f kw p t) = represent_as m deg f (kw_map dv kw) (pos_map dv p) t.
Proof.
  induction f as [|f IH]; intros kw p t; [reflexivity|].
  rewrite !rep_S. replace (cls_of (pos_map dv p)) with (cls_of p) by (destruct p; reflexivity).
  destruct (resolve (cls_of p) t); auto. now apply run_dv.
Qed.

(** ** Tracing *)
Section Modes.
Context {A : Type} `{NA : Num A}.
Definition refines {T} (r r' : res T) : Prop := forall w v, r = Ok w v -> r' = Ok w v.
Lemma ref_refl {T} (r : res T) : refines r r. Proof. now intros w v. Qed.
Lemma ref_bind {T U} (r r' : res T) (k k' : T -> res U) :
  refines r r' -> (forall a, refines (k a) (k' a)) -> refines (bind r k) (bind r' k').
Proof.
  intros H K w v. destruct r as [w0 v0|]; [|discriminate]. rewrite (H _ _ eq_refl). cbn.
  destruct (k v0) as [w1 v1|] eqn:E; [|discriminate]. now rewrite (K _ _ _ E).
Qed.
Lemma ref_warn {T} (r r' : res T) : refines r r' -> refines (warn r) (warn r').
Proof. intros H w v. destruct r as [w0 v0|]; [|discriminate]. rewrite (H _ _ eq_refl). auto. Qed.
Lemma ref_nonneg x : refines (check_nonneg Eager x) (check_nonneg Traced x).
Proof. intros w v. cbn. destruct (x <? ncst 0)%num; [discriminate|auto]. Qed.
Lemma ref_polar l u x : refines (check_polar Eager l u x) (check_polar Traced l u x).
Proof. intros w v. cbn. destruct (_ || _)%bool; [discriminate|auto]. Qed.
Lemma ref_prolate a b c : refines (check_prolate Eager a b c) (check_prolate Traced a b c).
Proof.
  intros w v. cbn. destruct (_ <=? _)%num; [discriminate|]. destruct (_ <? _)%num; [discriminate|].
  destruct (_ <? _)%num; [discriminate|auto].
Qed.
Hint Resolve ref_refl ref_bind ref_warn ref_nonneg ref_polar ref_prolate : ref.

Lemma ref_run deg rec rec' me kw p t :
  (forall kw p t, refines (rec kw p t) (rec' kw p t)) ->
  refines (run Eager deg rec me kw p t) (run Traced deg rec' me kw p t).
Proof.
  intros H. destruct me; cbn [run]; auto 6 with ref.
  all: try (destruct (kw_Delta kw); auto 6 with ref; fail).
  all: try (destruct p; auto with ref; fail).
  all: try (destruct p; auto with ref; apply ref_warn; auto with ref; fail).
  all: destruct p; auto with ref; try (destruct t; auto with ref; fail).
  all: try (unfold mk_Radial, mk_Polar, mk_Cyl, mk_Sph, mk_MSph, mk_LonLat, from_Sph, from_MSph; cbv zeta;
    auto 12 with ref; fail).
  all: try (destruct (kw_Delta kw); auto with ref; unfold mk_Prolate; auto 6 with ref; fail).
  all: try (destruct t; auto with ref; unfold from_Sph, from_MSph, mk_Sph, mk_MSph; cbv zeta; auto 12 with ref; fail).
  all: try (apply ref_bind; auto with ref; intros; unfold mk_Cyl; auto with ref; fail).
  all: try (apply ref_warn; unfold mk_Radial, mk_Polar; cbv zeta; auto 8 with ref; fail).
Qed.

Theorem rep_traced deg f : forall kw p t,
  refines (represent_as Eager deg f kw p t) (represent_as Traced deg f kw p t).
Proof.
  induction f as [|f IH]; intros kw p t; [apply ref_refl|].
  rewrite !rep_S. destruct (resolve (cls_of p) t); auto using ref_refl, ref_run.
Qed.
Corollary rep_any_traced m deg f kw p t w q :
  represent_as m deg f kw p t = Ok w q -> represent_as Traced deg f kw p t = Ok w q.
Proof. destruct m; auto. apply rep_traced. Qed.
End Modes.
