(** * C43: compiling ([jax.jit]) does not change results.

    Under tracing the range checks are dead code ([mode], Vectors.v).  Everything
    else is the same: whenever the eager call returns, the traced call returns the
    same, and if the eager call raises anything but a range error, so does the traced
    call. *)
From Coq Require Import Reals Bool List String.
From Verif Require Import Num Vectors Transform Arith Vel FourVec Operators Frames Distances Units Shapes Space Poincare Pos3D.
Import ListNotations.

(** ** Specification *)
Definition range_error (e : err) : Prop := e = ENegative \/ e = EPolarRange \/ e = EProlateRange.
Definition jit_ok {T} (eager traced : res T) : Prop :=
  match eager with
  | Ok w v => traced = Ok w v
  | Raise e => range_error e \/ traced = Raise e
  end.

Lemma jo_refl {T} (r : res T) : jit_ok r r. Proof. destruct r; cbn; auto. Qed.
Lemma jo_bind {T U} (r r' : res T) (k k' : T -> res U) :
  jit_ok r r' -> (forall a, jit_ok (k a) (k' a)) -> jit_ok (bind r k) (bind r' k').
Proof.
  intros H K. destruct r as [w0 v0|e]; cbn in H.
  - subst r'. cbn. specialize (K v0). destruct (k v0) as [w1 v1|e]; cbn in K.
    + now rewrite K.
    + destruct K as [K|K]; [now left|right]. now rewrite K.
  - cbn. destruct H as [H|H]; [now left|right]. now rewrite H.
Qed.
Lemma jo_warn {T} (r r' : res T) : jit_ok r r' -> jit_ok (warn r) (warn r').
Proof.
  intros H. destruct r as [w0 v0|e]; cbn in *; [now subst|]. destruct H as [H|H]; [now left|right]. now rewrite H.
Qed.
Lemma jo_mapM {T U} (f f' : T -> res U) l : (forall x, jit_ok (f x) (f' x)) -> jit_ok (mapM f l) (mapM f' l).
Proof.
  intros H. induction l; cbn [mapM]; [apply jo_refl|]. apply jo_bind; auto. intros. apply jo_bind; auto. intros; apply jo_refl.
Qed.

Section Generic.
Context {A : Type} `{NA : Num A}.
Lemma jo_nonneg x : jit_ok (check_nonneg Eager x) (check_nonneg Traced x).
Proof. cbn. destruct (x <? ncst 0)%num; cbn; unfold range_error; auto. Qed.
Lemma jo_polar l u x : jit_ok (check_polar Eager l u x) (check_polar Traced l u x).
Proof. cbn. destruct (_ || _)%bool; cbn; unfold range_error; auto. Qed.
Lemma jo_prolate a b c : jit_ok (check_prolate Eager a b c) (check_prolate Traced a b c).
Proof.
  cbn. destruct (_ <=? _)%num; [|destruct (_ <? _)%num; [|destruct (_ <? _)%num]]; cbn; unfold range_error; auto.
Qed.
End Generic.
Global Hint Resolve jo_refl jo_bind jo_warn jo_nonneg jo_polar jo_prolate : jo.

Ltac jo_step :=
  intros;
  match goal with
  | |- jit_ok ?r ?r => apply jo_refl
  | |- jit_ok (bind _ _) (bind _ _) => apply jo_bind
  | |- jit_ok (warn _) (warn _) => apply jo_warn
  | |- jit_ok (mapM _ _) (mapM _ _) => apply jo_mapM
  | |- jit_ok (check_nonneg _ _) _ => apply jo_nonneg
  | |- jit_ok (check_polar _ _ _ _) _ => apply jo_polar
  | |- jit_ok (check_prolate _ _ _ _) _ => apply jo_prolate
  | |- jit_ok (match ?x with _ => _ end) (match ?x with _ => _ end) => destruct x
  | |- _ => solve [eauto with jo]
  end.
Ltac jo := repeat jo_step.

Section Constructors.
Context {A : Type} `{NA : Num A}.
Lemma jo_mkRadial (r : rarg A) : jit_ok (mk_Radial Eager r) (mk_Radial Traced r). Proof. unfold mk_Radial; cbv zeta; jo. Qed.
Lemma jo_mkPolar (r : rarg A) p : jit_ok (mk_Polar Eager r p) (mk_Polar Traced r p). Proof. unfold mk_Polar; cbv zeta; jo. Qed.
Lemma jo_mkTS (r : A) p : jit_ok (mk_TwoSphere Eager r p) (mk_TwoSphere Traced r p). Proof. unfold mk_TwoSphere; cbv zeta; jo. Qed.
Lemma jo_mkCyl (r : A) p z : jit_ok (mk_Cyl Eager r p z) (mk_Cyl Traced r p z). Proof. unfold mk_Cyl; cbv zeta; jo. Qed.
Lemma jo_mkSph (r : rarg A) a b : jit_ok (mk_Sph Eager r a b) (mk_Sph Traced r a b). Proof. unfold mk_Sph; cbv zeta; jo. Qed.
Lemma jo_mkMSph (r : rarg A) a b : jit_ok (mk_MSph Eager r a b) (mk_MSph Traced r a b). Proof. unfold mk_MSph; cbv zeta; jo. Qed.
Lemma jo_mkLonLat (r : rarg A) a b : jit_ok (mk_LonLat Eager a b r) (mk_LonLat Traced a b r). Proof. unfold mk_LonLat; cbv zeta; jo. Qed.
Lemma jo_mkProlate (a b c : A) d : jit_ok (mk_Prolate Eager a b d c) (mk_Prolate Traced a b d c). Proof. unfold mk_Prolate; cbv zeta; jo. Qed.
Hint Resolve jo_mkRadial jo_mkPolar jo_mkTS jo_mkCyl jo_mkSph jo_mkMSph jo_mkLonLat jo_mkProlate : jo.
Lemma jo_fromSph deg (r : rarg A) a b : jit_ok (from_Sph Eager deg r a b) (from_Sph Traced deg r a b). Proof. unfold from_Sph; cbv zeta; jo. Qed.
Lemma jo_fromMSph deg (r : rarg A) a b : jit_ok (from_MSph Eager deg r a b) (from_MSph Traced deg r a b). Proof. unfold from_MSph; cbv zeta; jo. Qed.
Lemma jo_fromLonLat deg (r : rarg A) a b : jit_ok (from_LonLat Eager deg a b r) (from_LonLat Traced deg a b r). Proof. unfold from_LonLat; cbv zeta; jo. Qed.
Lemma jo_build az (p : pos A) : jit_ok (build Eager az p) (build Traced az p).
Proof. unfold build; cbv zeta; jo. Qed.
End Constructors.
Global Hint Resolve jo_mkRadial jo_mkPolar jo_mkTS jo_mkCyl jo_mkSph jo_mkMSph jo_mkLonLat jo_mkProlate
  jo_fromSph jo_fromMSph jo_fromLonLat jo_build : jo.

Section Rep.
Context {A : Type} `{NA : Num A}.
Lemma jo_run deg rec rec' me kw (p : pos A) t :
  (forall kw p t, jit_ok (rec kw p t) (rec' kw p t)) ->
  jit_ok (run Eager deg rec me kw p t) (run Traced deg rec' me kw p t).
Proof. intros H. destruct me; cbn [run]; cbv zeta; jo. Qed.
Lemma jo_rep deg f : forall kw (p : pos A) t, jit_ok (represent_as Eager deg f kw p t) (represent_as Traced deg f kw p t).
Proof.
  induction f as [|f IH]; intros kw p t; [apply jo_refl|].
  rewrite !rep_S. destruct (Transform.resolve (cls_of p) t); auto using jo_refl, jo_run.
Qed.
Hint Resolve jo_rep : jo.
Variables (deg : bool) (f : nat).
Lemma jo_rep' p t : jit_ok (rep Eager deg f p t) (rep Traced deg f p t).
Proof. apply jo_rep. Qed.
Hint Resolve jo_rep' : jo.
Lemma jo_cart_add (p q : pos A) : jit_ok (Arith.cart_add Eager deg f p q) (Arith.cart_add Traced deg f p q).
Proof. unfold Arith.cart_add; jo. Qed.
Lemma jo_cart_sub (p q : pos A) : jit_ok (Arith.cart_sub Eager deg f p q) (Arith.cart_sub Traced deg f p q).
Proof. unfold Arith.cart_sub; jo. Qed.
Hint Resolve jo_cart_add jo_cart_sub : jo.
Lemma jo_pos_add (p q : pos A) : jit_ok (pos_add Eager deg f p q) (pos_add Traced deg f p q).
Proof. unfold pos_add; cbv zeta; jo. Qed.
Lemma jo_pos_sub (p q : pos A) : jit_ok (pos_sub Eager deg f p q) (pos_sub Traced deg f p q).
Proof. unfold pos_sub; cbv zeta; jo. Qed.
Lemma jo_pos_neg (p : pos A) : jit_ok (pos_neg Eager deg f p) (pos_neg Traced deg f p).
Proof. unfold pos_neg; cbv zeta; jo. Qed.
Lemma jo_pos_mul k (p : pos A) : jit_ok (pos_mul Eager deg f k p) (pos_mul Traced deg f k p).
Proof. unfold pos_mul; cbv zeta; jo. Qed.
Lemma jo_cart_components (p : pos A) : jit_ok (cart_components Eager deg f p) (cart_components Traced deg f p).
Proof. unfold cart_components; cbv zeta; jo. Qed.
Hint Resolve jo_cart_components : jo.
Lemma jo_pos_mul_pos (p q : pos A) : jit_ok (pos_mul_pos Eager deg f p q) (pos_mul_pos Traced deg f p q).
Proof. unfold pos_mul_pos; cbv zeta; jo. Qed.
Lemma jo_pos_eq (p q : pos A) : jit_ok (pos_eq Eager deg f p q) (pos_eq Traced deg f p q).
Proof. unfold pos_eq; jo. Qed.
End Rep.
Global Hint Resolve jo_rep jo_rep' jo_cart_add jo_cart_sub jo_pos_add jo_pos_sub jo_pos_neg jo_pos_mul jo_cart_components jo_pos_mul_pos jo_pos_eq : jo.

(** ** Positions *)
Section Theorems.
Variables (deg : bool) (f : nat).

Theorem C43_constructors az (p : pos ext) : jit_ok (build Eager az p) (build Traced az p).
Proof. auto with jo. Qed.
Theorem C43_represent_as kw (p : pos ext) t :
  jit_ok (represent_as Eager deg f kw p t) (represent_as Traced deg f kw p t).
Proof. auto with jo. Qed.
Theorem C43_arithmetic (p q : pos ext) (k : ext) b :
  jit_ok (pos_add Eager deg f p q) (pos_add Traced deg f p q) /\
  jit_ok (pos_sub Eager deg f p q) (pos_sub Traced deg f p q) /\
  jit_ok (pos_neg Eager deg f p) (pos_neg Traced deg f p) /\
  jit_ok (pos_mul Eager deg f k p) (pos_mul Traced deg f k p) /\
  jit_ok (pos_div Eager b p k) (pos_div Traced b p k) /\
  jit_ok (pos_mul_pos Eager deg f p q) (pos_mul_pos Traced deg f p q) /\
  jit_ok (pos_eq Eager deg f p q) (pos_eq Traced deg f p q) /\
  jit_ok (cart_components Eager deg f p) (cart_components Traced deg f p).
Proof. unfold pos_div. repeat split; auto with jo. Qed.

(** ** Velocities and accelerations *)
Lemma jo_cast p : jit_ok (cast_distance Eager p) (cast_distance Traced p).
Proof. unfold cast_distance; jo. Qed.
Hint Resolve jo_cast : jo.
Lemma jo_vel_generic kw v t p : jit_ok (vel_generic Eager deg f kw v t p) (vel_generic Traced deg f kw v t p).
Proof. unfold vel_generic; jo. Qed.
Lemma jo_latitude p : jit_ok (latitude Eager deg f p) (latitude Traced deg f p).
Proof. unfold latitude; jo. Qed.
Hint Resolve jo_vel_generic jo_latitude : jo.
Lemma jo_lcl v p : jit_ok (lcl_to_lonlat Eager deg f v p) (lcl_to_lonlat Traced deg f v p).
Proof. unfold lcl_to_lonlat; jo. Qed.
Lemma jo_lcl' v p : jit_ok (lonlat_to_lcl Eager deg f v p) (lonlat_to_lcl Traced deg f v p).
Proof. unfold lonlat_to_lcl; jo. Qed.
Hint Resolve jo_lcl jo_lcl' : jo.
Theorem C43_velocity_represent_as kw v t p :
  jit_ok (vel_represent_as Eager deg f kw v t p) (vel_represent_as Traced deg f kw v t p).
Proof. unfold vel_represent_as; jo. Qed.
Hint Resolve C43_velocity_represent_as : jo.
Theorem C43_velocity_represent_as_array kw v t x :
  jit_ok (vel_represent_as_q Eager deg f kw v t x) (vel_represent_as_q Traced deg f kw v t x).
Proof. unfold vel_represent_as_q; jo. Qed.
Hint Resolve C43_velocity_represent_as_array : jo.
Theorem C43_acceleration_represent_as kw a t v p :
  jit_ok (acc_represent_as Eager deg f kw a t v p) (acc_represent_as Traced deg f kw a t v p).
Proof. unfold acc_represent_as; cbv zeta; jo. Qed.
Hint Resolve C43_acceleration_represent_as : jo.
Lemma jo_pfc c x : jit_ok (pos_from_components Eager c x) (pos_from_components Traced c x).
Proof. unfold pos_from_components; jo. Qed.
Hint Resolve jo_pfc : jo.
Theorem C43_times_time v a (t : ext) :
  jit_ok (vel_mul_time Eager v t) (vel_mul_time Traced v t) /\
  jit_ok (acc_mul_time2 Eager a t) (acc_mul_time2 Traced a t).
Proof. unfold vel_mul_time, acc_mul_time2. split; jo. Qed.
Lemma jo_vmt v t : jit_ok (vel_mul_time Eager v t) (vel_mul_time Traced v t).
Proof. apply (C43_times_time v (mkAcc XCart1 []) t). Qed.
Hint Resolve jo_vmt : jo.

(** ** FourVectors and operators *)
Lemma jo_fv_neg v : jit_ok (fv_neg Eager deg f v) (fv_neg Traced deg f v). Proof. unfold fv_neg; jo. Qed.
Lemma jo_fv_add v w : jit_ok (fv_add Eager deg f v w) (fv_add Traced deg f v w). Proof. unfold fv_add; jo. Qed.
Lemma jo_fv_sub v w : jit_ok (fv_sub Eager deg f v w) (fv_sub Traced deg f v w). Proof. unfold fv_sub; jo. Qed.
Lemma jo_fv_arr v : jit_ok (fv_to_array Eager deg f v) (fv_to_array Traced deg f v). Proof. unfold fv_to_array; jo. Qed.
Hint Resolve jo_fv_neg jo_fv_add jo_fv_sub jo_fv_arr : jo.
Theorem C43_four_vectors v w :
  jit_ok (fv_neg Eager deg f v) (fv_neg Traced deg f v) /\
  jit_ok (fv_add Eager deg f v w) (fv_add Traced deg f v w) /\
  jit_ok (fv_sub Eager deg f v w) (fv_sub Traced deg f v w) /\
  jit_ok (fv_to_array Eager deg f v) (fv_to_array Traced deg f v).
Proof. auto with jo. Qed.

Lemma jo_rotate R q : jit_ok (rotate Eager deg f R q) (rotate Traced deg f R q).
Proof. unfold rotate; jo. Qed.
Lemma jo_tc tr x i : jit_ok (translation_column Eager deg f tr x i) (translation_column Traced deg f tr x i).
Proof. unfold translation_column; jo. Qed.
Hint Resolve jo_rotate jo_tc : jo.
Lemma jo_tv tr q v : jit_ok (translate_vel Eager deg f tr q v) (translate_vel Traced deg f tr q v).
Proof. unfold translate_vel, translation_jacobian; cbv zeta; jo. Qed.
Lemma jo_boost v q t : jit_ok (boost_pos Eager deg f v q t) (boost_pos Traced deg f v q t).
Proof. unfold boost_pos; jo. Qed.
Hint Resolve jo_tv jo_boost : jo.
Lemma jo_call_vec o x : jit_ok (call_vec Eager deg f o x) (call_vec Traced deg f o x).
Proof. unfold call_vec; jo. Qed.
Hint Resolve jo_call_vec : jo.
Lemma jo_on_array g g' x : (forall y, jit_ok (g y) (g' y)) -> jit_ok (on_array Eager deg f g x) (on_array Traced deg f g' x).
Proof. intros H. unfold on_array; jo. Qed.
Lemma jo_on_array_t g g' x t : (forall y, jit_ok (g y) (g' y)) -> jit_ok (on_array_t Eager deg f g x t) (on_array_t Traced deg f g' x t).
Proof. intros H. unfold on_array_t; jo. Qed.
Hint Resolve jo_on_array jo_on_array_t : jo.
Lemma jo_call_single o x : jit_ok (call_single Eager deg f o x) (call_single Traced deg f o x).
Proof. unfold call_single; jo. Qed.
Hint Resolve jo_call_single : jo.

Fixpoint call_jo (o : op ext) {struct o} : forall x, jit_ok (call Eager deg f o x) (call Traced deg f o x).
Proof.
  destruct o as [| | | | | |ops|]; intros x; cbn [call]; try apply jo_call_single.
  - set (go := fix go ops x := match ops with [] => ret x | o :: ops => do y <- call Eager deg f o x; go ops y end).
    set (go' := fix go ops x := match ops with [] => ret x | o :: ops => do y <- call Traced deg f o x; go ops y end).
    assert (H : forall x, jit_ok (go ops x) (go' ops x)).
    { clear x. induction ops as [|o ops IH]; intros x; cbn [go go']; [apply jo_refl|]. apply jo_bind; [apply call_jo|exact IH]. }
    clearbody go go'. jo.
  - jo.
Qed.
Theorem C43_operator_call o x : jit_ok (call Eager deg f o x) (call Traced deg f o x).
Proof. apply call_jo. Qed.
Fixpoint inverse_jo (o : op ext) {struct o} : jit_ok (inverse Eager deg f o) (inverse Traced deg f o).
Proof.
  destruct o as [| | | | | |ops|]; cbn [inverse]; try (jo; fail).
  apply jo_bind; [|jo].
  induction ops as [|o ops IH]; [apply jo_refl|]. apply jo_bind; [exact IH|]. intros l. apply jo_bind; [apply inverse_jo|jo].
Qed.
Theorem C43_operator_inverse o : jit_ok (inverse Eager deg f o) (inverse Traced deg f o).
Proof. apply inverse_jo. Qed.

(** ** Frame transformations *)
Lemma jo_icrs g : jit_ok (to_icrs_parts Eager deg f g) (to_icrs_parts Traced deg f g).
Proof. unfold to_icrs_parts. apply jo_bind; [jo|]. intros [[A o] v]. jo. Qed.
Lemma jo_apply_q ps x : jit_ok (apply_q Eager deg f ps x) (apply_q Traced deg f ps x).
Proof. destruct ps as [[A o] v]. unfold apply_q. apply jo_bind; [apply C43_operator_call|]. intros. apply jo_bind; [apply C43_operator_call|]. jo. Qed.
Lemma jo_frame_column ps x i : jit_ok (frame_column Eager deg f ps x i) (frame_column Traced deg f ps x i).
Proof. destruct ps as [[A o] v]. unfold frame_column. cbv zeta. jo. Qed.
Hint Resolve jo_icrs jo_apply_q jo_frame_column : jo.
Lemma jo_apply_qp ps x p : jit_ok (apply_qp Eager deg f ps x p) (apply_qp Traced deg f ps x p).
Proof. unfold apply_qp. jo. Qed.
Hint Resolve jo_apply_qp : jo.
Lemma jo_frame_call ps ps' x : jit_ok ps ps' -> jit_ok (frame_call Eager deg f ps x) (frame_call Traced deg f ps' x).
Proof. intros H. unfold frame_call. jo. Qed.
Hint Resolve jo_frame_call : jo.
Fixpoint fcall_jo (o : fop ext) {struct o} : forall x, jit_ok (fcall Eager deg f o x) (fcall Traced deg f o x).
Proof.
  destruct o; intros x; cbn [fcall]; try (jo; fail).
  - set (go := fix go ops x := match ops with [] => ret x | o :: ops => do y <- fcall Eager deg f o x; go ops y end).
    set (go' := fix go ops x := match ops with [] => ret x | o :: ops => do y <- fcall Traced deg f o x; go ops y end).
    assert (H : forall x, jit_ok (go ops x) (go' ops x)).
    { clear x. induction ops as [|o ops IH]; intros x; cbn [go go']; [apply jo_refl|]. apply jo_bind; [apply fcall_jo|exact IH]. }
    clearbody go go'. jo.
Qed.
Theorem C43_frame_transform o x : jit_ok (fcall Eager deg f o x) (fcall Traced deg f o x).
Proof. apply fcall_jo. Qed.

(** ** Distances *)
Lemma jo_parallax b k v : jit_ok (mk_Parallax Eager b k v) (mk_Parallax Traced b k v).
Proof. unfold mk_Parallax. destruct k; try apply jo_refl. destruct b; try apply jo_refl. destruct (_ <? _)%num; cbn; unfold range_error; auto. Qed.
Hint Resolve jo_parallax : jo.
Theorem C43_distances b k v d :
  jit_ok (mk_Parallax Eager b k v) (mk_Parallax Traced b k v) /\
  jit_ok (to_parallax Eager d) (to_parallax Traced d) /\
  jit_ok (Parallax_from Eager k v) (Parallax_from Traced k v) /\
  jit_ok (convert_Parallax Eager d) (convert_Parallax Traced d).
Proof. unfold to_parallax, Parallax_from, convert_Parallax. repeat split; jo. Qed.

(** ** Unit conversion and addition with units *)
Lemma jo_construct t cs ats : jit_ok (construct Eager t cs ats) (construct Traced t cs ats).
Proof. unfold construct; cbv zeta; jo. Qed.
Hint Resolve jo_construct : jo.
Lemma jo_replace v us : jit_ok (replace_comps Eager v us) (replace_comps Traced v us).
Proof. unfold replace_comps; jo. Qed.
Hint Resolve jo_replace : jo.
Theorem C43_units us s v w :
  jit_ok (uconvert_map Eager us v) (uconvert_map Traced us v) /\
  jit_ok (uconvert_usys Eager s v) (uconvert_usys Traced s v) /\
  jit_ok (uconvert_consistent Eager v) (uconvert_consistent Traced v) /\
  jit_ok (Units.cart_add Eager v w) (Units.cart_add Traced v w).
Proof.
  unfold uconvert_map, uconvert_usys, uconvert_consistent, Units.cart_add. repeat split; jo.
Qed.

(** ** Spaces and Poincare polar vectors *)
Variable L : dimlib.
Lemma jo_temp v t s : jit_ok (temp_represent_as L Eager deg f v t s) (temp_represent_as L Traced deg f v t s).
Proof. unfold temp_represent_as; jo. Qed.
Hint Resolve jo_temp : jo.
Theorem C43_space_represent_as s t :
  jit_ok (space_represent_as L Eager deg f s t) (space_represent_as L Traced deg f s t).
Proof. unfold space_represent_as, map_items. apply jo_bind; [|jo]. apply jo_mapM. intros [k v]. jo. Qed.
Theorem C43_space_neg s : jit_ok (space_neg L Eager deg f s) (space_neg L Traced deg f s).
Proof. unfold space_neg, space_map, map_items. apply jo_bind; [|jo]. apply jo_mapM. intros [k v]. unfold sval_neg. jo. Qed.
Theorem C43_poincare s w :
  jit_ok (to_poincare L Eager deg f s) (to_poincare L Traced deg f s) /\
  jit_ok (from_poincare L Eager w) (from_poincare L Traced w).
Proof. unfold to_poincare, from_poincare. cbv zeta. split; jo. Qed.
End Theorems.

(** ** Finding: under [jit] a range violation is not reported; the eager call raises,
    the traced one returns a vector outside the range of its class. *)
Theorem C43_range_errors_lost_refuted (x : R) : (x < 0)%R ->
  build Eager false (PRadial (mkDist KDistance (Some x : ext))) = Raise ENegative /\
  build Traced false (PRadial (mkDist KDistance (Some x : ext))) = Ok false (PRadial (mkDist KDistance (Some x))).
Proof.
  intros H. split; [|reflexivity]. cbn. unfold mk_Radial, check_nonneg; cbn. unfold Rltb. destruct (Rlt_dec x 0); [reflexivity|contradiction].
Qed.
(** ** A concrete case in which the eager call returns (so the traced call does) *)
Example C43_case : represent_as Eager false 5 nokw (PCart2 (Some 0%R : ext) (Some 1%R)) CCart2 = Ok false (PCart2 (Some 0%R) (Some 1%R)).
Proof. step; reflexivity. Qed.

Print Assumptions C43_represent_as.
Print Assumptions C43_arithmetic.
Print Assumptions C43_velocity_represent_as.
Print Assumptions C43_acceleration_represent_as.
Print Assumptions C43_operator_call.
Print Assumptions C43_operator_inverse.
Print Assumptions C43_frame_transform.
Print Assumptions C43_distances.
Print Assumptions C43_units.
Print Assumptions C43_space_represent_as.
Print Assumptions C43_poincare.
