(** * Property C68: frame transformations do the same thing in every choice of units.

    C31-C33 are about SI values.  Here the ICRS <-> Galactocentric operators (GFrame.v,
    proved equal on SI values to the ones of Frames.v) run on numbers that carry units
    and obey unxt's rules (UQ.v): the frame's angles may be in degrees, its distance in
    kpc, the Sun's height in pc, its velocity in km/s, the argument in anything.

    [frame_units g], [fop_units o], [fvalue_units x]: every field, parameter and
    component is a quantity of the right dimension in some unit.  [si_frame], [si_fop],
    [si_fvalue]: the SI values.  [ufcall]: application; [gfinverse]: the inverse. *)
From Coq Require Import Reals Bool List ZArith Lra Lia.
From Verif Require Import Num Vectors Spec Transform Pos3D Pos3DThm RoundTrip Vel SpecVel Units UQ Scale Rel UQThm UVel UVelThm Arith RelArith FourVec Operators SpecOp.
From Verif Require Import Frames SpecFrame FrameThm PropFrame.
From Verif Require Import GOp GOpThm PropUQ PropUVel PropUnitArith UOpThm GFrame UFrameThm.
Import ListNotations.
Open Scope R_scope.

Definition frame_units (g : gcf (uq ext)) : Prop :=
  is_a angle_d (g_lon g) /\ is_a angle_d (g_lat g) /\ is_radial (g_dist g) /\ is_a angle_d (g_roll g) /\ is_a length_d (g_zsun g) /\
  length (g_vsun g) = 3%nat /\ Forall (is_a speed_d) (g_vsun g).
Definition si_frame (g : gcf (uq ext)) : gcf ext :=
  mkGCF (uphys (g_lon g)) (uphys (g_lat g)) (dist_map uphys (g_dist g)) (uphys (g_roll g)) (uphys (g_zsun g)) (map uphys (g_vsun g)).
Fixpoint fop_units (o : fop (uq ext)) : Prop :=
  match o with
  | FIdentity => True
  | FToGCF g | FToICRS g => frame_units g
  | FPipe ops => (fix all ops := match ops with [] => True | o :: ops => fop_units o /\ all ops end) ops
  end.
Fixpoint si_fop (o : fop (uq ext)) : fop ext :=
  match o with
  | FIdentity => FIdentity
  | FToGCF g => FToGCF (si_frame g)
  | FToICRS g => FToICRS (si_frame g)
  | FPipe ops => FPipe (map si_fop ops)
  end.
Definition fvalue_units (x : fvalue (uq ext)) : Prop :=
  match x with
  | FPos q => pos_units q
  | FPosVel q v => pos_units q /\ vel_units v
  | FArr a => Forall (is_a length_d) a
  | FArrs a p => Forall (is_a length_d) a /\ Forall (is_a speed_d) p
  end.
Definition si_fvalue (x : fvalue (uq ext)) : fvalue ext :=
  match x with
  | FPos q => FPos (si q)
  | FPosVel q v => FPosVel (si q) (si_vel v)
  | FArr a => FArr (map uphys a)
  | FArrs a p => FArrs (map uphys a) (map uphys p)
  end.
Definition same_fvalue (y : fvalue (uq ext)) (Y : fvalue ext) : Prop := fvalue_units y /\ si_fvalue y = Y.

Lemma F2_fwd (d : dim) (R : uq ext -> ext -> Prop) a : (forall q, is_a d q -> R q (uphys q)) -> Forall (is_a d) a -> Forall2 R a (map uphys a).
Proof. intros K F. induction F; cbn [map]; constructor; auto. Qed.
Lemma F2_bwd (d : dim) (R : uq ext -> ext -> Prop) a A : (forall q x, R q x -> is_a d q /\ x = uphys q) -> Forall2 R a A -> Forall (is_a d) a /\ map uphys a = A.
Proof.
  intros K F. induction F as [|q x a A r F [IH <-] ]; [split; [constructor|reflexivity]|]. destruct (K _ _ r) as [U ->]. split; [constructor; auto|reflexivity].
Qed.
Lemma len_bwd q (x : ext) : relu (Len 1) q x -> is_a length_d q /\ x = uphys q.
Proof. intros (D & P & ->). split; [split; auto|reflexivity]. Qed.
Lemma spd_fwd q : is_a speed_d q -> du (per 1 length_d) q (uphys q). Proof. intros [D P]. split; auto. Qed.
Lemma spd_bwd q (x : ext) : du (per 1 length_d) q x -> is_a speed_d q /\ x = uphys q.
Proof. intros (D & P & ->). split; [split; auto|reflexivity]. Qed.
Lemma fv_fwd x : fvalue_units x -> fvrel x (si_fvalue x).
Proof.
  destruct x; cbn [fvalue_units fvrel si_fvalue].
  - apply relu_si.
  - intros [U V]. split; [now apply relu_si|now apply vrel_fwd].
  - apply F2_fwd. intros q. apply l1.
  - intros [U V]. split; [revert U; apply F2_fwd; intros q; apply l1|revert V; apply F2_fwd; apply spd_fwd].
Qed.
Lemma fv_bwd x X : fvrel x X -> same_fvalue x X.
Proof.
  unfold same_fvalue. destruct x, X; cbn [fvalue_units fvrel si_fvalue]; try tauto.
  - intros R. destruct (si_relu _ _ R) as [? ->]. auto.
  - intros [R V]. destruct (si_relu _ _ R) as [? ->]. destruct (vrel_bwd _ _ V) as [? ->]. auto.
  - intros R. destruct (F2_bwd length_d _ _ _ len_bwd R) as [? <-]. auto.
  - intros [R V]. destruct (F2_bwd length_d _ _ _ len_bwd R) as [? <-]. destruct (F2_bwd speed_d _ _ _ spd_bwd V) as [? <-]. auto.
Qed.
Lemma frame_fwd g : frame_units g -> urgcf g (si_frame g).
Proof.
  intros (A & B & C & D & E & L & F). split; [unfold rgcf; cbn [si_frame g_lon g_lat g_dist g_roll g_zsun]|].
  - split; [now apply l3|]. split; [now apply l3|]. split; [now apply l4|]. split; [now apply l3|now apply l1].
  - cbn [si_frame g_vsun]. destruct (g_vsun g) as [|v1 [|v2 [|v3 [|]]]]; try discriminate.
    repeat match goal with X : Forall _ (_ :: _) |- _ => apply Forall_cons_iff in X; destruct X as [? X] end. apply speeds_intro; now apply spd_fwd.
Qed.
Lemma fop_fwd o : fop_units o -> foprel o (si_fop o).
Proof.
  induction o as [|g|g|ops IH] using fop_ind'; cbn [fop_units si_fop]; intros U.
  - constructor.
  - constructor. now apply frame_fwd.
  - constructor. now apply frame_fwd.
  - constructor. induction IH as [|o ops Ho _ IH]; cbn [map]; constructor; [now apply Ho|now apply IH].
Qed.

(** ** Applying an operator commutes with converting everything to SI: same outcome
    (the same warning, the same error), a result of the right dimensions, and the same
    physical values. *)
Theorem C68_calls_in_any_units : forall m deg f o x, fop_units o -> fvalue_units x ->
  match ufcall m deg f o x, fcall m deg f (si_fop o) (si_fvalue x) with
  | Ok w y, Ok w' Y => w = w' /\ fvalue_units y /\ si_fvalue y = Y
  | Raise e, Raise e' => e = e'
  | _, _ => False
  end.
Proof.
  intros m deg f o x Uo Ux. pose proof (u_fcall m deg f _ _ (fop_fwd _ Uo) _ _ (fv_fwd _ Ux)) as R. rewrite gfcall_eq in R.
  destruct (ufcall m deg f o x), (fcall m deg f (si_fop o) (si_fvalue x)); cbn [rres] in R; auto. destruct R as [-> R]. apply fv_bwd in R. split; [reflexivity|exact R].
Qed.
Print Assumptions C68_calls_in_any_units.
(** Two choices of units for the same frames and the same argument: the same result. *)
Theorem C68_units_do_not_matter : forall m deg f o o' x x' w y,
  fop_units o -> fop_units o' -> fvalue_units x -> fvalue_units x' -> si_fop o = si_fop o' -> si_fvalue x = si_fvalue x' ->
  ufcall m deg f o x = Ok w y -> exists y', ufcall m deg f o' x' = Ok w y' /\ si_fvalue y' = si_fvalue y.
Proof.
  intros m deg f o o' x x' w y U U' V V' E E' C. pose proof (C68_calls_in_any_units m deg f o x U V) as A. pose proof (C68_calls_in_any_units m deg f o' x' U' V') as B.
  rewrite C in A. rewrite <- E, <- E' in B. destruct (fcall m deg f (si_fop o) (si_fvalue x)); [|contradiction]. destruct A as (-> & _ & A).
  destruct (ufcall m deg f o' x') as [w' y'|]; [|contradiction]. destruct B as (-> & _ & B). exists y'. split; auto. congruence.
Qed.
Print Assumptions C68_units_do_not_matter.

(** ** The inverse, in any units, undoes the operator: arrays with velocities come back
    to the same lengths and speeds, Cartesian vectors likewise. *)
Lemma inv_units o : fop_units o -> fop_units (gfinverse o) /\ si_fop (gfinverse o) = finverse (si_fop o).
Proof.
  induction o as [|g|g|ops IH] using fop_ind'; intros U; try (split; [exact U|reflexivity]).
  cbn [gfinverse si_fop finverse fop_units] in *.
  set (ginv := (fix go (ops : list (fop (uq ext))) : list (fop (uq ext)) := match ops with [] => [] | o :: ops => go ops ++ [gfinverse o] end)).
  set (inv := (fix go (ops : list (fop ext)) : list (fop ext) := match ops with [] => [] | o :: ops => go ops ++ [finverse o] end)).
  set (all := (fix all ops := match ops with [] => True | o :: ops => fop_units o /\ all ops end)) in *.
  assert (AA : forall a b, all a -> all b -> all (a ++ b)). { induction a as [|o a IHa]; intros b Ha Hb; [exact Hb|]. destruct Ha as [H1 H2]. split; [exact H1|now apply IHa]. }
  assert (G : all (ginv ops) /\ map si_fop (ginv ops) = inv (map si_fop ops)).
  { induction IH as [|o ops Ho _ IH]; [split; [exact I|reflexivity]|]. destruct U as [Uo Us]. destruct (Ho Uo) as [A B], (IH Us) as [A' B'].
    split; [apply AA; [exact A'|split; [exact A|exact I]]|]. change (ginv (o :: ops)) with (ginv ops ++ [gfinverse o]). rewrite map_app. cbn [map]. rewrite B, B'. reflexivity. }
  split; [apply G|]. f_equal. apply G.
Qed.
Theorem C68_inverse_round_trip : forall m deg f o X P, fop_units o -> good_fop (si_fop o) -> length X = 3%nat -> length P = 3%nat ->
  (forall x p, fvalue_units (FArrs x p) -> map uphys x = fin X -> map uphys p = fin P ->
     exists y x' p', ufcall m deg (4 + f) o (FArrs x p) = Ok false y /\ ufcall m deg (4 + f) (gfinverse o) y = Ok false (FArrs x' p') /\
       map uphys x' = fin X /\ map uphys p' = fin P) /\
  (forall q v, fvalue_units (FPosVel q v) -> si q = finite (cart_pos X) -> si_vel v = vfinite (mkVel WCart3 P) ->
     exists y q' v', ufcall m deg (4 + f) o (FPosVel q v) = Ok false y /\ ufcall m deg (4 + f) (gfinverse o) y = Ok false (FPosVel q' v') /\
       si q' = si q /\ si_vel v' = si_vel v).
Proof.
  intros m deg f o X P U G LX LP. destruct (inv_units o U) as [U' E']. destruct (good_undoes m deg f _ G X P LX LP) as (Y & Q & _ & _ & (A & B) & C & D). split.
  - intros x p V Ex Ep. pose proof (C68_calls_in_any_units m deg (4 + f) o (FArrs x p) U V) as K. cbn [si_fvalue] in K. rewrite Ex, Ep, A in K.
    destruct (ufcall m deg (4 + f) o (FArrs x p)) as [w y|]; [|contradiction]. destruct K as (-> & Uy & K).
    pose proof (C68_calls_in_any_units m deg (4 + f) (gfinverse o) y U' Uy) as K'. rewrite E', K, B in K'.
    destruct (ufcall m deg (4 + f) (gfinverse o) y) as [w z|]  eqn:Ez; [|contradiction]. destruct K' as (-> & _ & K'). destruct z; cbn [si_fvalue] in K'; try discriminate. injection K' as K1 K2. eauto 8.
  - intros q v V Eq Ev. pose proof (C68_calls_in_any_units m deg (4 + f) o (FPosVel q v) U V) as K. cbn [si_fvalue] in K. rewrite Eq, Ev, C in K.
    destruct (ufcall m deg (4 + f) o (FPosVel q v)) as [w y|]; [|contradiction]. destruct K as (-> & Uy & K).
    pose proof (C68_calls_in_any_units m deg (4 + f) (gfinverse o) y U' Uy) as K'. rewrite E', K, D in K'.
    destruct (ufcall m deg (4 + f) (gfinverse o) y) as [w z|]  eqn:Ez; [|contradiction]. destruct K' as (-> & _ & K'). destruct z as [|q' v'| |]; cbn [si_fvalue] in K'; try discriminate. injection K' as K1 K2 K3.
    exists y, q', v'. split; [reflexivity|]. split; [exact Ez|]. rewrite Eq, Ev. split; [exact K1|]. unfold si_vel, vfinite. rewrite K2. f_equal. exact K3.
Qed.
Print Assumptions C68_inverse_round_trip.

(** ** The Galactic centre goes to the origin and the Sun to its documented place, and a
    star at rest relative to the Sun gets the Sun's velocity, whatever units the frame
    and the argument are in. *)
Theorem C68_centre_sun_and_solar_velocity : forall m deg f g G, frame_units g -> si_frame g = gfinite G -> good_frame G ->
  (forall x, Forall (is_a length_d) x -> map uphys x = fin (galactic_centre G) ->
     exists y, ufcall m deg (4 + f) (FToGCF g) (FArr x) = Ok false (FArr y) /\ map uphys y = fin [0; 0; 0]) /\
  (forall x, Forall (is_a length_d) x -> map uphys x = fin [0; 0; 0] ->
     exists y, ufcall m deg (4 + f) (FToGCF g) (FArr x) = Ok false (FArr y) /\ map uphys y = fin (sun_place G)) /\
  (forall x p X, fvalue_units (FArrs x p) -> length X = 3%nat -> map uphys x = fin X -> map uphys p = fin [0; 0; 0] ->
     exists y v, ufcall m deg (4 + f) (FToGCF g) (FArrs x p) = Ok false (FArrs y v) /\ map uphys v = map uphys (g_vsun g)).
Proof.
  intros m deg f g G U E Gd. destruct (C32_centre_and_sun m deg f G Gd) as [A B]. split; [|split].
  - intros x Ux Ex. pose proof (C68_calls_in_any_units m deg (4 + f) (FToGCF g) (FArr x) U Ux) as K. cbn [si_fop si_fvalue] in K. rewrite E, Ex, A in K.
    destruct (ufcall m deg (4 + f) (FToGCF g) (FArr x)) as [w z|]; [|contradiction]. destruct K as (-> & _ & K). destruct z; try discriminate. injection K as K. eauto.
  - intros x Ux Ex. pose proof (C68_calls_in_any_units m deg (4 + f) (FToGCF g) (FArr x) U Ux) as K. cbn [si_fop si_fvalue] in K. rewrite E, Ex, B in K.
    destruct (ufcall m deg (4 + f) (FToGCF g) (FArr x)) as [w z|]; [|contradiction]. destruct K as (-> & _ & K). destruct z; try discriminate. injection K as K. eauto.
  - intros x p X Ux LX Ex Ep. pose proof (C68_calls_in_any_units m deg (4 + f) (FToGCF g) (FArrs x p) U Ux) as K. cbn [si_fop si_fvalue] in K. rewrite E, Ex, Ep in K.
    destruct (C32_solar_velocity m deg f G X Gd LX) as [X' S]. rewrite S in K.
    destruct (ufcall m deg (4 + f) (FToGCF g) (FArrs x p)) as [w z|]; [|contradiction]. destruct K as (-> & _ & K). destruct z as [| | |y v]; try discriminate. injection K as K1 K2.
    exists y, v. split; auto. rewrite K2. pose proof (f_equal g_vsun E) as EV. cbn [si_frame gfinite g_vsun] in EV. symmetry. exact EV.
Qed.
Print Assumptions C68_centre_sun_and_solar_velocity.

(** ** The units of the results: lengths come out in the unit of the argument's first
    length, speeds in the unit of its first speed, whatever the frame's units. *)
Lemma ok_inv {T} w w' (x y : T) : Ok w x = Ok w' y -> x = y. Proof. intros E. now injection E. Qed.
Lemma uqs_fold {A} `{Num A} `{Scal A} (l : list (uq A)) : forall x, uqs (fold_left nadd l x) = uqs x.
Proof. induction l as [|y l IH]; intros x; cbn [fold_left]; [reflexivity|]. now rewrite IH. Qed.
Lemma uqs_gdot {A} `{Num A} `{Scal A} (a : uq A) r x xs : uqs (gdot (a :: r) (x :: xs)) = uqs a * uqs x.
Proof. unfold gdot. cbn [combine map sum_list]. now rewrite uqs_fold. Qed.
Definition ones (M : mat (uq ext)) : Prop := exists a b c d e f g h i, M = [[a; b; c]; [d; e; f]; [g; h; i]] /\
  (uqs a = 1 /\ uqs b = 1 /\ uqs c = 1) /\ (uqs d = 1 /\ uqs e = 1 /\ uqs f = 1) /\ uqs g = 1 /\ uqs h = 1 /\ uqs i = 1.
Lemma ones_intro a b c d e f g h i : uqs a = 1 -> uqs b = 1 -> uqs c = 1 -> uqs d = 1 -> uqs e = 1 -> uqs f = 1 -> uqs g = 1 -> uqs h = 1 -> uqs i = 1 ->
  ones [[a; b; c]; [d; e; f]; [g; h; i]].
Proof. intros. do 9 eexists. split; [reflexivity|]. auto 12. Qed.
Lemma ones_mul P Q : ones P -> ones Q -> ones (gmatmul P Q).
Proof.
  intros (a & b & c & d & e & f & g & h & i & -> & (A1&A2&A3) & (A4&A5&A6) & A7&A8&A9) (a' & b' & c' & d' & e' & f' & g' & h' & i' & -> & (B1&B2&B3) & (B4&B5&B6) & B7&B8&B9).
  unfold gmatmul, gtranspose, gcolumn. cbn [map seq nth]. apply ones_intro; rewrite uqs_gdot, ?A1, ?A4, ?A7, ?B1, ?B2, ?B3; apply Rmult_1_l.
Qed.
Lemma ones_tr P : ones P -> ones (gtranspose P).
Proof. intros (a & b & c & d & e & f & g & h & i & -> & (A1&A2&A3) & (A4&A5&A6) & A7&A8&A9). unfold gtranspose, gcolumn. cbn [map seq nth]. now apply ones_intro. Qed.
Lemma ones_gcf g w ps : gto_gcf_parts uasin uroll0 g = Ok w ps -> ones (fst (fst ps)).
Proof.
  unfold gto_gcf_parts. destruct (dk (g_dist g)); try discriminate. cbv zeta. destruct (gcart_from _) as [w' o|]; cbn [bind]; [|discriminate]. unfold ret. cbn [bind]. intros E. apply (f_equal (fun r => match r with Ok _ p => p | Raise _ => ps end)) in E. cbv beta iota in E. rewrite <- E. cbn [fst].
  apply ones_mul; [|apply ones_mul; [apply ones_mul|] ]; apply ones_intro; reflexivity.
Qed.
Lemma ones_icrs m deg f g w ps : gto_icrs_parts m deg f uasin uroll0 g = Ok w ps -> ones (fst (fst ps)).
Proof.
  unfold gto_icrs_parts. destruct (gto_gcf_parts uasin uroll0 g) as [w1 [ [M o] v]|] eqn:E; cbn [bind]; [|discriminate]. apply ones_gcf in E. cbn [fst] in E.
  destruct (pos_neg m deg f o) as [w2 n|]; cbn [bind]; [|discriminate]. destruct (grotate m deg f _ n) as [w3 o'|]; cbn [bind]; [|discriminate]. unfold ret; cbn [bind].
  intros X. apply ok_inv in X. rewrite <- X. cbn [fst]. now apply ones_tr.
Qed.
Lemma self3 {A} `{Num A} m deg f (a b c : A) w q : represent_as m deg f nokw (PCart3 a b c) CCart3 = Ok w q -> q = PCart3 a b c.
Proof. destruct f; [discriminate|]. step. unfold ret. intros E. injection E as _ <-. reflexivity. Qed.
Lemma comps_self3 {A} `{Num A} m deg f (a b c : A) w l : cart_components m deg f (PCart3 a b c) = Ok w l -> l = [a; b; c].
Proof. destruct f; [discriminate|]. unfold cart_components, rep. step. unfold ret. intros E. injection E as _ <-. reflexivity. Qed.
Definition in_unit (s : R) (l : list (uq ext)) : Prop := length l = 3%nat /\ Forall (fun q => uqs q = s) l.
Lemma scale_q m deg f ps x1 x2 x3 w y : ones (fst (fst ps)) -> gapply_q m deg f ps [x1; x2; x3] = Ok w y -> in_unit (uqs x1) y.
Proof.
  destruct ps as [ [M o] v]. cbn [fst]. intros (a & b & c & d & e & f' & g & h & i & -> & (A1&A2&A3) & (A4&A5&A6) & A7&A8&A9).
  unfold gapply_q, gmatmul_vec. cbn [map gcart_from]. unfold ret. rewrite bind_ok. cbn [pos_add cart_add].
  unfold rep. destruct (represent_as m deg f nokw o CCart3) as [w1 o1|]; cbn [bind]; [|discriminate]. destruct o1; try discriminate. unfold ret. cbn [bind].
  match goal with |- context [cart_components m deg f ?p] => destruct (cart_components m deg f p) as [w2 o2|] eqn:E end; [|discriminate].
  apply comps_self3 in E. subst o2. intros X. apply ok_inv in X. rewrite <- X. split; [reflexivity|].
  repeat (constructor; [cbn [nadd Num_uq uqs]; rewrite uqs_gdot, ?A1, ?A4, ?A7; apply Rmult_1_l|]). constructor.
Qed.
Lemma scale_col m deg f ps x1 x2 x3 w y : ones (fst (fst ps)) -> 0 < uqs x1 -> ucolumn m deg f ps [x1; x2; x3] 0 = Ok w y -> in_unit 1 y.
Proof.
  destruct ps as [ [M o] v]. cbn [fst]. intros (a & b & c & d & e & f' & g & h & i & -> & (A1&A2&A3) & (A4&A5&A6) & A7&A8&A9) P.
  unfold ucolumn. cbn [map]. destruct (represent_as m deg f nokw o CCart3) as [w1 o1|]; cbn [bind]; [|discriminate].
  cbn [pos_add cart_add]. destruct (rep Traced deg f (pos_map uconst o1) CCart3) as [w2 o2|]; cbn [bind]; [|discriminate]. destruct o2; try discriminate. unfold ret. cbn [bind].
  intros X. apply ok_inv in X. rewrite <- X. split; [reflexivity|]. cbn [components map seq nth].
  repeat (constructor; [unfold jac_entry; cbn [uqs nadd Num_uq]; rewrite uqs_gdot; cbn [uconst utan uqs]; rewrite ?A1, ?A4, ?A7, Rmult_1_l; field; lra|]). constructor.
Qed.
Lemma scale_plus s a b : in_unit s a -> length b = 3%nat -> in_unit s (gplus a b).
Proof.
  intros [L F] L'. destruct a as [|a1 [|a2 [|a3 [|]]]]; try discriminate. destruct b as [|b1 [|b2 [|b3 [|]]]]; try discriminate.
  repeat match goal with X : Forall _ (_ :: _) |- _ => apply Forall_cons_iff in X; destruct X as [? X] end. split; [reflexivity|].
  unfold gplus. cbn [combine map]. repeat (constructor; [cbn [nadd Num_uq uqs]; assumption|]). constructor.
Qed.
Lemma scale_qp m deg f ps x1 x2 x3 p1 p2 p3 w y : ones (fst (fst ps)) -> 0 < uqs x1 -> length (snd ps) = 3%nat ->
  gapply_qp m deg f (ujac m deg f) umatvec ps [x1; x2; x3] [p1; p2; p3] = Ok w y -> in_unit (uqs x1) (fst y) /\ in_unit (uqs p1) (snd y).
Proof.
  intros O P L. unfold gapply_qp. destruct (gapply_q m deg f ps [x1; x2; x3]) as [w1 q|] eqn:Eq; cbn [bind]; [|discriminate].
  unfold ujac. cbn [seq mapM]. destruct (ucolumn m deg f ps [x1; x2; x3] 0) as [w2 c1|] eqn:E1; cbn [bind]; [|discriminate].
  destruct (ucolumn m deg f ps [x1; x2; x3] 1) as [w3 c2|] eqn:E2; cbn [bind]; [|discriminate]. destruct (ucolumn m deg f ps [x1; x2; x3] 2) as [w4 c3|] eqn:E3; cbn [bind]; [|discriminate].
  unfold ret. cbn [bind]. intros X. apply ok_inv in X. rewrite <- X. cbn [fst snd]. split; [eapply scale_q; eauto|]. apply scale_plus; auto.
  assert (L2 : length c2 = 3%nat /\ length c3 = 3%nat).
  { assert (K : forall i w c, ucolumn m deg f ps [x1; x2; x3] i = Ok w c -> length c = 3%nat).
    { intros i w' cc. unfold ucolumn. destruct ps as [ [M o] v]. destruct (map _ M) as [|? [|? [|? [|]]]]; try discriminate. destruct (represent_as m deg f nokw o CCart3) as [? o1|]; cbn [bind]; [|discriminate].
      cbn [pos_add cart_add]. destruct (rep Traced deg f (pos_map uconst o1) CCart3) as [? o2|]; cbn [bind]; [|discriminate]. destruct o2; try discriminate. unfold ret. cbn [bind]. intros X0. apply ok_inv in X0. rewrite <- X0. reflexivity. }
    split; eapply K; eauto. }
  destruct L2 as [L2 L3]. destruct (scale_col _ _ _ _ _ _ _ _ _ O P E1) as [L1 F1].
  destruct c1 as [|a1 [|a2 [|a3 [|]]]]; try discriminate. destruct c2 as [|b1 [|b2 [|b3 [|]]]]; try discriminate. destruct c3 as [|d1 [|d2 [|d3 [|]]]]; try discriminate.
  repeat match goal with X : Forall _ (_ :: _) |- _ => apply Forall_cons_iff in X; destruct X as [? X] end.
  split; [reflexivity|]. cbn [umatvec combine map].
  repeat (constructor; [cbn [nadd nmul Num_uq uqs]; repeat match goal with X : uqs _ = 1 |- _ => rewrite X end; apply Rmult_1_l|]). constructor.
Qed.
Theorem C68_results_in_the_units_of_the_argument : forall m deg f o g x1 x2 x3 p1 p2 p3 w y v,
  frame_units g -> o = FToGCF g \/ o = FToICRS g -> fvalue_units (FArrs [x1; x2; x3] [p1; p2; p3]) ->
  (ufcall m deg f o (FArrs [x1; x2; x3] [p1; p2; p3]) = Ok w (FArrs y v) ->
     length y = 3%nat /\ Forall (fun q => is_a length_d q /\ uqs q = uqs x1) y /\ length v = 3%nat /\ Forall (fun q => is_a speed_d q /\ uqs q = uqs p1) v) /\
  (ufcall m deg f o (FArr [x1; x2; x3]) = Ok w (FArr y) -> length y = 3%nat /\ Forall (fun q => is_a length_d q /\ uqs q = uqs x1) y).
Proof.
  intros m deg f o g x1 x2 x3 p1 p2 p3 w y v Ug Ho U.
  assert (Uo : fop_units o) by (destruct Ho as [-> | ->]; exact Ug).
  assert (V1 : 0 < uqs x1). { destruct U as [U _]. apply Forall_cons_iff in U. apply U. }
  assert (Fa : forall d s l, Forall (is_a d) l -> in_unit s l -> length l = 3%nat /\ Forall (fun q => is_a d q /\ uqs q = s) l).
  { intros d s l A [L B]. split; auto. clear L. induction l; constructor; inversion A; inversion B; subst; auto. }
  assert (Pa : exists ps, (forall x, ufcall m deg f o x = gframe_call m deg f (ujac m deg f) umatvec (uvel_represent_as m deg f nokw) ps x) /\
            forall w p, ps = Ok w p -> ones (fst (fst p)) /\ length (snd p) = 3%nat).
  { destruct Ho as [-> | ->]; eexists; (split; [intros x; reflexivity|]); intros w' p Ep.
    - split; [eapply ones_gcf; eauto|]. pose proof (u_to_gcf g _ (frame_fwd g Ug)) as R. rewrite Ep in R.
      destruct (gto_gcf_parts easin (ncst roll0) (si_frame g)); cbn [rres] in R; [|contradiction]. destruct R as (_ & _ & _ & S). apply speeds3 in S. destruct S as (? & ? & ? & ? & ? & ? & -> & _). reflexivity.
    - split; [eapply ones_icrs; eauto|]. pose proof (u_to_icrs m deg f g _ (frame_fwd g Ug)) as R. rewrite Ep in R.
      destruct (gto_icrs_parts m deg f easin (ncst roll0) (si_frame g)); cbn [rres] in R; [|contradiction]. destruct R as (_ & _ & _ & S). apply speeds3 in S. destruct S as (? & ? & ? & ? & ? & ? & -> & _). reflexivity. }
  destruct Pa as (ps & Ec & Hp). split; intros E.
  - pose proof (C68_calls_in_any_units m deg f o _ Uo U) as K. rewrite E in K. destruct (fcall _ _ _ _ _); [|contradiction]. destruct K as (_ & [K1 K2] & _).
    rewrite Ec in E. cbn [gframe_call] in E. destruct ps as [wp p|]; cbn [bind] in E; [|discriminate].
    destruct (gapply_qp m deg f (ujac m deg f) umatvec p [x1; x2; x3] [p1; p2; p3]) as [wq z|] eqn:Eq; cbn [bind] in E; [|discriminate]. unfold ret in E. cbn [bind] in E. injection E as _ E1 E2.
    destruct (Hp _ _ eq_refl) as [O L]. destruct (scale_qp _ _ _ _ _ _ _ _ _ _ _ _ O V1 L Eq) as [A B]. rewrite E1 in A. rewrite E2 in B.
    destruct (Fa _ _ _ K1 A), (Fa _ _ _ K2 B). auto.
  - pose proof (C68_calls_in_any_units m deg f o (FArr [x1; x2; x3]) Uo (proj1 U)) as K. rewrite E in K. destruct (fcall _ _ _ _ _); [|contradiction]. destruct K as (_ & K1 & _).
    rewrite Ec in E. cbn [gframe_call] in E. destruct ps as [wp p|]; cbn [bind] in E; [|discriminate].
    destruct (gapply_q m deg f p [x1; x2; x3]) as [wq z|] eqn:Eq; cbn [bind] in E; [|discriminate]. unfold ret in E. cbn [bind] in E. injection E as _ E1. subst z.
    destruct (Hp _ _ eq_refl) as [O L]. exact (Fa _ _ _ K1 (scale_q _ _ _ _ _ _ _ _ _ O Eq)).
Qed.
Print Assumptions C68_results_in_the_units_of_the_argument.

(** ** A distance given as a parallax or a distance modulus fails in any units. *)
Theorem C68_needs_a_length_distance : forall m deg f g x y z, dk (g_dist g) <> KDistance ->
  ufcall m deg f (FToGCF g) (FArr [x; y; z]) = Raise EUnit /\ ufcall m deg f (FToICRS g) (FArr [x; y; z]) = Raise EUnit.
Proof. intros m deg f g x y z H. unfold ufcall. cbn [gfcall gframe_call]. unfold gto_icrs_parts, gto_gcf_parts. destruct (dk (g_dist g)); [contradiction| |]; auto. Qed.
Print Assumptions C68_needs_a_length_distance.

(** ** A concrete case: the default frame as it is written in the code (degrees, kpc,
    pc, km/s), applied to a star given in pc and km/s. *)
Definition degr : R := PI / 180.
Definition default_frame : gcf (uq ext) :=
  mkGCF (q_ angle_d (2664051 / 10000) degr) (q_ angle_d (- (28936175 / 1000000)) degr) (mkDist KDistance (q_ length_d (8122 / 1000) (1000 * PC)))
    (q_ angle_d 0 degr) (q_ length_d (208 / 10) PC) [q_ speed_d (129 / 10) 1000; q_ speed_d (2456 / 10) 1000; q_ speed_d (778 / 100) 1000].
Example C68_nonvacuous : frame_units default_frame /\ si_frame default_frame = gfinite default_gcf /\ good_frame default_gcf /\
  fvalue_units (FArrs [q_ length_d 1 PC; q_ length_d 2 PC; q_ length_d 3 PC] [q_ speed_d 0 1000; q_ speed_d 0 1000; q_ speed_d 0 1000]).
Proof.
  pose proof PC_pos as PP. pose proof PI_RGT_0 as PI0. assert (D : 0 < degr) by (unfold degr; lra).
  assert (Q : forall d v s, 0 < s -> is_a d (q_ d v s)) by (intros; split; auto).
  assert (T : 0 < 1000) by lra. assert (T2 : 0 < 1000 * PC) by lra.
  split; [|split; [|split; [apply C31_case|] ] ].
  - unfold frame_units, default_frame. cbn [g_lon g_lat g_dist g_roll g_zsun g_vsun]. refine (conj _ (conj _ (conj _ (conj _ (conj _ (conj _ _)))))); auto. apply (Q length_d); auto. repeat (constructor; auto).
  - unfold si_frame, default_frame, gfinite, default_gcf, q_, uphys, degr, dist_map. cbn [g_lon g_lat g_dist g_roll g_zsun g_vsun uqs uqv dval dk map scl Scal_ext]. repeat first [lra | progress f_equal].
  - split; repeat (constructor; auto).
Qed.
