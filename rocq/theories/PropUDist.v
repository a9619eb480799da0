(** * Property C75: distances, parallaxes and distance moduli in any unit and any shape.

    C34 and C35 are about one element in SI units.  Here the objects hold arrays, in any
    unit of the right dimension.
    Vocabulary: [element d idx] = the SI value (metres, radians, magnitudes) at index
    [idx]; [valid s idx] (ShapesThm.v): [idx] is an index of an array of shape [s]. *)
From Coq Require Import Reals List Bool Arith ZArith Lra Lia.
From Verif Require Import Num Vectors Units UnitsThm UQ UQThm Shapes ShapesThm BatchThm Pos3DThm Distances PropDist UDist.
Import ListNotations.
Open Scope R_scope.

(** ** Specification *)
(** The SI value of element [idx] of the quantity [q] is the real number [x]. *)
Definition holds (q : quant) (idx : list nat) (x : R) : Prop :=
  exists v, adat (nval q) idx = Some v /\ v * uscale (nunit q) = x.
(** the dimension and the units a class allows: any length, any angle, "mag" *)
Definition allowed (c : dkind) (u : unit_) : Prop :=
  match c with
  | KDistance => udim u = length_d /\ 0 < uscale u
  | KParallax => udim u = angle_d /\ 0 < uscale u
  | KDistMod => udim u = mag_d /\ uscale u = 1
  end.
Definition proper (d : udist) : Prop := allowed (ucls d) (nunit (uq_ d)).
(** [x] per element: an array of shape [s] of lengths, angles or magnitudes *)
Definition array_of (c : dkind) (d : udist) (s : list nat) (x : list nat -> R) : Prop :=
  ucls d = c /\ proper d /\ ash (nval (uq_ d)) = s /\ forall idx, valid s idx -> holds (uq_ d) idx (x idx).

(** ** Helpers *)
Definition si1 (q : quant) (idx : list nat) : ext := scl (uscale (nunit q)) (adat (nval q) idx).
Lemma holds_si q idx x : holds q idx x <-> si1 q idx = Some x.
Proof.
  unfold holds, si1. destruct (adat (nval q) idx) as [v|]; cbn; split.
  - intros (w & E & <-). injection E as <-. f_equal. ring.
  - intros E. injection E as <-. exists v. split; auto. ring.
  - intros (w & E & _). discriminate E.
  - discriminate.
Qed.
Lemma dimE a b : dim_eqb a b = true <-> a = b.
Proof. split; [apply dim_eqb_true|intros ->; apply dim_eqb_refl]. Qed.
Lemma unitE u v : unit_eqb u v = true <-> u = v.
Proof.
  unfold unit_eqb. rewrite andb_true_iff, dimE. destruct u as [du su], v as [dv sv]; cbn. split.
  - intros [-> E]. apply Reqb_true in E. now subst.
  - intros E. injection E as -> ->. split; auto. now apply Reqb_true.
Qed.
Lemma allowed_mag u : allowed KDistMod u <-> u = mag_unit.
Proof. destruct u as [d s]. cbn. unfold mag_unit. split; [intros [-> ->]; auto|intros E; injection E as -> ->; auto]. Qed.
Lemma allowed_new m c q : allowed c (nunit q) -> (c = KParallax -> forall idx, valid (ash (nval q)) idx -> nltb (adat (nval q) idx) (ncst 0) = false) ->
  new m c q = Ok false (mkUD c q).
Proof.
  destruct c; cbn [new allowed]; intros A H.
  - unfold new_Distance. destruct A as [-> _]. reflexivity.
  - unfold new_Parallax. destruct A as [-> _]. rewrite dim_eqb_refl. cbn [andb].
    replace (existsb _ _) with false; [reflexivity|]. symmetry. apply not_true_is_false. intros E. apply existsb_exists in E.
    destruct E as (x & I & L). apply in_elements in I. destruct I as (idx & V & <-). rewrite H in L; auto. discriminate L.
  - unfold new_DistMod. apply allowed_mag in A. rewrite A. now rewrite (proj2 (unitE _ _) eq_refl).
Qed.
Lemma scl_1 (x : ext) : scl 1 x = x. Proof. destruct x; cbn; auto. now rewrite Rmult_1_l. Qed.
Lemma scl_scl a b (x : ext) : scl a (scl b x) = scl (a * b) x. Proof. destruct x; cbn; auto. f_equal. ring. Qed.
Lemma natan2_AU k (x : ext) : natan2 (ncst 1 : ext) (scl (k / AU) x) = natan2 (ncst AU) (scl k x).
Proof.
  pose proof AU_pos. rewrite <- (s_atan2 scal_ext AU (ncst 1) (scl (k / AU) x)) by auto. rewrite scl_scl.
  replace (AU * (k / AU)) with k by (field; lra). cbn [scl Scal_ext ncst Num_ext]. now rewrite Rmult_1_r.
Qed.
Lemma atan_not_neg (x : ext) : nltb (natan2 (ncst AU : ext) x) (ncst 0) = false.
Proof. destruct x as [x|]; cbn; auto. apply Rltb_false. pose proof (at2_gt x). lra. Qed.

(** ** C75 *)
(** *** Constructors: the unit must be of the right dimension ("mag" itself for a
    modulus); a parallax must have no negative element (outside [jit]). *)
Theorem C75_Distance_constructor : forall q,
  (udim (nunit q) = length_d -> new_Distance q = Ok false (mkUD KDistance q)) /\
  (udim (nunit q) <> length_d -> new_Distance q = Raise EValue).
Proof. intros q. unfold new_Distance. split; intros H; [now rewrite (proj2 (dimE _ _) H)|]. destruct (dim_eqb _ _) eqn:E; auto. now apply dimE in E. Qed.
Print Assumptions C75_Distance_constructor.
Theorem C75_Parallax_constructor : forall m chk q, udim (nunit q) = angle_d -> 0 < uscale (nunit q) ->
  let negative := exists idx x, valid (ash (nval q)) idx /\ holds q idx x /\ x < 0 in
  (m = Eager /\ chk = true /\ negative -> new_Parallax m chk q = Raise ENegative) /\
  (m = Traced \/ chk = false \/ ~ negative -> new_Parallax m chk q = Ok false (mkUD KParallax q)).
Proof.
  intros m chk q D S negative. unfold new_Parallax. rewrite D, dim_eqb_refl.
  assert (N : existsb (fun x => nltb x (ncst 0)) (elements (nval q)) = true <-> negative).
  { rewrite existsb_exists. unfold negative, holds. split.
    - intros (x & I & L). apply in_elements in I. destruct I as (idx & V & E). destruct x as [v|]; [|discriminate L]. cbn in L. apply Rltb_true in L.
      exists idx, (v * uscale (nunit q)). split; auto. split; [eauto|]. nra.
    - intros (idx & x & V & (v & E & <-) & L). exists (Some v). split; [apply in_elements; eauto|]. cbn. apply Rltb_true. nra. }
  split.
  - intros (-> & -> & H). apply N in H. rewrite H. reflexivity.
  - intros [-> |[-> |H]]; cbn [andb]; rewrite ?andb_false_r; try reflexivity.
    destruct (existsb _ _) eqn:E; [exfalso; now apply H, N|now rewrite andb_false_r].
Qed.
Print Assumptions C75_Parallax_constructor.
Theorem C75_Parallax_dimension : forall m chk q, udim (nunit q) <> angle_d -> new_Parallax m chk q = Raise EValue.
Proof. intros m chk q H. unfold new_Parallax. destruct (dim_eqb _ _) eqn:E; auto. now apply dimE in E. Qed.
Print Assumptions C75_Parallax_dimension.
(** Finding: a modulus in millimagnitudes is refused. *)
Theorem C75_finding_modulus_only_in_mag : forall q,
  (nunit q = mag_unit -> new_DistMod q = Ok false (mkUD KDistMod q)) /\ (nunit q <> mag_unit -> new_DistMod q = Raise EValue).
Proof. intros q. unfold new_DistMod. split; intros H; [now rewrite (proj2 (unitE _ _) H)|]. destruct (unit_eqb _ _) eqn:E; auto. now apply unitE in E. Qed.
Print Assumptions C75_finding_modulus_only_in_mag.
Example C75_millimag : new_DistMod (mkQuant (mkArr [2%nat] (fun _ => Some 3)) (mkUnit mag_d (/1000))) = Raise EValue.
Proof. apply C75_finding_modulus_only_in_mag. cbn. unfold mag_unit. intros E. injection E. lra. Qed.

(** *** Conversions: element by element what C34 says, whatever the unit *)
Definition convert_to (m : mode) (c : dkind) (d : udist) : res udist :=
  match c with KDistance => u_distance d | KParallax => u_parallax m d | KDistMod => u_distmod d end.
(** the conversion of one SI value: Distances.v *)
Definition convert1 (m : mode) (c : dkind) (d : dist ext) : res (dist ext) :=
  match c with KDistance => to_distance d | KParallax => to_parallax m d | KDistMod => to_distmod d end.
(** the unit of the result: that of the object itself, or AU, pc, radian, magnitude *)
Definition result_unit (c : dkind) (d : udist) : unit_ :=
  match ucls d, c with
  | KDistance, KDistance | KParallax, KParallax | KDistMod, KDistMod => nunit (uq_ d)
  | KParallax, KDistance => mkUnit length_d AU
  | KDistMod, KDistance => mkUnit length_d PC
  | _, KParallax => mkUnit angle_d 1
  | _, KDistMod => mkUnit mag_d 1
  end.
Lemma u_distance_ok d : proper d -> exists q, u_distance d = Ok false (mkUD KDistance q) /\ ash (nval q) = ash (nval (uq_ d)) /\
  nunit q = result_unit KDistance d /\ allowed KDistance (nunit q) /\
  forall idx, to_distance (mkDist (ucls d) (si1 (uq_ d) idx)) = Ok false (mkDist KDistance (si1 q idx)).
Proof.
  pose proof AU_pos as AP. pose proof PC_pos as PP. destruct d as [[| |] q]; unfold proper, result_unit; cbn [ucls uq_]; intros A.
  - exists q. repeat split; auto; try apply A.
  - exists (au_over_tan q). destruct A as [D S]. cbn [u_distance ucls uq_]. unfold new_Distance. cbn [au_over_tan nunit AU_unit udim uscale]. rewrite dim_eqb_refl.
    split; [reflexivity|]. split; [reflexivity|]. split; [reflexivity|]. split; [split; auto|]. intros idx. cbn [to_distance dk dval mk_Distance]. unfold ret. do 2 f_equal.
    unfold si1, au_over_tan, strip, emap, AU_unit. cbn [nunit nval uscale adat]. replace (uscale (nunit q) / 1) with (uscale (nunit q)) by field.
    generalize (ntan (scl (uscale (nunit q)) (adat (nval q) idx))). intros [y|]; cbn; auto. destruct (Reqb y 0); cbn; auto. f_equal. unfold Rdiv. ring.
  - exists (ten_pow (nval q)). cbn [u_distance ucls uq_]. unfold new_Distance. cbn [ten_pow nunit pc_unit udim uscale]. rewrite dim_eqb_refl.
    split; [reflexivity|]. split; [reflexivity|]. split; [reflexivity|]. split; [split; auto|]. intros idx. cbn [to_distance dk dval mk_Distance]. unfold ret. do 2 f_equal.
    unfold si1, ten_pow, emap, pc_unit. cbn [nunit nval uscale adat]. apply allowed_mag in A. rewrite A. cbn [uscale mag_unit]. rewrite scl_1.
    generalize (nexp10 (nadd (ndiv (adat (nval q) idx) (ncst 5)) (ncst 1))). intros [y|]; cbn; auto. f_equal. ring.
Qed.
Lemma atan_au_ok m q : allowed KDistance (nunit q) -> new_Parallax m true (atan_au q) = Ok false (mkUD KParallax (atan_au q)) /\
  allowed KParallax (nunit (atan_au q)) /\ forall idx, mk_Parallax m true KParallax (natan2 (ncst AU) (si1 q idx)) = Ok false (mkDist KParallax (si1 (atan_au q) idx)).
Proof.
  intros A. assert (A' : allowed KParallax (nunit (atan_au q))) by (cbn; split; [auto|lra]).
  assert (E : forall idx, adat (nval (atan_au q)) idx = natan2 (ncst AU) (si1 q idx)).
  { intros idx. unfold atan_au, strip, emap. cbn [nval adat]. apply natan2_AU. }
  split; [|split; auto].
  - apply (allowed_new m KParallax (atan_au q) A'). intros _ idx _. rewrite E. apply atan_not_neg.
  - intros idx. assert (Q : si1 (atan_au q) idx = natan2 (ncst AU) (si1 q idx)) by (unfold si1 at 1; rewrite E; apply scl_1).
    rewrite Q. unfold mk_Parallax. rewrite atan_not_neg. destruct m; reflexivity.
Qed.
Lemma five_log_ok q : allowed KDistance (nunit q) -> new_DistMod (five_log q) = Ok false (mkUD KDistMod (five_log q)) /\
  forall idx, mk_DistMod KDistMod (nmul (ncst 5) (elog10 (ndiv (si1 q idx) (nmul (ncst 10) (ncst PC))))) = Ok false (mkDist KDistMod (si1 (five_log q) idx)).
Proof.
  intros A. pose proof PC_pos. split; [apply C75_finding_modulus_only_in_mag; reflexivity|]. intros idx. unfold mk_DistMod, ret. do 2 f_equal. unfold si1, five_log, emap.
  cbn [nval nunit adat mag_unit uscale]. rewrite scl_1. do 2 f_equal. destruct (adat (nval q) idx) as [v|]; [|reflexivity]. cbn [scl Scal_ext]. rewrite div10.
  cbn. destruct (Reqb 10 0) eqn:E; [apply Reqb_true in E; lra|]. cbn. f_equal. field. lra.
Qed.
Theorem C75_conversions_element_by_element : forall m c d, proper d ->
  exists d', convert_to m c d = Ok false d' /\ ucls d' = c /\ proper d' /\ nunit (uq_ d') = result_unit c d /\
    ash (nval (uq_ d')) = ash (nval (uq_ d)) /\
    forall idx, convert1 m c (mkDist (ucls d) (si1 (uq_ d) idx)) = Ok false (mkDist c (si1 (uq_ d') idx)).
Proof.
  intros m c d P. destruct (u_distance_ok d P) as (l & El & Sl & Ul & Al & Dl). destruct c; cbn [convert_to convert1].
  - exists (mkUD KDistance l). exact (conj El (conj eq_refl (conj Al (conj Ul (conj Sl Dl))))).
  - destruct (atan_au_ok m l Al) as (N & A & X). destruct d as [[| |] q]; cbn [u_parallax ucls uq_].
    + injection El as <-. exists (mkUD KParallax (atan_au q)). exact (conj N (conj eq_refl (conj A (conj eq_refl (conj eq_refl X))))).
    + exists (mkUD KParallax q). exact (conj eq_refl (conj eq_refl (conj P (conj eq_refl (conj eq_refl (fun _ => eq_refl)))))).
    + rewrite El, bind_ok. cbn [uq_]. exists (mkUD KParallax (atan_au l)). rewrite N. refine (conj eq_refl (conj eq_refl (conj A (conj eq_refl (conj _ _))))); [exact Sl|].
      intros idx. unfold to_parallax. cbn [dk]. rewrite Dl, bind_ok. cbn [dval]. exact (X idx).
  - destruct (five_log_ok l Al) as (N & X). destruct d as [[| |] q]; cbn [u_distmod ucls uq_].
    + injection El as <-. exists (mkUD KDistMod (five_log q)). refine (conj N (conj eq_refl (conj _ (conj eq_refl (conj eq_refl X))))). cbn; auto.
    + rewrite El, bind_ok. cbn [uq_]. exists (mkUD KDistMod (five_log l)). rewrite N. refine (conj eq_refl (conj eq_refl (conj _ (conj eq_refl (conj _ _))))); [cbn; auto|exact Sl|].
      intros idx. unfold to_distmod. cbn [dk]. rewrite Dl, bind_ok. cbn [dval]. exact (X idx).
    + exists (mkUD KDistMod q). exact (conj eq_refl (conj eq_refl (conj P (conj eq_refl (conj eq_refl (fun _ => eq_refl)))))).
Qed.
Print Assumptions C75_conversions_element_by_element.
Lemma elementwise m c d s x (f : R -> R) : array_of (ucls d) d s x ->
  (forall idx, valid s idx -> convert1 m c (mkDist (ucls d) (Some (x idx) : ext)) = Ok false (mkDist c (Some (f (x idx)) : ext))) ->
  exists d', convert_to m c d = Ok false d' /\ array_of c d' s (fun idx => f (x idx)) /\ nunit (uq_ d') = result_unit c d.
Proof.
  intros (_ & P & S & H) K. destruct (C75_conversions_element_by_element m c d P) as (d' & E & C & P' & U & S' & X).
  exists d'. split; auto. split; auto. split; auto. split; auto. split; [congruence|]. intros idx V. apply holds_si.
  specialize (X idx). pose proof (proj1 (holds_si _ _ _) (H idx V)) as Y. rewrite Y, K in X by auto. now injection X as <-.
Qed.

(** *** In words: parallax, distance and modulus of every element *)
Theorem C75_parallax_of_lengths : forall m d s x, array_of KDistance d s x -> (forall idx, valid s idx -> 0 < x idx) ->
  exists d' p, u_parallax m d = Ok false d' /\ array_of KParallax d' s p /\ nunit (uq_ d') = mkUnit angle_d 1 /\
    forall idx, valid s idx -> 0 < p idx < PI / 2 /\ x idx * tan (p idx) = AU.
Proof.
  intros m d s x A H. pose proof A as (C & _). destruct (elementwise m KParallax d s x (fun v => Ratan2 AU v)) as (d' & E & A' & U); [now rewrite C| |].
  { intros idx V. rewrite C. apply (mk_Parallax_ok m (Ratan2 AU (x idx))). pose proof (at2_gt (x idx)). lra. }
  exists d', (fun idx => Ratan2 AU (x idx)). split; [exact E|]. split; auto. split; [rewrite U; unfold result_unit; now rewrite C|].
  intros idx V. pose proof (H idx V) as X. split; [now apply at2_range|]. rewrite (proj2 (tan_at2 (x idx) ltac:(lra))). field. lra.
Qed.
Print Assumptions C75_parallax_of_lengths.
Theorem C75_length_of_parallaxes : forall d s p, array_of KParallax d s p -> (forall idx, valid s idx -> 0 < p idx < PI / 2) ->
  exists d' x, u_distance d = Ok false d' /\ array_of KDistance d' s x /\ nunit (uq_ d') = mkUnit length_d AU /\
    forall idx, valid s idx -> 0 < x idx /\ x idx * tan (p idx) = AU.
Proof.
  intros d s p A H. pose proof A as (C & _). destruct (elementwise Eager KDistance d s p (fun v => AU / tan v)) as (d' & E & A' & U); [now rewrite C| |].
  { intros idx V. rewrite C. cbn [convert1]. unfold to_distance. cbn [dk dval]. destruct (at2_tan (p idx)) as (Q & T & _); [pose proof (H idx V); pose proof PI_RGT_0; lra|pose proof (H idx V); lra|].
    now rewrite fin_tan. }
  exists d', (fun idx => AU / tan (p idx)). split; [exact E|]. split; auto. split; [rewrite U; unfold result_unit; now rewrite C|].
  intros idx V. pose proof AU_pos. assert (0 < tan (p idx)) by (apply tan_gt_0; apply H; auto). split; [apply Rdiv_lt_0_compat; lra|]. field. lra.
Qed.
Print Assumptions C75_length_of_parallaxes.
Theorem C75_modulus_of_lengths : forall d s x, array_of KDistance d s x -> (forall idx, valid s idx -> 0 < x idx) ->
  exists d' mu, u_distmod d = Ok false d' /\ array_of KDistMod d' s mu /\
    forall idx, valid s idx -> x idx = 10 * PC * Rpower 10 (mu idx / 5).
Proof.
  intros d s x A H. pose proof A as (C & _). pose proof PC_pos. pose proof ln10.
  destruct (elementwise Eager KDistMod d s x (fun v => 5 * (ln (v / (10 * PC)) / ln 10))) as (d' & E & A' & U); [now rewrite C| |].
  { intros idx V. rewrite C. cbn [convert1]. unfold to_distmod. cbn [dk dval]. rewrite div10, elog10_ok by (apply Rdiv_lt_0_compat; [now apply H|lra]). reflexivity. }
  exists d', (fun idx => 5 * (ln (x idx / (10 * PC)) / ln 10)). split; [exact E|]. split; auto.
  intros idx V. pose proof (H idx V). unfold Rpower. replace (5 * (ln (x idx / (10 * PC)) / ln 10) / 5 * ln 10) with (ln (x idx / (10 * PC))) by (field; lra).
  rewrite exp_ln by (apply Rdiv_lt_0_compat; lra). field. lra.
Qed.
Print Assumptions C75_modulus_of_lengths.
Theorem C75_length_of_moduli : forall d s mu, array_of KDistMod d s mu ->
  exists d' x, u_distance d = Ok false d' /\ array_of KDistance d' s x /\ nunit (uq_ d') = mkUnit length_d PC /\
    forall idx, valid s idx -> x idx = 10 * PC * Rpower 10 (mu idx / 5).
Proof.
  intros d s mu A. pose proof A as (C & _).
  destruct (elementwise Eager KDistance d s mu (fun v => Rpower 10 (v / 5 + 1) * PC)) as (d' & E & A' & U); [now rewrite C| |].
  { intros idx V. rewrite C. cbn [convert1]. unfold to_distance. cbn [dk dval]. rewrite div5. reflexivity. }
  exists d', (fun idx => Rpower 10 (mu idx / 5 + 1) * PC). split; [exact E|]. split; auto. split; [rewrite U; unfold result_unit; now rewrite C|].
  intros idx V. rewrite exp10_1. ring.
Qed.
Print Assumptions C75_length_of_moduli.

(** *** Round trips: the same values, in the unit of the last conversion *)
Lemma trip m c d s x : array_of (ucls d) d s x -> (forall idx, valid s idx ->
    (do y <- convert1 m c (mkDist (ucls d) (Some (x idx) : ext)); convert1 m (ucls d) y) = Ok false (mkDist (ucls d) (Some (x idx) : ext))) ->
  exists d', (do y <- convert_to m c d; convert_to m (ucls d) y) = Ok false d' /\ array_of (ucls d) d' s x.
Proof.
  intros (_ & P & S & H) K. destruct (C75_conversions_element_by_element m c d P) as (y & E & C & P' & _ & S' & X).
  destruct (C75_conversions_element_by_element m (ucls d) y P') as (z & E' & C' & P'' & _ & S'' & X'). exists z. rewrite E, bind_ok. split; auto.
  split; auto. split; auto. split; [congruence|]. intros idx V. apply holds_si. specialize (K idx V). specialize (X idx). specialize (X' idx).
  rewrite (proj1 (holds_si _ _ _) (H idx V)) in X. rewrite X, bind_ok in K. rewrite C in X'. rewrite X' in K. now injection K as ->.
Qed.
Theorem C75_round_trips : forall m s x d,
  (array_of KDistance d s x -> (forall idx, valid s idx -> x idx <> 0) ->
     exists d', (do p <- u_parallax m d; u_distance p) = Ok false d' /\ array_of KDistance d' s x) /\
  (array_of KDistance d s x -> (forall idx, valid s idx -> 0 < x idx) ->
     exists d', (do p <- u_distmod d; u_distance p) = Ok false d' /\ array_of KDistance d' s x) /\
  (array_of KParallax d s x -> (forall idx, valid s idx -> 0 < x idx < PI /\ x idx <> PI / 2) ->
     exists d', (do l <- u_distance d; u_parallax m l) = Ok false d' /\ array_of KParallax d' s x) /\
  (array_of KParallax d s x -> (forall idx, valid s idx -> 0 < x idx < PI / 2) ->
     exists d', (do l <- u_distmod d; u_parallax m l) = Ok false d' /\ array_of KParallax d' s x) /\
  (array_of KDistMod d s x -> exists d', (do l <- u_distance d; u_distmod l) = Ok false d' /\ array_of KDistMod d' s x) /\
  (array_of KDistMod d s x -> exists d', (do l <- u_parallax m d; u_distmod l) = Ok false d' /\ array_of KDistMod d' s x).
Proof.
  intros m s x d.
  assert (T : forall c b, array_of b d s x -> (forall idx, valid s idx -> (do y <- convert1 m c (mkDist b (Some (x idx) : ext)); convert1 m b y) = Ok false (mkDist b (Some (x idx) : ext))) ->
     exists d', (do y <- convert_to m c d; convert_to m b y) = Ok false d' /\ array_of b d' s x).
  { intros c b A. pose proof A as (C & _). rewrite <- C in *. now apply trip. }
  refine (conj _ (conj _ (conj _ (conj _ (conj _ _))))).
  - intros A H. refine (T KParallax _ A _). intros. apply C34_distance_parallax_distance; auto.
  - intros A H. refine (T KDistMod _ A _). intros. apply C34_distance_modulus_distance; auto.
  - intros A H. refine (T KDistance _ A _). intros. apply C34_parallax_distance_parallax; now apply H.
  - intros A H. refine (T KDistMod _ A _). intros. apply C34_parallax_modulus_parallax; auto.
  - intros A. refine (T KDistance _ A _). intros. apply C34_modulus_distance_modulus.
  - intros A. refine (T KParallax _ A _). intros. apply C34_modulus_parallax_modulus.
Qed.
Print Assumptions C75_round_trips.

(** *** [from_] and [convert] *)
(** [from_] of a Quantity converts by dimension; moduli may be in any unit of magnitude. *)
Theorem C75_from : forall m q,
  (udim (nunit q) = length_d -> u_from m KDistance q = Ok false (mkUD KDistance q) /\
     u_from m KParallax q = u_parallax m (mkUD KDistance q)) /\
  (udim (nunit q) = angle_d -> u_from m KDistance q = u_distance (mkUD KParallax q) /\ u_from m KParallax q = new_Parallax m true q) /\
  (udim (nunit q) = mag_d -> u_from m KParallax q = Raise EValue /\
     u_from m KDistance q = u_distance (mkUD KDistMod (mkQuant (strip 1 q) mag_unit))) /\
  (u_from m KDistMod q = new_DistMod q).
Proof.
  intros m q. unfold u_from, new_Distance. split; [|split; [|split]].
  - intros ->. split; reflexivity.
  - intros ->. split; reflexivity.
  - intros E. rewrite E. split; [|reflexivity]. cbn. apply C75_Parallax_dimension. rewrite E. discriminate.
  - reflexivity.
Qed.
Print Assumptions C75_from.
(** Any other dimension: ValueError. *)
Theorem C75_from_other_dimension : forall m c q, udim (nunit q) <> length_d -> udim (nunit q) <> angle_d -> udim (nunit q) <> mag_d ->
  u_from m c q = Raise EValue.
Proof.
  intros m c q L A M. assert (N : forall d, udim (nunit q) <> d -> dim_eqb (udim (nunit q)) d = false).
  { intros d H. destruct (dim_eqb _ _) eqn:E; auto. now apply dimE in E. }
  destruct c; unfold u_from; rewrite ?N by auto.
  - now apply C75_Distance_constructor.
  - now apply C75_Parallax_dimension.
  - apply C75_finding_modulus_only_in_mag. intros E. apply M. now rewrite E.
Qed.
Print Assumptions C75_from_other_dimension.
(** [convert] (also of an astropy Quantity) never computes: the same value and unit, or an
    exception; to Quantity and back is the identity. *)
Theorem C75_convert : forall m c d w d',
  (u_convert m c d = Ok w d' -> w = false /\ ucls d' = c /\ uq_ d' = uq_ d) /\
  (forall q, u_convert_quantity m c q = Ok w d' -> w = false /\ ucls d' = c /\ u_quantity d' = q /\ u_convert_quantity m c (u_quantity d') = Ok false d').
Proof.
  assert (N : forall m c q w d', new m c q = Ok w d' -> w = false /\ d' = mkUD c q).
  { intros m c q w d'. destruct c; cbn [new]; unfold new_Distance, new_Parallax, new_DistMod; repeat match goal with |- context [if ?b then _ else _] => destruct b end; unfold ret; intros K; try discriminate K; injection K as <- <-; auto. }
  intros m c d w d'. split.
  - unfold u_convert. destruct (dkind_eqb (ucls d) c) eqn:E.
    + unfold ret. intros K. injection K as <- <-. split; auto. split; auto. destruct (ucls d), c; auto; discriminate E.
    + intros K. apply N in K. destruct K as [-> ->]. auto.
  - intros q K. unfold u_convert_quantity in *. pose proof K as K'. apply N in K'. destruct K' as [-> ->]. auto.
Qed.
Print Assumptions C75_convert.
(** Finding (as in C34): [convert] to another class raises, where [.distance] etc. convert. *)
Theorem C75_finding_convert_to_another_class_raises : forall m c d, proper d -> ucls d <> c -> u_convert m c d = Raise EValue.
Proof.
  intros m c d P N. unfold u_convert. replace (dkind_eqb (ucls d) c) with false by (symmetry; destruct (ucls d), c; auto; contradiction).
  unfold proper in P. destruct d as [[| |] q]; cbn [ucls uq_ allowed] in *; destruct P as [D _]; destruct c; try contradiction; cbn [new];
  unfold new_Distance, new_Parallax, new_DistMod, unit_eqb; rewrite D; reflexivity.
Qed.
Print Assumptions C75_finding_convert_to_another_class_raises.

(** *** A case: two stars, in parsec *)
Definition stars : udist := mkUD KDistance (mkQuant (mkArr [2%nat] (fun idx => match idx with [O] => Some 10 | _ => Some 100 end)) (mkUnit length_d PC)).
Example C75_case : array_of KDistance stars [2%nat] (fun idx => match idx with [O] => 10 * PC | _ => 100 * PC end) /\
  forall idx, valid [2%nat] idx -> 0 < match idx with [O] => 10 * PC | _ => 100 * PC end.
Proof.
  pose proof PC_pos. split.
  - repeat split; auto. intros idx V. unfold holds. cbn. destruct idx as [|[|] [|]]; eexists; split; reflexivity.
  - intros idx _. destruct idx as [|[|] [|]]; lra.
Qed.
