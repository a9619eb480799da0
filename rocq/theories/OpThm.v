(** * Lemmas about operators: what application does to events. *)
From Coq Require Import Reals Bool List ZArith Lra Lia Classical.
From Verif Require Import Num Vectors Spec Transform Pos3D Pos3DThm Dispatch PosGlue Arith ArithThm ArithThm2 Vel SpecVel FourVec Operators SpecOp.
Import ListNotations.
Open Scope R_scope.

(** ** Induction on operators *)
Section Ind.
Context {A : Type} (P : op A -> Prop).
Hypotheses (H0 : P OIdentity) (H1 : forall q, P (OSpatial q)) (H2 : forall v, P (OTranslation v))
  (H3 : forall M, P (ORotation M)) (H4 : forall v, P (OBoost v)) (H5 : forall v, P (OVelBoost v))
  (H6 : forall ops, Forall P ops -> P (OPipe ops)) (H7 : forall M T v, P (OGalilean M T v)).
Fixpoint op_ind' (o : op A) : P o :=
  match o with
  | OIdentity => H0 | OSpatial q => H1 q | OTranslation v => H2 v | ORotation M => H3 M
  | OBoost v => H4 v | OVelBoost v => H5 v
  | OPipe ops => H6 ops ((fix all l : Forall P l := match l with [] => Forall_nil P | o :: l => Forall_cons o (op_ind' o) (all l) end) ops)
  | OGalilean M T v => H7 M T v
  end.
End Ind.

Definition simple {A} (o : op A) : bool := match o with OPipe _ | OGalilean _ _ _ => false | _ => true end.

(** ** Chains *)
Fixpoint chain (ops : list (op R)) (e e' : event) : Prop :=
  match ops with [] => e' = e | o :: ops => exists e1, acts o e e1 /\ chain ops e1 e' end.
Lemma acts_pipe ops e e' : acts (OPipe ops) e e' <-> chain ops e e'.
Proof. cbn [acts]. revert e. induction ops as [|o ops IH]; intros e; [reflexivity|]. cbn [chain].
  split; intros (e1 & A & B); exists e1; split; auto; now apply IH. Qed.
Fixpoint vchain (ops : list (op R)) (e e' : event) : Prop :=
  match ops with [] => False | o :: ops => visits o e e' \/ exists e1, acts o e e1 /\ vchain ops e1 e' end.
Lemma visits_pipe ops e e' : visits (OPipe ops) e e' <-> vchain ops e e'.
Proof. cbn [visits]. revert e. induction ops as [|o ops IH]; intros e; [reflexivity|]. cbn [vchain].
  split; (intros [A|(e1 & A & B)]; [now left|right]); exists e1; split; auto; now apply IH. Qed.
Lemma good_pipe n ops : good n (OPipe ops) <-> Forall (good n) ops.
Proof. cbn [good]. induction ops as [|o ops IH]; [split; constructor|]. rewrite IH. split.
  - intros [A B]; now constructor. - intros H; inversion H; auto. Qed.
Lemma invertible_pipe ops : invertible (OPipe ops) <-> Forall invertible ops.
Proof. cbn [invertible]. induction ops as [|o ops IH]; [split; constructor|]. rewrite IH. split.
  - intros [A B]; now constructor. - intros H; inversion H; auto. Qed.
Lemma timeless_pipe ops : timeless (OPipe ops) <-> Forall timeless ops.
Proof. cbn [timeless]. induction ops as [|o ops IH]; [split; constructor|]. rewrite IH. split.
  - intros [A B]; now constructor. - intros H; inversion H; auto. Qed.

Lemma acts_galilean M T v e e' :
  acts (OGalilean M T v) e e' <-> chain [ORotation M; OTranslation T; OBoost v] e e'.
Proof.
  cbn [acts chain]. split.
  - intros (e1 & e2 & A & B & C). exists e1. split; auto. exists e2. split; auto. exists e'. auto.
  - intros (e1 & A & e2 & B & e3 & C & ->). exists e1, e2. auto.
Qed.
Lemma visits_galilean M T v e e' :
  visits (OGalilean M T v) e e' <-> vchain [ORotation M; OTranslation T; OBoost v] e e'.
Proof.
  cbn [visits vchain acts]. split.
  - intros [A|(e1 & A & [B|(e2 & B & C)])]; [now left| |]; right; exists e1; split; auto. right. exists e2. auto.
  - intros [A|(e1 & A & [B|(e2 & B & [C|(e3 & _ & [])])])]; [now left| |]; right; exists e1; split; auto. right. exists e2. auto.
Qed.
Lemma good_galilean n M T v : good n (OGalilean M T v) -> Forall (good n) [ORotation M; OTranslation T; OBoost v].
Proof. intros (-> & A & B & C). constructor; [|constructor; [|constructor; [|constructor]]]; cbn; auto. Qed.

Lemma chain_app a b e e' : chain (a ++ b) e e' <-> exists e1, chain a e e1 /\ chain b e1 e'.
Proof.
  revert e. induction a as [|o a IH]; intros e; cbn [app chain].
  - split; [intros H; exists e; auto | intros (e1 & -> & H); auto].
  - split.
    + intros (e1 & A & B). apply IH in B. destruct B as (e2 & B & C). exists e2. split; auto. exists e1; auto.
    + intros (e2 & (e1 & A & B) & C). exists e1. split; auto. apply IH. exists e2; auto.
Qed.

(** ** The loop of composites *)
Section Call.
Variables (m : mode) (deg : bool) (F : nat).
Notation call := (call m deg F).
Lemma call_pipe ops x : vector_kind x = true -> call (OPipe ops) x = loop call ops x.
Proof.
  intros K. assert (G : forall x, (fix go (ops : list (op ext)) (x : value ext) : res (value ext) :=
    match ops with [] => ret x | o :: ops => do y <- call o x; go ops y end) ops x = loop call ops x).
  { clear. induction ops as [|o ops IH]; intros x; [reflexivity|]. cbn [loop]. destruct (call o x); cbn [bind]; auto. now rewrite IH. }
  destruct x; try discriminate; apply G.
Qed.
Lemma bind_assoc {T U V} (a : res T) (f : T -> res U) (g : U -> res V) :
  bind (bind a f) g = bind a (fun x => bind (f x) g).
Proof. destruct a as [w v|]; cbn; auto. destruct (f v) as [w' v'|]; cbn; auto. destruct (g v'); cbn; auto. now rewrite orb_assoc. Qed.
Lemma bind_ret_r {T} (a : res T) : bind a (fun x => ret x) = a.
Proof. destruct a; cbn; auto. now rewrite orb_false_r. Qed.
Lemma bind_ext {T U} (a : res T) (f g : T -> res U) : (forall x, f x = g x) -> bind a f = bind a g.
Proof. intros H. destruct a; cbn; auto. now rewrite H. Qed.
Lemma call_galilean M T v x : vector_kind x = true ->
  call (OGalilean M T v) x = loop call [ORotation M; OTranslation T; OBoost v] x.
Proof.
  intros K. cbn [loop].
  transitivity (do y <- call (ORotation M) x; do z <- call (OTranslation T) y; call (OBoost v) z).
  { destruct x; try discriminate; reflexivity. }
  apply bind_ext; intros y. apply bind_ext; intros z. now rewrite bind_ret_r.
Qed.
Lemma loop_app f a b x : loop f (a ++ b) x = do y <- loop f a x; loop f b y.
Proof.
  revert x. induction a as [|o a IH]; intros x; cbn [app loop].
  - unfold ret. now rewrite bind_ok.
  - rewrite bind_assoc. apply bind_ext. intros y. apply IH.
Qed.
End Call.

(** ** Lists *)
Lemma vadd_cons x a y b : vadd (x :: a) (y :: b) = (x + y) :: vadd a b. Proof. reflexivity. Qed.
Lemma vadd_assoc a b c : length a = length b -> length b = length c -> vadd (vadd a b) c = vadd a (vadd b c).
Proof.
  revert b c. induction a as [|x a IH]; intros [|y b] [|z c] L L'; cbn in L, L'; try lia; auto.
  rewrite !vadd_cons, IH by lia. f_equal. lra.
Qed.
Lemma vadd_neg a b : length a = length b -> vadd (vadd a b) (vscale (-1) b) = a.
Proof.
  revert b. induction a as [|x a IH]; intros [|y b] L; cbn in L; try lia; auto.
  cbn [vscale map]. change (map (fun x => -1 * x) b) with (vscale (-1) b). rewrite !vadd_cons, IH by lia. f_equal. lra.
Qed.
Lemma vadd_neg' a b : length a = length b -> vadd (vadd a (vscale (-1) b)) b = a.
Proof.
  revert b. induction a as [|x a IH]; intros [|y b] L; cbn in L; try lia; auto.
  cbn [vscale map]. change (map (fun x => -1 * x) b) with (vscale (-1) b). rewrite !vadd_cons, IH by lia. f_equal. lra.
Qed.
Lemma rot_length M x : length (rot M x) = length M. Proof. apply map_length. Qed.

(** ** Positions that are never negative *)
Lemma length_radial_nn p : valid p -> length_radial p -> ~ negative_field p.
Proof.
  intros V L. destruct p; cbn in *; auto; try (destruct r as [k v]); try (destruct d as [k v]); cbn in *; subst; unfold valid_dist in V; cbn in V; try lra.
Qed.
Lemma good_result p n : valid p -> length_radial p -> cls_of p <> CTwoSphere -> dim_of (cls_of p) = n -> good_pos n p.
Proof. intros. split; [|split; [|split]]; auto. now apply length_radial_nn. Qed.
Lemma can_hold_two c pt : can_hold c pt -> c <> CTwoSphere.
Proof. intros [_ H] ->. exact H. Qed.

(** ** Matrices over finite numbers *)
Notation efin := (@map R ext (@Some R)).
Notation mfin := (@map (list R) (list ext) (@map R ext (@Some R))).
Notation vfin := (@vel_map R ext (@Some R)).
Lemma dot_some r x : dot (efin r) (efin x) = Some (vsum (vmul r x)).
Proof.
  unfold dot, vsum, vmul. revert x. induction r as [|a r IH]; intros [|b x]; cbn; auto.
  specialize (IH x). cbn in IH. rewrite IH. reflexivity.
Qed.
Lemma matmul_vec_some M x : matmul_vec (mfin M) (efin x) = efin (rot M x).
Proof. unfold matmul_vec, rot. rewrite !map_map. apply map_ext. intros r. apply dot_some. Qed.

(** ** One step, on the place *)
Section Step.
Variables (m : mode) (deg : bool) (f : nat).
Notation F := (4 + f)%nat.

Lemma vel_times n v t : cart_vel n v -> vel_mul_time m (vfin v) (Some t) = Ok false (finite (cart_pos (vscale t (vcomps v)))) /\
  cls_of (cart_pos (vscale t (vcomps v))) = match n with 1%nat => CCart1 | 2%nat => CCart2 | _ => CCart3 end /\ length (vcomps v) = n.
Proof.
  intros [L C]. destruct v as [c u]; cbn in *.
  destruct n as [|[|[|[|]]]]; try contradiction; subst c;
  repeat (destruct u as [|? u]; cbn in L; try discriminate L); split;
  try (split; reflexivity); unfold vel_mul_time; cbn; unfold ret; rewrite ?(Rmult_comm t); reflexivity.
Qed.
Lemma boost_ok n v t q a : cart_vel n v -> good_pos n q -> denotes q a -> can_hold (cls_of q) (vadd a (vscale t (vcomps v))) ->
  exists s, boost_pos m deg F (vfin v) (finite q) (Some t) = Ok false (finite s) /\ cls_of s = cls_of q /\ good_pos n s /\
    denotes s (vadd a (vscale t (vcomps v))).
Proof.
  intros CV (V & N & T & Dm) D H. destruct (vel_times n v t CV) as (E & C & L). unfold boost_pos. rewrite E, bind_ok.
  set (d := cart_pos (vscale t (vcomps v))) in *.
  assert (Dd : dim_of (cls_of d) = n) by (rewrite C; destruct CV as [_ CV]; destruct n as [|[|[|[|]]]]; try contradiction; reflexivity).
  assert (Ld : length (vscale t (vcomps v)) = dim_of (cls_of d)) by (rewrite vscale_length, L; now symmetry).
  destruct (cart_pos_denotes _ _ Ld) as (D1 & V1 & C1 & L1 & N1). fold d in D1, V1, C1, L1, N1.
  destruct (add_ok m deg f q d a (vscale t (vcomps v))) as (s & A1 & A2 & A3 & A4 & A5); auto.
  - rewrite C1. destruct (cls_of d); discriminate.
  - now rewrite Dd.
  - exists s. split; auto. split; auto. split; auto. apply good_result; auto; now rewrite A2.
Qed.
Lemma rotate_ok' M q a : square3 M -> good_pos 3 q -> denotes q a -> can_hold (cls_of q) (rot M a) ->
  exists s, rotate m deg F (mfin M) (finite q) = Ok false (finite s) /\ cls_of s = cls_of q /\ good_pos 3 s /\ denotes s (rot M a) /\ length_radial s.
Proof.
  intros [SM _] (V & N & T & Dm) D H. unfold rotate.
  replace (cls_of (finite q)) with (cls_of q) by (destruct q; reflexivity). rewrite Dm.
  pose proof (to_cart' m deg f q a V N T D) as E. unfold rep in E.
  replace (cart_cls (cls_of q)) with CCart3 in E by (unfold cart_cls; now rewrite Dm).
  rewrite E, bind_ok. pose proof (denotes_length q a D T) as La. rewrite Dm in La.
  destruct a as [|x [|y [|z [|]]]]; cbn in La; try discriminate La. cbn [cart_pos finite pos_map].
  change ([Some x; Some y; Some z]) with (efin [x; y; z]). rewrite matmul_vec_some.
  pose proof (rot_length M [x; y; z]) as LR. rewrite SM in LR.
  destruct (from_cart m deg f nokw (cls_of q) _ H) as (s & E3 & C3 & V3 & D3 & L3 & _).
  destruct (rot M [x; y; z]) as [|x' [|y' [|z' [|]]]] eqn:ER; cbn in LR; try discriminate LR.
  exists s. split; [exact E3|]. split; auto. split; auto. apply good_result; auto; rewrite C3; auto.
Qed.
Lemma rotate_ok M q a : square3 M -> good_pos 3 q -> denotes q a -> can_hold (cls_of q) (rot M a) ->
  exists s, rotate m deg F (mfin M) (finite q) = Ok false (finite s) /\ cls_of s = cls_of q /\ good_pos 3 s /\ denotes s (rot M a).
Proof. intros A B C D. destruct (rotate_ok' M q a A B C D) as (s & A1 & A2 & A3 & A4 & _). exists s. auto. Qed.
Lemma translate_ok n q tr a b : good_pos n q -> good_pos n tr -> denotes q a -> denotes tr b -> can_hold (cls_of q) (vadd a b) ->
  exists s, pos_add m deg F (finite q) (finite tr) = Ok false (finite s) /\ cls_of s = cls_of q /\ good_pos n s /\ denotes s (vadd a b).
Proof.
  intros (V & N & T & Dm) (V' & N' & T' & Dm') D D' H.
  destruct (add_ok m deg f q tr a b) as (s & A1 & A2 & A3 & A4 & A5); auto. { now rewrite Dm'. }
  exists s. split; auto. split; auto. split; auto. apply good_result; auto; now rewrite A2.
Qed.

(** ** The application of an operator *)
Definition posT_ok n (o : op R) : Prop := forall e e' q, good n o -> good_pos n q -> denotes q (fst e) -> acts o e e' ->
  (forall e1, visits o e e1 -> can_hold (cls_of q) (fst e1)) ->
  exists q', call m deg F (ofinite o) (VPosT (finite q) (Some (snd e))) = Ok false (VPosT (finite q') (Some (snd e'))) /\
    cls_of q' = cls_of q /\ good_pos n q' /\ denotes q' (fst e').

Lemma loop_posT n ops : Forall (posT_ok n) ops -> Forall (good n) ops -> forall e e' q, good_pos n q -> denotes q (fst e) -> chain ops e e' ->
  (forall e1, vchain ops e e1 -> can_hold (cls_of q) (fst e1)) ->
  exists q', loop (call m deg F) (map ofinite ops) (VPosT (finite q) (Some (snd e))) = Ok false (VPosT (finite q') (Some (snd e'))) /\
    cls_of q' = cls_of q /\ good_pos n q' /\ denotes q' (fst e').
Proof.
  intros H. induction H as [|o ops Ho Hops IH]; intros Go e e' q Gq D A S.
  - cbn in A. subst e'. exists q. auto.
  - inversion Go; subst. cbn [chain] in A. destruct A as (e1 & A1 & A2). cbn [map loop].
    destruct (Ho e e1 q) as (s & B1 & B2 & B3 & B4); auto. { intros e2 V2. apply S. now left. }
    rewrite B1, bind_ok.
    destruct (IH H2 e1 e' s) as (s' & C1 & C2 & C3 & C4); auto.
    { intros e2 V2. rewrite B2. apply S. right. exists e1. auto. }
    exists s'. split; auto. split; auto. now rewrite C2.
Qed.
Lemma ofinite_pipe ops : ofinite (OPipe ops) = OPipe (map ofinite ops). Proof. reflexivity. Qed.

Lemma call_posT n o : posT_ok n o.
Proof.
  assert (single : forall o, simple o = true -> posT_ok n o).
  { intros o0 Sm [x t] e' p Go Gp D A S; cbn [fst snd] in *. destruct o0; try discriminate Sm; clear Sm.
  - cbn in A. subst e'. exists p. auto.
  - cbn in A. destruct A as (b & Db & ->). cbn [fst snd].
    destruct (translate_ok n p translation x b) as (s & A1 & A2 & A3 & A4); auto. { apply (S (vadd x b, t)). exists b; auto. }
    exists s. split; auto. unfold ofinite. cbn [op_map]. cbn [call call_single call_vec]. fold (finite translation). rewrite A1, bind_ok. reflexivity.
  - cbn in A. destruct A as (b & Db & ->). cbn [fst snd]. destruct Go as [-> Go].
    destruct (translate_ok 3 p (fq translation) x b) as (s & A1 & A2 & A3 & A4); auto. { apply (S (vadd x b, t + ft translation)). exists b; auto. }
    exists s. split; auto. unfold ofinite. cbn [op_map]. cbn [call call_single call_vec].
    replace (cls_of (finite p)) with (cls_of p) by (destruct p; reflexivity).
    destruct Gp as (_ & _ & _ & ->). cbn [fq fv_map]. fold (finite (fq translation)). rewrite A1, bind_ok. reflexivity.
  - cbn in A. subst e'. cbn [fst snd]. destruct Go as [-> Go].
    destruct (rotate_ok rotation p x) as (s & A1 & A2 & A3 & A4); auto. { apply (S (rot rotation x, t)). reflexivity. }
    exists s. split; auto. unfold ofinite. cbn [op_map]. cbn [call call_single call_vec]. rewrite A1, bind_ok. reflexivity.
  - cbn in A. subst e'. cbn [fst snd].
    destruct (boost_ok n velocity t p x) as (s & A1 & A2 & A3 & A4); auto. { apply (S (vadd x (vscale t (vcomps velocity)), t)). reflexivity. }
    exists s. split; auto. unfold ofinite. cbn [op_map]. cbn [call call_single call_vec]. rewrite A1, bind_ok. reflexivity.
  - cbn in A. subst e'. exists p. auto. }
  induction o using op_ind'; try (apply single; reflexivity).
  - intros e e' q Go Gq D A S. rewrite ofinite_pipe, call_pipe by reflexivity. rewrite good_pipe in Go. rewrite acts_pipe in A.
    eapply loop_posT; eauto. intros e1 H1; apply S; now apply visits_pipe.
  - intros e e' q Go Gq D A S. unfold ofinite. cbn [op_map]. rewrite call_galilean by reflexivity. rewrite acts_galilean in A. apply good_galilean in Go.
    apply (loop_posT n [ORotation M; OTranslation T; OBoost v]).
    + constructor; [|constructor; [|constructor; [|constructor]]]; apply single; reflexivity.
    + exact Go. + exact Gq. + exact D. + exact A.
    + intros e1 H1; apply S; now apply visits_galilean.
Qed.
End Step.

(** ** The three call signatures agree *)
Section Agree.
Variables (m : mode) (deg : bool) (F : nat).
Fixpoint rotates_ext (o : op ext) : bool :=
  match o with
  | ORotation _ | OGalilean _ _ _ => true
  | OPipe ops => existsb rotates_ext ops
  | _ => false
  end.
Definition cres (c : ext) (b : bool) : ext := if b then ncst c_light else c.
(** A FourVector behaves as its (q, t) pair; [c] is reset by rotations. *)
Definition as_four (c : ext) (x : value ext) : value ext :=
  match x with VPosT q t => VFour (mkFV t q c) | _ => x end.
Definition map_res {T U} (g : T -> U) (r : res T) : res U := match r with Ok w v => Ok w (g v) | Raise e => Raise e end.
Lemma map_res_bind {T U V} (g : U -> V) (a : res T) (h : T -> res U) : map_res g (bind a h) = bind a (fun x => map_res g (h x)).
Proof. destruct a as [w v|]; cbn; auto. destruct (h v); reflexivity. Qed.
Lemma bind_Ok {T U} (a : res T) (g : T -> res U) w v : bind a g = Ok w v -> exists w1 w2 x, a = Ok w1 x /\ g x = Ok w2 v /\ w = (w1 || w2).
Proof. destruct a as [w1 x|]; cbn; [|discriminate]. destruct (g x) as [w2 y|] eqn:E; [|discriminate]. intros H. injection H as <- <-. exists w1, w2, x. auto. Qed.
Lemma rep_cls (p : pos ext) t w q : rep m deg F p t = Ok w q -> cls_of q = t.
Proof. intros H. now apply (rep_class (A:=ext)) in H. Qed.
Lemma cart_add_cls (p q s : pos ext) w : cart_add m deg F p q = Ok w s -> cls_of s = cls_of p.
Proof.
  unfold cart_add. intros H. destruct p; try discriminate; apply bind_Ok in H; destruct H as (w1 & w2 & c & E & G & _);
  destruct c; try discriminate; injection G as _ <-; reflexivity.
Qed.
Lemma pos_add_cls (p q s : pos ext) w : pos_add m deg F p q = Ok w s -> cls_of s = cls_of p.
Proof.
  unfold pos_add. intros H. destruct p; try (now apply cart_add_cls in H);
  (apply bind_Ok in H; destruct H as (? & ? & a & _ & H & _); apply bind_Ok in H; destruct H as (? & ? & b & _ & H & _);
   apply bind_Ok in H; destruct H as (? & ? & c & _ & H & _); now apply rep_cls in H).
Qed.
Lemma rotate_cls M q w q' : rotate m deg F M q = Ok w q' -> cls_of q' = cls_of q.
Proof.
  unfold rotate. intros H. destruct (dim_of (cls_of q)) as [|[|[|[|]]]]; try discriminate.
  apply bind_Ok in H. destruct H as (? & ? & c & _ & H & _). destruct c; try discriminate.
  destruct (matmul_vec M _) as [|? [|? [|? [|]]]]; try discriminate. now apply rep_cls in H.
Qed.
Lemma boost_cls v q t w q' : boost_pos m deg F v q t = Ok w q' -> cls_of q' = cls_of q.
Proof. unfold boost_pos. intros H. apply bind_Ok in H. destruct H as (? & ? & c & _ & H & _). now apply pos_add_cls in H. Qed.

Definition keeps_kind (o : op ext) : Prop := forall q t w v, call m deg F o (VPosT q t) = Ok w v -> exists q' t', v = VPosT q' t' /\ cls_of q' = cls_of q.
Lemma loop_kind ops : Forall keeps_kind ops -> forall q t w v, loop (call m deg F) ops (VPosT q t) = Ok w v -> exists q' t', v = VPosT q' t' /\ cls_of q' = cls_of q.
Proof.
  induction 1 as [|o ops Ho Hops IH]; intros q t w v H.
  - injection H as <- <-. eauto.
  - cbn [loop] in H. apply bind_Ok in H. destruct H as (? & ? & y & H1 & H2 & _).
    apply Ho in H1. destruct H1 as (q1 & t1 & -> & C1). apply IH in H2. destruct H2 as (q2 & t2 & -> & C2).
    exists q2, t2. split; auto. congruence.
Qed.
Lemma call_kind o : keeps_kind o.
Proof.
  assert (single : forall o, simple o = true -> keeps_kind o).
  { clear o. intros o Sm q t w v H. destruct o; try discriminate Sm; cbn [call call_single call_vec] in H.
    - injection H as <- <-. eauto.
    - apply bind_Ok in H. destruct H as (? & ? & q' & H & G & _). injection G as _ <-. apply pos_add_cls in H. eauto.
    - destruct (dim_of (cls_of q)) as [|[|[|[|]]]]; try discriminate. apply bind_Ok in H. destruct H as (? & ? & q' & H & G & _). injection G as _ <-. apply pos_add_cls in H. eauto.
    - apply bind_Ok in H. destruct H as (? & ? & q' & H & G & _). injection G as _ <-. apply rotate_cls in H. eauto.
    - apply bind_Ok in H. destruct H as (? & ? & q' & H & G & _). injection G as _ <-. apply boost_cls in H. eauto.
    - injection H as <- <-. eauto. }
  induction o using op_ind'; try (apply single; reflexivity).
  - intros q t w v E. rewrite call_pipe in E by reflexivity. eapply loop_kind; eauto.
  - intros q t w v0 E. rewrite call_galilean in E by reflexivity. eapply loop_kind; [|exact E].
    repeat (constructor; [apply single; reflexivity|]). constructor.
Qed.

Definition agrees (o : op ext) : Prop := forall q t c, dim_of (cls_of q) = 3%nat ->
  call m deg F o (VFour (mkFV t q c)) = map_res (as_four (cres c (rotates_ext o))) (call m deg F o (VPosT q t)).
Lemma cres_or c a b : cres (cres c a) b = cres c (a || b).
Proof. destruct a, b; reflexivity. Qed.
Lemma loop_agrees ops : Forall agrees ops -> forall q t c, dim_of (cls_of q) = 3%nat ->
  loop (call m deg F) ops (VFour (mkFV t q c)) = map_res (as_four (cres c (existsb rotates_ext ops))) (loop (call m deg F) ops (VPosT q t)).
Proof.
  induction 1 as [|o ops Ho Hops IH]; intros q t c D.
  - reflexivity.
  - cbn [loop existsb]. rewrite (Ho q t c D).
    destruct (call m deg F o (VPosT q t)) as [w v|e] eqn:E; [|reflexivity].
    destruct (call_kind _ _ _ _ _ E) as (q' & t' & -> & C). cbn [map_res as_four bind].
    rewrite IH by congruence. rewrite cres_or. destruct (loop _ ops (VPosT q' t')); reflexivity.
Qed.
Lemma call_agrees o : agrees o.
Proof.
  assert (single : forall o, simple o = true -> agrees o).
  { clear o. intros o Sm q t c D. destruct o; try discriminate Sm; cbn [call call_single call_vec rotates_ext cres fq ft fc]; try reflexivity.
    - destruct (pos_add _ _ _ q translation); reflexivity.
    - rewrite D. unfold fv_add. cbn [fq ft fc]. destruct (pos_add _ _ _ q _); [|reflexivity]. cbn. now rewrite !orb_false_r.
    - destruct (rotate _ _ _ _ q); reflexivity.
    - destruct (boost_pos _ _ _ _ q t); reflexivity. }
  induction o using op_ind'; try (apply single; reflexivity).
  - intros q t c D. rewrite !call_pipe by reflexivity. now apply loop_agrees.
  - intros q t c D. rewrite !call_galilean by reflexivity. rewrite loop_agrees; auto.
Qed.

(** A place without a time, for operators that do not need one. *)
Fixpoint timeless_ext (o : op ext) : bool :=
  match o with
  | OTranslation _ | OBoost _ | OGalilean _ _ _ => false
  | OPipe ops => forallb timeless_ext ops
  | _ => true
  end.
Definition drop_t (x : value ext) : value ext := match x with VPosT q _ => VPos q | _ => x end.
Definition agrees_p (o : op ext) : Prop := timeless_ext o = true -> forall q t,
  call m deg F o (VPos q) = map_res drop_t (call m deg F o (VPosT q t)).
Lemma loop_agrees_p ops : Forall agrees_p ops -> forallb timeless_ext ops = true -> forall q t,
  loop (call m deg F) ops (VPos q) = map_res drop_t (loop (call m deg F) ops (VPosT q t)).
Proof.
  induction 1 as [|o ops Ho Hops IH]; intros H q t.
  - reflexivity.
  - cbn [forallb] in H. apply andb_prop in H. destruct H as [H1 H2]. cbn [loop]. rewrite (Ho H1 q t).
    destruct (call m deg F o (VPosT q t)) as [w v|e] eqn:E; [|reflexivity].
    destruct (call_kind _ _ _ _ _ E) as (q' & t' & -> & C). cbn [map_res drop_t bind].
    rewrite (IH H2 q' t'). destruct (loop _ ops (VPosT q' t')); reflexivity.
Qed.
Lemma call_agrees_p o : agrees_p o.
Proof.
  induction o using op_ind'; intros Tl q0 t0; try discriminate Tl; try reflexivity.
  - cbn [call call_single call_vec]. destruct (pos_add _ _ _ q0 q); reflexivity.
  - cbn [call call_single call_vec]. destruct (rotate _ _ _ _ q0); reflexivity.
  - rewrite !call_pipe by reflexivity. now apply loop_agrees_p.
Qed.
(** Otherwise there is no such overload. *)
Lemma call_needs_time o q : simple o = true -> timeless_ext o = false -> call m deg F o (VPos q) = Raise ENotFound.
Proof. destruct o; intros; try discriminate; reflexivity. Qed.
Lemma galilean_needs_time M T v q : exists e, call m deg F (OGalilean M T v) (VPos q) = Raise e.
Proof.
  rewrite call_galilean by reflexivity. cbn [loop call call_single call_vec].
  destruct (rotate _ _ _ M q) as [w v0|e]; cbn; eauto.
Qed.
End Agree.
