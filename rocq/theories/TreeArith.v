(** * Sums, differences and comparisons through [jax.tree.map].

    [jax.tree.map(f, v, w)] needs [v] and [w] to have the same tree structure, and the
    unit of a quantity is part of the structure (static data): with unequal units it
    raises ValueError.  Of the binary operations on vectors only the addition of
    CartesianPos3D works component by component on quantities, which converts units.
    Arith.v models the operations without this check; on numbers that have no unit (SI
    values, floating point) the functions below are proved to be those of Arith.v.

    Files modelled: d1/cartesian.py:67-92, 136-161, 206-228, d2/cartesian.py:81-101,
    142-158, 218-238, d3/cartesian.py:99-117, 135-151, 276-289, base/base_pos.py:96-137,
    180-194, 450-460, base/base.py:545-618. *)
From Coq Require Import Reals Bool List ZArith.
From Verif Require Import Num Vectors Spec Transform Pos3D Vel Units UQ Arith Dispatch.
Import ListNotations.

(** The static part of a number: its unit, if it has one. *)
Class Static (A : Type) := { same_unit : A -> A -> bool }.
#[export] Instance Static_ext : Static ext := {| same_unit := fun _ _ => true |}.
#[export] Instance Static_dual : Static dual := {| same_unit := fun _ _ => true |}.
Definition udim_eqb (a b : udim_) : bool :=
  match a, b with Some d, Some d' => dim_eqb d d' | None, None => true | _, _ => false end.
#[export] Instance Static_uq {A} : Static (uq A) :=
  {| same_unit := fun a b => udim_eqb (uqd a) (uqd b) && Reqb (uqs a) (uqs b) |}.

Section Tree.
Context {A : Type} {NA : Num A} {SA : Static A}.
(** one leaf of [jax.tree.map(f, v, w)] *)
Definition leaf {T} (f : A -> A -> T) (x y : A) : res T := if same_unit x y then ret (f x y) else Raise EValue.
Variables (m : mode) (deg : bool) (fuel : nat).
Local Open Scope num_scope.
Notation rep := (rep m deg fuel).

(** [v + w] with a Cartesian left operand: d1/cartesian.py:92, d2/cartesian.py:101,
    d3/cartesian.py:114-117 (no [tree.map]) *)
Definition tcart_add (p q : pos A) : res (pos A) :=
  match p with
  | PCart1 x => do c <- rep q CCart1;
      match c with PCart1 x' => do s <- leaf nadd x x'; ret (PCart1 s) | _ => Raise EType end
  | PCart2 x y => do c <- rep q CCart2;
      match c with PCart2 x' y' => do s <- leaf nadd x x'; do t <- leaf nadd y y'; ret (PCart2 s t) | _ => Raise EType end
  | _ => cart_add m deg fuel p q
  end.
(** base/base_pos.py:180-194; the Cartesian rules are more specific *)
Definition tpos_add (p q : pos A) : res (pos A) :=
  match p with
  | PCart1 _ | PCart2 _ _ | PCart3 _ _ _ => tcart_add p q
  | _ =>
      let c := cart_cls (cls_of p) in
      do a <- rep p c; do b <- rep q c; do s <- tcart_add a b; rep s (cls_of p)
  end.
(** [v - w] with a Cartesian left operand: d1/cartesian.py:161, d2/cartesian.py:158,
    d3/cartesian.py:151 *)
Definition tcart_sub (p q : pos A) : res (pos A) :=
  match p with
  | PCart1 x => do c <- rep q CCart1;
      match c with PCart1 x' => do s <- leaf nsub x x'; ret (PCart1 s) | _ => Raise EType end
  | PCart2 x y => do c <- rep q CCart2;
      match c with PCart2 x' y' => do s <- leaf nsub x x'; do t <- leaf nsub y y'; ret (PCart2 s t) | _ => Raise EType end
  | PCart3 x y z => do c <- rep q CCart3;
      match c with PCart3 x' y' z' => do s <- leaf nsub x x'; do t <- leaf nsub y y'; do u <- leaf nsub z z'; ret (PCart3 s t u) | _ => Raise EType end
  | _ => Raise EType
  end.
(** base/base_pos.py:450-460 *)
Definition tpos_sub (p q : pos A) : res (pos A) :=
  match p with
  | PCart1 _ | PCart2 _ _ | PCart3 _ _ _ => tcart_sub p q
  | _ =>
      let c := cart_cls (cls_of p) in
      do a <- rep p c; do b <- rep q c; do s <- tcart_sub a b; rep s (cls_of p)
  end.

(** The numbers in a vector, [Delta] included: the leaves of the tree *)
Definition leaves (p : pos A) : list A :=
  match p with
  | PCart1 x => [x]
  | PRadial r => [dval r]
  | PCart2 x y => [x; y]
  | PPolar r a => [dval r; a]
  | PTwoSphere a b => [a; b]
  | PCart3 x y z => [x; y; z]
  | PCyl x y z => [x; y; z]
  | PSph r a b => [dval r; a; b]
  | PMSph r a b => [dval r; a; b]
  | PLonLat a b r => [a; b; dval r]
  | PProlate a b c d => [a; b; c; d]
  end.
Fixpoint same_units (l l' : list A) : bool :=
  match l, l' with
  | [], [] => true
  | x :: l, y :: l' => same_unit x y && same_units l l'
  | _, _ => false
  end.
(** [v == w]: base/base_pos.py:130-134, base/base.py:613-618.  Both have the same class
    when [tree.map] is reached. *)
Definition tpos_eq (p q : pos A) : res bool :=
  do q' <- rep q (cls_of p);
  do e <- eq_components p q';
  if same_units (leaves p) (leaves q') then ret e else Raise EValue.
(** d1/cartesian.py:228, d2/cartesian.py:235, d3/cartesian.py:289 *)
Definition tvel_add (v w : vel A) : res (vel A) :=
  match vc v, vc w with
  | WCart1, WCart1 | WCart2, WCart2 | WCart3, WCart3 =>
      if forallb (fun '(x, y) => same_unit x y) (combine (vcomps v) (vcomps w))
      then ret (mkVel (vc v) (map (fun '(x, y) => x + y) (combine (vcomps v) (vcomps w)))) else Raise EValue
  | _, _ => Raise ERuntime
  end.

(** ** The check can only turn a result into a ValueError *)
Definition weak {T} (r r' : res T) : Prop := r = r' \/ r = Raise EValue.
Lemma weak_refl {T} (r : res T) : weak r r. Proof. now left. Qed.
Lemma weak_bind {T U} (r r' : res T) (k k' : T -> res U) : weak r r' -> (forall w x, r' = Ok w x -> weak (k x) (k' x)) -> weak (bind r k) (bind r' k').
Proof.
  intros [->| ->] K; [|now right]. destruct r' as [w x|e]; [|now left]. cbn [bind]. destruct (K w x eq_refl) as [->| ->]; [now left|now right].
Qed.
Lemma tcart_add_weak p q : weak (tcart_add p q) (cart_add m deg fuel p q).
Proof.
  destruct p; cbn [tcart_add cart_add]; try apply weak_refl; (apply weak_bind; [apply weak_refl|]); intros w c _; destruct c; try apply weak_refl; unfold leaf;
  repeat match goal with |- context [if ?b then _ else _] => destruct b; unfold ret; cbn [bind]; try (now right) end; now left.
Qed.
Lemma tpos_add_weak p q : weak (tpos_add p q) (pos_add m deg fuel p q).
Proof.
  pose proof (tcart_add_weak p q) as C. destruct p; cbn [tpos_add pos_add]; try exact C;
  repeat (apply weak_bind; [first [apply weak_refl|apply tcart_add_weak]|intros]); apply weak_refl.
Qed.
Lemma tcart_sub_weak p q : weak (tcart_sub p q) (cart_sub m deg fuel p q).
Proof.
  destruct p; cbn [tcart_sub cart_sub]; try apply weak_refl; (apply weak_bind; [apply weak_refl|]); intros w c _; destruct c; try apply weak_refl; unfold leaf;
  repeat match goal with |- context [if ?b then _ else _] => destruct b; unfold ret; cbn [bind]; try (now right) end; now left.
Qed.
Lemma tpos_sub_weak p q : weak (tpos_sub p q) (pos_sub m deg fuel p q).
Proof.
  pose proof (tcart_sub_weak p q) as C. destruct p; cbn [tpos_sub pos_sub]; try exact C;
  repeat (apply weak_bind; [first [apply weak_refl|apply tcart_sub_weak]|intros]); apply weak_refl.
Qed.
Lemma bind_ret {T} (r : res T) : bind r (fun x => ret x) = r.
Proof. destruct r as [w x|e]; [|reflexivity]. unfold ret. cbn [bind]. now rewrite orb_false_r. Qed.
Lemma tpos_eq_weak p q : weak (tpos_eq p q) (pos_eq m deg fuel p q).
Proof.
  unfold tpos_eq, pos_eq. apply weak_bind; [apply weak_refl|]. intros w q' _. rewrite <- (bind_ret (eq_components p q')) at 2.
  apply weak_bind; [apply weak_refl|]. intros w' e _. destruct (same_units _ _); [now left|now right].
Qed.

(** ** Sums in space do not check *)
Lemma tpos_add_3d p q : dim_of (cls_of p) = 3%nat -> tpos_add p q = pos_add m deg fuel p q.
Proof.
  intros D.
  assert (G : forall c, c = cart_cls (cls_of p) -> (do a <- rep p c; do b <- rep q c; do s <- tcart_add a b; rep s (cls_of p))
    = (do a <- rep p c; do b <- rep q c; do s <- cart_add m deg fuel a b; rep s (cls_of p))).
  { intros c ->. destruct (rep p (cart_cls (cls_of p))) as [w a|e] eqn:E; [|reflexivity]. apply rep_class in E. destruct E as [E _].
    assert (Ea : cls_of a = CCart3) by (rewrite E; unfold cart_cls; now rewrite D). cbn [bind]. destruct a; try discriminate Ea. reflexivity. }
  destruct p; try discriminate D; try reflexivity; exact (G _ eq_refl).
Qed.
(** ** On numbers without units nothing is checked *)
Hypothesis NU : forall x y : A, same_unit x y = true.
Lemma leaf_ok {T} (f : A -> A -> T) x y : leaf f x y = ret (f x y).
Proof. unfold leaf. now rewrite NU. Qed.
Lemma tcart_add_eq p q : tcart_add p q = cart_add m deg fuel p q.
Proof.
  destruct p; cbn [tcart_add cart_add]; try reflexivity;
  (match goal with |- context [rep q ?c] => destruct (rep q c) as [w c'|e] end; [|reflexivity]; cbn [bind]; destruct c'; rewrite ?leaf_ok; reflexivity).
Qed.
Lemma tpos_add_eq p q : tpos_add p q = pos_add m deg fuel p q.
Proof.
  pose proof (tcart_add_eq p q) as C. destruct p; cbn [tpos_add pos_add]; try exact C; cbv zeta;
  repeat (apply Dispatch.bind_ext; [first [reflexivity|apply tcart_add_eq]|intros]); reflexivity.
Qed.
Lemma tcart_sub_eq p q : tcart_sub p q = cart_sub m deg fuel p q.
Proof.
  destruct p; cbn [tcart_sub cart_sub]; try reflexivity;
  (match goal with |- context [rep q ?c] => destruct (rep q c) as [w c'|e] end; [|reflexivity]; cbn [bind]; destruct c'; rewrite ?leaf_ok; reflexivity).
Qed.
Lemma tpos_sub_eq p q : tpos_sub p q = pos_sub m deg fuel p q.
Proof.
  pose proof (tcart_sub_eq p q) as C. destruct p; cbn [tpos_sub pos_sub]; try exact C; cbv zeta;
  repeat (apply Dispatch.bind_ext; [first [reflexivity|apply tcart_sub_eq]|intros]); reflexivity.
Qed.
Lemma tvel_add_eq v w : tvel_add v w = match vc v, vc w with
  | WCart1, WCart1 | WCart2, WCart2 | WCart3, WCart3 => ret (mkVel (vc v) (map (fun '(x, y) => nadd x y) (combine (vcomps v) (vcomps w))))
  | _, _ => Raise ERuntime end.
Proof.
  unfold tvel_add. assert (E : forallb (fun '(x, y) => same_unit x y) (combine (vcomps v) (vcomps w)) = true).
  { apply forallb_forall. intros [x y] _. apply NU. }
  rewrite E. reflexivity.
Qed.
Lemma same_units_len l : forall l', length l = length l' -> same_units l l' = true.
Proof. induction l as [|x l IH]; intros [|y l'] E; try discriminate E; [reflexivity|]. cbn [same_units]. rewrite NU. apply IH. now injection E. Qed.
Lemma leaves_cls (p q : pos A) : cls_of p = cls_of q -> length (leaves p) = length (leaves q).
Proof. destruct p, q; cbn; intros E; try discriminate E; reflexivity. Qed.
Lemma tpos_eq_eq p q : tpos_eq p q = pos_eq m deg fuel p q.
Proof.
  unfold tpos_eq, pos_eq. destruct (rep q (cls_of p)) as [w q'|e] eqn:E; [|reflexivity]. apply rep_class in E. destruct E as [E _]. cbn [bind].
  rewrite same_units_len by now apply leaves_cls. now rewrite bind_ret.
Qed.
End Tree.

(** ** Exactly when the check fails *)
Section Exact.
Context {A : Type} {NA : Num A} {SA : Static A}.
Variables (m : mode) (deg : bool) (fuel : nat).
Notation rep := (rep m deg fuel).
Lemma rep_cart_id (c : pos A) t w q : is_cart (cls_of c) = true -> rep q t = Ok w c -> rep c (cls_of c) = Ok false c.
Proof.
  intros IC E. unfold Arith.rep in *. destruct fuel as [|f]; [discriminate E|]. clear E. destruct c; try discriminate IC; cbn [cls_of]; Pos3D.step; reflexivity.
Qed.
Lemma cart_cls_cart c : is_cart (cart_cls c) = true. Proof. destruct c; reflexivity. Qed.
Ltac leafs := unfold leaf; cbn [leaves same_units]; repeat match goal with |- context [same_unit ?x ?y] => destruct (same_unit x y); cbn [andb] end; reflexivity.
Lemma tcart_sub_exact p q w c : is_cart (cls_of p) = true -> rep q (cls_of p) = Ok w c ->
  tcart_sub m deg fuel p q = if same_units (leaves p) (leaves c) then cart_sub m deg fuel p q else Raise EValue.
Proof.
  intros IC E. pose proof E as K. apply rep_class in K. destruct K as [K _].
  destruct p; try discriminate IC; cbn [cls_of] in *; cbn [tcart_sub cart_sub]; rewrite E; cbn [bind]; destruct c; try discriminate K; leafs.
Qed.
Lemma tcart_add_exact p q w c : cls_of p = CCart1 \/ cls_of p = CCart2 -> rep q (cls_of p) = Ok w c ->
  tcart_add m deg fuel p q = if same_units (leaves p) (leaves c) then cart_add m deg fuel p q else Raise EValue.
Proof.
  intros IC E. pose proof E as K. apply rep_class in K. destruct K as [K _].
  destruct p; try (destruct IC; discriminate); cbn [cls_of] in *; cbn [tcart_add cart_add]; rewrite E; cbn [bind]; destruct c; try discriminate K; leafs.
Qed.
(** [a], [b]: the operands in Cartesian coordinates *)
Lemma tpos_sub_exact p q wa a wb b : rep p (cart_cls (cls_of p)) = Ok wa a -> rep q (cart_cls (cls_of p)) = Ok wb b ->
  tpos_sub m deg fuel p q = if same_units (leaves a) (leaves b) then pos_sub m deg fuel p q else Raise EValue.
Proof.
  intros Ea Eb. pose proof (rep_class _ _ _ _ _ _ _ _ Ea) as [Ka _]. pose proof (rep_class _ _ _ _ _ _ _ _ Eb) as [Kb _].
  assert (G : (do a <- rep p (cart_cls (cls_of p)); do b <- rep q (cart_cls (cls_of p)); do s <- tcart_sub m deg fuel a b; rep s (cls_of p))
    = if same_units (leaves a) (leaves b) then (do a <- rep p (cart_cls (cls_of p)); do b <- rep q (cart_cls (cls_of p)); do s <- cart_sub m deg fuel a b; rep s (cls_of p)) else Raise EValue).
  { rewrite Ea, Eb. cbn [bind]. assert (I : is_cart (cls_of b) = true) by (rewrite Kb; apply cart_cls_cart).
    pose proof (rep_cart_id _ _ _ _ I Eb) as Ib. rewrite Kb, <- Ka in Ib.
    rewrite (tcart_sub_exact a b _ _ ltac:(rewrite Ka; apply cart_cls_cart) Ib). destruct (same_units (leaves a) (leaves b)); reflexivity. }
  destruct p; try exact G; cbn [tpos_sub pos_sub cls_of cart_cls dim_of] in *;
  (match goal with |- tcart_sub _ _ _ ?p _ = _ => rewrite (tcart_sub_exact p q _ _ eq_refl Eb) end);
  (match type of Ea with Arith.rep _ _ _ ?p _ = Ok _ _ => assert (a = p) as ->; [|reflexivity] end);
  (unfold Arith.rep in Ea; destruct fuel as [|f]; [discriminate Ea|]; revert Ea; Pos3D.step; unfold ret; intros E0; now injection E0).
Qed.
Lemma tpos_add_exact p q wa a wb b : dim_of (cls_of p) <> 3%nat -> rep p (cart_cls (cls_of p)) = Ok wa a -> rep q (cart_cls (cls_of p)) = Ok wb b ->
  tpos_add m deg fuel p q = if same_units (leaves a) (leaves b) then pos_add m deg fuel p q else Raise EValue.
Proof.
  intros D Ea Eb. pose proof (rep_class _ _ _ _ _ _ _ _ Ea) as [Ka _]. pose proof (rep_class _ _ _ _ _ _ _ _ Eb) as [Kb _].
  assert (LD : cart_cls (cls_of p) = CCart1 \/ cart_cls (cls_of p) = CCart2) by (destruct p; cbn in D |- *; auto; now destruct D).
  assert (G : (do a <- rep p (cart_cls (cls_of p)); do b <- rep q (cart_cls (cls_of p)); do s <- tcart_add m deg fuel a b; rep s (cls_of p))
    = if same_units (leaves a) (leaves b) then (do a <- rep p (cart_cls (cls_of p)); do b <- rep q (cart_cls (cls_of p)); do s <- cart_add m deg fuel a b; rep s (cls_of p)) else Raise EValue).
  { rewrite Ea, Eb. cbn [bind]. assert (I : is_cart (cls_of b) = true) by (rewrite Kb; apply cart_cls_cart).
    pose proof (rep_cart_id _ _ _ _ I Eb) as Ib. rewrite Kb, <- Ka in Ib.
    rewrite (tcart_add_exact a b _ _ ltac:(rewrite Ka; exact LD) Ib). destruct (same_units (leaves a) (leaves b)); reflexivity. }
  destruct p; try exact G; try (now destruct D); cbn [tpos_add pos_add cls_of cart_cls dim_of] in *;
  (match goal with |- tcart_add _ _ _ ?p _ = _ => rewrite (tcart_add_exact p q _ _ LD Eb) end);
  (match type of Ea with Arith.rep _ _ _ ?p _ = Ok _ _ => assert (a = p) as ->; [|reflexivity] end);
  (unfold Arith.rep in Ea; destruct fuel as [|f]; [discriminate Ea|]; revert Ea; Pos3D.step; unfold ret; intros E0; now injection E0).
Qed.
Lemma tpos_eq_exact p q w c : rep q (cls_of p) = Ok w c ->
  tpos_eq m deg fuel p q = if same_units (leaves p) (leaves c) then pos_eq m deg fuel p q else match pos_eq m deg fuel p q with Raise e => Raise e | _ => Raise EValue end.
Proof.
  intros E. unfold tpos_eq, pos_eq. rewrite E. cbn [bind]. destruct (eq_components p c) as [w' e|e]; cbn [bind]; destruct (same_units (leaves p) (leaves c)); unfold ret; cbn [bind]; rewrite ?orb_false_r; reflexivity.
Qed.
End Exact.
