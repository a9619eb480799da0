(** * [represent_as] on positions: overload table, plum resolution, bodies.

    Files modelled (under /repo/src/coordinax/_src/vectors): d1/transform.py,
    d2/transform.py, d3/transform.py, transform/d1.py, transform/d2.py,
    transform/d3.py. *)
From Coq Require Import Reals Bool List ZArith.
From Verif Require Import Num Vectors.
Import ListNotations.
Open Scope R_scope.

(** ** Dispatch *)

(** Type annotations used in the signatures: a concrete class or one of
    [AbstractPos1D], [AbstractPos2D], [AbstractPos3D]. *)
Inductive acls := Cls (c : pcls) | AbsPos (dim : nat).

Definition pcls_eqb (a b : pcls) : bool :=
  match a, b with
  | CCart1, CCart1 | CRadial, CRadial | CCart2, CCart2 | CPolar, CPolar
  | CTwoSphere, CTwoSphere | CCart3, CCart3 | CCyl, CCyl | CSph, CSph
  | CMSph, CMSph | CLonLat, CLonLat | CProlate, CProlate => true
  | _, _ => false
  end.

(** Is the class an instance of the annotation?  (Class statements of the
    files above: every d<k> class derives from AbstractPos<k>D.) *)
Definition matches (c : pcls) (a : acls) : bool :=
  match a with Cls c' => pcls_eqb c c' | AbsPos d => Nat.eqb (dim_of c) d end.
(** Annotation order (subclass relation). *)
Definition acls_le (a b : acls) : bool :=
  match a, b with
  | Cls c, _ => matches c b
  | AbsPos d, AbsPos d' => Nat.eqb d d'
  | AbsPos _, Cls _ => false
  end.

(** The registered implementations, named after source and target. *)
Inductive meth :=
(* d1/transform.py *) | M_gen1 | M_self
| M_Cart1_Radial | M_Radial_Cart1
(* d2/transform.py *) | M_gen2 | M_Cart2_Polar | M_Polar_Cart2
(* d3/transform.py *) | M_gen3 | M_Cart3_Cyl | M_Cart3_Sph | M_via_Sph
| M_Cyl_Cart3 | M_Cyl_Sph
| M_Sph_Cart3 | M_Sph_Cyl | M_Sph_LonLat | M_Sph_MSph
| M_LonLat_Sph
| M_MSph_Cart3 | M_MSph_Cyl | M_MSph_Sph
| M_Prolate_Cyl | M_Cyl_Prolate | M_Prolate_any3 | M_Prolate_Prolate | M_any3_Prolate
(* transform/d1.py *)
| M_Cart1_Cart2 | M_Cart1_Polar | M_Cart1_Cart3 | M_Cart1_Sph | M_Cart1_Cyl
| M_Radial_Cart2 | M_Radial_Polar | M_Radial_Cart3 | M_Radial_Sph | M_Radial_Cyl
(* transform/d2.py *)
| M_Cart2_via_Cart3 | M_Polar_via_Cyl
| M_Cart2_Cart1 | M_Cart2_Radial | M_Cart2_Cart3
| M_Polar_Cart1 | M_Polar_Radial | M_Polar_Sph | M_Polar_MSph | M_Polar_Cyl
(* transform/d3.py *)
| M_Cart3_Cart1 | M_Cart3_Radial | M_Cart3_Cart2 | M_Cart3_Polar
| M_Cyl_Cart1 | M_Cyl_Radial | M_Cyl_Cart2 | M_Cyl_Polar
| M_Sph_Cart1 | M_Sph_Radial | M_Sph_Cart2 | M_Sph_Polar
| M_MSph_Cart1 | M_MSph_Radial | M_MSph_Cart2 | M_MSph_Polar
| M_Prolate_low.

Record overload := mkOv { ov_cur : acls; ov_tgt : acls; ov_prec : Z; ov_meth : meth }.

Definition ov c t m := mkOv c t 0%Z m.

(** The overload table, in registration order within each file. *)
Definition table : list overload :=
  [ (* d1/transform.py:18-27, 30-36, 39-45 (precedence 1), 115-123, 130-138 *)
    ov (AbsPos 1) (AbsPos 1) M_gen1;
    mkOv (Cls CCart1) (Cls CCart1) 1 M_self;
    mkOv (Cls CRadial) (Cls CRadial) 1 M_self;
    ov (Cls CCart1) (Cls CRadial) M_Cart1_Radial;
    ov (Cls CRadial) (Cls CCart1) M_Radial_Cart1;
    (* d2/transform.py:17-25, 28-36, 58-69, 76-83 *)
    ov (AbsPos 2) (AbsPos 2) M_gen2;
    ov (Cls CCart2) (Cls CCart2) M_self;
    ov (Cls CPolar) (Cls CPolar) M_self;
    ov (Cls CCart2) (Cls CPolar) M_Cart2_Polar;
    ov (Cls CPolar) (Cls CCart2) M_Polar_Cart2;
    (* d3/transform.py:33-38, 41-97 *)
    ov (AbsPos 3) (AbsPos 3) M_gen3;
    ov (Cls CCart3) (Cls CCart3) M_self;
    ov (Cls CCyl) (Cls CCyl) M_self;
    ov (Cls CSph) (Cls CSph) M_self;
    ov (Cls CLonLat) (Cls CLonLat) M_self;
    ov (Cls CMSph) (Cls CMSph) M_self;
    (* 186-204, 207-226, 229-256 *)
    ov (Cls CCart3) (Cls CCyl) M_Cart3_Cyl;
    ov (Cls CCart3) (Cls CSph) M_Cart3_Sph;
    ov (Cls CCart3) (Cls CLonLat) M_via_Sph;
    ov (Cls CCart3) (Cls CMSph) M_via_Sph;
    (* 263-285, 288-309, 312-342 *)
    ov (Cls CCyl) (Cls CCart3) M_Cyl_Cart3;
    ov (Cls CCyl) (Cls CSph) M_Cyl_Sph;
    ov (Cls CCyl) (Cls CLonLat) M_via_Sph;
    ov (Cls CCyl) (Cls CMSph) M_via_Sph;
    (* 349-371, 374-395, 398-419, 422-441 *)
    ov (Cls CSph) (Cls CCart3) M_Sph_Cart3;
    ov (Cls CSph) (Cls CCyl) M_Sph_Cyl;
    ov (Cls CSph) (Cls CLonLat) M_Sph_LonLat;
    ov (Cls CSph) (Cls CMSph) M_Sph_MSph;
    (* 448-470, 473-495, 498-519 *)
    ov (Cls CLonLat) (Cls CCart3) M_via_Sph;
    ov (Cls CLonLat) (Cls CCyl) M_via_Sph;
    ov (Cls CLonLat) (Cls CSph) M_LonLat_Sph;
    (* 526-548, 551-572, 575-594 *)
    ov (Cls CMSph) (Cls CCart3) M_MSph_Cart3;
    ov (Cls CMSph) (Cls CCyl) M_MSph_Cyl;
    ov (Cls CMSph) (Cls CSph) M_MSph_Sph;
    (* 601-629, 632-705, 708-731, 734-775, 778-821 *)
    ov (Cls CProlate) (Cls CCyl) M_Prolate_Cyl;
    ov (Cls CCyl) (Cls CProlate) M_Cyl_Prolate;
    ov (Cls CProlate) (AbsPos 3) M_Prolate_any3;
    ov (Cls CProlate) (Cls CProlate) M_Prolate_Prolate;
    ov (AbsPos 3) (Cls CProlate) M_any3_Prolate;
    (* transform/d1.py:29-61, 64-96, 103-141, 144-204 (union target), 207-245 *)
    ov (Cls CCart1) (Cls CCart2) M_Cart1_Cart2;
    ov (Cls CCart1) (Cls CPolar) M_Cart1_Polar;
    ov (Cls CCart1) (Cls CCart3) M_Cart1_Cart3;
    ov (Cls CCart1) (Cls CSph) M_Cart1_Sph;
    ov (Cls CCart1) (Cls CMSph) M_Cart1_Sph;
    ov (Cls CCart1) (Cls CCyl) M_Cart1_Cyl;
    (* 255-287, 290-322, 329-367, 370-430 (union target), 433-471 *)
    ov (Cls CRadial) (Cls CCart2) M_Radial_Cart2;
    ov (Cls CRadial) (Cls CPolar) M_Radial_Polar;
    ov (Cls CRadial) (Cls CCart3) M_Radial_Cart3;
    ov (Cls CRadial) (Cls CSph) M_Radial_Sph;
    ov (Cls CRadial) (Cls CMSph) M_Radial_Sph;
    ov (Cls CRadial) (Cls CCyl) M_Radial_Cyl;
    (* transform/d2.py:25-76, 79-112 *)
    ov (Cls CCart2) (Cls CCyl) M_Cart2_via_Cart3;
    ov (Cls CCart2) (Cls CSph) M_Cart2_via_Cart3;
    ov (Cls CCart2) (Cls CMSph) M_Cart2_via_Cart3;
    ov (Cls CPolar) (Cls CCart3) M_Polar_via_Cyl;
    (* 123-149, 152-177, 184-214 *)
    ov (Cls CCart2) (Cls CCart1) M_Cart2_Cart1;
    ov (Cls CCart2) (Cls CRadial) M_Cart2_Radial;
    ov (Cls CCart2) (Cls CCart3) M_Cart2_Cart3;
    (* 224-248, 251-275, 282-308, 311-337, 340-367 *)
    ov (Cls CPolar) (Cls CCart1) M_Polar_Cart1;
    ov (Cls CPolar) (Cls CRadial) M_Polar_Radial;
    ov (Cls CPolar) (Cls CSph) M_Polar_Sph;
    ov (Cls CPolar) (Cls CMSph) M_Polar_MSph;
    ov (Cls CPolar) (Cls CCyl) M_Polar_Cyl;
    (* transform/d3.py:31-54, 57-79, 86-109, 112-137 *)
    ov (Cls CCart3) (Cls CCart1) M_Cart3_Cart1;
    ov (Cls CCart3) (Cls CRadial) M_Cart3_Radial;
    ov (Cls CCart3) (Cls CCart2) M_Cart3_Cart2;
    ov (Cls CCart3) (Cls CPolar) M_Cart3_Polar;
    (* 148-172, 175-199, 206-233, 236-261 *)
    ov (Cls CCyl) (Cls CCart1) M_Cyl_Cart1;
    ov (Cls CCyl) (Cls CRadial) M_Cyl_Radial;
    ov (Cls CCyl) (Cls CCart2) M_Cyl_Cart2;
    ov (Cls CCyl) (Cls CPolar) M_Cyl_Polar;
    (* 272-296, 299-323, 330-357, 360-385 *)
    ov (Cls CSph) (Cls CCart1) M_Sph_Cart1;
    ov (Cls CSph) (Cls CRadial) M_Sph_Radial;
    ov (Cls CSph) (Cls CCart2) M_Sph_Cart2;
    ov (Cls CSph) (Cls CPolar) M_Sph_Polar;
    (* 396-420, 423-447, 454-481, 484-509 *)
    ov (Cls CMSph) (Cls CCart1) M_MSph_Cart1;
    ov (Cls CMSph) (Cls CRadial) M_MSph_Radial;
    ov (Cls CMSph) (Cls CCart2) M_MSph_Cart2;
    ov (Cls CMSph) (Cls CPolar) M_MSph_Polar;
    (* 520-555, 562-597 *)
    ov (Cls CProlate) (AbsPos 1) M_Prolate_low;
    ov (Cls CProlate) (AbsPos 2) M_Prolate_low ].

(** Signature order and plum's resolution (plum 2.5.4, resolver.py): collect
    the matching signatures; a new one is added if incomparable to all current
    candidates, else it replaces the candidates it is strictly below; a tie is
    broken by a unique maximal precedence. *)
Definition ov_le (a b : overload) : bool :=
  acls_le (ov_cur a) (ov_cur b) && acls_le (ov_tgt a) (ov_tgt b).
Definition ov_lt (a b : overload) : bool := ov_le a b && negb (ov_le b a).
Definition ov_comparable (a b : overload) : bool := ov_le a b || ov_le b a.
Definition add_candidate (cands : list overload) (o : overload) : list overload :=
  if existsb (ov_comparable o) cands then
    let kept := filter (fun c => negb (ov_lt o c)) cands in
    if Nat.ltb (length kept) (length cands) then kept ++ [o] else cands
  else cands ++ [o].
Inductive resolution := NoMethod | Ambig | Use (m : meth).
Definition resolve_in (tbl : list overload) (c t : pcls) : resolution :=
  let ms := filter (fun o => matches c (ov_cur o) && matches t (ov_tgt o)) tbl in
  match fold_left add_candidate ms [] with
  | [] => NoMethod
  | [o] => Use (ov_meth o)
  | cands =>
      let top := fold_left (fun z o => Z.max z (ov_prec o)) cands (-1000)%Z in
      match filter (fun o => Z.eqb (ov_prec o) top) cands with
      | [o] => Use (ov_meth o)
      | _ => Ambig
      end
  end.
Definition resolve (c t : pcls) : resolution := resolve_in table c t.

(** ** Bodies *)
Section Model.
Context {A : Type} `{NA : Num A}.
Local Open Scope num_scope.

(** Keyword arguments of [represent_as] that some overload looks at. *)
Record kwargs := mkKw {
  kw_Delta : option A; kw_y : option A; kw_z : option A;
  kw_theta : option (ang A); kw_phi : option (ang A) }.
Definition nokw : kwargs := mkKw None None None None None.
Definition kw_z_only (z : A) : kwargs := mkKw None None (Some z) None None.
Definition kw_Delta_only (d : A) : kwargs := mkKw (Some d) None None None None.
Definition dflt {T} (o : option T) (d : T) : T := match o with Some x => x | None => d end.
(** the default values [Quantity(0.0, "m")], [Quantity(0.0, "radian")] *)
Definition zeroL : A := nlen 0.
Definition zeroA : ang A := AsQty (nang 0).

(** cylindrical -> prolate spheroidal components (mu, nu): d3/transform.py:662-703 *)
Definition prolate_coords (rho z Delta : A) : A * A :=
  let R2 := nsq rho in
  let z2 := nsq z in
  let Delta2 := nsq Delta in
  let sum_ := R2 + z2 + Delta2 in
  let diff_ := R2 + z2 - Delta2 in
  let D := nsqrt (nsq diff_ + ncst 4 * R2 * Delta2) in
  let D := if z =? ncst 0 then sum_ else D in
  let D := if rho =? ncst 0 then nabs diff_ else D in
  let pos_mu_minus_delta := ncst (1/2) * (D + diff_) in
  let pos_delta_minus_nu := Delta2 * R2 / pos_mu_minus_delta in
  let neg_delta_minus_nu := ncst (1/2) * (D - diff_) in
  let neg_mu_minus_delta := Delta2 * R2 / neg_delta_minus_nu in
  let mu_minus_delta := if ncst 0 <=? diff_ then pos_mu_minus_delta else neg_mu_minus_delta in
  let delta_minus_nu := if ncst 0 <=? diff_ then pos_delta_minus_nu else neg_delta_minus_nu in
  let mu := Delta2 + mu_minus_delta in
  let abs_nu := ncst 2 * Delta2 / (sum_ + D) * z2 in
  let abs_nu := if Delta2 <? abs_nu * ncst 2 then Delta2 - delta_minus_nu else abs_nu in
  (mu, abs_nu * nsign z).

(** One overload body.  [rec] is the re-dispatching call [represent_as(...)].
    [m] is the execution mode, [deg] as in [from_Sph]. *)
Definition run (m : mode) (deg : bool) (rec : kwargs -> pos A -> pcls -> res (pos A))
  (me : meth) (kw : kwargs) (p : pos A) (t : pcls) : res (pos A) :=
  match me, p with
  | M_self, _ => ret p
  | M_gen1, _ => do q <- rec nokw p CCart1; rec nokw q t
  | M_gen2, _ => do q <- rec nokw p CCart2; rec nokw q t
  | M_gen3, _ => do q <- rec nokw p CCart3; rec nokw q t
  (* d1 *)
  | M_Cart1_Radial, PCart1 x => mk_Radial m (RQty KDistance x)
  | M_Radial_Cart1, PRadial r => mk_Cart1 (distance r)
  (* d2 *)
  | M_Cart2_Polar, PCart2 x y =>
      mk_Polar m (RQty KDistance (nsqrt (nsq x + nsq y))) (AsQty (natan2 y x))
  | M_Polar_Cart2, PPolar r phi =>
      mk_Cart2 (distance r * ncos phi) (distance r * nsin phi)
  (* d3 *)
  | M_Cart3_Cyl, PCart3 x y z =>
      mk_Cyl m (nsqrt (nsq x + nsq y)) (AsQty (natan2 y x)) z
  | M_Cart3_Sph, PCart3 x y z =>
      let r := nsqrt (nsq x + nsq y + nsq z) in
      mk_Sph m (RQty KDistance r) (nacos (z / r)) (AsQty (natan2 y x))
  | M_via_Sph, _ => do q <- rec nokw p CSph; rec nokw q t
  | M_Cyl_Cart3, PCyl rho phi z => mk_Cart3 (rho * ncos phi) (rho * nsin phi) z
  | M_Cyl_Sph, PCyl rho phi z =>
      let r := nsqrt (nsq rho + nsq z) in
      mk_Sph m (RQty KDistance r) (nacos (z / r)) (AsAngle phi)
  | M_Sph_Cart3, PSph r theta phi =>
      mk_Cart3 (distance r * nsin theta * ncos phi) (distance r * nsin theta * nsin phi)
               (distance r * ncos theta)
  | M_Sph_Cyl, PSph r theta phi =>
      mk_Cyl m (nabs (distance r * nsin theta)) (AsAngle phi) (distance r * ncos theta)
  | M_Sph_LonLat, PSph r theta phi =>
      mk_LonLat m (AsAngle phi) (nang (PI / 2) - theta) (RKeep r)
  | M_Sph_MSph, PSph r theta phi => mk_MSph m (RKeep r) (AsAngle phi) theta
  | M_LonLat_Sph, PLonLat lon lat d =>
      mk_Sph m (RKeep d) (nang (PI / 2) - lat) (AsAngle lon)
  | M_MSph_Cart3, PMSph r theta phi =>
      mk_Cart3 (distance r * nsin phi * ncos theta) (distance r * nsin phi * nsin theta)
               (distance r * ncos phi)
  | M_MSph_Cyl, PMSph r theta phi =>
      mk_Cyl m (nabs (distance r * nsin phi)) (AsAngle theta) (distance r * ncos phi)
  | M_MSph_Sph, PMSph r theta phi => mk_Sph m (RKeep r) phi (AsAngle theta)
  | M_Prolate_Cyl, PProlate mu nu phi Delta =>
      let Delta2 := nsq Delta in
      let nu_D2 := nabs nu / Delta2 in
      let R := nsqrt ((mu - Delta2) * (ncst 1 - nu_D2)) in
      let z := nsqrt (mu * nu_D2) * nsign nu in
      mk_Cyl m R (AsAngle phi) z
  | M_Cyl_Prolate, PCyl rho phi z =>
      match kw_Delta kw with
      | None => Raise EMissingDelta
      | Some Delta =>
          let mn := prolate_coords rho z Delta in
          mk_Prolate m (fst mn) (snd mn) (AsAngle phi) Delta
      end
  | M_Prolate_any3, _ => do q <- rec nokw p CCyl; rec nokw q t
  | M_Prolate_Prolate, _ =>
      match kw_Delta kw with
      | None => ret p
      | Some Delta => do q <- rec nokw p CCyl; rec (kw_Delta_only Delta) q t
      end
  | M_any3_Prolate, _ =>
      match kw_Delta kw with
      | None => Raise EMissingDelta
      | Some Delta => do q <- rec nokw p CCyl; rec (kw_Delta_only Delta) q t
      end
  (* transform/d1.py *)
  | M_Cart1_Cart2, PCart1 x => mk_Cart2 x (dflt (kw_y kw) zeroL)
  | M_Cart1_Polar, PCart1 x => mk_Polar m (RQty KDistance x) (dflt (kw_phi kw) zeroA)
  | M_Cart1_Cart3, PCart1 x => mk_Cart3 x (dflt (kw_y kw) zeroL) (dflt (kw_z kw) zeroL)
  | M_Cart1_Sph, PCart1 x =>
      let theta := dflt (kw_theta kw) zeroA in
      let phi := dflt (kw_phi kw) zeroA in
      match t with
      | CSph => from_Sph m deg (RQty KDistance x) (ang_val theta) phi
      | CMSph => from_MSph m deg (RQty KDistance x) theta (ang_val phi)
      | _ => Raise EType
      end
  | M_Cart1_Cyl, PCart1 x => mk_Cyl m x (dflt (kw_phi kw) zeroA) (dflt (kw_z kw) zeroL)
  | M_Radial_Cart2, PRadial r => do x <- as_length r; mk_Cart2 x (dflt (kw_y kw) zeroL)
  | M_Radial_Polar, PRadial r => mk_Polar m (RKeep r) (dflt (kw_phi kw) zeroA)
  | M_Radial_Cart3, PRadial r =>
      do x <- as_length r; mk_Cart3 x (dflt (kw_y kw) zeroL) (dflt (kw_z kw) zeroL)
  | M_Radial_Sph, PRadial r =>
      let theta := dflt (kw_theta kw) zeroA in
      let phi := dflt (kw_phi kw) zeroA in
      match t with
      | CSph => from_Sph m deg (RKeep r) (ang_val theta) phi
      | CMSph => from_MSph m deg (RKeep r) theta (ang_val phi)
      | _ => Raise EType
      end
  | M_Radial_Cyl, PRadial r =>
      do x <- as_length r; mk_Cyl m x (dflt (kw_phi kw) zeroA) (dflt (kw_z kw) zeroL)
  (* transform/d2.py *)
  | M_Cart2_via_Cart3, _ =>
      do c2 <- rec nokw p CCart2;
      do c3 <- rec (kw_z_only (dflt (kw_z kw) zeroL)) c2 CCart3;
      rec nokw c3 t
  | M_Polar_via_Cyl, _ =>
      do po <- rec nokw p CPolar;
      do cy <- rec (kw_z_only (dflt (kw_z kw) zeroL)) po CCyl;
      rec nokw cy t
  | M_Cart2_Cart1, PCart2 x y => warn (mk_Cart1 x)
  | M_Cart2_Radial, PCart2 x y => warn (mk_Radial m (RQty KDistance (nsqrt (nsq x + nsq y))))
  | M_Cart2_Cart3, PCart2 x y => mk_Cart3 x y (dflt (kw_z kw) zeroL)
  | M_Polar_Cart1, PPolar r phi => warn (do x <- length_times r (ncos phi); mk_Cart1 x)
  | M_Polar_Radial, PPolar r phi => warn (mk_Radial m (RKeep r))
  | M_Polar_Sph, PPolar r phi =>
      from_Sph m deg (RKeep r) (ang_val (dflt (kw_theta kw) zeroA)) (AsAngle phi)
  | M_Polar_MSph, PPolar r phi =>
      from_MSph m deg (RKeep r) (AsAngle phi) (ang_val (dflt (kw_phi kw) zeroA))
  | M_Polar_Cyl, PPolar r phi =>
      do x <- as_length r; mk_Cyl m x (AsAngle phi) (dflt (kw_z kw) zeroL)
  (* transform/d3.py *)
  | M_Cart3_Cart1, PCart3 x y z => warn (mk_Cart1 x)
  | M_Cart3_Radial, PCart3 x y z =>
      warn (mk_Radial m (RQty KDistance (nsqrt (nsq x + nsq y + nsq z))))
  | M_Cart3_Cart2, PCart3 x y z => warn (mk_Cart2 x y)
  | M_Cart3_Polar, PCart3 _ _ _ => warn (do c2 <- rec nokw p CCart2; rec nokw c2 t)
  | M_Cyl_Cart1, PCyl rho phi z => warn (mk_Cart1 (rho * ncos phi))
  | M_Cyl_Radial, PCyl rho phi z => warn (mk_Radial m (RQty KDistance rho))
  | M_Cyl_Cart2, PCyl rho phi z => warn (mk_Cart2 (rho * ncos phi) (rho * nsin phi))
  | M_Cyl_Polar, PCyl rho phi z => warn (mk_Polar m (RQty KDistance rho) (AsAngle phi))
  | M_Sph_Cart1, PSph r theta phi =>
      warn (do x <- length_times r (nsin theta); mk_Cart1 (x * ncos phi))
  | M_Sph_Radial, PSph r theta phi => warn (mk_Radial m (RKeep r))
  | M_Sph_Cart2, PSph r theta phi =>
      warn (do x <- length_times r (nsin theta); mk_Cart2 (x * ncos phi) (x * nsin phi))
  | M_Sph_Polar, PSph r theta phi =>
      warn (mk_Polar m (RQty (dk r) (dval r * nsin theta)) (AsAngle phi))
  | M_MSph_Cart1, PMSph r theta phi =>
      warn (do x <- length_times r (nsin phi); mk_Cart1 (x * ncos theta))
  | M_MSph_Radial, PMSph r theta phi => warn (mk_Radial m (RKeep r))
  | M_MSph_Cart2, PMSph r theta phi =>
      warn (do x <- length_times r (nsin phi); mk_Cart2 (x * ncos theta) (x * nsin theta))
  | M_MSph_Polar, PMSph r theta phi =>
      warn (mk_Polar m (RQty (dk r) (dval r * nsin phi)) (AsAngle theta))
  | M_Prolate_low, _ => warn (do c3 <- rec nokw p CCart3; rec nokw c3 t)
  | _, _ => Raise EType
  end.

(** [represent_as(current, target, **kwargs)] with a bound on the depth of
    re-dispatching (Python: the recursion limit). *)
Fixpoint represent_as (m : mode) (deg : bool) (fuel : nat) (kw : kwargs) (p : pos A) (t : pcls)
  : res (pos A) :=
  match fuel with
  | O => Raise ERecursion
  | S f =>
      match resolve (cls_of p) t with
      | NoMethod => Raise ENotFound
      | Ambig => Raise EAmbiguous
      | Use me => run m deg (represent_as m deg f) me kw p t
      end
  end.

(** Unfolding of one dispatch step. *)
Lemma rep_S m deg fuel kw p t :
  represent_as m deg (S fuel) kw p t =
  match resolve (cls_of p) t with
  | NoMethod => Raise ENotFound
  | Ambig => Raise EAmbiguous
  | Use me => run m deg (represent_as m deg fuel) me kw p t
  end.
Proof. reflexivity. Qed.

End Model.
Arguments kwargs A : clear implicits.
Arguments represent_as : simpl never.
Arguments resolve : simpl never.
Global Opaque resolve.
