(** * Further theorems for earlier claims. *)
From Coq Require Import Reals Bool List ZArith Lra Lia.
From Verif Require Import Num Vectors Spec Transform Pos3D Pos3DThm FromThm PosLow Dispatch.
Import ListNotations.
Open Scope R_scope.

(** C03: The conversions that multiply or store the radial field as a length.  A radial
    field that is a parallax or a distance modulus makes each of them raise a unit
    error, with any numbers (also not finite) and any keyword arguments. *)
Definition needs_length (p : pos ext) (t : pcls) : Prop :=
  match p, t with
  | PRadial _, (CCart2 | CCart3 | CCyl) => True
  | PPolar _ _, (CCart1 | CCyl) => True
  | PSph _ _ _, (CCart1 | CCart2) => True
  | PMSph _ _ _, (CCart1 | CCart2) => True
  | _, _ => False
  end.
Definition radial_field {A} (p : pos A) : option (dist A) :=
  match p with PRadial r | PPolar r _ | PSph r _ _ | PMSph r _ _ => Some r | _ => None end.
Theorem C03_radial_unit_error : forall m deg f kw p t r,
  needs_length p t -> radial_field p = Some r -> dk r <> KDistance ->
  represent_as m deg (S f) kw p t = Raise EUnit.
Proof.
  intros m deg f kw p t r N E K.
  destruct p; try contradiction; cbn in E; injection E as ->; destruct t; try contradiction; step;
    unfold as_length, length_times; destruct r as [[] v]; try reflexivity; exfalso; apply K; reflexivity.
Qed.
Print Assumptions C03_radial_unit_error.
Example C03_radial_unit_error_case : needs_length (PRadial (mkDist KParallax (Some 1))) CCart3 /\ dk (mkDist KParallax (Some 1 : ext)) <> KDistance.
Proof. split; [exact I|discriminate]. Qed.
