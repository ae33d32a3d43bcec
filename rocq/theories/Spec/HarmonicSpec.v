(** Specification: the 1-form and the 2-form of a Cartesian vector field in logical coordinates, and fields that are
    curl-free, divergence-free and tangential to the surfaces r = const. *)
From Coq Require Import Reals.
From mathcomp Require Import all_ssreflect all_algebra.
From Verif Require Import Model.RBase Model.Forms Model.FormEval Model.Geometry Proof.RField Spec.CalculusSpec Spec.MapSpec.
Set Implicit Arguments.
Unset Strict Implicit.
Unset Printing Implicit Defensive.
Local Open Scope R_scope.

Definition comps (v : point) : vec3 R_realFieldType := fun k => coord k v.
(** at x, where the Jacobian matrix of F is regular, Pullback (k = 1) takes the Cartesian vector B to a, and
    Pushforward (k = 2) takes b to B: a and b are the components of the 1-form and of the 2-form of B *)
Definition forms_at (F : point -> point) (x B : point) (a b : nat -> R) : Prop :=
  exists DF, [/\ is_jacobian F x DF, det33 DF <> 0 :> R &
    forall k, (k < 3)%N -> pullback K1 DF (comps B) k = a k :> R /\ pushforward K2 DF b k = coord k B :> R].
(** the logical points off the axis *)
Definition off_axis (x : point) : Prop := 0 < coord 0 x <= 1.
(** the Cartesian field B (a function of the logical point) has no curl, no divergence, and is tangential to r = const *)
Definition harmonic_field (F B : point -> point) : Prop :=
  exists a b : nat -> point -> R, forall x, off_axis x ->
    [/\ forms_at F x (B x) (a^~ x) (b^~ x), is_curl a x (fun _ => 0), is_div b x 0 & b 0%N x = 0].
