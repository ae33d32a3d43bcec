(** Specification vocabulary for the coordinate maps: Jacobian matrices in the sense of real
    analysis, periodicity, rotation about the Z axis, and orientation. *)
From Coq Require Import Reals.
From mathcomp Require Import all_ssreflect all_algebra.
From Verif Require Import Model.RBase Model.Forms Model.FormEval Model.Geometry Model.Maps Proof.RField Spec.CalculusSpec.
Set Implicit Arguments.
Unset Strict Implicit.
Unset Printing Implicit Defensive.
Local Open Scope R_scope.

(** DF is the matrix of partial derivatives of F at x: entry (k, a) is dF_k/dx_a *)
Definition is_jacobian (F : point -> point) (x : point) (DF : mat3 R_realFieldType) : Prop :=
  forall k a, (k < 3)%N -> (a < 3)%N -> is_partial a (fun y => coord k (F y)) x (DF k a).
(** F has all its partial derivatives at x and the determinant of their matrix is d *)
Definition jacobian_det (F : point -> point) (x : point) (d : R) : Prop :=
  (exists DF, is_jacobian F x DF) /\ (forall DF, is_jacobian F x DF -> det33 DF = d :> R).
(** period one in theta, and in zeta *)
Definition periodic_theta (F : point -> point) : Prop :=
  forall r t z, F (r, t + 1, z) = F (r, t, z).
Definition periodic_zeta (F : point -> point) : Prop :=
  forall r t z, F (r, t, z + 1) = F (r, t, z).
(** the polar axis r = 0 is mapped to a curve *)
Definition polar_axis (F : point -> point) : Prop :=
  forall t t' z, F (0, t, z) = F (0, t', z).
(** rotation about the Z axis: takes (R cos f, - R sin f, Z) to (R cos (f + phi), - R sin (f + phi), Z) *)
Definition rotz (phi : R) (v : point) : point :=
  let: (x, y, z) := v in (x * cos phi + y * sin phi, - x * sin phi + y * cos phi, z).
Definition dot (u v : point) : R :=
  let: (u0, u1, u2) := u in let: (v0, v1, v2) := v in u0 * v0 + u1 * v1 + u2 * v2.
(** same point of the unit cube with theta and zeta periodic *)
Definition same_logical (x y : point) : Prop :=
  let: (r, t, z) := x in let: (r', t', z') := y in
  r = r' /\ (exists k : BinInt.Z, t = t' + IZR k) /\ (exists k : BinInt.Z, z = z' + IZR k).
