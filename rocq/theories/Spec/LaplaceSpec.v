(** Specification: second partial derivatives and the Laplacian of a function of the three
    Cartesian coordinates, in the sense of real analysis. *)
From Coq Require Import Reals.
From Coquelicot Require Import Coquelicot.
From mathcomp Require Import all_ssreflect.
From Verif Require Import Model.RBase Model.FormEval Spec.CalculusSpec.
Local Open Scope R_scope.

(** l is the second derivative of g at x: g' is the derivative of g near x, l that of g' at x *)
Definition is_derive2 (g : R -> R) (x l : R) : Prop :=
  exists g' : R -> R, locally x (fun t => is_derive g t (g' t)) /\ is_derive g' x l.
Definition is_partial2 (a : nat) (U : point -> R) (x : point) (l : R) : Prop :=
  is_derive2 (fun t => U (upd a x t)) (coord a x) l.
Definition is_laplacian (U : point -> R) (x : point) (l : R) : Prop :=
  exists l0 l1 l2, is_partial2 0 U x l0 /\ is_partial2 1 U x l1 /\ is_partial2 2 U x l2 /\ l = l0 + l1 + l2.
