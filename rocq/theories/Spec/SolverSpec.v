(** Specification vocabulary for the solvers: norms, contractions, affine maps. *)
From Coq Require Import Reals.
From mathcomp Require Import all_ssreflect all_algebra.
From Verif Require Import Proof.RField.
Set Implicit Arguments.
Unset Strict Implicit.
Unset Printing Implicit Defensive.

Section Norms.
Variable V : lmodType R_realFieldType.
Definition is_norm (nrm : V -> R) : Prop :=
  (forall x, Rle 0 (nrm x)) /\ (forall x y : V, Rle (nrm (x + y)%R) (Rplus (nrm x) (nrm y)))
  /\ (forall (a : R) (x : V), nrm (a *: x)%R = Rmult (Rabs a) (nrm x)).
(** the primary component of f contracts distances by q, whatever the auxiliary values are *)
Definition contraction (A : Type) (nrm : V -> R) (q : R) (f : V * A -> V * A) : Prop :=
  forall x a y b, Rle (nrm (fst (f (x, a)) - fst (f (y, b)))%R) (Rmult q (nrm (x - y)%R)).
End Norms.

(** convergence factor per two iterations of picard_solver on a q-contraction *)
Local Open Scope R_scope.
Definition picard_rate (q tol : R) : R :=
  1 - (1 - q) * Rmin (1 / 4) (2 * tol / (tol + 4 * / 10 ^ 12)).
