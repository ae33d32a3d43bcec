(** Specification: differentiable functions of the logical coordinates with Lipschitz derivatives. *)
From Coq Require Import Reals.
From mathcomp Require Import all_ssreflect all_algebra.
From Verif Require Import Model.RBase Model.Spline Model.Quad Model.Forms Model.FormEval Spec.FreeDofs Spec.FormSpec Spec.CalculusSpec Spec.ApproxSpec.
Set Implicit Arguments.
Unset Strict Implicit.
Unset Printing Implicit Defensive.
Local Open Scope R_scope.

(** d 0, d 1, d 2 are the partial derivatives of f on the closed domain (one-sided or no derivative is
    asked for in r on the boundary itself) *)
Definition has_partials (f : point -> R) (d : nat -> point -> R) : Prop :=
  forall a r t z, (a < 3)%N -> (if a == 0%N then 0 < r < 1 else 0 <= r <= 1) -> is_partial a f (r, t, z) (d a (r, t, z)).
(** f is Lipschitz (constants M), periodic in theta and zeta, and differentiable with Lipschitz partial derivatives
    d a (constants L a) *)
Definition smooth11 (f : point -> R) (M : R * R * R) (d : nat -> point -> R) (L : nat -> R * R * R) : Prop :=
  [/\ lipschitz M f, periodic_tz f, has_partials f d & forall a, (a < 3)%N -> lipschitz (L a) (d a) /\ periodic_tz (d a)].
