(** Specification: polar-compatible coefficient cochains on a (clamped r) x
    (periodic theta, nt) x (periodic zeta, nz) grid.  xi p i j (p < 3, i < 2) are the
    barycentric coordinates of the control points of the first two rings. *)
From mathcomp Require Import all_ssreflect all_algebra.
From Verif Require Import Spec.Cochain.
Set Implicit Arguments.
Unset Strict Implicit.
Unset Printing Implicit Defensive.
Import GRing.Theory.
Local Open Scope ring_scope.

Section Polar.
Variable F : ringType.
Variable xi : nat -> nat -> nat -> F.
Variables (nr nt nz : nat) (o : bool).

(** barycentric coordinates: a partition of unity, and the first ring is a point *)
Definition xi_ok : Prop := forall j, (j < nt)%N ->
  (forall i, (i < 2)%N -> xi 0%N i j + xi 1%N i j + xi 2%N i j = 1)
  /\ (forall p j', (p < 3)%N -> (j' < nt)%N -> xi p 0%N j = xi p 0%N j').

(** differences of xi_1, xi_2 between the rings and along the second ring *)
Definition xr p j : F := xi p.+1 1%N j - xi p.+1 0%N j.
Definition xt p j : F := xi p.+1 1%N (j.+1 %% nt)%N - xi p.+1 1%N j.

(** 0-forms: on the two inner rings a combination of the three xi; zero at the edge if o *)
Definition pol0 (v : cochain F) : Prop := exists ga : nat -> nat -> F,
  forall j l, (j < nt)%N -> (l < nz)%N ->
   (forall i, (i < 2)%N -> v 0%N i j l = \sum_(p < 3) ga p l * xi p i j)
   /\ (o -> v 0%N nr.-1 j l = 0).

Definition pol1 (u : cochain F) : Prop := exists al ga : nat -> nat -> F,
  forall j l, (j < nt)%N -> (l < nz)%N ->
  [/\ u 0%N 0%N j l = \sum_(p < 2) al p l * xr p j,
      u 1%N 0%N j l = 0,
      u 1%N 1%N j l = \sum_(p < 2) al p l * xt p j,
      (forall i, (i < 2)%N -> u 2%N i j l = \sum_(p < 3) ga p l * xi p i j)
    & (o -> u 1%N nr.-1 j l = 0 /\ u 2%N nr.-1 j l = 0)].

Definition pol2 (w : cochain F) : Prop := exists be : nat -> nat -> F,
  forall j l, (j < nt)%N -> (l < nz)%N ->
  [/\ w 0%N 0%N j l = 0 /\ w 0%N 1%N j l = \sum_(p < 2) be p l * xt p j,
      w 1%N 0%N j l = - \sum_(p < 2) be p l * xr p j,
      w 2%N 0%N j l = 0
    & (o -> w 0%N nr.-1 j l = 0)].

Definition pol3 (r : cochain F) : Prop :=
  forall j l, (j < nt)%N -> (l < nz)%N -> r 0%N 0%N j l = 0.
End Polar.
