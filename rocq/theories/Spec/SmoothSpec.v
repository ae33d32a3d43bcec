(** Specification: continuity of functions on a subset of the line and on boxes of the unit cube. *)
From Coq Require Import Reals.
From Verif Require Import Model.FormEval.
Local Open Scope R_scope.

(** f restricted to D is continuous (one-sided at end points of D) *)
Definition cont_on (D : R -> Prop) (f : R -> R) : Prop :=
  forall x, D x -> forall eps, 0 < eps -> exists delta, 0 < delta /\
    forall y, D y -> Rabs (y - x) < delta -> Rabs (f y - f x) < eps.
Definition closed01 (x : R) : Prop := 0 <= x <= 1.
Definition halfopen01 (x : R) : Prop := 0 <= x < 1.
(** f restricted to the box D0 x D1 x D2 is (jointly) continuous *)
Definition cont3_on (D0 D1 D2 : R -> Prop) (f : point -> R) : Prop :=
  forall x0 x1 x2, D0 x0 -> D1 x1 -> D2 x2 -> forall eps, 0 < eps -> exists delta, 0 < delta /\
    forall y0 y1 y2, D0 y0 -> D1 y1 -> D2 y2 ->
      Rabs (y0 - x0) < delta -> Rabs (y1 - x1) < delta -> Rabs (y2 - x2) < delta ->
      Rabs (f (y0, y1, y2) - f (x0, x1, x2)) < eps.
