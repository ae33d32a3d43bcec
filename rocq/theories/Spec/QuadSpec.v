(** Specification vocabulary for quadrature. *)
From Coq Require Import Reals List.
Import ListNotations.
Local Open Scope R_scope.

Definition lsum (l : list R) : R := fold_right Rplus 0 l.
(** value of the rule (nodes, weights) on f *)
Definition qsum (r : list R * list R) (f : R -> R) : R :=
  lsum (map (fun xw => snd xw * f (fst xw)) (combine (fst r) (snd r))).
(** polynomial with coefficients c_0, c_1, ... *)
Fixpoint peval (c : list R) (x : R) : R :=
  match c with [] => 0 | a :: c' => a + x * peval c' x end.
Definition norm1 (c : list R) : R := lsum (map Rabs c).
(** strictly increasing list *)
Definition increasing (T : list R) : Prop := forall i, (S i < length T)%nat -> nth i T 0 < nth (S i) T 0.
