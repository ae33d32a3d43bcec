(** Specification vocabulary: sequences on a box, all three directions clamped
    (scripts/config_scripts/hopf.py:97-102). *)
From Coq Require Import Reals.
From mathcomp Require Import all_ssreflect.
From Verif Require Import Model.Spline Model.Forms Spec.SeqRSpec.
Set Implicit Arguments.
Unset Strict Implicit.
Unset Printing Implicit Defensive.

(** degree at least 1, Gauss order enough for the degree, sizes below the isclose limits *)
Definition boxed1 (n p q : nat) : Prop :=
  [&& 1 <= p, p < n & gauss_ok p (gauss_order q) (n - p)] /\ Rle (INR (n - p)) 99900.
Definition boxed (ns ps : triple) (q : nat) : Prop :=
  let: (n0, n1, n2) := ns in let: (p0, p1, p2) := ps in
  [/\ boxed1 n0 p0 q, boxed1 n1 p1 q & boxed1 n2 p2 q].
Definition box : stype * stype * stype := (Clamped, Clamped, Clamped).
