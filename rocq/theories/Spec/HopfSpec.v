(** Specification vocabulary for the Hopf field: stereographic coordinates on the unit sphere of R^4 and field lines. *)
From Coq Require Import Reals.
From Coquelicot Require Import Coquelicot.
From Verif Require Import Spec.CavitySpec.
Local Open Scope R_scope.

(** components of a map to triples as a vector field *)
Definition fieldof (B : R -> R -> R -> R * R * R) : vfield :=
  VField (fun x y z => fst (fst (B x y z))) (fun x y z => snd (fst (B x y z))) (fun x y z => snd (B x y z)).
Definition norm2 (v : R * R * R) : R := fst (fst v) ^ 2 + snd (fst v) ^ 2 + snd v ^ 2.

(** the point (X, Y, U, W) of the unit sphere of R^4 over (x, y, z) (inverse stereographic projection) *)
Definition den (x y z : R) : R := 1 + (x ^ 2 + y ^ 2 + z ^ 2).
Definition SX (x y z : R) : R := 2 * x / den x y z.
Definition SY (x y z : R) : R := 2 * y / den x y z.
Definition SU (x y z : R) : R := 2 * z / den x y z.
Definition SW (x y z : R) : R := (den x y z - 2) / den x y z.

(** a field line: a curve (for all times) whose velocity is the field *)
Definition field_line (B : vfield) (gx gy gz : R -> R) : Prop :=
  forall t, is_derive gx t (cx B (gx t) (gy t) (gz t)) /\ is_derive gy t (cy B (gx t) (gy t) (gz t)) /\
            is_derive gz t (cz B (gx t) (gy t) (gz t)).
(** (a, b) is (a0, b0) turned clockwise by the angle th *)
Definition turned (th a0 b0 a b : R) : Prop :=
  a = cos th * a0 + sin th * b0 /\ b = cos th * b0 - sin th * a0.
