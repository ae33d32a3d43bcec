(** Specification: approximation of Lipschitz functions of the logical coordinates. *)
From Coq Require Import Reals.
From mathcomp Require Import all_ssreflect all_algebra.
From Verif Require Import Model.RBase Model.Spline Model.Quad Model.Forms Model.FormEval Spec.FreeDofs Spec.FormSpec.
Set Implicit Arguments.
Unset Strict Implicit.
Unset Printing Implicit Defensive.
Local Open Scope R_scope.

(** f is Lipschitz with constants L in the three coordinates (r in [0,1], theta and zeta real) *)
Definition lipschitz (L : R * R * R) (f : point -> R) : Prop :=
  let: (a, b, c) := L in
  [/\ 0 <= a, 0 <= b, 0 <= c &
  forall r t z r' t' z', 0 <= r <= 1 -> 0 <= r' <= 1 ->
    Rabs (f (r, t, z) - f (r', t', z')) <= a * Rabs (r - r') + b * Rabs (t - t') + c * Rabs (z - z')].
(** f has period 1 in theta and zeta *)
Definition periodic_tz (f : point -> R) : Prop :=
  forall r t z, f (r, t + 1, z) = f (r, t, z) /\ f (r, t, z + 1) = f (r, t, z).
(** Lipschitz constants times the widths of the supports of the basis functions *)
Definition mesh_err (ns ps : triple) (L : R * R * R) : R :=
  let: (n0, n1, n2) := ns in let: (p0, p1, p2) := ps in let: (a, b, c) := L in
  a * (INR (p0 + 1) / INR (n0 - p0)) + b * (INR (p1 + 1) / INR n1) + c * (INR (p2 + 1) / INR n2).

(** homogeneous essential conditions: the components with a trace vanish at r = 1 (and at r = 0
    if that is a boundary, not the polar axis) *)
Definition edge_ok (polar dirichlet : bool) (k : deg) (phi : nat -> point -> R) : Prop :=
  dirichlet -> forall c, (c < comps k)%N -> has_trace k c 0 -> forall t z,
    phi c (1, t, z) = 0 /\ (~~ polar -> phi c (0, t, z) = 0).
(** on the polar axis the 0-form and the axial component of a 1-form do not depend on theta, all
    other components vanish (for 1- and 2-forms: the physical field is parallel to the axis) *)
Definition axis_ok (polar : bool) (k : deg) (phi : nat -> point -> R) : Prop :=
  polar -> forall c, (c < comps k)%N -> forall t t' z,
    match k, c with
    | K0, _ | K1, 2%N => phi c (0, t, z) = phi c (0, t', z)
    | _, _ => phi c (0, t, z) = 0
    end.
