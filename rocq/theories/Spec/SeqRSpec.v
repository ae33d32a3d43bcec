(** Specification vocabulary for the constructor DeRhamSequence on real inputs. *)
From Coq Require Import Reals.
From mathcomp Require Import all_ssreflect all_algebra.
From Verif Require Import Model.RBase Model.Spline Model.Quad Model.Forms Model.DeRham Model.FormEval Model.Geometry Model.SeqR.
From Verif Require Import Proof.RField.
Set Implicit Arguments.
Unset Strict Implicit.
Unset Printing Implicit Defensive.
Local Open Scope R_scope.

(** Constructor arguments covered: clamped r, periodic theta, periodic zeta (or the
    one-function constant basis), degree at least 1, Gauss order m at most 10 (or silently
    capped at 10, see C17) above the degree, or equal to it (q = max(ps), as all scripts choose)
    if the degree is at least 2 and there are at least two elements, sizes below the isclose limits of C06, and
    as many theta splines as r splines (at least as many with Dirichlet conditions) and at
    least as many as zeta splines (C23 shows these are needed). *)
Definition gauss_order (q : nat) : nat := if (1 <= q <= 10)%N then q else 10%N.
(** m Gauss points per element are enough for degree p on E elements *)
Definition gauss_ok (p m E : nat) : bool := (p < m)%N || [&& (2 <= p)%N, p == m & (2 <= E)%N].
Definition zeta_ok (n2 p2 q : nat) (t2 : stype) : Prop :=
  (t2 = Periodic /\ [&& (1 <= p2)%N, (p2 < n2)%N & gauss_ok p2 (gauss_order q) n2] /\ INR n2 <= 49000)
  \/ (t2 = Constant /\ n2 = 1%N /\ p2 = 0%N).
Definition resolved (ns ps : triple) (q : nat) (types : stype * stype * stype) : Prop :=
  let: (n0, n1, n2) := ns in let: (p0, p1, p2) := ps in let: (t0, t1, t2) := types in
  let m := gauss_order q in
  [/\ t0 = Clamped /\ t1 = Periodic,
      [&& (1 <= p0)%N, (p0 < n0)%N, gauss_ok p0 m (n0 - p0), (1 <= p1)%N, (p1 < n1)%N & gauss_ok p1 m n1],
      INR (n0 - p0) <= 99900 /\ INR n1 <= 49000
    & zeta_ok n2 p2 q t2].
Definition supported (ns ps : triple) (q : nat) (types : stype * stype * stype) (polar dirichlet : bool) : Prop :=
  let: (n0, n1, n2) := ns in
  resolved ns ps q types /\
  [&& (n2 <= n1)%N, (n0 == n1) || dirichlet && (n0 <= n1)%N, polar ==> (3 <= n1)%N
    & polar && dirichlet ==> (3 <= n0)%N].

(** the quadrature points of the sequence *)
Definition seq_points (ns ps : triple) (q : nat) (types : stype * stype * stype) : list point :=
  match DifferentialForm K0 ns ps types with
  | None => nil
  | Some f => match QuadratureRule (f_L0 f) (f_L1 f) (f_L2 f) q with Some Q => q_x Q | None => nil end
  end.
Definition seq_weights (ns ps : triple) (q : nat) (types : stype * stype * stype) : list R :=
  match DifferentialForm K0 ns ps types with
  | None => nil
  | Some f => match QuadratureRule (f_L0 f) (f_L1 f) (f_L2 f) q with Some Q => q_w Q | None => nil end
  end.
(** the map is orientation preserving, with Jacobian determinant at least 1e-5, at the
    quadrature points (none of which lies on the polar axis, see C14) *)
Definition regular_map (DFx : point -> mat3 R_realFieldType) (pts : list point) : Prop :=
  forall x, List.In x pts -> / 10 ^ 5 <= det33 (DFx x).
