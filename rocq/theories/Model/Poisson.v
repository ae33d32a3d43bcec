(** The Poisson tutorials and tests: scripts/tutorials/polar_poisson.py, toroid_poisson.py,
    mixed_polar_poisson.py, test/test_cylinder_vector_poisson.py, test/test_z_pinch.py. *)
From Coq Require Import Reals.
From mathcomp Require Import all_ssreflect all_algebra.
From Verif Require Import Model.RBase Model.Forms Model.DeRham Model.FormEval Model.Geometry.
Set Implicit Arguments.
Unset Strict Implicit.
Unset Printing Implicit Defensive.
Import GRing.Theory Num.Theory.
Local Open Scope ring_scope.

Section Poisson.
Variable F : realFieldType.
Variable S : drseq F.
(** jnp.linalg.solve(Seq.M0 @ Seq.dd0, Seq.P0(f)), f given by its values at the quadrature points *)
(* scripts/tutorials/polar_poisson.py:94, toroid_poisson.py:92 *)
Definition poisson_primal (f : nat -> vec3 F) : 'cV[F]_(rk S K0) := solve (M0 S *m dd0 S) (Projector0 S f).
(** jnp.linalg.solve(Seq.M3 @ Seq.dd3, Seq.P3(f)) *)
(* scripts/tutorials/mixed_polar_poisson.py:100 *)
Definition poisson_mixed (f : nat -> vec3 F) : 'cV[F]_(rk S K3) := solve (M3 S *m dd3 S) (Projector3 S f).
End Poisson.

(** ** the analytic data, functions of the logical coordinates *)
Local Close Scope ring_scope.
Local Open Scope R_scope.
(* scripts/tutorials/polar_poisson.py:54-80 *)
Definition polar_u (x : point) : R := let '(r, _, _) := x in r ^ 3 * (3 * ln r - 2) / 27 + 2 / 27.
Definition polar_f (x : point) : R := let '(r, _, _) := x in - 1 * r * ln r.
(* scripts/tutorials/mixed_polar_poisson.py:61-86 *)
Definition mixed_u (x : point) : R := let '(r, _, _) := x in - 1 * (r ^ 4 / 16 - r ^ 3 / 12 + 1 / 48).
Definition mixed_f (x : point) : R := let '(r, _, _) := x in 1 * (r - 3 / 4) * r.
(** the formula in the docstrings of mixed_polar_poisson.py *)
(* scripts/tutorials/mixed_polar_poisson.py:9, 64 *)
Definition mixed_u_doc (x : point) : R := let '(r, _, _) := x in - (1 / 16) * r ^ 4 + 1 / 12 * r ^ 3 + 1 / 48.
(* scripts/tutorials/toroid_poisson.py:52-82 *)
Definition toroid_u (x : point) : R := let '(r, _, z) := x in (r ^ 2 - r ^ 4) * cos (2 * PI * z).
Definition toroid_f (eps : R) (x : point) : R :=
  let '(r, t, z) := x in let Rr := 1 + eps * r * cos (2 * PI * t) in
  cos (2 * PI * z) * (- 4 / eps ^ 2 * (1 - 4 * r ^ 2) - 4 / (eps * Rr) * (r / 2 - r ^ 3) * cos (2 * PI * t) + (r ^ 2 - r ^ 4) / Rr ^ 2).
(** u(x) = [0, u_theta, 0], f(x) = [0, f_theta, 0], both handed to P2, which expects Cartesian
    components *)
(* test/test_cylinder_vector_poisson.py:45-55, scripts/interactive/cylinder_vector_poisson.py:45-75 *)
Definition vector_u (x : point) : R := let '(r, _, z) := x in r ^ 2 * (1 - r) ^ 2 * cos (2 * PI * z).
Definition vector_f (x : point) : R :=
  let '(r, _, z) := x in (r ^ 2 * (1 - r) ^ 2 * 4 * PI ^ 2 - (3 - 16 * r + 15 * r ^ 2)) * cos (2 * PI * z).
(** Z pinch: map, field (Cartesian components) and pressure *)
(* test/test_z_pinch.py:18-31 *)
Definition zpinch_F (x : point) : point := let '(r, t, z) := x in (r * cos (2 * PI * t), r * sin (2 * PI * t), z).
(* test/test_z_pinch.py:34-38 *)
Definition zpinch_B (x : point) : point :=
  let '(r, t, _) := x in let Bt := 2 * r * (1 - r ^ 2 / 2) in (- sin (2 * PI * t) * Bt, cos (2 * PI * t) * Bt, 0 * Bt).
(* test/test_z_pinch.py:41-44 *)
Definition zpinch_p (x : point) : R := let '(r, _, _) := x in 1 / 3 * (5 - 2 * r ^ 2) * (1 - r ^ 2) ^ 2 * 1.
