(** Model of test/test_helmholtz_decomposition.py and test/test_harmonic_fields_hollow_toroid.py: the exact fields,
    the geometry, the circulations and the currents-to-field solve.  The assembled matrices, the projection and the
    potential are those of Model/DeRham.v, Model/Scripts.v (projected_field, normalise) and Model/Relaxation.v
    (potential). *)
From Coq Require Import Reals.
From mathcomp Require Import all_ssreflect all_algebra.
From Verif Require Import Model.RBase Model.Forms Model.DeRham Model.FormEval Model.Geometry Model.Maps Model.Relaxation Model.Scripts.
From Verif Require Import Proof.RField.
Set Implicit Arguments.
Unset Strict Implicit.
Unset Printing Implicit Defensive.

Section Fields.
Local Open Scope R_scope.
(** the field B of the test in Cartesian components; F is Seq.F *)
(* test/test_helmholtz_decomposition.py:35-52 *)
Definition helmholtz_B (eps : R) (F : point -> point) (x : point) : point :=
  let '(r, t, _) := x in let '(x1, x2, _) := F x in
  let phi := arctan2 x2 x1 in
  let R := 1 + r * eps * cos (2 * PI * t) in
  (sin phi / R, - cos phi / R, 0 / R).

(** the hollow toroid F *)
(* test/test_harmonic_fields_hollow_toroid.py:25-43 *)
Definition hollow_F (e : R) (x : point) : point :=
  let '(r, t, z) := x in
  let R := 1 + e * (r + 1) / 2 * cos (2 * PI * t) in
  (R * cos (2 * PI * z), - R * sin (2 * PI * z), e * (r + 1) / 2 * sin (2 * PI * t)).
(** B_expected: the small-aspect-ratio field of the currents Ip, It *)
(* test/test_harmonic_fields_hollow_toroid.py:104-130 *)
Definition hollow_B (mu0 Ip It e : R) (x : point) : point :=
  let '(r, t, z) := x in
  let d := e * (r + 1) / 2 in
  let R := 1 + d * cos (2 * PI * t) in
  let Bz := mu0 * It / (2 * PI * R) in
  let Bt := mu0 * Ip / (2 * PI * d) in
  (- Bz * sin (2 * PI * z) - Bt * sin (2 * PI * t) * cos (2 * PI * z),
   - Bz * cos (2 * PI * z) + Bt * sin (2 * PI * t) * sin (2 * PI * z),
   Bt * cos (2 * PI * t)).
End Fields.

Section Circulation.
Local Open Scope ring_scope.
Notation Rf := R_realFieldType.
(** oneform: DF.T @ DF @ twoform(x) / det(DF) at one point *)
(* test/test_harmonic_fields_hollow_toroid.py:72-74 *)
Definition star_oneform (DF : mat3 Rf) (v : vec3 Rf) : vec3 Rf :=
  fun a => mulv3 (mul33 (tr33 DF) DF) v a / det33 DF.
(** h_dl(twoform, curve): oneform(curve(chi)) . curve'(chi); dcurve is jacfwd(curve) *)
(* test/test_harmonic_fields_hollow_toroid.py:71-81 *)
Definition h_dl (DFx : point -> mat3 Rf) (two : point -> vec3 Rf) (curve : R -> point) (dcurve : vec3 Rf) (chi : R) : Rf :=
  \sum_(a < 3) star_oneform (DFx (curve chi)) (two (curve chi)) a * dcurve a.
(** the contours: c1 winds around theta at radius r1 (1e-6 in the test) and zeta = z1 (0), c2 around zeta at
    radius r2 (1 - 1e-6) and theta = t2 (1/2); index 0 is c1, 1 is c2; with their derivatives *)
(* test/test_harmonic_fields_hollow_toroid.py:64-69 *)
Definition contour (r1 z1 r2 t2 : R) (j : nat) (chi : R) : point := if j == 0%N then (r1, chi, z1) else (r2, t2, chi).
Definition dcontour (j : nat) : vec3 Rf := if j == 0%N then arr3 0 1 0 else arr3 0 0 1.
(** vmap(h_dl(h, c))(linspace(0, 1, n_q, endpoint=False)) @ (ones / n_q) *)
(* test/test_harmonic_fields_hollow_toroid.py:83-92 *)
Definition circ (n_q : nat) (DFx : point -> mat3 Rf) (c : nat -> R -> point) (two : point -> vec3 Rf) (j : nat) : Rf :=
  \sum_(i < n_q) h_dl DFx two (c j) (dcontour j) (Rdiv (INR i) (INR n_q)) * (n_q%:R)^-1.
(** P[i, j] = circulation of h_i along c_j; b = solve(P.T, mu0 * Is); b_dofs = b[0] h1 + b[1] h2 *)
(* test/test_harmonic_fields_hollow_toroid.py:88-96 *)
Definition circ_matrix (V : Type) (C : V -> nat -> Rf) (h1 h2 : V) : 'M[Rf]_2 :=
  \matrix_(i, j) C (if i == 0 then h1 else h2) j.
Definition current_field n (C : 'cV[Rf]_n -> nat -> Rf) (h1 h2 : 'cV[Rf]_n) (mu0 Ip It : Rf) : 'cV[Rf]_n :=
  let b := solve (circ_matrix C h1 h2)^T (\col_j (mu0 * (if j == 0 then Ip else It))) in
  b 0 0 *: h1 + b 1 0 *: h2.
End Circulation.

Section Helmholtz.
Local Open Scope ring_scope.
Variable F : realFieldType.
Variable sqrt_ : F -> F.
Variable S : drseq F.
(** abs(B_hat @ Seq.M2 @ B_harm) *)
(* test/test_helmholtz_decomposition.py:72-73 *)
Definition alignment (B h : 'cV[F]_(rk S K2)) : F := `| (B^T *m M2 S *m h) 0 0 |.
(** (A_hat @ Seq.M1 @ A_hat)**0.5 *)
(* test/test_helmholtz_decomposition.py:57-62 *)
Definition norm_A (A : 'cV[F]_(rk S K1)) : F := sqrt_ ((A^T *m M1 S *m A) 0 0).
End Helmholtz.
