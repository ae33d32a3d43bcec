(** The eigenproblems and singular Poisson problems the scripts and tests hand to LAPACK:
    scripts/interactive/cylinder_cavity.py, toroid_cavity.py, cylinder_vector_poisson.py,
    drumshape.py, test/test_cylinder_cavity.py, test_cylinder_vector_poisson.py,
    test_cylinder_vector_poisson_projection.py. *)
From mathcomp Require Import all_ssreflect all_algebra.
From Verif Require Import Model.Forms Model.DeRham.
Set Implicit Arguments.
Unset Strict Implicit.
Unset Printing Implicit Defensive.
Import GRing.Theory Num.Theory.
Local Open Scope ring_scope.

Section Eigen.
Variable F : realFieldType.
Variable S : drseq F.

(** C = M1 @ (dd1 + strong_grad @ weak_div) *)
(* scripts/interactive/cylinder_cavity.py:62-63, toroid_cavity.py:55 *)
Definition double_curl : 'M[F]_(rk S K1) := M1 S *m (dd1 S + strong_grad S *m weak_div S).
(** Q = block([[C, D0], [D0.T, O0]]) *)
(* scripts/interactive/cylinder_cavity.py:66, test/test_cylinder_cavity.py:124 *)
Definition saddle (C : 'M[F]_(rk S K1)) : 'M[F]_(rk S K1 + rk S K0) := block_mx C (D0 S) (D0 S)^T 0.
(** P = block([[M1, O10], [O10.T, O0]]) *)
(* scripts/interactive/cylinder_cavity.py:67, test/test_cylinder_cavity.py:125 *)
Definition saddle_mass : 'M[F]_(rk S K1 + rk S K0) := block_mx (M1 S) 0 0 0.
(** Q of the script, and of the test, whose C is dd1 *)
(* scripts/interactive/cylinder_cavity.py:62-66 *)
Definition script_Q := saddle double_curl.
(* test/test_cylinder_cavity.py:121-124 *)
Definition test_Q := saddle (dd1 S).

(** L = C @ solve(M1, C.T) + divdiv, with C = strong_curl and
    divdiv = M2 @ (dd2 - strong_curl @ weak_curl) *)
(* scripts/interactive/cylinder_vector_poisson.py:86-101 *)
Definition script_L : 'M[F]_(rk S K2) :=
  strong_curl S *m solve (M1 S) (strong_curl S)^T + M2 S *m (dd2 S - strong_curl S *m weak_curl S).

(** L_pinv = (eigvecs * where(|eigvals| > tol, 1/eigvals, 0)) @ eigvecs.T *)
(* scripts/interactive/cylinder_vector_poisson.py:104-111, test/test_cylinder_vector_poisson.py:80-88 *)
Definition spectral_pinv n (V : 'M[F]_n) (d : 'rV[F]_n) (tol : F) : 'M[F]_n :=
  V *m diag_mx (\row_i (if tol < `|d 0 i| then (d 0 i)^-1 else 0)) *m V^T.

(** (d, V) is a possible value of jnp.linalg.eigh(A) (A symmetric): orthonormal eigenvectors; the
    order of the eigenvalues and LAPACK's choice of the vectors are not modelled *)
(* scripts/interactive/cylinder_vector_poisson.py:105, drumshape.py:55 *)
Definition eigh_value n (A : 'M[F]_n) (d : 'rV[F]_n) (V : 'M[F]_n) : Prop :=
  V^T *m V = 1%:M /\ A *m V = V *m diag_mx d.

(** P = eye - outer(M2 @ v, v) / (v @ M2 @ v),  L_proj = P @ L @ P *)
(* test/test_cylinder_vector_poisson_projection.py:101-107 *)
Definition deflation n (M : 'M[F]_n) (v : 'cV[F]_n) : 'M[F]_n :=
  1%:M - ((v^T *m M *m v) 0 0)^-1 *: (M *m v *m v^T).

(** generalized_eigh(A, B): L = cholesky(B + 1e-12 eye) is any invertible L with L L^T = that
    matrix; the eigenvectors of C = L^-1 A L^-T are transformed back *)
(* scripts/interactive/drumshape.py:34-59, test/test_cylinder_vector_poisson_projection.py:82-94 *)
Definition generalized_eigh n (A B : 'M[F]_n) (d : 'rV[F]_n) (X : 'M[F]_n) : Prop :=
  exists (L V : 'M[F]_n),
    [/\ L \in unitmx, L *m L^T = B + (10%:R ^+ 12)^-1%:M, eigh_value (invmx L *m A *m (invmx L)^T) d V & X = (invmx L)^T *m V].
End Eigen.
