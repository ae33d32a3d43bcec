(** Specification vocabulary for the de Rham sequence. *)
From mathcomp Require Import all_ssreflect all_algebra.
From Verif Require Import Model.Forms Model.DeRham Spec.Cochain Spec.PolarSpace.
Set Implicit Arguments.
Unset Strict Implicit.
Unset Printing Implicit Defensive.
Import Order.TTheory GRing.Theory Num.Theory.
Local Open Scope ring_scope.

Section SeqSpec.
Variable F : realFieldType.

(** the discretisations the derivative getters are right for: splines clamped in r,
    not clamped in theta and zeta, nz <= nt, and nr = nt or Dirichlet with nr <= nt
    (C23 shows that the last conditions are needed) *)
Definition admissible (s : shape) (xi : nat -> nat -> nat -> F) (polar dirichlet : bool) : Prop :=
  [/\ [&& cr s, ~~ ct s & ~~ cz s], [&& (0 < nt s)%N, (0 < nz s)%N & (nz s <= nt s)%N],
      (2 + (polar && dirichlet) <= nr s)%N,
      (nr s == nt s) || dirichlet && (nr s <= nt s)%N
    & (polar -> xi_ok xi (nt s))].

(** coefficients, in the full tensor-product spline basis, of the k-form with
    degrees of freedom y (i.e. E^T y, as a structured cochain) *)
Definition coefs (S : drseq F) (k : deg) (y : 'cV[F]_(rk S k)) : cochain F := fun c i j l =>
  \sum_(x < fdim (sh S) k | nat_of_ord x == ravel_index (sh S) k c i j l) ((E_ S k)^T *m y) x 0.

(** the discrete k-form with degrees of freedom y, evaluated at quadrature point j,
    component k *)
Definition val0 S (y : 'cV[F]_(rk S K0)) := evaluate_at_xq (get_Lambda_0 (sh S) (tb S)) ((E_ S K0)^T *m y).
Definition val1 S (y : 'cV[F]_(rk S K1)) := evaluate_at_xq (get_Lambda_1 (sh S) (tb S)) ((E_ S K1)^T *m y).
Definition val2 S (y : 'cV[F]_(rk S K2)) := evaluate_at_xq (get_Lambda_2 (sh S) (tb S)) ((E_ S K2)^T *m y).
Definition val3 S (y : 'cV[F]_(rk S K3)) := evaluate_at_xq (get_Lambda_3 (sh S) (tb S)) ((E_ S K3)^T *m y).
(** ... and its exterior derivative as tabulated by the derivative getters *)
Definition dval0 S (y : 'cV[F]_(rk S K0)) := evaluate_at_xq (get_d_Lambda_0 (sh S) (tb S)) ((E_ S K0)^T *m y).
Definition dval1 S (y : 'cV[F]_(rk S K1)) := evaluate_at_xq (get_d_Lambda_1 (sh S) (tb S)) ((E_ S K1)^T *m y).
Definition dval2 S (y : 'cV[F]_(rk S K2)) := evaluate_at_xq (get_d_Lambda_2 (sh S) (tb S)) ((E_ S K2)^T *m y).

(** x^T A y *)
Definition form n m (A : 'M[F]_(n, m)) (x : 'cV[F]_n) (y : 'cV[F]_m) : F := (x^T *m A *m y) 0 0.

(** the geometry at the quadrature points is that of a map: symmetric ... *)
Definition geometry_sym (S : drseq F) : Prop := forall j k m, (j < n_q S)%N -> (k < 3)%N -> (m < 3)%N ->
  G_jkl S j k m = G_jkl S j m k /\ G_inv_jkl S j k m = G_inv_jkl S j m k.
(** ... orientation preserving, with positive weights and positive definite metric *)
Definition geometry_pos (S : drseq F) : Prop := forall j, (j < n_q S)%N ->
  [/\ 0 < w_j S j, 0 < J_j S j,
   (forall x : nat -> F, (exists2 k, (k < 3)%N & x k != 0) ->
       0 < \sum_(k < 3) \sum_(m < 3) x k * G_jkl S j k m * x m) &
   (forall x : nat -> F, (exists2 k, (k < 3)%N & x k != 0) ->
       0 < \sum_(k < 3) \sum_(m < 3) x k * G_inv_jkl S j k m * x m)].

(** all mass matrices are invertible *)
Definition masses_invertible (S : drseq F) : Prop :=
  [/\ M0 S \in unitmx, M1 S \in unitmx, M2 S \in unitmx & M3 S \in unitmx].

(** rows 0..n-1 of a table with q columns are linearly independent *)
Definition indep_rows (n q : nat) (T : nat -> nat -> F) : Prop := forall c : nat -> F,
  (forall j, (j < q)%N -> \sum_(i < n) c i * T i j = 0) -> forall i, (i < n)%N -> c i = 0.

(** the three barycentric functions on the two inner rings are independent *)
Definition xi_indep (xi : nat -> nat -> nat -> F) (nt : nat) : Prop := forall c : nat -> F,
  (forall i j, (i < 2)%N -> (j < nt)%N -> \sum_(p < 3) c p * xi p i j = 0) -> forall p, (p < 3)%N -> c p = 0.

(** every univariate table resolves its splines at the quadrature nodes *)
Definition tables_indep (s : shape) (t : tables F) : Prop :=
  [/\ indep_rows (nr s) (qx t) (lam_r t), indep_rows (nt s) (qy t) (lam_t t), indep_rows (nz s) (qz t) (lam_z t)
    & [/\ indep_rows (dr s) (qx t) (dlam_r t), indep_rows (dt s) (qy t) (dlam_t t) & indep_rows (dz s) (qz t) (dlam_z t)]].
End SeqSpec.
Arguments coefs {F} S k y.
