(** Model of the spectral self-checks of test/test_sequences.py and of the GVEC scripts. *)
From mathcomp Require Import all_ssreflect all_algebra.
From Verif Require Import Model.Forms Model.DeRham.
Set Implicit Arguments.
Unset Strict Implicit.
Unset Printing Implicit Defensive.
Import GRing.Theory Num.Theory.
Local Open Scope ring_scope.

Section Check.
Variable F : realFieldType.
(** lam is among jnp.linalg.eigvalsh(A); jax symmetrises its argument first *)
(* test/test_sequences.py:48-51 *)
Definition in_eigvalsh n (A : 'M[F]_n) (lam : F) : Prop :=
  exists2 v : 'cV[F]_n, v != 0 & (2%:R^-1 *: (A + A^T)) *m v = lam *: v.
(** expected_nulls *)
(* test/test_sequences.py:18-19, scripts/interactive/test_gvec_tokamak.py:210, test_gvec_stellarator.py:124 *)
Definition expected_nulls (dirichlet : bool) : seq bool :=
  if dirichlet then [:: false; false; true; true] else [:: true; true; false; false].
(** the two assertions for one operator with exact arithmetic: no negative eigenvalue, and 0 is one iff expected (the
    thresholds 1e-10 and 1e-6 of the tests are for rounding and are not modelled) *)
(* test/test_sequences.py:55-72, scripts/interactive/test_gvec_tokamak.py:211-229 *)
Definition check_passes n (A : 'M[F]_n) (should_be_zero : bool) : Prop :=
  (forall lam, in_eigvalsh A lam -> 0 <= lam) /\ (in_eigvalsh A 0 <-> should_be_zero).
End Check.
