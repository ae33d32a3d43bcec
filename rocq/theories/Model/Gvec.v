(** Model of mrx/gvec_interface.py: fitting a map and a magnetic field to GVEC data. *)
From Coq Require Import Reals.
From mathcomp Require Import all_ssreflect all_algebra.
From Verif Require Import Model.RBase Model.Forms Model.DeRham Model.FormEval Model.Geometry Model.Maps Proof.RField.
Set Implicit Arguments.
Unset Strict Implicit.
Unset Printing Implicit Defensive.
Import GRing.Theory.
Local Open Scope ring_scope.

(** jnp.linalg.lstsq(A, b, rcond=None), gvec_interface.py:46 and :125: the product of the
    pseudo-inverse of A with b.  Simplified: the pseudo-inverse is given by a full-rank
    factorisation A = C R instead of the singular value decomposition, and no singular value
    is cut off (the code drops those below eps * max(shape) times the largest). *)
Definition pinv (F : fieldType) (m n : nat) (A : 'M[F]_(m, n)) : 'M[F]_(n, m) :=
  let C := col_base A in let R := row_base A in
  R^T *m invmx (R *m R^T) *m invmx (C^T *m C) *m C^T.
Definition lstsq (F : fieldType) (m n : nat) (A : 'M[F]_(m, n)) (b : 'cV[F]_m) : 'cV[F]_n := pinv A *m b.

(** the arrays read from the GVEC dataset, gvec_interface.py:27-31, 83-85, 122; X1, X2 and B
    are indexed by the positions in rho, theta, zeta (B also by the component) *)
Record gvec_eq := GvecEq { g_rho : list R; g_theta : list R; g_zeta : list R;
  g_X1 : nat -> nat -> nat -> R; g_X2 : nat -> nat -> nat -> R; g_B : nat -> nat -> nat -> nat -> R }.

Section Gvec.
Variable g : gvec_eq.
(* gvec_interface.py:27-31 (the shapes in the comments) *)
Definition g_shape : triple := (length (g_rho g), length (g_theta g), length (g_zeta g)).
Definition g_n : nat := tsize g_shape.

(** row j of pts, gvec_interface.py:36-40 and 86-91: meshgrid(indexing="ij") and ravel *)
Definition pts (nfp : R) (j : nat) : point :=
  let: (a, b, c) := unravel3 g_shape j in
  gvec_logical_point nfp (List.nth a (g_rho g) R0, List.nth b (g_theta g) R0, List.nth c (g_zeta g) R0).
(** X.ravel()[j], gvec_interface.py:45 *)
Definition raveled (X : nat -> nat -> nat -> R) (j : nat) : R :=
  let: (a, b, c) := unravel3 g_shape j in X a b c.

(** interpolate_map_from_GVEC, gvec_interface.py:9-51.  S is mapSeq, f its Lambda_0.  M is the
    matrix of gvec_interface.py:43-44.  The returned map evaluates c @ E0 @ Lambda_0(x): None,
    a shape error, unless E0 is square (c has one entry per row of Lambda_0). *)
Definition map_matrix (nfp : R) (f : dform) (n : nat) : 'M[R]_(g_n, n) :=
  \matrix_(j < g_n, i < n) form_evaluate f (pts nfp j) i 0.
Definition map_coefficients (nfp : R) (f : dform) (n : nat) (X : nat -> nat -> nat -> R) : 'cV[R]_n :=
  lstsq (map_matrix nfp f n) (\col_(j < g_n) raveled X j).
Definition interpolated (nfp : R) (f : dform) (S : drseq R_realFieldType) (X : nat -> nat -> nat -> R) (x : point) : option R :=
  match @eqP _ (fdim (sh S) K0) (rk S K0) with
  | ReflectT e =>
      let c := castmx (e, erefl) (map_coefficients nfp f (fdim (sh S) K0) X) in
      Some (\sum_(i < fdim (sh S) K0) (c^T *m E_ S K0) ord0 i * form_evaluate f x i 0)
  | ReflectF _ => None
  end.
Definition interpolate_map_from_GVEC (nfp : R) (f : dform) (S : drseq R_realFieldType) (x : point) : option point :=
  match interpolated nfp f S (g_X1 g) x, interpolated nfp f S (g_X2 g) x with
  | Some v1, Some v2 => Some (gvec_stellarator_map (fun _ => v1) (fun _ => v2) nfp x)
  | _, _ => None
  end.

(** interpolate_B_from_GVEC, gvec_interface.py:54-126.  f is Seq.Lambda_2, DPhi x the Jacobian
    matrix of Phi at x. *)
(* gvec_interface.py:93 *)
Definition valid (nfp : R) (j : nat) : bool :=
  let: (rho, _, _) := pts nfp j in
  Rltb (Rdiv 1 1000) rho && Rltb rho (Rminus 1 (Rdiv 1 1000)).
Definition valid_pts (nfp : R) : seq nat := [seq j <- iota 0 g_n | valid nfp j].
(** Lambda_2_phys, gvec_interface.py:95-114 *)
Definition L2_phys (f : dform) (DPhi : point -> mat3 R_realFieldType) (i : nat) (x : point) : vec3 R_realFieldType :=
  fun a => mulv3 (DPhi x) (form_evaluate f x i) a / det33 (DPhi x).
(** A and b, gvec_interface.py:116-123: row 3 j + a is component a at the valid point j *)
Definition B_matrix (nfp : R) (f : dform) (DPhi : point -> mat3 R_realFieldType) (S : drseq R_realFieldType)
  : 'M[R]_(size (valid_pts nfp) * 3, rk S K2) :=
  \matrix_(r, i) \sum_(l < fdim (sh S) K2) E_ S K2 i l *
     L2_phys f DPhi l (pts nfp (nth 0%N (valid_pts nfp) (r %/ 3))) (r %% 3)%N.
Definition B_rhs (nfp : R) : 'cV[R]_(size (valid_pts nfp) * 3) :=
  \col_r raveled (fun a b c => g_B g a b c (r %% 3)%N) (nth 0%N (valid_pts nfp) (r %/ 3)).
(** the two returned values B_dof and residuals, gvec_interface.py:125-126 (the argument
    exclude_axis_tol is not used); jnp's lstsq returns the squared norm of the residual *)
Definition interpolate_B_from_GVEC (f : dform) (S : drseq R_realFieldType) (DPhi : point -> mat3 R_realFieldType)
    (nfp exclude_axis_tol : R) : 'cV[R]_(rk S K2) * R :=
  let A := B_matrix nfp f DPhi S in let b := B_rhs nfp in
  let x := lstsq A b in
  (x, \sum_r (b - A *m x) r ord0 ^+ 2).
End Gvec.
