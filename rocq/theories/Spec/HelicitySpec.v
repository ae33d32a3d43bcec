(** Specification vocabulary for the helicity balance: the size of the quadrature defect of the
    pairing of 1- and 2-forms. *)
From Coq Require Import Reals.
From mathcomp Require Import all_ssreflect all_algebra.
From Verif Require Import Model.Forms Model.DeRham Model.FormEval Spec.SeqSpec.
Set Implicit Arguments.
Unset Strict Implicit.
Unset Printing Implicit Defensive.
Import Order.TTheory GRing.Theory Num.Theory.
Local Open Scope ring_scope.

(** sum of the absolute values of the coefficients in the tensor-product spline basis *)
Definition coef_norm (F : realFieldType) (S : drseq F) (k : deg) (y : 'cV[F]_(rk S k)) : F :=
  \sum_x `|((E_ S k)^T *m y) x 0|.

Local Open Scope R_scope.
(** Defect constant of the tabulated Gauss rules (accurate to 1e-14 in the moments, C16) for
    splines of degrees ps = (p0, p1, p2): (e_p0 + e_p1 + e_p2) X_p0 X_p1 X_p2 with
    e_p = 8 p (p+1) 4^p 1e-14 and X_p = 4 p^2 + 1. *)
Definition gauss_defect (p : nat) : R := 8 * INR (p * (p + 1)) * 4 ^ p * / 10 ^ 14.
Definition overlap (p : nat) : R := 4 * INR p ^ 2 + 1.
Definition pairing_defect (ps : triple) : R :=
  let: (p0, p1, p2) := ps in
  (gauss_defect p0 + gauss_defect p1 + gauss_defect p2) * (overlap p0 * overlap p1 * overlap p2).
