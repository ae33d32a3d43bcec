(** Specification: Betti numbers of the domain of a sequence (logical radius x two angles).
    polar: the inner face is collapsed to an axis, the domain is a solid torus; otherwise
    it is a thickened torus (interval x circle x circle).  dirichlet: forms vanish
    (tangentially) on the boundary, i.e. the cohomology relative to the boundary. *)
From mathcomp Require Import all_ssreflect.
From Verif Require Import Model.Forms.
Set Implicit Arguments.
Unset Strict Implicit.
Unset Printing Implicit Defensive.

Definition betti (polar dirichlet : bool) (k : deg) : nat :=
  match polar, dirichlet, k with
  | true,  false, K0 => 1 | true,  false, K1 => 1 | true,  false, K2 => 0 | true,  false, K3 => 0
  | true,  true,  K0 => 0 | true,  true,  K1 => 0 | true,  true,  K2 => 1 | true,  true,  K3 => 1
  | false, false, K0 => 1 | false, false, K1 => 2 | false, false, K2 => 1 | false, false, K3 => 0
  | false, true,  K0 => 0 | false, true,  K1 => 1 | false, true,  K2 => 2 | false, true,  K3 => 1
  | _, _, KV => 0
  end.
From mathcomp Require Import all_algebra.
From Verif Require Import Model.DeRham Spec.Cochain Spec.SeqSpec.
Import GRing.Theory.
Local Open Scope ring_scope.

(** integral of a 3-form over the whole domain: the sum of its spline coefficients
    (the 3-form basis functions are normalised to unit integral over the logical cube; the
    theorems use only this sum) *)
Definition total_mass (F : realFieldType) (S : drseq F) (y : 'cV[F]_(rk S K3)) : F :=
  \sum_(i < dr (sh S)) \sum_(j < nt (sh S)) \sum_(l < nz (sh S)) coefs S K3 y 0%N i j l.
