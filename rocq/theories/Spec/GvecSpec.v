(** Specification vocabulary for the GVEC interface: sums of squared misfits over the data points. *)
From Coq Require Import Reals.
From mathcomp Require Import all_ssreflect all_algebra.
From Verif Require Import Model.RBase Model.Forms Model.FormEval Model.Geometry Model.Maps Model.Gvec Proof.RField.
Set Implicit Arguments.
Unset Strict Implicit.
Unset Printing Implicit Defensive.
Import GRing.Theory.
Local Open Scope ring_scope.

Section Spec.
Variables (g : gvec_eq) (nfp : R).
(** the logical point of the data with GVEC coordinates (rho_a, theta_b, zeta_c):
    (rho, theta / 2 pi, nfp zeta / 2 pi) *)
Definition data_point (a b c : nat) : point :=
  (List.nth a (g_rho g) R0, Rdiv (List.nth b (g_theta g) R0) (Rmult 2 PI),
   Rmult (Rdiv (List.nth c (g_zeta g) R0) (Rmult 2 PI)) nfp).
Definition on_grid (a b c : nat) : Prop :=
  [/\ (a < length (g_rho g))%N, (b < length (g_theta g))%N & (c < length (g_zeta g))%N].

(** sum over all data points of the squared misfit of a scalar field *)
Definition misfit (X : nat -> nat -> nat -> R) (u : point -> R) : R_realFieldType :=
  \sum_(a < length (g_rho g)) \sum_(b < length (g_theta g)) \sum_(c < length (g_zeta g))
    (u (data_point a b c) - X a b c) ^+ 2.

(** the field is compared with B where 1e-3 < rho < 1 - 1e-3 *)
Definition inside (rho : R) : Prop := Rlt (Rdiv 1 1000) rho /\ Rlt rho (Rminus 1 (Rdiv 1 1000)).
Definition misfit_B (v : point -> nat -> R) : R_realFieldType :=
  \sum_(a < length (g_rho g)) \sum_(b < length (g_theta g)) \sum_(c < length (g_zeta g))
    if Rltb (Rdiv 1 1000) (List.nth a (g_rho g) R0) && Rltb (List.nth a (g_rho g) R0) (Rminus 1 (Rdiv 1 1000))
    then \sum_(d < 3) (v (data_point a b c) d - g_B g a b c d) ^+ 2 else 0.
End Spec.
