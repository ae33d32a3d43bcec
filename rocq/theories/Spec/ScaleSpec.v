(** Specification vocabulary for C63: the same discretisation on a domain magnified by a. *)
From mathcomp Require Import all_ssreflect all_algebra.
From Verif Require Import Model.Forms Model.DeRham Model.Geometry.
Set Implicit Arguments.
Unset Strict Implicit.
Unset Printing Implicit Defensive.
Import GRing.Theory Num.Theory.
Local Open Scope ring_scope.

Section ScaleSpec.
Variable F : realFieldType.
(** the same spline spaces and quadrature, other geometry *)
Definition regeom (S : drseq F) (G Gi : nat -> nat -> nat -> F) (J : nat -> F) : drseq F :=
  @Seq F (sh S) (tb S) G Gi J (w_j S) (rk S) (E_ S).
(** metric, inverse metric and Jacobian at the quadrature points are those of the map a F *)
Definition magnified (a : F) (S : drseq F) (G Gi : nat -> nat -> nat -> F) (J : nat -> F) : Prop :=
  forall j, (j < n_q S)%N -> J j = a ^+ 3 * J_j S j /\
  forall k m, (k < 3)%N -> (m < 3)%N -> G j k m = a ^+ 2 * G_jkl S j k m /\ Gi j k m = a ^- 2 * G_inv_jkl S j k m.
End ScaleSpec.
From Verif Require Import Model.Relaxation.
Section ScaleRunSpec.
Variable F : realFieldType.
Variable S : drseq F.
Variables (G Gi : nat -> nat -> nat -> F) (J : nat -> F).
Notation S' := (regeom S G Gi J).
Variables (a c : F).
(** the same coefficients, time in units of a^6, resistivity in units of a^-4; c is the factor of
    the norm of 2-forms *)
Definition scale_num (k : F) (x : num F) : num F := match x with Fin y => Fin (k * y) | Inf => Inf | NaN => NaN end.
Definition magnify_state (st : rstate S) : rstate S' :=
  @RState F S' (B_n st) (B_guess st) (a ^+ 6 * dt_ st) (a ^- 4 * eta st) (Hessian st) (picard_iterations st)
    (scale_num c (picard_residuum st)) (scale_num (c * a ^- 3) (force_norm st)) (scale_num (c * a ^- 3) (velocity_norm st)).
(** the tolerances in the units of the norms *)
Definition magnify_config (cfg : config F) : config F :=
  Config (c_maxit cfg) (c_precond cfg) (c_precond_every cfg) (c_gamma cfg) (c_dt_factor cfg)
    (c * a ^- 3 * c_force_tol cfg) (c_force_free cfg) (c_solver_maxit cfg) (c_critit cfg) (c * c_solver_tol cfg)
    (c_save_every cfg) (c_save_B cfg) (c_pert_strength cfg) (c_apply_pert_after cfg) (c_dB_xyz cfg).
End ScaleRunSpec.
