(** Model of lcfs_fit and get_lcfs_F (mrx/mappings.py:416-547). *)
From Coq Require Import Reals List.
From mathcomp Require Import all_ssreflect all_algebra.
From Verif Require Import Model.RBase Model.Spline Model.Quad Model.Forms Model.DeRham Model.FormEval Model.Maps Proof.RField.
Set Implicit Arguments.
Unset Strict Implicit.
Unset Printing Implicit Defensive.
Local Open Scope R_scope.

Section Lcfs.
Variables (n_map p_map q_map : nat) (R0 k0 q0 aR : R).

(** psi, mappings.py:457-460: the inner _psi and its difference to the value at (R0 + aR, 0) *)
Definition _psi (Rr Z : R) : R :=
  (k0 ^ 2 / 4 * (Rr ^ 2 - R0 ^ 2) ^ 2 + Rr ^ 2 * Z ^ 2) / (2 * R0 ^ 2 * k0 * q0).
Definition psi (Rr Z : R) : R := _psi Rr Z - _psi (R0 + aR) 0.

(** Λ_map and Q_map, mappings.py:463-465 (and :538-539); None: an exception *)
Definition L_map : option dform := DifferentialForm K0 (n_map, 1%N, 1%N) (p_map, 0%N, 0%N) (Periodic, Constant, Constant).
Definition Q_map (f : dform) : option quadrule := QuadratureRule (f_L0 f) (f_L1 f) (f_L2 f) q_map.

(** a_h(x)[0] of a_h = DiscreteFunction(a_hat, Λ_map), mappings.py:483, 486 (E = None: the identity); a_hat is an array
    of f_n f entries *)
Definition a_h (f : dform) (a_hat : nat -> R) (x : point) : R := (\sum_(i < f_n f) a_hat i * form_evaluate f x i 0)%R.

(** the inner _psi(x), mappings.py:485-490 *)
Definition psi_at (f : dform) (a_hat : nat -> R) (x : point) : R :=
  let a := a_h f a_hat x in
  let: (chi, _, _) := x in
  psi (R0 + a * cos (2 * PI * chi)) (a * sin (2 * PI * chi)) ^ 2.
(** loss, mappings.py:467-491: Q_map.w @ vmap(_psi)(Q_map.x) *)
Definition loss (f : dform) (Q : quadrule) (a_hat : nat -> R) : R :=
  fold_right Rplus 0 (List.map (fun wx : R * point => fst wx * psi_at f a_hat (snd wx)) (combine (q_w Q) (q_x Q))).

(** optimistix.least_squares(fn, y0, ...).value, mappings.py:493-498: any function of the residual function and the
    starting point.  The tolerances and the step limit are part of it; its exception on non-convergence is None. *)
Variable least_squares : ((nat -> R) -> R) -> (nat -> R) -> option (nat -> R).
(** y0 = jnp.ones(n_map) * aR, mappings.py:495 *)
Definition y0 : nat -> R := fun _ => 1 * aR.
(** lcfs_fit, mappings.py:416-500 *)
Definition lcfs_fit : option (nat -> R) :=
  match L_map with
  | Some f => match Q_map f with
              | Some Q => least_squares (loss f Q) y0
              | None => None
              end
  | None => None
  end.
(** get_lcfs_F, mappings.py:503-547 *)
Definition get_lcfs_F : option (point -> point) :=
  match lcfs_fit, L_map with
  | Some a_hat, Some f => Some (drumshape_map_modified (fun chi => a_h f a_hat (chi, 0, 0)) R0)
  | _, _ => None
  end.
End Lcfs.
