(** The DeRhamSequence constructor on real inputs: mrx/derham_sequence.py __init__
    followed by evaluate_1d, together with get_xi of mrx/polar.py. *)
From Coq Require Import Reals.
From mathcomp Require Import all_ssreflect all_algebra.
From Verif Require Import Model.RBase Model.Spline Model.Quad Model.Forms Model.DeRham Model.FormEval Model.Geometry.
From Verif Require Import Proof.RField.
Set Implicit Arguments.
Unset Strict Implicit.
Unset Printing Implicit Defensive.
Local Open Scope R_scope.

(** get_xi(nt), polar.py:327-364: entry (p, i, j), p < 3, i < 2, j < nt.  theta_j is
    (j / nt) * 2 * pi; row p of the matrix M is (xiM p 0, xiM p 1). *)
Definition theta_j (nt j : nat) : R := INR j / INR nt * 2 * PI.
Definition xiM (p c : nat) : R :=
  match p, c with
  | O, O => 1 / 3 | O, _ => 0
  | S O, O => - (1 / 6) | S O, _ => sqrt 3 / 6
  | _, O => - (1 / 6) | _, _ => - (sqrt 3 / 6)
  end.
Definition get_xi (nt : nat) (p i j : nat) : R :=
  if i is O then 1 / 3
  else 1 / 3 + (xiM p 0 * cos (theta_j nt j) + xiM p 1 * sin (theta_j nt j)).

(** DeRhamSequence(ns, ps, q, types, F, polar, dirichlet), derham_sequence.py:57-113, then
    evaluate_1d(), derham_sequence.py:115-130.  DFx x is jax.jacfwd(F)(x); the Jacobian
    determinant of utils.py:32-41 is the determinant of that matrix.  None: a constructor
    raises.  The four DifferentialForm objects are built from the same ns, ps, types, so
    they have the same univariate bases; that of degree k is seq_form k. *)
Definition seq_form (k : deg) (ns ps : triple) (types : stype * stype * stype) : option dform :=
  DifferentialForm k ns ps types.
Definition new_sequence (ns ps : triple) (q : nat) (types : stype * stype * stype)
    (DFx : point -> mat3 R_realFieldType) (polar dirichlet : bool) : option (drseq R_realFieldType) :=
  match seq_form K0 ns ps types with
  | None => None
  | Some f =>
      match QuadratureRule (f_L0 f) (f_L1 f) (f_L2 f) q with
      | None => None
      | Some Q =>
          let xj j := List.nth j (q_x Q) (0, 0, 0) in
          Some (DeRhamSequence (f_shape f) (evaluate_1d f Q)
                  (fun j => metric (DFx (xj j))) (fun j => inv33 (metric (DFx (xj j))))
                  (fun j => det33 (DFx (xj j))) (fun j => List.nth j (q_w Q) 0)
                  (get_xi (ns.1.2)) polar dirichlet)
      end
  end.
