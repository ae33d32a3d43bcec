(** Model of dB_xyz, the island perturbation of scripts/config_scripts/iter_islands.py and stell.py.  DFx is
    jax.jacfwd(F); the projection, the normalisation and the places where it is added are in Model/Scripts.v and
    Model/Relaxation.v. *)
From Coq Require Import Reals.
From mathcomp Require Import all_ssreflect all_algebra.
From Verif Require Import Model.RBase Model.Forms Model.DeRham Model.FormEval Model.Geometry Proof.RField.
Set Implicit Arguments.
Unset Strict Implicit.
Unset Printing Implicit Defensive.
Local Open Scope R_scope.

(** a(r) *)
(* scripts/config_scripts/iter_islands.py:90-91, stell.py:87-88 *)
Definition radial_profile (loc width r : R) : R := exp (- (r - loc) ^ 2 / (2 * width ^ 2)).
(** dB_xyz(p); DFx[:, 0] is the first column *)
(* scripts/config_scripts/iter_islands.py:86-94, stell.py:83-91 *)
Definition island_dB (loc width pol_mode tor_mode : R) (DFx : point -> mat3 R_realFieldType) (p : point)
    : vec3 R_realFieldType :=
  let '(r, t, z) := p in
  fun k => radial_profile loc width r * sin (2 * PI * t * pol_mode) * sin (2 * PI * z * tor_mode) * DFx p k 0%nat.
