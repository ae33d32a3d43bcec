(** Model of the analytic initial fields of scripts/config_scripts/iter_islands.py and scripts/config_scripts/stell.py.
    F is the map of the sequence; the projection and the normalisation are in Model/Scripts.v. *)
From Coq Require Import Reals.
From Verif Require Import Model.RBase Model.Forms Model.FormEval Model.Maps.
Local Open Scope R_scope.

(** tau of iter_islands.py *)
(* scripts/config_scripts/iter_islands.py:60 *)
Definition iter_tau (q_star kappa : R) : R := q_star * kappa * (1 + kappa ^ 2) / (kappa + 1).
(** B_0 after x, y, z = F(p) *)
(* scripts/config_scripts/iter_islands.py:77-84 *)
Definition iter_field (kappa tau : R) (x y z : R) : R * R * R :=
  let r := sqrt (x ^ 2 + y ^ 2) in
  let phi := arctan2 y x in
  let BR := z * r in
  let Bphi := tau / r in
  let Bz := - (kappa ^ 2 / 2 * (r ^ 2 - 1 ^ 2) + z ^ 2) in
  let Bx := BR * cos phi - Bphi * sin phi in
  let By := BR * sin phi + Bphi * cos phi in
  (Bx, By, Bz).
(** B_0 *)
(* scripts/config_scripts/iter_islands.py:75-84 *)
Definition iter_B (F : point -> point) (kappa tau : R) (p : point) : point :=
  let '(x, y, z) := F p in iter_field kappa tau x y z.
(** B_xyz after x, y, z = F(p) *)
(* scripts/config_scripts/stell.py:73-80 *)
Definition stell_field (tau : R) (x y z : R) : R * R * R :=
  let r := sqrt (x ^ 2 + y ^ 2) in
  let phi := arctan2 y x in
  let BR := z * r in
  let Bphi := tau / r in
  let Bz := - (1 / 2 * (r ^ 2 - 1 ^ 2) + z ^ 2) in
  let Bx := BR * cos phi - Bphi * sin phi in
  let By := BR * sin phi + Bphi * cos phi in
  (Bx, By, Bz).
(** B_xyz *)
(* scripts/config_scripts/stell.py:71-80 *)
Definition stell_B (F : point -> point) (tau : R) (p : point) : point :=
  let '(x, y, z) := F p in stell_field tau x y z.
