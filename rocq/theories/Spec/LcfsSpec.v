(** Specification: the flux surface that lcfs_fit is to approximate. *)
From Coq Require Import Reals.
Local Open Scope R_scope.

(** the level set of the Solov'ev flux function through (R0 + aR, 0), multiplied out *)
Definition on_surface (R0 k0 aR Rr Z : R) : Prop :=
  k0 ^ 2 / 4 * (Rr ^ 2 - R0 ^ 2) ^ 2 + Rr ^ 2 * Z ^ 2 = k0 ^ 2 / 4 * ((R0 + aR) ^ 2 - R0 ^ 2) ^ 2.
(** the point at distance a from (R0, 0) under the poloidal angle 2 pi chi *)
Definition ray_R (R0 a chi : R) : R := R0 + a * cos (2 * PI * chi).
Definition ray_Z (a chi : R) : R := a * sin (2 * PI * chi).
(** by how much a point misses the surface equation *)
Definition defect (R0 k0 aR Rr Z : R) : R :=
  k0 ^ 2 / 4 * (Rr ^ 2 - R0 ^ 2) ^ 2 + Rr ^ 2 * Z ^ 2 - k0 ^ 2 / 4 * ((R0 + aR) ^ 2 - R0 ^ 2) ^ 2.
