(** Model of the analytic initial field and of the map of scripts/config_scripts/hopf.py. *)
From Coq Require Import Reals.
Local Open Scope R_scope.

(** F: the logical unit cube is stretched to a box *)
(* scripts/config_scripts/hopf.py:94-95 *)
Definition hopf_F (x : R * R * R) : R * R * R :=
  let '(x0, x1, x2) := x in (x0 * 8 - 4, x1 * 8 - 4, x2 * 20 - 10).
(** the scalar factor in front of the array of B_xyz *)
(* scripts/config_scripts/hopf.py:153-154 *)
Definition prefactor (s w1 w2 : R) (x y z : R) : R :=
  let rsq := x ^ 2 + y ^ 2 + z ^ 2 in
  4 * sqrt s / (PI * (1 + rsq) ^ 3 * sqrt (w1 ^ 2 + w2 ^ 2)).
(** the array of B_xyz as a function of the point in space *)
(* scripts/config_scripts/hopf.py:154-158 *)
Definition hopf_array (w1 w2 : R) (x y z : R) : R * R * R :=
  (2 * w2 * y - 2 * w1 * x * z, - 2 * w2 * x - 2 * w1 * y * z, w1 * (x ^ 2 + y ^ 2 - z ^ 2 - 1)).
(** B in space: the product of the two *)
(* scripts/config_scripts/hopf.py:153-158 *)
Definition hopf_field (s w1 w2 : R) (x y z : R) : R * R * R :=
  let c := prefactor s w1 w2 x y z in
  let '(a, b, d) := hopf_array w1 w2 x y z in (c * a, c * b, c * d).
(** B_xyz of a logical point *)
(* scripts/config_scripts/hopf.py:141-158 *)
Definition hopf_B (s w1 w2 : R) (p : R * R * R) : R * R * R :=
  let '(x, y, z) := hopf_F p in hopf_field s w1 w2 x y z.
