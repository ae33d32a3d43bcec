(** Model of mrx/mappings.py over the reals: the coordinate maps F : (r, theta, zeta) -> (X, Y, Z).
    A map is a function on triples; the constants jnp.pi are PI.  jax arrays of shape (3,) are triples. *)
From Coq Require Import Reals ZArith.
From Coquelicot Require Import Coquelicot.
From Verif Require Import Model.RBase Model.Forms Model.FormEval.
Local Open Scope R_scope.

(** jnp.arctan2(y, x) on real arguments (jax documentation): the angle of (x, y) in (-pi, pi],
    0 at the origin *)
(* used at mappings.py:48, 367, 369 *)
Definition arctan2 (y x : R) : R :=
  if Rlt_dec 0 x then atan (y / x)
  else if Rlt_dec x 0 then (if Rle_dec 0 y then atan (y / x) + PI else atan (y / x) - PI)
  else if Rlt_dec 0 y then PI / 2 else if Rlt_dec y 0 then - (PI / 2) else 0.
(** y % 1.0 for a float y: y - floor y *)
(* mappings.py:367, 369 *)
Definition mod1 (y : R) : R := y - IZR (Int_part y).
(** jnp.linalg.norm and jnp.cross on (3,) arrays *)
(* mappings.py:106-109 *)
Definition norm3 (v : point) : R := let '(a, b, c) := v in sqrt (a ^ 2 + b ^ 2 + c ^ 2).
(* mappings.py:110 *)
Definition cross3 (u v : point) : point :=
  let '(u0, u1, u2) := u in let '(v0, v1, v2) := v in
  (u1 * v2 - u2 * v1, u2 * v0 - u0 * v2, u0 * v1 - u1 * v0).

(** cerfon_map, mappings.py:12-66 *)
Definition cerfon_x_t (epsilon alpha t : R) : R := 1 + epsilon * cos (2 * PI * t + alpha * sin (2 * PI * t)).
Definition cerfon_y_t (epsilon kappa t : R) : R := epsilon * kappa * sin (2 * PI * t).
Definition cerfon__s_from_t (kappa alpha t : R) : R :=
  arctan2 (kappa * sin (2 * PI * t)) (cos (2 * PI * t + alpha * sin (2 * PI * t))).
Definition cerfon_s_from_t (kappa alpha t : R) : R :=
  if Rlt_dec (1 / 2) t then cerfon__s_from_t kappa alpha t + 2 * PI else cerfon__s_from_t kappa alpha t.
Definition cerfon_a_from_t (epsilon kappa alpha t : R) : R :=
  sqrt ((cerfon_x_t epsilon alpha t - 1) ^ 2 + cerfon_y_t epsilon kappa t ^ 2).
Definition cerfon_map (epsilon kappa alpha R0 : R) (x : point) : point :=
  let '(r, chi, z) := x in
  ((R0 + cerfon_a_from_t epsilon kappa alpha chi * r * cos (cerfon_s_from_t kappa alpha chi)) * cos (2 * PI * z),
   - (R0 + cerfon_a_from_t epsilon kappa alpha chi * r * cos (cerfon_s_from_t kappa alpha chi)) * sin (2 * PI * z),
   cerfon_a_from_t epsilon kappa alpha chi * r * sin (cerfon_s_from_t kappa alpha chi)).

(** helical_map, mappings.py:69-118; jacrev(X) and jacfwd(jacrev(X)) are the first and second
    derivatives of the three components of X (C35_helical_model_derivatives checks that
    Coquelicot's Derive is the derivative here) *)
Definition helical_rho (h kappa alpha nfp z : R) : R := 1 + kappa * h * cos (2 * PI * nfp * z + alpha).
Definition helical_X (h kappa alpha nfp z : R) : point :=
  (helical_rho h kappa alpha nfp z * sin (2 * PI * z),
   helical_rho h kappa alpha nfp z * cos (2 * PI * z),
   kappa * h * sin (2 * PI * nfp * z + alpha)).
Definition comp3 (k : nat) (v : point) : R := let '(a, b, c) := v in match k with 0%nat => a | 1%nat => b | _ => c end.
Definition derive3 (X : R -> point) (z : R) : point :=
  (Derive (fun t => comp3 0 (X t)) z, Derive (fun t => comp3 1 (X t)) z, Derive (fun t => comp3 2 (X t)) z).
Definition scale3 (c : R) (v : point) : point := let '(a, b, d) := v in (c * a, c * b, c * d).
Definition add3 (u v : point) : point :=
  let '(u0, u1, u2) := u in let '(v0, v1, v2) := v in (u0 + v0, u1 + v1, u2 + v2).
Definition normalize3 (v : point) : point := let '(a, b, c) := v in (a / norm3 v, b / norm3 v, c / norm3 v).
(** get_frame, mappings.py:101-109 *)
Definition helical_frame (h kappa alpha nfp z : R) : point * point * point :=
  let dX := derive3 (helical_X h kappa alpha nfp) in
  let tau := normalize3 (dX z) in
  let dtau := derive3 dX z in
  let nu1 := normalize3 (normalize3 dtau) in
  let nu2 := cross3 tau nu1 in
  (tau, nu1, nu2).
Definition helical_map (epsilon h kappa alpha nfp : R) (x : point) : point :=
  let '(r, t, z) := x in
  let '(_, nu1, nu2) := helical_frame h kappa alpha nfp z in
  add3 (add3 (helical_X h kappa alpha nfp z) (scale3 (epsilon * r * cos (2 * PI * t)) nu1))
       (scale3 (epsilon * r * sin (2 * PI * t)) nu2).

(** rotating_ellipse_map, mappings.py:121-166; None: ValueError.  nfp is an int in the code
    (any real is accepted by its checks) *)
Definition rotating_nu (kappa nfp z : R) : R := 1 + (1 - kappa) * cos (2 * PI * z * nfp).
Definition rotating_ellipse_F (eps kappa nfp : R) (x : point) : point :=
  let '(r, t, z) := x in
  let z := if Rlt_dec 0 nfp then z / nfp else z in
  let R := 1 + eps * rotating_nu kappa nfp z * r * cos (2 * PI * t) in
  let Z := if Rlt_dec 0 nfp then eps * r * rotating_nu kappa nfp (z + (1 / 2) / nfp) * sin (2 * PI * t)
           else eps * rotating_nu kappa nfp z * r * sin (2 * PI * t) in
  (R * cos (2 * PI * z), - R * sin (2 * PI * z), Z).
Definition rotating_ellipse_map (eps kappa nfp : R) : option (point -> point) :=
  if Rle_dec nfp 0 then None else if Rle_dec eps 0 then None else Some (rotating_ellipse_F eps kappa nfp).

(** toroid_map, mappings.py:169-199 *)
Definition toroid_map (epsilon kappa R0 : R) (x : point) : point :=
  let '(r, t, z) := x in
  let R := R0 + epsilon * r * cos (2 * PI * t) in
  (R * cos (2 * PI * z), - R * sin (2 * PI * z), epsilon * kappa * r * sin (2 * PI * t)).

(** polar_map, mappings.py:202-214 *)
Definition polar_map (x : point) : point :=
  let '(r, t, z) := x in (r * cos (2 * PI * t), - z, r * sin (2 * PI * t)).

(** cylinder_map, mappings.py:217-261 *)
Definition cylinder_map (a h : R) (x : point) : point :=
  let '(r, chi, z) := x in (1 * (a * r * cos (2 * PI * chi)), 1 * (a * r * sin (2 * PI * chi)), h * 1 * z).

(** drumshape_map, mappings.py:264-294 *)
Definition drumshape_map (a_h : R -> R) (x : point) : point :=
  let '(r, chi, z) := x in (a_h chi * r * cos (2 * PI * chi), - z, a_h chi * r * sin (2 * PI * chi)).

(** drumshape_map_modified, mappings.py:297-324 *)
Definition drumshape_map_modified (a : R -> R) (R0 : R) (x : point) : point :=
  let '(r, chi, z) := x in
  let _R := 1 * (R0 + a chi * r * cos (2 * PI * chi)) in
  let _Z := 1 * a chi * r * sin (2 * PI * chi) in
  (_R * cos (2 * PI * z), - _R * sin (2 * PI * z), _Z).

(** gvec_stellarator_map, mappings.py:327-347; X1_h, X2_h: the scalar entry [0] of the DiscreteFunction *)
Definition gvec_stellarator_map (X1_h X2_h : point -> R) (nfp : R) (x : point) : point :=
  let '(_, _, z) := x in
  let pi_nfp := PI / nfp in
  (X1_h x * cos (pi_nfp * z), - X1_h x * sin (pi_nfp * z), X2_h x).
(** the logical point at which interpolate_map_from_GVEC (gvec_interface.py:36-40) collocates
    the data given at GVEC coordinates (rho, theta, zeta) *)
Definition gvec_logical_point (nfp : R) (g : point) : point :=
  let '(rho, t, z) := g in (rho, t / (2 * PI), z / (2 * PI) * nfp).

(** approx_inverse_map, mappings.py:350-371 *)
Definition approx_inverse_map (eps R0 : R) (y : point) : point :=
  let '(X, Y, Z) := y in
  let R := sqrt (X ^ 2 + Y ^ 2) in
  let z := mod1 (arctan2 (- Y) X / (2 * PI)) in
  let r := sqrt (((R - R0) / eps) ^ 2 + (Z / eps) ^ 2) in
  let t := mod1 (arctan2 (Z / (eps * r)) ((R - R0) / (eps * r)) / (2 * PI)) in
  (r, t, z).
