(** Specification of a magnetohydrostatic equilibrium at a point: div B = 0, J = curl B, J x B = grad p. *)
From Coq Require Import Reals.
From Coquelicot Require Import Coquelicot.
From Verif Require Import Spec.CavitySpec.
Local Open Scope R_scope.

Definition div_at (B : vfield) (x y z d : R) : Prop :=
  exists a b c, is_derive (fun t => cx B t y z) x a /\ is_derive (fun t => cy B x t z) y b /\
    is_derive (fun t => cz B x y t) z c /\ d = a + b + c.
Definition curl_at (B : vfield) (x y z : R) (J : R * R * R) : Prop :=
  exists zy yz xz zx yx xy,
    is_derive (fun t => cz B x t z) y zy /\ is_derive (fun t => cy B x y t) z yz /\
    is_derive (fun t => cx B x y t) z xz /\ is_derive (fun t => cz B t y z) x zx /\
    is_derive (fun t => cy B t y z) x yx /\ is_derive (fun t => cx B x t z) y xy /\
    J = (zy - yz, xz - zx, yx - xy).
Definition grad_at (p : R -> R -> R -> R) (x y z : R) (g : R * R * R) : Prop :=
  exists a b c, is_derive (fun t => p t y z) x a /\ is_derive (fun t => p x t z) y b /\
    is_derive (fun t => p x y t) z c /\ g = (a, b, c).
Definition cross (u v : R * R * R) : R * R * R :=
  let '(u0, u1, u2) := u in let '(v0, v1, v2) := v in
  (u1 * v2 - u2 * v1, u2 * v0 - u0 * v2, u0 * v1 - u1 * v0).
Definition equilibrium_at (B : vfield) (p : R -> R -> R -> R) (x y z : R) : Prop :=
  div_at B x y z 0 /\
  exists J, curl_at B x y z J /\ grad_at p x y z (cross J (cx B x y z, cy B x y z, cz B x y z)).
(** the Solov'ev flux function *)
Definition solovev_psi (kappa x y z : R) : R :=
  kappa ^ 2 / 8 * (x ^ 2 + y ^ 2 - 1) ^ 2 + (x ^ 2 + y ^ 2) * z ^ 2 / 2.
