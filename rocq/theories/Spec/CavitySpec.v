(** Specification of the electromagnetic modes of the unit cube with perfectly conducting walls. *)
From Coq Require Import Reals.
From Coquelicot Require Import Coquelicot.

(** the number of independent polarisations of a mode with the given indices: two if no index is zero, one if exactly one
    is, none otherwise (C81_polarisations shows that this is the dimension of the space of fields) *)
Definition polarisations (nx ny nz : nat) : nat :=
  match nx, ny, nz with
  | S _, S _, S _ => 2
  | 0, S _, S _ | S _, 0, S _ | S _, S _, 0 => 1
  | _, _, _ => 0
  end.

Local Open Scope R_scope.
(** vector fields, and partial derivatives that exist everywhere *)
Record vfield := VField { cx : R -> R -> R -> R; cy : R -> R -> R -> R; cz : R -> R -> R -> R }.
Definition has_dx (f g : R -> R -> R -> R) := forall x y z, is_derive (fun t => f t y z) x (g x y z).
Definition has_dy (f g : R -> R -> R -> R) := forall x y z, is_derive (fun t => f x t z) y (g x y z).
Definition has_dz (f g : R -> R -> R -> R) := forall x y z, is_derive (fun t => f x y t) z (g x y z).
Definition has_curl (E C : vfield) : Prop :=
  exists zy yz xz zx yx xy,
    has_dy (cz E) zy /\ has_dz (cy E) yz /\ has_dz (cx E) xz /\ has_dx (cz E) zx /\
    has_dx (cy E) yx /\ has_dy (cx E) xy /\
    forall x y z, cx C x y z = zy x y z - yz x y z /\ cy C x y z = xz x y z - zx x y z /\
                  cz C x y z = yx x y z - xy x y z.
Definition has_div (E : vfield) (d : R -> R -> R -> R) : Prop :=
  exists xx yy zz, has_dx (cx E) xx /\ has_dy (cy E) yy /\ has_dz (cz E) zz /\
    forall x y z, d x y z = xx x y z + yy x y z + zz x y z.
(** the tangential components vanish on the six faces *)
Definition conducting (E : vfield) : Prop :=
  forall s t : R,
    (forall w, w = 0 \/ w = 1 -> cy E w s t = 0 /\ cz E w s t = 0) /\
    (forall w, w = 0 \/ w = 1 -> cx E s w t = 0 /\ cz E s w t = 0) /\
    (forall w, w = 0 \/ w = 1 -> cx E s t w = 0 /\ cy E s t w = 0).

(** the standing wave with amplitudes (a, b, c) *)
Definition mode (nx ny nz : nat) (a b c : R) : vfield :=
  VField (fun x y z => a * (cos (INR nx * PI * x) * sin (INR ny * PI * y) * sin (INR nz * PI * z)))
         (fun x y z => b * (sin (INR nx * PI * x) * cos (INR ny * PI * y) * sin (INR nz * PI * z)))
         (fun x y z => c * (sin (INR nx * PI * x) * sin (INR ny * PI * y) * cos (INR nz * PI * z))).
Definition solenoidal (E : vfield) : Prop := has_div E (fun _ _ _ => 0).
(** equality of fields *)
Definition same (E F : vfield) : Prop :=
  forall x y z, cx E x y z = cx F x y z /\ cy E x y z = cy F x y z /\ cz E x y z = cz F x y z.
Definition comb (p q : R) (E F : vfield) : vfield :=
  VField (fun x y z => p * cx E x y z + q * cx F x y z) (fun x y z => p * cy E x y z + q * cy F x y z)
         (fun x y z => p * cz E x y z + q * cz F x y z).
Definition zero_field : vfield := VField (fun _ _ _ => 0) (fun _ _ _ => 0) (fun _ _ _ => 0).
(** a family of fields has dimension 0, 1 or 2 *)
Definition dimension (P : vfield -> Prop) (d : nat) : Prop :=
  match d with
  | 0%nat => forall E, P E -> same E zero_field
  | 1%nat => exists B, P B /\ ~ same B zero_field /\ forall E, P E -> exists p, same E (comb p 0 B zero_field)
  | 2%nat => exists B C, P B /\ P C /\ (forall p q, same (comb p q B C) zero_field -> p = 0 /\ q = 0) /\
                    forall E, P E -> exists p q, same E (comb p q B C)
  | _ => False
  end.
