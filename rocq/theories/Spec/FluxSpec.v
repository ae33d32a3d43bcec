(** Specification: iterated integrals over the unit square and cube, the fluxes of a 2-form through
    coordinate surfaces and the circulations of a 1-form along coordinate lines of the logical cube
    (r, theta, zeta).  No metric enters: these are the integrals of the forms over the (images of the) surfaces,
    see C68_physical_flux_density. *)
From Coq Require Import Reals.
From Coquelicot Require Import Coquelicot.
From Verif Require Import Model.FormEval.
Local Open Scope R_scope.

(** v is the integral over s in [0,1] of the integrals over r in [0,1] of f r s *)
Definition is_int2 (f : R -> R -> R) (v : R) : Prop :=
  exists g : R -> R, (forall s, 0 < s < 1 -> is_RInt (fun r => f r s) 0 1 (g s)) /\ is_RInt g 0 1 v.
Definition is_int3 (f : R -> R -> R -> R) (v : R) : Prop :=
  exists g : R -> R, (forall s, 0 < s < 1 -> is_int2 (fun r t => f r t s) (g s)) /\ is_RInt g 0 1 v.

(** b : the components of a 2-form.  Flux through the surface zeta = z (a poloidal cross-section) ... *)
Definition toroidal_flux (b : nat -> point -> R) (z v : R) : Prop := is_int2 (fun r t => b 2%nat (r, t, z)) v.
(** ... through the ribbon theta = t between the inner and the outer boundary ... *)
Definition poloidal_flux (b : nat -> point -> R) (t v : R) : Prop := is_int2 (fun r z => b 1%nat (r, t, z)) v.
(** ... and through the surface r = const *)
Definition radial_flux (b : nat -> point -> R) (r v : R) : Prop := is_int2 (fun t z => b 0%nat (r, t, z)) v.
(** a : the components of a 1-form.  Circulation along the theta circle and along the zeta circle *)
Definition poloidal_loop (a : nat -> point -> R) (r z v : R) : Prop := is_RInt (fun t => a 1%nat (r, t, z)) 0 1 v.
Definition toroidal_loop (a : nat -> point -> R) (r t v : R) : Prop := is_RInt (fun z => a 2%nat (r, t, z)) 0 1 v.
