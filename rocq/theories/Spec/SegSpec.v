(** Specification: iterated integrals over rectangles and boxes, the circulation of a 1-form around a
    coordinate rectangle and the flux of a 2-form out of a coordinate box of the logical cube (r, theta, zeta). *)
From Coq Require Import Reals.
From Coquelicot Require Import Coquelicot.
From Verif Require Import Model.FormEval.
Local Open Scope R_scope.

(** v is the integral over q in [q0,q1] of the integrals over p in [p0,p1] of f p q *)
Definition int2_on (f : R -> R -> R) (p0 p1 q0 q1 v : R) : Prop :=
  exists g : R -> R, (forall q, q0 < q < q1 -> is_RInt (fun p => f p q) p0 p1 (g q)) /\ is_RInt g q0 q1 v.
Definition int3_on (f : R -> R -> R -> R) (p0 p1 q0 q1 s0 s1 v : R) : Prop :=
  exists g : R -> R, (forall s, s0 < s < s1 -> int2_on (fun p q => f p q s) p0 p1 q0 q1 (g s)) /\ is_RInt g s0 s1 v.

(** circulation of the field with components (f, g) around the rectangle [p0,p1] x [q0,q1]: along the bottom,
    up the right side, back along the top and down the left side *)
Definition circulation (f g : R -> R -> R) (p0 p1 q0 q1 v : R) : Prop :=
  exists bottom right top left : R,
    (is_RInt (fun p => f p q0) p0 p1 bottom /\ is_RInt (fun q => g p1 q) q0 q1 right) /\
    (is_RInt (fun p => f p q1) p0 p1 top /\ is_RInt (fun q => g p0 q) q0 q1 left) /\
    v = bottom + right - top - left.

(** flux of the 2-form with components b out of the box [r0,r1] x [t0,t1] x [z0,z1] *)
Definition outflux (b : nat -> point -> R) (r0 r1 t0 t1 z0 z1 v : R) : Prop :=
  exists inner outer front back low high : R,
    (int2_on (fun t z => b 0%nat (r0, t, z)) t0 t1 z0 z1 inner /\ int2_on (fun t z => b 0%nat (r1, t, z)) t0 t1 z0 z1 outer) /\
    (int2_on (fun z r => b 1%nat (r, t0, z)) z0 z1 r0 r1 front /\ int2_on (fun z r => b 1%nat (r, t1, z)) z0 z1 r0 r1 back) /\
    (int2_on (fun r t => b 2%nat (r, t, z0)) r0 r1 t0 t1 low /\ int2_on (fun r t => b 2%nat (r, t, z1)) r0 r1 t0 t1 high) /\
    v = (outer - inner) + (back - front) + (high - low).
(** an interval of the unit interval *)
Definition sub01 (a b : R) : Prop := 0 <= a /\ a <= b /\ b <= 1.
