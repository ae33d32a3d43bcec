(** Field lines and turning angles, stated on their own. *)
From Coq Require Import Reals List ZArith.
From Coquelicot Require Import Coquelicot.
From Verif Require Import Model.FormEval.
Import ListNotations.
Local Open Scope R_scope.

(** the physical length of the logical vector v under the Jacobian A: the Euclidean norm of (sum_j A_ij v_j)_i *)
Definition phys_length (A : nat -> nat -> R) (v : point) : R :=
  let '(v0, v1, v2) := v in
  let row i := A i 0%nat * v0 + A i 1%nat * v1 + A i 2%nat * v2 in
  sqrt (row 0%nat ^ 2 + row 1%nat ^ 2 + row 2%nat ^ 2).
(** (x, y) lies at distance rho > 0 from (cx, cy) in the direction of the angle a *)
Definition polar_at (cx cy : R) (xy : R * R) (rho a : R) : Prop :=
  0 < rho /\ fst xy - cx = rho * cos a /\ snd xy - cy = rho * sin a.
(** the points pts are seen from (cx, cy) under the (real, not reduced) angles angles *)
Definition seen_under (cx cy : R) (pts : list (R * R)) (angles : list R) : Prop :=
  Forall2 (fun xy a => exists rho, polar_at cx cy xy rho a) pts angles.
(** consecutive angles differ by less than half a turn *)
Definition small_steps (l : list R) : Prop :=
  forall i, (S i < length l)%nat -> Rabs (nth (S i) l 0 - nth i l 0) < PI.
(** the angle swept between the first and the last sample *)
Definition swept (l : list R) : R := last l 0 - hd 0 l.
Definition congruent (a b : R) : Prop := exists k : Z, a = b + IZR k * (2 * PI).
(** the arithmetic mean m of a non-empty list: the deviations from it sum to zero *)
Definition is_mean (m : R) (l : list R) : Prop := fold_right Rplus 0 (map (fun x => x - m) l) = 0.

(** X = (Xr, Xt, Xz) solves X' = V(X) on [0, T] *)
Definition solves (V : point -> point) (T : R) (Xr Xt Xz : R -> R) : Prop :=
  forall s, 0 <= s <= T -> exists a b c, V (Xr s, Xt s, Xz s) = (a, b, c) /\
    is_derive Xr s a /\ is_derive Xt s b /\ is_derive Xz s c.
