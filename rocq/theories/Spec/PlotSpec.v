(** Specification vocabulary for plane intersections of polygonal trajectories. *)
From Coq Require Import Reals List.
From Verif Require Import Model.RBase Model.FormEval.
Import ListNotations.
Local Open Scope R_scope.

(** n . (x - p): zero on the plane through p with normal n, of constant sign on each side *)
Definition side (p n x : point) : R :=
  let '(p0, p1, p2) := p in let '(n0, n1, n2) := n in let '(x0, x1, x2) := x in
  n0 * (x0 - p0) + n1 * (x1 - p1) + n2 * (x2 - p2).
(** x lies on the closed segment from a to b *)
Definition on_segment (a b x : point) : Prop :=
  exists t, 0 <= t <= 1 /\
    let '(a0, a1, a2) := a in let '(b0, b1, b2) := b in
    x = (a0 + t * (b0 - a0), a1 + t * (b1 - a1), a2 + t * (b2 - a2)).
(** vertex i of the trajectory *)
Definition vertex (l : list point) (i : nat) : point := nth i l (0, 0, 0).
(** the number of segments whose ends are strictly on opposite sides *)
Fixpoint sign_changes (p n : point) (l : list point) : nat :=
  match l with
  | a :: ((b :: _) as r) => (if Rlt_dec (side p n a * side p n b) 0 then 1 else 0) + sign_changes p n r
  | _ => 0
  end.
(** coordinate functions of R^D: point at parameter t of the segment *)
Definition along (a b : nat -> R) (t : R) : nat -> R := fun i => a i + t * (b i - a i).
(** point number i of n equally spaced points from lo to hi inclusive, in reverse order if inv *)
Definition gridpt (inv : bool) (lo hi : R) (n i : nat) : R :=
  lo + INR (if inv then n - 1 - i else i)%nat / INR (n - 1) * (hi - lo).
