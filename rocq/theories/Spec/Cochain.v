(** Specification: the discrete exterior derivative on structured cochains of a
    grid that is an interval in the first direction and periodic (nt resp. nz
    points) in the second and third.  v c i j l is the coefficient of component
    c at grid index (i,j,l). *)
From mathcomp Require Import all_ssreflect all_algebra.
Set Implicit Arguments.
Unset Strict Implicit.
Unset Printing Implicit Defensive.
Import GRing.Theory.
Local Open Scope ring_scope.

Section Cochain.
Variable F : ringType.
Definition cochain := nat -> nat -> nat -> nat -> F.
Variables nt nz : nat.

(** forward differences *)
Definition dr_ (u : nat -> nat -> nat -> F) i j l : F := u i.+1 j l - u i j l.
Definition dt_ (u : nat -> nat -> nat -> F) i j l : F := u i (j.+1 %% nt)%N l - u i j l.
Definition dz_ (u : nat -> nat -> nat -> F) i j l : F := u i j (l.+1 %% nz)%N - u i j l.

Definition cgrad (v : cochain) : cochain := fun c i j l =>
  if c == 0%N then dr_ (v 0%N) i j l
  else if c == 1%N then dt_ (v 0%N) i j l
  else dz_ (v 0%N) i j l.

Definition ccurl (u : cochain) : cochain := fun c i j l =>
  if c == 0%N then dt_ (u 2%N) i j l - dz_ (u 1%N) i j l
  else if c == 1%N then dz_ (u 0%N) i j l - dr_ (u 2%N) i j l
  else dr_ (u 1%N) i j l - dt_ (u 0%N) i j l.

Definition cdiv (w : cochain) : cochain := fun c i j l =>
  dr_ (w 0%N) i j l + dt_ (w 1%N) i j l + dz_ (w 2%N) i j l.
End Cochain.
