(** Specification: which degrees of freedom of a k-form are free under essential
    boundary conditions.  Component c of a k-form has a nonzero trace on a face
    normal to direction d exactly when it is a full-degree spline in d ("tangential"
    to the face); then only the first / last spline does not vanish on the face. *)
From mathcomp Require Import all_ssreflect.
From Verif Require Import Model.Forms.
Set Implicit Arguments.
Unset Strict Implicit.
Unset Printing Implicit Defensive.

(** has component c of a k-form a trace on the faces of direction d (0,1,2)? *)
Definition has_trace (k : deg) (c d : nat) : bool :=
  match k with
  | K0 => true          (* value *)
  | K1 => c != d        (* tangential components *)
  | K2 => c == d        (* normal component *)
  | K3 => false
  | KV => true
  end.

(** spline number p out of n is not pinned by the condition b *)
Definition bc_free (b : bc) (n p : nat) : bool :=
  match b with
  | Dirichlet => (0 < p) && (p.+1 < n)
  | Left => 0 < p
  | Right => p.+1 < n
  | NoBC => true
  end.

Definition free_dof (s : shape) (b : bc * bc * bc) (k : deg) (c : nat) (t : triple) : bool :=
  let: (br, bt, bz) := b in let: (p, m, n) := t in
  [&& has_trace k c 0 ==> bc_free br (nr s) p,
      has_trace k c 1 ==> bc_free bt (nt s) m &
      has_trace k c 2 ==> bc_free bz (nz s) n].
