(** Specification vocabulary for form spaces. *)
From Coq Require Import Reals.
From mathcomp Require Import all_ssreflect all_algebra.
From Verif Require Import Model.Spline Model.Forms Model.FormEval Proof.RField.
Set Implicit Arguments.
Unset Strict Implicit.
Unset Printing Implicit Defensive.
Import GRing.Theory.
Local Open Scope ring_scope.

(** Component c of a k-form (proxy dx_c, resp. dx_a ^ dx_b with {a,b,c} all directions)
    contains the differential of direction d: then the univariate factor of that direction is a
    derivative spline, otherwise a spline.  Vector fields (KV) use splines everywhere. *)
Definition has_dx (k : deg) (c d : nat) : bool :=
  match k with K0 | KV => false | K1 => d == c | K2 => d != c | K3 => true end.
(** univariate factor of direction d = 0, 1, 2 *)
Definition factor (f : dform) (c d : nat) (x : R) (i : nat) : R :=
  let l := if d == 0%N then f_L0 f else if d == 1%N then f_L1 f else f_L2 f in
  let m := if d == 0%N then f_D0 f else if d == 1%N then f_D1 f else f_D2 f in
  if has_dx (f_k f) c d then evaluate_deriv m x i else evaluate l x i.
(** number of components *)
Definition comps (k : deg) : nat := if is_scalar k then 1%N else 3%N.
(** (i,j,l) is a valid multi-index of component c *)
Definition in_range (s : shape) (k : deg) (c i j l : nat) : bool :=
  [&& (c < comps k)%N,
      (i < (if has_dx k c 0 then nr s - cr s else nr s))%N,
      (j < (if has_dx k c 1 then nt s - ct s else nt s))%N &
      (l < (if has_dx k c 2 then nz s - cz s else nz s))%N].
