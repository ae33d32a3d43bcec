(** Specification vocabulary for the geometry: arrays as mathcomp matrices, the
    Euclidean product, and what it means that the geometry arrays of a sequence
    are those of a map with Jacobian matrices DF j at the quadrature points. *)
From mathcomp Require Import all_ssreflect all_algebra.
From Verif Require Import Model.Forms Model.DeRham Model.Geometry.
Set Implicit Arguments.
Unset Strict Implicit.
Unset Printing Implicit Defensive.
Import Order.TTheory GRing.Theory Num.Theory.
Local Open Scope ring_scope.

Section GeomSpec.
Variable F : realFieldType.

(** the (3,3) array as a matrix *)
Definition mx33 (A : mat3 F) : 'M[F]_3 := \matrix_(k, l) A k l.
(** Euclidean inner product of two (3,) arrays *)
Definition dot3 (u v : vec3 F) : F := u 0%N * v 0%N + u 1%N * v 1%N + u 2%N * v 2%N.
(** number of components of a k-form's value *)
Definition dcomp (k : deg) : nat := match k with K0 | K3 => 1 | _ => 3 end.

(** G, G_inv and J of the sequence are computed from the Jacobian matrices
    (derham_sequence.py:76-82) *)
Definition geometry_of (S : drseq F) (DF : nat -> mat3 F) : Prop := forall j, (j < n_q S)%N ->
  [/\ G_jkl S j = metric (DF j), G_inv_jkl S j = inv33 (metric (DF j)) & J_j S j = det33 (DF j)].

(** the map is regular at every quadrature point: the Jacobian determinant is not
    within 1e-5 of zero (its square is then above the threshold of inv33) *)
Definition regular (S : drseq F) (DF : nat -> mat3 F) : Prop := forall j, (j < n_q S)%N ->
  (10%:R ^+ 5)^-1 <= `|det33 (DF j)|.
(** ... and orientation preserving, with positive quadrature weights *)
Definition oriented (S : drseq F) (DF : nat -> mat3 F) : Prop := forall j, (j < n_q S)%N ->
  0 < det33 (DF j) /\ 0 < w_j S j.

(** the basis k-forms of the sequence at the quadrature points, its mass matrices,
    and the value of the discrete k-form with degrees of freedom y *)
Definition getter (S : drseq F) (k : deg) : nat -> nat -> nat -> F :=
  match k with
  | K0 => get_Lambda_0 (sh S) (tb S) | K1 => get_Lambda_1 (sh S) (tb S)
  | K2 => get_Lambda_2 (sh S) (tb S) | K3 => get_Lambda_3 (sh S) (tb S) | KV => fun _ _ _ => 0 end.
Definition mass (S : drseq F) (k : deg) : 'M[F]_(rk S k) :=
  match k with K0 => M0 S | K1 => M1 S | K2 => M2 S | K3 => M3 S | KV => 0 end.
Definition form_value (S : drseq F) (k : deg) (y : 'cV[F]_(rk S k)) : nat -> vec3 F :=
  evaluate_at_xq (getter S k) ((E_ S k)^T *m y).
(** its push-forward to physical space, at the quadrature points *)
Definition physical (S : drseq F) (DF : nat -> mat3 F) (k : deg) (y : 'cV[F]_(rk S k)) : nat -> vec3 F :=
  fun j => pushforward k (DF j) (form_value y j).
(** x . y for columns *)
Definition dotv n (x y : 'cV[F]_n) : F := (x^T *m y) 0 0.
End GeomSpec.
