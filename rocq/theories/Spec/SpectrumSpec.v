(** Specification vocabulary for C62: eigenvalues of a pencil (A, B). *)
From mathcomp Require Import all_ssreflect all_algebra.
From Verif Require Import Model.Forms Model.DeRham.
Set Implicit Arguments.
Unset Strict Implicit.
Unset Printing Implicit Defensive.
Import GRing.Theory Num.Theory.
Local Open Scope ring_scope.

Section SpectrumSpec.
Variable F : realFieldType.
Variable n : nat.
Variables A B : 'M[F]_n.
(** A x = l B x *)
Definition eigenpair (l : F) (x : 'cV[F]_n) : Prop := x != 0 /\ A *m x = l *: (B *m x).
(** A z = (l + i m) B z with z = x + i y *)
Definition complex_eigenpair (l m : F) (x y : 'cV[F]_n) : Prop :=
  [/\ (x != 0) || (y != 0), A *m x = l *: (B *m x) - m *: (B *m y) & A *m y = m *: (B *m x) + l *: (B *m y)].
(** dimension of the space of eigenvectors *)
Definition multiplicity (l : F) : nat := \rank (kermx (A - l *: B)^T).
End SpectrumSpec.

(** the smallest positive eigenvalue of (A, B) *)
Definition lowest (F : realFieldType) n (A B : 'M[F]_n) (l : F) : Prop :=
  [/\ 0 < l, exists x, eigenpair A B l x & forall l0 x, 0 < l0 -> eigenpair A B l0 x -> l <= l0].

(** the Hodge Laplacian of the k-forms *)
Definition hodge (F : realFieldType) (S : drseq F) (k : deg) : 'M[F]_(rk S k) :=
  match k with K0 => dd0 S | K1 => dd1 S | K2 => dd2 S | K3 => dd3 S | KV => 0 end.
