(** Textbook B-splines (Cox - de Boor) on a knot sequence t_0, t_1, ...
    with the 0/0 = 0 convention; independent of the code. *)
From Coq Require Import Reals Lra.
Local Open Scope R_scope.

(** 1/y with the convention 1/0 = 0 *)
Definition inv0 (y : R) : R := if Req_EM_T y 0 then 0 else / y.

(** characteristic function of [a,b) *)
Definition chi (a b x : R) : R :=
  if Rle_dec a x then if Rlt_dec x b then 1 else 0 else 0.

Fixpoint Bspl (t : nat -> R) (p i : nat) (x : R) : R :=
  match p with
  | O => chi (t i) (t (S i)) x
  | S q => (x - t i) * inv0 (t (i + S q)%nat - t i) * Bspl t q i x
         + (t (i + S q + 1)%nat - x) * inv0 (t (i + S q + 1)%nat - t (S i)) * Bspl t q (S i) x
  end.

Definition nondecreasing (t : nat -> R) : Prop := forall i, t i <= t (S i).

(** finite sum f 0 + ... + f (n-1) *)
Fixpoint rsum (n : nat) (f : nat -> R) : R :=
  match n with O => 0 | S m => rsum m f + f m end.
