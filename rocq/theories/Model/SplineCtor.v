(** Argument validation of SplineBasis / DerivativeSpline / TensorBasis
    (mrx/spline_bases.py), for integers n, p >= 0. *)
From Coq Require Import Reals List Bool Arith String.
From Verif Require Import Model.RBase Model.Spline.
Import ListNotations.

Inductive result (A : Type) := Ok (a : A) | ValueError.
Arguments Ok {A} a.
Arguments ValueError {A}.

(** The string comparisons of _init_knots (spline_bases.py:91-107) and of the
    final check (spline_bases.py:53). *)
Definition parse_type (ty : string) : option stype :=
  if String.eqb ty "periodic" then Some Periodic
  else if String.eqb ty "clamped" then Some Clamped
  else if String.eqb ty "constant" then Some Constant
  else if String.eqb ty "fourier" then Some Fourier
  else None.

(** __init__, spline_bases.py:30-54: knots first (unknown type raises there;
    jnp.linspace(0,1,n-p+1) raises ValueError for a negative count, i.e.
    clamped with p > n+1), then the degree test, then the type test.
    T = None means "use default knots". *)
Definition SplineBasis (n p : nat) (ty : string) (T : option (list R)) : result spline :=
  let knots :=
    match T with
    | Some T => Ok T
    | None =>
        match parse_type ty with
        | None => ValueError
        | Some Clamped => if (n + 1 <? p)%nat then ValueError else Ok (init_knots n p Clamped)
        | Some k => Ok (init_knots n p k)
        end
    end in
  match knots with
  | ValueError => ValueError
  | Ok T =>
      if (n <=? p)%nat && negb (p =? 1)%nat then ValueError
      else match parse_type ty with
           | None => ValueError
           | Some k => Ok (mkSpline n p k T)
           end
  end.

(** TensorBasis.__init__, spline_bases.py:217-235: exactly 3 bases; n is the product. *)
Definition TensorBasis_n (bases : list spline) : result nat :=
  if negb (List.length bases =? 3)%nat then ValueError
  else Ok (fold_left Nat.mul (map sn bases) 1%nat).
