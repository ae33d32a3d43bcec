(** Model of mrx/spline_bases.py: SplineBasis and DerivativeSpline.
    Floats are reals.  Indices are natural numbers. *)
From Coq Require Import Reals List Bool Arith ZArith.
From Verif Require Import Model.RBase.
Import ListNotations.
Local Open Scope R_scope.

(** The four strings accepted by SplineBasis (spline_bases.py:51-52); the
    string parsing itself is in Model/SplineCtor.v. *)
Inductive stype := Clamped | Periodic | Constant | Fourier.

(** Instance attributes n, p, type, T (spline_bases.py:24-28). *)
Record spline := mkSpline { sn : nat; sp : nat; sty : stype; sT : list R }.

(** __safe_divide, spline_bases.py:152-162 *)
Definition safe_divide (x y : R) : R := if isclose y 0 then 0 else x / y.

(** _const_spline, spline_bases.py:164-180.  t is a list with two entries. *)
Definition const_spline (x : R) (t : list R) : R :=
  if isclose (nth 0 t 0) (nth 1 t 0) then 0
  else if Rleb (nth 0 t 0) x && Rltb x (nth 1 t 0) then 1 else 0.

(** _p_spline, spline_bases.py:182-199.  t[:-1] is removelast, t[1:] is tl;
    the recursion on p is the Python recursion. *)
Fixpoint p_spline (x : R) (t : list R) (p : nat) : R :=
  match p with
  | O => const_spline x t
  | S p' =>
      safe_divide (x - nth 0 t 0) (nth p t 0 - nth 0 t 0) * p_spline x (removelast t) p'
      + safe_divide (nth (p + 1) t 0 - x) (nth (p + 1) t 0 - nth 1 t 0) * p_spline x (tl t) p'
  end.

(** _evaluate, spline_bases.py:134-150 *)
Definition evaluate_raw (s : spline) (x : R) (i : nat) : R :=
  let knot_slice := dynamic_slice (sT s) i (sp s + 2) in
  if Rleb (gather (sT s) i) x && Rleb x (gather (sT s) (i + sp s + 1))
  then p_spline x knot_slice (sp s) else 0.

(** evaluate, spline_bases.py:109-132 (also __call__ and __getitem__, :56-79) *)
Definition evaluate (s : spline) (x : R) (i : nat) : R :=
  match sty s with
  | Periodic =>
      if (i <? sp s)%nat then evaluate_raw s x i + evaluate_raw s x (sn s + i)
      else evaluate_raw s x i
  | Clamped =>
      if (i =? sn s - 1)%nat && Reqb x (last (sT s) 0) then 1
      else evaluate_raw s x i
  | Constant => 1
  | Fourier => 1
  end.

(** _init_knots, spline_bases.py:81-107.
    _T[-(p+1):-1] for p <= n is the entries n-p .. n-1 of the n+1 entries. *)
Definition init_knots (n p : nat) (ty : stype) : list R :=
  match ty with
  | Periodic =>
      let T := linspace01 (n + 1) in
      map (fun t => t - 1) (firstn p (skipn (n - p) T))
      ++ T
      ++ map (fun t => t + 1) (firstn p (skipn 1 T))
  | Clamped => repeat 0 p ++ linspace01 (n - p + 1) ++ repeat 1 p
  | Constant => [0; 1]
  | Fourier => linspace01 (n + 1)
  end.

(** __init__ without a user supplied knot vector, spline_bases.py:30-54, for a
    known type and n, p >= 0: raises ValueError iff p >= n and p <> 1. *)
Definition new_spline (n p : nat) (ty : stype) : option spline :=
  if (n <=? p)%nat && negb (p =? 1)%nat then None
  else Some (mkSpline n p ty (init_knots n p ty)).

(** DerivativeSpline.__init__, spline_bases.py:289-301: attributes n, p, type
    and the underlying SplineBasis(n, p, type, T).  A non-constant spline of
    degree 0 gives degree -1 in Python (no derivative); modelled as None, as is
    the ValueError of the inner constructor. *)
Definition deriv_n (s : spline) : nat :=
  match sty s with Clamped => sn s - 1 | _ => sn s end.
Definition deriv_p (s : spline) : nat :=
  match sty s with Constant => sp s | _ => sp s - 1 end.
Definition deriv_T (s : spline) : list R :=
  match sty s with Periodic => removelast (tl (sT s)) | _ => sT s end.
Definition new_deriv (s : spline) : option spline :=
  match sty s, sp s with
  | Constant, _ | _, S _ =>
      if (deriv_n s <=? deriv_p s)%nat && negb (deriv_p s =? 1)%nat then None
      else Some (mkSpline (deriv_n s) (deriv_p s) (sty s) (deriv_T s))
  | _, O => None
  end.

(** DerivativeSpline.evaluate, spline_bases.py:326-362.  d is the inner
    SplineBasis self.s, whose n, p, type are those of the DerivativeSpline.
    The index may be any integer for periodic splines (i + n mod n). *)
Definition evaluate_deriv (d : spline) (x : R) (i : nat) : R :=
  let p := sp d in
  let n := sn d in
  match sty d with
  | Clamped =>
      if (i <? n)%nat then
        evaluate d x (i + 1) * INR (p + 1)
        / (gather (sT d) (i + p + 2) - gather (sT d) (i + 1))
      else 0
  | Periodic =>
      let j := ((i + n) mod n)%nat in
      evaluate d x j * INR (p + 1) / (gather (sT d) (j + p + 1) - gather (sT d) j)
  | _ => 1
  end.
