(** Specification: partial derivatives, gradient, curl and divergence of functions of the
    three logical coordinates (no metric: these are the exterior derivatives of the proxies),
    and the functions represented by degrees of freedom of a sequence. *)
From Coq Require Import Reals.
From Coquelicot Require Import Coquelicot.
From mathcomp Require Import all_ssreflect all_algebra.
From Verif Require Import Model.RBase Model.Spline Model.Quad Model.Forms Model.DeRham Model.FormEval Model.SeqR.
From Verif Require Import Proof.RField.
Set Implicit Arguments.
Unset Strict Implicit.
Unset Printing Implicit Defensive.

Definition coord (a : nat) (x : point) : R :=
  let: (x0, x1, x2) := x in if a == 0%N then x0 else if a == 1%N then x1 else x2.
Definition upd (a : nat) (x : point) (t : R) : point :=
  let: (x0, x1, x2) := x in
  if a == 0%N then (t, x1, x2) else if a == 1%N then (x0, t, x2) else (x0, x1, t).
(** d is the partial derivative of g in direction a at x *)
Definition is_partial (a : nat) (g : point -> R) (x : point) (d : R) : Prop :=
  is_derive (fun t => g (upd a x t)) (coord a x) d.
Definition is_grad (g : point -> R) (x : point) (v : nat -> R) : Prop :=
  forall a, (a < 3)%N -> is_partial a g x (v a).
Definition is_curl (g : nat -> point -> R) (x : point) (v : nat -> R) : Prop :=
  exists d12 d21 d20 d02 d01 d10 : R,
    [/\ is_partial 1 (g 2%N) x d12 /\ is_partial 2 (g 1%N) x d21,
        is_partial 2 (g 0%N) x d20 /\ is_partial 0 (g 2%N) x d02,
        is_partial 0 (g 1%N) x d01 /\ is_partial 1 (g 0%N) x d10
      & [/\ v 0%N = Rminus d12 d21, v 1%N = Rminus d20 d02 & v 2%N = Rminus d01 d10]].
Definition is_div (g : nat -> point -> R) (x : point) (s : R) : Prop :=
  exists d0 d1 d2 : R,
    [/\ is_partial 0 (g 0%N) x d0, is_partial 1 (g 1%N) x d1, is_partial 2 (g 2%N) x d2
      & s = Rplus (Rplus d0 d1) d2].

(** component c at x of the discrete k-form with degrees of freedom y: dof @ E_k @ Lambda(x),
    i.e. DiscreteFunction(y, DifferentialForm(k, ns, ps, types), E_k)(x)[c]
    (C22_discrete_form proves that it is what DiscreteFunction returns) *)
Definition discrete_form (ns ps : triple) (types : stype * stype * stype) (S : drseq R_realFieldType)
    (k : deg) (y : 'cV[R]_(rk S k)) (c : nat) (x : point) : R :=
  match DifferentialForm k ns ps types with
  | Some f => (\sum_(i < fdim (sh S) k) (y^T *m E_ S k) ord0 i * form_evaluate f x i c)%R
  | None => R0
  end.

(** x is in the open unit cube and not on a knot plane *)
Definition off_knots (ns ps : triple) (t2 : stype) (x : point) : Prop :=
  let: (n0, n1, n2) := ns in let: (p0, p1, p2) := ps in let: (x0, x1, x2) := x in
  [/\ Rlt 0 x0 /\ Rlt x0 1, Rlt 0 x1 /\ Rlt x1 1, Rlt 0 x2 /\ Rlt x2 1
    & [/\ forall k : nat, Rmult x0 (INR (n0 - p0)) <> INR k,
          forall k : nat, Rmult x1 (INR n1) <> INR k
        & t2 = Periodic -> forall k : nat, Rmult x2 (INR n2) <> INR k]].

(** x is in the open unit cube and in every direction either not on a knot plane or the degree is
    at least 2 (nothing is required in a direction with the constant basis) *)
Definition smooth_point (ns ps : triple) (t2 : stype) (x : point) : Prop :=
  let: (n0, n1, n2) := ns in let: (p0, p1, p2) := ps in let: (x0, x1, x2) := x in
  [/\ Rlt 0 x0 /\ Rlt x0 1, Rlt 0 x1 /\ Rlt x1 1, Rlt 0 x2 /\ Rlt x2 1
    & [/\ (forall k : nat, Rmult x0 (INR (n0 - p0)) <> INR k) \/ (2 <= p0)%N,
          (forall k : nat, Rmult x1 (INR n1) <> INR k) \/ (2 <= p1)%N
        & t2 = Periodic -> (forall k : nat, Rmult x2 (INR n2) <> INR k) \/ (2 <= p2)%N]].
