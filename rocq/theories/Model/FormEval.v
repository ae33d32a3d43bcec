(** Model of the evaluation side of mrx/differential_forms.py (DifferentialForm,
    DiscreteFunction), of TensorBasis (mrx/spline_bases.py) and of
    DeRhamSequence.evaluate_1d, over the real numbers. *)
From Coq Require Import Reals.
From mathcomp Require Import all_ssreflect all_algebra.
From Verif Require Import Model.RBase Model.Spline Model.Quad Model.Forms Model.DeRham Proof.RField.
Set Implicit Arguments.
Unset Strict Implicit.
Unset Printing Implicit Defensive.
Import GRing.Theory.
Local Open Scope ring_scope.

(** A member of TensorBasis.bases: a SplineBasis or a DerivativeSpline, seen
    through its attribute n and its __call__. *)
(* spline_bases.py:218-235 *)
Record basis1 := Basis1 { bn : nat; bev : R -> nat -> R }.
(* spline_bases.py:112-136 *)
Definition of_spline (s : spline) : basis1 := Basis1 (sn s) (evaluate s).
(* spline_bases.py:333-362 *)
Definition of_deriv (d : spline) : basis1 := Basis1 (sn d) (evaluate_deriv d).
(* differential_forms.py:317-341 (argument x) *)
Definition point := (R * R * R)%type.

(** TensorBasis.evaluate, spline_bases.py:236-256 *)
Definition TensorBasis_evaluate (b : basis1 * basis1 * basis1) (x : point) (i : nat) : R :=
  let: (b0, b1, b2) := b in let: (x0, x1, x2) := x in
  let: (i0, i1, i2) := unravel3 (bn b0, bn b1, bn b2) i in
  bev b0 x0 i0 * bev b1 x1 i1 * bev b2 x2 i2.

(** Attributes k, Lambda, dLambda of a DifferentialForm (differential_forms.py:66-95). *)
Record dform := DForm { f_k : deg;
  f_L0 : spline; f_L1 : spline; f_L2 : spline;
  f_D0 : spline; f_D1 : spline; f_D2 : spline }.

(** k as an integer: other values raise ValueError (differential_forms.py:148-150) *)
Definition deg_of_nat (k : nat) : option deg :=
  match k with 0%N => Some K0 | 1%N => Some K1 | 2%N => Some K2 | 3%N => Some K3 | _ => None end.

(** __init__, differential_forms.py:56-152 (Ts = None); None: an exception *)
Definition DifferentialForm (k : deg) (ns ps : triple) (types : stype * stype * stype) : option dform :=
  let: (n0, n1, n2) := ns in let: (p0, p1, p2) := ps in let: (t0, t1, t2) := types in
  match new_spline n0 p0 t0, new_spline n1 p1 t1, new_spline n2 p2 t2 with
  | Some l0, Some l1, Some l2 =>
      match new_deriv l0, new_deriv l1, new_deriv l2 with
      | Some d0, Some d1, Some d2 => Some (DForm k l0 l1 l2 d0 d1 d2)
      | _, _, _ => None
      end
  | _, _, _ => None
  end.

(** nr, nt, nz and which directions are clamped (differential_forms.py:81-94) *)
Definition is_clamped (t : stype) : bool := match t with Clamped => true | _ => false end.
Definition f_shape (f : dform) : shape :=
  Shape (sn (f_L0 f)) (sn (f_L1 f)) (sn (f_L2 f))
        (is_clamped (sty (f_L0 f))) (is_clamped (sty (f_L1 f))) (is_clamped (sty (f_L2 f))).

(** self.bases[c], differential_forms.py:98-146 *)
Definition f_bases (f : dform) (c : nat) : basis1 * basis1 * basis1 :=
  let L0 := of_spline (f_L0 f) in let L1 := of_spline (f_L1 f) in let L2 := of_spline (f_L2 f) in
  let D0 := of_deriv (f_D0 f) in let D1 := of_deriv (f_D1 f) in let D2 := of_deriv (f_D2 f) in
  match f_k f with
  | K0 => (L0, L1, L2)
  | K1 => if c == 0%N then (D0, L1, L2) else if c == 1%N then (L0, D1, L2) else (L0, L1, D2)
  | K2 => if c == 0%N then (L0, D1, D2) else if c == 1%N then (D0, L1, D2) else (D0, D1, L2)
  | K3 => (D0, D1, D2)
  | KV => (L0, L1, L2)
  end.

(** number of components of the returned array: shape (1,) or (3,) *)
(* differential_forms.py:317-341 *)
Definition f_comps (k : deg) : nat := if is_scalar k then 1%N else 3%N.

(** evaluate (and __call__), differential_forms.py:316-342; entry c of the result *)
Definition form_evaluate (f : dform) (x : point) (i : nat) (c : nat) : R :=
  let: (category, index) := vector_index (f_shape f) (f_k f) i in
  if is_scalar (f_k f) then 1 * TensorBasis_evaluate (f_bases f 0) x index
  else
    let e := (c == category)%:R in
    let val := if category == 0%N then TensorBasis_evaluate (f_bases f 0) x index
               else if category == 1%N then TensorBasis_evaluate (f_bases f 1) x index
               else TensorBasis_evaluate (f_bases f 2) x index in
    e * val.

Definition f_n (f : dform) : nat := fdim (f_shape f) (f_k f).

(** DiscreteFunction(dof, Lambda, E)(x), differential_forms.py:359-387:
    dof @ E @ vmap(Lambda)(x, ns) *)
Definition DiscreteFunction (f : dform) (m : nat) (dof : 'rV[R]_m) (E : 'M[R]_(m, f_n f)) (x : point)
  : 'rV[R]_(f_comps (f_k f)) :=
  dof *m E *m (\matrix_(i, c) form_evaluate f x i c).
(** E=None: the identity, differential_forms.py:375 *)
Definition DiscreteFunction_id (f : dform) (dof : 'rV[R]_(f_n f)) (x : point) :=
  @DiscreteFunction f (f_n f) dof 1%:M x.

(** evaluate_1d, derham_sequence.py:115-130: values of the univariate bases at the
    1-d nodes; entry (i, j) is basis function i at node j. *)
Definition evaluate_1d (f : dform) (Q : quadrule) : tables R_realFieldType :=
  @Tables R_realFieldType
    (fun i j => evaluate (f_L0 f) (List.nth j (x_x Q) (0 : R)) i)
    (fun i j => evaluate (f_L1 f) (List.nth j (x_y Q) (0 : R)) i)
    (fun i j => evaluate (f_L2 f) (List.nth j (x_z Q) (0 : R)) i)
    (fun i j => evaluate_deriv (f_D0 f) (List.nth j (x_x Q) (0 : R)) i)
    (fun i j => evaluate_deriv (f_D1 f) (List.nth j (x_y Q) (0 : R)) i)
    (fun i j => evaluate_deriv (f_D2 f) (List.nth j (x_z Q) (0 : R)) i)
    (length (x_x Q)) (length (x_y Q)) (length (x_z Q)).
