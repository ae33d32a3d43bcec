(** The force-free branch of MRXDiagnostics.pressure (mrx/relaxation.py). *)
From Coq Require Import Reals.
From mathcomp Require Import all_ssreflect all_algebra.
From Verif Require Import Model.RBase Model.Spline Model.Quad Model.Forms Model.DeRham Model.FormEval Model.Geometry.
From Verif Require Import Proof.RField Spec.CalculusSpec.
Set Implicit Arguments.
Unset Strict Implicit.
Unset Printing Implicit Defensive.
Import GRing.Theory Num.Theory.
Local Open Scope ring_scope.

Section Pressure.
Variables (ns ps : triple) (types : stype * stype * stype) (DFx : point -> mat3 R_realFieldType).
Variable S : drseq R_realFieldType.
(** the quadrature points Seq.Q.x *)
Variable xj : nat -> point.

(** v @ w and v @ A for (3,) and (3,3) arrays *)
(* relaxation.py:203 *)
Definition vdot (v w : vec3 R_realFieldType) : R_realFieldType := \sum_(a < 3) v a * w a.
Definition vecmat (v : vec3 R_realFieldType) (A : mat3 R_realFieldType) : vec3 R_realFieldType := fun l => \sum_(a < 3) v a * A a l.
(** lmbda, relaxation.py:200-203; B_h and J_h are DiscreteFunctions of degrees 2 and 1 (discrete_form is
    DiscreteFunction, C22_discrete_form).  Where the field vanishes the code divides 0 by 0 (nan); here the
    value is 0. *)
Definition lmbda (B : 'cV[R_realFieldType]_(rk S K2)) (x : point) : vec3 R_realFieldType :=
  let J : 'cV[R_realFieldType]_(rk S K1) := weak_curl S *m B in
  let Bx : vec3 R_realFieldType := fun c => discrete_form ns ps types B c x in
  let Jx : vec3 R_realFieldType := fun c => discrete_form ns ps types J c x in
  let DF := DFx x in
  fun _ => vdot Jx Bx / vdot (vecmat (mulv3 DF Bx) DF) Bx * det33 DF.
(** pressure with force_free=True, relaxation.py:194-204; P0 evaluates lmbda at the quadrature points *)
Definition pressure_force_free (B : 'cV[R_realFieldType]_(rk S K2)) : 'cV[R_realFieldType]_(rk S K0) :=
  solve (M0 S) (Projector0 S (fun j => lmbda B (xj j))).
End Pressure.
