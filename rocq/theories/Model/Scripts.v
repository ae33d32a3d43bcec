(** The driver scripts: scripts/config_scripts/solovev.py, stell.py, iter_islands.py around
    run_relaxation_loop (Model/Relaxation.v). *)
From mathcomp Require Import all_ssreflect all_algebra.
From Verif Require Import Model.Forms Model.DeRham Model.Geometry Model.Relaxation.
Set Implicit Arguments.
Unset Strict Implicit.
Unset Printing Implicit Defensive.
Import GRing.Theory Num.Theory.
Local Open Scope ring_scope.

Section Scripts.
Variable F : realFieldType.
Variable sqrt_ : F -> F.
Variable S : drseq F.
Variable pinv : 'M[F]_(rk S K3).
Variable DF : nat -> mat3 F.
Notation vec2 := 'cV[F]_(rk S K2).

(** v is a possible value of jnp.linalg.eigh(A)[1][:, 0]: a unit eigenvector for the smallest
    eigenvalue of the symmetrised matrix (eigh symmetrises its argument by default).
    LAPACK's choice among these vectors is not modelled. *)
(* scripts/config_scripts/solovev.py:86 *)
Definition eigh_first n (A : 'M[F]_n) (v : 'cV[F]_n) : Prop :=
  let As := 2%:R^-1 *: (A + A^T) in
  (v^T *m v) 0 0 = 1 /\
  exists lam, As *m v = lam *: v /\ forall mu (w : 'cV[F]_n), w != 0 -> As *m w = mu *: w -> lam <= mu.

(** B / norm_2(B, Seq) *)
(* scripts/config_scripts/solovev.py:87, stell.py:96 *)
Definition normalise (B : vec2) : vec2 := (norm_2 sqrt_ B)^-1 *: B.

(** State(B_hat, B_hat, dt, eta, Seq.M2, 0, 0, 0, 0) *)
(* scripts/config_scripts/solovev.py:91, stell.py:108, iter_islands.py:112-113 *)
Definition initial_state (B : vec2) (dt eta : F) : rstate S :=
  RState B B dt eta (M2 S) 0 (Fin 0) (Fin 0) (Fin 0).

(** the field solovev.py starts from, v being the value eigh returned *)
(* scripts/config_scripts/solovev.py:86-91 *)
Definition solovev_state (v : vec2) (dt eta : F) : rstate S := initial_state (normalise v) dt eta.

(** P_Leray @ solve(M2, P2(B)) *)
(* scripts/config_scripts/stell.py:94-95, iter_islands.py:97-98 *)
Definition projected_field (B_xyz : nat -> vec3 F) : vec2 :=
  P_Leray S pinv *m solve (M2 S) (Projector2 S DF B_xyz).

(** the field stell.py and iter_islands.py start from *)
(* scripts/config_scripts/stell.py:94-104, iter_islands.py:97-109 *)
Definition projected_start (cfg : config F) (B_xyz : nat -> vec3 F) : vec2 :=
  let B_hat := normalise (projected_field B_xyz) in
  if (c_apply_pert_after cfg == 0%N) && (0 < c_pert_strength cfg)
  then B_hat + c_pert_strength cfg *: normalise (projected_field (c_dB_xyz cfg))
  else B_hat.

(** the average printed after the loop: elapsed / trace_dict['iterations'][-1]; None is an
    exception (IndexError on an empty list, ZeroDivisionError: both operands are Python numbers) *)
(* scripts/config_scripts/solovev.py:98-102, stell.py:117-121, iter_islands.py:123-126 *)
Definition average_time (elapsed : F) (t : trace S) : option F :=
  match rev (iterations t) with
  | [::] => None
  | n :: _ => if n == 0%N then None else Some (elapsed / n%:R)
  end.
End Scripts.
