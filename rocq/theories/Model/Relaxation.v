(** Model of mrx/relaxation.py (MRXHessian, MRXDiagnostics, State, TimeStepper) and of
    run_relaxation_loop (mrx/utils.py), over a real field.

    Vectors are exact; what floating point adds to the control flow, namely results that are
    inf or nan, is an oracle ([fault] below): any evaluation of the midpoint map may produce
    an arbitrary vector together with a residual that is inf or nan. *)
From mathcomp Require Import all_ssreflect all_algebra.
From Verif Require Import Model.Forms Model.DeRham Model.Geometry.
Set Implicit Arguments.
Unset Strict Implicit.
Unset Printing Implicit Defensive.
Import GRing.Theory Num.Theory.
Local Open Scope ring_scope.

(** A float: finite, +inf or nan (the quantities below are norms, never -inf). *)
(* relaxation.py:207-240 (picard_residuum, v_norm) *)
Inductive num (F : Type) := Fin of F | Inf | NaN.
Arguments Fin {F} _.
Arguments Inf {F}.
Arguments NaN {F}.

Section Num.
Variable F : realFieldType.
(** IEEE comparisons with a finite right-hand side: false on nan *)
(* relaxation.py:484, utils.py:504 *)
Definition num_gt (x : num F) (t : F) : bool :=
  match x with Fin a => t < a | Inf => true | NaN => false end.
(* utils.py:550 *)
Definition num_lt (x : num F) (t : F) : bool :=
  match x with Fin a => a < t | _ => false end.
(** jnp.isnan, jnp.isfinite *)
(* relaxation.py:485 *)
Definition isnan (x : num F) : bool := match x with NaN => true | _ => false end.
(* utils.py:505 *)
Definition isfinite (x : num F) : bool := match x with Fin _ => true | _ => false end.
End Num.

Section Relaxation.
Variable F : realFieldType.
(** the square root x**0.5 of the reals (used on non-negative numbers only) *)
Variable sqrt_ : F -> F.
Variable S : drseq F.
(** jnp.linalg.pinv(Seq.dd3), used to build Seq.P_Leray (derham_sequence.py:560-566) *)
Variable pinv : 'M[F]_(rk S K3).
Notation PL := (P_Leray S pinv).
Notation vec1 := 'cV[F]_(rk S K1).
Notation vec2 := 'cV[F]_(rk S K2).

(** Seq.P1x1_to_2, Seq.P2x1_to_1, build_crossproduct_projections, derham_sequence.py:527-542.
    These combinations never raise (C30_supported); the default is not used. *)
Definition some_or0 n (o : option 'cV[F]_n) : 'cV[F]_n := if o is Some x then x else 0.
Definition P1x1_to_2 (w u : vec1) : vec2 := some_or0 (@CrossProductProjection F S K2 K1 K1 w u).
Definition P2x1_to_1 (w : vec2) (u : vec1) : vec1 := some_or0 (@CrossProductProjection F S K1 K2 K1 w u).

(** u @ M2 @ u and norm_2, relaxation.py:295-309 and utils.py:17-27 *)
Definition norm_2 (B : vec2) : F := sqrt_ ((B^T *m M2 S *m B) 0 0).

(** *** MRXHessian, relaxation.py:10-83 *)
(** δB, relaxation.py:23-41 *)
Definition deltaB (B u : vec2) : vec2 :=
  let H := P12 S *m B in
  let uxH := solve (M1 S) (P2x1_to_1 u H) in
  strong_curl S *m uxH.
(** uxJ, relaxation.py:43-62 *)
Definition uxJ (B u : vec2) : vec1 :=
  let J := weak_curl S *m B in solve (M1 S) (P2x1_to_1 u J).
(** assemble, relaxation.py:64-83: column i of δB_i is deltaB B e_i.  jnp arrays are shapes checked:
    ΛxJᵀ @ M12 @ M2 @ δB has inner sizes r1, r2, r2. *)
Definition hessian (B : vec2) : 'M[F]_(rk S K2) :=
  let dB : 'M_(rk S K2) := \matrix_(i, j) deltaB B (delta_mx j 0) i 0 in
  let LJ : 'M_(rk S K1, rk S K2) := \matrix_(i, j) uxJ B (delta_mx j 0) i 0 in
  let H := dB^T *m M2 S *m dB + LJ^T *m M12 S *m M2 S *m dB in
  2%:R^-1 *: (H + H^T).

(** *** MRXDiagnostics, relaxation.py:86-204 *)
(** energy, relaxation.py:105-119 *)
Definition energy (B : vec2) : F := 2%:R^-1 * (B^T *m M2 S *m B) 0 0.
(** vector potential A of helicity and harmonic_component, relaxation.py:135, 153 *)
Definition potential (B : vec2) : vec1 := solve (dd1 S) (weak_curl S *m B).
(** harmonic_component, relaxation.py:139-155 *)
Definition harmonic_component (B : vec2) : vec2 := B - strong_curl S *m potential B.
(** helicity, relaxation.py:121-137 *)
Definition helicity (B : vec2) : F :=
  let A := potential B in
  let B_harm := B - strong_curl S *m A in
  (A^T *m M1 S *m P12 S *m (B + B_harm)) 0 0.
(** divergence_norm, relaxation.py:157-172 *)
Definition divergence_norm (B : vec2) : F :=
  sqrt_ (((strong_div S *m B)^T *m M3 S *m (strong_div S *m B)) 0 0).
(** pressure with force_free=False, relaxation.py:174-193 *)
Definition pressure (B : vec2) : 'cV[F]_(rk S K0) :=
  let J := weak_curl S *m B in
  let H := P12 S *m B in
  let JxH := solve (M2 S) (P1x1_to_2 J H) in
  - solve (dd0 S) (P03 S *m strong_div S *m JxH).

(** *** State, relaxation.py:207-239 *)
Record rstate := RState {
  B_n : vec2; B_guess : vec2; dt_ : F; eta : F; Hessian : 'M[F]_(rk S K2);
  picard_iterations : nat; picard_residuum : num F; force_norm : num F; velocity_norm : num F }.

(** eqx.tree_at updates: update_dt, update_hessian, update_B_n, update_B_guess, relaxation.py:366-452 *)
Definition update_dt (s : rstate) (d : F) : rstate :=
  RState (B_n s) (B_guess s) d (eta s) (Hessian s) (picard_iterations s) (picard_residuum s) (force_norm s) (velocity_norm s).
Definition update_hessian (s : rstate) (H : 'M[F]_(rk S K2)) : rstate :=
  RState (B_n s) (B_guess s) (dt_ s) (eta s) H (picard_iterations s) (picard_residuum s) (force_norm s) (velocity_norm s).
Definition update_B_n (s : rstate) (B : vec2) : rstate :=
  RState B (B_guess s) (dt_ s) (eta s) (Hessian s) (picard_iterations s) (picard_residuum s) (force_norm s) (velocity_norm s).
Definition update_B_guess (s : rstate) (B : vec2) : rstate :=
  RState (B_n s) B (dt_ s) (eta s) (Hessian s) (picard_iterations s) (picard_residuum s) (force_norm s) (velocity_norm s).

(** TimeStepper attributes, relaxation.py:242-271 *)
Record stepper := Stepper {
  gamma : nat; newton : bool; picard_tol : F; picard_maxit : nat; force_free : bool }.

(** jnp.linalg.lstsq(A, b)[0]: any function of its arguments *)
Variable lstsq : 'M[F]_(rk S K2) -> vec2 -> vec2.
Variable ts : stepper.

(** *** midpoint_residuum, relaxation.py:311-364 *)
(** the loop over range(gamma), relaxation.py:339-340 *)
Definition smooth (g : nat) (u : vec2) : vec2 := iter g (solve (1%:M + dd2 S)) u.
Definition mid_J (st : rstate) : vec1 := weak_curl S *m (2%:R^-1 *: (B_guess st + B_n st)).
Definition mid_H (st : rstate) : vec1 := P12 S *m (2%:R^-1 *: (B_guess st + B_n st)).
Definition mid_JxH (st : rstate) : vec2 := solve (M2 S) (P1x1_to_2 (mid_J st) (mid_H st)).
Definition mid_f (st : rstate) : vec2 := if force_free ts then mid_JxH st else PL *m mid_JxH st.
Definition mid_u (st : rstate) : vec2 :=
  let u := smooth (gamma ts) (mid_f st) in
  if newton ts then PL *m lstsq (Hessian st) (PL^T *m M2 S *m u) else u.
Definition mid_E (st : rstate) : vec1 :=
  solve (M1 S) (P2x1_to_1 (mid_u st) (mid_H st)) - eta st *: mid_J st.
Definition B_nplus1 (st : rstate) : vec2 := B_n st + dt_ st *: (strong_curl S *m mid_E st).

(** floating-point faults: Some (v, x, f, w) means that this evaluation produced the values v
    for B_nplus1, f and w for the norms, and a residual that is nan (x = true) or inf. *)
Variable fault : rstate -> option (vec2 * bool * num F * num F).
(* relaxation.py:311-452 *)
Definition midpoint_residuum (st : rstate) : rstate :=
  match fault st with
  | None =>
      RState (B_n st) (B_nplus1 st) (dt_ st) (eta st) (Hessian st) (picard_iterations st).+1
        (Fin (norm_2 (B_nplus1 st - B_guess st))) (Fin (norm_2 (mid_f st))) (Fin (norm_2 (mid_u st)))
  | Some (v, x, f, w) =>
      RState (B_n st) v (dt_ st) (eta st) (Hessian st) (picard_iterations st).+1
        (if x then NaN else Inf) f w
  end.

(** *** picard_solver, relaxation.py:454-512 *)
Definition cond_fun (st : rstate) : bool :=
  (picard_iterations st < picard_maxit ts)%N &&
  (num_gt (picard_residuum st) (picard_tol ts) || isnan (picard_residuum st)).
(** jax.lax.while_loop: the first argument bounds the number of iterations of the model;
    C41_terminates shows that the bound used below is never what stops the loop *)
(* relaxation.py:511 *)
Fixpoint while_loop (fuel : nat) (st : rstate) : rstate :=
  if fuel is fuel'.+1 then
    if cond_fun st then while_loop fuel' (midpoint_residuum st) else st
  else st.
(* relaxation.py:503-508 *)
Definition picard_init (st : rstate) : rstate :=
  RState (B_n st) (B_guess st) (dt_ st) (eta st) (Hessian st) 0 (Fin 1) (force_norm st) (velocity_norm st).
(* relaxation.py:454-512 *)
Definition picard_solver (st : rstate) : rstate := while_loop (picard_maxit ts) (picard_init st).
End Relaxation.

(** *** run_relaxation_loop, utils.py:448-553 *)
Section Loop.
Variable F : realFieldType.
Variable sqrt_ : F -> F.
Variable S : drseq F.
Variable pinv : 'M[F]_(rk S K3).
Variable DF : nat -> mat3 F.
Variable lstsq : 'M[F]_(rk S K2) -> 'cV[F]_(rk S K2) -> 'cV[F]_(rk S K2).
Variable fault : rstate S -> option ('cV[F]_(rk S K2) * bool * num F * num F).

(** the entries of CONFIG read by the loop (utils.py:292-318); save_every and
    precond_compute_every are assumed positive (0 raises ZeroDivisionError).  dB_xyz is the
    perturbation at the quadrature points. *)
Record config := Config {
  c_maxit : nat; c_precond : bool; c_precond_every : nat; c_gamma : nat; c_dt_factor : F;
  c_force_tol : F; c_force_free : bool; c_solver_maxit : nat; c_critit : nat; c_solver_tol : F;
  c_save_every : nat; c_save_B : bool; c_pert_strength : F; c_apply_pert_after : nat;
  c_dB_xyz : nat -> vec3 F }.
Variable cfg : config.

(** TimeStepper(Seq, ...), utils.py:463-468 *)
Definition the_stepper : stepper F :=
  Stepper (c_gamma cfg) (c_precond cfg) (c_solver_tol cfg) (c_solver_maxit cfg) (c_force_free cfg).
(** step, utils.py:471 *)
Definition step : rstate S -> rstate S := picard_solver sqrt_ pinv lstsq the_stepper fault.

(** trace_dict, utils.py:323-338: the lists appended to (wall_time_trace and the time stamps
    depend on the clock and are not modelled) *)
Record trace := Trace {
  iterations : seq nat; force_trace : seq (num F); energy_trace : seq F; helicity_trace : seq F;
  divergence_trace : seq F; velocity_trace : seq (num F); picard_iterations_trace : seq nat;
  picard_errors : seq (num F); timesteps : seq F; B_fields : seq 'cV[F]_(rk S K2) }.
(** append_to_trace_dict, utils.py:340-377 *)
Definition append_to_trace_dict (t : trace) (i : nat) (f : num F) (E H dvg : F) (v : num F)
    (p_i : nat) (e : num F) (dt : F) (B : option 'cV[F]_(rk S K2)) : trace :=
  Trace (rcons (iterations t) i) (rcons (force_trace t) f) (rcons (energy_trace t) E)
    (rcons (helicity_trace t) H) (rcons (divergence_trace t) dvg) (rcons (velocity_trace t) v)
    (rcons (picard_iterations_trace t) p_i) (rcons (picard_errors t) e) (rcons (timesteps t) dt)
    (if B is Some b then rcons (B_fields t) b else B_fields t).

(** perturbation, utils.py:513-519.  norm_2 dB_hat = 0 would give nan; here x / 0 = 0. *)
Definition dB_hat : 'cV[F]_(rk S K2) :=
  let d := P_Leray S pinv *m solve (M2 S) (Projector2 S DF (c_dB_xyz cfg)) in
  (norm_2 sqrt_ d)^-1 *: d.

(** the recording before the loop, utils.py:478-489 *)
Definition record_initial (t : trace) (st : rstate S) : trace :=
  let dry_run := step st in
  append_to_trace_dict t 0 (force_norm dry_run) (energy (B_n st)) (helicity (B_n st))
    (divergence_norm sqrt_ (B_n st)) (velocity_norm dry_run) 0 (Fin 0) (dt_ dry_run)
    (if c_save_B cfg then Some (B_n st) else None).

(** the accepting part of the loop body up to the new time step, utils.py:510-529 *)
Definition accept (i : nat) (st0 : rstate S) : rstate S :=
  let st := update_B_n st0 (B_guess st0) in
  let st := if (i == c_apply_pert_after cfg) && (0 < c_pert_strength cfg)
            then update_B_n st (B_n st + c_pert_strength cfg *: dB_hat) else st in
  let st := if c_precond cfg && (i %% c_precond_every cfg == 0)%N
            then update_hessian st (hessian (B_n st)) else st in
  let dt_new := if (picard_iterations st < c_critit cfg)%N then dt_ st * c_dt_factor cfg
                else dt_ st / c_dt_factor cfg ^+ 2 in
  update_dt st dt_new.
(** utils.py:531-542 *)
Definition record_step (i : nat) (t : trace) (st : rstate S) : trace :=
  if (i %% c_save_every cfg == 0)%N || (i == c_maxit cfg)
  then append_to_trace_dict t i (force_norm st) (energy (B_n st)) (helicity (B_n st))
         (divergence_norm sqrt_ (B_n st)) (velocity_norm st) (picard_iterations st)
         (picard_residuum st) (dt_ st) (if c_save_B cfg then Some (B_n st) else None)
  else t.
(** the failed-step test, utils.py:504-505 *)
Definition failed (st : rstate S) : bool :=
  num_gt (picard_residuum st) (c_solver_tol cfg) || ~~ isfinite (picard_residuum st).
(** one iteration i, utils.py:501-553: new state, new trace, break? *)
Definition loop_body (i : nat) (st : rstate S) (t : trace) : rstate S * trace * bool :=
  let st := step st in
  if failed st then
    let st := update_dt st (dt_ st / 2%:R) in
    let st := update_B_guess st (B_n st) in
    (st, t, false)
  else
    let st := accept i st in
    let t := record_step i t st in
    (st, t, num_lt (last NaN (force_trace t)) (c_force_tol cfg)).
(** for i in range(1, maxit + 1), utils.py:501; n iterations are left, the next one is i *)
Fixpoint loop (n i : nat) (st : rstate S) (t : trace) : rstate S * trace :=
  if n is n'.+1 then
    let: (st, t, stop) := loop_body i st t in
    if stop then (st, t) else loop n' i.+1 st t
  else (st, t).
(** run_relaxation_loop, utils.py:448-553.  The caller keeps its own State object (an immutable
    eqx.Module), the trace_dict it passed is mutated, and the return value is None. *)
Record outcome := Outcome { out_local : rstate S; out_caller_state : rstate S; out_trace : trace; out_return : option (rstate S) }.
Definition run_relaxation_loop (t : trace) (st : rstate S) : outcome :=
  let: (st', t') := loop (c_maxit cfg) 1 st (record_initial t st) in
  Outcome st' st t' None.
End Loop.
