(** Model of mrx/iterative_solvers.py (picard_solver, newton_solver) and of invert_map
    (mrx/mappings.py).

    The loops are modelled over an arbitrary arithmetic ([arith]), so that what is proved about
    their control flow holds in floating point, nan included; [exact] is real arithmetic. *)
From Coq Require Import Reals Bool Arith.
From Coquelicot Require Import Coquelicot.
From mathcomp Require Import all_ssreflect all_algebra.
From Verif Require Import Model.RBase Proof.RField.
Set Implicit Arguments.
Unset Strict Implicit.
Unset Printing Implicit Defensive.

(** jax.lax.while_loop(cond, body, s): relation between the initial and the final state; there
    is no final state if the loop does not stop. *)
(* iterative_solvers.py:72, mappings.py:412 *)
Inductive while_loop {S : Type} (cond : S -> bool) (body : S -> S) : S -> S -> Prop :=
| while_stop s : cond s = false -> while_loop cond body s s
| while_step s s' : cond s = true -> while_loop cond body (body s) s' -> while_loop cond body s s'.

(** the array and scalar operations used by the solvers: arrays X, scalars T *)
(* iterative_solvers.py:44-77, 110-120, mappings.py:397-413 *)
Record arith (X T : Type) := Arith {
  a_sub : X -> X -> X;           (* a - b on arrays *)
  a_mix : T -> X -> X -> X;      (* alpha * a + (1 - alpha) * b *)
  a_gt : T -> T -> bool;         (* s > t *)
  a_nan : T -> bool;             (* jnp.isnan(s) *)
  a_one : T;                     (* 1 *)
  a_clip_ratio : T -> T -> T     (* jnp.clip(s / (t + 1e-12), 0.0, 1.0) *)
}.

Section Picard.
Variables (X A T : Type) (ops : arith X T) (norm : X -> T) (f : X * A -> X * A) (tol : T) (max_iter : nat).
(** loop state (z_prev, z, i), iterative_solvers.py:43 *)
Definition pstate := ((X * A) * (X * A) * nat)%type.
(** norm(f(z)[0] - z[0]), iterative_solvers.py:45, 78 *)
Definition residual (z : X * A) : T := norm (a_sub ops (fst (f z)) (fst z)).
(** cond_fun, iterative_solvers.py:29-47 *)
Definition picard_cond (s : pstate) : bool :=
  let '(_, z, i) := s in
  (i <? max_iter)%nat && (a_gt ops (residual z) tol || a_nan ops (residual z)).
(** body_fun, iterative_solvers.py:49-69 *)
Definition picard_body (s : pstate) : pstate :=
  let '(z_prev, z, i) := s in
  let fz := f z in
  let alpha := if (i =? 0)%nat then a_one ops
               else a_clip_ratio ops (norm (a_sub ops (fst fz) (fst z))) (norm (a_sub ops (fst z) (fst z_prev))) in
  (z, (a_mix ops alpha (fst fz) (fst z), snd fz), S i).
(** picard_solver, iterative_solvers.py:5-78: [picard_solver z_init out] when the call returns
    out = (z_star, residual, iters) *)
Definition picard_solver (z_init : X * A) (out : (X * A) * T * nat) : Prop :=
  exists zp z iters, while_loop picard_cond picard_body (z_init, f z_init, 0%N) (zp, z, iters) /\
    let z_star := if (iters =? 0)%nat then f z else z in
    out = (z_star, residual z_star, iters).
End Picard.

(** Exact arithmetic on a real vector space; the clip is the mathematical one. *)
(* iterative_solvers.py:66 *)
Definition clip01 (x : R) : R := Rmin 1 (Rmax 0 x).
(* iterative_solvers.py:44-77 *)
Definition exact (V : lmodType R_realFieldType) : arith V R :=
  @Arith V R (fun a b => (a - b)%R) (fun al a b => (al *: a + (1 - al) *: b)%R)
    (fun s t => Rltb t s) (fun _ => false) R1
    (fun s t => clip01 (Rdiv s (Rplus t (Rinv (pow 10 12))))).

(** newton_solver, iterative_solvers.py:80-122.  jac F x is jax.jacrev(F)(x), solve is
    jnp.linalg.solve. *)
Section Newton.
Variables (X A T Mx : Type) (ops : arith X T) (jac : (X -> X) -> X -> Mx) (solve : Mx -> X -> X).
(** g, iterative_solvers.py:105-119 *)
Definition newton_map (f : X * A -> X * A) (z : X * A) : X * A :=
  let '(x, aux) := z in
  let F x_ := a_sub ops (fst (f (x_, aux))) x_ in
  let dx := solve (jac F x) (F x) in
  let x_next := a_sub ops x dx in
  (x_next, snd (f (x_next, aux))).
Definition newton_solver norm f tol max_iter := picard_solver ops norm (newton_map f) tol max_iter.
End Newton.

(** invert_map, mappings.py:373-413.  [inf] is jnp.inf, [neg r] is -r. *)
Section Invert.
Variables (X Y T Mx : Type) (add : X -> X -> X) (subY : Y -> Y -> Y) (negY : Y -> Y) (gt : T -> T -> bool) (inf : T)
  (norm : Y -> T) (jac : (X -> Y) -> X -> Mx) (solve : Mx -> Y -> X).
Variables (f : X -> Y) (y_target : Y) (tol : T) (max_iter : nat).
(** loop state (x, err, i) *)
(* mappings.py:397-399 *)
Definition invert_cond (s : X * T * nat) : bool := let '(_, err, i) := s in gt err tol && (i <? max_iter)%nat.
(** body_fn, mappings.py:401-408 *)
Definition invert_step (x : X) : X := add x (solve (jac f x) (negY (subY (f x) y_target))).
Definition invert_body (s : X * T * nat) : X * T * nat :=
  let '(x, _, i) := s in (invert_step x, norm (subY (f x) y_target), S i).
Definition invert_map (x0_fn : Y -> X) (x_final : X) : Prop :=
  exists err i, while_loop invert_cond invert_body (x0_fn y_target, inf, 0%N) (x_final, err, i).
End Invert.

(** jax.jacrev / jax.jacobian on R^n: the matrix of partial derivatives. *)
Local Open Scope ring_scope.
(* iterative_solvers.py:114, mappings.py:404 *)
Definition jacobian m n (F : 'cV[R]_n -> 'cV[R]_m) (x : 'cV[R]_n) : 'M[R]_(m, n) :=
  \matrix_(i, j) Derive (fun t => F (x + t *: delta_mx j 0) i 0) (0 : R).
(** jnp.linalg.solve(J, b) for a non-singular J *)
(* iterative_solvers.py:115, mappings.py:405 *)
Definition lin_solve n (J : 'M[R]_n) (b : 'cV[R]_n) : 'cV[R]_n := invmx J *m b.
