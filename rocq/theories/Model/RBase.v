(** Boolean comparisons on R and the numpy/jax scalar helpers used by the
    R-valued models.  Floats are idealised as real numbers (see DESIGN.md). *)
From Coq Require Import Reals List Bool.
Import ListNotations.
Local Open Scope R_scope.

(* the comparisons of spline_bases.py:112-200 *)
Definition Rleb (x y : R) : bool := if Rle_dec x y then true else false.
(* the comparisons of spline_bases.py:112-200 *)
Definition Rltb (x y : R) : bool := if Rlt_dec x y then true else false.
(* spline_bases.py:130 (x == self.T[-1]) *)
Definition Reqb (x y : R) : bool := if Req_EM_T x y then true else false.

(** jnp.isclose(a, b) with its default rtol=1e-5, atol=1e-8:
    |a - b| <= atol + rtol * |b|.  (numpy/jax documentation) *)
(* used at spline_bases.py:164, 177 *)
Definition isclose (a b : R) : bool :=
  Rleb (Rabs (a - b)) (/ 10 ^ 8 + / 10 ^ 5 * Rabs b).

(** T[i] for a traced (non-static) index i >= 0: JAX gathers clamp
    out-of-range indices to the last element ("Sharp Bits"). *)
(* used at spline_bases.py:150, 354, 360 *)
Definition gather (T : list R) (i : nat) : R :=
  nth (Nat.min i (length T - 1)) T 0.

(** jax.lax.dynamic_slice(T, (i,), (m,)): the start index is clamped so that
    the slice fits in the array. *)
(* used at spline_bases.py:138-152 *)
Definition dynamic_slice (T : list R) (i m : nat) : list R :=
  firstn m (skipn (Nat.min i (length T - m)) T).

(** jnp.linspace(0, 1, m): m points k/(m-1); a single point is 0. *)
(* used at spline_bases.py:77-110, quadrature.py:105 *)
Definition linspace01 (m : nat) : list R :=
  map (fun k => INR k / INR (m - 1)) (seq 0 m).
