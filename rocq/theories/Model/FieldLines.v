(** Model of the field line tracing of the plotting scripts over the reals: the right-hand side handed to
    the ODE solver, the event function of the Poincare section, signed cylindrical coordinates, and the
    rotational transform from unwrapped angles.  The ODE solver itself (diffrax) is not modelled: theorems
    about trajectories range over the exact solutions of the differential equation. *)
From Coq Require Import Reals List ZArith Bool.
From Verif Require Import Model.RBase Model.Quad Model.Forms Model.FormEval Model.Maps.
Import ListNotations.
Local Open Scope R_scope.

(** DFx @ Bx for the 3 x 3 matrix DFx = jax.jacfwd(F)(x) *)
(* scripts/plotting/solovev_poincare.py:70-71, 99-100 *)
Definition mat_vec (A : nat -> nat -> R) (v : point) : point :=
  let '(a, b, c) := v in
  (A 0%nat 0%nat * a + A 0%nat 1%nat * b + A 0%nat 2%nat * c,
   A 1%nat 0%nat * a + A 1%nat 1%nat * b + A 1%nat 2%nat * c,
   A 2%nat 0%nat * a + A 2%nat 1%nat * b + A 2%nat 2%nat * c).
(** x % 1.0, componentwise *)
(* scripts/plotting/solovev_poincare.py:65, 94; mrx/plotting.py:826 *)
Definition wrap1 (x : point) : point := let '(r, t, z) := x in (mod1 r, mod1 t, mod1 z).
(** jnp.clip(r, lo, hi) *)
(* scripts/plotting/solovev_poincare.py:96 *)
Definition clip (r lo hi : R) : R := Rmin (Rmax r lo) hi.
(** vector_field(t, x, args), scripts/plotting/solovev_poincare.py:63-71 (rmin = None: no clipping) and
    92-100 (rmin = Some 1e-4); the same in iter_plots.py:68-76, 96-104, helix_plots.py:68-76, 96-104 and
    stell_plots.py:57-65, 85-93 with other values of rmin *)
Definition eval_point (rmin : option R) (x : point) : point :=
  let '(r, t, z) := wrap1 x in
  (match rmin with Some m => clip r m 1 | None => r end, t, z).
Definition vector_field (rmin : option R) (B_h : point -> point) (DF : point -> nat -> nat -> R) (x : point) : point :=
  let x := eval_point rmin x in
  let Bx := B_h x in
  let n := norm3 (mat_vec (DF x) Bx) in
  let '(a, b, c) := Bx in (a / n, b / n, c / n).
(** cond_fn(t, y, args) of make_cond_fn(phi_target), scripts/plotting/solovev_poincare.py:105-110 *)
Definition cond_fn (F : point -> point) (phi_target : R) (y : point) : R :=
  let x := F y in
  let phi := (arctan2 (comp3 1 x) (comp3 0 x) / PI + 1) / 2 in
  sin (2 * PI * (phi - phi_target)).
(** the restart point after a crossing, scripts/plotting/solovev_poincare.py:131 *)
Definition restart (rmin : option R) (B_h : point -> point) (DF : point -> nat -> nat -> R) (y : point) : point :=
  let '(a, b, c) := vector_field rmin B_h DF y in
  let '(r, t, z) := y in (r + / 10 ^ 3 * a, t + / 10 ^ 3 * b, z + / 10 ^ 3 * c).
(** jnp.sign *)
(* scripts/plotting/solovev_poincare.py:143 *)
Definition rsign (x : R) : R := if Rltb 0 x then 1 else if Rltb x 0 then -1 else 0.
(** F_cyl_signed, scripts/plotting/solovev_poincare.py:139-146 *)
Definition F_cyl_signed (x : point) : point :=
  let '(a, b, z) := x in
  let R := sqrt (a ^ 2 + b ^ 2) * rsign (sin (/ 10 ^ 16 + arctan2 b a)) in
  (R, arctan2 b a, z).
(** jnp.mod(x, y) for y > 0 *)
(* inside jnp.unwrap, scripts/plotting/solovev_poincare.py:173, 180 *)
Definition rmod (x y : R) : R := x - y * IZR (Int_part (x / y)).
(** jnp.unwrap(p) with the default discont and period 2 pi (jax.numpy documentation and source):
    dd = diff(p); ddmod = mod(dd + pi, 2 pi) - pi, where -pi is replaced by pi if dd > 0;
    the correction is 0 if |dd| < pi and ddmod - dd otherwise; the running sums of the corrections are
    added to p[1:] *)
(* scripts/plotting/solovev_poincare.py:173, 180 *)
Definition unwrap_correct (dd : R) : R :=
  let ddmod := rmod (dd + PI) (2 * PI) - PI in
  let ddmod := if Reqb ddmod (- PI) && Rltb 0 dd then PI else ddmod in
  if Rltb (Rabs dd) PI then 0 else ddmod - dd.
Fixpoint diffs (prev : R) (l : list R) : list R :=
  match l with [] => [] | x :: l' => (x - prev) :: diffs x l' end.
Fixpoint cumsum (acc : R) (l : list R) : list R :=
  match l with [] => [] | x :: l' => (acc + x) :: cumsum (acc + x) l' end.
Definition unwrap (p : list R) : list R :=
  match p with
  | [] => []
  | p0 :: p' => p0 :: map (fun ab => fst ab + snd ab) (combine p' (cumsum 0 (map unwrap_correct (diffs p0 p'))))
  end.
(** toroidal_unwrapped and poloidal_unwrapped, scripts/plotting/solovev_poincare.py:172-182 *)
Definition total_turns (angles : list R) : R :=
  let u := unwrap angles in (last u 0 - hd 0 u) / (2 * PI).
Definition toroidal_unwrapped (phi : list R) : R := total_turns phi.
Definition poloidal_unwrapped (RZ : list (R * R)) (R_center Z_center : R) : R :=
  total_turns (map (fun rz => arctan2 (snd rz - Z_center) (fst rz - R_center)) RZ).
(** jnp.mean *)
(* scripts/plotting/solovev_poincare.py:187-188 *)
Definition mean (l : list R) : R := fold_right Rplus 0 l / INR (length l).
(** get_iota(c), scripts/plotting/solovev_poincare.py:185-192: (|m / n|, m, n) *)
Definition get_iota (c : list point) : R * R * R :=
  let r_mean := mean (map (fun p => Rabs (comp3 0 p)) c) in
  let z_mean := mean (map (fun p => comp3 2 p) c) in
  let m := poloidal_unwrapped (map (fun p => (Rabs (comp3 0 p), comp3 2 p)) c) r_mean z_mean in
  let n := toroidal_unwrapped (map (fun p => comp3 1 p) c) in
  (Rabs (m / n), m, n).
