(** Model of the numerical helpers of mrx/plotting.py over the reals: trajectory / plane
    intersections and the sampling grids.  NaN is None. *)
From Coq Require Import Reals List ZArith Bool.
From Verif Require Import Model.RBase Model.Forms Model.FormEval Model.Quad Model.Maps.
Import ListNotations.
Local Open Scope R_scope.

Definition dot3p (u v : point) : R := let '(a, b, c) := u in let '(d, e, f) := v in a * d + b * e + c * f.
Definition sub3 (u v : point) : point := add3 u (scale3 (-1) v).

(** trajectory_plane_intersections_list, plotting.py:716-754: one pass over the segments *)
Definition segment_hit (plane_point plane_normal seg_start seg_end : point) : list point :=
  let seg_vec := sub3 seg_end seg_start in
  let denom := dot3p plane_normal seg_vec in
  if Rltb (Rabs denom) (/ 10 ^ 12) then []
  else
    let t := dot3p plane_normal (sub3 plane_point seg_start) / denom in
    if Rleb 0 t && Rleb t 1 then [add3 seg_start (scale3 t seg_vec)] else [].
Fixpoint trajectory_plane_intersections_list (trajectory : list point) (plane_point plane_normal : point) : list point :=
  match trajectory with
  | seg_start :: ((seg_end :: _) as rest) =>
      segment_hit plane_point plane_normal seg_start seg_end
        ++ trajectory_plane_intersections_list rest plane_point plane_normal
  | _ => []
  end.

(** trajectory_plane_intersections_jit, plotting.py:312-351, for one trajectory of the batch and one
    segment (a, b); points are the coordinate functions of R^D.  A row of NaN is None: that is the
    case if the mask is false or if the division is 0/0 (mask and denom = 0). *)
Definition vecD := nat -> R.
Definition jit_diff (plane_val x : R) : R :=
  if Reqb plane_val 0 then Rmin (Rabs (x - plane_val)) (Rabs (x - plane_val - 1)) else x - plane_val.
Definition jit_mask (plane_val : R) (axis : nat) (a b : vecD) : bool :=
  Rleb (jit_diff plane_val (a axis) * jit_diff plane_val (b axis)) 0.
Definition jit_point (plane_val : R) (axis : nat) (a b : vecD) : option vecD :=
  let d0 := jit_diff plane_val (a axis) in let d1 := jit_diff plane_val (b axis) in
  if jit_mask plane_val axis a b then
    if Reqb (d0 - d1) 0 then None
    else let t := d0 / (d0 - d1) in Some (fun i => a i + t * (b i - a i))
  else None.
Definition segments {A} (l : list A) : list (A * A) := combine (removelast l) (tl l).
Definition trajectory_plane_intersections_jit (trajectory : list vecD) (plane_val : R) (axis : nat)
    : list (option vecD) * list bool :=
  (map (fun ab => jit_point plane_val axis (fst ab) (snd ab)) (segments trajectory),
   map (fun ab => jit_mask plane_val axis (fst ab) (snd ab)) (segments trajectory)).
(** poincare_plot, plotting.py:826-833: the trajectories are reduced mod 1 componentwise first *)
Definition wrapD (x : vecD) : vecD := fun i => mod1 (x i).

(** intersect_with_plane, plotting.py:654-713, with the default deg = 2. *)
Definition plane_dist (plane_normal : point) (plane_offset : R) (x : point) : R :=
  dot3p x (normalize3 plane_normal) - plane_offset.
Definition flip (s : nat -> R) (i : nat) : bool := Rltb (s i * s (S i)) 0.
(** jnp.where(flip_mask, arange(N-1), N), sorted: the flipped indices in increasing order, then N; padded to length N *)
(* plotting.py:682-686 *)
Definition flip_idxs (N : nat) (s : nat -> R) : list nat :=
  let l := filter (flip s) (seq 0 (N - 1)) in l ++ repeat N (N - length l).
(** jnp.polyfit(arange(3), y, deg=2): the parabola through (0, y0), (1, y1), (2, y2), by its value at t *)
(* plotting.py:695-699, 706 *)
Definition parabola (y0 y1 y2 t : R) : R :=
  y0 * ((t - 1) * (t - 2) / 2) - y1 * (t * (t - 2)) + y2 * (t * (t - 1) / 2).
(** t_cross is the smallest real root of the parabola strictly between 0 and 2 (NaN if there is none:
    the relation then holds of no t).  jnp.roots(strip_zeros=False) needs a non-zero leading coefficient. *)
(* plotting.py:698-702 *)
Definition t_cross (y0 y1 y2 t : R) : Prop :=
  (y0 - 2 * y1 + y2 <> 0) /\ parabola y0 y1 y2 t = 0 /\ 0 < t < 2 /\
  (forall t', parabola y0 y1 y2 t' = 0 -> 0 < t' < 2 -> t <= t').
(** interp(i): pt is the (non-NaN) row for index i; half = 1, indices i-1, i, i+1 clipped to [0, N-1] *)
(* plotting.py:688-710 *)
Definition interp2 (N : nat) (traj : nat -> point) (s : nat -> R) (i : nat) (pt : point) : Prop :=
  (1 <= i)%nat /\ (i < N - 1)%nat /\
  let i0 := Nat.min (i - 1) (N - 1) in let i1 := Nat.min i (N - 1) in let i2 := Nat.min (i + 1) (N - 1) in
  exists t, t_cross (s i0) (s i1) (s i2) t /\
    pt = (parabola (comp3 0 (traj i0)) (comp3 0 (traj i1)) (comp3 0 (traj i2)) t,
          parabola (comp3 1 (traj i0)) (comp3 1 (traj i1)) (comp3 1 (traj i2)) t,
          parabola (comp3 2 (traj i0)) (comp3 2 (traj i1)) (comp3 2 (traj i2)) t).

(** jnp.linspace(a, b, n) *)
(* used at plotting.py:155-157, 235-237, 300 *)
Definition linspace (a b : R) (n : nat) : list R := map (fun k => a + INR k / INR (n - 1) * (b - a)) (seq 0 n).
(** entry (i, j, k) of flat.reshape(n1, n2, n3) *)
(* plotting.py:161-163 *)
Definition reshape3 {A} (d : A) (flat : list A) (n1 n2 n3 i j k : nat) : A := nth ((i * n2 + j) * n3 + k) flat d.
(* plotting.py:256-258 *)
Definition reshape2 {A} (d : A) (flat : list A) (n1 n2 i j : nat) : A := nth (i * n2 + j) flat d.
(** get_3d_grids, plotting.py:103-164; the three returned (nx, ny, nz) arrays together *)
Definition get_3d_grids (F : point -> point) (x_min x_max y_min y_max z_min z_max : R) (nx ny nz : nat)
    : list point * list point * (nat -> nat -> nat -> point) :=
  let _x := meshgrid3 (linspace x_min x_max nx) (linspace y_min y_max ny) (linspace z_min z_max nz) in
  let _y := map F _x in
  (_x, _y, reshape3 (0, 0, 0) _y nx ny nz).
(** get_2d_grids, plotting.py:167-260 *)
Inductive cut_axis := Cut0 | Cut1 | Cut2.
Definition get_2d_grids (F : point -> point) (cut_value : R) (cut : cut_axis) (nx ny nz : nat) (tol1 tol2 tol3 : R)
    (x_min x_max y_min y_max z_min z_max : R) (invert_x invert_y invert_z : bool)
    : list point * list point * (nat -> nat -> point) :=
  let inv (b : bool) (l : list R) := if b then rev l else l in
  let _x1 := inv invert_x (linspace (x_min + tol1) (x_max - tol1) nx) in
  let _x2 := inv invert_y (linspace (y_min + tol2) (y_max - tol2) ny) in
  let _x3 := inv invert_z (linspace (z_min + tol3) (z_max - tol3) nz) in
  let one := [1 * cut_value] in
  let _x1' := match cut with Cut0 => one | _ => _x1 end in
  let _x2' := match cut with Cut1 => one | _ => _x2 end in
  let _x3' := match cut with Cut2 => one | _ => _x3 end in
  let '(n1, n2) := match cut with Cut0 => (ny, nz) | Cut1 => (nx, nz) | Cut2 => (nx, ny) end in
  let _x := meshgrid3 _x1' _x2' _x3' in
  let _y := map F _x in
  (_x, _y, reshape2 (0, 0, 0) _y n1 n2).
(** get_1d_grids, plotting.py:263-310 *)
Definition get_1d_grids (F : point -> point) (zeta chi : R) (nx : nat) (tol : R) : list point * list point :=
  let _x := meshgrid3 (linspace tol (1 - tol) nx) [1 * chi] [1 * zeta] in (_x, map F _x).
