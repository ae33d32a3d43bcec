(** Model of the computing parts of the remaining plotting helpers: set_axes_equal and the marker choice of converge_plot
    in mrx/plotting.py, and the curve styles and the curve data of scripts/plotting/force_multiplot.py.  Drawing itself is
    not modelled. *)
From Coq Require Import Reals.
From mathcomp Require Import all_ssreflect all_algebra.
Set Implicit Arguments.
Unset Strict Implicit.
Unset Printing Implicit Defensive.
Import Order.TTheory GRing.Theory Num.Theory.
Local Open Scope ring_scope.

Section Axes.
Local Open Scope R_scope.
(** (lim[0], lim[1]) of one axis *)
(* mrx/plotting.py:1401-1403 *)
Definition limits : Type := (R * R)%type.
(* mrx/plotting.py:1405-1407 *)
Definition range (l : limits) : R := snd l - fst l.
(** np.mean of the two limits *)
(* mrx/plotting.py:1410-1412 *)
Definition mid (l : limits) : R := (fst l + snd l) / 2.
(** the limits after set_axes_equal(ax) *)
(* mrx/plotting.py:1399-1416 *)
Definition set_axes_equal (x y z : limits) : limits * limits * limits :=
  let max_range := Rmax (Rmax (range x) (range y)) (range z) in
  let new l : limits := (mid l - max_range / 2, mid l + max_range / 2) in
  (new x, new y, new z).
End Axes.

(** the symbols of base_markers, by their position in the list of 20; markers[j] for j < len(ps) *)
(* mrx/plotting.py:27-32, 63 *)
Definition marker (n_ps j : nat) : nat := nth 0%N [seq (i %% 20)%N | i <- iota 0 n_ps] j.

Section Styles.
Context {d : unit} {T : orderType d}.
(** vals = sorted(set(...)); the values are those of the sweep parameter in all runs *)
(* scripts/plotting/force_multiplot.py:46, 57 *)
Definition sorted_set (vals : seq T) : seq T := sort <=%O (undup vals).
(** the position in linspace(0, 1, 1 + m) at which the colour map is evaluated, for the value of a run *)
(* scripts/plotting/force_multiplot.py:37-38, 46-47, 86 *)
Definition colour (vals : seq T) (v : T) : rat :=
  (index v (sorted_set vals))%:R / (size (undup vals))%:R.
(** the position in linestyle_cycle (five entries) *)
(* scripts/plotting/force_multiplot.py:40, 57-58, 87 *)
Definition linestyle (vals : seq T) (v : T) : nat := (index v (sorted_set vals) %% 5)%N.
End Styles.

Section Curves.
Variable F : realFieldType.
(** np.abs(trace - trace[0]) of the two-dimensional array trace (one row for each run; np.array needs rows of equal
    length); trace[0] is the first row *)
(* scripts/plotting/force_multiplot.py:131, 137-138 *)
Definition drawn_change (trace : seq (seq F)) : seq (seq F) :=
  [seq [seq `|ab.1 - ab.2| | ab <- zip row (nth [::] trace 0)] | row <- trace].
(** the curves of trace_plot: energy_trace[0] - energy_trace, |helicity_trace - helicity_trace[0]| and
    divergence_trace - divergence_trace[0]; an empty trace is an IndexError in the code *)
(* mrx/plotting.py:1225 *)
Definition drawn_energy (es : seq F) : seq F := [seq head 0 es - e | e <- es].
(* mrx/plotting.py:1246 *)
Definition drawn_helicity (hs : seq F) : seq F := [seq `|h - head 0 hs| | h <- hs].
(* mrx/plotting.py:1257 *)
Definition drawn_divergence (ds : seq F) : seq F := [seq x - head 0 ds | x <- ds].
(** a value that a logarithmic axis shows *)
(* mrx/plotting.py:1225, 1240 *)
Definition visible (y : F) : bool := 0 < y.
End Curves.
