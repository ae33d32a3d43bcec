(** Model of get_true_evs in scripts/deprecated/cube_cavity.py: the table of exact eigenvalues (divided by pi^2) of the
    cube cavity that the computed spectrum is plotted against. *)
From mathcomp Require Import all_ssreflect.
Set Implicit Arguments.
Unset Strict Implicit.
Unset Printing Implicit Defensive.

(** the number of indices that are zero *)
(* scripts/deprecated/cube_cavity.py:111-117 *)
Definition num_zeros (nx ny nz : nat) : nat := (nx == 0) + (ny == 0) + (nz == 0).
(** current_mode_contribution; None: continue.  The last case of the chain has no else: the value stays 0 *)
(* scripts/deprecated/cube_cavity.py:119-157 *)
Definition contribution (nx ny nz : nat) : option nat :=
  let z := num_zeros nx ny nz in
  if z == 3 then None
  else if z == 2 then None
  else if z == 1 then
    if [|| [&& nx == 0, 0 < ny & 0 < nz], [&& ny == 0, 0 < nx & 0 < nz] | [&& nz == 0, 0 < nx & 0 < ny]] then Some 1 else None
  else if z == 0 then
    if [&& 0 < nx, 0 < ny & 0 < nz] then Some 2 else None
  else Some 0.
(** s_to_multiplicity[s] += c of a defaultdict(int), as an association list without repeated keys *)
(* scripts/deprecated/cube_cavity.py:103, 158-161 *)
Fixpoint add_to (s c : nat) (d : seq (nat * nat)) : seq (nat * nat) :=
  match d with
  | [::] => [:: (s, c)]
  | (s', c') :: r => if s' == s then (s', c' + c) :: r else (s', c') :: add_to s c r
  end.
(** s_to_multiplicity[s_val] *)
(* scripts/deprecated/cube_cavity.py:169-171 *)
Fixpoint mult_of (d : seq (nat * nat)) (s : nat) : nat :=
  match d with
  | [::] => 0
  | (s', c) :: r => if s' == s then c else mult_of r s
  end.
(** the body of the three loops *)
(* scripts/deprecated/cube_cavity.py:107-161 *)
Definition visit (d : seq (nat * nat)) (n : nat * nat * nat) : seq (nat * nat) :=
  let: (nx, ny, nz) := n in
  match contribution nx ny nz with
  | None => d
  | Some c => if 0 < c then add_to (nx ^ 2 + ny ^ 2 + nz ^ 2) c d else d
  end.
(** the loops: nx, ny, nz in range(N_max + 1) *)
(* scripts/deprecated/cube_cavity.py:107-109 *)
Definition indices (N : nat) : seq (nat * nat * nat) :=
  [seq (xy, z) | xy <- [seq (x, y) | x <- iota 0 N.+1, y <- iota 0 N.+1], z <- iota 0 N.+1].
(** the dictionary after the loops *)
(* scripts/deprecated/cube_cavity.py:102-161 *)
Definition table (N : nat) : seq (nat * nat) := foldl visit [::] (indices N).
(** get_true_evs(N_max): the sorted keys, each repeated by its multiplicity *)
(* scripts/deprecated/cube_cavity.py:102-173 *)
Definition get_true_evs (N : nat) : seq nat :=
  flatten [seq nseq (mult_of (table N) s) s | s <- sort leq (map fst (table N))].
