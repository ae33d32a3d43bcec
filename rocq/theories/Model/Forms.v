(** Model of the index arithmetic of mrx/differential_forms.py (DifferentialForm),
    mrx/boundary.py (LazyBoundaryOperator) and mrx/polar.py (LazyExtractionOperator).
    Sizes and indices are natural numbers. *)
From mathcomp Require Import all_ssreflect all_algebra.
Set Implicit Arguments.
Unset Strict Implicit.
Unset Printing Implicit Defensive.
Import GRing.Theory.
Local Open Scope ring_scope.

(** Numbers of splines per direction and whether the direction is "clamped"
    (differential_forms.py:81-94). *)
Record shape := Shape { nr : nat; nt : nat; nz : nat; cr : bool; ct : bool; cz : bool }.
Definition dr (s : shape) : nat := (nr s - cr s)%N.
Definition dt (s : shape) : nat := (nt s - ct s)%N.
Definition dz (s : shape) : nat := (nz s - cz s)%N.

(** Form degrees 0,1,2,3 and -1 (vector fields). *)
(* differential_forms.py:57-70 (argument k) *)
Inductive deg := K0 | K1 | K2 | K3 | KV.

(* differential_forms.py:57-153 (shape tuples) *)
Definition triple := (nat * nat * nat)%type.
(* differential_forms.py:57-153 (products of shapes) *)
Definition tsize (t : triple) : nat := let: (a, b, c) := t in (a * b * c)%N.

(** jnp.unravel_index(idx, (a,b,c)): C order, out-of-range indices are clipped. *)
(* used at differential_forms.py:263-297 *)
Definition unravel3 (s : triple) (idx : nat) : triple :=
  let: (a, b, c) := s in
  let idx := minn idx (a * b * c).-1 in
  ((idx %/ (b * c))%N, ((idx %/ c) %% b)%N, (idx %% c)%N).

(** jnp.unravel_index(idx, (a,b)) *)
(* used at polar.py:230, 268, 290 *)
Definition unravel2 (a b idx : nat) : nat * nat :=
  let idx := minn idx (a * b).-1 in ((idx %/ b)%N, (idx %% b)%N).

(** jnp.ravel_multi_index((i,j,k), (a,b,c), mode="clip") *)
(* used at differential_forms.py:188-247 *)
Definition ravel3 (s : triple) (i j k : nat) : nat :=
  let: (a, b, c) := s in
  ((minn i a.-1 * b + minn j b.-1) * c + minn k c.-1)%N.

(** self.shape, differential_forms.py:98-146; components 0,1,2. *)
Definition cshape (s : shape) (k : deg) (c : nat) : triple :=
  match k with
  | K0 => (nr s, nt s, nz s)
  | K1 => if c == 0%N then (dr s, nt s, nz s)
          else if c == 1%N then (nr s, dt s, nz s) else (nr s, nt s, dz s)
  | K2 => if c == 0%N then (nr s, dt s, dz s)
          else if c == 1%N then (dr s, nt s, dz s) else (dr s, dt s, nz s)
  | K3 => (dr s, dt s, dz s)
  | KV => (nr s, nt s, nz s)
  end.

Definition is_scalar (k : deg) : bool := match k with K0 | K3 => true | _ => false end.

(** n1, n2, n3 and n, differential_forms.py:98-152 *)
Definition fn1 s k : nat := tsize (cshape s k 0).
Definition fn2 s k : nat := if is_scalar k then 0%N else tsize (cshape s k 1).
Definition fn3 s k : nat := if is_scalar k then 0%N else tsize (cshape s k 2).
Definition fdim s k : nat := (fn1 s k + fn2 s k + fn3 s k)%N.

(** _vector_index, differential_forms.py:155-172 *)
Definition vector_index s k (idx : nat) : nat * nat :=
  if is_scalar k then (0%N, idx)
  else let n1 := fn1 s k in let n2 := fn2 s k in
       (((n1 <= idx) + (n1 + n2 <= idx))%N,
        (idx - n1 * (n1 <= idx) - n2 * (n1 + n2 <= idx))%N).

(** _ravel_index, differential_forms.py:174-249 *)
Definition ravel_index s k (c i j l : nat) : nat :=
  if is_scalar k then ravel3 (cshape s k 0) i j l
  else if c == 0%N then ravel3 (cshape s k 0) i j l
  else if c == 1%N then (fn1 s k + ravel3 (cshape s k 1) i j l)%N
  else (fn1 s k + fn2 s k + ravel3 (cshape s k 2) i j l)%N.

(** _unravel_index, differential_forms.py:251-298 *)
Definition unravel_index s k (idx : nat) : nat * triple :=
  let: (c, l) := vector_index s k idx in (c, unravel3 (cshape s k c) l).

Section Operators.
Variable F : realFieldType.

(** *** LazyBoundaryOperator (boundary.py) *)
(** boundary condition strings "dirichlet", "left", "right", anything else *)
(* boundary.py:58-66 *)
Inductive bc := Dirichlet | Left | Right | NoBC.

(** get_dim, boundary.py:58-66 *)
Definition bc_dim (n : nat) (b : bc) : nat :=
  match b with Dirichlet => (n - 2)%N | Left | Right => n.-1 | NoBC => n end.
(** target index: p - 1 for dirichlet/left, p otherwise (boundary.py:186-191);
    the comparison i == p - 1 over integers is i + 1 == p. *)
Definition bc_hit (b : bc) (i p : nat) : bool :=
  match b with Dirichlet | Left => (i.+1 == p) | _ => i == p end.

(** The reduced shape: n's reduced, d's are those of the full form
    (boundary.py:68-71).  Modelled as a component-shape function. *)
Definition bshape (s : shape) (b : bc * bc * bc) (k : deg) (c : nat) : triple :=
  let: (br, bt, bz) := b in
  let n1 := bc_dim (nr s) br in let n2 := bc_dim (nt s) bt in let n3 := bc_dim (nz s) bz in
  match k with
  | K0 => (n1, n2, n3)
  | K1 => if c == 0%N then (dr s, n2, n3) else if c == 1%N then (n1, dt s, n3) else (n1, n2, dz s)
  | K2 => if c == 0%N then (n1, dt s, dz s) else if c == 1%N then (dr s, n2, dz s) else (dr s, dt s, n3)
  | K3 => (dr s, dt s, dz s)
  | KV => (n1, n2, n3)
  end.
Definition bn1 s b k : nat := tsize (bshape s b k 0).
Definition bn2 s b k : nat := if is_scalar k then 0%N else tsize (bshape s b k 1).
Definition bn3 s b k : nat := if is_scalar k then 0%N else tsize (bshape s b k 2).
Definition bdim s b k : nat := (bn1 s b k + bn2 s b k + bn3 s b k)%N.

(** _vector_index, boundary.py:103-121 *)
Definition bvector_index s b k (idx : nat) : nat * nat :=
  if is_scalar k then (0%N, idx)
  else let n1 := bn1 s b k in let n2 := bn2 s b k in
       (((n1 <= idx) + (n1 + n2 <= idx))%N,
        (idx - n1 * (n1 <= idx) - n2 * (n1 + n2 <= idx))%N).
(** _unravel_index, boundary.py:123-170 *)
Definition bunravel_index s b k (idx : nat) : nat * triple :=
  let: (c, l) := bvector_index s b k idx in (c, unravel3 (bshape s b k c) l).

(** _element, boundary.py:172-228 (k = 2 and k = -1 share their code) *)
Definition boundary_element s (b : bc * bc * bc) k (row col : nat) : bool :=
  let: (br, bt, bz) := b in
  let: (crow, (i, j, l)) := bunravel_index s b k row in
  let: (ccol, (p, m, n)) := unravel_index s k col in
  match k with
  | K0 => [&& bc_hit br i p, bc_hit bt j m & bc_hit bz l n]
  | K1 => (crow == ccol) &&
      (if crow == 0%N then [&& i == p, bc_hit bt j m & bc_hit bz l n]
       else if crow == 1%N then [&& bc_hit br i p, j == m & bc_hit bz l n]
       else [&& bc_hit br i p, bc_hit bt j m & l == n])
  | K2 | KV => (crow == ccol) &&
      (if crow == 0%N then [&& bc_hit br i p, j == m & l == n]
       else if crow == 1%N then [&& i == p, bc_hit bt j m & l == n]
       else [&& i == p, j == m & bc_hit bz l n])
  | K3 => row == col
  end.

(** assemble, boundary.py:230-239 *)
Definition boundary_matrix s b k : 'M[F]_(bdim s b k, fdim s k) :=
  \matrix_(r, c) (boundary_element s b k r c)%:R.

(** *** LazyExtractionOperator (polar.py) *)
(** xi[p, i, j]: coefficients of shape (3, 2, nt) (polar.py:327-364) *)
Variable xi : nat -> nat -> nat -> F.

(** n1, n2, n3, polar.py:52-76 (o = 1 for zero boundary conditions) *)
Definition pn1 s (o : bool) k : nat :=
  match k with
  | K0 | KV => ((nr s - 2 - o) * nt s + 3) * nz s
  | K1 => (dr s).-1 * nt s * nz s
  | K2 => ((nr s - 2 - o) * dt s + 2) * dz s
  | K3 => (dr s).-1 * dt s * dz s
  end%N.
Definition pn2 s (o : bool) k : nat :=
  match k with
  | K0 | K3 => 0
  | K1 => ((nr s - 2 - o) * dt s + 2) * nz s
  | K2 => (dr s).-1 * nt s * dz s
  | KV => ((nr s - 2 - o) * nt s + 3) * nz s
  end%N.
Definition pn3 s (o : bool) k : nat :=
  match k with
  | K0 | K3 => 0
  | K1 => ((nr s - 2 - o) * nt s + 3) * dz s
  | K2 => (dr s).-1 * dt s * nz s
  | KV => ((nr s - 2 - o) * nt s + 3) * nz s
  end%N.
Definition pdim s o k : nat := (pn1 s o k + pn2 s o k + pn3 s o k)%N.

(** _vector_index, polar.py:86-104 *)
Definition pvector_index s o k (idx : nat) : nat * nat :=
  if is_scalar k then (0%N, idx)
  else let n1 := pn1 s o k in let n2 := pn2 s o k in
       (((n1 <= idx) + (n1 + n2 <= idx))%N,
        (idx - n1 * (n1 <= idx) - n2 * (n1 + n2 <= idx))%N).

(** _inner_zeroform, polar.py:216-232; the gather xi[p,i,j] clamps i to 1 *)
Definition inner_zeroform (row col n1 n2 n3 : nat) : F :=
  let: (p, m) := unravel2 3 n3 row in
  let: (i, j, k) := unravel3 (n1, n2, n3) col in
  (k == m)%:R * (i < 2)%:R * xi p (minn i 1) j.

(** _outer_zeroform, polar.py:234-252 *)
Definition outer_zeroform (o : bool) (row col n1 n2 n3 : nat) : F :=
  let: (i, j, k) := unravel3 (n1, n2, n3) row in
  (col == ravel3 (n1, n2, n3) (i + 2) j k)%:R * (if o then (i != n1.-1)%:R else 1).

(** inner_oneform_r, polar.py:254-274 *)
Definition inner_oneform_r (row col n1 n2 n3 : nat) : F :=
  let: (p, m) := unravel2 2 n3 row in
  let: (i, j, k) := unravel3 (n1, n2, n3) col in
  (k == m)%:R * (i == 0%N)%:R * (xi p.+1 1 j - xi p.+1 0 j).

(** inner_oneform_θ, polar.py:276-297 *)
Definition inner_oneform_t (row col n1 n2 n3 : nat) : F :=
  let: (p, m) := unravel2 2 n3 row in
  let: (i, j, k) := unravel3 (n1, n2, n3) col in
  (k == m)%:R * (i == 1%N)%:R * (xi p.+1 1 ((j + 1) %% n2)%N - xi p.+1 1 j).

(** _threeform, polar.py:299-317 *)
Definition threeform (row col n1 n2 n3 : nat) : F :=
  let: (i, j, k) := unravel3 (n1, n2, n3) row in
  (col == ravel3 (n1, n2, n3) (i + 1) j k)%:R.

(** _element, polar.py:106-214.  row - 3*nz etc. is only used when it is >= 0. *)
Definition polar_element s (o : bool) k (row0 col0 : nat) : F :=
  let: (crow, row) := pvector_index s o k row0 in
  let: (ccol, col) := vector_index s k col0 in
  let NR := nr s in let NT := nt s in let NZ := nz s in
  let DR := dr s in let DT := dt s in let DZ := dz s in
  match k with
  | K0 =>
      if (row0 < 3 * NZ)%N then inner_zeroform row0 col0 NR NT NZ
      else outer_zeroform o (row0 - 3 * NZ) col0 NR NT NZ
  | K1 =>
      if crow == 0%N then threeform row col DR NT NZ * (crow == ccol)%:R
      else if crow == 1%N then
        (if (row < 2 * NZ)%N
         then inner_oneform_r row col DR NT NZ * (ccol == 0%N)%:R
              + inner_oneform_t row col NR DT NZ * (ccol == 1%N)%:R
         else outer_zeroform o (row - 2 * NZ) col NR DT NZ * (crow == ccol)%:R)
      else
        (if (row < 3 * DZ)%N then inner_zeroform row col NR NT DZ * (crow == ccol)%:R
         else outer_zeroform o (row - 3 * DZ) col NR NT DZ * (crow == ccol)%:R)
  | K2 =>
      if crow == 0%N then
        (if (row < 2 * NZ)%N
         then inner_oneform_t row col NR DT DZ * (ccol == 0%N)%:R
              - inner_oneform_r row col DR NT DZ * (ccol == 1%N)%:R
         else outer_zeroform o (row - 2 * NZ) col NR DT DZ * (crow == ccol)%:R)
      else if crow == 1%N then threeform row col DR NT DZ * (crow == ccol)%:R
      else threeform row col DR DT NZ * (crow == ccol)%:R
  | K3 => threeform row0 col0 NR NT NZ
  | KV =>
      (if (row < 3 * NZ)%N then inner_zeroform row col NR NT NZ
       else outer_zeroform o (row - 3 * NZ) col NR NT NZ) * (crow == ccol)%:R
  end.

(** assemble, polar.py:319-323 *)
Definition polar_matrix s o k : 'M[F]_(pdim s o k, fdim s k) :=
  \matrix_(r, c) polar_element s o k r c.

End Operators.
