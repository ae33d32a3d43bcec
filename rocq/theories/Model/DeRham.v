(** Model of mrx/derham_sequence.py (DeRhamSequence) and of the assembly helpers
    of mrx/utils.py, over an arbitrary real field (floats idealised). *)
From mathcomp Require Import all_ssreflect all_algebra.
From Verif Require Import Model.Forms.
Set Implicit Arguments.
Unset Strict Implicit.
Unset Printing Implicit Defensive.
Import GRing.Theory.
Local Open Scope ring_scope.

Section DeRham.
Variable F : realFieldType.

(** Tables of univariate basis values filled by evaluate_1d
    (derham_sequence.py:115-130): lam_r i j = value of spline i at node j, etc.
    qx, qy, qz are the numbers of 1-D quadrature nodes. *)
Record tables := Tables {
  lam_r : nat -> nat -> F; lam_t : nat -> nat -> F; lam_z : nat -> nat -> F;
  dlam_r : nat -> nat -> F; dlam_t : nat -> nat -> F; dlam_z : nat -> nat -> F;
  qx : nat; qy : nat; qz : nat }.

(** A table with the given number of rows, read with a traced row index: the
    gather clamps to the last row.  (A negative row index would wrap; the only
    such read, i-1 at i = 0, is masked by jnp.where, and 0.-1 = 0 here.) *)
(* derham_sequence.py:150-151, 176-184, 208-211 and the other getters *)
Definition rd (rows : nat) (T : nat -> nat -> F) (i j : nat) : F := T (minn i rows.-1) j.

Variables (s : shape) (tb : tables).
Let Lr := rd (nr s) (lam_r tb).
Let Lt := rd (nt s) (lam_t tb).
Let Lz := rd (nz s) (lam_z tb).
Let Dr := rd (dr s) (dlam_r tb).
Let Dt := rd (dt s) (dlam_t tb).
Let Dz := rd (dz s) (dlam_z tb).

(** j2, j1, j3 = unravel_index(j, (ny, nx, nz)): returns (j1, j2, j3). *)
(* derham_sequence.py:146 *)
Definition qpoint (j : nat) : triple :=
  let: (j2, j1, j3) := unravel3 (qy tb, qx tb, qz tb) j in (j1, j2, j3).

(** get_Lambda_0_ijk, derham_sequence.py:132-151 *)
Definition get_Lambda_0 (i j k : nat) : F :=
  let: (j1, j2, j3) := qpoint j in
  let: (_, (i1, i2, i3)) := unravel_index s K0 i in
  Lr i1 j1 * Lt i2 j2 * Lz i3 j3.

(** The shifted differences shared by the three derivative getters
    (derham_sequence.py:168-177, 229-238, 316-325).  NB the tests use nt for all
    three directions, as in the code. *)
Definition dr_cur (i1 j1 : nat) : F := if i1 == (nt s).-1 then 0 else Dr i1 j1.
Definition dr_m1 (i1 j1 : nat) : F := if (0 < i1)%N then Dr i1.-1 j1 else 0.
Definition dth_m1 (i2 j2 : nat) : F := if (0 < i2)%N then Dt i2.-1 j2 else Dt (nt s).-1 j2.
Definition dz_m1 (i3 j3 : nat) : F := if (0 < i3)%N then Dz i3.-1 j3 else Dz (nt s).-1 j3.

(** get_d_Lambda_0_ijk, derham_sequence.py:153-185 *)
Definition get_d_Lambda_0 (i j k : nat) : F :=
  let: (j1, j2, j3) := qpoint j in
  let: (_, (i1, i2, i3)) := unravel_index s K0 i in
  if k == 0%N then (dr_m1 i1 j1 - dr_cur i1 j1) * Lt i2 j2 * Lz i3 j3
  else if k == 1%N then Lr i1 j1 * (dth_m1 i2 j2 - Dt i2 j2) * Lz i3 j3
  else Lr i1 j1 * Lt i2 j2 * (dz_m1 i3 j3 - Dz i3 j3).

(** get_Lambda_1_ijk, derham_sequence.py:187-212 *)
Definition get_Lambda_1 (i j k : nat) : F :=
  let: (j1, j2, j3) := qpoint j in
  let: (c, (i1, i2, i3)) := unravel_index s K1 i in
  if k == c then
    (if k == 0%N then Dr i1 j1 * Lt i2 j2 * Lz i3 j3
     else if k == 1%N then Lr i1 j1 * Dt i2 j2 * Lz i3 j3
     else Lr i1 j1 * Lt i2 j2 * Dz i3 j3)
  else 0.

(** get_d_Lambda_1_ijk, derham_sequence.py:214-273 *)
Definition get_d_Lambda_1 (i j k : nat) : F :=
  let: (j1, j2, j3) := qpoint j in
  let: (c, (i1, i2, i3)) := unravel_index s K1 i in
  let d3dy := Lr i1 j1 * (dth_m1 i2 j2 - Dt i2 j2) * Dz i3 j3 in
  let d2dz := Lr i1 j1 * Dt i2 j2 * (dz_m1 i3 j3 - Dz i3 j3) in
  let d1dz := Dr i1 j1 * Lt i2 j2 * (dz_m1 i3 j3 - Dz i3 j3) in
  let d3dx := (dr_m1 i1 j1 - dr_cur i1 j1) * Lt i2 j2 * Dz i3 j3 in
  let d2dx := (dr_m1 i1 j1 - dr_cur i1 j1) * Dt i2 j2 * Lz i3 j3 in
  let d1dy := Dr i1 j1 * (dth_m1 i2 j2 - Dt i2 j2) * Lz i3 j3 in
  if c == 0%N then (if k == 0%N then 0 else if k == 1%N then d1dz else - d1dy)
  else if c == 1%N then (if k == 0%N then - d2dz else if k == 1%N then 0 else d2dx)
  else (if k == 0%N then d3dy else if k == 1%N then - d3dx else 0).

(** get_Lambda_2_ijk, derham_sequence.py:275-299 *)
Definition get_Lambda_2 (i j k : nat) : F :=
  let: (j1, j2, j3) := qpoint j in
  let: (c, (i1, i2, i3)) := unravel_index s K2 i in
  if k == c then
    (if k == 0%N then Lr i1 j1 * Dt i2 j2 * Dz i3 j3
     else if k == 1%N then Dr i1 j1 * Lt i2 j2 * Dz i3 j3
     else Dr i1 j1 * Dt i2 j2 * Lz i3 j3)
  else 0.

(** get_d_Lambda_2_ijk, derham_sequence.py:301-337 *)
Definition get_d_Lambda_2 (i j k : nat) : F :=
  let: (j1, j2, j3) := qpoint j in
  let: (c, (i1, i2, i3)) := unravel_index s K2 i in
  if c == 0%N then (dr_m1 i1 j1 - dr_cur i1 j1) * Dt i2 j2 * Dz i3 j3
  else if c == 1%N then Dr i1 j1 * (dth_m1 i2 j2 - Dt i2 j2) * Dz i3 j3
  else Dr i1 j1 * Dt i2 j2 * (dz_m1 i3 j3 - Dz i3 j3).

(** get_Lambda_3_ijk, derham_sequence.py:339-354 *)
Definition get_Lambda_3 (i j k : nat) : F :=
  let: (j1, j2, j3) := qpoint j in
  let: (_, (i1, i2, i3)) := unravel_index s K3 i in
  Dr i1 j1 * Dt i2 j2 * Dz i3 j3.

End DeRham.

Section Assembly.
Variable F : realFieldType.

(** assemble(getter_1, getter_2, W, n1, n2), utils.py:139-187, with
    W.shape = (n_q, d, d): M[a,b] = sum_{j,k,m} g1[a,j,k] W[j,k,m] g2[b,j,m] *)
Definition assemble (nq d : nat) (g1 g2 : nat -> nat -> nat -> F)
    (W : nat -> nat -> nat -> F) (n1 n2 : nat) : 'M[F]_(n1, n2) :=
  \matrix_(a, b) \sum_(j < nq) \sum_(k < d) \sum_(m < d) g1 a j k * W j k m * g2 b j m.

(** evaluate_at_xq(getter, dofs, n_q, d), utils.py:190-228 *)
Definition evaluate_at_xq (n : nat) (g : nat -> nat -> nat -> F) (dofs : 'cV[F]_n) (j k : nat) : F :=
  \sum_(i < n) g i j k * dofs i 0.

(** integrate_against(getter, w_jk, n), utils.py:231-256 *)
Definition integrate_against (nq d : nat) (g : nat -> nat -> nat -> F) (w : nat -> nat -> F) (n : nat)
  : 'cV[F]_n := \col_i \sum_(j < nq) \sum_(k < d) g i j k * w j k.

(** jnp.linalg.solve(A, B) for an invertible A *)
(* derham_sequence.py:408-409, 423-424, 438-439, 452, 467, 483, 511, 525 *)
Definition solve (n m : nat) (A : 'M[F]_n) (B : 'M[F]_(n, m)) : 'M[F]_(n, m) := invmx A *m B.

End Assembly.

(** The DeRhamSequence object (derham_sequence.py:57-130): the shape of the spline
    spaces, the tables filled by evaluate_1d, the geometry at the quadrature
    points (metric, what inv33 returned for it, Jacobian determinant), the
    quadrature weights Q.w, and the extraction matrices E0..E3. *)
Record drseq (F : realFieldType) := Seq {
  sh : shape; tb : tables F;
  G_jkl : nat -> nat -> nat -> F; G_inv_jkl : nat -> nat -> nat -> F;
  J_j : nat -> F; w_j : nat -> F;
  rk : deg -> nat;
  E_ : forall k : deg, 'M[F]_(rk k, fdim sh k) }.

(** __init__, derham_sequence.py:57-113: choice of the extraction matrices.
    xi is the value of get_xi(ns[1]). *)
Definition DeRhamSequence (F : realFieldType) (sp : shape) (tbl : tables F)
    (G Ginv : nat -> nat -> nat -> F) (J w : nat -> F)
    (xi : nat -> nat -> nat -> F) (polar dirichlet : bool) : drseq F :=
  if polar
  then @Seq F sp tbl G Ginv J w (pdim sp dirichlet) (polar_matrix xi sp dirichlet)
  else let b := (if dirichlet then Dirichlet else NoBC, NoBC, NoBC) in
       @Seq F sp tbl G Ginv J w (bdim sp b) (boundary_matrix F sp b).

Section Sequence.
Variable F : realFieldType.
Variable S : drseq F.
Notation s := (sh S).
Notation T := (tb S).

Definition n_q : nat := (qx T * qy T * qz T)%N.

(** weights, derham_sequence.py:361, 371, 381, 391 *)
Definition W0 (j k m : nat) : F := J_j S j * w_j S j.
Definition W1 (j k m : nat) : F := G_inv_jkl S j k m * (J_j S j * w_j S j).
Definition W2 (j k m : nat) : F := G_jkl S j k m * ((J_j S j)^-1 * w_j S j).
Definition W3 (j k m : nat) : F := (J_j S j)^-1 * w_j S j.

Notation E0 := (E_ S K0).
Notation E1 := (E_ S K1).
Notation E2 := (E_ S K2).
Notation E3 := (E_ S K3).
Notation r0 := (rk S K0).
Notation r1 := (rk S K1).
Notation r2 := (rk S K2).
Notation r3 := (rk S K3).

(** assemble_M0 .. assemble_M3, derham_sequence.py:356-394 *)
Definition M0 : 'M[F]_r0 := E0 *m assemble n_q 1 (get_Lambda_0 s T) (get_Lambda_0 s T) W0 _ _ *m E0^T.
Definition M1 : 'M[F]_r1 := E1 *m assemble n_q 3 (get_Lambda_1 s T) (get_Lambda_1 s T) W1 _ _ *m E1^T.
Definition M2 : 'M[F]_r2 := E2 *m assemble n_q 3 (get_Lambda_2 s T) (get_Lambda_2 s T) W2 _ _ *m E2^T.
Definition M3 : 'M[F]_r3 := E3 *m assemble n_q 1 (get_Lambda_3 s T) (get_Lambda_3 s T) W3 _ _ *m E3^T.

(** assemble_d0, derham_sequence.py:396-409 *)
Definition D0 : 'M[F]_(r1, r0) := E1 *m assemble n_q 3 (get_Lambda_1 s T) (get_d_Lambda_0 s T) W1 _ _ *m E0^T.
Definition strong_grad : 'M[F]_(r1, r0) := solve M1 D0.
Definition weak_div : 'M[F]_(r0, r1) := - solve M0^T D0^T.

(** assemble_d1, derham_sequence.py:411-424 *)
Definition D1 : 'M[F]_(r2, r1) := E2 *m assemble n_q 3 (get_Lambda_2 s T) (get_d_Lambda_1 s T) W2 _ _ *m E1^T.
Definition strong_curl : 'M[F]_(r2, r1) := solve M2 D1.
Definition weak_curl : 'M[F]_(r1, r2) := solve M1^T D1^T.

(** assemble_d2, derham_sequence.py:426-439 *)
Definition D2 : 'M[F]_(r3, r2) := E3 *m assemble n_q 1 (get_Lambda_3 s T) (get_d_Lambda_2 s T) W3 _ _ *m E2^T.
Definition strong_div : 'M[F]_(r3, r2) := solve M3 D2.
Definition weak_grad : 'M[F]_(r2, r3) := - solve M2^T D2^T.

(** assemble_dd0 .. assemble_dd3, derham_sequence.py:441-496 *)
Definition dd0 : 'M[F]_r0 :=
  solve M0 (E0 *m assemble n_q 3 (get_d_Lambda_0 s T) (get_d_Lambda_0 s T) W1 _ _ *m E0^T).
Definition dd1 : 'M[F]_r1 :=
  solve M1 (E1 *m assemble n_q 3 (get_d_Lambda_1 s T) (get_d_Lambda_1 s T) W2 _ _ *m E1^T)
  - strong_grad *m weak_div.
Definition dd2 : 'M[F]_r2 :=
  solve M2 (E2 *m assemble n_q 1 (get_d_Lambda_2 s T) (get_d_Lambda_2 s T) W3 _ _ *m E2^T)
  + strong_curl *m weak_curl.
Definition dd3 : 'M[F]_r3 := - strong_div *m weak_grad.

(** assemble_P12, assemble_P03, derham_sequence.py:498-525 *)
Definition M12 : 'M[F]_(r1, r2) :=
  E1 *m assemble n_q 3 (get_Lambda_1 s T) (get_Lambda_2 s T) (fun j k m => w_j S j * (k == m)%:R) _ _ *m E2^T.
Definition P12 : 'M[F]_(r1, r2) := solve M1 M12.
Definition M03 : 'M[F]_(r0, r3) :=
  E0 *m assemble n_q 1 (get_Lambda_0 s T) (get_Lambda_3 s T) (fun j _ _ => w_j S j) _ _ *m E3^T.
Definition P03 : 'M[F]_(r0, r3) := solve M0 M03.

(** assemble_leray_projection, derham_sequence.py:560-566; pinv is the matrix
    returned by jnp.linalg.pinv(self.dd3). *)
Definition P_Leray (pinv : 'M[F]_r3) : 'M[F]_r2 := 1%:M + weak_grad *m pinv *m strong_div.

End Sequence.
Arguments P_Leray {F} S pinv.
