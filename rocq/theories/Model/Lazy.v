(** Model of mrx/lazy_matrices.py and of grad, curl, div of mrx/utils.py, over the reals. *)
From Coq Require Import Reals.
From Coquelicot Require Import Coquelicot.
From mathcomp Require Import all_ssreflect all_algebra.
From Verif Require Import Model.RBase Model.Spline Model.Quad Model.Forms Model.DeRham Model.FormEval Model.Geometry.
From Verif Require Import Proof.RField.
Set Implicit Arguments.
Unset Strict Implicit.
Unset Printing Implicit Defensive.
Import GRing.Theory.
Local Open Scope ring_scope.

Notation vecR := (vec3 R_realFieldType).
Notation matR := (mat3 R_realFieldType).

(** jax.jacfwd(F)(x), entry (k, l): the derivative of component k in coordinate l.
    Automatic differentiation is idealised as the derivative (Coquelicot's [Derive], an
    arbitrary value where there is none). *)
(* used at lazy_matrices.py:191, 203, 223, 274, 291, 375, 416 and in utils.py:79-114 *)
Definition jac (F : point -> vecR) (x : point) : matR := fun k l =>
  let: (x0, x1, x2) := x in
  if l == 0%N then Derive (fun t => F (t, x1, x2) k) x0
  else if l == 1%N then Derive (fun t => F (x0, t, x2) k) x1
  else Derive (fun t => F (x0, x1, t) k) x2.

(** div, utils.py:70-82: trace(DF) * ones(1) *)
Definition div (F : point -> vecR) (x : point) : vecR := fun _ =>
  let DF := jac F x in DF 0%N 0%N + DF 1%N 1%N + DF 2%N 2%N.
(** curl, utils.py:85-99 *)
Definition curl (F : point -> vecR) (x : point) : vecR :=
  let DF := jac F x in
  arr3 (DF 2%N 1%N - DF 1%N 2%N) (DF 0%N 2%N - DF 2%N 0%N) (DF 1%N 0%N - DF 0%N 1%N).
(** grad, utils.py:102-114: ravel of the (1, 3) Jacobian *)
Definition grad (F : point -> vecR) (x : point) : vecR := fun l => jac F x 0%N l.

(** jnp.einsum("ijk,ljk,j,j->li", A, B, c, w), lazy_matrices.py:187 and below; i < n0, l < n1 *)
Definition einsum_li (nq d : nat) (A B : nat -> nat -> vecR) (c w : nat -> R) (n1 n0 : nat) : 'M[R]_(n1, n0) :=
  \matrix_(l, i) \sum_(j < nq) \sum_(k < d) A i j k * B l j k * c j * w j.

(** Arguments of a LazyMatrix (lazy_matrices.py:65-86): the rule Q, the Jacobian DFx of F; the
    forms Lambda_0, Lambda_1 are the arguments f, g below, n0 and n1 their numbers of basis
    functions, E0 and E1 the extraction matrices (E.matrix()). *)
Section Lazy.
Variables (Q : quadrule) (DFx : point -> matR).
Notation nq := (length (q_x Q)).
Definition xq (j : nat) : point := List.nth j (q_x Q) (R0, R0, R0).
Definition wq (j : nat) : R := List.nth j (q_w Q) R0.
(** Jj = vmap(jacobian_determinant(F))(Q.x) *)
(* lazy_matrices.py:174-187 and the other assemble methods *)
Definition Jq (j : nat) : R := det33 (DFx (xq j)).
(* lazy_matrices.py:203-221 (1 / Jj) *)
Definition inv_Jq (j : nat) : R := 1 / Jq j.

(** matrix(), lazy_matrices.py:88-99; E=None is the identity *)
Definition lazy_matrix (r0 n0 r1 n1 : nat) (E0 : 'M[R]_(r0, n0)) (E1 : 'M[R]_(r1, n1)) (A : 'M[R]_(n1, n0)) : 'M[R]_(r1, r0) :=
  E1 *m A *m E0^T.

(** LazyMassMatrix.assemble, lazy_matrices.py:167-231, by degree *)
Definition LazyMass_assemble (f : dform) (n : nat) : 'M[R]_n :=
  match f_k f with
  | K0 => let L i j := form_evaluate f (xq j) i in einsum_li nq 1 L L Jq wq n n
  | K1 => let L i j := mulv3 (tr33 (inv33 (DFx (xq j)))) (form_evaluate f (xq j) i) in einsum_li nq 3 L L Jq wq n n
  | K2 => let L i j := mulv3 (DFx (xq j)) (form_evaluate f (xq j) i) in einsum_li nq 3 L L inv_Jq wq n n
  | K3 => let L i j := form_evaluate f (xq j) i in einsum_li nq 1 L L inv_Jq wq n n
  | KV => let L i j := mulv3 (DFx (xq j)) (form_evaluate f (xq j) i) in einsum_li nq 3 L L Jq wq n n
  end.
Definition LazyMassMatrix (f : dform) (r n : nat) (E : 'M[R]_(r, n)) : 'M[R]_r :=
  lazy_matrix E E (LazyMass_assemble f n).

(** the integrands of LazyDerivativeMatrix, lazy_matrices.py:272-317 *)
Definition dL0 (f : dform) (i j : nat) : vecR := mulv3 (tr33 (inv33 (DFx (xq j)))) (grad (fun y => form_evaluate f y i) (xq j)).
Definition dL1 (f : dform) (i j : nat) : vecR := mulv3 (DFx (xq j)) (curl (fun y => form_evaluate f y i) (xq j)).
Definition dL2 (f : dform) (i j : nat) : vecR := div (fun y => form_evaluate f y i) (xq j).
(** assemble, lazy_matrices.py:259-317, for Lambda_1 one degree above Lambda_0.  None: for a
    3-form the zeros((n0, n1)) of line 270 do not multiply with E1 of shape (_, n1) and E0.T of
    shape (n0, _) unless n0 = n1; other pairs of degrees are not modelled. *)
Definition LazyDerivativeMatrix (f g : dform) (r0 n0 r1 n1 : nat) (E0 : 'M[R]_(r0, n0)) (E1 : 'M[R]_(r1, n1)) : option 'M[R]_(r1, r0) :=
  match f_k f, f_k g with
  | K0, K1 => Some (lazy_matrix E0 E1 (einsum_li nq 3 (dL0 f)
                (fun i j => mulv3 (tr33 (inv33 (DFx (xq j)))) (form_evaluate g (xq j) i)) Jq wq n1 n0))
  | K1, K2 => Some (lazy_matrix E0 E1 (einsum_li nq 3 (dL1 f)
                (fun i j => mulv3 (DFx (xq j)) (form_evaluate g (xq j) i)) inv_Jq wq n1 n0))
  | K2, K3 => Some (lazy_matrix E0 E1 (einsum_li nq 1 (dL2 f) (fun i j => form_evaluate g (xq j) i) inv_Jq wq n1 n0))
  | K3, _ => if n0 == n1 then Some 0 else None
  | _, _ => None
  end.

(** LazyProjectionMatrix.assemble, lazy_matrices.py:335-342: no metric, "ijk,ljk,j->li";
    d components *)
Definition LazyProjectionMatrix (d : nat) (f g : dform) (r0 n0 r1 n1 : nat) (E0 : 'M[R]_(r0, n0)) (E1 : 'M[R]_(r1, n1)) : 'M[R]_(r1, r0) :=
  lazy_matrix E0 E1 (einsum_li nq d (fun i j => form_evaluate f (xq j) i) (fun i j => form_evaluate g (xq j) i) (fun _ => 1) wq n1 n0).

(** LazyDoubleCurlMatrix, lazy_matrices.py:345-383; LazyStiffnessMatrix, 386-424;
    LazyDoubleDivergenceMatrix, 427-463 *)
Definition LazyDoubleCurlMatrix (f : dform) (r n : nat) (E : 'M[R]_(r, n)) : 'M[R]_r :=
  lazy_matrix E E (einsum_li nq 3 (dL1 f) (dL1 f) inv_Jq wq n n).
Definition LazyStiffnessMatrix (f : dform) (r n : nat) (E : 'M[R]_(r, n)) : 'M[R]_r :=
  lazy_matrix E E (einsum_li nq 3 (dL0 f) (dL0 f) Jq wq n n).
Definition LazyDoubleDivergenceMatrix (f : dform) (r n : nat) (E : 'M[R]_(r, n)) : 'M[R]_r :=
  lazy_matrix E E (einsum_li nq 1 (dL2 f) (dL2 f) inv_Jq wq n n).
End Lazy.
