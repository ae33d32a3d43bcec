(** Model of the 3x3 helpers of mrx/utils.py, of Pushforward / Pullback
    (mrx/differential_forms.py), of Projector (mrx/projectors.py) and of
    CrossProductProjection (mrx/nonlinearities.py), over a real field. *)
From mathcomp Require Import all_ssreflect all_algebra.
From Verif Require Import Model.Forms Model.DeRham.
Set Implicit Arguments.
Unset Strict Implicit.
Unset Printing Implicit Defensive.
Import GRing.Theory Num.Theory.
Local Open Scope ring_scope.

Section Geometry.
Variable F : realFieldType.

(** arrays of shape (3,) and (3,3), as built by jnp.array([...]) in utils.py:60-69 *)
Definition vec3 := nat -> F.
Definition mat3 := nat -> nat -> F.
Definition arr3 (a b c : F) : vec3 := fun k => if k == 0%N then a else if k == 1%N then b else c.
Definition arr33 (r0 r1 r2 : vec3) : mat3 := fun k => if k == 0%N then r0 else if k == 1%N then r1 else r2.
(** A.T, A @ B, A @ v (jnp), used in projectors.py:84-119, derham_sequence.py:76-82 *)
Definition tr33 (A : mat3) : mat3 := fun k l => A l k.
Definition mul33 (A B : mat3) : mat3 := fun k l => \sum_(m < 3) A k m * B m l.
Definition mulv3 (A : mat3) (v : vec3) : vec3 := fun k => \sum_(m < 3) A k m * v m.

(** inv33, utils.py:42-70 *)
Definition inv33 (m : mat3) : mat3 :=
  let m1 := m 0%N 0%N in let m2 := m 0%N 1%N in let m3 := m 0%N 2%N in
  let m4 := m 1%N 0%N in let m5 := m 1%N 1%N in let m6 := m 1%N 2%N in
  let m7 := m 2%N 0%N in let m8 := m 2%N 1%N in let m9 := m 2%N 2%N in
  let det := m1 * (m5 * m9 - m6 * m8) + m4 * (m8 * m3 - m2 * m9) + m7 * (m2 * m6 - m3 * m5) in
  if `|det| < (10%:R ^+ 10)^-1 then fun _ _ => 0
  else fun k l => arr33
    (arr3 (m5 * m9 - m6 * m8) (m3 * m8 - m2 * m9) (m2 * m6 - m3 * m5))
    (arr3 (m6 * m7 - m4 * m9) (m1 * m9 - m3 * m7) (m3 * m4 - m1 * m6))
    (arr3 (m4 * m8 - m5 * m7) (m2 * m7 - m1 * m8) (m1 * m5 - m2 * m4)) k l / det.

(** jnp.linalg.det on (3,3) arrays: the explicit 3x3 formula (jax numpy/linalg.py, _det_3x3) *)
Definition det33 (a : mat3) : F :=
  a 0%N 0%N * a 1%N 1%N * a 2%N 2%N + a 0%N 1%N * a 1%N 2%N * a 2%N 0%N + a 0%N 2%N * a 1%N 0%N * a 2%N 1%N
  - a 0%N 2%N * a 1%N 1%N * a 2%N 0%N - a 0%N 0%N * a 1%N 2%N * a 2%N 1%N - a 0%N 1%N * a 1%N 0%N * a 2%N 2%N.

(** Pushforward.__call__, differential_forms.py:415-447, at one point: DF is
    jax.jacfwd(F)(x), v is f(x).  Scalars are entry 0. *)
Definition pushforward (k : deg) (DF : mat3) (v : vec3) : vec3 :=
  match k with
  | K0 => v
  | K1 => mulv3 (tr33 (inv33 DF)) v
  | K2 => fun a => mulv3 DF v a / det33 DF
  | K3 => fun a => v a / det33 DF
  | KV => mulv3 DF v
  end.
(** Pullback.__call__, differential_forms.py:466-494, at one point: v is f(F(x)). *)
Definition pullback (k : deg) (DF : mat3) (v : vec3) : vec3 :=
  match k with
  | K0 => v
  | K1 => mulv3 (tr33 DF) v
  | K2 => fun a => mulv3 (inv33 DF) v a * det33 DF
  | K3 => fun a => v a * det33 DF
  | KV => mulv3 (inv33 DF) v
  end.

(** jnp.cross(u, v), used in nonlinearities.py:99-131 *)
Definition cross (u v : vec3) : vec3 :=
  arr3 (u 1%N * v 2%N - u 2%N * v 1%N) (u 2%N * v 0%N - u 0%N * v 2%N) (u 0%N * v 1%N - u 1%N * v 0%N).

(** DeRhamSequence.__init__, derham_sequence.py:76-82: the geometry arrays from the
    Jacobian matrices DF j = jax.jacfwd(F)(Q.x[j]) *)
Definition metric (DF : mat3) : mat3 := mul33 (tr33 DF) DF.

Variables (S : drseq F) (DF : nat -> mat3).
Notation s := (sh S).
Notation T := (tb S).

(** Projector.__call__, projectors.py:68-139, for the form degrees 0..3;
    f j is the value of the function at Q.x[j] (physical frame) *)
Definition zeroform_projection (f : nat -> vec3) : 'cV[F]_(fdim s K0) :=
  integrate_against (n_q S) 1 (get_Lambda_0 s T) (fun j k => f j k * (w_j S j * J_j S j)) _.
Definition oneform_projection (v : nat -> vec3) : 'cV[F]_(fdim s K1) :=
  integrate_against (n_q S) 3 (get_Lambda_1 s T) (fun j k => mulv3 (inv33 (DF j)) (v j) k * (w_j S j * J_j S j)) _.
Definition twoform_projection (v : nat -> vec3) : 'cV[F]_(fdim s K2) :=
  integrate_against (n_q S) 3 (get_Lambda_2 s T) (fun j k => mulv3 (tr33 (DF j)) (v j) k * w_j S j) _.
Definition threeform_projection (f : nat -> vec3) : 'cV[F]_(fdim s K3) :=
  integrate_against (n_q S) 1 (get_Lambda_3 s T) (fun j k => f j k * w_j S j) _.
Definition Projector0 f : 'cV[F]_(rk S K0) := E_ S K0 *m zeroform_projection f.
Definition Projector1 f : 'cV[F]_(rk S K1) := E_ S K1 *m oneform_projection f.
Definition Projector2 f : 'cV[F]_(rk S K2) := E_ S K2 *m twoform_projection f.
Definition Projector3 f : 'cV[F]_(rk S K3) := E_ S K3 *m threeform_projection f.

(** Projector.__call__, projectors.py:47-66; any other k falls through and returns None *)
Definition Projector (k : deg) (f : nat -> vec3) : option 'cV[F]_(rk S k) :=
  match k with
  | K0 => Some (Projector0 f) | K1 => Some (Projector1 f)
  | K2 => Some (Projector2 f) | K3 => Some (Projector3 f) | KV => None end.

(** CrossProductProjection.__init__, nonlinearities.py:28-61: the getters; only degrees 1
    and 2 are accepted (others raise ValueError, see cross_integrand) *)
Definition get_12 (d : deg) : nat -> nat -> nat -> F :=
  match d with K1 => get_Lambda_1 s T | K2 => get_Lambda_2 s T | _ => fun _ _ _ => 0 end.
(** jnp.einsum('jkl,jk->jl', A, v) at one j *)
(* nonlinearities.py:101, 111, 115, 121, 126 *)
Definition einsum_kl_k (A : mat3) (v : vec3) : vec3 := fun l => \sum_(k < 3) A k l * v k.
(** f_jk of projection, nonlinearities.py:96-134; None: a ValueError is raised, here or
    in __init__ *)
Definition cross_integrand (n m k : deg) (w u : nat -> vec3) : option (nat -> vec3) :=
  match n, m, k with
  | K1, K2, K1 => Some (fun j a => cross (einsum_kl_k (G_jkl S j) (w j)) (u j) a * (w_j S j / J_j S j))
  | K1, K1, K1 => Some (fun j a => cross (w j) (u j) a * w_j S j)
  | K2, K1, K1 => Some (fun j a => einsum_kl_k (G_jkl S j) (cross (w j) (u j)) a * (w_j S j / J_j S j))
  | K2, K2, K1 => Some (fun j a => cross (w j) (einsum_kl_k (G_inv_jkl S j) (u j)) a * w_j S j)
  | K1, K2, K2 => Some (fun j a => einsum_kl_k (G_inv_jkl S j) (cross (w j) (u j)) a * w_j S j)
  | K2, K1, K2 => Some (fun j a => cross (einsum_kl_k (G_inv_jkl S j) (w j)) (u j) a * w_j S j)
  | K2, K2, K2 => Some (fun j a => cross (w j) (u j) a * (w_j S j / J_j S j))
  | _, _, _ => None
  end.
(** __call__ and projection, nonlinearities.py:63-135 *)
Definition CrossProductProjection (n m k : deg)
    (w : 'cV[F]_(rk S m)) (u : 'cV[F]_(rk S k)) : option 'cV[F]_(rk S n) :=
  let w_jk := evaluate_at_xq (get_12 m) ((E_ S m)^T *m w) in
  let u_jk := evaluate_at_xq (get_12 k) ((E_ S k)^T *m u) in
  match cross_integrand n m k w_jk u_jk with
  | Some f => Some (E_ S n *m integrate_against (n_q S) 3 (get_12 n) f _)
  | None => None
  end.

(** l2_product(f, g, Q, F), utils.py:119-136 (d components) *)
Definition l2_product (d : nat) (f g : nat -> vec3) : F :=
  \sum_(j < n_q S) \sum_(k < d) f j k * g j k * det33 (DF j) * w_j S j.
End Geometry.
