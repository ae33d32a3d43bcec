(** Matrix algebra of the de Rham sequence, independent of the spaces. *)
From Coq Require Import Ring Field.
From mathcomp Require Import all_ssreflect all_algebra.
From Verif Require Import Model.Forms Model.DeRham Proof.MCRing.
Set Implicit Arguments.
Unset Strict Implicit.
Unset Printing Implicit Defensive.
Import Order.TTheory GRing.Theory Num.Theory.
Local Open Scope ring_scope.

Section Asm.
Variable F : realFieldType.
Add Field Ff : (@mc_fth F).
Variables nq d : nat.
Implicit Type W : nat -> nat -> nat -> F.

(** value of the function with coefficients y (row vector) at point j, component k *)
Definition fval n (g : nat -> nat -> nat -> F) (y : 'rV[F]_n) (j k : nat) : F :=
  \sum_(x < n) y 0 x * g x j k.

Lemma fvalE n g (y : 'rV[F]_n) j k : fval g y j k = evaluate_at_xq g y^T j k.
Proof. by apply: eq_bigr => x _; rewrite mxE mulrC. Qed.

Lemma fval_mulmx m n g (y : 'rV[F]_m) (A : 'M[F]_(m, n)) j k :
  fval g (y *m A) j k = \sum_(r < m) y 0 r * fval g (row r A) j k.
Proof.
rewrite /fval; under eq_bigr => x _ do rewrite mxE mulr_suml.
rewrite exchange_big /=; apply: eq_bigr => r _; rewrite mulr_sumr.
by apply: eq_bigr => x _; rewrite mxE mulrA.
Qed.

Lemma assemble_row n1 n2 (g1 g2 : nat -> nat -> nat -> F) W (x : 'rV[F]_n1) (y : 'rV[F]_n2) :
  (x *m assemble nq d g1 g2 W n1 n2 *m y^T) 0 0
  = \sum_(j < nq) \sum_(k < d) \sum_(m < d) fval g1 x j k * W j k m * fval g2 y j m.
Proof.
have fv n g (z : 'rV[F]_n) j k : fval g z j k = \sum_(a < n) z 0 a * g a j k by [].
rewrite mxE.
transitivity (\sum_(b < n2) \sum_(a < n1) \sum_(j < nq) \sum_(k < d) \sum_(m < d)
   (x 0 a * g1 a j k) * W j k m * (y 0 b * g2 b j m)).
  apply: eq_bigr => b _; rewrite !mxE mulr_suml; apply: eq_bigr => a _; rewrite mxE.
  rewrite mulr_sumr mulr_suml; apply: eq_bigr => j _.
  rewrite mulr_sumr mulr_suml; apply: eq_bigr => k _.
  rewrite mulr_sumr mulr_suml; apply: eq_bigr => m _.
  by rewrite -!mulrA; congr (_ * (_ * (_ * _))); rewrite mulrC.
rewrite exchange_big /=; under eq_bigr => a _ do rewrite exchange_big /=.
rewrite exchange_big /=; apply: eq_bigr => j _.
under eq_bigr => a _ do rewrite exchange_big /=.
rewrite exchange_big /=; apply: eq_bigr => k _.
under eq_bigr => a _ do rewrite exchange_big /=.
rewrite exchange_big /=; apply: eq_bigr => m _.
rewrite fv 2!mulr_suml; apply: eq_bigr => a _.
by rewrite fv mulr_sumr.
Qed.

Lemma row_mx00 n1 n2 (A B : 'M[F]_(n1, n2)) :
  (forall (x : 'rV_n1) (y : 'rV_n2), (x *m A *m y^T) 0 0 = (x *m B *m y^T) 0 0) -> A = B.
Proof.
move=> H; apply/matrixP => i j.
have E (C : 'M[F]_(n1, n2)) : (delta_mx 0 i *m C *m (delta_mx 0 j)^T : 'M[F]_1) 0 0 = C i j.
  by rewrite -rowE trmx_delta -colE !mxE.
by rewrite -!E H.
Qed.

(** change of function basis on the right: if the E-rows of g2 are the P-rows of
    g2', the assembled matrices agree. *)
Lemma assemble_congr n1 n1' n2 n2' m1 m2 (g1 g1' g2 g2' : nat -> nat -> nat -> F) W
  (E1 : 'M[F]_(m1, n1)) (E1' : 'M[F]_(m1, n1')) (E2 : 'M[F]_(m2, n2)) (E2' : 'M[F]_(m2, n2')) :
  (forall r j k, (k < d)%N -> fval g1 (row r E1) j k = fval g1' (row r E1') j k) ->
  (forall r j k, (k < d)%N -> fval g2 (row r E2) j k = fval g2' (row r E2') j k) ->
  E1 *m assemble nq d g1 g2 W n1 n2 *m E2^T = E1' *m assemble nq d g1' g2' W n1' n2' *m E2'^T.
Proof.
move=> H1 H2; apply: row_mx00 => x y.
rewrite !mulmxA -(mulmxA _ E2^T y^T) -(mulmxA _ E2'^T y^T) -!trmx_mul !assemble_row.
apply: eq_bigr => j _; apply: eq_bigr => k _; apply: eq_bigr => m _.
congr (_ * _ * _).
- by rewrite !fval_mulmx; apply: eq_bigr => r _; rewrite H1.
- by rewrite !fval_mulmx; apply: eq_bigr => r _; rewrite H2.
Qed.

Lemma assemble_tr n1 n2 (g1 g2 : nat -> nat -> nat -> F) W :
  (assemble nq d g1 g2 W n1 n2)^T = assemble nq d g2 g1 (fun j k m => W j m k) n2 n1.
Proof.
apply/matrixP => a b; rewrite !mxE; apply: eq_bigr => j _.
rewrite exchange_big /=; apply: eq_bigr => k _; apply: eq_bigr => m _.
by mc_norm; ring.
Qed.

Lemma assemble_eqW n1 n2 (g1 g2 : nat -> nat -> nat -> F) W W' :
  (forall j k m, (j < nq)%N -> (k < d)%N -> (m < d)%N -> W j k m = W' j k m) ->
  assemble nq d g1 g2 W n1 n2 = assemble nq d g1 g2 W' n1 n2.
Proof.
move=> H; apply/matrixP => a b; rewrite !mxE; apply: eq_bigr => j _.
by apply: eq_bigr => k _; apply: eq_bigr => m _; rewrite H.
Qed.
End Asm.

(** *** symmetric positive semidefinite matrices *)
Section PSD.
Variable F : realFieldType.
Add Field Ff2 : (@mc_fth F).

Definition psd n (A : 'M[F]_n) : Prop := A^T = A /\ forall x : 'cV_n, 0 <= (x^T *m A *m x) 0 0.

Lemma mx11_tr (A : 'M[F]_1) : A^T = A.
Proof. by apply/matrixP => i j; rewrite mxE !ord1. Qed.

Lemma bil_sym n (A : 'M[F]_n) (x y : 'cV_n) : A^T = A -> (x^T *m A *m y) 0 0 = (y^T *m A *m x) 0 0.
Proof.
move=> HA; rewrite -[x^T *m A *m y]mx11_tr !trmx_mul trmxK HA mulmxA //.
Qed.

Definition bl n m (A : 'M[F]_(n, m)) (x : 'cV_n) (y : 'cV_m) : F := (x^T *m A *m y) 0 0.
Lemma blDl n m (A : 'M[F]_(n, m)) x x' y : bl A (x + x') y = bl A x y + bl A x' y.
Proof. by rewrite /bl linearD /= !mulmxDl mxE. Qed.
Lemma blDr n m (A : 'M[F]_(n, m)) x y y' : bl A x (y + y') = bl A x y + bl A x y'.
Proof. by rewrite /bl mulmxDr mxE. Qed.
Lemma blZl n m (A : 'M[F]_(n, m)) t x y : bl A (t *: x) y = t * bl A x y.
Proof. by rewrite /bl linearZ /= -!scalemxAl mxE. Qed.
Lemma blZr n m (A : 'M[F]_(n, m)) t x y : bl A x (t *: y) = t * bl A x y.
Proof. by rewrite /bl -scalemxAr mxE. Qed.
Lemma blC n (A : 'M[F]_n) x y : A^T = A -> bl A x y = bl A y x.
Proof. exact: bil_sym. Qed.
Lemma bl_mull n m p (A : 'M[F]_(n, m)) (B : 'M[F]_(n, p)) x y : bl A (B *m x) y = bl (B^T *m A) x y.
Proof. by rewrite /bl trmx_mul !mulmxA. Qed.
Lemma bl_mulr n m p (A : 'M[F]_(n, m)) (B : 'M[F]_(m, p)) x y : bl A x (B *m y) = bl (A *m B) x y.
Proof. by rewrite /bl !mulmxA. Qed.
Lemma blDA n m (A B : 'M[F]_(n, m)) x y : bl (A + B) x y = bl A x y + bl B x y.
Proof. by rewrite /bl mulmxDr mulmxDl mxE. Qed.
Lemma blNA n m (A : 'M[F]_(n, m)) x y : bl (- A) x y = - bl A x y.
Proof. by rewrite /bl mulmxN mulNmx mxE. Qed.

Lemma sqnorm n (y : 'cV[F]_n) : (y^T *m y) 0 0 = \sum_(i < n) y i 0 ^+ 2.
Proof. by rewrite mxE; apply: eq_bigr => i _; rewrite !mxE expr2. Qed.
Lemma sqnorm_eq0 n (y : 'cV[F]_n) : (y^T *m y) 0 0 = 0 -> y = 0.
Proof.
rewrite sqnorm => /eqP; rewrite psumr_eq0; last by move=> i _; apply: sqr_ge0.
move=> /allP H; apply/colP => i; rewrite mxE.
by have := H i (mem_index_enum i); rewrite /= sqrf_eq0 => /eqP.
Qed.

(** Cauchy-Schwarz consequence: a null vector of the form is in the kernel. *)
Lemma psd_null n (A : 'M[F]_n) (x : 'cV_n) : psd A -> bl A x x = 0 -> A *m x = 0.
Proof.
move=> [HA Hpos] Hx.
pose y := A *m x.
pose q := (y^T *m y) 0 0.
have Hq : bl A x y = q by rewrite /q /bl /y trmx_mul HA !mulmxA.
have Hq' : bl A y x = q by rewrite blC.
pose r := bl A y y.
have Hr : 0 <= r := Hpos y.
have H t : 0 <= t * (t * r) + 2%:R * t * q.
  have := Hpos (x + t *: y); rewrite -/(bl A _ _) blDl !blDr !blZl !blZr Hx Hq Hq' -/r.
  by have -> : 0 + t * q + (t * q + t * (t * r)) = t * (t * r) + 2%:R * t * q by mc_norm; ring.
have Hq0 : q = 0.
  apply/eqP; apply: contraT => Hqn.
  have Hr1 : 0 < r + 1 by apply: ltr_paddl => //; rewrite ?ltr01 ?ltr0n.
  have := H (- q / (r + 1)).
  have -> : - q / (r + 1) * (- q / (r + 1) * r) + 2%:R * (- q / (r + 1)) * q
          = - ((q / (r + 1)) ^+ 2 * (r + 2%:R)).
    have Hn : r + 1 <> 0 by apply/eqP; rewrite lt0r_neq0.
    by mc_norm; field; exact: Hn.
  rewrite oppr_ge0 leNgt => /negP [].
  rewrite mulr_gt0 //.
    by rewrite exprn_even_gt0 //= mulf_neq0 // invr_neq0 // lt0r_neq0.
  by apply: ltr_paddl => //; rewrite ?ltr01 ?ltr0n.
by apply: sqnorm_eq0.
Qed.
End PSD.
