(** The pseudo-inverse solution is the least-squares solution of least norm. *)
From mathcomp Require Import all_ssreflect all_algebra.
From Verif Require Import Model.Forms Model.DeRham Model.Gvec Proof.MassSPD.
Set Implicit Arguments.
Unset Strict Implicit.
Unset Printing Implicit Defensive.
Import Order.TTheory GRing.Theory Num.Theory.
Local Open Scope ring_scope.

Section LS.
Variable F : realFieldType.
Definition sq n (u : 'cV[F]_n) : F := \sum_i u i ord0 ^+ 2.

Lemma sq_ge0 n (u : 'cV[F]_n) : 0 <= sq u.
Proof. by apply: sumr_ge0 => i _; apply: sqr_ge0. Qed.
Lemma sq_eq0 n (u : 'cV[F]_n) : sq u = 0 -> u = 0.
Proof.
move/eqP; rewrite psumr_eq0; last by move=> i _; apply: sqr_ge0.
move/allP => H; apply/colP => i; rewrite mxE; apply/eqP.
by have := H i (mem_index_enum _); rewrite /= sqrf_eq0.
Qed.
Lemma sq0 n : sq (0 : 'cV[F]_n) = 0.
Proof. by rewrite /sq big1 // => i _; rewrite mxE expr0n. Qed.
Lemma dotE n (u v : 'cV[F]_n) : (u^T *m v) ord0 ord0 = \sum_i u i ord0 * v i ord0.
Proof. by rewrite mxE; apply: eq_bigr => i _; rewrite mxE. Qed.
Lemma sqE n (u : 'cV[F]_n) : sq u = (u^T *m u) ord0 ord0.
Proof. by rewrite dotE; apply: eq_bigr => i _; rewrite expr2. Qed.
Lemma sqD n (u v : 'cV[F]_n) : u^T *m v = 0 -> sq (u + v) = sq u + sq v.
Proof.
move=> H; have E : \sum_i u i ord0 * v i ord0 = 0 by rewrite -dotE H mxE.
have -> : sq (u + v) = sq u + sq v + (\sum_i u i ord0 * v i ord0) *+ 2.
  rewrite /sq -!big_split /= -sumrMnl -big_split /=; apply: eq_bigr => i _; by rewrite mxE sqrrD addrAC.
by rewrite E mul0rn addr0.
Qed.

Lemma gram_unit m n (C : 'M[F]_(m, n)) : row_full C -> C^T *m C \in unitmx.
Proof.
move=> HC; apply: unit_ker => x Hx.
apply: (row_full_inj HC); rewrite mulmx0; apply: sq_eq0.
by rewrite sqE trmx_mul -mulmxA (mulmxA C^T) Hx mulmx0 mxE.
Qed.

Lemma base_cancel m n r (C : 'M[F]_(m, r)) (R : 'M[F]_(r, n)) P Q (b : 'cV[F]_m) : R *m R^T *m P = 1%:M ->
  C *m R *m (R^T *m P *m Q *m C^T *m b) = C *m (Q *m (C^T *m b)).
Proof. by move=> H; rewrite !mulmxA -(mulmxA C R) -(mulmxA C _ P) H mulmx1. Qed.

Variables (m n : nat) (A : 'M[F]_(m, n)) (b : 'cV[F]_m).
Let C := col_base A.
Let R := row_base A.
Lemma baseE : C *m R = A. Proof. exact: mulmx_base. Qed.
Lemma CU : C^T *m C \in unitmx. Proof. by apply: gram_unit; apply: col_base_full. Qed.
Lemma RU : R *m R^T \in unitmx.
Proof.
rewrite -{1}[R]trmxK; apply: gram_unit.
by rewrite /row_full mxrank_tr; exact: row_base_free.
Qed.
Lemma lstsq_normal : A^T *m (A *m lstsq A b) = A^T *m b.
Proof.
rewrite /lstsq /pinv -/C -/R.
have -> : A *m (R^T *m invmx (R *m R^T) *m invmx (C^T *m C) *m C^T *m b) = C *m (invmx (C^T *m C) *m (C^T *m b)).
  by rewrite -[X in X *m _]baseE; apply: base_cancel; exact: (mulmxV RU).
have ET (X : 'cV_m) : A^T *m X = R^T *m (C^T *m X) by rewrite mulmxA -trmx_mul baseE.
by rewrite !ET (mulmxA C^T C) (mulmxA (C^T *m C)) (mulmxV CU) mul1mx.
Qed.
Lemma lstsq_row : exists w, lstsq A b = R^T *m w.
Proof. by exists (invmx (R *m R^T) *m invmx (C^T *m C) *m C^T *m b); rewrite /lstsq /pinv !mulmxA. Qed.

Lemma lstsq_pyth y : sq (A *m y - b) = sq (A *m lstsq A b - b) + sq (A *m (y - lstsq A b)).
Proof.
have -> : A *m y - b = (A *m lstsq A b - b) + A *m (y - lstsq A b).
  by rewrite mulmxBr [RHS]addrC addrA subrK.
have E : (A *m lstsq A b - b)^T *m A = 0.
  by apply: trmx_inj; rewrite trmx_mul trmxK mulmxBr lstsq_normal subrr trmx0.
by rewrite sqD // mulmxA E mul0mx.
Qed.
Lemma lstsq_min y : sq (A *m lstsq A b - b) <= sq (A *m y - b).
Proof. by rewrite (lstsq_pyth y) ler_addl sq_ge0. Qed.
Lemma lstsq_eq y : sq (A *m y - b) <= sq (A *m lstsq A b - b) -> A *m y = A *m lstsq A b.
Proof.
rewrite (lstsq_pyth y) ger_addl => H.
have /sq_eq0 : sq (A *m (y - lstsq A b)) = 0 by apply/eqP; rewrite eq_le H sq_ge0.
by move/eqP; rewrite mulmxBr subr_eq0 => /eqP.
Qed.
Lemma lstsq_norm y : sq (A *m y - b) <= sq (A *m lstsq A b - b) ->
  sq y = sq (lstsq A b) + sq (y - lstsq A b).
Proof.
move=> /lstsq_eq H.
have HR : R *m (y - lstsq A b) = 0.
  have HA : C *m (R *m (y - lstsq A b)) = C *m 0 by rewrite mulmxA baseE mulmxBr H subrr mulmx0.
  exact: (row_full_inj (col_base_full A) HA).
rewrite -sqD; first by rewrite addrC addrNK.
have [w E] := lstsq_row; rewrite {1}E trmx_mul trmxK.
by rewrite -(mulmxA w^T R) HR mulmx0.
Qed.
End LS.
