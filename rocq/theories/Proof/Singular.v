(** Degrees of freedom of a non-polar sequence that the field values do not see. *)
From Coq Require Import Reals.
From mathcomp Require Import all_ssreflect all_algebra zify.
From Verif Require Import Model.Forms Model.DeRham Spec.FreeDofs Spec.GeomSpec Proof.IndexLemmas Proof.Incidence Proof.BoundarySel Proof.DeRhamAlg Proof.MassSPD.
Set Implicit Arguments.
Unset Strict Implicit.
Unset Printing Implicit Defensive.
Import Order.TTheory GRing.Theory Num.Theory.
Local Open Scope ring_scope.

Section Realise.
Variables (F : realFieldType) (s : shape) (b : bc * bc * bc) (k : deg) (c N : nat) (t : 'I_N -> triple) (u : 'I_N -> F).
Hypothesis Hk : k <> KV.
Hypothesis Hc : (c < ncomp k)%N.
Hypothesis Hin : forall i, in_comp s k c (t i).
Hypothesis Hfree : forall i, free_dof s b k c (t i).
Hypothesis Hinj : injective t.
Hypothesis Hu : exists i, u i != 0.

Definition pos (i : 'I_N) : nat := let: (a, e, l) := t i in ravel_index s k c a e l.
Lemma pos_lt i : (pos i < fdim s k)%N.
Proof. by have := Hin i; rewrite /pos; case: (t i) => [[a e] l] H; apply: ravel_index_lt. Qed.
Lemma pos_un i : unravel_index s k (pos i) = (c, t i).
Proof. by have := Hin i; rewrite /pos; case: (t i) => [[a e] l] H; apply: unravel_ravel_index. Qed.
Lemma pos_inj : injective pos.
Proof. by move=> i j E; apply: Hinj; have := pos_un i; rewrite E pos_un => -[->]. Qed.

Let w : 'rV[F]_(fdim s k) := \row_x \sum_(i < N) (if val x == pos i then u i else 0).

Lemma w_sum (h : nat -> F) : \sum_(x < fdim s k) h x * w 0 x = \sum_(i < N) h (pos i) * u i.
Proof.
under eq_bigr => x _ do rewrite mxE mulr_sumr.
rewrite exchange_big /=; apply: eq_bigr => i _.
rewrite (bigD1 (Ordinal (pos_lt i))) //= eqxx big1 ?addr0 // => x /eqP Hx.
by case: eqP => E; rewrite ?mulr0 //; case: Hx; apply: val_inj.
Qed.

Lemma realise : exists2 x : 'cV[F]_(bdim s b k), x != 0 &
  forall h : nat -> F, \sum_(a < fdim s k) h a * ((boundary_matrix F s b k)^T *m x) a 0 = \sum_(i < N) h (pos i) * u i.
Proof.
have Ew : w = w *m (boundary_matrix F s b k)^T *m boundary_matrix F s b k.
  apply: (boundary_span Hk) => x Hx; rewrite mxE big1 // => i _; case: eqP => // E.
  by move: Hx; rewrite E pos_un Hfree.
exists (w *m (boundary_matrix F s b k)^T)^T.
  apply/negP => /eqP E; have E0 : w *m (boundary_matrix F s b k)^T = 0 by apply: trmx_inj; rewrite trmx0.
  have [i Hi] := Hu; have := w_sum (fun x => (x == pos i)%:R).
  rewrite Ew E0 mul0mx (eq_bigr (fun _ => 0)); last by move=> x _; rewrite mxE mulr0.
  rewrite big1_eq (bigD1 i) //= eqxx mul1r big1 ?addr0; first by move=> E1; rewrite -E1 eqxx in Hi.
  by move=> j Hj; case: eqP => [/pos_inj Ej|_] /=; [rewrite Ej eqxx in Hj | rewrite mul0r].
move=> h; rewrite -w_sum; apply: eq_bigr => x _; congr (_ * _).
by rewrite -trmx_mul -Ew mxE.
Qed.
End Realise.

Section Null.
Variables (F : realFieldType) (S : drseq F).
(** values that vanish at the quadrature points are annihilated by the mass matrix *)
Lemma null_gen nq d n r (g W : nat -> nat -> nat -> F) (E : 'M[F]_(r, n)) (x : 'cV[F]_r) :
  (forall j m, (j < nq)%N -> (m < d)%N -> evaluate_at_xq g (E^T *m x) j m = 0) ->
  E *m assemble nq d g g W n n *m E^T *m x = 0.
Proof.
move=> H; rewrite -!mulmxA; set v := E^T *m x in H *.
suff -> : assemble nq d g g W n n *m v = 0 by rewrite mulmx0.
apply/colP => a; rewrite !mxE; under eq_bigr => e _ do rewrite mxE mulr_suml.
rewrite exchange_big big1 //= => j _; under eq_bigr => e _ do rewrite mulr_suml.
rewrite exchange_big big1 //= => l _; under eq_bigr => e _ do rewrite mulr_suml.
rewrite exchange_big big1 //= => m _; under eq_bigr => e _ do rewrite -mulrA.
by rewrite -mulr_sumr; have := H j m (ltn_ord j) (ltn_ord m); rewrite /evaluate_at_xq => ->; rewrite mulr0.
Qed.
Lemma null_mass k (x : 'cV[F]_(rk S k)) : k <> KV ->
  (forall j m, (j < n_q S)%N -> (m < dcomp k)%N -> form_value x j m = 0) -> mass S k *m x = 0.
Proof. by case: k x => x Hk H //; apply: null_gen. Qed.
End Null.
