(** Matrix facts for C62: the number of zero eigenvalues, the truncated inverse, the deflation and
    the generalised eigensolver. *)
From mathcomp Require Import all_ssreflect all_algebra.
From Verif Require Import Model.Forms Model.DeRham Model.Eigen Spec.SeqSpec Spec.RelaxSpec Spec.SpectrumSpec Proof.RelaxAlg.
Set Implicit Arguments.
Unset Strict Implicit.
Unset Printing Implicit Defensive.
Import Order.TTheory GRing.Theory Num.Theory.
Local Open Scope ring_scope.

Section Mat.
Variable F : realFieldType.

Lemma rank_diag n (d : 'rV[F]_n) : \rank (diag_mx d) = (\sum_i nat_of_bool (d 0%R i != 0%R))%N.
Proof.
elim: n d => [|n IH] d; first by rewrite big_ord0; apply/eqP; rewrite -leqn0 rank_leq_row.
rewrite -[d](hsubmxK (n1 := 1)); move: (lsubmx _) (rsubmx _) => a b.
have -> : (\sum_i (row_mx a b 0%R i != 0%R) = (a 0%R 0%R != 0%R) + \sum_i (b 0%R i != 0%R))%N.
  rewrite (@big_split_ord _ _ _ 1 n) /= big_ord1 row_mxEl; congr (_ + _)%N.
  by apply: eq_bigr => i _; rewrite row_mxEr.
rewrite -IH (_ : diag_mx (row_mx a b) = block_mx (diag_mx a) 0 0 (diag_mx b)); last exact: (diag_mx_row a b).
rewrite (@rank_diag_block_mx _ 1 1 n n); congr (_ + _)%N.
have -> : diag_mx a = (a 0 0)%:M by apply/matrixP => i j; rewrite !mxE !ord1 eqxx.
case: (altP (a 0 0 =P 0)) => [->|H] /=; first by rewrite raddf0 mxrank0.
by apply: mxrank_unit; rewrite unitmxE det_scalar unitfE expf_neq0.
Qed.
Lemma count_zero n (d : 'rV[F]_n) : (\rank (diag_mx d) + #|[pred i | d 0%R i == 0%R]|)%N = n.
Proof.
rewrite rank_diag -sum1_card [X in (_ + X)%N]big_mkcond -big_split /=.
rewrite (eq_bigr (fun _ => 1%N)) ?sum1_card ?card_ord // => i _; rewrite inE.
by case: eqP.
Qed.
Lemma cong_rank n (A V : 'M[F]_n) (d : 'rV[F]_n) : V \in unitmx -> V^T *m A *m V = diag_mx d ->
  (\rank A + #|[pred i | d 0%R i == 0%R]|)%N = n.
Proof.
move=> HV E; have HT : V^T \in unitmx by rewrite unitmx_tr.
rewrite -[RHS](count_zero d) -E; congr (_ + _)%N.
by rewrite mxrankMfree ?row_free_unit // -[RHS]mxrank_tr trmx_mul mxrankMfree ?trmxK ?row_free_unit // mxrank_tr.
Qed.
Lemma cong_unit n (B V : 'M[F]_n) : V^T *m B *m V = 1%:M -> V \in unitmx.
Proof. by case/mulmx1_unit. Qed.
Lemma cong_eigen n (A B V : 'M[F]_n) (d : 'rV[F]_n) : V^T *m B *m V = 1%:M -> V^T *m A *m V = diag_mx d ->
  A *m V = B *m V *m diag_mx d.
Proof.
move=> E1 E2; have HV := cong_unit E1; have HT : V^T \in unitmx by rewrite unitmx_tr.
apply: (can_inj (mulKmx HT)); rewrite !mulmxA E2 [X in X *m _](_ : _ = 1%:M) ?mul1mx //.
Qed.
Lemma cong_diag n (A V : 'M[F]_n) (d : 'rV[F]_n) i : V^T *m A *m V = diag_mx d -> form A (col i V) (col i V) = d 0 i.
Proof.
move=> E; have := congr1 (fun X : 'M_n => X i i) E; rewrite [RHS]mxE eqxx mulr1n => <-.
rewrite /form -!mulmxA mxE [RHS]mxE; apply: eq_bigr => j _; rewrite !mxE; congr (_ * _).
by apply: eq_bigr => k _; rewrite !mxE.
Qed.

(** *** the truncated inverse *)
Section Pinv.
Variable n : nat.
Variables (A V : 'M[F]_n) (d : 'rV[F]_n) (tol : F).
Hypothesis HE : eigh_value A d V.
Hypothesis Htol : 0 <= tol.
Let VV : V *m V^T = 1%:M. Proof. by apply: mulmx1C; case: HE. Qed.
Let AE : A = V *m diag_mx d *m V^T. Proof. by case: HE => _ <-; rewrite -mulmxA VV mulmx1. Qed.
Notation inv := (spectral_pinv V d tol).
Lemma eigh_sym : A^T = A. Proof. by rewrite AE !trmx_mul trmxK tr_diag_mx mulmxA. Qed.
Lemma pinv_mul : A *m inv = V *m diag_mx (\row_i (tol < `|d 0 i|)%R%:R) *m V^T.
Proof.
rewrite {1}AE /spectral_pinv; have [e Ee] : exists e : 'rV_n, e = \row_i (if tol < `|d 0 i| then (d 0 i)^-1 else 0) by eexists.
rewrite -Ee.
have -> : V *m diag_mx d *m V^T *m (V *m diag_mx e *m V^T) = V *m diag_mx d *m (V^T *m V) *m diag_mx e *m V^T by rewrite !mulmxA.
rewrite (proj1 HE) mulmx1 -[V *m _ *m _]mulmxA mulmx_diag; congr (_ *m diag_mx _ *m _).
apply/rowP => i; rewrite Ee !mxE; case: ifP => H /=; last by rewrite mulr0.
by rewrite mulfV // -normr_gt0; apply: le_lt_trans H.
Qed.
(** the computed solution is orthogonal to the kernel *)
Lemma pinv_orth (h f : 'cV[F]_n) : A *m h = 0 -> (h^T *m (inv *m f)) 0 0 = 0.
Proof.
move=> Hh; have E i : d 0 i * (V^T *m h) i 0 = 0.
  have : diag_mx d *m (V^T *m h) = 0.
    by rewrite -[LHS]mul1mx -(proj1 HE) -mulmxA (mulmxA V) (mulmxA (V *m _)) -AE Hh mulmx0.
  by move/matrixP/(_ i 0); rewrite mul_diag_mx mxE => ->; rewrite mxE.
have -> : h^T *m (inv *m f) = (diag_mx (\row_i (if tol < `|d 0 i| then (d 0 i)^-1 else 0)) *m (V^T *m h))^T *m (V^T *m f).
  by rewrite /spectral_pinv !trmx_mul trmxK tr_diag_mx !mulmxA.
rewrite mxE big1 // => i _; rewrite mxE mul_diag_mx mxE [X in X * _ * _]mxE.
case: ifP => [Hi|_]; last by rewrite !mul0r.
have Hd : d 0 i != 0 by rewrite -normr_gt0; apply: le_lt_trans Hi.
have := E i; move/eqP; rewrite mulf_eq0 (negbTE Hd) /= => /eqP ->.
by rewrite mulr0 mul0r.
Qed.
(** the residual of the computed solution is the part of f along the discarded eigenvectors *)
Lemma pinv_residual (f : 'cV[F]_n) : f - A *m (inv *m f) = V *m diag_mx (\row_i (~~ (tol < `|d 0 i|))%R%:R) *m (V^T *m f).
Proof.
rewrite mulmxA pinv_mul -[X in X - _]mul1mx -mulmxBl mulmxA; congr (_ *m _).
have -> : (1%:M : 'M_n) = V *m diag_mx (const_mx 1) *m V^T by rewrite diag_const_mx mulmx1 VV.
rewrite -mulmxBl -mulmxBr -(raddfB (diag_mx_additive F n)) /=; congr (_ *m diag_mx _ *m _).
by apply/rowP => i; rewrite !mxE; case: (tol < _); rewrite /= ?subr0 ?subrr.
Qed.
Lemma pinv_solves (f : 'cV[F]_n) : A *m (inv *m f) = f <-> (forall i, `|d 0 i| <= tol -> ((col i V)^T *m f) 0 0 = 0).
Proof.
have E : A *m (inv *m f) = f <-> f - A *m (inv *m f) = 0.
  by split=> [->|/eqP]; rewrite ?subrr // subr_eq0 => /eqP.
rewrite E pinv_residual -mulmxA.
have ci i : ((col i V)^T *m f) 0 0 = (V^T *m f) i 0.
  by rewrite !mxE; apply: eq_bigr => j _; rewrite !mxE.
split=> [H i Hi|H].
  have : diag_mx (\row_i0 (~~ (tol < `|d 0 i0|))%R%:R) *m (V^T *m f) = 0.
    by rewrite -[LHS]mul1mx -(proj1 HE) -mulmxA H mulmx0.
  move/matrixP/(_ i 0); rewrite mul_diag_mx mxE [X in X * _]mxE -leNgt Hi mul1r ci => ->; by rewrite mxE.
have -> : diag_mx (\row_i (~~ (tol < `|d 0 i|))%R%:R) *m (V^T *m f) = 0; last by rewrite mulmx0.
apply/matrixP => i j; rewrite ord1 mul_diag_mx mxE [X in X * _]mxE [RHS]mxE -leNgt.
by case: leP => Hi /=; rewrite ?mul0r // mul1r -ci H.
Qed.
Lemma eigh_col i : A *m col i V = d 0 i *: col i V.
Proof.
have -> : A *m col i V = col i (A *m V) by rewrite !colE mulmxA.
rewrite (proj2 HE); apply/colP => k; rewrite !mxE (bigD1 i) //= big1 ?addr0 => [|j Hj].
  by rewrite mxE eqxx mulr1n mulrC.
by rewrite mxE (negbTE Hj) mulr0n mulr0.
Qed.
Lemma eigh_col_neq0 i : col i V != 0.
Proof.
apply/eqP => E; have := congr1 (fun X : 'M_n => X i i) (proj1 HE); rewrite !mxE eqxx.
rewrite big1 => [/esym/eqP|j _]; first by rewrite oner_eq0.
by have /colP/(_ j) := E; rewrite !mxE => ->; rewrite mul0r.
Qed.
(** if no non-zero eigenvalue is below the tolerance, u solves the problem exactly when f is
    orthogonal to the kernel *)
Lemma pinv_compatible (f : 'cV[F]_n) : (forall i, d 0 i = 0 \/ tol < `|d 0 i|) ->
  (A *m (inv *m f) = f <-> forall x : 'cV[F]_n, A *m x = 0 -> (x^T *m f) 0 0 = 0).
Proof.
move=> Hd; split=> [E x Hx|H].
  by rewrite -E mulmxA -{1}eigh_sym -trmx_mul Hx trmx0 mul0mx mxE.
apply/pinv_solves => i Hi; apply: H; rewrite eigh_col.
case: (Hd i) => [->|]; first by rewrite scale0r.
by rewrite ltNge Hi.
Qed.
(** otherwise it misses the solution for a right-hand side of the range *)
Lemma pinv_truncates i : d 0 i != 0 -> `|d 0 i| <= tol -> A *m (inv *m (A *m col i V)) <> A *m col i V.
Proof.
move=> Hd Hi /pinv_solves /(_ i Hi); rewrite eigh_col -scalemxAr mxE => /eqP; rewrite mulf_eq0 (negbTE Hd) /=.
have -> : ((col i V)^T *m col i V) 0 0 = (V^T *m V) i i by rewrite !mxE; apply: eq_bigr => j _; rewrite !mxE.
by rewrite (proj1 HE) mxE eqxx oner_eq0.
Qed.
End Pinv.

(** *** the deflation *)
Section Deflation.
Variable n : nat.
Variables (M L : 'M[F]_n) (v : 'cV[F]_n).
Hypothesis HM : spd M.
Hypothesis HL : L^T = L.
Hypothesis Hv : v != 0.
Hypothesis HLv : L *m v = 0.
Notation P := (deflation M v).
Let vL : v^T *m L = 0. Proof. by rewrite -{1}HL -trmx_mul HLv trmx0. Qed.
Lemma defl_PL : P *m L = L.
Proof. by rewrite /deflation mulmxBl mul1mx -scalemxAl -[M *m v *m v^T *m L]mulmxA vL mulmx0 scaler0 subr0. Qed.
Lemma defl_f (f : 'cV[F]_n) : (v^T *m f) 0 0 = 0 -> P *m f = f.
Proof.
move=> H; rewrite /deflation mulmxBl mul1mx -scalemxAl -[M *m v *m v^T *m f]mulmxA.
have -> : v^T *m f = 0 by apply/matrixP => i j; rewrite !ord1 H mxE.
by rewrite mulmx0 scaler0 subr0.
Qed.
Lemma defl_second (w x : 'cV[F]_n) : w != 0 -> L *m w = 0 -> form M v w = 0 -> P *m L *m P *m x <> P *m (M *m w).
Proof.
move=> Hw Lw E; rewrite defl_PL defl_f; last by rewrite mulmxA.
move=> /(congr1 (fun z => (w^T *m z) 0 0)); rewrite -mulmxA mulmxA -{1}HL -trmx_mul Lw trmx0 mul0mx mxE => /esym/eqP.
by rewrite mulmxA; apply/negP; rewrite gt_eqF // (proj2 HM).
Qed.
Lemma defl_solution (f x : 'cV[F]_n) : (v^T *m f) 0 0 = 0 -> P *m L *m P *m x = P *m f ->
  L *m (P *m x) = f /\ (L *m x = f <-> (v^T *m x) 0 0 *: (L *m (M *m v)) = 0).
Proof.
move=> H; rewrite defl_PL (defl_f H) -mulmxA => E; split=> //.
have c0 : ((v^T *m M *m v) 0 0)^-1 != 0 by rewrite invr_eq0 gt_eqF // (proj2 HM).
move: E; rewrite {1}/deflation mulmxBl mul1mx mulmxBr -scalemxAl -scalemxAr.
have -> : M *m v *m v^T *m x = (v^T *m x) 0 0 *: (M *m v).
  rewrite -[LHS]mulmxA [v^T *m x](_ : _ = ((v^T *m x) 0 0)%:M); last by apply/matrixP => i j; rewrite !ord1 [RHS]mxE eqxx mulr1n.
  by rewrite mul_mx_scalar; congr (_ *: _); rewrite [RHS]mxE eqxx mulr1n.
rewrite -scalemxAr => <-; split=> [/esym/eqP|->]; last by rewrite scaler0 subr0.
rewrite -subr_eq0 addrC addKr oppr_eq0 scaler_eq0 (negbTE c0) /= => /eqP //.
Qed.
End Deflation.

(** *** the generalised eigensolver *)
Lemma geigh n (A B : 'M[F]_n) d X : generalized_eigh A B d X ->
  let Be := B + (10%:R ^+ 12)^-1%:M in X^T *m Be *m X = 1%:M /\ A *m X = Be *m X *m diag_mx d.
Proof.
case=> L [V [UL HL [VV EV] ->]] Be.
have UT : L^T \in unitmx by rewrite unitmx_tr.
have EX : (invmx L)^T = invmx L^T by rewrite trmx_inv.
split.
  rewrite trmx_mul trmxK /Be -HL EX !mulmxA.
  by rewrite (mulmxKV UL) mulmxK.
have -> : A *m ((invmx L)^T *m V) = L *m (invmx L *m A *m (invmx L)^T *m V) by rewrite !mulmxA mulmxV // mul1mx.
rewrite EV /Be -HL !mulmxA; congr (_ *m _ *m _).
by rewrite EX mulmxK.
Qed.
End Mat.
