(** Algebra of Hodge eigenproblems: a cochain complex with positive definite mass matrices. *)
From mathcomp Require Import all_ssreflect all_algebra.
From Verif Require Import Model.Forms Model.DeRham Spec.SeqSpec Spec.RelaxSpec Spec.SpectrumSpec Proof.RelaxAlg.
Set Implicit Arguments.
Unset Strict Implicit.
Unset Printing Implicit Defensive.
Import Order.TTheory GRing.Theory Num.Theory.
Local Open Scope ring_scope.

Section Rank.
Variable F : realFieldType.
Definition dimker n (A : 'M[F]_n) : nat := \rank (kermx A^T).
Lemma dimkerE n (A : 'M[F]_n) : (dimker A + \rank A)%N = n.
Proof. by rewrite /dimker mxrank_ker mxrank_tr subnK // rank_leq_row. Qed.
Lemma kermx_col n (A : 'M[F]_n) (x : 'cV_n) : (x^T <= kermx A^T)%MS = (A *m x == 0).
Proof.
rewrite sub_kermx -trmx_mul; apply/eqP/eqP => [/(congr1 trmx)|->]; last exact: trmx0.
by rewrite trmxK trmx0.
Qed.
Lemma ker_row n (A : 'M[F]_n) i : A *m (row i (kermx A^T))^T = 0.
Proof. by apply/eqP; rewrite -kermx_col trmxK row_sub. Qed.
Lemma dimker_le n m (A : 'M[F]_n) (B : 'M[F]_m) (P : 'M[F]_(m, n)) (Q : 'M[F]_(n, m)) :
  (forall x : 'cV_n, A *m x = 0 -> B *m (P *m x) = 0 /\ Q *m (P *m x) = x) -> (dimker A <= dimker B)%N.
Proof.
move=> H; rewrite /dimker.
have H1 : (kermx A^T *m P^T <= kermx B^T)%MS.
  apply/row_subP => i; rewrite row_mul -[X in (X <= _)%MS]trmxK trmx_mul trmxK kermx_col.
  by apply/eqP; have [] := H _ (ker_row A i).
have H2 : kermx A^T *m P^T *m Q^T = kermx A^T.
  apply/row_matrixP => i; have [_ /(congr1 trmx)] := H _ (ker_row A i).
  by rewrite !trmx_mul !trmxK -!row_mul.
apply: leq_trans (mxrankS H1); rewrite -{1}H2; exact: mxrankM_maxl.
Qed.
Lemma dimker_iso n m (A : 'M[F]_n) (B : 'M[F]_m) (P : 'M[F]_(m, n)) (Q : 'M[F]_(n, m)) :
  (forall x : 'cV_n, A *m x = 0 -> B *m (P *m x) = 0 /\ Q *m (P *m x) = x) ->
  (forall y : 'cV_m, B *m y = 0 -> A *m (Q *m y) = 0 /\ P *m (Q *m y) = y) -> dimker A = dimker B.
Proof. by move=> H1 H2; apply/eqP; rewrite eqn_leq (dimker_le H1) (dimker_le H2). Qed.
Lemma dimker_block n m (A : 'M[F]_n) (B : 'M[F]_m) : dimker (block_mx A 0 0 B) = (dimker A + dimker B)%N.
Proof.
apply/eqP; rewrite -(eqn_add2r (\rank (block_mx A 0 0 B))) dimkerE rank_diag_block_mx.
by rewrite addnACA !dimkerE.
Qed.
Lemma dimker_unit n (M L : 'M[F]_n) : M \in unitmx -> dimker (M *m L) = dimker L.
Proof.
move=> U; apply: (@dimker_iso _ _ _ _ 1%:M 1%:M) => x; rewrite !mul1mx => H; split=> //.
  by rewrite -[L *m x](mulKmx U) [M *m (L *m x)]mulmxA H mulmx0.
by rewrite -mulmxA H mulmx0.
Qed.
End Rank.

Section Sym.
Variable F : realFieldType.
Variable n : nat.
Variables A B : 'M[F]_n.
Hypothesis HA : A^T = A.
Hypothesis HB : B^T = B.
Lemma form_Z (c : F) (M : 'M[F]_n) x y : form M x (c *: y) = c * form M x y. Proof. exact: formZr. Qed.
(** the imaginary part of an eigenvalue kills the B-norm *)
Lemma sym_real l m (x y : 'cV[F]_n) : A *m x = l *: (B *m x) - m *: (B *m y) -> A *m y = m *: (B *m x) + l *: (B *m y) ->
  m * (form B x x + form B y y) = 0.
Proof.
move=> Hx Hy; have H : form A y x = form A x y by apply: formC.
move: H; rewrite /form -!mulmxA Hx Hy mulmxBr mulmxDr -!scalemxAr !mulmxA.
have lin (c d : F) (u v : 'M[F]_1) : (c *: u + d *: v) 0 0 = c * u 0 0 + d * v 0 0 by rewrite !mxE.
rewrite -scaleNr !lin -!/(form B _ _) (formC y x HB) [X in _ = X]addrC => /addrI /eqP.
by rewrite mulNr eq_sym -addr_eq0 -mulrDr => /eqP.
Qed.
Lemma sym_orth l m (x y : 'cV[F]_n) : A *m x = l *: (B *m x) -> A *m y = m *: (B *m y) -> l != m -> form B x y = 0.
Proof.
move=> Hx Hy N; have H : form A y x = form A x y by apply: formC.
move: H; rewrite /form -!mulmxA Hx Hy -!scalemxAr !mulmxA.
have lin (c : F) (u : 'M[F]_1) : (c *: u) 0 0 = c * u 0 0 by rewrite !mxE.
rewrite !lin -!/(form B _ _) (formC y x HB) => /eqP.
by rewrite -subr_eq0 -mulrBl mulf_eq0 subr_eq0 (negbTE N) /= => /eqP.
Qed.
End Sym.

Section Complex.
Variable F : realFieldType.
Variables n0 n1 n2 n3 : nat.
Variables (M0 : 'M[F]_n0) (M1 : 'M[F]_n1) (M2 : 'M[F]_n2) (M3 : 'M[F]_n3).
Variables (G : 'M[F]_(n1, n0)) (C : 'M[F]_(n2, n1)) (D : 'M[F]_(n3, n2)).
Variables (W : 'M[F]_(n0, n1)) (K : 'M[F]_(n1, n2)) (N : 'M[F]_(n2, n3)).
Hypotheses (CG : C *m G = 0) (DC : D *m C = 0) (WK : W *m K = 0) (KN : K *m N = 0).
Let CGx m (x : 'M_(_, m)) : C *m (G *m x) = 0. Proof. by rewrite mulmxA CG mul0mx. Qed.
Let DCx m (x : 'M_(_, m)) : D *m (C *m x) = 0. Proof. by rewrite mulmxA DC mul0mx. Qed.
Let WKx m (x : 'M_(_, m)) : W *m (K *m x) = 0. Proof. by rewrite mulmxA WK mul0mx. Qed.
Let KNx m (x : 'M_(_, m)) : K *m (N *m x) = 0. Proof. by rewrite mulmxA KN mul0mx. Qed.
Definition L0 := - (W *m G).
Definition L1 := K *m C - G *m W.
Definition L2 := C *m K - N *m D.
Definition L3 := - (D *m N).

Lemma comm_grad : L1 *m G = G *m L0.
Proof. by rewrite /L1 /L0 mulmxBl -mulmxA CG mulmx0 sub0r mulmxN mulmxA. Qed.
Lemma comm_curl : L2 *m C = C *m L1.
Proof. by rewrite /L1 /L2 mulmxBl mulmxBr -!mulmxA DC CGx mulmx0. Qed.
Lemma comm_div : L3 *m D = D *m L2.
Proof. by rewrite /L2 /L3 mulmxBr DCx sub0r mulNmx mulmxA. Qed.

Lemma eigE n (L : 'M[F]_n) l (x : 'cV_n) : (L - l%:M) *m x = 0 <-> L *m x = l *: x.
Proof. by rewrite mulmxBl mul_scalar_mx; split=> [/eqP|->]; rewrite ?subrr // subr_eq0 => /eqP. Qed.
Lemma blockE n m (A : 'M[F]_n) (B : 'M[F]_m) a b : block_mx A 0 0 B *m col_mx a b = 0 <-> A *m a = (0 : 'cV_n) /\ B *m b = (0 : 'cV_m).
Proof.
rewrite mul_block_col !mul0mx addr0 add0r -[0 in X in X <-> _]col_mx0; split=> [/eq_col_mx //|[-> ->]] //.
Qed.
Lemma dimker_L1 l : l != 0 -> dimker (L1 - l%:M) = (dimker (L0 - l%:M) + dimker (K *m C - l%:M))%N.
Proof.
move=> Hl; rewrite -dimker_block; symmetry.
apply: (@dimker_iso _ _ _ _ _ (row_mx G 1%:M) (col_mx (- l^-1 *: W) (l^-1 *: (K *m C)))) => x.
- rewrite -[x]vsubmxK; move: (usubmx x) (dsubmx x) => a b.
  rewrite blockE !eigE mul_row_col mul1mx mul_col_mx /L0 mulNmx -!mulmxA => -[Ha Hb].
  have Hw : W *m b = 0 by rewrite -[b]scale1r -(mulVf Hl) -scalerA -Hb -scalemxAr WKx scaler0.
  split.
    rewrite /L1 mulmxBl -!mulmxA !mulmxDr CGx mulmx0 add0r Hb Hw mulmx0 addr0 scalerDr [RHS]addrC; congr (_ + _).
    by rewrite -mulmxN Ha -scalemxAr.
  congr col_mx; rewrite -scalemxAl.
    by rewrite mulmxDr Hw addr0 -[W *m _]opprK Ha scaleNr scalerN opprK scalerA mulVf // scale1r.
  by rewrite -!mulmxA !mulmxDr CGx mulmx0 add0r Hb scalerA mulVf // scale1r.
- rewrite eigE /L1 mulmxBl -!mulmxA => Hx.
  have HW : W *m (G *m (W *m x)) = - (l *: (W *m x)).
    by apply/eqP; rewrite -addr_eq0 scalemxAr -Hx mulmxBr WKx sub0r subrr.
  have HK : K *m (C *m (K *m (C *m x))) = l *: (K *m (C *m x)).
    have := congr1 (fun z => K *m (C *m z)) Hx; rewrite /= !mulmxBr CGx mulmx0 subr0 => ->.
    by rewrite -!scalemxAr.
  rewrite [col_mx _ (_ *: (K *m C)) *m x]mul_col_mx blockE !eigE mul_row_col mul1mx -!scalemxAl -!mulmxA; split; last first.
    by rewrite -!scalemxAr scaleNr -scalerN -scalerDr addrC Hx scalerA mulVf // scale1r.
  split; rewrite -!scalemxAr; last by rewrite HK !scalerA mulrC.
  by rewrite /L0 mulNmx -mulmxA HW opprK !scalerA mulrC.
Qed.
Lemma dimker_L2 l : l != 0 -> dimker (L2 - l%:M) = (dimker (K *m C - l%:M) + dimker (L3 - l%:M))%N.
Proof.
move=> Hl; rewrite -dimker_block; symmetry.
apply: (@dimker_iso _ _ _ _ _ (row_mx C N) (col_mx (l^-1 *: K) (- l^-1 *: D))) => x.
- rewrite -[x]vsubmxK; move: (usubmx x) (dsubmx x) => a b.
  rewrite blockE !eigE mul_row_col mul_col_mx /L3 mulNmx -!mulmxA => -[Ha Hb].
  split.
    rewrite /L2 mulmxBl -!mulmxA !mulmxDr KNx mulmx0 addr0 Ha DCx mulmx0 add0r scalerDr -!scalemxAr; congr (_ + _).
    by rewrite -mulmxN Hb -scalemxAr.
  congr col_mx; rewrite -scalemxAl mulmxDr.
    by rewrite KNx addr0 Ha scalerA mulVf // scale1r.
  by rewrite DCx add0r -[D *m _]opprK Hb scaleNr scalerN opprK scalerA mulVf // scale1r.
- rewrite eigE /L2 mulmxBl -!mulmxA => Hx.
  have HD : D *m (N *m (D *m x)) = - (l *: (D *m x)).
    by apply/eqP; rewrite -addr_eq0 scalemxAr -Hx mulmxBr DCx sub0r subrr.
  have HK : K *m (C *m (K *m x)) = l *: (K *m x).
    by rewrite scalemxAr -Hx mulmxBr KNx subr0.
  rewrite [col_mx _ (_ *: D) *m x]mul_col_mx blockE !eigE mul_row_col -!scalemxAl; split; last first.
    by rewrite -!scalemxAr scaleNr -scalerN -scalerDr Hx scalerA mulVf // scale1r.
  split; rewrite -!scalemxAr; first by rewrite -mulmxA HK !scalerA mulrC.
  by rewrite /L3 mulNmx -mulmxA HD opprK !scalerA mulrC.
Qed.
End Complex.
