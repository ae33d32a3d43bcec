(** The spectral theorem for symmetric matrices and for symmetric pencils over a real closed
    field, and the real numbers as one. *)
From mathcomp Require Import all_ssreflect all_algebra.
From mathcomp.real_closed Require Import complex.
Set Implicit Arguments.
Unset Strict Implicit.
Unset Printing Implicit Defensive.
Import Order.TTheory GRing.Theory Num.Theory.
Local Open Scope ring_scope.

Section Spectral.
Variable R : rcfType.
Implicit Types n : nat.

Lemma dot_ge0 n (x : 'rV[R]_n) : 0 <= (x *m x^T) 0 0.
Proof. by rewrite mxE; apply: sumr_ge0 => i _; rewrite mxE -expr2 sqr_ge0. Qed.
Lemma dot_eq0 n (x : 'rV[R]_n) : (x *m x^T) 0 0 = 0 -> x = 0.
Proof.
rewrite mxE => /eqP; rewrite psumr_eq0 => [|i _]; last by rewrite mxE -expr2 sqr_ge0.
move=> /allP H; apply/rowP => i; rewrite [RHS]mxE; apply/eqP; rewrite -sqrf_eq0 expr2.
by have := H i (mem_index_enum i); rewrite mxE.
Qed.
Lemma scal11 (A : 'M[R]_1) : A = (A 0 0)%:M.
Proof. by apply/matrixP => i j; rewrite !ord1 mxE eqxx mulr1n. Qed.

(** a symmetric matrix of positive size has a real eigenvector *)
Lemma sym_eigen n (A : 'M[R]_n.+1) : A^T = A -> exists l (v : 'rV[R]_n.+1), v != 0 /\ v *m A = l *: v.
Proof.
move=> HA; pose Ac := map_mx (real_complex R) A.
have [z /eqP Hz] : exists z, root (char_poly Ac) z.
  by apply/closed_rootP; rewrite size_char_poly.
have : eigenvalue Ac z by rewrite eigenvalue_root_char; apply/eqP.
case/eigenvalueP => w Hw wn0.
pose x := map_mx (@complex.Re R) w; pose y := map_mx (@complex.Im R) w.
have Hx : x *m A = complex.Re z *: x - complex.Im z *: y.
  apply/rowP => j; have /rowP/(_ j) := Hw; rewrite !mxE => /(congr1 (@complex.Re R)).
  rewrite raddf_sum /= => E.
  transitivity (complex.Re (z * w 0 j)); last by clear; case: z => a b; case: (w 0 j).
  rewrite -E; apply: eq_bigr => k _; rewrite !mxE; case: (w 0 k) => a b /=.
  by rewrite mulr0 subr0.
have Hy : y *m A = complex.Re z *: y + complex.Im z *: x.
  apply/rowP => j; have /rowP/(_ j) := Hw; rewrite !mxE => /(congr1 (@complex.Im R)).
  rewrite raddf_sum /= => E.
  transitivity (complex.Im (z * w 0 j)); last by clear; case: z => a b; case: (w 0 j) => c d /=; rewrite mulrC.
  rewrite -E; apply: eq_bigr => k _; rewrite !mxE; case: (w 0 k) => a b /=.
  by rewrite mulr0 add0r.
have tr2 (u v : 'rV[R]_n.+1) (B : 'M_n.+1) : B^T = B -> (u *m B *m v^T) 0 0 = (v *m B *m u^T) 0 0.
  move=> HB; have -> : v *m B *m u^T = (u *m B *m v^T)^T by rewrite !trmx_mul trmxK HB mulmxA.
  by rewrite [RHS]mxE.
have Hs := tr2 x y A HA; have := tr2 x y 1%:M (trmx1 _ _); rewrite !mulmx1 => xy.
have lin (c d : R) (u v : 'M[R]_1) : (c *: u + d *: v) 0 0 = c * u 0 0 + d * v 0 0 by rewrite !mxE.
have b0 : complex.Im z * ((x *m x^T) 0 0 + (y *m y^T) 0 0) = 0.
  move: Hs; rewrite Hx Hy mulmxBl mulmxDl -!scalemxAl -scaleNr !lin xy => /addrI /eqP.
  by rewrite eq_sym mulNr -addr_eq0 -mulrDr => /eqP.
have [bz|] := eqVneq (complex.Im z) 0; last first.
  move=> bn; move/eqP: b0; rewrite mulf_eq0 (negbTE bn) paddr_eq0 ?dot_ge0 //= => /andP [/eqP /dot_eq0 x0 /eqP /dot_eq0 y0].
  case/eqP: wn0; apply/rowP => j; rewrite [RHS]mxE.
  move/rowP/(_ j): x0; move/rowP/(_ j): y0; rewrite !mxE; by case: (w 0 j) => a b /= -> ->.
have [x0|x0] := eqVneq x 0; last by exists (complex.Re z), x; rewrite Hx bz scale0r subr0.
exists (complex.Re z), y; split; last by rewrite Hy bz scale0r addr0.
apply/eqP => y0; case/eqP: wn0; apply/rowP => j; rewrite [RHS]mxE.
move/rowP/(_ j): x0; move/rowP/(_ j): y0; rewrite !mxE; by case: (w 0 j) => a b /= -> ->.
Qed.

(** a unit vector is the first row of an orthogonal matrix: Householder reflection *)
Lemma householder n (v : 'rV[R]_n.+1) : (v *m v^T) 0 0 = 1 ->
  exists Q : 'M[R]_n.+1, Q *m Q^T = 1%:M /\ row 0 Q = v.
Proof.
move=> Hv; pose e : 'rV[R]_n.+1 := delta_mx 0 0.
have He : (e *m e^T) 0 0 = 1 by rewrite trmx_delta mul_delta_mx mxE eqxx.
have [E|N] := eqVneq v e; first by exists 1%:M; rewrite trmx1 mulmx1 rowE mulmx1 E.
pose u := v - e; pose d := (u *m u^T) 0 0.
have d0 : d != 0 by apply/eqP => /dot_eq0 /eqP; rewrite subr_eq0 (negbTE N).
pose c := (v *m e^T) 0 0.
have Hc : (e *m v^T) 0 0 = c.
  have -> : e *m v^T = (v *m e^T)^T by rewrite trmx_mul trmxK.
  by rewrite mxE.
have Hd : d = 2%:R * (1 - c).
  rewrite /d /u linearB /= mulmxBl !mulmxBr.
  have sub (a b : 'M[R]_1) : (a - b) 0 0 = a 0 0 - b 0 0 by rewrite !mxE.
  by rewrite !sub Hv He Hc -/c mulr_natl mulr2n opprB addrA.
exists (1%:M - (2%:R / d) *: (u^T *m u)).
have uu : u^T *m u *m (u^T *m u) = d *: (u^T *m u).
  by rewrite mulmxA -[u^T *m u *m _]mulmxA (scal11 (u *m u^T)) -/d mul_mx_scalar -scalemxAl.
split.
  have -> : (1%:M - (2%:R / d) *: (u^T *m u))^T = 1%:M - (2%:R / d) *: (u^T *m u).
    by rewrite linearB /= linearZ /= trmx1 trmx_mul trmxK.
  move: (u^T *m u) uu => X uu; set k := 2%:R / d.
  have kk : k * (k * d) = k + k by rewrite /k divfK // mulr_natr mulr2n.
  have E : (k *: X) *m (k *: X) = k *: X + k *: X by rewrite -scalemxAl -scalemxAr uu !scalerA -[k * k * d]mulrA kk scalerDl.
  move: (k *: X) E => Y E; rewrite mulmxBl mul1mx mulmxBr mulmx1 E.
  by rewrite opprB addrK addrNK.
rewrite rowE -/e mulmxBr mulmx1 -scalemxAr mulmxA.
have -> : e *m u^T = (c - 1)%:M.
  rewrite (scal11 (e *m u^T)); congr (_%:M); rewrite /u linearB /= mulmxBr.
  have sub (a b : 'M[R]_1) : (a - b) 0 0 = a 0 0 - b 0 0 by rewrite !mxE.
  by rewrite sub Hc He.
rewrite mul_scalar_mx scalerA.
have -> : 2%:R / d * (c - 1) = -1.
  by apply: (mulIf d0); rewrite mulrAC divfK // mulN1r Hd -opprB mulrN.
by rewrite scaleN1r opprK addrC subrK.
Qed.

Theorem spectral n (A : 'M[R]_n) : A^T = A ->
  exists (Q : 'M[R]_n) (d : 'rV[R]_n), Q *m Q^T = 1%:M /\ Q *m A *m Q^T = diag_mx d.
Proof.
elim: n A => [|n IH] A HA.
  by exists 1%:M, 0; split; apply/matrixP => -[].
have [l [v [v0 Hv]]] := sym_eigen HA.
have nv0 : (v *m v^T) 0 0 != 0 by apply: contra v0 => /eqP /dot_eq0 ->.
have nv : 0 < (v *m v^T) 0 0 by rewrite lt_neqAle eq_sym nv0 dot_ge0.
pose s := Num.sqrt ((v *m v^T) 0 0).
have Hs : s ^+ 2 = (v *m v^T) 0 0 by rewrite sqr_sqrtr ?ltW.
have s0 : s != 0 by rewrite sqrtr_eq0 -ltNge.
pose w := s^-1 *: v.
have Hw : (w *m w^T) 0 0 = 1.
  by rewrite /w linearZ /= -scalemxAl -scalemxAr scalerA mxE -Hs expr2 -invfM mulVf // mulf_neq0.
have HwA : w *m A = l *: w by rewrite /w -scalemxAl Hv !scalerA mulrC.
have [Q [QQ Q0]] := householder Hw.
have QQ' : Q^T *m Q = 1%:M by apply: mulmx1C.
have [B HB] : exists B : 'M[R]_(1 + n), B = Q *m A *m Q^T by eexists.
have BT : B^T = B by rewrite HB !trmx_mul trmxK HA mulmxA.
have B0 : row 0 B = l *: delta_mx 0 0.
  rewrite HB !row_mul Q0 HwA -scalemxAl -Q0 -row_mul QQ; congr (_ *: _).
  by rewrite rowE mulmx1.
have EB : B = block_mx l%:M 0 0 (drsubmx B).
  rewrite -[LHS]submxK; congr block_mx.
  - rewrite (scal11 (ulsubmx B)); congr (_%:M).
    have /rowP/(_ 0) := B0; rewrite !mxE /= mulr1 => <-.
    by congr (B _ _); apply: val_inj.
  - apply/matrixP => i j; rewrite ord1 !mxE; have /rowP/(_ (rshift 1 j)) := B0; rewrite !mxE /= mulr0 => <-.
    by congr (B _ _); apply: val_inj.
  - rewrite -[B in dlsubmx B]BT; apply/matrixP => i j; rewrite ord1 !mxE; have /rowP/(_ (rshift 1 i)) := B0; rewrite !mxE /= mulr0 => <-.
    by congr (B _ _); apply: val_inj.
have HB' : (drsubmx B)^T = drsubmx B by rewrite trmx_drsub BT.
have [Q' [d' [Q1 Q2]]] := IH _ HB'.
pose P : 'M[R]_(1 + n) := block_mx 1%:M 0 0 Q'.
have PP : P *m P^T = 1%:M.
  rewrite /P tr_block_mx !trmx0 trmx1 mulmx_block !mul0mx !mulmx0 !mul1mx Q1 !addr0 !add0r.
  by rewrite -scalar_mx_block.
exists (P *m Q), (row_mx l%:M d'); split.
  by rewrite trmx_mul mulmxA -[P *m Q *m Q^T]mulmxA QQ mulmx1.
have -> : P *m Q *m A *m (P *m Q)^T = P *m B *m P^T by rewrite HB trmx_mul !mulmxA.
rewrite EB /P tr_block_mx !trmx0 trmx1.
rewrite mulmx_block !mul0mx !mulmx0 !mul1mx !addr0 !add0r mulmx_block !mul0mx !mulmx0 !mulmx1 !addr0 !add0r.
rewrite Q2; have := diag_mx_row (l%:M : 'rV_1) d'; rewrite /= => E; apply: etrans (esym E); congr block_mx.
by apply/matrixP => i j; rewrite !mxE !ord1 eqxx !mulr1n.
Qed.
End Spectral.

Section Pencil.
Variable R : rcfType.
Variable n : nat.
Variables A B : 'M[R]_n.
Hypothesis HA : A^T = A.
Hypothesis HB : B^T = B.
Hypothesis PB : forall x : 'cV[R]_n, x != 0 -> 0 < (x^T *m B *m x) 0 0.

(** simultaneous diagonalisation of a symmetric and a positive definite matrix *)
Theorem pencil : exists (V : 'M[R]_n) (d : 'rV[R]_n), V^T *m B *m V = 1%:M /\ V^T *m A *m V = diag_mx d.
Proof.
have [Q [b [QQ Qb]]] := spectral HB.
have b0 i : 0 < b 0 i.
  have := PB (x := (row i Q)^T).
  rewrite trmxK -row_mul.
  have -> : (row i (Q *m B) *m (row i Q)^T) 0 0 = b 0 i.
    have <- : (Q *m B *m Q^T) i i = b 0 i by rewrite Qb mxE eqxx mulr1n.
    rewrite !mxE; apply: eq_bigr => j _; by rewrite !mxE.
  apply; apply/eqP => /(congr1 trmx); rewrite trmxK trmx0 => E.
  have : row i (Q *m Q^T) = 0 by rewrite row_mul E mul0mx.
  rewrite QQ => /rowP/(_ i); rewrite !mxE eqxx => /eqP; by rewrite oner_eq0.
pose c : 'rV[R]_n := \row_i (Num.sqrt (b 0 i))^-1.
pose W := Q^T *m diag_mx c.
have W1 : W^T *m B *m W = 1%:M.
  have -> : W^T *m B *m W = diag_mx c *m (Q *m B *m Q^T) *m diag_mx c.
    by rewrite /W trmx_mul trmxK tr_diag_mx !mulmxA.
  rewrite Qb !mulmx_diag -diag_const_mx; congr diag_mx; apply/rowP => i; rewrite !mxE.
  have s0 : Num.sqrt (b 0 i) != 0 by rewrite sqrtr_eq0 -ltNge.
  by rewrite -{2}(sqr_sqrtr (ltW (b0 i))) expr2 mulKf // mulfV.
move: W W1 => W W1.
have HA' : (W^T *m A *m W)^T = W^T *m A *m W by rewrite !trmx_mul trmxK HA mulmxA.
have [Q' [d [P1 P2]]] := spectral HA'.
exists (W *m Q'^T), d; rewrite !trmx_mul !trmxK; split.
  have -> : Q' *m W^T *m B *m (W *m Q'^T) = Q' *m (W^T *m B *m W) *m Q'^T by rewrite !mulmxA.
  by rewrite W1 mulmx1.
by rewrite -P2 !mulmxA.
Qed.
End Pencil.

(** ** the real numbers are real closed *)
From Coq Require Import Reals Lra.
From Coquelicot Require Import Coquelicot.
From Verif Require Import Proof.RField.
Lemma horner_continuous (p : {poly R_realFieldType}) (x : R) : continuous (fun t : R => p.[t] : R) x.
Proof.
elim/poly_ind: p => [|p c IH].
  by apply: (continuous_ext (fun _ => R0)) (continuous_const _ _) => t; rewrite horner0.
apply: (continuous_ext (fun t : R => Rplus (Rmult p.[t] t) c)); first by move=> t; rewrite hornerMXaddC.
apply: (continuous_plus (V := R_NormedModule)); last exact: continuous_const.
apply: (continuous_mult (K := R_AbsRing)) => //; exact: continuous_id.
Qed.
Lemma R_real_closed : Num.real_closed_axiom R_realFieldType.
Proof.
move=> p a b /RleE Hab /andP [/RleE Ha /RleE Hb].
have Hc : Ranalysis1.continuity (fun t : R => p.[t] : R).
  by move=> x; apply/continuity_pt_filterlim; exact: horner_continuous.
have Hr : Rle (Rmin (p.[a] : R) (p.[b] : R)) R0 /\ Rle R0 (Rmax (p.[a] : R) (p.[b] : R)).
  by split; [apply: Rle_trans (Rmin_l _ _) Ha | apply: Rle_trans Hb (Rmax_r _ _)].
have [x [[H1 H2] E]] := IVT_gen (fun t : R => p.[t] : R) a b R0 Hc Hr.
rewrite Rmin_left // in H1; rewrite Rmax_right // in H2.
by exists x; [apply/andP; split; apply/RleE | apply/rootP].
Qed.
Canonical R_rcfType := RcfType R R_real_closed.
