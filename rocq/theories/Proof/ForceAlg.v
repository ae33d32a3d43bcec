(** Variations of the magnetic energy under the displacements of MRXHessian. *)
From Coq Require Import Ring Field.
From mathcomp Require Import all_ssreflect all_algebra.
From Verif Require Import Model.Forms Model.DeRham Model.Geometry Model.Relaxation Spec.GeomSpec Spec.SeqSpec Spec.RelaxSpec
  Proof.MCRing Proof.SequenceAlg Proof.DeRhamAlg Proof.GeometryProofs Proof.ProjectionProofs Proof.RelaxAlg Proof.SpectrumSeq.
Set Implicit Arguments.
Unset Strict Implicit.
Unset Printing Implicit Defensive.
Import Order.TTheory GRing.Theory Num.Theory.
Local Open Scope ring_scope.

Section Force.
Variable F : realFieldType.
Add Field Fffa : (@mc_fth F).
Variables (S : drseq F) (pinv : 'M[F]_(rk S K3)).
Hypothesis OK : relax_ok S pinv.
Notation PL := (P_Leray S pinv).
Notation vec1 := 'cV[F]_(rk S K1).
Notation vec2 := 'cV[F]_(rk S K2).
Notation "<< x , y >>1" := (form (M1 S) x y).
Notation "<< x , y >>2" := (form (M2 S) x y).
Notation C := (strong_curl S).

(** J x H *)
Definition force (B : vec2) : vec2 := solve (M2 S) (P1x1_to_2 (weak_curl S *m B) (P12 S *m B)).

Lemma P2x1_linl a (u u' : vec2) (H : vec1) : P2x1_to_1 (a *: u + u') H = a *: P2x1_to_1 u H + P2x1_to_1 u' H.
Proof. by rewrite /P2x1_to_1 (@cpp_linl _ S K1 K2 K1 a u u' H _ _ erefl erefl). Qed.
Lemma P2x1_linr a (u : vec2) (H H' : vec1) : P2x1_to_1 u (a *: H + H') = a *: P2x1_to_1 u H + P2x1_to_1 u H'.
Proof. by rewrite /P2x1_to_1 (@cpp_linr _ S K1 K2 K1 a u H H' _ _ erefl erefl). Qed.
(** H . (u x J) is antisymmetric in H and J *)
Lemma triple_anti (J H : vec1) (u : vec2) : dotv J (P2x1_to_1 u H) = - dotv H (P2x1_to_1 u J).
Proof.
rewrite !dot_P2x1 -sumrN; apply: eq_bigr => j _.
rewrite !big_ord_recl !big_ord0 /cross /arr3 /= /bump /= !(addn0, add1n, addn1).
by move: (einsum_kl_k _ _) (form_value J j) (form_value H j) => a b c; mc_norm; ring.
Qed.

Lemma deltaB_lin a (B u u' : vec2) : deltaB B (a *: u + u') = a *: deltaB B u + deltaB B u'.
Proof. by rewrite /deltaB P2x1_linl /solve !mulmxDr -!scalemxAr. Qed.
Lemma uxJ_lin a (B u u' : vec2) : uxJ B (a *: u + u') = a *: uxJ B u + uxJ B u'.
Proof. by rewrite /uxJ P2x1_linl /solve !mulmxDr -!scalemxAr. Qed.
Lemma deltaB_div (B u : vec2) : divfree S (deltaB B u).
Proof. exact: (div_curl_0 OK). Qed.
(** first variation, against any field *)
Lemma delta_pair (B' B u : vec2) : << B', deltaB B u >>2 = dotv (weak_curl S *m B') (P2x1_to_1 u (P12 S *m B)).
Proof.
rewrite (formC _ _ (proj1 (ok_M2 OK))) /deltaB (curl_adj OK).
have [-> _] := form_solve (P2x1_to_1 u (P12 S *m B)) (weak_curl S *m B') (proj1 (ok_M1 OK)) (spd_unit (ok_M1 OK)).
by rewrite dotvC.
Qed.
Lemma first_var (B u : vec2) : << B, deltaB B u >>2 = - << force B, u >>2.
Proof.
rewrite delta_pair triple_swap; last exact: ok_sym OK.
have [-> _] := form_solve (P1x1_to_2 (weak_curl S *m B) (P12 S *m B)) u (proj1 (ok_M2 OK)) (spd_unit (ok_M2 OK)).
by rewrite dotvC.
Qed.
Lemma P12_pair (E : vec1) (b : vec2) : << E, P12 S *m b >>1 = form (M12 S) E b.
Proof. by rewrite /P12 /solve -form_mulr [M1 S *m (_ *m _)]mulmxA mulmxV ?mul1mx // (spd_unit (ok_M1 OK)). Qed.
Lemma second_pair (B b u : vec2) : << B, deltaB b u >>2 = - form (M12 S) (uxJ B u) b.
Proof.
rewrite delta_pair triple_anti -P12_pair; congr (- _).
rewrite (formC _ _ (proj1 (ok_M1 OK))) /uxJ.
by have [_ ->] := form_solve (P2x1_to_1 u (weak_curl S *m B)) (P12 S *m b) (proj1 (ok_M1 OK)) (spd_unit (ok_M1 OK)).
Qed.
Lemma taylor2 (t : F) (B d1 d2 : vec2) :
  energy (B + t *: d1 + (t ^+ 2 / 2%:R) *: d2) = energy B + t * << B, d1 >>2 + t ^+ 2 / 2%:R * (<< d1, d1 >>2 + << B, d2 >>2)
    + t ^+ 3 / 2%:R * << d1, d2 >>2 + t ^+ 4 / 8%:R * << d2, d2 >>2.
Proof.
rewrite !energyE !formDl !formDr !formZl !formZr.
rewrite (formC d1 B (proj1 (ok_M2 OK))) (formC d2 B (proj1 (ok_M2 OK))) (formC d2 d1 (proj1 (ok_M2 OK))).
have H2 : (2%:R : F) != 0 by rewrite pnatr_eq0.
have H8 : (8%:R : F) = 2%:R * 2%:R * 2%:R by rewrite -!natrM.
have H4 : (2%:R : F) * (2%:R * 2%:R) != 0 by rewrite !mulf_neq0.
rewrite H8; move/eqP: H2 => H2; move/eqP: H4 => H4; mc_norm; field; repeat split; first [exact: H2 | exact: H4].
Qed.

(** columns *)
Lemma col_lin n m (f : 'cV[F]_n -> 'cV[F]_m) : (forall a u v, f (a *: u + v) = a *: f u + f v) ->
  forall u, (\matrix_(i, j) f (delta_mx j 0) i 0) *m u = f u.
Proof.
move=> Hf u; have f0 : f 0 = 0.
  by have := Hf (-1) 0 0; rewrite scaler0 addr0 scaleN1r addNr.
have fs (I : Type) (r : seq I) (P : pred I) (a : I -> F) (g : I -> 'cV_n) : f (\sum_(i <- r | P i) a i *: g i) = \sum_(i <- r | P i) a i *: f (g i).
  by elim/big_rec2: _ => // i x y _ <-; rewrite Hf.
have Eu : u = \sum_j u j 0 *: delta_mx j 0.
  by rewrite {1}[u]matrix_sum_delta; apply: eq_bigr => i _; rewrite big_ord1.
apply/matrixP => i j; rewrite ord1 {2}Eu fs summxE mxE; apply: eq_bigr => k _.
by rewrite (ord1 j) !mxE mulrC.
Qed.
(** the matrix assembled by MRXHessian *)
Lemma hessian_form (B u v : vec2) : let H x y := << deltaB B x, deltaB B y >>2 + form (M12 S) (uxJ B x) (M2 S *m deltaB B y) in
  form (hessian B) u v = 2%:R^-1 * (H u v + H v u).
Proof.
move=> H; rewrite /hessian; set dB : 'M_(rk S K2) := \matrix_(i, j) _; set LJ : 'M_(rk S K1, rk S K2) := \matrix_(i, j) _.
have EB x : dB *m x = deltaB B x by apply: (col_lin (f := deltaB B)) => a *; apply: deltaB_lin.
have EJ x : LJ *m x = uxJ B x by apply: (col_lin (f := uxJ B)) => a *; apply: uxJ_lin.
have fZ (A : 'M[F]_(rk S K2)) a x y : form (a *: A) x y = a * form A x y.
  by rewrite /form -!scalemxAr -!scalemxAl mxE.
have fD (A A' : 'M[F]_(rk S K2)) x y : form (A + A') x y = form A x y + form A' x y.
  by rewrite /form mulmxDr mulmxDl mxE.
have fT (A : 'M[F]_(rk S K2)) x y : form A^T x y = form A y x.
  by rewrite /form -[y^T *m A *m x]mx11_tr !trmx_mul trmxK mulmxA.
have EH x y : form (dB^T *m M2 S *m dB + LJ^T *m M12 S *m M2 S *m dB) x y = H x y.
  rewrite fD -(mulmxA dB^T) form_mull (form_mulr (M2 S)) !EB /H; congr (_ + _).
  have -> : LJ^T *m M12 S *m M2 S *m dB = LJ^T *m (M12 S *m (M2 S *m dB)).
    by move: (M12 S) (M2 S) => X Y; rewrite !mulmxA.
  by rewrite form_mull (form_mulr (M12 S)) mul2 EJ EB.
by rewrite fZ fD fT !EH.
Qed.
Lemma hessian_sym (B : vec2) : (hessian B)^T = hessian B.
Proof. by rewrite /hessian linearZ /= linearD /= trmxK addrC. Qed.
(** Leray projected force and stationarity *)
Lemma stationary (B : vec2) : (forall u, divfree S u -> << B, deltaB B u >>2 = 0) <-> PL *m force B = 0.
Proof.
split=> H.
- apply: (spd_eq0 (ok_M2 OK)); have D : divfree S (PL *m force B) by rewrite /divfree (mulmxA (strong_div S) PL) (ok_Pdiv OK) mul0mx.
  have := H _ D; rewrite first_var => /eqP; rewrite oppr_eq0 => /eqP <-.
  by rewrite -(ok_Psa OK) (ok_Pid OK D) (formC _ _ (proj1 (ok_M2 OK))).
- move=> u D; rewrite first_var; apply/eqP; rewrite oppr_eq0; apply/eqP.
  by rewrite -(ok_Pid OK D) (ok_Psa OK) H form0l.
Qed.
End Force.
