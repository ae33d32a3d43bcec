(** Scaling of the assembled operators. *)
From Coq Require Import Ring Field.
From mathcomp Require Import all_ssreflect all_algebra.
From Verif Require Import Model.Forms Model.DeRham Model.Geometry Model.Relaxation Spec.SeqSpec Spec.ScaleSpec Proof.MCRing.
Set Implicit Arguments.
Unset Strict Implicit.
Unset Printing Implicit Defensive.
Import Order.TTheory GRing.Theory Num.Theory.
Local Open Scope ring_scope.

Section Scale.
Variable F : realFieldType.
Variable S : drseq F.
Variable a : F.
Hypothesis Ha : a != 0.
Variables (G' Gi' : nat -> nat -> nat -> F) (J' : nat -> F).
Hypothesis HG : magnified a S G' Gi' J'.
Notation S' := (regeom S G' Gi' J').

Lemma assemble_scale nq d (g1 g2 W W' : nat -> nat -> nat -> F) n1 n2 c :
  (forall j k m, (j < nq)%N -> (k < d)%N -> (m < d)%N -> W' j k m = c * W j k m) ->
  assemble nq d g1 g2 W' n1 n2 = c *: assemble nq d g1 g2 W n1 n2.
Proof.
move=> H; apply/matrixP => i l; rewrite !mxE mulr_sumr; apply: eq_bigr => j _.
rewrite mulr_sumr; apply: eq_bigr => k _; rewrite mulr_sumr; apply: eq_bigr => m _.
by rewrite H // mulrCA !mulrA.
Qed.
Lemma congr_scale n m p q (E : 'M[F]_(n, m)) (A : 'M_(m, p)) (B : 'M_(p, q)) c :
  E *m (c *: A) *m B = c *: (E *m A *m B).
Proof. by rewrite -scalemxAr -scalemxAl. Qed.
Lemma solve_scale n m (A : 'M[F]_n) (B : 'M_(n, m)) c d : A \in unitmx -> c != 0 ->
  solve (c *: A) (d *: B) = (d / c) *: solve A B.
Proof.
move=> U Hc; rewrite /solve invmxZ ?unitmxZ ?unitfE //.
by rewrite -scalemxAl -scalemxAr scalerA mulrC.
Qed.

Lemma W0s j k m : (j < n_q S)%N -> (k < 1)%N -> (m < 1)%N -> W0 S' j k m = a ^+ 3 * W0 S j k m.
Proof. by move=> Hj _ _; rewrite /W0 /=; have [-> _] := HG Hj; rewrite mulrA. Qed.
Lemma W1s j k m : (j < n_q S)%N -> (k < 3)%N -> (m < 3)%N -> W1 S' j k m = a * W1 S j k m.
Proof.
move=> Hj Hk Hm; rewrite /W1 /=; have [-> H] := HG Hj; have [_ ->] := H k m Hk Hm.
have E : a ^- 2 * a ^+ 3 = a by rewrite [a ^+ 3](exprD _ 2 1) expr1 mulKf // expf_neq0.
by rewrite -[a ^+ 3 * _ * _]mulrA mulrACA E.
Qed.
Lemma W2s j k m : (j < n_q S)%N -> (k < 3)%N -> (m < 3)%N -> W2 S' j k m = a^-1 * W2 S j k m.
Proof.
move=> Hj Hk Hm; rewrite /W2 /=; have [-> H] := HG Hj; have [-> _] := H k m Hk Hm.
have E : a ^+ 2 * a ^- 3 = a^-1 by rewrite [a ^+ 3](exprD _ 2 1) expr1 invfM mulVKf // expf_neq0.
by rewrite invfM -[a ^- 3 * _ * _]mulrA mulrACA E.
Qed.
Lemma W3s j k m : (j < n_q S)%N -> (k < 1)%N -> (m < 1)%N -> W3 S' j k m = a ^- 3 * W3 S j k m.
Proof. by move=> Hj _ _; rewrite /W3 /=; have [-> _] := HG Hj; rewrite invfM mulrA. Qed.

Lemma M0s : M0 S' = a ^+ 3 *: M0 S.
Proof. by rewrite /M0 -congr_scale; congr (_ *m _ *m _); apply: (assemble_scale _ _ _ _ W0s). Qed.
Lemma M1s : M1 S' = a *: M1 S.
Proof. by rewrite /M1 -congr_scale; congr (_ *m _ *m _); apply: (assemble_scale _ _ _ _ W1s). Qed.
Lemma M2s : M2 S' = a^-1 *: M2 S.
Proof. by rewrite /M2 -congr_scale; congr (_ *m _ *m _); apply: (assemble_scale _ _ _ _ W2s). Qed.
Lemma M3s : M3 S' = a ^- 3 *: M3 S.
Proof. by rewrite /M3 -congr_scale; congr (_ *m _ *m _); apply: (assemble_scale _ _ _ _ W3s). Qed.
Lemma D0s : D0 S' = a *: D0 S.
Proof. by rewrite /D0 -congr_scale; congr (_ *m _ *m _); apply: (assemble_scale _ _ _ _ W1s). Qed.
Lemma D1s : D1 S' = a^-1 *: D1 S.
Proof. by rewrite /D1 -congr_scale; congr (_ *m _ *m _); apply: (assemble_scale _ _ _ _ W2s). Qed.
Lemma D2s : D2 S' = a ^- 3 *: D2 S.
Proof. by rewrite /D2 -congr_scale; congr (_ *m _ *m _); apply: (assemble_scale _ _ _ _ W3s). Qed.
Lemma M12s : M12 S' = M12 S. Proof. by []. Qed.
Lemma M03s : M03 S' = M03 S. Proof. by []. Qed.

Hypothesis HM : masses_invertible S.
Let U0 : M0 S \in unitmx. Proof. by case: HM. Qed.
Let U1 : M1 S \in unitmx. Proof. by case: HM. Qed.
Let U2 : M2 S \in unitmx. Proof. by case: HM. Qed.
Let U3 : M3 S \in unitmx. Proof. by case: HM. Qed.
Let an n : a ^+ n != 0. Proof. exact: expf_neq0. Qed.
Let vn n : a ^- n != 0. Proof. by rewrite invr_eq0. Qed.
Let v1 : a^-1 != 0. Proof. by rewrite invr_eq0. Qed.
Lemma trZ n m c (A : 'M[F]_(n, m)) : (c *: A)^T = c *: A^T.
Proof. by apply/matrixP => i j; rewrite !mxE. Qed.
Lemma grads : strong_grad S' = strong_grad S.
Proof. by rewrite /strong_grad D0s M1s solve_scale // divff // scale1r. Qed.
Lemma curls : strong_curl S' = strong_curl S.
Proof. by rewrite /strong_curl D1s M2s solve_scale // divff // scale1r. Qed.
Lemma divs : strong_div S' = strong_div S.
Proof. by rewrite /strong_div D2s M3s solve_scale // divff // scale1r. Qed.
Lemma q23 : a / a ^+ 3 = a ^- 2. Proof. by rewrite [a ^+ 3](exprD _ 1 2) expr1 invfM mulVKf. Qed.
Lemma q12 : a^-1 / a = a ^- 2. Proof. by rewrite -invfM -expr2. Qed.
Lemma q31 : a ^- 3 / a^-1 = a ^- 2. Proof. by rewrite invrK [a ^+ 3](exprD _ 2 1) expr1 invfM mulfVK. Qed.
Lemma wdivs : weak_div S' = a ^- 2 *: weak_div S.
Proof. by rewrite /weak_div D0s M0s !trZ solve_scale ?unitmx_tr // q23 scalerN. Qed.
Lemma wcurls : weak_curl S' = a ^- 2 *: weak_curl S.
Proof. by rewrite /weak_curl D1s M1s !trZ solve_scale ?unitmx_tr // q12. Qed.
Lemma wgrads : weak_grad S' = a ^- 2 *: weak_grad S.
Proof. by rewrite /weak_grad D2s M2s !trZ solve_scale ?unitmx_tr // q31 scalerN. Qed.
Lemma dd0s : dd0 S' = a ^- 2 *: dd0 S.
Proof.
rewrite /dd0 M0s -q23 -(solve_scale _ _ U0 (an 3)); congr solve.
by rewrite -congr_scale; congr (_ *m _ *m _); apply: (assemble_scale _ _ _ _ W1s).
Qed.
Lemma dd1s : dd1 S' = a ^- 2 *: dd1 S.
Proof.
rewrite /dd1 grads wdivs -scalemxAr scalerBr; congr (_ - _).
rewrite M1s -q12 -(solve_scale _ _ U1 Ha); congr solve.
by rewrite -congr_scale; congr (_ *m _ *m _); apply: (assemble_scale _ _ _ _ W2s).
Qed.
Lemma dd2s : dd2 S' = a ^- 2 *: dd2 S.
Proof.
rewrite /dd2 curls wcurls -scalemxAr scalerDr; congr (_ + _).
rewrite M2s -q31 -(solve_scale _ _ U2 v1); congr solve.
by rewrite -congr_scale; congr (_ *m _ *m _); apply: (assemble_scale _ _ _ _ W3s).
Qed.
Lemma dd3s : dd3 S' = a ^- 2 *: dd3 S.
Proof. by rewrite /dd3 divs wgrads -scalemxAr. Qed.
Lemma P12s : P12 S' = a^-1 *: P12 S.
Proof. by rewrite /P12 M1s -[M12 S']scale1r solve_scale // mul1r. Qed.
Lemma P03s : P03 S' = a ^- 3 *: P03 S.
Proof. by rewrite /P03 M0s -[M03 S']scale1r solve_scale // mul1r. Qed.
Lemma Lerays (pinv : 'M[F]_(rk S K3)) : P_Leray S' (a ^+ 2 *: pinv) = P_Leray S pinv.
Proof. by rewrite /P_Leray wgrads divs -scalemxAr -!scalemxAl scalerA mulfV // scale1r. Qed.

(** *** nonlinear terms *)
Lemma integrate_scale nq d (g : nat -> nat -> nat -> F) (w w' : nat -> nat -> F) n c :
  (forall j k, (j < nq)%N -> (k < d)%N -> w' j k = c * w j k) ->
  integrate_against nq d g w' n = c *: integrate_against nq d g w n.
Proof.
move=> H; apply/matrixP => i l; rewrite !mxE mulr_sumr; apply: eq_bigr => j _.
by rewrite mulr_sumr; apply: eq_bigr => k _; rewrite H // mulrCA.
Qed.
Lemma evalZ n (g : nat -> nat -> nat -> F) c (x : 'cV[F]_n) j k :
  evaluate_at_xq g (c *: x) j k = c * evaluate_at_xq g x j k.
Proof. by rewrite /evaluate_at_xq mulr_sumr; apply: eq_bigr => i _; rewrite mxE mulrCA. Qed.
Lemma GoverJ j k m : (j < n_q S)%N -> (k < 3)%N -> (m < 3)%N ->
  G' j k m * (w_j S j / J' j) = a^-1 * (G_jkl S j k m * (w_j S j / J_j S j)).
Proof. by move=> Hj Hk Hm; have := W2s Hj Hk Hm; rewrite /W2 /= ![_^-1 * w_j S j]mulrC. Qed.


Lemma einsumZ (A A' : mat3 F) (v : vec3 F) c l : (l < 3)%N -> (forall k, (k < 3)%N -> A' k l = c * A k l) ->
  einsum_kl_k A' v l = c * einsum_kl_k A v l.
Proof. by move=> Hl H; rewrite /einsum_kl_k mulr_sumr; apply: eq_bigr => k _; rewrite H // mulrA. Qed.
Lemma einsumV (A : mat3 F) (v v' : vec3 F) c l : (forall k, (k < 3)%N -> v' k = c * v k) ->
  einsum_kl_k A v' l = c * einsum_kl_k A v l.
Proof. by move=> H; rewrite /einsum_kl_k mulr_sumr; apply: eq_bigr => k _; rewrite H // mulrCA. Qed.
Lemma crossZ (u u' v v' : vec3 F) c d l : (forall k, (k < 3)%N -> u' k = c * u k) -> (forall k, (k < 3)%N -> v' k = d * v k) ->
  cross u' v' l = c * d * cross u v l.
Proof.
move=> Hu Hv; rewrite /cross /arr3; case: ifP => _; [|case: ifP => _]; rewrite !(Hu, Hv) // mulrBr;
  by rewrite ![c * _ * (d * _)]mulrACA.
Qed.

Add Field FScale : (@mc_fth F).
Lemma wgt x c w J : (a ^+ 2 * c) * x * (w / (a ^+ 3 * J)) = a^-1 * c * (x * (w / J)).
Proof.
have E : a^-1 = a ^+ 2 * a ^- 3 by rewrite [a ^+ 3](exprD _ 2 1) expr1 invfM mulVKf.
rewrite E invfM; move: (a ^+ 2) (a ^- 3) (J^-1) => b v i; mc_norm; ring.
Qed.

Lemma P1x1s (w u : 'cV[F]_(rk S K1)) c d :
  P1x1_to_2 (S := S') (c *: w) (d *: u) = (a^-1 * (c * d)) *: P1x1_to_2 (S := S) w u.
Proof.
rewrite /P1x1_to_2 /CrossProductProjection /=; rewrite scalemxAr; congr (_ *m _).
apply: integrate_scale => j k Hj Hk /=.
rewrite -!scalemxAr.
have H : einsum_kl_k (G' j) (cross (evaluate_at_xq (get_Lambda_1 (sh S) (tb S)) (c *: ((E_ S K1)^T *m w)) j)
    (evaluate_at_xq (get_Lambda_1 (sh S) (tb S)) (d *: ((E_ S K1)^T *m u)) j)) k =
  (a ^+ 2 * (c * d)) * einsum_kl_k (G_jkl S j) (cross (evaluate_at_xq (get_Lambda_1 (sh S) (tb S)) ((E_ S K1)^T *m w) j)
    (evaluate_at_xq (get_Lambda_1 (sh S) (tb S)) ((E_ S K1)^T *m u) j)) k.
  rewrite -mulrA -(@einsumV _ _ (cross (evaluate_at_xq (get_Lambda_1 (sh S) (tb S)) (c *: ((E_ S K1)^T *m w)) j)
    (evaluate_at_xq (get_Lambda_1 (sh S) (tb S)) (d *: ((E_ S K1)^T *m u)) j))); last first.
    by move=> l Hl; apply: crossZ => i Hi; rewrite evalZ.
  by apply: einsumZ => // l Hl; have [_ /(_ l k Hl Hk) []] := HG Hj.
by rewrite H; have [-> _] := HG Hj; rewrite wgt.
Qed.
Lemma P2x1s (w : 'cV[F]_(rk S K2)) (u : 'cV[F]_(rk S K1)) c d :
  P2x1_to_1 (S := S') (c *: w) (d *: u) = (a^-1 * (c * d)) *: P2x1_to_1 (S := S) w u.
Proof.
rewrite /P2x1_to_1 /CrossProductProjection /=; rewrite scalemxAr; congr (_ *m _).
apply: integrate_scale => j k Hj Hk /=.
rewrite -!scalemxAr.
rewrite (@crossZ (einsum_kl_k (G_jkl S j) (evaluate_at_xq (get_Lambda_2 (sh S) (tb S)) ((E_ S K2)^T *m w) j)) _
   (evaluate_at_xq (get_Lambda_1 (sh S) (tb S)) ((E_ S K1)^T *m u) j) _ (a ^+ 2 * c) d); last 2 first.
- move=> l Hl; rewrite -mulrA -(@einsumV _ _ (evaluate_at_xq (get_Lambda_2 (sh S) (tb S)) (c *: ((E_ S K2)^T *m w)) j)).
    by apply: einsumZ => // i Hi; have [_ /(_ i l Hi Hl) []] := HG Hj.
  by move=> i Hi; rewrite evalZ.
- by move=> l Hl; rewrite evalZ.
by have [-> _] := HG Hj; rewrite -[a ^+ 2 * c * d]mulrA wgt.
Qed.
End Scale.
