(** Proofs about the 3x3 geometry. *)
From Coq Require Import Ring Field.
From mathcomp Require Import all_ssreflect all_algebra.
From Verif Require Import Model.Forms Model.DeRham Model.Geometry Spec.GeomSpec Spec.SeqSpec Proof.MCRing
   Proof.SequenceAlg Proof.Complex.
Set Implicit Arguments.
Unset Strict Implicit.
Unset Printing Implicit Defensive.
Import Order.TTheory GRing.Theory Num.Theory.
Local Open Scope ring_scope.

Section Mat.
Variable F : realFieldType.
Add Field Ffg : (@mc_fth F).
Implicit Types (A B : mat3 F) (u v : vec3 F).

Definition adj A (k l : nat) : F :=
  let m1 := A 0%N 0%N in let m2 := A 0%N 1%N in let m3 := A 0%N 2%N in
  let m4 := A 1%N 0%N in let m5 := A 1%N 1%N in let m6 := A 1%N 2%N in
  let m7 := A 2%N 0%N in let m8 := A 2%N 1%N in let m9 := A 2%N 2%N in
  arr33
    (arr3 (m5 * m9 - m6 * m8) (m3 * m8 - m2 * m9) (m2 * m6 - m3 * m5))
    (arr3 (m6 * m7 - m4 * m9) (m1 * m9 - m3 * m7) (m3 * m4 - m1 * m6))
    (arr3 (m4 * m8 - m5 * m7) (m2 * m7 - m1 * m8) (m1 * m5 - m2 * m4)) k l.

Lemma inv33E A : inv33 A = if `|det33 A| < (10%:R ^+ 10)^-1 then (fun _ _ => 0) else fun k l => adj A k l / det33 A.
Proof.
rewrite /inv33 /adj; cbv zeta.
set d := (X in `|X| < _); have E : d = det33 A by [rewrite /d /det33; mc_norm; ring]; rewrite -?/d E.
by [].
Qed.

Lemma det33E A : det33 A = \det (mx33 A).
Proof.
rewrite (expand_det_row _ ord0) sum3O /cofactor /=.
rewrite !(expand_det_row _ ord0) !sum2O /cofactor /= !det_mx11 !mxE /=.
rewrite /det33 /= !expr0 !expr1 !(exprS _ 1) expr1 /= /bump /= ?addn0 ?add1n ?add0n.
mc_norm; ring.
Qed.

Lemma det_metric A : det33 (metric A) = det33 A ^+ 2.
Proof. by rewrite /metric /det33 /mul33 !sum3O /tr33 /=; mc_norm; ring. Qed.

Lemma mx33_mul A B : mx33 (mul33 A B) = mx33 A *m mx33 B.
Proof. by apply/matrixP => i j; rewrite !mxE; apply: eq_bigr => k _; rewrite !mxE. Qed.

Section Inv.
Variable A : mat3 F.
Hypothesis HA : (10%:R ^+ 10)^-1 <= `|det33 A|.

Lemma det_neq0 : det33 A != 0.
Proof.
apply: contraTneq HA => ->; rewrite normr0 -ltNge invr_gt0; apply: exprn_gt0; exact: ltr0n.
Qed.
Lemma inv33_reg : inv33 A = fun k l => adj A k l / det33 A.
Proof. by rewrite inv33E ltNge HA. Qed.
Lemma unit33 : mx33 A \in unitmx.
Proof. by rewrite unitmxE -det33E unitfE det_neq0. Qed.
Lemma inv33_mulmx : mx33 A *m mx33 (inv33 A) = 1%:M.
Proof.
have Hd : det33 A <> f0 by apply/eqP; exact: det_neq0.
apply/matrixP => i j; rewrite !mxE sum3O !mxE inv33_reg /adj /=.
case: i => [[|[|[|i]]] Hi] //; case: j => [[|[|[|j]]] Hj] //; rewrite /= /arr33 /arr3 /= ?mulr1n ?mulr0n;
 apply: (mulIf det_neq0); rewrite ?mul1r ?mul0r !mulrA !mulrDl !(mulfVK det_neq0) /det33; mc_norm; ring.
Qed.
Lemma inv33_invmx : mx33 (inv33 A) = invmx (mx33 A).
Proof. by rewrite -[LHS]mul1mx -(mulVmx unit33) -mulmxA inv33_mulmx mulmx1. Qed.

Lemma inv33_right k l : (k < 3)%N -> (l < 3)%N -> \sum_(m < 3) A k m * inv33 A m l = (k == l)%:R.
Proof.
move=> Hk Hl; have /matrixP/(_ (Ordinal Hk) (Ordinal Hl)) := inv33_mulmx; rewrite !mxE => <-.
by apply: eq_bigr => m _; rewrite !mxE.
Qed.
Lemma inv33_left k l : (k < 3)%N -> (l < 3)%N -> \sum_(m < 3) inv33 A k m * A m l = (k == l)%:R.
Proof.
move=> Hk Hl; have /matrixP/(_ (Ordinal Hk) (Ordinal Hl)) := mulVmx unit33.
rewrite -inv33_invmx !mxE => <-.
by apply: eq_bigr => m _; rewrite !mxE.
Qed.
End Inv.

Section Reg.
Variable A : mat3 F.
Hypothesis HA : (10%:R ^+ 5)^-1 <= `|det33 A|.
Lemma reg_inv : (10%:R ^+ 10)^-1 <= `|det33 A|.
Proof.
apply: le_trans HA; rewrite lef_pinv ?posrE ?exprn_gt0 ?ltr0n //.
by rewrite ler_eexpn2l // (ltr_nat _ 1).
Qed.
Lemma reg_metric : (10%:R ^+ 10)^-1 <= `|det33 (metric A)|.
Proof.
have H0 : 0 <= (10%:R ^+ 5)^-1 :> F by rewrite invr_ge0 exprn_ge0 ?ler0n.
have -> : 10%:R ^+ 10 = (10%:R ^+ 5) ^+ 2 :> F by rewrite -exprM.
rewrite det_metric normrX -exprVn.
by rewrite ler_expn2r ?nnegrE ?normr_ge0.
Qed.
Lemma inv_metric k l : (k < 3)%N -> (l < 3)%N ->
  inv33 (metric A) k l = \sum_(m < 3) inv33 A k m * inv33 A l m.
Proof.
move=> Hk Hl.
have H : mx33 (inv33 (metric A)) = mx33 (inv33 A) *m (mx33 (inv33 A))^T.
  rewrite (inv33_invmx reg_metric) (inv33_invmx reg_inv) /metric mx33_mul.
  have -> : mx33 (tr33 A) = (mx33 A)^T by apply/matrixP => i j; rewrite !mxE.
  have HU := unit33 reg_inv.
  set X := mx33 A in HU *; set M := X^T *m X.
  have HM : M \in unitmx by rewrite unitmx_mul unitmx_tr HU.
  have E : invmx X *m (invmx X)^T *m M = 1%:M.
    by rewrite /M trmx_inv !mulmxA -(mulmxA _ _ X^T) mulVmx ?unitmx_tr // mulmx1 mulVmx.
  by rewrite -[LHS]mul1mx -E -mulmxA mulmxV // mulmx1.
have /matrixP/(_ (Ordinal Hk) (Ordinal Hl)) := H; rewrite !mxE => ->.
by apply: eq_bigr => m _; rewrite !mxE.
Qed.
End Reg.

Lemma lt3P (P : nat -> Prop) : P 0%N -> P 1%N -> P 2%N -> forall k, (k < 3)%N -> P k.
Proof. by move=> H0 H1 H2 [|[|[|k]]]. Qed.

Definition eq3 u v := forall k, (k < 3)%N -> u k = v k.
Lemma eq3_sym u v : eq3 u v -> eq3 v u. Proof. by move=> H k Hk; rewrite H. Qed.
Lemma eq3_trans u v w : eq3 u v -> eq3 v w -> eq3 u w. Proof. by move=> H H' k Hk; rewrite H // H'. Qed.
Lemma dot3_ext u u' v v' : eq3 u u' -> eq3 v v' -> dot3 u v = dot3 u' v'.
Proof. by move=> H H'; rewrite /dot3 !H // !H'. Qed.
Lemma cross_ext u u' v v' : eq3 u u' -> eq3 v v' -> cross u v = cross u' v'.
Proof. by move=> H H'; rewrite /cross !H // !H'. Qed.
Lemma mulv3_ext A u u' : eq3 u u' -> forall k, mulv3 A u k = mulv3 A u' k.
Proof. by move=> H k; apply: eq_bigr => m _; rewrite H. Qed.

Definition sc (c : F) u : vec3 F := fun k => u k * c.
Lemma sum3d (f g : nat -> F) : \sum_(k < 3) f k * g k = dot3 f g.
Proof. by rewrite sum3O. Qed.

Section Pt.
Variable A : mat3 F.
Hypothesis HA : (10%:R ^+ 10)^-1 <= `|det33 A|.
Let d := det33 A.
Let B := inv33 A.
Let BT := tr33 B.
Let Hd : d != 0 := det_neq0 HA.

Lemma BE k l : B k l = adj A k l / d. Proof. by rewrite /B inv33_reg. Qed.

Lemma mulBT v k : mulv3 BT v k = (adj A 0 k * v 0%N + adj A 1 k * v 1%N + adj A 2 k * v 2%N) / d.
Proof. by rewrite /mulv3 sum3O /BT /tr33 /= !BE; mc_norm; field; apply/eqP. Qed.
Lemma mulA v k : mulv3 A v k = A k 0%N * v 0%N + A k 1%N * v 1%N + A k 2%N * v 2%N.
Proof. by rewrite /mulv3 sum3O. Qed.

Lemma X1 a b : eq3 (cross (mulv3 A a) (mulv3 A b)) (sc d (mulv3 BT (cross a b))).
Proof.
apply: lt3P; rewrite /sc mulBT mulfVK // /cross /adj /arr33 /arr3 /= !mulA; mc_norm; ring.
Qed.
Lemma X2 a b : eq3 (cross (mulv3 BT a) (mulv3 BT b)) (sc d^-1 (mulv3 A (cross a b))).
Proof.
have aux x y z t w : x * y - z * t = w * d -> x / d * (y / d) - z / d * (t / d) = w / d.
  move=> H; rewrite mulrACA [z / d * _]mulrACA -mulrBl H mulrA mulfK //.
by apply: lt3P; rewrite /sc mulA /cross /arr3 /= !mulBT; apply: aux;
  rewrite /adj /arr33 /arr3 /= /d /det33; mc_norm; ring.
Qed.
Lemma BTA_dot a b : dot3 (mulv3 BT a) (mulv3 A b) = dot3 a b.
Proof.
rewrite /dot3 !mulBT !mulA; apply: (mulIf Hd); rewrite !mulrDl.
rewrite ![_ / d * _ * d]mulrAC !mulfVK //.
by rewrite /adj /arr33 /arr3 /= /d /det33; mc_norm; ring.
Qed.
Lemma dot_mulBT u v : dot3 (mulv3 BT u) v = dot3 u (mulv3 B v).
Proof. by rewrite /dot3 /mulv3 !sum3O /BT /tr33 /=; mc_norm; ring. Qed.
Lemma dot_mulA u v : dot3 (mulv3 A u) v = dot3 u (mulv3 (tr33 A) v).
Proof. by rewrite /dot3 /mulv3 !sum3O /tr33 /=; mc_norm; ring. Qed.
Lemma dot_AA u v : dot3 (mulv3 A u) (mulv3 A v) = \sum_(k < 3) \sum_(m < 3) u k * metric A k m * v m.
Proof. by rewrite /metric /mul33 /dot3 /mulv3 !sum3O /= /tr33; mc_norm; ring. Qed.
Lemma dotC u v : dot3 u v = dot3 v u. Proof. by rewrite /dot3; mc_norm; ring. Qed.
Lemma dot_sc c u v : dot3 u (sc c v) = dot3 u v * c. Proof. by rewrite /dot3 /sc; mc_norm; ring. Qed.
Lemma sc_dot c u v : dot3 (sc c u) v = dot3 u v * c. Proof. by rewrite /dot3 /sc; mc_norm; ring. Qed.
Lemma cross_sc c u v : eq3 (cross u (sc c v)) (sc c (cross u v)).
Proof. by apply: lt3P; rewrite /sc /cross /arr3 /=; mc_norm; ring. Qed.
Lemma sc_cross c u v : eq3 (cross (sc c u) v) (sc c (cross u v)).
Proof. by apply: lt3P; rewrite /sc /cross /arr3 /=; mc_norm; ring. Qed.
Lemma push1E v : pushforward K1 A v = mulv3 BT v. Proof. by []. Qed.
Lemma push2E v : pushforward K2 A v = sc d^-1 (mulv3 A v). Proof. by []. Qed.
End Pt.

Section PtR.
Variable A : mat3 F.
Hypothesis HR : (10%:R ^+ 5)^-1 <= `|det33 A|.
Let HA := reg_inv HR.
Let d := det33 A.
Let BT := tr33 (inv33 A).
Let Hd : d != 0 := det_neq0 HA.

Lemma dot_BB u v : dot3 (mulv3 BT u) (mulv3 BT v) = \sum_(k < 3) \sum_(m < 3) u k * inv33 (metric A) k m * v m.
Proof.
have -> : \sum_(k < 3) \sum_(m < 3) u k * inv33 (metric A) k m * v m
   = \sum_(k < 3) \sum_(m < 3) u k * (\sum_(l < 3) inv33 A k l * inv33 A m l) * v m.
  by apply: eq_bigr => k _; apply: eq_bigr => m _; rewrite inv_metric.
by rewrite /dot3 /mulv3 /BT /tr33 !sum3O /=; mc_norm; ring.
Qed.
(** A w = B^T (G w), B^T u = A (G_inv u), with the einsum contraction of the code *)
Lemma AG w : eq3 (mulv3 A w) (mulv3 BT (einsum_kl_k (metric A) w)).
Proof.
apply: lt3P; rewrite (mulBT HA) mulA; apply: (mulIf Hd); rewrite mulfVK //;
 rewrite /einsum_kl_k !sum3O /metric /mul33 !sum3O /tr33 /adj /arr33 /arr3 /= /d /det33; mc_norm; ring.
Qed.
Lemma BGi u : eq3 (mulv3 BT u) (mulv3 A (einsum_kl_k (inv33 (metric A)) u)).
Proof.
have H k (Hk : (k < 3)%N) : einsum_kl_k (inv33 (metric A)) u k = \sum_(m < 3) inv33 A k m * mulv3 BT u m.
  rewrite /einsum_kl_k; under eq_bigr => l _ do rewrite inv_metric // mulr_suml.
  rewrite exchange_big /=; apply: eq_bigr => m _; rewrite /mulv3 mulr_sumr; apply: eq_bigr => l _.
  by rewrite /BT /tr33; mc_norm; ring.
move=> k Hk; rewrite /mulv3 [RHS](eq_bigr (fun m : 'I_3 => \sum_(l < 3) A k m * inv33 A m l * mulv3 BT u l)); last first.
  by move=> m _; rewrite H // mulr_sumr; apply: eq_bigr => l _; rewrite mulrA.
rewrite exchange_big /= -[LHS]/(mulv3 BT u k).
transitivity (\sum_(l < 3) (k == l)%:R * mulv3 BT u l).
  by case: k Hk => [|[|[|k]]] // _; rewrite sum3O /= ?mul1r ?mul0r ?addr0 ?add0r.
by apply: eq_bigr => l _; rewrite -mulr_suml inv33_right.
Qed.
Lemma dot_ein (M : mat3 F) u v : (forall k m, (k < 3)%N -> (m < 3)%N -> M k m = M m k) ->
  dot3 u (einsum_kl_k M v) = \sum_(k < 3) \sum_(m < 3) u k * M k m * v m.
Proof.
move=> H; rewrite -sum3d; apply: eq_bigr => k _; rewrite /einsum_kl_k mulr_sumr; apply: eq_bigr => m _.
by rewrite mulrA H.
Qed.
Lemma metric_sym k m : metric A k m = metric A m k.
Proof. by apply: eq_bigr => l _; rewrite mulrC. Qed.
Lemma inv_metric_sym k m : (k < 3)%N -> (m < 3)%N -> inv33 (metric A) k m = inv33 (metric A) m k.
Proof. by move=> Hk Hm; rewrite !inv_metric //; apply: eq_bigr => l _; rewrite mulrC. Qed.
End PtR.
End Mat.
