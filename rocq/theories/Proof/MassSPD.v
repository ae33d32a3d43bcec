(** Positive definiteness of the mass matrices. *)
From Coq Require Import Ring Field.
From mathcomp Require Import all_ssreflect all_algebra.
From Verif Require Import Model.Forms Model.DeRham Spec.Cochain Spec.PolarSpace Spec.SeqSpec
  Proof.MCRing Proof.IndexLemmas Proof.Incidence Proof.SequenceAlg Proof.DeRhamAlg Proof.Complex Proof.SeqFacts.
Set Implicit Arguments.
Unset Strict Implicit.
Unset Printing Implicit Defensive.
Import Order.TTheory GRing.Theory Num.Theory.
Local Open Scope ring_scope.

Section Unit.
Variable F : realFieldType.

Lemma unit_ker n (A : 'M[F]_n) : (forall x : 'cV[F]_n, A *m x = 0 -> x = 0) -> A \in unitmx.
Proof.
move=> H; rewrite -unitmx_tr -row_free_unit -kermx_eq0; apply/eqP/row_matrixP => i; rewrite row0.
apply: trmx_inj; rewrite trmx0; apply: H.
by apply: trmx_inj; rewrite trmx_mul trmxK -row_mul mulmx_ker row0 trmx0.
Qed.

Variable nq : nat.
Variables (d n r : nat) (g W : nat -> nat -> nat -> F) (E : 'M[F]_(r, n)).
Let A := E *m assemble nq d g g W n n *m E^T.
Let v (x : 'cV[F]_r) := evaluate_at_xq g (E^T *m x).

Lemma quadE x : bl A x x = \sum_(j < nq) \sum_(k < d) \sum_(m < d) v x j k * W j k m * v x j m.
Proof.
rewrite /bl /A !mulmxA -(mulmxA _ E^T x) -{2}[x]trmxK -trmx_mul assemble_row.
by apply: eq_bigr => j _; apply: eq_bigr => k _; apply: eq_bigr => m _; rewrite !fvalE trmx_mul trmxK.
Qed.

Hypothesis Wpd : forall j (z : nat -> F), (j < nq)%N -> (exists2 k, (k < d)%N & z k != 0) ->
  0 < \sum_(k < d) \sum_(m < d) z k * W j k m * z m.

Lemma W_ge0 j (z : nat -> F) : (j < nq)%N -> 0 <= \sum_(k < d) \sum_(m < d) z k * W j k m * z m.
Proof.
move=> Hj; case H : [exists k : 'I_d, z k != 0].
  by have /existsP [k Hk] := H; apply: ltW; apply: Wpd => //; exists k.
rewrite big1 // => k _; rewrite big1 // => m _.
have /negbT/existsPn/(_ k) := H; rewrite negbK => /eqP ->; by rewrite !mul0r.
Qed.

Lemma quad0 x : bl A x x = 0 -> forall j k, (j < nq)%N -> (k < d)%N -> v x j k = 0.
Proof.
rewrite quadE => /eqP; rewrite psumr_eq0; last by move=> j _; apply: (W_ge0 (v x j)).
move=> /allP H j k Hj Hk; apply/eqP; apply: contraT => Hv.
have := H (Ordinal Hj) (mem_index_enum _); rewrite /= => /eqP E0.
by have := Wpd (z := v x j) Hj (ex_intro2 _ _ k Hk Hv); rewrite E0 ltxx.
Qed.

Lemma unit_iff : A \in unitmx <-> (forall x, (forall j k, (j < nq)%N -> (k < d)%N -> v x j k = 0) -> x = 0).
Proof.
split=> [HU x Hx|H].
- apply: (unit_inj HU); rewrite mulmx0; apply/colP => i; rewrite !mxE.
  have -> : \sum_j A i j * x j 0 = bl A (delta_mx i 0) x.
    rewrite /bl trmx_delta -rowE mxE; apply: eq_bigr => k _; by rewrite !mxE.
  rewrite /bl /A !mulmxA -(mulmxA _ E^T x) -{1}[x]trmxK -trmx_mul assemble_row.
  apply: big1 => j _; apply: big1 => k _; apply: big1 => m _.
  by rewrite [X in _ * X]fvalE trmx_mul trmxK; have := Hx j m (ltn_ord j) (ltn_ord m); rewrite /v => ->; rewrite mulr0.
- apply: unit_ker => x Hx; apply: H; apply: quad0; rewrite /bl -mulmxA Hx mulmx0 mxE //.
Qed.

Lemma unit_pd_iff : A \in unitmx -> forall x, x != 0 -> 0 < bl A x x.
Proof.
move=> HU x Hx; rewrite lt_neqAle; apply/andP; split.
- apply: contra Hx => /eqP E0; apply/eqP; apply: (proj1 unit_iff HU); exact: quad0.
- by rewrite quadE; apply: sumr_ge0 => j _; apply: (W_ge0 (v x j)).
Qed.
End Unit.

Section Weights.
Variable F : realFieldType.
Variable S : drseq F.
Hypothesis Hpos : geometry_pos S.

Lemma geometry_pos_geom : pos_geom S.
Proof.
move=> j Hj; have [Hw HJ HG HGi] := Hpos Hj.
have aux (A : nat -> nat -> F) :
  (forall x : nat -> F, (exists2 k, (k < 3)%N & x k != 0) -> 0 < \sum_(k < 3) \sum_(m < 3) x k * A k m * x m) ->
  forall x : nat -> F, 0 <= \sum_(k < 3) \sum_(m < 3) x k * A k m * x m.
  move=> HA x; case H : [exists k : 'I_3, x k != 0].
    by have /existsP [k Hk] := H; apply: ltW; apply: HA; exists k.
  rewrite big1 // => k _; rewrite big1 // => m _.
  have /negbT/existsPn/(_ k) := H; rewrite negbK => /eqP ->; by rewrite !mul0r.
by split=> //; [apply: ltW | apply: aux | apply: aux].
Qed.

Lemma scal_pd (c : F) (z : nat -> F) : 0 < c -> (exists2 k, (k < 1)%N & z k != 0) ->
  0 < \sum_(k < 1) \sum_(m < 1) z k * c * z m.
Proof.
move=> Hc [[|k] // _ Hz]; do 2 (rewrite big_ord_recl big_ord0 addr0) => /=.
by rewrite mulrAC mulr_gt0 // -expr2 exprn_even_gt0.
Qed.

Lemma vec_pd (B : nat -> nat -> F) (c : F) (z : nat -> F) : 0 < c ->
  (forall x : nat -> F, (exists2 k, (k < 3)%N & x k != 0) -> 0 < \sum_(k < 3) \sum_(m < 3) x k * B k m * x m) ->
  (exists2 k, (k < 3)%N & z k != 0) -> 0 < \sum_(k < 3) \sum_(m < 3) z k * (B k m * c) * z m.
Proof.
move=> Hc HB Hz.
have -> : \sum_(k < 3) \sum_(m < 3) z k * (B k m * c) * z m
        = (\sum_(k < 3) \sum_(m < 3) z k * B k m * z m) * c.
  rewrite mulr_suml; apply: eq_bigr => k _; rewrite mulr_suml; apply: eq_bigr => m _.
  by rewrite mulrA -!mulrA; congr (_ * (_ * _)); rewrite mulrC.
by rewrite mulr_gt0 // HB.
Qed.

Lemma W0_pd j z : (j < n_q S)%N -> (exists2 k, (k < 1)%N & z k != 0) ->
  0 < \sum_(k < 1) \sum_(m < 1) z k * W0 S j k m * z m.
Proof. by move=> Hj; have [Hw HJ _ _] := Hpos Hj; apply: scal_pd; apply: mulr_gt0. Qed.
Lemma W3_pd j z : (j < n_q S)%N -> (exists2 k, (k < 1)%N & z k != 0) ->
  0 < \sum_(k < 1) \sum_(m < 1) z k * W3 S j k m * z m.
Proof. by move=> Hj; have [Hw HJ _ _] := Hpos Hj; apply: scal_pd; apply: mulr_gt0 => //; rewrite invr_gt0. Qed.
Lemma W1_pd j z : (j < n_q S)%N -> (exists2 k, (k < 3)%N & z k != 0) ->
  0 < \sum_(k < 3) \sum_(m < 3) z k * W1 S j k m * z m.
Proof. by move=> Hj; have [Hw HJ _ HG] := Hpos Hj; apply: (vec_pd (B := G_inv_jkl S j)) => //; apply: mulr_gt0. Qed.
Lemma W2_pd j z : (j < n_q S)%N -> (exists2 k, (k < 3)%N & z k != 0) ->
  0 < \sum_(k < 3) \sum_(m < 3) z k * W2 S j k m * z m.
Proof.
move=> Hj; have [Hw HJ HG _] := Hpos Hj; apply: (vec_pd (B := G_jkl S j)) => //.
by apply: mulr_gt0 => //; rewrite invr_gt0.
Qed.
End Weights.

(** tensor products of independent tables are independent *)
Section Tensor.
Variable F : realFieldType.
Add Field Fft : (@mc_fth F).

Lemma tensor_indep a b c qa qb qc (A B C : nat -> nat -> F) (v : nat -> nat -> nat -> F) :
  indep_rows a qa A -> indep_rows b qb B -> indep_rows c qc C ->
  (forall p q r, (p < qa)%N -> (q < qb)%N -> (r < qc)%N ->
    \sum_(i < a) \sum_(j < b) \sum_(l < c) v i j l * (A i p * B j q * C l r) = 0) ->
  forall i j l, (i < a)%N -> (j < b)%N -> (l < c)%N -> v i j l = 0.
Proof.
move=> HA HB HC H i j l Hi Hj Hl.
apply: (HC (fun l => v i j l)) => // r Hr.
apply: (HB (fun j => \sum_(l < c) v i j l * C l r)) => // q Hq.
apply: (HA (fun i => \sum_(j < b) (\sum_(l < c) v i j l * C l r) * B j q)) => // p Hp.
rewrite -[RHS](H p q r) //; apply: eq_bigr => i' _; rewrite mulr_suml; apply: eq_bigr => j' _.
rewrite !mulr_suml; apply: eq_bigr => l' _; mc_norm; ring.
Qed.
End Tensor.

Section EvalInj.
Variable F : realFieldType.
Add Field Ffe : (@mc_fth F).
Variables (s : shape) (t : tables F).
Hypothesis Hind : tables_indep s t.
Let nq := (qx t * qy t * qz t)%N.

Lemma qpoint_surj p q r : (p < qx t)%N -> (q < qy t)%N -> (r < qz t)%N ->
  exists2 j, (j < nq)%N & qpoint t j = (p, q, r).
Proof.
move=> Hp Hq Hr; exists (ravel3 (qy t, qx t, qz t) q p r).
  by rewrite /nq (mulnC (qx t)); apply: ravel3_lt.
by rewrite /qpoint unravel3_ravel3.
Qed.

Lemma ind_rd n q (T : nat -> nat -> F) : indep_rows n q T -> indep_rows n q (rd n T).
Proof.
move=> H c Hc; apply: H => j Hj; rewrite -[RHS](Hc j) //; apply: eq_bigr => i _.
by rewrite /rd minn_pred.
Qed.

Lemma evalE k (g : nat -> nat -> nat -> F) h (v : 'cV[F]_(fdim s k)) j m :
  (forall x, g x j m = h (unravel_index s k x)) ->
  evaluate_at_xq g v j m = \sum_(x < fdim s k) rvf v^T x * h (unravel_index s k x).
Proof. by move=> H; apply: eq_bigr => x _; rewrite rvf_ord mxE H mulrC. Qed.

Lemma zero_of_coch k (v : 'cV[F]_(fdim s k)) :
  (forall c i j l, (c < ncomp k)%N -> in_comp s k c (i, j, l) -> coch s k (rvf v^T) c i j l = 0) -> v = 0.
Proof.
move=> H; apply/colP => x; rewrite mxE (_ : v x 0 = rvf v^T x); last by rewrite rvf_ord mxE.
have := ravel_unravel_index (ltn_ord x).
by case: (unravel_index s k x) => [c [[i j] l]] [Hc Hin <-]; apply: H.
Qed.
Definition i3 (a : nat * triple) (A B C : nat -> F) : F := let: (_, (i1, i2, i3)) := a in A i1 * B i2 * C i3.

Lemma scal_inj k (g : nat -> nat -> nat -> F) (A B C : nat -> nat -> F) (v : 'cV[F]_(fdim s k)) :
  is_scalar k ->
  (let: (a, b, c) := cshape s k 0 in [/\ indep_rows a (qx t) A, indep_rows b (qy t) B & indep_rows c (qz t) C]) ->
  (forall x j, g x j 0%N = let: (j1, j2, j3) := qpoint t j in i3 (unravel_index s k x) (A^~ j1) (B^~ j2) (C^~ j3)) ->
  (forall j m, (j < nq)%N -> (m < 1)%N -> evaluate_at_xq g v j m = 0) -> v = 0.
Proof.
move=> Hk Hi Hg H; apply: zero_of_coch => c i j l Hc Hin.
have Ec : c = 0%N by move: Hc; rewrite /ncomp Hk; case: (c).
rewrite {}Ec in Hc Hin *; move: Hin; rewrite /in_comp.
case Es : (cshape s k 0) Hi => [[a b] d] [HA HB HC] /and3P [Hi Hj Hl].
apply: (tensor_indep HA HB HC (v := coch s k (rvf v^T) 0%N)) => // p q r Hp Hq Hr.
have [x Hx Ex] := qpoint_surj Hp Hq Hr.
have := H x 0%N Hx isT; rewrite (evalE (h := fun a => i3 a (A^~ p) (B^~ q) (C^~ r))); last by move=> y; rewrite Hg Ex.
rewrite (sum_coch_scalar s (rvf v^T) (fun a => i3 a (A^~ p) (B^~ q) (C^~ r))) // Es.
exact.
Qed.

Lemma vec_inj k (g : nat -> nat -> nat -> F) (A B C : nat -> nat -> nat -> F) (v : 'cV[F]_(fdim s k)) :
  is_scalar k = false ->
  (forall m, (m < 3)%N -> let: (a, b, c) := cshape s k m in
     [/\ indep_rows a (qx t) (A m), indep_rows b (qy t) (B m) & indep_rows c (qz t) (C m)]) ->
  (forall x j m, (m < 3)%N -> g x j m = let: (j1, j2, j3) := qpoint t j in
     if m == (unravel_index s k x).1 then i3 (unravel_index s k x) (A m ^~ j1) (B m ^~ j2) (C m ^~ j3) else 0) ->
  (forall j m, (j < nq)%N -> (m < 3)%N -> evaluate_at_xq g v j m = 0) -> v = 0.
Proof.
move=> Hk Hi Hg H; apply: zero_of_coch => m i j l; rewrite {1}/ncomp Hk => Hm.
have := Hi m Hm; rewrite /in_comp.
case Es : (cshape s k m) => [[a b] d] [HA HB HC] /and3P [Hi1 Hj Hl].
apply: (tensor_indep HA HB HC (v := coch s k (rvf v^T) m)) => // p q r Hp Hq Hr.
have [x Hx Ex] := qpoint_surj Hp Hq Hr.
pose h := fun z : nat * triple => if m == z.1 then i3 z (A m ^~ p) (B m ^~ q) (C m ^~ r) else 0.
have := H x m Hx Hm; rewrite (evalE (h := h)); last by move=> y; rewrite Hg // Ex.
rewrite (sum_coch3 s (rvf v^T) h) //.
have Z c : c != m -> csum s k (rvf v^T) h c = 0.
  move=> Hc; rewrite /csum; case: (cshape s k c) => [[a' b'] d'].
  by do 3 (apply: big1 => ? _); rewrite /h /= eq_sym (negbTE Hc) mulr0.
have Eq : csum s k (rvf v^T) h m =
   \sum_(i0 < a) \sum_(j0 < b) \sum_(l0 < d) coch s k (rvf v^T) m i0 j0 l0 * (A m i0 p * B m j0 q * C m l0 r).
  by rewrite /csum Es /h /= eqxx.
rewrite -Eq; move: (csum s k _ h) Z {H Hi Hg HA HB HC Es Eq}; clearbody h => f Z.
case: m Hm Z {h Hj} => [|[|[|m]]] // _ Z.
- by rewrite (Z 1%N) // (Z 2%N) // !addr0.
- by rewrite (Z 0%N) // (Z 2%N) // add0r addr0.
- by rewrite (Z 0%N) // (Z 1%N) // !add0r.
Qed.

Let i_lr := ind_rd (let: And4 H _ _ _ := Hind in H).
Let i_lt := ind_rd (let: And4 _ H _ _ := Hind in H).
Let i_lz := ind_rd (let: And4 _ _ H _ := Hind in H).
Let i_dr := ind_rd (let: And4 _ _ _ H := Hind in let: And3 H _ _ := H in H).
Let i_dt := ind_rd (let: And4 _ _ _ H := Hind in let: And3 _ H _ := H in H).
Let i_dz := ind_rd (let: And4 _ _ _ H := Hind in let: And3 _ _ H := H in H).
Let Lr := rd (nr s) (lam_r t).
Let Lt := rd (nt s) (lam_t t).
Let Lz := rd (nz s) (lam_z t).
Let Dr := rd (dr s) (dlam_r t).
Let Dt := rd (dt s) (dlam_t t).
Let Dz := rd (dz s) (dlam_z t).

Lemma eval_inj0 (v : 'cV[F]_(fdim s K0)) :
  (forall j m, (j < nq)%N -> (m < 1)%N -> evaluate_at_xq (get_Lambda_0 s t) v j m = 0) -> v = 0.
Proof. by apply: (scal_inj (A := Lr) (B := Lt) (C := Lz)). Qed.
Lemma eval_inj3 (v : 'cV[F]_(fdim s K3)) :
  (forall j m, (j < nq)%N -> (m < 1)%N -> evaluate_at_xq (get_Lambda_3 s t) v j m = 0) -> v = 0.
Proof. by apply: (scal_inj (A := Dr) (B := Dt) (C := Dz)). Qed.
Lemma eval_inj1 (v : 'cV[F]_(fdim s K1)) :
  (forall j m, (j < nq)%N -> (m < 3)%N -> evaluate_at_xq (get_Lambda_1 s t) v j m = 0) -> v = 0.
Proof.
apply: (vec_inj (A := fun m => if m == 0%N then Dr else Lr) (B := fun m => if m == 1%N then Dt else Lt)
  (C := fun m => if m == 2%N then Dz else Lz)) => //.
- by case=> [|[|[|m]]].
- move=> x j m Hm; rewrite /get_Lambda_1; case: (qpoint t j) => [[j1 j2] j3].
  by case: (unravel_index s K1 x) => [c [[i1 i2] i3']] /=; case: m Hm => [|[|[|m]]].
Qed.
Lemma eval_inj2 (v : 'cV[F]_(fdim s K2)) :
  (forall j m, (j < nq)%N -> (m < 3)%N -> evaluate_at_xq (get_Lambda_2 s t) v j m = 0) -> v = 0.
Proof.
apply: (vec_inj (A := fun m => if m == 0%N then Lr else Dr) (B := fun m => if m == 1%N then Lt else Dt)
  (C := fun m => if m == 2%N then Lz else Dz)) => //.
- by case=> [|[|[|m]]].
- move=> x j m Hm; rewrite /get_Lambda_2; case: (qpoint t j) => [[j1 j2] j3].
  by case: (unravel_index s K2 x) => [c [[i1 i2] i3']] /=; case: m Hm => [|[|[|m]]].
Qed.
End EvalInj.

Section Invertible.
Variable F : realFieldType.
Variable S : drseq F.

Lemma tr_row_free n m (E : 'M[F]_(n, m)) (x : 'cV[F]_n) : row_free E -> E^T *m x = 0 -> x = 0.
Proof.
move=> HE H; apply: trmx_inj; rewrite trmx0; apply: (row_free0 HE).
by apply: trmx_inj; rewrite trmx_mul trmxK trmx0.
Qed.

Theorem masses_unit : geometry_pos S -> tables_indep (sh S) (tb S) ->
  (forall k, k <> KV -> row_free (E_ S k)) -> masses_invertible S.
Proof.
move=> Hp Ht HE; split.
- apply: (proj2 (@unit_iff F (n_q S) 1 _ _ _ (W0 S) _ _)); first by move=> j z Hj; apply: W0_pd.
  by move=> x H; apply: (tr_row_free (HE K0 _)) => //; apply: (eval_inj0 Ht).
- apply: (proj2 (@unit_iff F (n_q S) 3 _ _ _ (W1 S) _ _)); first by move=> j z Hj; apply: W1_pd.
  by move=> x H; apply: (tr_row_free (HE K1 _)) => //; apply: (eval_inj1 Ht).
- apply: (proj2 (@unit_iff F (n_q S) 3 _ _ _ (W2 S) _ _)); first by move=> j z Hj; apply: W2_pd.
  by move=> x H; apply: (tr_row_free (HE K2 _)) => //; apply: (eval_inj2 Ht).
- apply: (proj2 (@unit_iff F (n_q S) 1 _ _ _ (W3 S) _ _)); first by move=> j z Hj; apply: W3_pd.
  by move=> x H; apply: (tr_row_free (HE K3 _)) => //; apply: (eval_inj3 Ht).
Qed.
End Invertible.
