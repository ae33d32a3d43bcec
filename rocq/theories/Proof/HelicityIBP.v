(** Integration by parts for the metric-free pairing M12 of a discrete sequence, from bounds on
    univariate quadrature sums. *)
From Coq Require Import Ring Field.
From mathcomp Require Import all_ssreflect all_algebra zify.
From Verif Require Import Model.Forms Model.DeRham Spec.Cochain Spec.PolarSpace Spec.FreeDofs Spec.SeqSpec Spec.TopologySpec Spec.RelaxSpec Spec.HelicitySpec
  Proof.MCRing Proof.IndexLemmas Proof.SequenceAlg Proof.DeRhamAlg Proof.Complex Proof.SeqFacts Proof.RelaxAlg.
Set Implicit Arguments.
Unset Strict Implicit.
Unset Printing Implicit Defensive.
Import Order.TTheory GRing.Theory Num.Theory.
Local Open Scope ring_scope.

Section IBP.
Variable F : realFieldType.
Add Field Ffibp : (@mc_fth F).
Variable S : drseq F.
Variables nr nt nz : nat.
Notation s := (Shape nr nt nz true false false).
Hypothesis Hsh : sh S = s.
Notation t := (tb S).
Variables (wr wt wz : nat -> F).
Hypothesis Hw : forall j1 j2 j3, (j1 < qx t)%N -> (j2 < qy t)%N -> (j3 < qz t)%N ->
  w_j S ((j2 * qx t + j1) * qz t + j3)%N = wr j1 * wt j2 * wz j3.

Let Lr := rd nr (lam_r t).
Let Lt := rd nt (lam_t t).
Let Lz := rd nz (lam_z t).
Let Dr := rd (dr s) (dlam_r t).
Let Dt := rd (dt s) (dlam_t t).
Let Dz := rd (dz s) (dlam_z t).
Let dLr i j := dr_m1 s t i j - dr_cur s t i j.
Let dLt i j := dth_m1 s t i j - Dt i j.
Let dLz i j := dz_m1 s t i j - Dz i j.

Definition ipr (f : nat -> F) := \sum_(j < qx t) wr j * f j.
Definition ipt (f : nat -> F) := \sum_(j < qy t) wt j * f j.
Definition ipz (f : nat -> F) := \sum_(j < qz t) wz j * f j.

Lemma tri_sum (A B C : nat -> F) :
  \sum_(j < n_q S) w_j S j * (let: (j1, j2, j3) := qpoint t j in A j1 * B j2 * C j3) = ipr A * ipt B * ipz C.
Proof.
have -> : n_q S = (qy t * qx t * qz t)%N by rewrite /n_q (mulnC (qx t)).
rewrite /qpoint (sum_unravel3 (qy t) (qx t) (qz t)
  (fun x a => w_j S x * (let: (j1, j2, j3) := (let: (j2, j1, j3) := a in (j1, j2, j3)) in A j1 * B j2 * C j3))) /=.
rewrite exchange_big /= /ipr /ipt /ipz -mulrA mulr_suml; apply: eq_bigr => j1 _.
rewrite mulr_suml mulr_sumr; apply: eq_bigr => j2 _.
rewrite mulr_sumr mulr_sumr; apply: eq_bigr => j3 _.
by rewrite Hw //; move: (wr _) (wt _) (wz _) (A _) (B _) (C _) => *; mc_norm; ring.
Qed.

Variables (er et ez xr xt xz K : F).
Hypotheses (er0 : 0 <= er) (et0 : 0 <= et) (ez0 : 0 <= ez) (xr0 : 0 <= xr) (xt0 : 0 <= xt) (xz0 : 0 <= xz).
Hypotheses (Kr : er * xt * xz <= K) (Kt : xr * et * xz <= K) (Kz : xr * xt * ez <= K) (K0_ : 0 <= K).
Hypothesis Tr : forall i i', (0 < i)%N -> (i < nr.-1)%N -> (i' < nr.-1)%N ->
  `|ipr (fun j => dLr i j * Lr i' j + Lr i j * dLr i' j)| <= er.
Hypothesis Tt : forall i i', (i < nt)%N -> (i' < nt)%N -> `|ipt (fun j => dLt i j * Lt i' j + Lt i j * dLt i' j)| <= et.
Hypothesis Tz : forall i i', (i < nz)%N -> (i' < nz)%N -> `|ipz (fun j => dLz i j * Lz i' j + Lz i j * dLz i' j)| <= ez.
Hypothesis Xr : forall i i', (i < nr.-1)%N -> (i' < nr)%N -> `|ipr (fun j => Dr i j * Lr i' j)| <= xr.
Hypothesis Xt : forall i i', (i < nt)%N -> (i' < nt)%N -> `|ipt (fun j => Dt i j * Lt i' j)| <= xt.
Hypothesis Xz : forall i i', (i < nz)%N -> (i' < nz)%N -> `|ipz (fun j => Dz i j * Lz i' j)| <= xz.

Lemma ipr_ext f g : f =1 g -> ipr f = ipr g. Proof. by move=> H; apply: eq_bigr => j _; rewrite H. Qed.
Lemma tri_bound a b c x y z : 0 <= x -> 0 <= y -> `|a| <= x -> `|b| <= y -> `|c| <= z -> x * y * z <= K -> `|a * b * c| <= K.
Proof.
move=> Hx Hy Ha Hb Hc HK; apply: le_trans HK; rewrite !normrM; apply: ler_pmul => //; first exact: mulr_ge0.
exact: ler_pmul.
Qed.
(** a quadrature sum of products, up to sign *)
Lemma tri_case (f : nat -> F) (b : bool) (A B C : nat -> F) x y z :
  (forall j, f j = (-1) ^+ b * (let: (j1, j2, j3) := qpoint t j in A j1 * B j2 * C j3)) ->
  0 <= x -> 0 <= y -> `|ipr A| <= x -> `|ipt B| <= y -> `|ipz C| <= z -> x * y * z <= K ->
  `|\sum_(j < n_q S) w_j S j * f j| <= K.
Proof.
move=> Hf Hx Hy HA HB HC HK.
have -> : \sum_(j < n_q S) w_j S j * f j = (-1) ^+ b * (ipr A * ipt B * ipz C).
  rewrite -tri_sum mulr_sumr; apply: eq_bigr => j _; rewrite Hf mulrCA //.
by rewrite normrM normrX normrN1 expr1n mul1r; apply: tri_bound HK.
Qed.

Definition n1 (x y j : nat) : F :=
  \sum_(k < 3) (get_Lambda_1 s t x j k * get_d_Lambda_1 s t y j k - get_Lambda_1 s t y j k * get_d_Lambda_1 s t x j k).
Definition n0 (x y j : nat) : F :=
  \sum_(k < 3) get_d_Lambda_0 s t x j k * get_Lambda_2 s t y j k + get_Lambda_0 s t x j 0 * get_d_Lambda_2 s t y j 0.
Definition N1 (x y : nat) : F := \sum_(j < n_q S) w_j S j * n1 x y j.
Definition N0 (x y : nat) : F := \sum_(j < n_q S) w_j S j * n0 x y j.

Ltac expand H H' := let j := fresh "j" in intro j; rewrite /n1 /n0 /get_Lambda_1 /get_d_Lambda_1 /get_Lambda_0 /get_d_Lambda_0 /get_Lambda_2 /get_d_Lambda_2 ?H ?H' sum3O /=;
  case: (qpoint t j) => [[? ?] ?] /=; rewrite /dLr /dLt /dLz /Lr /Lt /Lz /Dr /Dt /Dz ?expr0 ?expr1;
  mc_norm; ring.

Lemma N1_bound x y c i1 i2 i3 c' k1 k2 k3 : unravel_index s K1 x = (c, (i1, i2, i3)) -> unravel_index s K1 y = (c', (k1, k2, k3)) ->
  (c < 3)%N -> (c' < 3)%N -> in_comp s K1 c (i1, i2, i3) -> in_comp s K1 c' (k1, k2, k3) ->
  (c = 1%N -> (0 < i1 < nr.-1)%N) -> (c' = 1%N -> (0 < k1 < nr.-1)%N) ->
  (c = 2%N -> (i1 < nr.-1)%N) -> (c' = 2%N -> (k1 < nr.-1)%N) ->
  `|N1 x y| <= K.
Proof.
move=> Ex Ey.
have Z : (forall j, n1 x y j = 0) -> `|N1 x y| <= K by move=> H; rewrite /N1 big1 ?normr0 // => j _; rewrite H mulr0.
move: c c' Ex Ey => [|[|[|c]]] // [|[|[|c']]] // Ex Ey _ _; rewrite !in1 /= => /and3P [Ha Hb Hc] /and3P [Hd He Hf] G1 G1' G2 G2'.
- by apply: Z; expand Ex Ey.
- apply: (@tri_case (n1 x y) true (fun j => Dr i1 j * Lr k1 j) (fun j => Dt k2 j * Lt i2 j) (fun j => dLz i3 j * Lz k3 j + Lz i3 j * dLz k3 j) xr xt ez) => //;
    [by expand Ex Ey | exact: Xr | exact: Xt | exact: Tz].
- apply: (@tri_case (n1 x y) false (fun j => Dr i1 j * Lr k1 j) (fun j => dLt i2 j * Lt k2 j + Lt i2 j * dLt k2 j) (fun j => Dz k3 j * Lz i3 j) xr et xz) => //;
    [by expand Ex Ey | exact: Xr | exact: Tt | exact: Xz].
- apply: (@tri_case (n1 x y) false (fun j => Dr k1 j * Lr i1 j) (fun j => Dt i2 j * Lt k2 j) (fun j => dLz i3 j * Lz k3 j + Lz i3 j * dLz k3 j) xr xt ez) => //;
    [by expand Ex Ey | exact: Xr | exact: Xt | exact: Tz].
- by apply: Z; expand Ex Ey.
- have /andP [A B] := G1 erefl; have C := G2' erefl.
  apply: (@tri_case (n1 x y) true (fun j => dLr i1 j * Lr k1 j + Lr i1 j * dLr k1 j) (fun j => Dt i2 j * Lt k2 j) (fun j => Dz k3 j * Lz i3 j) er xt xz) => //;
    [by expand Ex Ey | exact: Tr | exact: Xt | exact: Xz].
- apply: (@tri_case (n1 x y) true (fun j => Dr k1 j * Lr i1 j) (fun j => dLt i2 j * Lt k2 j + Lt i2 j * dLt k2 j) (fun j => Dz i3 j * Lz k3 j) xr et xz) => //;
    [by expand Ex Ey | exact: Xr | exact: Tt | exact: Xz].
- have /andP [A B] := G1' erefl; have C := G2 erefl.
  apply: (@tri_case (n1 x y) false (fun j => dLr k1 j * Lr i1 j + Lr k1 j * dLr i1 j) (fun j => Dt k2 j * Lt i2 j) (fun j => Dz i3 j * Lz k3 j) er xt xz) => //;
    [by expand Ex Ey | exact: Tr | exact: Xt | exact: Xz].
- by apply: Z; expand Ex Ey.
Qed.

Lemma N0_bound x y i0 i1 i2 i3 c' k1 k2 k3 : unravel_index s K0 x = (i0, (i1, i2, i3)) -> unravel_index s K2 y = (c', (k1, k2, k3)) ->
  (c' < 3)%N -> in_comp s K0 i0 (i1, i2, i3) -> in_comp s K2 c' (k1, k2, k3) ->
  (i1 < nr.-1)%N -> (c' = 0%N -> (0 < k1 < nr.-1)%N) ->
  `|N0 x y| <= K.
Proof.
move=> Ex Ey.
move: c' Ey => [|[|[|c']]] // Ey _; rewrite !in2 !in0 /= => /and3P [Ha Hb Hc] /and3P [Hd He Hf] G1 G1'.
- have /andP [A B] := G1' erefl.
  apply: (@tri_case (n0 x y) false (fun j => dLr k1 j * Lr i1 j + Lr k1 j * dLr i1 j) (fun j => Dt k2 j * Lt i2 j) (fun j => Dz k3 j * Lz i3 j) er xt xz) => //;
    [by expand Ex Ey | exact: Tr | exact: Xt | exact: Xz].
- apply: (@tri_case (n0 x y) false (fun j => Dr k1 j * Lr i1 j) (fun j => dLt i2 j * Lt k2 j + Lt i2 j * dLt k2 j) (fun j => Dz k3 j * Lz i3 j) xr et xz) => //;
    [by expand Ex Ey | exact: Xr | exact: Tt | exact: Xz].
- apply: (@tri_case (n0 x y) false (fun j => Dr k1 j * Lr i1 j) (fun j => Dt k2 j * Lt i2 j) (fun j => dLz i3 j * Lz k3 j + Lz i3 j * dLz k3 j) xr xt ez) => //;
    [by expand Ex Ey | exact: Xr | exact: Xt | exact: Tz].
Qed.

(** *** boundary values of the coefficients *)
Hypothesis Hr : (1 < nr)%N.
Hypothesis Hc0 : forall (f : 'cV_(rk S K0)) j l, (j < nt)%N -> (l < nz)%N -> coefs S K0 f 0%N nr.-1 j l = 0.
Hypothesis Hc1 : forall (a : 'cV_(rk S K1)) j l, (j < nt)%N -> (l < nz)%N ->
  [/\ coefs S K1 a 1%N 0%N j l = 0, coefs S K1 a 1%N nr.-1 j l = 0 & coefs S K1 a 2%N nr.-1 j l = 0].
Hypothesis Hc2 : forall (b : 'cV_(rk S K2)) j l, (j < nt)%N -> (l < nz)%N ->
  coefs S K2 b 0%N 0%N j l = 0 /\ coefs S K2 b 0%N nr.-1 j l = 0.

Lemma unravelP k x : (x < fdim (sh S) k)%N -> exists c i j l,
  [/\ unravel_index s k x = (c, (i, j, l)), (c < ncomp k)%N, in_comp s k c (i, j, l)
    & forall y : 'cV_(rk S k), coefs S k y c i j l = \sum_(x' < fdim (sh S) k | nat_of_ord x' == x) ((E_ S k)^T *m y) x' 0].
Proof.
move=> Hx; have := @ravel_unravel_index s k x; rewrite -Hsh Hx; case E : (unravel_index (sh S) k x) => [c [[i j] l]] /(_ isT) [A B C].
by exists c, i, j, l; split=> // y; rewrite /coefs C.
Qed.
Lemma coef_at k (x : 'I_(fdim (sh S) k)) : exists c i j l,
  [/\ unravel_index s k x = (c, (i, j, l)), (c < ncomp k)%N, in_comp s k c (i, j, l)
    & forall y : 'cV_(rk S k), coefs S k y c i j l = ((E_ S k)^T *m y) x 0].
Proof.
have [c [i [j [l [A B C D]]]]] := unravelP (ltn_ord x); exists c, i, j, l; split=> // y; rewrite D.
by rewrite (big_pred1 x) // => i'; apply/eqP/eqP => [/val_inj|->].
Qed.

Lemma term1 (a b : 'cV_(rk S K1)) (x y : 'I_(fdim (sh S) K1)) :
  `|((E_ S K1)^T *m a) x 0 * ((E_ S K1)^T *m b) y 0 * N1 x y| <= K * (`|((E_ S K1)^T *m a) x 0| * `|((E_ S K1)^T *m b) y 0|).
Proof.
have [c [i1 [i2 [i3 [Ex Cx Ix <-]]]]] := coef_at x.
have [c' [k1 [k2 [k3 [Ey Cy Iy <-]]]]] := coef_at y.
rewrite !normrM mulrC.
have [->|Na] := eqVneq (coefs S K1 a c i1 i2 i3) 0; first by rewrite normr0 !(mul0r, mulr0).
have [->|Nb] := eqVneq (coefs S K1 b c' k1 k2 k3) 0; first by rewrite normr0 !(mul0r, mulr0).
apply: ler_wpmul2r; first exact: mulr_ge0.
have E d e1 e2 e3 (u : 'cV_(rk S K1)) : in_comp s K1 d (e1, e2, e3) -> coefs S K1 u d e1 e2 e3 != 0 ->
    (d = 1%N -> (0 < e1 < nr.-1)%N) /\ (d = 2%N -> (e1 < nr.-1)%N).
  rewrite in1 => /and3P [H1 H2 H3] /eqP HN; split=> Ed; rewrite Ed /= in H1 HN.
  - have [A B C] := Hc1 u H2 H3; case: (posnP e1) => [E0|P0]; first by rewrite E0 in HN.
    rewrite /= ltn_neqAle -ltnS prednK ?H1 ?andbT; last exact: ltnW.
    by apply/eqP => E1; rewrite E1 in HN.
  - have [A B C] := Hc1 u H2 H3.
    rewrite ltn_neqAle -ltnS prednK ?H1 ?andbT; last exact: ltnW.
    by apply/eqP => E1; rewrite E1 in HN.
have [A1 A2] := E _ _ _ _ _ Ix Na; have [B1 B2] := E _ _ _ _ _ Iy Nb.
exact: (N1_bound Ex Ey).
Qed.
Lemma term0 (f : 'cV_(rk S K0)) (b : 'cV_(rk S K2)) (x : 'I_(fdim (sh S) K0)) (y : 'I_(fdim (sh S) K2)) :
  `|((E_ S K0)^T *m f) x 0 * ((E_ S K2)^T *m b) y 0 * N0 x y| <= K * (`|((E_ S K0)^T *m f) x 0| * `|((E_ S K2)^T *m b) y 0|).
Proof.
have [c [i1 [i2 [i3 [Ex Cx Ix <-]]]]] := coef_at x.
have [c' [k1 [k2 [k3 [Ey Cy Iy <-]]]]] := coef_at y.
rewrite !normrM mulrC.
have [->|Na] := eqVneq (coefs S K0 f c i1 i2 i3) 0; first by rewrite normr0 !(mul0r, mulr0).
have [->|Nb] := eqVneq (coefs S K2 b c' k1 k2 k3) 0; first by rewrite normr0 !(mul0r, mulr0).
apply: ler_wpmul2r; first exact: mulr_ge0.
apply: (N0_bound Ex Ey) => //.
- have := Ix; rewrite in0 => /and3P [H1 H2 H3]; rewrite ltn_neqAle -ltnS prednK ?H1 ?andbT; last exact: ltnW.
  apply/eqP => E1; move/eqP: Na; rewrite E1 (_ : c = 0%N); last by case: c Cx {Ex Ix E1}.
  by apply; apply: Hc0.
- move=> E0; move: Iy Nb; rewrite E0 in2 /= => /and3P [H1 H2 H3] /eqP HN; have [A B] := Hc2 b H2 H3.
  case: (posnP k1) => [E1|P0]; first by rewrite E1 in HN.
  rewrite /= ltn_neqAle -ltnS prednK ?H1 ?andbT; last exact: ltnW.
  by apply/eqP => E1; rewrite E1 in HN.
Qed.

(** *** the two rules, with the defect *)
Lemma bilin_bound (m n : nat) (a : 'I_m -> F) (b : 'I_n -> F) (N : 'I_m -> 'I_n -> F) :
  (forall x y, `|a x * b y * N x y| <= K * (`|a x| * `|b y|)) ->
  `|\sum_x \sum_y a x * b y * N x y| <= K * (\sum_x `|a x|) * (\sum_y `|b y|).
Proof.
move=> H; apply: le_trans (ler_norm_sum _ _ _) _; rewrite -mulrA mulr_suml mulr_sumr; apply: ler_sum => x _.
apply: le_trans (ler_norm_sum _ _ _) _; rewrite !mulr_sumr; apply: ler_sum => y _; exact: H.
Qed.

Let gL0 : get_Lambda_0 (sh S) t = get_Lambda_0 s t. Proof. by rewrite Hsh. Qed.
Let gd0 : get_d_Lambda_0 (sh S) t = get_d_Lambda_0 s t. Proof. by rewrite Hsh. Qed.
Let gL1 : get_Lambda_1 (sh S) t = get_Lambda_1 s t. Proof. by rewrite Hsh. Qed.
Let gd1 : get_d_Lambda_1 (sh S) t = get_d_Lambda_1 s t. Proof. by rewrite Hsh. Qed.
Let gL2 : get_Lambda_2 (sh S) t = get_Lambda_2 s t. Proof. by rewrite Hsh. Qed.
Let gd2 : get_d_Lambda_2 (sh S) t = get_d_Lambda_2 s t. Proof. by rewrite Hsh. Qed.
Lemma pairing1 (a b : 'cV_(rk S K1)) :
  \sum_(j < n_q S) (\sum_(k < 3) (val1 a j k * dval1 b j k)) * w_j S j - \sum_(j < n_q S) (\sum_(k < 3) (val1 b j k * dval1 a j k)) * w_j S j
  = \sum_x \sum_y ((E_ S K1)^T *m a) x 0 * ((E_ S K1)^T *m b) y 0 * N1 x y.
Proof.
transitivity (\sum_x \sum_y \sum_(j < n_q S) ((E_ S K1)^T *m a) x 0 * ((E_ S K1)^T *m b) y 0 * (w_j S j * n1 x y j)); last first.
  by apply: eq_bigr => x _; apply: eq_bigr => y _; rewrite /N1 mulr_sumr.
under [RHS]eq_bigr => x _ do rewrite exchange_big /=.
rewrite [RHS]exchange_big /= -sumrB; apply: eq_bigr => j _.
transitivity (\sum_x \sum_y \sum_(k < 3) ((E_ S K1)^T *m a) x 0 * ((E_ S K1)^T *m b) y 0 *
   (w_j S j * (get_Lambda_1 s t x j k * get_d_Lambda_1 s t y j k - get_Lambda_1 s t y j k * get_d_Lambda_1 s t x j k))); last first.
  by apply: eq_bigr => x _; apply: eq_bigr => y _; rewrite /n1 -!mulr_sumr.
under [RHS]eq_bigr => x _ do rewrite exchange_big /=.
rewrite [RHS]exchange_big /= -mulrBl -sumrB mulr_suml; apply: eq_bigr => k _.
rewrite /val1 /dval1 /evaluate_at_xq !gL1 !gd1.
have -> (p q r u : 'I_(fdim (sh S) K1) -> F) : (\sum_x p x) * (\sum_x q x) - (\sum_x r x) * (\sum_x u x)
    = \sum_x \sum_y (p x * q y - r y * u x).
  rewrite [(\sum_x r x) * _]mulrC !mulr_suml -sumrB; apply: eq_bigr => x _; rewrite !mulr_sumr -sumrB; apply: eq_bigr => y _.
  by rewrite [u x * _]mulrC.
rewrite mulr_suml; apply: eq_bigr => x _; rewrite mulr_suml; apply: eq_bigr => y _.
by mc_norm; ring.
Qed.
Lemma pairing0 (f : 'cV_(rk S K0)) (b : 'cV_(rk S K2)) :
  \sum_(j < n_q S) (\sum_(k < 3) (dval0 f j k * val2 b j k)) * w_j S j + \sum_(j < n_q S) val0 f j 0%N * dval2 b j 0%N * w_j S j
  = \sum_x \sum_y ((E_ S K0)^T *m f) x 0 * ((E_ S K2)^T *m b) y 0 * N0 x y.
Proof.
transitivity (\sum_x \sum_y \sum_(j < n_q S) ((E_ S K0)^T *m f) x 0 * ((E_ S K2)^T *m b) y 0 * (w_j S j * n0 x y j)); last first.
  by apply: eq_bigr => x _; apply: eq_bigr => y _; rewrite /N0 mulr_sumr.
under [RHS]eq_bigr => x _ do rewrite exchange_big /=.
rewrite [RHS]exchange_big /= -big_split; apply: eq_bigr => j _ /=.
rewrite /n0 !sum3O /= /val2 /dval0 /val0 /dval2 /evaluate_at_xq !gL0 !gd0 !gL2 !gd2.
have E (p q : nat -> F) : (\sum_(x < fdim (sh S) K0) p x * ((E_ S K0)^T *m f) x 0) * (\sum_(x < fdim (sh S) K2) q x * ((E_ S K2)^T *m b) x 0)
    = \sum_x \sum_y ((E_ S K0)^T *m f) x 0 * ((E_ S K2)^T *m b) y 0 * (p x * q y).
  rewrite mulr_suml; apply: eq_bigr => x _; rewrite mulr_sumr; apply: eq_bigr => y _; mc_norm; ring.
rewrite (E (fun x => get_d_Lambda_0 s t x j 0) (fun x => get_Lambda_2 s t x j 0)).
rewrite (E (fun x => get_d_Lambda_0 s t x j 1) (fun x => get_Lambda_2 s t x j 1)).
rewrite (E (fun x => get_d_Lambda_0 s t x j 2) (fun x => get_Lambda_2 s t x j 2)).
rewrite (E (fun x => get_Lambda_0 s t x j 0) (fun x => get_d_Lambda_2 s t x j 0)).
rewrite -mulrDl -!big_split mulr_suml; apply: eq_bigr => x _ /=; rewrite -!big_split mulr_suml; apply: eq_bigr => y _ /=.
by rewrite sum3O /=; mc_norm; ring.
Qed.
Lemma ibp_curl (C : 'M_(rk S K2, rk S K1)) (a b : 'cV_(rk S K1)) :
  (forall (y : 'cV_(rk S K1)) j k, (k < 3)%N -> dval1 y j k = val2 (C *m y) j k) ->
  (forall x y, form (M12 S) x y = \sum_(j < n_q S) (\sum_(k < 3) val1 x j k * val2 y j k) * w_j S j) ->
  `|form (M12 S) a (C *m b) - form (M12 S) b (C *m a)| <= K * coef_norm a * coef_norm b.
Proof.
move=> HC HM; rewrite !HM.
have E (u v : 'cV_(rk S K1)) : \sum_(j < n_q S) (\sum_(k < 3) val1 u j k * val2 (C *m v) j k) * w_j S j
    = \sum_(j < n_q S) (\sum_(k < 3) val1 u j k * dval1 v j k) * w_j S j.
  by apply: eq_bigr => j _; congr (_ * _); apply: eq_bigr => k _; rewrite HC.
by rewrite !E pairing1; apply: bilin_bound => x y; apply: term1.
Qed.
Lemma ibp_grad (G : 'M_(rk S K1, rk S K0)) (f : 'cV_(rk S K0)) (b : 'cV_(rk S K2)) :
  (forall (y : 'cV_(rk S K0)) j k, (k < 3)%N -> dval0 y j k = val1 (G *m y) j k) ->
  (forall x y, form (M12 S) x y = \sum_(j < n_q S) (\sum_(k < 3) val1 x j k * val2 y j k) * w_j S j) ->
  (forall j, dval2 b j 0%N = 0) ->
  `|form (M12 S) (G *m f) b| <= K * coef_norm f * coef_norm b.
Proof.
move=> HG HM Hb; rewrite HM.
have -> : \sum_(j < n_q S) (\sum_(k < 3) val1 (G *m f) j k * val2 b j k) * w_j S j
   = \sum_(j < n_q S) (\sum_(k < 3) dval0 f j k * val2 b j k) * w_j S j + \sum_(j < n_q S) val0 f j 0%N * dval2 b j 0%N * w_j S j.
  rewrite [X in _ = _ + X]big1 ?addr0; last by move=> j _; rewrite Hb mulr0 mul0r.
  by apply: eq_bigr => j _; congr (_ * _); apply: eq_bigr => k _; rewrite HG.
by rewrite pairing0; apply: bilin_bound => x y; apply: term0.
Qed.
Lemma ibp_green (G : 'M_(rk S K1, rk S K0)) (D : 'M_(rk S K3, rk S K2)) (f : 'cV_(rk S K0)) (b : 'cV_(rk S K2)) :
  (forall (y : 'cV_(rk S K0)) j k, (k < 3)%N -> dval0 y j k = val1 (G *m y) j k) ->
  (forall (y : 'cV_(rk S K2)) j, dval2 y j 0%N = val3 (D *m y) j 0%N) ->
  (forall x y, form (M12 S) x y = \sum_(j < n_q S) (\sum_(k < 3) val1 x j k * val2 y j k) * w_j S j) ->
  (forall x y, form (M03 S) x y = \sum_(j < n_q S) val0 x j 0%N * val3 y j 0%N * w_j S j) ->
  `|form (M12 S) (G *m f) b + form (M03 S) f (D *m b)| <= K * coef_norm f * coef_norm b.
Proof.
move=> HG HD HM HM3; rewrite HM HM3.
have -> : \sum_(j < n_q S) (\sum_(k < 3) val1 (G *m f) j k * val2 b j k) * w_j S j + \sum_(j < n_q S) val0 f j 0%N * val3 (D *m b) j 0%N * w_j S j
   = \sum_(j < n_q S) (\sum_(k < 3) dval0 f j k * val2 b j k) * w_j S j + \sum_(j < n_q S) val0 f j 0%N * dval2 b j 0%N * w_j S j.
  congr (_ + _); apply: eq_bigr => j _; last by rewrite HD.
  by congr (_ * _); apply: eq_bigr => k _; rewrite HG.
by rewrite pairing0; apply: bilin_bound => x y; apply: term0.
Qed.
End IBP.
