(** The row space of the polar extraction matrices (LazyExtractionOperator). *)
From Coq Require Import Ring Field.
From mathcomp Require Import all_ssreflect all_algebra.
From Verif Require Import Model.Forms Spec.Cochain Spec.PolarSpace Proof.IndexLemmas Proof.MCRing Proof.Incidence.
Set Implicit Arguments.
Unset Strict Implicit.
Unset Printing Implicit Defensive.
Import GRing.Theory.
Local Open Scope ring_scope.

Section Blocks.
Variable F : realFieldType.
Add Field Ff : (@mc_fth F).
Variable xi : nat -> nat -> nat -> F.
Implicit Types y : nat -> F.

Lemma sum_delta_k n3 k (f : nat -> F) : (k < n3)%N ->
  \sum_(m < n3) f m * (k == m)%:R = f k.
Proof.
move=> Hk; transitivity (\sum_(m < n3) (k == m)%:R * f m).
  by apply: eq_bigr => m _; rewrite mulrC.
by rewrite sum_delta Hk mul1r.
Qed.

Variables (N1 N2 N3 i j k : nat).
Hypotheses (Hi : (i < N1)%N) (Hj : (j < N2)%N) (Hk : (k < N3)%N).
Let x := ((i * N2 + j) * N3 + k)%N.

Lemma blk_in0 y :
  \sum_(r < (3 * N3)%N) y r * inner_zeroform xi r x N1 N2 N3
  = (i < 2)%N%:R * \sum_(p < 3) y (p * N3 + k)%N * xi p (minn i 1) j.
Proof.
rewrite (sum_rav2 3 N3 (fun r => y r * inner_zeroform xi r x N1 N2 N3)) mulr_sumr.
apply: eq_bigr => p _; rewrite mulrA mulrC.
transitivity (\sum_(m < N3) (xi p (minn i 1) j * (i < 2)%N%:R * y (p * N3 + m)%N) * (k == m)%:R).
  apply: eq_bigr => m _; rewrite /inner_zeroform unravel2_rav // unravel3_rav //.
  by mc_norm; ring.
by rewrite (sum_delta_k (fun m => xi p (minn i 1) j * (i < 2)%N%:R * y (p * N3 + m)%N)) // mulrA.
Qed.

Lemma blk_r y :
  \sum_(r < (2 * N3)%N) y r * inner_oneform_r xi r x N1 N2 N3
  = (i == 0%N)%:R * \sum_(p < 2) y (p * N3 + k)%N * xr xi p j.
Proof.
rewrite (sum_rav2 2 N3 (fun r => y r * inner_oneform_r xi r x N1 N2 N3)) mulr_sumr.
apply: eq_bigr => p _.
transitivity (\sum_(m < N3) (xr xi p j * (i == 0%N)%:R * y (p * N3 + m)%N) * (k == m)%:R).
  apply: eq_bigr => m _; rewrite /inner_oneform_r unravel2_rav // unravel3_rav // /xr.
  by mc_norm; ring.
rewrite (sum_delta_k (fun m => xr xi p j * (i == 0%N)%:R * y (p * N3 + m)%N)) //.
by mc_norm; ring.
Qed.

Lemma blk_t y :
  \sum_(r < (2 * N3)%N) y r * inner_oneform_t xi r x N1 N2 N3
  = (i == 1%N)%:R * \sum_(p < 2) y (p * N3 + k)%N * xt xi N2 p j.
Proof.
rewrite (sum_rav2 2 N3 (fun r => y r * inner_oneform_t xi r x N1 N2 N3)) mulr_sumr.
apply: eq_bigr => p _.
transitivity (\sum_(m < N3) (xt xi N2 p j * (i == 1%N)%:R * y (p * N3 + m)%N) * (k == m)%:R).
  apply: eq_bigr => m _; rewrite /inner_oneform_t unravel2_rav // unravel3_rav // /xt addn1.
  by mc_norm; ring.
rewrite (sum_delta_k (fun m => xt xi N2 p j * (i == 1%N)%:R * y (p * N3 + m)%N)) //.
by mc_norm; ring.
Qed.

(** a block of shifted unit rows *)
Lemma rav_inj a b c a' b' c' :
  (a < N1)%N -> (b < N2)%N -> (c < N3)%N -> (a' < N1)%N -> (b' < N2)%N -> (c' < N3)%N ->
  ((a * N2 + b) * N3 + c == (a' * N2 + b') * N3 + c')%N = [&& a == a', b == b' & c == c'].
Proof.
move=> Ha Hb Hc Ha' Hb' Hc'; apply/eqP/and3P => [E|[/eqP -> /eqP -> /eqP ->]] //.
have := unravel3_rav Ha Hb Hc; rewrite E unravel3_rav // => -[-> -> ->].
by rewrite !eqxx.
Qed.

Lemma blk_shift (d R : nat) y (el : nat -> F) : (d + R <= N1)%N ->
  (forall a b c, (a < R)%N -> (b < N2)%N -> (c < N3)%N ->
     el ((a * N2 + b) * N3 + c)%N = (x == ((a + d) * N2 + b) * N3 + c)%N%:R) ->
  \sum_(r < (R * N2 * N3)%N) y r * el r
  = if (d <= i < d + R)%N then y (((i - d) * N2 + j) * N3 + k)%N else 0.
Proof.
move=> HR Hel; rewrite (sum_rav3 R N2 N3 (fun r => y r * el r)).
transitivity (\sum_(a < R) \sum_(b < N2) \sum_(c < N3)
    y ((a * N2 + b) * N3 + c)%N * (i == a + d)%N%:R * (j == b)%:R * (k == c)%:R).
  apply: eq_bigr => a _; apply: eq_bigr => b _; apply: eq_bigr => c _.
  rewrite Hel // rav_inj //; last by rewrite addnC; apply: leq_trans HR; rewrite ltn_add2l.
  by rewrite -!mulrA; congr (_ * _); rewrite -!natrM !mulnb.
transitivity (\sum_(a < R) y ((a * N2 + j) * N3 + k)%N * (i == a + d)%N%:R).
  apply: eq_bigr => a _.
  transitivity (\sum_(b < N2) (y ((a * N2 + b) * N3 + k)%N * (i == a + d)%N%:R) * (j == b)%:R).
    apply: eq_bigr => b _.
    by rewrite (sum_delta_k (fun c => y ((a * N2 + b) * N3 + c)%N * (i == a + d)%N%:R * (j == b)%:R)).
  by rewrite (sum_delta_k (fun b => y ((a * N2 + b) * N3 + k)%N * (i == a + d)%N%:R)).
case: ifP => [/andP [H1 H2]|H].
- have H3 : (i - d < R)%N by rewrite ltn_subLR.
  rewrite (bigD1 (Ordinal H3)) //= subnK // eqxx mulr1 big1 ?addr0 // => a Ha.
  rewrite [_ == _](_ : _ = false) ?mulr0 //; apply/negbTE; apply: contra Ha => /eqP E.
  by apply/eqP/val_inj; rewrite /= E addnK.
- apply: big1 => a _; rewrite [_ == _](_ : _ = false) ?mulr0 //.
  apply/negbTE; apply/eqP => E; move: H; rewrite E leq_addl /= addnC ltn_add2l.
  by rewrite ltn_ord.
Qed.

Lemma blk_out (o : bool) y : (2 + o <= N1)%N ->
  \sum_(r < ((N1 - 2 - o) * N2 * N3)%N) y r * outer_zeroform F o r x N1 N2 N3
  = if (2 <= i < N1 - o)%N then y (((i - 2) * N2 + j) * N3 + k)%N else 0.
Proof.
move=> HN.
have E2 : (2 + (N1 - 2 - o) = N1 - o)%N.
  by rewrite -subnDA (addnC 2%N o) subnDA subnKC // leq_subRL ?(leq_trans _ HN) ?leq_addl // addnC.
rewrite (@blk_shift 2 (N1 - 2 - o) y (fun r => outer_zeroform F o r x N1 N2 N3)) ?E2 ?leq_subr //.
move=> a b c Ha Hb Hc; rewrite /outer_zeroform.
have Ha1 : (a + 2 < N1 - o)%N by rewrite -E2 addnC ltn_add2l.
have Ha2 : (a + 2 < N1)%N by apply: leq_trans Ha1 _; apply: leq_subr.
have Ha3 : (a < N1)%N by apply: leq_ltn_trans Ha2; apply: leq_addr.
rewrite unravel3_rav // ravel3E //.
have -> : (a != N1.-1).
  have HN0 : (0 < N1)%N by apply: leq_ltn_trans Ha3.
  by apply/eqP => E; move: Ha2; rewrite E addn2 prednK // ltnNge leqnSn.
by case: (o); rewrite mulr1.
Qed.

Lemma blk_3 y :
  \sum_(r < (N1.-1 * N2 * N3)%N) y r * threeform F r x N1 N2 N3
  = if (0 < i)%N then y ((i.-1 * N2 + j) * N3 + k)%N else 0.
Proof.
have HN : (0 < N1)%N by apply: leq_ltn_trans Hi.
rewrite (@blk_shift 1 N1.-1 y (fun r => threeform F r x N1 N2 N3)).
- by rewrite add1n prednK // Hi andbT subn1.
- by rewrite add1n prednK.
- move=> a b c Ha Hb Hc; rewrite /threeform.
  have Ha1 : (a + 1 < N1)%N by rewrite addn1 -(prednK HN) ltnS.
  rewrite unravel3_rav //; last by apply: leq_ltn_trans Ha1; apply: leq_addr.
  by rewrite ravel3E.
Qed.
End Blocks.

Section Rows.
Variable F : realFieldType.
Add Field Ff2 : (@mc_fth F).
Variable xi : nat -> nat -> nat -> F.
Variables (nr nt nz : nat) (o : bool).
Let s := Shape nr nt nz true false false.
Hypothesis Hnr : (2 + o <= nr)%N.
Implicit Types y : nat -> F.

Lemma sum_cast n m (f : nat -> F) : n = m -> \sum_(r < n) f r = \sum_(r < m) f r.
Proof. by move=> ->. Qed.

Lemma pvi0 k r : is_scalar k = false -> (r < pn1 s o k)%N -> pvector_index s o k r = (0%N, r).
Proof.
move=> Hk Hx; rewrite /pvector_index Hk.
have -> : (pn1 s o k <= r)%N = false by rewrite leqNgt Hx.
have -> : (pn1 s o k + pn2 s o k <= r)%N = false.
  by apply/negbTE; rewrite -ltnNge; apply: leq_trans Hx _; rewrite leq_addr.
by rewrite !muln0 !subn0.
Qed.
Lemma pvi1 k r : is_scalar k = false -> (r < pn2 s o k)%N -> pvector_index s o k (pn1 s o k + r) = (1%N, r).
Proof.
move=> Hk Hx; rewrite /pvector_index Hk leq_addr leq_add2l leqNgt Hx /=.
by rewrite muln0 subn0 muln1 addKn.
Qed.
Lemma pvi2 k r : is_scalar k = false -> pvector_index s o k (pn1 s o k + pn2 s o k + r) = (2%N, r).
Proof.
move=> Hk; rewrite /pvector_index Hk leq_addr -addnA leq_addr !muln1.
by rewrite addKn addKn.
Qed.

Definition pe k y (x : nat) : F := \sum_(r < pdim s o k) y r * polar_element xi s o k r x.

Lemma vecidx k c i j l : (c < 3)%N -> is_scalar k = false -> in_comp s k c (i, j, l) ->
  vector_index s k (ravel_index s k c i j l) = (c, ravel3 (cshape s k c) i j l).
Proof.
move=> Hc Hk Hin; rewrite /ravel_index Hk.
have Hlt : (ravel3 (cshape s k c) i j l < tsize (cshape s k c))%N.
  by move: Hin; rewrite /in_comp; case: (cshape s k c) => [[a b] d] /and3P [*]; rewrite ravel3_lt.
case: c Hc Hin Hlt => [|[|[|c]]] // _ Hin Hlt /=.
- by rewrite vi0.
- by rewrite vi1 // /fn2 Hk.
- by rewrite vi2.
Qed.

Lemma drE : dr s = nr.-1. Proof. by rewrite /dr /= subn1. Qed.
Lemma dtE : dt s = nt. Proof. by rewrite /dt /= subn0. Qed.
Lemma dzE : dz s = nz. Proof. by rewrite /dz /= subn0. Qed.

Lemma sum_if_lt n m (f g : nat -> F) (h : nat -> F) :
  \sum_(r < (n + m)%N) h r * (if (r < n)%N then f r else g (r - n)%N)
  = \sum_(r < n) h r * f r + \sum_(r < m) h (n + r)%N * g r.
Proof.
rewrite (sum_add2 n m (fun r => h r * (if (r < n)%N then f r else g (r - n)%N))).
congr (_ + _); apply: eq_bigr => r _; first by rewrite ltn_ord.
by rewrite ltnNge leq_addr /= addKn.
Qed.

Lemma pe0 y i j l : (i < nr)%N -> (j < nt)%N -> (l < nz)%N ->
  pe K0 y (ravel_index s K0 0 i j l)
  = (i < 2)%N%:R * (\sum_(p < 3) y (p * nz + l)%N * xi p (minn i 1) j)
    + (if (2 <= i < nr - o)%N then y (3 * nz + (((i - 2) * nt + j) * nz + l))%N else 0).
Proof.
move=> Hi Hj Hl; rewrite /pe /ravel_index /= ravel3E //.
set x := (_ + l)%N.
rewrite (@sum_cast _ (3 * nz + (nr - 2 - o) * nt * nz) (fun r => y r * polar_element xi s o K0 r x)); last first.
  by rewrite /pdim /= !addn0 mulnDl addnC.
rewrite (sum_if_lt (3 * nz) ((nr - 2 - o) * nt * nz) (fun r => inner_zeroform xi r x nr nt nz)
           (fun r => outer_zeroform F o r x nr nt nz) y).
by rewrite blk_in0 // (@blk_out _ _ _ _ _ _ _ Hi Hj Hl o (fun r => y (3 * nz + r)%N)).
Qed.

Lemma pe3 y i j l : (i < nr.-1)%N -> (j < nt)%N -> (l < nz)%N ->
  pe K3 y (ravel_index s K3 0 i j l)
  = if (0 < i)%N then y ((i.-1 * nt + j) * nz + l)%N else 0.
Proof.
move=> Hi Hj Hl; rewrite /pe /ravel_index /= !(drE, dtE, dzE) ravel3E //.
have Hi' : (i < nr)%N by apply: leq_trans Hi (leq_pred _).
set x := (_ + l)%N.
rewrite (@sum_cast _ (nr.-1.-1 * nt * nz) (fun r => y r * polar_element xi s o K3 r x)); last first.
  by rewrite /pdim /= !addn0 !(drE, dtE, dzE).
rewrite (@blk_shift _ _ _ _ _ _ _ Hi' Hj Hl 1 nr.-1.-1 y (fun r => polar_element xi s o K3 r x)).
- case: (posnP i) => [->|H0] //=.
  rewrite add1n prednK ?Hi ?subn1 //; by apply: leq_ltn_trans Hi.
- by rewrite add1n; apply: leq_trans (leq_pred nr); case: (nr.-1) Hi.
- move=> a b c Ha Hb Hc; rewrite /polar_element /= /threeform.
  have H1 : (a.+1 < nr.-1)%N by move: Ha; case: (nr.-1).
  have H2 : (a.+1 < nr)%N by apply: leq_trans H1 (leq_pred _).
  rewrite unravel3_rav //; last by apply: ltnW.
  by rewrite addn1 ravel3E.
Qed.

(** rows of a 1-form, split into blocks; a0, a1, a2 are the offsets *)
Let a1 := (nr.-1.-1 * nt * nz)%N.
Let a2 := (a1 + ((nr - 2 - o) * nt + 2) * nz)%N.
Lemma pn1_K1 : pn1 s o K1 = a1. Proof. by rewrite /pn1 /= drE. Qed.
Lemma pn2_K1 : (pn1 s o K1 + pn2 s o K1)%N = a2. Proof. by rewrite pn1_K1 /pn2 /= dtE. Qed.

Lemma pe1_split y c i j l : (c < 3)%N -> in_comp s K1 c (i, j, l) ->
  let x := ravel3 (cshape s K1 c) i j l in
  pe K1 y (ravel_index s K1 c i j l)
  = \sum_(r < a1) y r * (threeform F r x (dr s) nt nz * (0%N == c)%:R)
  + (\sum_(r < (2 * nz)%N) y (a1 + r)%N *
        (inner_oneform_r xi r x (dr s) nt nz * (c == 0%N)%:R + inner_oneform_t xi r x nr (dt s) nz * (c == 1%N)%:R)
     + \sum_(r < ((nr - 2 - o) * nt * nz)%N) y (a1 + (2 * nz + r))%N *
        (outer_zeroform F o r x nr (dt s) nz * (1%N == c)%:R))
  + (\sum_(r < (3 * nz)%N) y (a2 + r)%N * (inner_zeroform xi r x nr nt (dz s) * (2%N == c)%:R)
     + \sum_(r < ((nr - 2 - o) * nt * nz)%N) y (a2 + (3 * nz + r))%N *
        (outer_zeroform F o r x nr nt (dz s) * (2%N == c)%:R)).
Proof.
move=> Hc Hin x.
have Hv : vector_index s K1 (ravel_index s K1 c i j l) = (c, x) by apply: vecidx.
rewrite /pe /pdim (sum_add3 _ _ _ (fun r => y r * polar_element xi s o K1 r (ravel_index s K1 c i j l))).
congr (_ + _ + _).
- rewrite (@sum_cast _ a1 (fun r => y r * polar_element xi s o K1 r (ravel_index s K1 c i j l))) ?pn1_K1 //.
  by apply: eq_bigr => r _; rewrite /polar_element pvi0 ?pn1_K1 // Hv.
- rewrite -(sum_if_lt (2 * nz) ((nr - 2 - o) * nt * nz)
    (fun r => inner_oneform_r xi r x (dr s) nt nz * (c == 0%N)%:R + inner_oneform_t xi r x nr (dt s) nz * (c == 1%N)%:R)
    (fun r => outer_zeroform F o r x nr (dt s) nz * (1%N == c)%:R) (fun r => y (a1 + r)%N)).
  have En : pn2 s o K1 = (2 * nz + (nr - 2 - o) * nt * nz)%N by rewrite /pn2 /= dtE mulnDl addnC.
  rewrite -En; apply: eq_bigr => r _.
  by rewrite /polar_element pvi1 // Hv pn1_K1.
- rewrite -(sum_if_lt (3 * nz) ((nr - 2 - o) * nt * nz)
    (fun r => inner_zeroform xi r x nr nt (dz s) * (2%N == c)%:R)
    (fun r => outer_zeroform F o r x nr nt (dz s) * (2%N == c)%:R) (fun r => y (a2 + r)%N)).
  have En : pn3 s o K1 = (3 * nz + (nr - 2 - o) * nt * nz)%N by rewrite /pn3 /= dzE mulnDl addnC.
  rewrite -En; apply: eq_bigr => r _.
  rewrite /polar_element pvi2 // Hv pn2_K1 /=; move: (nat_of_ord r) => r'.
  by rewrite dzE.
Qed.

Ltac bsum := solve [ apply: eq_bigr => r _; rewrite ?mulr1 ?mulr0 ?addr0 ?add0r ?subr0 ?sub0r // | by apply: big1 => r _; rewrite ?mulr0 ?subr0 ?addr0 ?mulr0 ].

Lemma pe1_0 y i j l : (i < nr.-1)%N -> (j < nt)%N -> (l < nz)%N ->
  pe K1 y (ravel_index s K1 0 i j l)
  = (if (0 < i)%N then y ((i.-1 * nt + j) * nz + l)%N else 0)
    + (i == 0%N)%:R * \sum_(p < 2) y (a1 + (p * nz + l))%N * xr xi p j.
Proof.
move=> Hi Hj Hl; rewrite pe1_split //; last by rewrite /in_comp /= drE Hi Hj Hl.
rewrite /= drE ravel3E //; set x := (_ + l)%N.
transitivity (\sum_(r < a1) y r * threeform F r x nr.-1 nt nz
  + (\sum_(r < (2 * nz)%N) y (a1 + r)%N * inner_oneform_r xi r x nr.-1 nt nz + 0) + (0 + 0)).
  by congr (_ + (_ + _) + (_ + _)); bsum.
by rewrite !addr0 blk_3 // (@blk_r _ _ _ _ _ _ _ _ Hi Hj Hl (fun r => y (a1 + r)%N)).
Qed.

Lemma pe1_1 y i j l : (i < nr)%N -> (j < nt)%N -> (l < nz)%N ->
  pe K1 y (ravel_index s K1 1 i j l)
  = (i == 1%N)%:R * (\sum_(p < 2) y (a1 + (p * nz + l))%N * xt xi nt p j)
    + (if (2 <= i < nr - o)%N then y (a1 + (2 * nz + (((i - 2) * nt + j) * nz + l)))%N else 0).
Proof.
move=> Hi Hj Hl; rewrite pe1_split //; last by rewrite /in_comp /= dtE Hi Hj Hl.
rewrite /= dtE ravel3E //; set x := (_ + l)%N.
transitivity (0 + (\sum_(r < (2 * nz)%N) y (a1 + r)%N * inner_oneform_t xi r x nr nt nz
   + \sum_(r < ((nr - 2 - o) * nt * nz)%N) y (a1 + (2 * nz + r))%N * outer_zeroform F o r x nr nt nz) + (0 + 0)).
  by congr (_ + (_ + _) + (_ + _)); bsum.
rewrite !addr0 add0r (@blk_t _ _ _ _ _ _ _ _ Hi Hj Hl (fun r => y (a1 + r)%N)).
by rewrite (@blk_out _ _ _ _ _ _ _ Hi Hj Hl o (fun r => y (a1 + (2 * nz + r))%N)).
Qed.

Lemma pe1_2 y i j l : (i < nr)%N -> (j < nt)%N -> (l < nz)%N ->
  pe K1 y (ravel_index s K1 2 i j l)
  = (i < 2)%N%:R * (\sum_(p < 3) y (a2 + (p * nz + l))%N * xi p (minn i 1) j)
    + (if (2 <= i < nr - o)%N then y (a2 + (3 * nz + (((i - 2) * nt + j) * nz + l)))%N else 0).
Proof.
move=> Hi Hj Hl; rewrite pe1_split //; last by rewrite /in_comp /= dzE Hi Hj Hl.
rewrite /= dzE ravel3E //; set x := (_ + l)%N.
transitivity (0 + (0 + 0) + (\sum_(r < (3 * nz)%N) y (a2 + r)%N * inner_zeroform xi r x nr nt nz
   + \sum_(r < ((nr - 2 - o) * nt * nz)%N) y (a2 + (3 * nz + r))%N * outer_zeroform F o r x nr nt nz)).
  by congr (_ + (_ + _) + (_ + _)); bsum.
rewrite !add0r (@blk_in0 _ _ _ _ _ _ _ _ Hi Hj Hl (fun r => y (a2 + r)%N)).
by rewrite (@blk_out _ _ _ _ _ _ _ Hi Hj Hl o (fun r => y (a2 + (3 * nz + r))%N)).
Qed.

(** 2-forms *)
Let b1 := (((nr - 2 - o) * nt + 2) * nz)%N.
Let b2 := (b1 + nr.-1.-1 * nt * nz)%N.
Lemma pn1_K2 : pn1 s o K2 = b1. Proof. by rewrite /pn1 /= dtE dzE. Qed.
Lemma pn2_K2 : (pn1 s o K2 + pn2 s o K2)%N = b2. Proof. by rewrite pn1_K2 /pn2 /= drE dzE. Qed.

Lemma pe2_split y c i j l : (c < 3)%N -> in_comp s K2 c (i, j, l) ->
  let x := ravel3 (cshape s K2 c) i j l in
  pe K2 y (ravel_index s K2 c i j l)
  = (\sum_(r < (2 * nz)%N) y r *
        (inner_oneform_t xi r x nr (dt s) (dz s) * (c == 0%N)%:R - inner_oneform_r xi r x (dr s) nt (dz s) * (c == 1%N)%:R)
     + \sum_(r < ((nr - 2 - o) * nt * nz)%N) y (2 * nz + r)%N *
        (outer_zeroform F o r x nr (dt s) (dz s) * (0%N == c)%:R))
  + \sum_(r < (nr.-1.-1 * nt * nz)%N) y (b1 + r)%N * (threeform F r x (dr s) nt (dz s) * (1%N == c)%:R)
  + \sum_(r < (nr.-1.-1 * nt * nz)%N) y (b2 + r)%N * (threeform F r x (dr s) (dt s) nz * (2%N == c)%:R).
Proof.
move=> Hc Hin x.
have Hv : vector_index s K2 (ravel_index s K2 c i j l) = (c, x) by apply: vecidx.
rewrite /pe /pdim (sum_add3 _ _ _ (fun r => y r * polar_element xi s o K2 r (ravel_index s K2 c i j l))).
congr (_ + _ + _).
- rewrite -(sum_if_lt (2 * nz) ((nr - 2 - o) * nt * nz)
    (fun r => inner_oneform_t xi r x nr (dt s) (dz s) * (c == 0%N)%:R - inner_oneform_r xi r x (dr s) nt (dz s) * (c == 1%N)%:R)
    (fun r => outer_zeroform F o r x nr (dt s) (dz s) * (0%N == c)%:R) y).
  have En : pn1 s o K2 = (2 * nz + (nr - 2 - o) * nt * nz)%N by rewrite /pn1 /= dtE dzE mulnDl addnC.
  rewrite -En; apply: eq_bigr => r _.
  by rewrite /polar_element pvi0 // Hv.
- have En : pn2 s o K2 = (nr.-1.-1 * nt * nz)%N by rewrite /pn2 /= drE dzE.
  rewrite -En; apply: eq_bigr => r _.
  by rewrite /polar_element pvi1 // Hv pn1_K2.
- have En : pn3 s o K2 = (nr.-1.-1 * nt * nz)%N by rewrite /pn3 /= drE dtE.
  rewrite -En; apply: eq_bigr => r _.
  by rewrite /polar_element pvi2 // Hv pn2_K2.
Qed.

Lemma pe2_0 y i j l : (i < nr)%N -> (j < nt)%N -> (l < nz)%N ->
  pe K2 y (ravel_index s K2 0 i j l)
  = (i == 1%N)%:R * (\sum_(p < 2) y (p * nz + l)%N * xt xi nt p j)
    + (if (2 <= i < nr - o)%N then y (2 * nz + (((i - 2) * nt + j) * nz + l))%N else 0).
Proof.
move=> Hi Hj Hl; rewrite pe2_split //; last by rewrite /in_comp /= dtE dzE Hi Hj Hl.
rewrite /= dtE dzE ravel3E //; set x := (_ + l)%N.
transitivity ((\sum_(r < (2 * nz)%N) y r * inner_oneform_t xi r x nr nt nz
   + \sum_(r < ((nr - 2 - o) * nt * nz)%N) y (2 * nz + r)%N * outer_zeroform F o r x nr nt nz) + 0 + 0).
  by congr ((_ + _) + _ + _); bsum.
rewrite !addr0 (@blk_t _ _ _ _ _ _ _ _ Hi Hj Hl y).
by rewrite (@blk_out _ _ _ _ _ _ _ Hi Hj Hl o (fun r => y (2 * nz + r)%N)).
Qed.

Lemma pe2_1 y i j l : (i < nr.-1)%N -> (j < nt)%N -> (l < nz)%N ->
  pe K2 y (ravel_index s K2 1 i j l)
  = - ((i == 0%N)%:R * \sum_(p < 2) y (p * nz + l)%N * xr xi p j)
    + (if (0 < i)%N then y (b1 + ((i.-1 * nt + j) * nz + l))%N else 0).
Proof.
move=> Hi Hj Hl; rewrite pe2_split //; last by rewrite /in_comp /= drE dzE Hi Hj Hl.
rewrite /= drE dzE ravel3E //; set x := (_ + l)%N.
transitivity ((\sum_(r < (2 * nz)%N) y r * (- inner_oneform_r xi r x nr.-1 nt nz) + 0)
   + \sum_(r < (nr.-1.-1 * nt * nz)%N) y (b1 + r)%N * threeform F r x nr.-1 nt nz + 0).
  by congr ((_ + _) + _ + _); bsum.
rewrite !addr0 (@blk_3 _ _ _ _ _ _ _ Hi Hj Hl (fun r => y (b1 + r)%N)); congr (_ + _).
rewrite -(@blk_r _ _ _ _ _ _ _ _ Hi Hj Hl y) -sumrN; apply: eq_bigr => r _.
by rewrite mulrN.
Qed.

Lemma pe2_2 y i j l : (i < nr.-1)%N -> (j < nt)%N -> (l < nz)%N ->
  pe K2 y (ravel_index s K2 2 i j l)
  = (if (0 < i)%N then y (b2 + ((i.-1 * nt + j) * nz + l))%N else 0).
Proof.
move=> Hi Hj Hl; rewrite pe2_split //; last by rewrite /in_comp /= drE dtE Hi Hj Hl.
rewrite /= drE dtE ravel3E //; set x := (_ + l)%N.
transitivity ((0 + 0) + 0 + \sum_(r < (nr.-1.-1 * nt * nz)%N) y (b2 + r)%N * threeform F r x nr.-1 nt nz).
  by congr ((_ + _) + _ + _); bsum.
by rewrite !add0r (@blk_3 _ _ _ _ _ _ _ Hi Hj Hl (fun r => y (b2 + r)%N)).
Qed.
End Rows.

(** building a flat row vector block by block *)
Section Build.
Variable F : realFieldType.
Definition blk (m : nat) (a b : nat -> F) (r : nat) : F := if (r < m)%N then a r else b (r - m)%N.
Definition un2 (n : nat) (f : nat -> nat -> F) (r : nat) : F := f (r %/ n)%N (r %% n)%N.
Definition un3 (b c : nat) (f : nat -> nat -> nat -> F) (r : nat) : F :=
  f (r %/ (b * c))%N ((r %/ c) %% b)%N (r %% c)%N.
Lemma blkl m a b r : (r < m)%N -> blk m a b r = a r. Proof. by rewrite /blk => ->. Qed.
Lemma blkr m a b r : blk m a b (m + r) = b r.
Proof. by rewrite /blk ltnNge leq_addr /= addKn. Qed.
Lemma un2E n f p l : (l < n)%N -> un2 n f (p * n + l) = f p l.
Proof.
move=> Hl; have Hn : (0 < n)%N by apply: leq_ltn_trans Hl.
by rewrite /un2 divnMDl // divn_small // addn0 modnMDl modn_small.
Qed.
Lemma un3E b c f i j k : (j < b)%N -> (k < c)%N -> un3 b c f ((i * b + j) * c + k) = f i j k.
Proof.
move=> Hj Hk; have Hb : (0 < b)%N by apply: leq_ltn_trans Hj.
have Hc : (0 < c)%N by apply: leq_ltn_trans Hk.
rewrite /un3 (mulnC b c) divnMA divnMDl // (divn_small Hk) addn0 divnMDl // (divn_small Hj) addn0.
by rewrite modnMDl (modn_small Hj) modnMDl modn_small.
Qed.
End Build.

Section Span.
Variable F : realFieldType.
Add Field Ff3 : (@mc_fth F).
Variable xi : nat -> nat -> nat -> F.
Variables (nr nt nz : nat) (o : bool).
Let s := Shape nr nt nz true false false.
Hypothesis Hnr : (2 + o <= nr)%N.
Let Hnr2 : (1 < nr)%N. Proof. by apply: leq_trans Hnr; rewrite leq_addr. Qed.
Let Hnr1 : (0 < nr)%N. Proof. exact: ltnW. Qed.
Let Hnrp : (0 < nr.-1)%N. Proof. by rewrite -ltnS prednK. Qed.
Notation pe := (pe xi nr nt nz o).

Let last_out : o -> (2 <= nr.-1 < nr - o)%N = false.
Proof. by move=> ->; rewrite subn1 ltnn andbF. Qed.
Lemma not1 i : o -> i = nr.-1 -> (i == 1%N) = false /\ (i < 2)%N = false.
Proof.
move=> Ho ->; have H : (2 <= nr.-1)%N by move: Hnr; rewrite Ho; case: (nr).
by rewrite ltnNge H; split=> //; apply/negbTE; rewrite neq_ltn H orbT.
Qed.
Let lastlt : (nr.-1 < nr)%N. Proof. by rewrite prednK. Qed.

Lemma pe_pol0 y : pol0 xi nr nt nz o (coch s K0 (pe K0 y)).
Proof.
exists (fun p l => y (p * nz + l)%N) => j l Hj Hl; split.
- move=> i Hi; rewrite /coch pe0 //; last by apply: leq_trans Hi Hnr2.
  rewrite Hi mul1r ltnNge -ltnS Hi /= addr0.
  by have -> : minn i 1 = i by apply/minn_idPl.
- move=> Ho; rewrite /coch pe0 // last_out // addr0.
  by have [_ ->] := not1 Ho erefl; rewrite mul0r.
Qed.

Lemma flat_eq k (v w : nat -> F) :
  (forall c i j l, (c < ncomp k)%N -> in_comp s k c (i, j, l) -> coch s k v c i j l = coch s k w c i j l) ->
  forall x, (x < fdim s k)%N -> v x = w x.
Proof.
move=> H x Hx; have := ravel_unravel_index Hx.
case: (unravel_index s k x) => [c [[i j] l]] [Hc Hin <-].
exact: H.
Qed.

Lemma case_i i : (i < nr)%N -> [\/ (i < 2)%N, (2 <= i < nr - o)%N | o /\ i = nr.-1].
Proof.
move=> Hi; case: (ltnP i 2) => H2; first by constructor 1.
case: (ltnP i (nr - o)) => H3; first by constructor 2.
constructor 3; case: o H3 => [|]; last by rewrite subn0 leqNgt Hi.
rewrite subn1 => H3; split=> //; apply/eqP; rewrite eqn_leq H3 andbT.
by rewrite -ltnS prednK.
Qed.

Lemma sum3E (f : nat -> F) : \sum_(p < 3) f p = f 0%N + f 1%N + f 2%N.
Proof. by rewrite !big_ord_recl big_ord0 /= addr0 addrA. Qed.
Lemma sum2E (f : nat -> F) : \sum_(p < 2) f p = f 0%N + f 1%N.
Proof. by rewrite !big_ord_recl big_ord0 /= addr0. Qed.

Lemma pol0_span v : pol0 xi nr nt nz o (coch s K0 v) ->
  exists y, forall x, (x < fdim s K0)%N -> v x = pe K0 y x.
Proof.
move=> [ga H].
exists (blk (3 * nz) (un2 nz ga) (un3 nt nz (fun i j l => coch s K0 v 0%N i.+2 j l))).
apply: flat_eq => c i j l; rewrite /ncomp /= ltnS leqn0 => /eqP ->.
rewrite /in_comp /= => /and3P [Hi Hj Hl].
have [H1 H2] := H j l Hj Hl; rewrite [RHS]/coch pe0 //.
case: (case_i Hi) => Hc.
- rewrite H1 // Hc mul1r ltnNge -ltnS Hc /= addr0.
  have -> : minn i 1 = i by apply/minn_idPl.
  apply: eq_bigr => p _; rewrite blkl ?un2E //; exact: rav2_lt.
- rewrite Hc; have /andP [Hc1 _] := Hc.
  by rewrite ltnNge Hc1 mul0r add0r blkr un3E // (_ : (i - 2).+2 = i) //; rewrite -[in RHS](subnK Hc1) addn2.
- have [Ho Ei] := Hc; rewrite Ei H2 // last_out //.
  by have [_ ->] := not1 Ho erefl; rewrite mul0r addr0.
Qed.

Lemma pe_pol1 y : pol1 xi nr nt nz o (coch s K1 (pe K1 y)).
Proof.
exists (fun p l => y (nr.-1.-1 * nt * nz + (p * nz + l))%N),
       (fun p l => y (nr.-1.-1 * nt * nz + ((nr - 2 - o) * nt + 2) * nz + (p * nz + l))%N) => j l Hj Hl; split.
- by rewrite /coch pe1_0 // add0r mul1r.
- by rewrite /coch pe1_1 // mul0r addr0.
- by rewrite /coch pe1_1 //= mul1r addr0.
- move=> i Hi; rewrite /coch pe1_2 //; last by apply: leq_trans Hi Hnr2.
  rewrite Hi mul1r ltnNge -ltnS Hi /= addr0.
  by have -> : minn i 1 = i by apply/minn_idPl.
- move=> Ho; rewrite /coch pe1_1 // pe1_2 // !last_out //.
  by have [-> ->] := not1 Ho erefl; rewrite !mul0r !addr0.
Qed.

Lemma pol1_span v : pol1 xi nr nt nz o (coch s K1 v) ->
  exists y, forall x, (x < fdim s K1)%N -> v x = pe K1 y x.
Proof.
move=> [al [ga H]].
exists (blk (nr.-1.-1 * nt * nz) (un3 nt nz (fun i j l => coch s K1 v 0%N i.+1 j l))
  (blk (((nr - 2 - o) * nt + 2) * nz)
     (blk (2 * nz) (un2 nz al) (un3 nt nz (fun i j l => coch s K1 v 1%N i.+2 j l)))
     (blk (3 * nz) (un2 nz ga) (un3 nt nz (fun i j l => coch s K1 v 2%N i.+2 j l))))).
set A := (nr.-1.-1 * nt * nz)%N; set B := (((nr - 2 - o) * nt + 2) * nz)%N.
have EB : B = (2 * nz + (nr - 2 - o) * nt * nz)%N by rewrite /B mulnDl addnC.
have HB2 r : (r < 2 * nz)%N -> (r < B)%N by move=> Hr; rewrite EB; apply: ltn_addr.
have inB i j l : (2 <= i < nr - o)%N -> (j < nt)%N -> (l < nz)%N -> (2 * nz + (((i - 2) * nt + j) * nz + l) < B)%N.
  move=> /andP [Hi1 Hi2] Hj Hl; rewrite EB ltn_add2l; apply: rav2_lt => //; apply: rav2_lt => //.
  by rewrite -subnDA addnC subnDA ltn_sub2r // (leq_ltn_trans Hi1).
apply: flat_eq => c i j l; rewrite /ncomp /=; case: c => [|[|[|c]]] // _; rewrite /in_comp /=.
- rewrite drE => /and3P [Hi Hj Hl]; have [H1 H2 H3 H4 H5] := H j l Hj Hl.
  rewrite [RHS]/coch pe1_0 //; case: i Hi => [|i] Hi /=.
    rewrite H1 add0r mul1r; apply: eq_bigr => p _; rewrite blkr blkl; last by apply: HB2; apply: rav2_lt.
    by rewrite blkl ?un2E //; apply: rav2_lt.
  rewrite mul0r addr0 blkl ?un3E //; apply: rav2_lt => //; apply: rav2_lt => //.
  by rewrite -ltnS prednK.
- rewrite dtE => /and3P [Hi Hj Hl]; have [H1 H2 H3 H4 H5] := H j l Hj Hl.
  rewrite [RHS]/coch pe1_1 //; case: (case_i Hi) => Hc.
  + rewrite [(2 <= i)%N]ltnNge -ltnS Hc /= addr0; case: i Hi Hc => [|[|i]] // Hi _.
      by rewrite H2 mul0r.
    rewrite H3 mul1r; apply: eq_bigr => p _; rewrite blkr blkl; last by apply: HB2; apply: rav2_lt.
    by rewrite blkl ?un2E //; apply: rav2_lt.
  + have Hb := inB _ _ _ Hc Hj Hl; rewrite Hc; have /andP [Hc1 _] := Hc.
    have -> : (i == 1%N) = false by apply/negbTE; rewrite neq_ltn Hc1 orbT.
    by rewrite mul0r add0r blkr blkl // blkr un3E // (_ : (i - 2).+2 = i) //; rewrite -[in RHS](subnK Hc1) addn2.
  + have [Ho Ei] := Hc; have [H5' _] := H5 Ho; rewrite Ei H5' // last_out //.
    by have [-> _] := not1 Ho erefl; rewrite mul0r addr0.
- rewrite dzE => /and3P [Hi Hj Hl]; have [H1 H2 H3 H4 H5] := H j l Hj Hl.
  rewrite [RHS]/coch pe1_2 //; case: (case_i Hi) => Hc.
  + rewrite H4 // Hc mul1r [(2 <= i)%N]ltnNge -ltnS Hc /= addr0.
    have -> : minn i 1 = i by apply/minn_idPl.
    apply: eq_bigr => p _; rewrite -addnA blkr blkr blkl ?un2E //; exact: rav2_lt.
  + rewrite Hc; have /andP [Hc1 _] := Hc.
    have -> : (i < 2)%N = false by rewrite ltnNge Hc1.
    by rewrite mul0r add0r -/A -/B -(addnA A B (_ + _)%N) blkr blkr blkr un3E // (_ : (i - 2).+2 = i) //; rewrite -[in RHS](subnK Hc1) addn2.
  + have [Ho Ei] := Hc; have [_ H5'] := H5 Ho; rewrite Ei H5' // last_out //.
    by have [_ ->] := not1 Ho erefl; rewrite mul0r addr0.
Qed.

Lemma pe_pol2 y : pol2 xi nr nt nz o (coch s K2 (pe K2 y)).
Proof.
exists (fun p l => y (p * nz + l)%N) => j l Hj Hl; split.
- by rewrite /coch !pe2_0 //= mul0r mul1r !addr0.
- by rewrite /coch pe2_1 //= mul1r addr0.
- by rewrite /coch pe2_2.
- move=> Ho; rewrite /coch pe2_0 // last_out //.
  by have [-> _] := not1 Ho erefl; rewrite mul0r addr0.
Qed.

Lemma pol2_span v : pol2 xi nr nt nz o (coch s K2 v) ->
  exists y, forall x, (x < fdim s K2)%N -> v x = pe K2 y x.
Proof.
move=> [be H].
exists (blk (((nr - 2 - o) * nt + 2) * nz)
     (blk (2 * nz) (un2 nz be) (un3 nt nz (fun i j l => coch s K2 v 0%N i.+2 j l)))
     (blk (nr.-1.-1 * nt * nz) (un3 nt nz (fun i j l => coch s K2 v 1%N i.+1 j l))
        (un3 nt nz (fun i j l => coch s K2 v 2%N i.+1 j l)))).
set A := (nr.-1.-1 * nt * nz)%N; set B := (((nr - 2 - o) * nt + 2) * nz)%N.
have EB : B = (2 * nz + (nr - 2 - o) * nt * nz)%N by rewrite /B mulnDl addnC.
have HB2 r : (r < 2 * nz)%N -> (r < B)%N by move=> Hr; rewrite EB; apply: ltn_addr.
have inB i j l : (2 <= i < nr - o)%N -> (j < nt)%N -> (l < nz)%N -> (2 * nz + (((i - 2) * nt + j) * nz + l) < B)%N.
  move=> /andP [Hi1 Hi2] Hj Hl; rewrite EB ltn_add2l; apply: rav2_lt => //; apply: rav2_lt => //.
  by rewrite -subnDA addnC subnDA ltn_sub2r // (leq_ltn_trans Hi1).
apply: flat_eq => c i j l; rewrite /ncomp /=; case: c => [|[|[|c]]] // _; rewrite /in_comp /=.
- rewrite dtE dzE => /and3P [Hi Hj Hl]; have [[H1 H2] H3 H4 H5] := H j l Hj Hl.
  rewrite [RHS]/coch pe2_0 //; case: (case_i Hi) => Hc.
  + rewrite [(2 <= i)%N]ltnNge -ltnS Hc /= addr0; case: i Hi Hc => [|[|i]] // Hi _.
      by rewrite H1 mul0r.
    rewrite H2 mul1r; apply: eq_bigr => p _; rewrite blkl; last by apply: HB2; apply: rav2_lt.
    by rewrite blkl ?un2E //; apply: rav2_lt.
  + have Hb := inB _ _ _ Hc Hj Hl; rewrite Hc; have /andP [Hc1 _] := Hc.
    have -> : (i == 1%N) = false by apply/negbTE; rewrite neq_ltn Hc1 orbT.
    by rewrite mul0r add0r blkl // blkr un3E // (_ : (i - 2).+2 = i) //; rewrite -[in RHS](subnK Hc1) addn2.
  + have [Ho Ei] := Hc; rewrite Ei H5 // last_out //.
    by have [-> _] := not1 Ho erefl; rewrite mul0r addr0.
- rewrite drE dzE => /and3P [Hi Hj Hl]; have [[H1 H2] H3 H4 H5] := H j l Hj Hl.
  rewrite [RHS]/coch pe2_1 //; case: i Hi => [|i] Hi /=.
    rewrite H3 addr0 mul1r; congr (- _); apply: eq_bigr => p _; rewrite blkl; last by apply: HB2; apply: rav2_lt.
    by rewrite blkl ?un2E //; apply: rav2_lt.
  rewrite mul0r oppr0 add0r blkr blkl ?un3E //; apply: rav2_lt => //; apply: rav2_lt => //.
  by rewrite -ltnS prednK.
- rewrite drE dtE => /and3P [Hi Hj Hl]; have [[H1 H2] H3 H4 H5] := H j l Hj Hl.
  rewrite [RHS]/coch pe2_2 //; case: i Hi => [|i] Hi /=; first by rewrite H4.
  by rewrite -addnA blkr blkr un3E.
Qed.

Lemma pe_pol3 y : pol3 nt nz (coch s K3 (pe K3 y)).
Proof. by move=> j l Hj Hl; rewrite /coch pe3. Qed.

Lemma pol3_span v : pol3 nt nz (coch s K3 v) ->
  exists y, forall x, (x < fdim s K3)%N -> v x = pe K3 y x.
Proof.
move=> H.
exists (un3 nt nz (fun i j l => coch s K3 v 0%N i.+1 j l)).
apply: flat_eq => c i j l; rewrite /ncomp /= ltnS leqn0 => /eqP ->.
rewrite /in_comp /= drE dtE dzE => /and3P [Hi Hj Hl].
rewrite [RHS]/coch pe3 //; case: i Hi => [|i] Hi /=; first by rewrite H.
by rewrite un3E.
Qed.
End Span.
