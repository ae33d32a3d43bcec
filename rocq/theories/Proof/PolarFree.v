(** The rows of the polar extraction matrices are linearly independent. *)
From Coq Require Import Ring Field.
From mathcomp Require Import all_ssreflect all_algebra.
From Verif Require Import Model.Forms Model.DeRham Spec.Cochain Spec.PolarSpace Spec.SeqSpec
  Proof.MCRing Proof.IndexLemmas Proof.Incidence Proof.SequenceAlg Proof.DeRhamAlg Proof.PolarSpan Proof.Complex.
Set Implicit Arguments.
Unset Strict Implicit.
Unset Printing Implicit Defensive.
Import Order.TTheory GRing.Theory Num.Theory.
Local Open Scope ring_scope.

Lemma block2 (P : nat -> Prop) m n :
  (forall p l, (p < m)%N -> (l < n)%N -> P (p * n + l)%N) -> forall r, (r < m * n)%N -> P r.
Proof.
move=> H r Hr; have Hn : (0 < n)%N by case: n Hr {H} => //; rewrite muln0.
rewrite (divn_eq r n); apply: H; last by rewrite ltn_mod.
by rewrite ltn_divLR.
Qed.
Lemma block3 (P : nat -> Prop) a b c :
  (forall i j l, (i < a)%N -> (j < b)%N -> (l < c)%N -> P ((i * b + j) * c + l)%N) -> forall r, (r < a * b * c)%N -> P r.
Proof.
move=> H; apply: block2 => p l Hp Hl; move: p Hp; apply: block2 => i j Hi Hj; exact: H.
Qed.
Lemma block_add (P : nat -> Prop) a b :
  (forall r, (r < a)%N -> P r) -> (forall r, (r < b)%N -> P (a + r)%N) -> forall r, (r < a + b)%N -> P r.
Proof.
move=> Ha Hb r Hr; case: (ltnP r a) => H; first exact: Ha.
by rewrite -(subnKC H); apply: Hb; rewrite ltn_subLR.
Qed.

Section Free.
Variable F : realFieldType.
Add Field Fff : (@mc_fth F).
Variable xi : nat -> nat -> nat -> F.
Variables (nr nt nz : nat) (o : bool).
Hypotheses (Hnr : (2 + o <= nr)%N) (Ht : (0 < nt)%N).
Hypotheses (Hxi : xi_ok xi nt) (Hind : xi_indep xi nt).
Notation s := (Shape nr nt nz true false false).
Notation pe := (pe xi nr nt nz o).
Let Hr : (1 < nr)%N. Proof. by apply: leq_trans Hnr; rewrite leq_addr. Qed.
Let Hr0 : (0 < nr)%N. Proof. exact: ltnW. Qed.
Let Hrp : (0 < nr.-1)%N. Proof. by rewrite -ltnS prednK. Qed.

Lemma i2r i : (i < nr - 2 - o)%N -> (2 <= i.+2 < nr - o)%N.
Proof. by rewrite subnAC ltn_subRL add2n. Qed.
Lemma i2nr i : (i < nr - 2 - o)%N -> (i.+2 < nr)%N.
Proof. by move=> /i2r /andP [_ H]; apply: leq_trans H (leq_subr _ _). Qed.

(** the pair of difference functions is independent too *)
Lemma xr_indep (al : nat -> F) : (forall j, (j < nt)%N -> \sum_(p < 2) al p * xr xi p j = 0) ->
  forall p, (p < 2)%N -> al p = 0.
Proof.
move=> H.
pose e := al 0%N * xi 1%N 0%N 0%N + al 1%N * xi 2%N 0%N 0%N.
pose c p := if p == 0%N then - e else al p.-1 - e.
have Hc : forall p, (p < 3)%N -> c p = 0.
  apply: Hind => i j Hi Hj; rewrite sum3O /c /=.
  have := H j Hj; rewrite sum2O /= /xr => E1.
  have [X1 X2] := Hxi Hj.
  rewrite (xi0E Hxi Hi Hj).
  have -> : - e * (1 - xi 1%N i j - xi 2%N i j) + (al 0%N - e) * xi 1%N i j + (al 1%N - e) * xi 2%N i j
    = al 0%N * xi 1%N i j + al 1%N * xi 2%N i j - e by mc_norm; ring.
  have C p : (p < 3)%N -> xi p 0%N 0%N = xi p 0%N j by move=> Hp; apply: (xic Hxi).
  have E0 : al 0%N * xi 1%N 0%N j + al 1%N * xi 2%N 0%N j = e by rewrite /e !C.
  case: i Hi => [|[|i]] // _; first by rewrite E0 subrr.
  rewrite -E0 -[RHS]E1; mc_norm; ring.
have := Hc 0%N isT; rewrite /c /= => /eqP; rewrite oppr_eq0 => /eqP E0.
case=> [|[|p]] // _; first by have := Hc 1%N isT; rewrite /c /= E0 subr0.
by have := Hc 2%N isT; rewrite /c /= E0 subr0.
Qed.

Lemma free0 y : (forall x, (x < fdim s K0)%N -> pe K0 y x = 0) -> forall r, (r < pdim s o K0)%N -> y r = 0.
Proof.
move=> H.
have H' i j l : (i < nr)%N -> (j < nt)%N -> (l < nz)%N -> pe K0 y (ravel_index s K0 0 i j l) = 0.
  by move=> Hi Hj Hl; apply: H; apply: ravel_index_lt => //; rewrite in0 Hi Hj Hl.
have -> : pdim s o K0 = (3 * nz + (nr - 2 - o) * nt * nz)%N by rewrite /pdim /= !addn0 mulnDl addnC.
apply: block_add.
- apply: block2 => p l Hp Hl; apply: (Hind (c := fun p => y (p * nz + l)%N)) => // i j Hi Hj.
  have Hi' : (i < nr)%N := leq_trans Hi Hr.
  have := H' i j l Hi' Hj Hl; rewrite pe0 // Hi mul1r ltnNge -ltnS Hi /= addr0.
  by have -> : minn i 1 = i by apply/minn_idPl.
- apply: block3 => i j l Hi Hj Hl.
  have := H' i.+2 j l (i2nr Hi) Hj Hl; rewrite pe0 //; last exact: i2nr.
  by rewrite i2r // mul0r add0r (subn2 i.+2).
Qed.

Lemma free3 y : (forall x, (x < fdim s K3)%N -> pe K3 y x = 0) -> forall r, (r < pdim s o K3)%N -> y r = 0.
Proof.
move=> H.
have H' i j l : (i < nr.-1)%N -> (j < nt)%N -> (l < nz)%N -> pe K3 y (ravel_index s K3 0 i j l) = 0.
  by move=> Hi Hj Hl; apply: H; apply: ravel_index_lt => //; rewrite in3 // Hi Hj Hl.
have -> : pdim s o K3 = (nr.-1.-1 * nt * nz)%N by rewrite /pdim /= !addn0 drE dtE dzE.
apply: block3 => i j l Hi Hj Hl.
have Hi' : (i.+1 < nr.-1)%N by move: Hi; case: (nr.-1).
by have := H' i.+1 j l Hi' Hj Hl; rewrite pe3.
Qed.

Lemma free1 y : (forall x, (x < fdim s K1)%N -> pe K1 y x = 0) -> forall r, (r < pdim s o K1)%N -> y r = 0.
Proof.
move=> H.
have H' c i j l : (c < 3)%N -> (i < (if c == 0%N then nr.-1 else nr))%N -> (j < nt)%N -> (l < nz)%N ->
   pe K1 y (ravel_index s K1 c i j l) = 0.
  by move=> Hc Hi Hj Hl; apply: H; apply: ravel_index_lt => //; rewrite in1 // Hi Hj Hl.
set A := (nr.-1.-1 * nt * nz)%N.
set B := (((nr - 2 - o) * nt + 2) * nz)%N.
have EB : B = (2 * nz + (nr - 2 - o) * nt * nz)%N by rewrite /B mulnDl addnC.
have -> : pdim s o K1 = (A + (B + (3 * nz + (nr - 2 - o) * nt * nz)))%N.
  by rewrite /pdim /= drE dtE dzE addnA; congr (_ + _ + _)%N; rewrite mulnDl addnC.
have Hal l p : (l < nz)%N -> (p < 2)%N -> y (A + (p * nz + l))%N = 0.
  move=> Hl; apply: (xr_indep (al := fun p => y (A + (p * nz + l))%N)) => j Hj.
  by have := H' 0%N 0%N j l isT Hrp Hj Hl; rewrite pe1_0 // add0r mul1r.
apply: block_add; last apply: block_add.
- apply: block3 => i j l Hi Hj Hl.
  have Hi' : (i.+1 < nr.-1)%N by move: Hi; case: (nr.-1).
  by have := H' 0%N i.+1 j l isT Hi' Hj Hl; rewrite pe1_0 //= mul0r addr0.
- rewrite EB; apply: (block_add (P := fun r => y (A + r)%N = 0)).
  + by apply: (block2 (P := fun r => y (A + r)%N = 0)) => p l Hp Hl; apply: Hal.
  + apply: (block3 (P := fun r => y (A + (2 * nz + r))%N = 0)) => i j l Hi Hj Hl.
    have := H' 1%N i.+2 j l isT (i2nr Hi) Hj Hl; rewrite pe1_1 //; last exact: i2nr.
    by rewrite i2r // mul0r add0r (subn2 i.+2).
- apply: (block_add (P := fun r => y (A + (B + r))%N = 0)).
  + apply: (block2 (P := fun r => y (A + (B + r))%N = 0)) => p l Hp Hl.
    apply: (Hind (c := fun p => y (A + (B + (p * nz + l)))%N)) => // i j Hi Hj.
    have Hi' : (i < nr)%N := leq_trans Hi Hr.
    have := H' 2%N i j l isT Hi' Hj Hl; rewrite pe1_2 // Hi mul1r [(2 <= i)%N]ltnNge -ltnS Hi /= addr0.
    have -> : minn i 1 = i by apply/minn_idPl.
    by move=> E; rewrite -[RHS]E; apply: eq_bigr => q _; rewrite (addnA A B (_ + l)%N).
  + apply: (block3 (P := fun r => y (A + (B + (3 * nz + r)))%N = 0)) => i j l Hi Hj Hl.
    have := H' 2%N i.+2 j l isT (i2nr Hi) Hj Hl; rewrite pe1_2 //; last exact: i2nr.
    by rewrite i2r // mul0r add0r (subn2 i.+2) (addnA A B (3 * nz + _)%N).
Qed.

Lemma free2 y : (forall x, (x < fdim s K2)%N -> pe K2 y x = 0) -> forall r, (r < pdim s o K2)%N -> y r = 0.
Proof.
move=> H.
have H' c i j l : (c < 3)%N -> (i < (if c == 0%N then nr else nr.-1))%N -> (j < nt)%N -> (l < nz)%N ->
   pe K2 y (ravel_index s K2 c i j l) = 0.
  by move=> Hc Hi Hj Hl; apply: H; apply: ravel_index_lt => //; rewrite in2 // Hi Hj Hl.
set A := (nr.-1.-1 * nt * nz)%N.
set B := (((nr - 2 - o) * nt + 2) * nz)%N.
have EB : B = (2 * nz + (nr - 2 - o) * nt * nz)%N by rewrite /B mulnDl addnC.
have -> : pdim s o K2 = (B + (A + A))%N by rewrite /pdim /= drE dtE dzE addnA.
have Hal l p : (l < nz)%N -> (p < 2)%N -> y (p * nz + l)%N = 0.
  move=> Hl; apply: (xr_indep (al := fun p => y (p * nz + l)%N)) => j Hj.
  have := H' 1%N 0%N j l isT Hrp Hj Hl; rewrite pe2_1 // addr0 mul1r => /eqP; rewrite oppr_eq0 => /eqP.
  exact.
apply: block_add; last apply: block_add.
- rewrite EB; apply: block_add.
  + by apply: block2 => p l Hp Hl; apply: Hal.
  + apply: (block3 (P := fun r => y (2 * nz + r)%N = 0)) => i j l Hi Hj Hl.
    have := H' 0%N i.+2 j l isT (i2nr Hi) Hj Hl; rewrite pe2_0 //; last exact: i2nr.
    by rewrite i2r // mul0r add0r (subn2 i.+2).
- apply: (block3 (P := fun r => y (B + r)%N = 0)) => i j l Hi Hj Hl.
  have Hi' : (i.+1 < nr.-1)%N by move: Hi; case: (nr.-1).
  by have := H' 1%N i.+1 j l isT Hi' Hj Hl; rewrite pe2_1 //= mul0r oppr0 add0r.
- apply: (block3 (P := fun r => y (B + (A + r))%N = 0)) => i j l Hi Hj Hl.
  have Hi' : (i.+1 < nr.-1)%N by move: Hi; case: (nr.-1).
  by have := H' 2%N i.+1 j l isT Hi' Hj Hl; rewrite pe2_2 //= (addnA B A (_ + l)%N).
Qed.

Lemma polar_row_free k : k <> KV -> row_free (polar_matrix xi s o k).
Proof.
move=> Hk; rewrite -kermx_eq0; apply/eqP/row_matrixP => i; rewrite row0.
have := mulmx_ker (polar_matrix xi s o k).
move/(congr1 (row i)); rewrite row_mul row0; move: (row i _) => y Hy.
have Hpe x : (x < fdim s k)%N -> pe k (rvf y) x = 0.
  move=> Hx; have /rowP/(_ (Ordinal Hx)) := Hy; rewrite !mxE => E; rewrite -[RHS]E.
  by apply: eq_bigr => r _; rewrite rvf_ord mxE.
have Hz : forall r, (r < pdim s o k)%N -> rvf y r = 0.
  by case: k Hk {i} y Hy Hpe => // _ y Hy Hpe; [apply: free0 | apply: free1 | apply: free2 | apply: free3].
by apply/rowP => r; rewrite mxE -rvf_ord Hz.
Qed.
End Free.
