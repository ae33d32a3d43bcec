From Coq Require Import Ring Field.
From mathcomp Require Import all_ssreflect all_algebra.
From Verif Require Import Model.Forms Model.DeRham Spec.Cochain Spec.PolarSpace Spec.SeqSpec
  Proof.MCRing Proof.IndexLemmas Proof.Incidence Proof.SequenceAlg Proof.DeRhamAlg Proof.Complex.
Set Implicit Arguments.
Unset Strict Implicit.
Unset Printing Implicit Defensive.
Import Order.TTheory GRing.Theory Num.Theory.
Local Open Scope ring_scope.

Section Facts.
Variable F : realFieldType.

Lemma rvf_sum n (v : 'rV[F]_n) x : rvf v x = \sum_(i < n | nat_of_ord i == x) v 0 i.
Proof.
rewrite /rvf; case: insubP => [i Hi Ei|Hx] /=.
  rewrite (big_pred1 i) // => i'; rewrite /= -Ei.
  by apply/eqP/eqP => [/val_inj|->].
by rewrite big1 // => i /eqP E; case/negP: Hx; rewrite -E.
Qed.
Lemma coefsE (S : drseq F) k y c i j l : coefs S k y c i j l = coch (sh S) k (rvf ((E_ S k)^T *m y)^T) c i j l.
Proof. by rewrite /coefs /coch rvf_sum; apply: eq_bigr => ? _; rewrite [RHS]mxE. Qed.

(** coefficients of the derivative *)
Definition coef_ok (S : drseq F) (g : 'M[F]_(rk S K1, rk S K0)) (c : 'M[F]_(rk S K2, rk S K1)) (d : 'M[F]_(rk S K3, rk S K2)) : Prop :=
  [/\ forall y a i j l, (a < 3)%N -> in_comp (sh S) K1 a (i, j, l) ->
        coefs S K1 (g *m y) a i j l = cgrad (nt (sh S)) (nz (sh S)) (coefs S K0 y) a i j l,
      forall y a i j l, (a < 3)%N -> in_comp (sh S) K2 a (i, j, l) ->
        coefs S K2 (c *m y) a i j l = ccurl (nt (sh S)) (nz (sh S)) (coefs S K1 y) a i j l
    & forall y i j l, in_comp (sh S) K3 0%N (i, j, l) ->
        coefs S K3 (d *m y) 0%N i j l = cdiv (nt (sh S)) (nz (sh S)) (coefs S K2 y) 0%N i j l].

Arguments coef_ok S g c d : clear implicits.
Section Derivs.
Variables (s : shape) (t : tables F) (G Gi : nat -> nat -> nat -> F) (J w : nat -> F)
  (xi : nat -> nat -> nat -> F) (polar dirichlet : bool).
Hypothesis Hadm : admissible s xi polar dirichlet.
Notation S := (DeRhamSequence s t G Gi J w xi polar dirichlet).

Lemma sh_S : sh S = s. Proof. by rewrite /DeRhamSequence; case: polar. Qed.

Lemma seq_derivs : exists g c d,
  [/\ exact0 (S := S) g, exact1 (S := S) c & exact2 (S := S) d] /\
  (row_free (E_ S K2) -> c *m g = 0) /\ (row_free (E_ S K3) -> d *m c = 0) /\
  coef_ok S g c d.
Proof.
move: Hadm; case: s => nr nt nz [] [] [] //= -[//= _ /and3P [Ht Hz Hzt] Hnr Hrt Hxi].
have Hrt' : nr = nt \/ (dirichlet /\ (nr <= nt)%N) by case/orP: Hrt => [/eqP|/andP []]; [left | right].
have EC0 m N n' N' (E : 'M[F]_(m, N)) (y : 'cV[F]_m) (g : 'M[F]_(n', m)) (E' : 'M[F]_(n', N')) D :
   g^T *m E' = E *m D -> (E'^T *m (g *m y))^T = (E^T *m y)^T *m D.
  by move=> H; rewrite !trmx_mul !trmxK -mulmxA H mulmxA.
case: polar Hnr Hxi => /= Hnr Hxi.
- have [g [c [d [Hex [H1 [H2 [Eg Ec Ed]]]]]]] := polar_derivs Hnr Ht Hz Hzt (Hxi isT) Hrt' t G Gi J w.
  exists g, c, d; split=> //; split=> //; split=> //; split.
  + move=> y a i j l Ha Hin; rewrite coefsE /= (EC0 _ _ _ _ _ y _ _ _ Eg) GmE.
    by rewrite coch_Gf // /cgrad /dr_ /dt_ /dz_ !coefsE.
  + move=> y a i j l Ha Hin; rewrite coefsE /= (EC0 _ _ _ _ _ y _ _ _ Ec) CmE.
    by rewrite coch_Cf // /ccurl /dr_ /dt_ /dz_ !coefsE.
  + move=> y i j l Hin; rewrite coefsE /= (EC0 _ _ _ _ _ y _ _ _ Ed) DmE.
    by rewrite coch_Df // /cdiv /dr_ /dt_ /dz_ !coefsE.
- rewrite addn0 in Hnr.
  have [g [c [d [Hex [H1 [H2 [Eg Ec Ed]]]]]]] := boundary_derivs Hnr Ht Hz Hzt Hrt' t G Gi J w.
  exists g, c, d; split=> //; split=> //; split=> //; split.
  + move=> y a i j l Ha Hin; rewrite coefsE /= (EC0 _ _ _ _ _ y _ _ _ Eg) GmE.
    by rewrite coch_Gf // /cgrad /dr_ /dt_ /dz_ !coefsE.
  + move=> y a i j l Ha Hin; rewrite coefsE /= (EC0 _ _ _ _ _ y _ _ _ Ec) CmE.
    by rewrite coch_Cf // /ccurl /dr_ /dt_ /dz_ !coefsE.
  + move=> y i j l Hin; rewrite coefsE /= (EC0 _ _ _ _ _ y _ _ _ Ed) DmE.
    by rewrite coch_Df // /cdiv /dr_ /dt_ /dz_ !coefsE.
Qed.
End Derivs.
End Facts.
