(** B-splines are polynomials on a cell; unisolvence at p+1 points of the cell. *)
From Coq Require Import Reals Lra.
From mathcomp Require Import all_ssreflect all_algebra zify.
From Verif Require Import Spec.BSpline Proof.BSplineLemmas Proof.BSplineIndep Proof.RField.
Set Implicit Arguments.
Unset Strict Implicit.
Unset Printing Implicit Defensive.
Import GRing.Theory.
Local Open Scope ring_scope.

Lemma rsumE n (f : nat -> R) : rsum n f = \sum_(i < n) f i.
Proof. by elim: n => [|n IH]; rewrite ?big_ord0 // big_ord_recr /= IH. Qed.

Section Poly.
Variable t : nat -> R.
Hypothesis Ht : nondecreasing t.
Variables m : nat.

Fixpoint bpoly (p i : nat) : {poly R} :=
  match p with
  | 0%N => ((i == m)%:R)%:P
  | q.+1 => ('X - (t i)%:P) * (inv0 (t (i + q.+1)%coq_nat - t i))%:P * bpoly q i
         + ((t (i + q.+1 + 1)%coq_nat)%:P - 'X) * (inv0 (t (i + q.+1 + 1)%coq_nat - t i.+1))%:P * bpoly q i.+1
  end.

Lemma bpoly_eval p i x : Rle (t m) x -> Rlt x (t m.+1) -> Bspl t p i x = (bpoly p i).[x].
Proof.
move=> H1 H2; elim: p i => [|q IH] i.
  rewrite /= hornerC /chi; case: (ltngtP i m) => H.
  - have : Rle (t i.+1) (t m) by apply: nondecreasing_le => //; apply/leP.
    by case: Rle_dec => // _; case: Rlt_dec => //= *; lra.
  - have : Rle (t m.+1) (t i) by apply: nondecreasing_le => //; apply/leP.
    by case: Rle_dec => // ? ?; lra.
  - by rewrite H; case: Rle_dec => // ?; case: Rlt_dec.
by rewrite /= !IH !hornerE.
Qed.

Lemma bpoly_size p i : (size (bpoly p i) <= p.+1)%N.
Proof.
elim: p i => [|q IH] i; first exact: size_polyC_leq1.
rewrite /=; apply: (leq_trans (size_add _ _)); rewrite geq_max; apply/andP; split.
- apply: (leq_trans (size_mul_leq _ _)); have := IH i.
  have := size_mul_leq ('X - (t i)%:P) (inv0 (t (i + q.+1)%coq_nat - t i))%:P.
  rewrite size_XsubC; have := size_polyC_leq1 (inv0 (t (i + q.+1)%coq_nat - t i)); lia.
- apply: (leq_trans (size_mul_leq _ _)); have := IH i.+1.
  have := size_mul_leq ((t (i + q.+1 + 1)%coq_nat)%:P - 'X) (inv0 (t (i + q.+1 + 1)%coq_nat - t i.+1))%:P.
  rewrite -opprB size_opp size_XsubC; have := size_polyC_leq1 (inv0 (t (i + q.+1 + 1)%coq_nat - t i.+1)); lia.
Qed.

(** a spline of degree p vanishing at p+1 distinct points of the cell vanishes on the cell *)
Lemma cell_unisolvent p N (a : nat -> R) (ys : seq R) : uniq ys -> (p < size ys)%N ->
  (forall y, y \in ys -> Rle (t m) y /\ Rlt y (t m.+1)) ->
  (forall y, y \in ys -> rsum N (fun i => Rmult (a i) (Bspl t p i y)) = 0) ->
  forall x, Rle (t m) x -> Rlt x (t m.+1) -> rsum N (fun i => Rmult (a i) (Bspl t p i x)) = 0.
Proof.
move=> Hu Hs Hin Hz.
pose P : {poly R} := \sum_(i < N) (a i)%:P * bpoly p i.
have HP x : Rle (t m) x -> Rlt x (t m.+1) -> rsum N (fun i => Rmult (a i) (Bspl t p i x)) = P.[x].
  move=> h1 h2; rewrite rsumE horner_sum; apply: eq_bigr => i _.
  by rewrite (bpoly_eval p i h1 h2) hornerM hornerC.
suff P0 : P = 0 by move=> x h1 h2; rewrite HP // P0 horner0.
apply/eqP; apply: contraTT Hs => HP0; rewrite -leqNgt.
have HR : all (root P) ys.
  by apply/allP => y Hy; have [h1 h2] := Hin _ Hy; rewrite rootE -HP // Hz.
have H := max_poly_roots HP0 HR Hu; rewrite -ltnS; apply: (leq_trans H).
apply: (leq_trans (size_sum _ _ _)); apply/bigmax_leqP => i _.
apply: (leq_trans (size_mul_leq _ _)); rewrite -subn1 leq_subLR.
by rewrite (leq_trans (leq_add (size_polyC_leq1 (a i)) (bpoly_size p i))).
Qed.

(** ... hence its active coefficients vanish *)
Lemma cell_points_indep p N (a : nat -> R) (ys : seq R) : Rlt (t m) (t m.+1) -> (m < N)%N -> (p <= m)%N ->
  uniq ys -> (p < size ys)%N ->
  (forall y, y \in ys -> Rle (t m) y /\ Rlt y (t m.+1)) ->
  (forall y, y \in ys -> rsum N (fun i => Rmult (a i) (Bspl t p i y)) = 0) ->
  forall i, (m - p <= i)%N -> (i <= m)%N -> a i = 0.
Proof.
move=> Hm HN Hp Hu Hs Hin Hz i H1 H2.
apply: (@local_indep t Ht m N Hm (elimT ltP HN) p a (elimT leP Hp)) => [x [h1 h2]|]; last lia.
by apply: (cell_unisolvent Hu Hs Hin Hz) => //; lra.
Qed.
End Poly.
