(** p Gauss points per cell determine a spline of degree p >= 2 as soon as there are two cells:
    on both sides of a simple interior knot the pieces have all their roots on the far side, so
    value and derivative can only match if both vanish there. *)
From Coq Require Import Reals Lra Lia.
From mathcomp Require Import all_ssreflect all_algebra zify.
From Verif Require Import Spec.BSpline Proof.BSplineLemmas Proof.BSplineIndep Proof.BSplinePoly Proof.RField.
Set Implicit Arguments.
Unset Strict Implicit.
Unset Printing Implicit Defensive.
Import Order.TTheory GRing.Theory Num.Theory.
Local Open Scope ring_scope.

Section Pieces.
Variable t : nat -> R.
Hypothesis Ht : nondecreasing t.

(** value of the piece of cell m at x *)
Definition pc m p i (x : R) : R := (bpoly t m p i).[x].
Lemma pc_rec m q i x : pc m q.+1 i x =
  Rplus (Rmult (Rmult (Rminus x (t i)) (inv0 (Rminus (t (i + q.+1)%coq_nat) (t i)))) (pc m q i x))
        (Rmult (Rmult (Rminus (t (i + q.+1 + 1)%coq_nat) x) (inv0 (Rminus (t (i + q.+1 + 1)%coq_nat) (t i.+1)))) (pc m q i.+1 x)).
Proof. by rewrite /pc /= !hornerE. Qed.
Definition dpc m q i x : R :=
  Rmult (INR q.+1) (Rminus (Rmult (inv0 (Rminus (t (i + q.+1)%coq_nat) (t i))) (pc m q i x))
             (Rmult (inv0 (Rminus (t (i + q.+1 + 1)%coq_nat) (t i.+1))) (pc m q i.+1 x))).
Local Open Scope R_scope.
Lemma dpc_key m q i x :
  (x - t i) * inv0 (t (i + S (S q))%coq_nat - t i) * dpc m q i x
  + (t (i + S (S q) + 1)%coq_nat - x) * inv0 (t (i + S (S q) + 1)%coq_nat - t (S i)) * dpc m q (S i) x
  = INR (S q) * (inv0 (t (i + S (S q))%coq_nat - t i) * pc m (S q) i x
             - inv0 (t (i + S (S q) + 1)%coq_nat - t (S i)) * pc m (S q) (S i) x).
Proof.
  unfold dpc. rewrite !pc_rec.
  replace (S i + S q + 1)%coq_nat with (i + S (S q) + 1)%coq_nat by lia.
  replace (S i + S q)%coq_nat with (i + S (S q))%coq_nat by lia.
  replace (i + S q + 1)%coq_nat with (i + S (S q))%coq_nat by lia.
  set (A := pc m q i x). set (B := pc m q (S i) x). set (C := pc m q (S (S i)) x).
  set (a := t i). set (b := t (S i)). set (b2 := t (S (S i))). set (c := t (i + S q)%coq_nat).
  set (d := t (i + S (S q))%coq_nat). set (e := t (i + S (S q) + 1)%coq_nat).
  assert (Hab : a <= b) by apply Ht.
  assert (Hbd : b <= d) by (apply nondecreasing_le; [exact Ht | lia]).
  assert (Hde : d <= e) by (apply nondecreasing_le; [exact Ht | lia]).
  assert (K : (inv0 (d - a) * (d - a) - 1) * inv0 (d - b) = 0
           /\ (inv0 (e - b) * (e - b) - 1) * inv0 (d - b) = 0).
  { destruct (Req_EM_T (d - b) 0) as [E|E].
    - rewrite E inv0_0. split; ring.
    - rewrite (inv0_nz (d - a)); [|lra]. rewrite (inv0_nz (e - b)); [|lra]. split; field; lra. }
  destruct K as [K1 K2].
  set (beta := inv0 (d - b)) in *. set (delta := inv0 (d - a)) in *.
  set (eps := inv0 (e - b)) in *. set (n := INR (S q)).
  assert (K3 : delta * d * beta = beta + delta * a * beta) by lra.
  assert (K4 : eps * e * beta = beta + eps * b * beta) by lra.
  generalize (inv0 (c - a)) as al. generalize (inv0 (e - b2)) as ga. intros ga al.
  transitivity (n * ((x - a) * delta * al * A - (e - x) * eps * ga * C
     + B * (eps * e * beta - x * beta * eps - x * beta * delta + a * beta * delta)));
    [ring | rewrite K4].
  transitivity (n * ((x - a) * delta * al * A - (e - x) * eps * ga * C
     + B * (delta * d * beta - x * beta * eps - x * beta * delta + eps * b * beta)));
    [rewrite K3; ring | ring].
Qed.
Local Open Scope ring_scope.
Lemma pc_deriv m q i x : ((bpoly t m q.+1 i)^`()).[x] = dpc m q i x.
Proof.
have D q' i' : ((bpoly t m q'.+1 i')^`()).[x] =
   Rplus (Rplus (Rmult (inv0 (Rminus (t (i' + q'.+1)%coq_nat) (t i'))) (pc m q' i' x)) (Rmult (Rmult (Rminus x (t i')) (inv0 (Rminus (t (i' + q'.+1)%coq_nat) (t i')))) ((bpoly t m q' i')^`()).[x]))
   (Rplus (Ropp (Rmult (inv0 (Rminus (t (i' + q'.+1 + 1)%coq_nat) (t i'.+1))) (pc m q' i'.+1 x)))
      (Rmult (Rmult (Rminus (t (i' + q'.+1 + 1)%coq_nat) x) (inv0 (Rminus (t (i' + q'.+1 + 1)%coq_nat) (t i'.+1)))) ((bpoly t m q' i'.+1)^`()).[x])).
  rewrite /= derivD !derivM !derivB !derivX !derivC !hornerE /pc !subr0 !mul1r -!mulrA mulN1r.
  set al := inv0 _; set be := inv0 _; set A := (bpoly t m q' i').[x]; set B := (bpoly t m q' i'.+1).[x].
  set A' := _.[x]; set B' := _.[x]; set c := t i'; set d := t _.
  change (Rplus (Rplus (Rplus (Rmult al A) (Rmult (Rminus x c) (Rmult al A'))) (Ropp (Rmult be B))) (Rmult (Rminus d x) (Rmult be B')) =
    Rplus (Rplus (Rmult al A) (Rmult (Rmult (Rminus x c) al) A')) (Rplus (Ropp (Rmult be B)) (Rmult (Rmult (Rminus d x) be) B'))).
  by ring.
elim: q i => [|q IH] i.
  rewrite D /dpc /= !derivC !horner0 /pc /= !hornerC; set a := inv0 _; set b := inv0 _.
  rewrite -[0]/R0; lra.
rewrite D !IH; have K := dpc_key m q i x.
rewrite [RHS]/dpc (_ : INR q.+2 = Rplus (INR q.+1) 1); last by rewrite (S_INR q.+1).
rewrite Rmult_plus_distr_r -K.
lazymatch goal with |- @eq _ ?a ?b => change (@eq R a b) end; ring.
Qed.

(** matching at the simple knot t_{m+1} *)
Variable m : nat.
Hypotheses (Hl : Rlt (t m) (t m.+1)) (Hr : Rlt (t m.+1) (t m.+2)).
Lemma pc_match q i : pc m q.+1 i (t m.+1) = pc m.+1 q.+1 i (t m.+1).
Proof.
elim: q i => [|q IH] i; last by rewrite !(pc_rec _ q.+1) !IH.
rewrite !pc_rec /pc /= !hornerC (_ : (i + 1)%coq_nat = i.+1); last lia.
rewrite (_ : (i + 1 + 1)%coq_nat = i.+2); last lia.
have B (b : bool) : (b%:R : R) = if b then R1 else R0 by case: b.
rewrite !B; case: (eqVneq i m) => [->|H1].
  rewrite (_ : (m.+1 == m) = false); last lia.
  rewrite (_ : (m == m.+1) = false); last lia.
  by rewrite !inv0_r; lra.
case: (eqVneq i m.+1) => [->|H2].
  rewrite (_ : (m.+2 == m) = false); last lia.
  by lra.
case: (eqVneq i.+1 m) => [<-|H3]; lra.
Qed.
Lemma dpc_match q i : dpc m q.+1 i (t m.+1) = dpc m.+1 q.+1 i (t m.+1).
Proof. by rewrite /dpc !pc_match. Qed.
End Pieces.

(** two polynomials with all their roots on the far side of b, matching to first order at b *)
Lemma prod_pos (b : R) (ys : seq R) : (forall y, y \in ys -> y < b) -> 0 < \prod_(y <- ys) (b - y).
Proof.
elim: ys => [|y ys IH] H; first by rewrite big_nil ltr01.
rewrite big_cons mulr_gt0 ?subr_gt0 ?H ?mem_head // IH // => z Hz; apply: H.
by rewrite inE Hz orbT.
Qed.
Lemma logder (b : R) (ys : seq R) : (forall y, y \in ys -> y != b) ->
  ((\prod_(y <- ys) ('X - y%:P))^`()).[b] = (\prod_(y <- ys) ('X - y%:P)).[b] * \sum_(y <- ys) (b - y)^-1.
Proof.
elim: ys => [|y ys IH] H; first by rewrite !big_nil derivC horner0 mulr0.
rewrite !big_cons derivM !hornerE IH; last by move=> z Hz; apply: H; rewrite inE Hz orbT.
rewrite derivB derivX derivC subr0 hornerC mul1r mulrDr -mulrA; congr (_ + _); last by rewrite mulrA.
by rewrite mulrCA mulfV ?mulr1 // subr_eq0 eq_sym H ?mem_head.
Qed.
Lemma sum_pos (f : R -> R) (ys : seq R) : ys != [::] -> (forall y, y \in ys -> 0 < f y) -> 0 < \sum_(y <- ys) f y.
Proof.
elim: ys => // y [|z ys] IH _ H; first by rewrite big_seq1 H ?mem_head.
rewrite big_cons addr_gt0 ?H ?mem_head // IH // => x Hx; apply: H; by rewrite inE Hx orbT.
Qed.

Lemma one_side (P : {poly R}) (ys : seq R) (b : R) : uniq ys -> (size P <= (size ys).+1)%N -> all (root P) ys ->
  (forall y, y \in ys -> y != b) -> (P^`()).[b] = P.[b] * (\sum_(y <- ys) (b - y)^-1) :> R /\ (P.[b] = 0 -> P = 0).
Proof.
move=> Hu Hs Hr Hb; split; last first.
  move=> H0; apply/eqP; apply: contraTT Hs => HP; rewrite -ltnNge.
  have Nb : b \notin ys by apply/negP => Hin; move: (Hb b Hin); rewrite eqxx.
  have H1 : all (root P) (b :: ys) by rewrite /= rootE H0 eqxx.
  have H2 : uniq (b :: ys) by rewrite /= Nb.
  exact: (max_poly_roots HP H1 H2).
have [Q EQ] := uniq_roots_prod_XsubC Hr (etrans (uniq_rootsE ys) Hu).
have [->|HP] := eqVneq P 0; first by rewrite derivC !horner0 mul0r.
have HQ : Q = (Q`_0)%:P.
  apply: size1_polyC; move: Hs; rewrite EQ size_Mmonic ?monic_prod_XsubC //; last first.
    by apply: contraNneq HP => Q0; rewrite EQ Q0 mul0r.
  by rewrite size_prod_XsubC addnS /= -add1n leq_add2r.
by rewrite EQ HQ derivM derivC mul0r add0r !hornerM !hornerC logder // mulrA.
Qed.

Lemma both_sides (P Q : {poly R}) (ys zs : seq R) (b : R) : uniq ys -> uniq zs -> ys != [::] -> zs != [::] ->
  (size P <= (size ys).+1)%N -> (size Q <= (size zs).+1)%N -> all (root P) ys -> all (root Q) zs ->
  (forall y, y \in ys -> y < b) -> (forall z, z \in zs -> b < z) ->
  P.[b] = Q.[b] -> P^`().[b] = Q^`().[b] -> P = 0 /\ Q = 0.
Proof.
move=> Uy Uz Ny Nz SP SQ RP RQ Ly Lz E D.
have [DP ZP] := @one_side P ys b Uy SP RP (fun y Hy => negbT (lt_eqF (Ly y Hy))).
have [DQ ZQ] := @one_side Q zs b Uz SQ RQ (fun z Hz => negbT (gt_eqF (Lz z Hz))).
have P1 : 0 < \sum_(y <- ys) (b - y)^-1 by apply: sum_pos => // y /Ly; rewrite invr_gt0 subr_gt0.
have P2 : \sum_(y <- zs) (b - y)^-1 < 0.
  rewrite -oppr_gt0 -sumrN; apply: sum_pos => // y /Lz; by rewrite oppr_gt0 invr_lt0 subr_lt0.
have : P.[b] = 0.
  move: D; rewrite DP DQ -E => /eqP; rewrite -subr_eq0 -mulrBr mulf_eq0 => /orP [/eqP //|].
  by rewrite subr_eq0 => /eqP H; move: P2; rewrite -H => /lt_trans /(_ P1); rewrite ltxx.
by move=> H; split; [apply: ZP | apply: ZQ; rewrite -E].
Qed.
