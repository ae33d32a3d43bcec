(** Property theorems C59: sequences on a box (all directions clamped). *)
From Coq Require Import Reals Lra.
From mathcomp Require Import all_ssreflect all_algebra zify.
From Verif Require Import Model.RBase Model.Spline Model.Quad Model.Forms Model.DeRham Model.FormEval Model.Geometry Model.SeqR Model.Relaxation.
From Verif Require Import Spec.SeqSpec Spec.SeqRSpec Spec.CalculusSpec Spec.BoxSpec.
From Verif Require Import Proof.RField Proof.IndexLemmas Proof.SeqRProofs Proof.ClampedBox.
Set Implicit Arguments.
Unset Strict Implicit.
Unset Printing Implicit Defensive.
Import Order.TTheory GRing.Theory Num.Theory.
Local Open Scope ring_scope.

Section Box.
Variables (n0 n1 n2 p0 p1 p2 q : nat).
Hypothesis Hb : boxed (n0, n1, n2) (p0, p1, p2) q.
Notation ns := (n0, n1, n2).
Notation ps := (p0, p1, p2).

(** the constructor accepts a box *)
Theorem C59_constructor : forall (DFx : point -> mat3 R_realFieldType) dirichlet,
  exists S, new_sequence ns ps q box DFx false dirichlet = Some S.
Proof.
move=> DFx dirichlet; have [f [Q B]] := box_facts Hb; eexists; apply/new_seqP; exists f, Q; split; last reflexivity.
- exact: bf_f B.
- exact: bf_Q B.
Qed.

(** ... but a field whose discrete divergence is zero (so that the diagnostics report a zero
    divergence norm) is not divergence free: for every box there is one, with non-zero
    divergence at some interior point *)
Theorem C59_divergence_refuted : forall (DFx : point -> mat3 R_realFieldType) dirichlet S,
  new_sequence ns ps q box DFx false dirichlet = Some S ->
  exists (B : 'cV_(rk S K2)) (x : point) (d : R),
  [/\ strong_div S *m B = 0 /\ divergence_norm sqrt B = 0,
      Rlt 0 x.1.1 /\ Rlt x.1.1 1 /\ Rlt 0 x.1.2 /\ Rlt x.1.2 1 /\ Rlt 0 x.2 /\ Rlt x.2 1,
      is_div (fun c => discrete_form ns ps box B c) x d & d <> R0].
Proof.
move=> DFx dirichlet S HS; have [B [x [d [H1 H2 H3 H4]]]] := box_divergence Hb HS.
exists B, x, d; split=> //; split=> //.
by rewrite /divergence_norm H1 trmx0 !mul0mx mxE; exact: sqrt_0.
Qed.

Variables (f : dform) (Q : quadrule).
Hypothesis Hf : DifferentialForm K0 ns ps box = Some f.
Hypothesis HQ : QuadratureRule (f_L0 f) (f_L1 f) (f_L2 f) q = Some Q.
Notation get := (get_d_Lambda_0 (f_shape f) (evaluate_1d f Q)).
Notation pt j := (List.nth j (q_x Q) (R0, R0, R0)).
Notation phi i1 i2 i3 := (fun x => form_evaluate f x (ravel_index (f_shape f) K0 0 i1 i2 i3) 0).
Notation idx i1 i2 i3 := (ravel_index (f_shape f) K0 0 i1 i2 i3).

(** the gradient getter is right for the functions that are interior in the direction of
    differentiation (in r for all, if n0 = n1; see C23 otherwise) ... *)
Theorem C59_gradient_interior : forall i1 i2 i3 j, (i1 < n0)%N -> (i2 < n1)%N -> (i3 < n2)%N -> (j < length (q_x Q))%N ->
  [/\ n0 = n1 -> is_partial 0 (phi i1 i2 i3) (pt j) (get (idx i1 i2 i3) j 0%N),
      (0 < i2 < n1.-1)%N -> is_partial 1 (phi i1 i2 i3) (pt j) (get (idx i1 i2 i3) j 1%N)
    & (0 < i3 < n2.-1)%N -> is_partial 2 (phi i1 i2 i3) (pt j) (get (idx i1 i2 i3) j 2%N)].
Proof.
move=> i1 i2 i3 j H1 H2 H3 Hj; have B := box_facts_of Hb Hf HQ.
have := box_partials B Hj H1 H2 H3; have := box_get B Hj H1 H2 H3.
case E : (pt j) => [[x0 x1] x2] [G0 G1 G2] [P0 P1 P2]; split=> Hi.
- by rewrite G0.
- by rewrite G1 wrap_inner.
- by rewrite G2 wrap_inner.
Qed.
(** ... and wrong for the first and the last function in theta and in zeta, whatever the other
    indices *)
Theorem C59_gradient_boundary_refuted : forall i1 i2 i3, (i1 < n0)%N -> (i2 < n1)%N -> (i3 < n2)%N ->
  (i2 = 0%N \/ i2 = n1.-1 -> exists j d, [/\ (j < length (q_x Q))%N,
     is_partial 1 (phi i1 i2 i3) (pt j) d & get (idx i1 i2 i3) j 1%N <> d]) /\
  (i3 = 0%N \/ i3 = n2.-1 -> exists j d, [/\ (j < length (q_x Q))%N,
     is_partial 2 (phi i1 i2 i3) (pt j) d & get (idx i1 i2 i3) j 2%N <> d]).
Proof.
move=> i1 i2 i3 H1 H2 H3; have B := box_facts_of Hb Hf HQ.
have [j1 L1 Z1] := cd_nz (bf_0 B) H1; split=> Hi.
- have [j3 L3 Z3] := cd_nz (bf_2 B) H3.
  have [j2 L2 Z2] := wrap_wrong n1.-1 (bf_1 B) Hi.
  have [Hj _ Ep] := dI B L1 L2 L3 erefl; set j := ravel3 _ _ _ _ in Hj Ep.
  have := box_partials B Hj H1 H2 H3; have := box_get B Hj H1 H2 H3; rewrite Ep => -[_ G _] [_ P _].
  exists j; eexists; split=> //; first by rewrite Ep; exact: P.
  by rewrite G => /eqP; rewrite RmultE RmultE => /eqP /(mulIf (introN eqP Z3)) /(mulfI (introN eqP Z1)) /esym.
- have [j2 L2 Z2] := cd_nz (bf_1 B) H2.
  have [j3 L3 Z3] := wrap_wrong n1.-1 (bf_2 B) Hi.
  have [Hj _ Ep] := dI B L1 L2 L3 erefl; set j := ravel3 _ _ _ _ in Hj Ep.
  have := box_partials B Hj H1 H2 H3; have := box_get B Hj H1 H2 H3; rewrite Ep => -[_ _ G] [_ _ P].
  exists j; eexists; split=> //; first by rewrite Ep; exact: P.
  by rewrite G => /eqP; rewrite !RmultE => /eqP /(mulfI (mulf_neq0 (introN eqP Z1) (introN eqP Z2))) /esym.
Qed.
End Box.
Print Assumptions C59_constructor.
Print Assumptions C59_divergence_refuted.
Print Assumptions C59_gradient_interior.
Print Assumptions C59_gradient_boundary_refuted.

(** the discretisation of scripts/config_scripts/hopf.py *)
Example C59_nonvacuous : boxed (6, 6, 6)%N (3, 3, 3)%N 3 /\ (0 < 1 < 6.-1)%N /\
  exists S, new_sequence (6, 6, 6)%N (3, 3, 3)%N 3 box (fun _ => fun k l => (k == l)%:R) false true = Some S.
Proof.
have H : boxed (6, 6, 6)%N (3, 3, 3)%N 3 by split; (split; [by [] | rewrite /=; lra]).
by split=> //; split=> //; apply: C59_constructor.
Qed.
