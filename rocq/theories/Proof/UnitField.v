(** A 2-form of an annular sequence with constant nonzero radial component. *)
From Coq Require Import Reals Lra.
From mathcomp Require Import all_ssreflect all_algebra zify.
From Verif Require Import Model.RBase Model.Spline Model.Quad Model.Forms Model.DeRham Model.FormEval Model.Geometry Model.SeqR.
From Verif Require Import Spec.SeqSpec Spec.FormSpec Spec.Cochain Spec.GeomSpec Spec.SeqRSpec Spec.CalculusSpec.
From Verif Require Import Proof.RField Proof.MCRing Proof.IndexLemmas Proof.Incidence Proof.BSplinePoly Proof.SplineProps Proof.SplineDeriv Proof.DerivSum Proof.SeqFacts Proof.SeqRProofs
  Proof.SeqCalculus Proof.LazyProofs Proof.Topology.
Set Implicit Arguments.
Unset Strict Implicit.
Unset Printing Implicit Defensive.
Import Order.TTheory GRing.Theory Num.Theory.
Local Open Scope ring_scope.

Lemma resolved_sums ns ps q types x0 x1 x2 : resolved ns ps q types ->
  off_knots ns ps types.2 (x0, x1, x2) ->
  exists l0 l1 l2 d0 d1 d2, [/\ forall k, DifferentialForm k ns ps types = Some (DForm k l0 l1 l2 d0 d1 d2),
    \sum_(i < ns.1.1) evaluate l0 x0 i = R1 , \sum_(i < ns.1.2) evaluate_deriv d1 x1 i = INR ns.1.2
    & \sum_(i < ns.2) evaluate_deriv d2 x2 i = INR ns.2].
Proof.
case: ns => [[n0 n1] n2]; case: ps => [[p0 p1] p2]; case: types => [[t0 t1] t2].
case=> -[-> ->] /and5P [H1 H2 H3 H4 /andP [H5 H6]] [HN0 HN1] Hz /= [Hx0 Hx1 Hx2 [K0 K1 K2]].
rewrite !gauss_orderE in H3 H6.
have [d0 [X0 [W0 [Ed0 Sd0 Eq0 G0]]]] := clamped_good H1 H2 H3 HN0.
have Ed1 := @new_deriv_periodic n1 p1 (elimT ssrnat.leP H4) (or_introl (elimT ssrnat.ltP H5)).
pose l2 := mkSpline n2 p2 t2 (init_knots n2 p2 t2).
have [P2 [d2 Ed2 D2]] : (p2 < n2)%N /\ exists2 d, new_deriv l2 = Some d & \sum_(i < n2) evaluate_deriv d x2 i = INR n2.
  rewrite /l2; case: Hz => [[E [/and3P [A B C] D]]|[E [E1 E2]]].
  - split=> //; rewrite E; eexists; first exact: (@new_deriv_periodic n2 p2 (elimT ssrnat.leP A) (or_introl (elimT ssrnat.ltP B))).
    rewrite -rsumE; apply: periodic_deriv_sum => //; [exact/ssrnat.leP | exact/ssrnat.ltP | lra].
  - rewrite E E1 E2; split=> //; exists (mkSpline 1 0 Constant (init_knots 1 0 Constant)); first exact: const_deriv.
    by rewrite big_ord1.
exists (mkSpline n0 p0 Clamped (init_knots n0 p0 Clamped)), (mkSpline n1 p1 Periodic (init_knots n1 p1 Periodic)), l2, d0.
eexists; exists d2; split=> //.
- by move=> k; rewrite /DifferentialForm !new_spline_ok // Ed0 Ed1 -/l2 Ed2.
- rewrite -rsumE; apply: clamped_pou; [exact/ssrnat.ltP | exact: HN0 | lra].
- rewrite -rsumE; apply: periodic_deriv_sum => //; [exact/ssrnat.leP | exact/ssrnat.ltP | lra].
Qed.

Lemma unit_field ns ps q types DFx S : supported ns ps q types false false ->
  regular_map DFx (seq_points ns ps q types) -> new_sequence ns ps q types DFx false false = Some S ->
  exists B : 'cV[R_realFieldType]_(rk S K2), forall x, List.In x (seq_points ns ps q types) ->
    discrete_form ns ps types B 0 x <> R0.
Proof.
move=> Hs Hreg HS; have [f [Q [E Hadm [Hf Esh] _ _]]] := seq_summary Hs Hreg HS.
have Hres : resolved ns ps q types by move: Hs; case: (ns) => [[n0 n1] n2] [].
have [B HB] : exists B : 'cV[R_realFieldType]_(rk S K2), forall c i j l, (c < 3)%N ->
    in_comp (Shape ns.1.1 ns.1.2 ns.2 true false false) K2 c (i, j, l) -> coefs S K2 B c i j l = (c == 0%N)%:R.
  rewrite E; move: Hadm; rewrite Esh => Hadm.
  have [//||B HB] := @V_real R_realFieldType ns.1.1 ns.1.2 ns.2 (evaluate_1d f Q)
      (fun j => metric (DFx (List.nth j (q_x Q) (R0, R0, R0)))) (fun j => inv33 (metric (DFx (List.nth j (q_x Q) (R0, R0, R0)))))
      (fun j => det33 (DFx (List.nth j (q_x Q) (R0, R0, R0)))) (fun j => List.nth j (q_w Q) R0) (get_xi (ns.1.2)) false false Hadm K2
      (fun c _ _ _ => (c == 0%N)%:R) .
    exact: Vbnd_free.
  by exists B => c i j l Hc Hi; apply: HB.
exists B => -[[x0 x1] x2] Hx.
have [l0 [l1 [l2 [d0 [d1 [d2 [HD E0 E1 E2]]]]]]] := resolved_sums Hres (point_off Hres Hx).
have [-> _ _] := f2 Hs Hreg HS HD B x0 x1 x2.
set T := evaluate_deriv d1 x1 in E1 *; set Z := evaluate_deriv d2 x2 in E2 *; set L := evaluate l0 x0 in E0 *.
rewrite (_ : \sum_(i < ns.1.1) _ = (\sum_(i < ns.1.1) L i) * (\sum_(j < ns.1.2) T j) * (\sum_(l < ns.2) Z l)); last first.
  rewrite !mulr_suml; apply: eq_bigr => i _; rewrite [L i * _]mulr_sumr mulr_suml; apply: eq_bigr => j _; rewrite mulr_sumr.
  apply: eq_bigr => l _; rewrite HB ?mul1r //.
  by rewrite /in_comp /cshape /= /dr /dt /dz /= ?subn0; apply/and3P.
rewrite E0 E1 E2; move: Hres; rewrite /resolved; case: (ns) => [[n0 n1] n2]; case: (ps) => [[p0 p1] p2]; case: (types) => [[t0 t1] t2].
case=> _ /and5P [_ _ _ _ /andP [H5 _]] _ Hz /=.
apply/eqP; rewrite mul1r mulf_neq0 //; apply/eqP; apply: not_0_INR; first by move: H5; lia.
by case: Hz => [[_ [/and3P [_ A _] _]]|[_ [-> _]]] //; lia.
Qed.
