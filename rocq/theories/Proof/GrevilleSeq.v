(** Differences of the coefficients of the Greville quasi-interpolant are the coefficients of a quasi-interpolant of
    the derivative. *)
From Coq Require Import Reals Lra.
From Coquelicot Require Import Coquelicot.
From mathcomp Require Import all_ssreflect all_algebra zify.
From Verif Require Import Model.RBase Model.Spline Model.Quad Model.Forms Model.DeRham Model.FormEval Model.Geometry Model.SeqR.
From Verif Require Import Spec.Cochain Spec.PolarSpace Spec.FreeDofs Spec.SeqSpec Spec.FormSpec Spec.GeomSpec Spec.SeqRSpec Spec.CalculusSpec Spec.ApproxSpec Spec.DerivApproxSpec.
From Verif Require Import Proof.RField Proof.IndexLemmas Proof.Incidence Proof.Complex Proof.SeqFacts Proof.DeRhamAlg Proof.PolarSpan Proof.BSplinePoly
  Proof.SplineProps Proof.SplineDeriv Proof.FormEvalProofs Proof.GeometryProofs Proof.SeqRProofs Proof.SeqDeriv Proof.SeqCalculus Proof.SeqSmooth
  Proof.Topology Proof.SeqFlux Proof.ApproxSplines Proof.ApproxSeq Proof.Greville.
Set Implicit Arguments.
Unset Strict Implicit.
Unset Printing Implicit Defensive.
Import Order.TTheory GRing.Theory Num.Theory.
Local Open Scope ring_scope.

Lemma quasi2_sum n ev om lo hi per h x : quasi2 n ev om lo hi per h x -> \sum_(i < n) om i * ev i = (1 : R).
Proof. by move=> [H _ _ _]; move: H; rewrite (rsumE n (fun i => Rmult (om i) (ev i))). Qed.

(** a weighted mean of numbers within e of v is within e of v *)
Lemma approx3g n0 n1 n2 (A B C oA oB oC lA lB lC uA uB uC : nat -> R) pA pB pC h0 h1 h2 x0 x1 x2 (V : nat -> nat -> nat -> R) (v e : R) :
  quasi2 n0 A oA lA uA pA h0 x0 -> quasi2 n1 B oB lB uB pB h1 x1 -> quasi2 n2 C oC lC uC pC h2 x2 ->
  (forall i j l, (i < n0)%N -> (j < n1)%N -> (l < n2)%N -> A i <> 0 -> B j <> 0 -> C l <> 0 -> Rle (Rabs (Rminus v (V i j l))) e) ->
  Rle (Rabs (Rminus v (\sum_(i < n0) \sum_(j < n1) \sum_(l < n2) (oA i * oB j * oC l * V i j l) * (A i * B j * C l)))) e.
Proof.
move=> QA QB QC HV.
have S1 (w : R) : w = \sum_(i < n0) \sum_(j < n1) \sum_(l < n2) ((oA i * A i) * (oB j * B j) * (oC l * C l)) * w.
  under eq_bigr => i _ do under eq_bigr => j _ do rewrite -mulr_suml -mulr_sumr (quasi2_sum QC) mulr1.
  under eq_bigr => i _ do rewrite -mulr_suml -mulr_sumr (quasi2_sum QB) mulr1.
  by rewrite -mulr_suml (quasi2_sum QA) mul1r.
have pos (i : 'I_n0) (j : 'I_n1) (l : 'I_n2) : 0 <= (oA i * A i) * (oB j * B j) * (oC l * C l).
  have [_ P0 _ _] := QA; have [_ P1 _ _] := QB; have [_ P2 _ _] := QC.
  have := P0 i (elimT ssrnat.ltP (ltn_ord i)); have := P1 j (elimT ssrnat.ltP (ltn_ord j)); have := P2 l (elimT ssrnat.ltP (ltn_ord l)).
  by move=> /RleE H2 /RleE H1 /RleE H0; exact: mulr_ge0 (mulr_ge0 H0 H1) H2.
rewrite {1}(S1 v) RminusE RabsE; apply/RleE; rewrite -sumrB (S1 e).
apply: le_trans (ler_norm_sum _ _ _) _; apply: ler_sum => i _; rewrite -sumrB.
apply: le_trans (ler_norm_sum _ _ _) _; apply: ler_sum => j _; rewrite -sumrB.
apply: le_trans (ler_norm_sum _ _ _) _; apply: ler_sum => l _.
have -> : oA i * oB j * oC l * V i j l * (A i * B j * C l) = (oA i * A i) * (oB j * B j) * (oC l * C l) * V i j l.
  exact: regroup.
rewrite -mulrBr normrM (ger0_norm (pos i j l)).
case: (eqVneq (A i) 0) => [->|NA]; first by rewrite mulr0 !mul0r.
case: (eqVneq (B j) 0) => [->|NB]; first by rewrite mulr0 mulr0 !mul0r.
case: (eqVneq (C l) 0) => [->|NC]; first by rewrite mulr0 mulr0 !mul0r.
apply: ler_pmul => //.
have := HV i j l (ltn_ord i) (ltn_ord j) (ltn_ord l) (elimN eqP NA) (elimN eqP NB) (elimN eqP NC).
by rewrite RminusE RabsE => /RleE.
Qed.

(** the numbers are values of f at points of the node intervals *)
Lemma approx3i n0 n1 n2 (A B C oA oB oC lA lB lC uA uB uC : nat -> R) h0 h1 h2 x0 x1 x2 (V : nat -> nat -> nat -> R) L f :
  quasi2 n0 A oA lA uA false h0 x0 -> quasi2 n1 B oB lB uB true h1 x1 -> quasi2 n2 C oC lC uC true h2 x2 ->
  lipschitz L f -> periodic_tz f -> Rle 0 x0 /\ Rle x0 1 ->
  (forall i j l, (i < n0)%N -> (j < n1)%N -> (l < n2)%N -> exists y0 y1 y2 : R,
     [/\ Rle (lA i) y0 /\ Rle y0 (uA i), Rle (lB j) y1 /\ Rle y1 (uB j), Rle (lC l) y2 /\ Rle y2 (uC l) & V i j l = f (y0, y1, y2)]) ->
  Rle (Rabs (Rminus (f (x0, x1, x2)) (\sum_(i < n0) \sum_(j < n1) \sum_(l < n2) (oA i * oB j * oC l * V i j l) * (A i * B j * C l))))
   (Rplus (Rplus (Rmult L.1.1 h0) (Rmult L.1.2 h1)) (Rmult L.2 h2)).
Proof.
move=> QA QB QC HL HP Hx HV; apply: (approx3g QA QB QC) => i j l Hi Hj Hl NA NB NC.
have [y0 [y1 [y2 [I0 I1 I2 ->]]]] := HV i j l Hi Hj Hl.
have [_ _ R0' G0] := QA; have [_ _ R1' _] := QB; have [_ _ R2' _] := QC.
have [t0 [/(_ erefl) Et0 B0]] := R0' i (elimT ssrnat.ltP Hi) NA.
have [t1 [_ B1]] := R1' j (elimT ssrnat.ltP Hj) NB.
have [t2 [_ B2]] := R2' l (elimT ssrnat.ltP Hl) NC.
rewrite Et0 in B0.
have Hy : Rle 0 y0 /\ Rle y0 1 by have [g1 g2] := G0 erefl i (elimT ssrnat.ltP Hi); case: I0 => g3 g4; split; [exact: Rle_trans g1 g3 | exact: Rle_trans g4 g2].
exact: (near_bound HL HP Hx Hy (B0 _ I0) (B1 _ I1) (B2 _ I2)).
Qed.

Section Mean.
Local Open Scope R_scope.
Lemma clamp_lip (a b : R) : Rabs (Rmax 0 (Rmin 1 a) - Rmax 0 (Rmin 1 b)) <= Rabs (a - b).
Proof.
rewrite /Rmin; repeat case: Rle_dec => [?|/Rnot_le_lt ?]; rewrite /Rmax; repeat case: Rle_dec => [?|/Rnot_le_lt ?]; rewrite /Rabs; repeat case: Rcase_abs => ?; lra.
Qed.
Lemma clamp_id (a : R) : 0 <= a <= 1 -> Rmax 0 (Rmin 1 a) = a.
Proof. by move=> H; rewrite /Rmin; repeat case: Rle_dec => [?|/Rnot_le_lt ?]; rewrite /Rmax; repeat case: Rle_dec => [?|/Rnot_le_lt ?]; lra. Qed.
Lemma clamp_in (a : R) : 0 <= Rmax 0 (Rmin 1 a) <= 1.
Proof. by rewrite /Rmin; repeat case: Rle_dec => [?|/Rnot_le_lt ?]; rewrite /Rmax; repeat case: Rle_dec => [?|/Rnot_le_lt ?]; lra. Qed.
Lemma lip_cont (g : R -> R) (K x : R) : 0 <= K -> (forall s s', Rabs (g s - g s') <= K * Rabs (s - s')) -> continuity_pt g x.
Proof.
move=> HK H; apply/continuity_pt_filterlim/filterlim_locally => eps.
have He : 0 < eps / (K + 1) by apply: Rdiv_lt_0_compat; [exact: cond_pos | lra].
exists (mkposreal _ He) => y Hy; apply: Rle_lt_trans (H y x) _.
have Hy' : Rabs (y - x) < eps / (K + 1) by exact: Hy.
apply: (Rle_lt_trans _ ((K + 1) * Rabs (y - x))).
  by apply: Rmult_le_compat_r; [exact: Rabs_pos | lra].
have := Rmult_lt_compat_l (K + 1) _ _ ltac:(lra) Hy'; rewrite /Rdiv.
have -> : (K + 1) * (eps * / (K + 1)) = eps by field; lra.
by [].
Qed.
Lemma mvt_r f M d a b y1 y2 : lipschitz M f -> has_partials f d -> 0 <= a -> a <= b -> b <= 1 ->
  exists y, a <= y <= b /\ f (b, y1, y2) - f (a, y1, y2) = (b - a) * d 0%N (y, y1, y2).
Proof.
case: M => [[m0 m1] m2] [Hm0 _ _ HL] Hd Ha Hab Hb.
pose g s := f (Rmax 0 (Rmin 1 s), y1, y2).
have [x Hx|x _|y [Hy E]] := MVT_gen g a b (fun y => d 0%N (y, y1, y2)).
- rewrite Rmin_left // Rmax_right // in Hx.
  apply: (is_derive_ext_loc (fun s => f (s, y1, y2))).
    have He : 0 < Rmin x (1 - x) by apply: Rmin_glb_lt; lra.
    exists (mkposreal _ He) => s Hs; rewrite /g clamp_id //.
    have Hs' : Rabs (s - x) < Rmin x (1 - x) by exact: Hs.
    have h1 := Rmin_l x (1 - x); have h2 := Rmin_r x (1 - x); move/Rabs_def2: Hs'; lra.
  have Hin : 0 < x < 1 by lra.
  by have := Hd 0%N x y1 y2 isT Hin; rewrite /is_partial /=.
- apply: (@lip_cont _ m0) => // s s'; rewrite /g.
  apply: Rle_trans (HL _ _ _ _ _ _ (clamp_in s) (clamp_in s')) _.
  rewrite !Rminus_eq_0 Rabs_R0 !Rmult_0_r !Rplus_0_r.
  by apply: Rmult_le_compat_l => //; exact: clamp_lip.
- rewrite Rmin_left // Rmax_right // in Hy.
  exists y; split=> //; rewrite /g !clamp_id in E; try lra.
Qed.
Lemma mvt_t f M d a b y0 y2 : lipschitz M f -> has_partials f d -> 0 <= y0 <= 1 -> a <= b ->
  exists y, a <= y <= b /\ f (y0, b, y2) - f (y0, a, y2) = (b - a) * d 1%N (y0, y, y2).
Proof.
case: M => [[m0 m1] m2] [_ Hm _ HL] Hd H0 Hab.
have [x Hx|x _|y [Hy E]] := MVT_gen (fun s => f (y0, s, y2)) a b (fun y => d 1%N (y0, y, y2)).
- by have := Hd 1%N y0 x y2 isT H0; rewrite /is_partial /=.
- apply: (@lip_cont _ m1) => // s s'; apply: Rle_trans (HL _ _ _ _ _ _ H0 H0) _.
  by rewrite !Rminus_eq_0 Rabs_R0 !Rmult_0_r Rplus_0_r Rplus_0_l; apply: Rle_refl.
- rewrite Rmin_left // Rmax_right // in Hy; exists y; split=> //; lra.
Qed.
Lemma mvt_z f M d a b y0 y1 : lipschitz M f -> has_partials f d -> 0 <= y0 <= 1 -> a <= b ->
  exists y, a <= y <= b /\ f (y0, y1, b) - f (y0, y1, a) = (b - a) * d 2%N (y0, y1, y).
Proof.
case: M => [[m0 m1] m2] [_ _ Hm HL] Hd H0 Hab.
have [x Hx|x _|y [Hy E]] := MVT_gen (fun s => f (y0, y1, s)) a b (fun y => d 2%N (y0, y1, y)).
- by have := Hd 2%N y0 y1 x isT H0; rewrite /is_partial /=.
- apply: (@lip_cont _ m2) => // s s'; apply: Rle_trans (HL _ _ _ _ _ _ H0 H0) _.
  by rewrite !Rminus_eq_0 Rabs_R0 !Rmult_0_r !Rplus_0_l; apply: Rle_refl.
- rewrite Rmin_left // Rmax_right // in Hy; exists y; split=> //; lra.
Qed.
(** the node after the last one is the first one, a period later *)
Lemma pnode_wrap (g : R -> R) n j : (forall t, g (t + 1) = g t) -> (j < n)%N -> g (pnode n (j.+1 %% n)) = g (pnode n (j + 1)).
Proof.
move=> Hg Hj; have Hn : INR n <> 0 by apply: not_0_INR; lia.
have [E|E] : j.+1 = n \/ (j.+1 < n)%N by lia.
  have -> : (j.+1 %% n = 0)%N by rewrite E modnn.
  have -> : pnode n (j + 1) = pnode n 0 + 1.
    by rewrite /pnode (_ : (j + 1)%N = n); [simpl; field | lia].
  by rewrite Hg.
by rewrite modn_small // addn1.
Qed.
End Mean.

Section Seq.
Variables (ns ps : triple) (q : nat) (types : stype * stype * stype) (DFx : point -> mat3 R_realFieldType)
  (dirichlet : bool).
Hypothesis Hs : supported ns ps q types false dirichlet.
Hypothesis Hreg : regular_map DFx (seq_points ns ps q types).
Variable S : drseq R_realFieldType.
Hypothesis HS : new_sequence ns ps q types DFx false dirichlet = Some S.
Notation field := (discrete_form ns ps types).
Notation n0 := ns.1.1.
Notation n1 := ns.1.2.
Notation n2 := ns.2.
Notation p0 := ps.1.1.
Notation p1 := ps.1.2.
Notation p2 := ps.2.
Notation xi := (get_xi n1 : nat -> nat -> nat -> R_realFieldType).
Notation gn := (gnode n0 p0).
Notation om0 := (om0 ns ps). Notation om1 := (om1 ns). Notation om2 := (om2 ns).
Notation hs0 := (hs0 ns ps). Notation hs1 := (hs1 ns ps). Notation hs2 := (hs2 ns ps).

Definition hi0 k c i : R := if has_dx k c 0 then gn (i + 1)%coq_nat else gn i.
Definition hi1 k c i : R := if has_dx k c 1 then pnode n1 (i + 1)%coq_nat else pnode n1 i.
Definition hi2 k c i : R := if has_dx k c 2 then pnode n2 (i + 1)%coq_nat else pnode n2 i.

Lemma per_quasi2 n p l d x (b : bool) : (1 <= p)%N && (p < n)%N -> Rle (INR n) 49000 -> new_spline n p Periodic = Some l -> new_deriv l = Some d ->
  half01 x ->
  quasi2 n (fun i => if b then evaluate_deriv d x i else evaluate l x i) (fun _ => if b then Rinv (INR n) else R1) (pnode n)
    (fun i => if b then pnode n (i + 1)%coq_nat else pnode n i) true (Rdiv (INR (p + 1)) (INR n)) x.
Proof.
move=> /andP [A B] N El Ed Hx; have [El' _] := new_spline_inv _ _ _ _ El; subst l.
rewrite new_deriv_periodic in Ed; try lia; case: Ed => Ed.
case: b.
- by apply: greville_periodic_deriv => //; lia.
- by apply: greville_periodic => //; lia.
Qed.

Lemma seq_quasi2 k c x0 x1 x2 : k <> KV -> (c < comps k)%N -> half01 x0 -> half01 x1 -> half01 x2 ->
  exists l0 l1 l2 d0 d1 d2, (forall k, DifferentialForm k ns ps types = Some (DForm k l0 l1 l2 d0 d1 d2)) /\
  let: (a, b, d) := cshape (Shape n0 n1 n2 true false false) k c in
  [/\ quasi2 a (factor (DForm k l0 l1 l2 d0 d1 d2) c 0 x0) (om0 k c) gn (hi0 k c) false hs0 x0,
      quasi2 b (factor (DForm k l0 l1 l2 d0 d1 d2) c 1 x1) (fun _ => om1 k c) (pnode n1) (hi1 k c) true hs1 x1
    & quasi2 d (factor (DForm k l0 l1 l2 d0 d1 d2) c 2 x2) (fun _ => om2 k c) (pnode n2) (hi2 k c) true hs2 x2].
Proof.
move=> Hk Hc H0 H1 H2.
have Hr : resolved ns ps q types by move: Hs; case: (ns) => [[? ?] ?] [].
move: Hr; rewrite /ApproxSeq.om0 /ApproxSeq.om1 /ApproxSeq.om2 /ApproxSeq.hs0 /ApproxSeq.hs1 /ApproxSeq.hs2 /hi0 /hi1 /hi2.
case: (ns) => [[m0 m1] m2]; case: (ps) => [[r0 r1] r2]; case: (types) => [[t0 t1] t2] Hr.
have [l0 [l1 [l2 [d0 [d1 [d2 [HD [/andP [A0 B0] N0 E0 F0] [A1 N1 E1 F1] Hz]]]]]]] := resolved_splines Hr.
exists l0, l1, l2, d0, d1, d2; split=> //=.
have Qr (b : bool) : quasi2 (if b then m0.-1 else m0) (fun i => if b then evaluate_deriv d0 x0 i else evaluate l0 x0 i)
   (fun i => if b then dweight m0 r0 i else R1) (gnode m0 r0) (fun i => if b then gnode m0 r0 (i + 1)%coq_nat else gnode m0 r0 i) false (Rdiv (INR (r0 + 1)) (INR (m0 - r0))) x0.
  have [El' _] := new_spline_inv _ _ _ _ E0; subst l0.
  rewrite new_deriv_clamped in F0; try lia; case: F0 => F0.
  case: b.
  - rewrite -subn1; apply: greville_deriv_quasi => //; lia.
  - by apply: greville_quasi => //; try lia; case: H0 => H01 H02; split=> //; apply: Rlt_le.
have Qt b := per_quasi2 b A1 N1 E1 F1 H1.
have Qz (b : bool) : quasi2 m2 (fun i => if b then evaluate_deriv d2 x2 i else evaluate l2 x2 i) (fun _ => if b then Rinv (INR m2) else R1) (pnode m2)
    (fun i => if b then pnode m2 (i + 1)%coq_nat else pnode m2 i) true (Rdiv (INR (r2 + 1)) (INR m2)) x2.
  case: Hz => [[_ A N [El Ed]]|[_ -> -> [El Ed]]]; first exact: (per_quasi2 b A N El Ed H2).
  apply: greville_constant; last by case: H2 => A B; split=> //; apply: Rlt_le.
  by case: b; rewrite /evaluate_deriv /evaluate ?El ?Ed.
rewrite /factor /=.
by case: k Hk Hc => //=; case: c => [|[|[|c]]] //=; rewrite /dr /dt /dz /= ?subn0 ?subn1; split; (exact: (Qr true) || exact: (Qr false) || exact: (Qt true) || exact: (Qt false) || exact: (Qz true) || exact: (Qz false)).
Qed.

Lemma gsz : [/\ (1 <= p0)%coq_nat, (p0 < n0)%coq_nat, (1 < n0)%N, (0 < n1)%N & (0 < n2)%N] /\ Rle (INR (n0 - p0)) 99900.
Proof.
have [H1 H2 H3] := seq_sizes Hs Hreg HS.
have Hr : resolved ns ps q types by move: Hs; case: (ns) => [[? ?] ?] [].
move: Hr H1 H2 H3; case: (ns) => [[m0 m1] m2]; case: (ps) => [[r0 r1] r2]; case: (types) => [[t0 t1] t2] Hr H1 H2 H3.
have [l0 [l1 [l2 [d0 [d1 [d2 [_ [/andP [A0 B0] N0 E0 F0] _ _]]]]]]] := resolved_splines Hr.
by split=> //; split=> //; rewrite /=; lia.
Qed.

Section Form.
Variables (k : deg) (phi : nat -> point -> R).
Hypothesis Hk : k <> KV.
Hypothesis Hedge : edge_ok false dirichlet k phi.
Definition qg (c i j l : nat) : R := om0 k c i * om1 k c * om2 k c * phi c (gn i, pnode n1 j, pnode n2 l).

Lemma qg_V : Vs n0 n1 n2 xi false dirichlet k qg.
Proof.
have [[Hp1 Hpn Hn0 Hn1 Hn2] HN] := gsz.
move=> c i j l Hc Hin; rewrite freeE negbK => /andP [/andP [Ho Ht] Hi].
suff E : phi c (gn i, pnode n1 j, pnode n2 l) = R0 by rewrite /qg E; exact: mulr0.
have Hi0 : (i < n0)%N by move: Hin Hc Ht Hk; rewrite /in_comp; case: (k) => //; case: c => [|[|[|c]]] //= /and3P []; rewrite /dr /=; lia.
have [E1 /(_ isT) E0] := Hedge Ho Hc Ht (pnode n1 j) (pnode n2 l).
case/orP: Hi => [/eqP ->|Hi]; first by rewrite gnode_0.
rewrite gnode_1 //; lia.
Qed.

(** the quasi-interpolant approximates phi *)
Lemma value_bound M l0 l1 l2 d0 d1 d2 c x0 x1 x2 : (c < comps k)%N -> lipschitz M (phi c) -> periodic_tz (phi c) -> Rle 0 x0 /\ Rle x0 1 ->
  let: (a, b, d) := cshape (Shape n0 n1 n2 true false false) k c in
  let f := DForm k l0 l1 l2 d0 d1 d2 in
  [/\ quasi2 a (factor f c 0 x0) (om0 k c) gn (hi0 k c) false hs0 x0,
      quasi2 b (factor f c 1 x1) (fun _ => om1 k c) (pnode n1) (hi1 k c) true hs1 x1
    & quasi2 d (factor f c 2 x2) (fun _ => om2 k c) (pnode n2) (hi2 k c) true hs2 x2] ->
  Rle (Rabs (Rminus (phi c (x0, x1, x2)) (\sum_(i < a) \sum_(j < b) \sum_(l < d) qg c i j l * (factor f c 0 x0 i * factor f c 1 x1 j * factor f c 2 x2 l))))
    (mesh_err ns ps M).
Proof.
have [[Hp1 Hpn Hn0 Hn1 Hn2] HN] := gsz.
move=> Hc HL HP Hx; case: cshape => [[a b] d] f [Q0 Q1 Q2].
have := @approx3i _ _ _ _ _ _ _ _ _ _ _ _ _ _ _ _ _ _ _ _ _ (fun i j l => phi c (gn i, pnode n1 j, pnode n2 l)) _ _ Q0 Q1 Q2 HL HP Hx.
have -> : Rplus (Rplus (Rmult M.1.1 hs0) (Rmult M.1.2 hs1)) (Rmult M.2 hs2) = mesh_err ns ps M.
  by rewrite /mesh_err /ApproxSeq.hs0 /ApproxSeq.hs1 /ApproxSeq.hs2; case: (ns) => [[? ?] ?]; case: (ps) => [[? ?] ?]; case: (M) => [[? ?] ?].
apply=> i j l Hi Hj Hl; exists (gn i), (pnode n1 j), (pnode n2 l); split=> //.
- by split; [exact: Rle_refl|]; rewrite /hi0; case: has_dx; [exact: gnode_le | exact: Rle_refl].
- split; [exact: Rle_refl|]; rewrite /hi1; case: has_dx; last exact: Rle_refl.
  rewrite pnode_step; last lia.
  have : Rlt 0 (Rinv (INR n1)) by apply: Rinv_0_lt_compat; apply: lt_0_INR; lia.
  lra.
- split; [exact: Rle_refl|]; rewrite /hi2; case: has_dx; last exact: Rle_refl.
  rewrite pnode_step; last lia.
  have : Rlt 0 (Rinv (INR n2)) by apply: Rinv_0_lt_compat; apply: lt_0_INR; lia.
  lra.
Qed.
End Form.

Definition delta (a : nat) (u : nat -> nat -> nat -> R) : nat -> nat -> nat -> R :=
  if a == 0%N then dr_ u else if a == 1%N then dt_ n1 u else dz_ n2 u.

Section Pure.
Local Open Scope R_scope.
Lemma fold0 (w b c x y v : R) : x - y = w * v -> 1 * b * c * x - 1 * b * c * y = w * b * c * v.
Proof. by move=> E; transitivity (b * c * (w * v)); [rewrite -E /=; ring | rewrite /=; ring]. Qed.
Lemma fold1 (w a c x y v : R) : x - y = w * v -> a * 1 * c * x - a * 1 * c * y = a * w * c * v.
Proof. by move=> E; transitivity (a * c * (w * v)); [rewrite -E /=; ring | rewrite /=; ring]. Qed.
Lemma fold2 (w a b x y v : R) : x - y = w * v -> a * b * 1 * x - a * b * 1 * y = a * b * w * v.
Proof. by move=> E; transitivity (a * b * (w * v)); [rewrite -E /=; ring | rewrite /=; ring]. Qed.
Lemma div_back (x w y : R) : w <> 0 -> x = w * y -> x / w = y.
Proof. by move=> Hw ->; field. Qed.
Lemma mul_back (x w : R) : w <> 0 -> x = w * (x / w).
Proof. by move=> Hw; field. Qed.
End Pure.

(** differences of its coefficients in direction a approximate the derivative *)
Lemma part_bound k k' phi M d L l0 l1 l2 d0 d1 d2 c c' a x0 x1 x2 : k' <> KV -> (c' < comps k')%N -> (a < 3)%N ->
  has_dx k c a = false -> (forall b, (b < 3)%N -> has_dx k' c' b = (b == a) || has_dx k c b) ->
  smooth11 (phi c) M d L -> Rle 0 x0 /\ Rle x0 1 ->
  let: (A, B, D) := cshape (Shape n0 n1 n2 true false false) k' c' in
  let f := DForm k' l0 l1 l2 d0 d1 d2 in
  [/\ quasi2 A (factor f c' 0 x0) (om0 k' c') gn (hi0 k' c') false hs0 x0,
      quasi2 B (factor f c' 1 x1) (fun _ => om1 k' c') (pnode n1) (hi1 k' c') true hs1 x1
    & quasi2 D (factor f c' 2 x2) (fun _ => om2 k' c') (pnode n2) (hi2 k' c') true hs2 x2] ->
  Rle (Rabs (Rminus (d a (x0, x1, x2)) (\sum_(i < A) \sum_(j < B) \sum_(l < D) delta a (qg k phi c) i j l * (factor f c' 0 x0 i * factor f c' 1 x1 j * factor f c' 2 x2 l))))
    (mesh_err ns ps (L a)).
Proof.
have [[Hp1 Hpn Hn0 Hn1 Hn2] HN] := gsz.
move=> Hk' Hc' Ha Hdx Hdx' [HM HP Hd HL] Hx.
have [HLa HPa] := HL a Ha.
have : let: (A, B, D) := cshape (Shape n0 n1 n2 true false false) k' c' in [/\ A = (if has_dx k' c' 0 then n0.-1 else n0), B = n1 & D = n2].
  by move: Hk' Hc'; case: (k') => //; case: (c') => [|[|[|?]]] //= _ _; rewrite /dr /dt /dz /= ?subn0 ?subn1.
case: cshape => [[A B] D] [EA -> ->] f [Q0 Q1 Q2].
have P1 : Rlt 0 (Rinv (INR n1)) by apply: Rinv_0_lt_compat; apply: lt_0_INR; lia.
have P2 : Rlt 0 (Rinv (INR n2)) by apply: Rinv_0_lt_compat; apply: lt_0_INR; lia.
have P0 i : (i < n0.-1)%N -> Rlt 0 (dweight n0 p0 i).
  move=> Hi; rewrite /dweight; apply: Rdiv_lt_0_compat; last by apply: lt_0_INR; lia.
  have Hi1 : ((i + 1)%coq_nat < n0)%coq_nat by lia. have Hi2 : (0 < (i + 1)%coq_nat)%coq_nat by lia.
  by case: (tclamped_gap _ _ _ Hp1 Hpn Hi1 Hi2).
have S1 i : Rle (gn i) (gn i) /\ Rle (gn i) (hi0 k' c' i).
  by split; [exact: Rle_refl|]; rewrite /hi0; case: has_dx; [exact: gnode_le | exact: Rle_refl].
have S2 j : Rle (pnode n1 j) (pnode n1 j) /\ Rle (pnode n1 j) (hi1 k' c' j).
  split; [exact: Rle_refl|]; rewrite /hi1; case: has_dx; last exact: Rle_refl.
  rewrite pnode_step; [lra | lia].
have S3 l : Rle (pnode n2 l) (pnode n2 l) /\ Rle (pnode n2 l) (hi2 k' c' l).
  split; [exact: Rle_refl|]; rewrite /hi2; case: has_dx; last exact: Rle_refl.
  rewrite pnode_step; [lra | lia].
have [h0 [h1 h2]] : has_dx k' c' 0 = (a == 0%N) || has_dx k c 0 /\ has_dx k' c' 1 = (a == 1%N) || has_dx k c 1 /\ has_dx k' c' 2 = (a == 2%N) || has_dx k c 2.
  by rewrite (Hdx' 0%N erefl) (Hdx' 1%N erefl) (Hdx' 2%N erefl) (eq_sym 0%N) (eq_sym 1%N) (eq_sym 2%N).
pose w i : R := if a == 0%N then dweight n0 p0 i else if a == 1%N then Rinv (INR n1) else Rinv (INR n2).
pose u i j l := phi c (gn i, pnode n1 j, pnode n2 l).
pose V i j l : R := Rdiv (delta a u i j l) (w i).
have Hw i : (i < A)%N -> w i <> 0.
  rewrite EA /w h0 => Hi; case: (a == 0%N) Hi => /= [Hi|_]; first by apply: Rgt_not_eq; exact: P0.
  by case: (a == 1%N); apply: Rgt_not_eq.
have main := @approx3i _ _ _ _ _ _ _ _ _ _ _ _ _ _ _ _ _ _ _ _ _ V _ _ Q0 Q1 Q2 HLa HPa Hx.
have Em : Rplus (Rplus (Rmult (L a).1.1 hs0) (Rmult (L a).1.2 hs1)) (Rmult (L a).2 hs2) = mesh_err ns ps (L a).
  by rewrite /mesh_err /ApproxSeq.hs0 /ApproxSeq.hs1 /ApproxSeq.hs2; case: (ns) => [[? ?] ?]; case: (ps) => [[? ?] ?]; case: (L a) => [[? ?] ?].
have cl i j l : (i < A)%N -> (j < n1)%N -> (l < n2)%N -> exists y0 y1 y2 : R,
   [/\ Rle (gn i) y0 /\ Rle y0 (hi0 k' c' i), Rle (pnode n1 j) y1 /\ Rle y1 (hi1 k' c' j), Rle (pnode n2 l) y2 /\ Rle y2 (hi2 k' c' l)
     & delta a u i j l = Rmult (w i) (d a (y0, y1, y2))].
  move=> Hi Hj Hl; rewrite /delta /w.
  case Ea : (a == 0%N); last case Eb : (a == 1%N).
  + have := mvt_r (pnode n1 j) (pnode n2 l) HM Hd (proj1 (gnode_range _ _ Hp1 Hpn HN i)) (gnode_le _ _ Hp1 Hpn HN i) (proj2 (gnode_range _ _ Hp1 Hpn HN (i + 1)%coq_nat)).
    case=> y [Hy E]; exists y, (pnode n1 j), (pnode n2 l); split; [by rewrite /hi0 h0 Ea | exact: S2 | exact: S3 |].
    rewrite gnode_step // in E; rewrite (eqP Ea) -E /dr_ /u.
    have -> : i.+1 = (i + 1)%coq_nat by lia.
    by [].
  + have Hab : Rle (pnode n1 j) (pnode n1 (j + 1)%coq_nat) by rewrite pnode_step; [lra | lia].
    have := mvt_t (pnode n2 l) HM Hd (gnode_range _ _ Hp1 Hpn HN i) Hab.
    case=> y [Hy E]; exists (gn i), y, (pnode n2 l); split; [exact: S1 | by rewrite /hi1 h1 Eb | exact: S3 |].
    have EE : Rminus (pnode n1 (j + 1)%coq_nat) (pnode n1 j) = Rinv (INR n1) by rewrite pnode_step; [ring | lia].
    rewrite EE in E; rewrite (eqP Eb) -E /dt_ /u.
    rewrite (@pnode_wrap (fun t => phi c (gn i, t, pnode n2 l))) //.
    by move=> t; case: (HP (gn i) t (pnode n2 l)).
  + have Ec : a = 2%N by move: Ha Ea Eb; case: (a) => [|[|[|?]]].
    have Hab : Rle (pnode n2 l) (pnode n2 (l + 1)%coq_nat) by rewrite pnode_step; [lra | lia].
    have := mvt_z (pnode n1 j) HM Hd (gnode_range _ _ Hp1 Hpn HN i) Hab.
    case=> y [Hy E]; exists (gn i), (pnode n1 j), y; split; [exact: S1 | exact: S2 | by rewrite /hi2 h2 Ec |].
    have EE : Rminus (pnode n2 (l + 1)%coq_nat) (pnode n2 l) = Rinv (INR n2) by rewrite pnode_step; [ring | lia].
    rewrite EE in E; rewrite Ec -E /dz_ /u.
    rewrite (@pnode_wrap (fun t => phi c (gn i, pnode n1 j, t))) //.
    by move=> t; case: (HP (gn i) (pnode n1 j) t).
rewrite -Em; apply: Rle_trans (main _); last first.
- move=> i j l Hi Hj Hl; have [y0 [y1 [y2 [I0 I1 I2 E]]]] := cl i j l Hi Hj Hl.
  by exists y0, y1, y2; split=> //; rewrite /V; apply: div_back => //; exact: Hw.
right; congr (Rabs (Rminus _ _)).
apply: eq_bigr => i _; apply: eq_bigr => j _; apply: eq_bigr => l _; congr (_ * _).
have E : delta a u i j l = Rmult (w i) (V i j l) by apply: mul_back; exact: Hw.
move: E; generalize (V i j l) => v; rewrite /delta /w /qg /ApproxSeq.om0 /ApproxSeq.om1 /ApproxSeq.om2 h0 h1 h2 /u.
case: a Ha Hdx {Hdx' HLa HPa main Em V Hw w cl h0 h1 h2 EA u} => [|[|[|a]]] //= _ Hdx; rewrite Hdx.
- exact: fold0.
- exact: fold1.
- exact: fold2.
Qed.
End Seq.
