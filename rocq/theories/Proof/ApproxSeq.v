(** Tensor-product quasi-interpolants inside the discrete spaces. *)
From Coq Require Import Reals Lra.
From mathcomp Require Import all_ssreflect all_algebra zify.
From Verif Require Import Model.RBase Model.Spline Model.Quad Model.Forms Model.DeRham Model.FormEval Model.Geometry Model.SeqR.
From Verif Require Import Spec.Cochain Spec.PolarSpace Spec.FreeDofs Spec.SeqSpec Spec.FormSpec Spec.GeomSpec Spec.SeqRSpec Spec.CalculusSpec Spec.ApproxSpec.
From Verif Require Import Proof.RField Proof.IndexLemmas Proof.Incidence Proof.Complex Proof.SeqFacts Proof.DeRhamAlg Proof.PolarSpan Proof.BSplinePoly
  Proof.SplineProps Proof.SplineDeriv Proof.FormEvalProofs Proof.GeometryProofs Proof.SeqRProofs Proof.SeqDeriv Proof.SeqCalculus Proof.SeqSmooth
  Proof.Topology Proof.SeqFlux Proof.ApproxSplines.
Set Implicit Arguments.
Unset Strict Implicit.
Unset Printing Implicit Defensive.
Import Order.TTheory GRing.Theory Num.Theory.
Local Open Scope ring_scope.

Lemma quasi_sum n ev om node per h x : quasi n ev om node per h x -> \sum_(i < n) om i * ev i = (1 : R).
Proof. by move=> [H _ _ _]; move: H; rewrite (rsumE n (fun i => Rmult (om i) (ev i))). Qed.
Lemma RabsE (x : R) : Rabs x = `|x|. Proof. by []. Qed.

Section Shift.
Local Open Scope R_scope.
Lemma regroup (a b c a' b' c' g : R) : a * b * c * g * (a' * b' * c') = (a * a') * (b * b') * (c * c') * g.
Proof. ring. Qed.
Lemma period_nat (g : R -> R) : (forall t, g (t + 1) = g t) -> forall k t, g (t + INR k) = g t.
Proof.
move=> H; elim=> [|k IH] t; first by rewrite Rplus_0_r.
by rewrite S_INR -Rplus_assoc H.
Qed.
Lemma period_Z (g : R -> R) : (forall t, g (t + 1) = g t) -> forall (k : BinNums.Z) t, g (t + IZR k) = g t.
Proof.
move=> H k t; case: k => [|p|p].
- by rewrite Rplus_0_r.
- by rewrite -positive_nat_Z -INR_IZR_INZ period_nat.
- rewrite -[in RHS](_ : (t + IZR (Z.neg p)) + INR (Pos.to_nat p) = t).
    by rewrite period_nat.
  by rewrite INR_IZR_INZ positive_nat_Z -Pos2Z.opp_pos opp_IZR; ring.
Qed.
Lemma near_bound L f x0 x1 x2 y0 y1 y2 (t1 t2 : BinNums.Z) h0 h1 h2 : lipschitz L f -> periodic_tz f ->
  0 <= x0 <= 1 -> 0 <= y0 <= 1 -> Rabs (x0 - (y0 + 0)) <= h0 -> Rabs (x1 - (y1 + IZR t1)) <= h1 -> Rabs (x2 - (y2 + IZR t2)) <= h2 ->
  Rabs (f (x0, x1, x2) - f (y0, y1, y2)) <= L.1.1 * h0 + L.1.2 * h1 + L.2 * h2.
Proof.
case: L => [[a b] c] [Ha Hb Hc HL] HP Hx Hy; rewrite Rplus_0_r => N0 N1 N2.
rewrite -(period_Z (g := fun t => f (y0, t, y2)) _ t1); last by move=> t; case: (HP y0 t y2).
rewrite -(period_Z (g := fun z => f (y0, y1 + IZR t1, z)) _ t2); last by move=> z; case: (HP y0 (y1 + IZR t1) z).
apply: Rle_trans (HL _ _ _ _ _ _ Hx Hy) _ => /=.
by apply: Rplus_le_compat; first apply: Rplus_le_compat; apply: Rmult_le_compat_l.
Qed.
End Shift.

Lemma approx3 n0 n1 n2 (A B C oA oB oC nA nB nC : nat -> R) h0 h1 h2 x0 x1 x2 L f :
  quasi n0 A oA nA false h0 x0 -> quasi n1 B oB nB true h1 x1 -> quasi n2 C oC nC true h2 x2 ->
  lipschitz L f -> periodic_tz f -> Rle 0 x0 /\ Rle x0 1 ->
  Rle (Rabs (Rminus (f (x0, x1, x2)) (\sum_(i < n0) \sum_(j < n1) \sum_(l < n2)
     (oA i * oB j * oC l * f (nA i, nB j, nC l)) * (A i * B j * C l))))
   (Rplus (Rplus (Rmult L.1.1 h0) (Rmult L.1.2 h1)) (Rmult L.2 h2)).
Proof.
move=> QA QB QC HL HP Hx.
set e := Rplus _ _.
have S1 : f (x0, x1, x2) = \sum_(i < n0) \sum_(j < n1) \sum_(l < n2) ((oA i * A i) * (oB j * B j) * (oC l * C l)) * f (x0, x1, x2).
  under eq_bigr => i _ do under eq_bigr => j _ do rewrite -mulr_suml -mulr_sumr (quasi_sum QC) mulr1.
  under eq_bigr => i _ do rewrite -mulr_suml -mulr_sumr (quasi_sum QB) mulr1.
  by rewrite -mulr_suml (quasi_sum QA) mul1r.
have pos (i : 'I_n0) (j : 'I_n1) (l : 'I_n2) : 0 <= (oA i * A i) * (oB j * B j) * (oC l * C l).
  have [_ P0 _ _] := QA; have [_ P1 _ _] := QB; have [_ P2 _ _] := QC.
  have := P0 i (elimT ssrnat.ltP (ltn_ord i)); have := P1 j (elimT ssrnat.ltP (ltn_ord j)); have := P2 l (elimT ssrnat.ltP (ltn_ord l)).
  by move=> /RleE H2 /RleE H1 /RleE H0; exact: mulr_ge0 (mulr_ge0 H0 H1) H2.
rewrite {1}S1 RminusE RabsE; apply/RleE; rewrite -sumrB.
have -> : e = \sum_(i < n0) \sum_(j < n1) \sum_(l < n2) ((oA i * A i) * (oB j * B j) * (oC l * C l)) * e.
  under eq_bigr => i _ do under eq_bigr => j _ do rewrite -mulr_suml -mulr_sumr (quasi_sum QC) mulr1.
  under eq_bigr => i _ do rewrite -mulr_suml -mulr_sumr (quasi_sum QB) mulr1.
  by rewrite -mulr_suml (quasi_sum QA) mul1r.
apply: le_trans (ler_norm_sum _ _ _) _; apply: ler_sum => i _; rewrite -sumrB.
apply: le_trans (ler_norm_sum _ _ _) _; apply: ler_sum => j _; rewrite -sumrB.
apply: le_trans (ler_norm_sum _ _ _) _; apply: ler_sum => l _.
have -> : oA i * oB j * oC l * f (nA i, nB j, nC l) * (A i * B j * C l)
   = (oA i * A i) * (oB j * B j) * (oC l * C l) * f (nA i, nB j, nC l).
  exact: regroup.
rewrite -mulrBr normrM (ger0_norm (pos i j l)).
case: (eqVneq (A i) 0) => [->|NA]; first by rewrite mulr0 !mul0r.
case: (eqVneq (B j) 0) => [->|NB]; first by rewrite mulr0 mulr0 !mul0r.
case: (eqVneq (C l) 0) => [->|NC]; first by rewrite mulr0 mulr0 !mul0r.
apply: ler_pmul => //.
have [_ _ R0' G0] := QA; have [_ _ R1' _] := QB; have [_ _ R2' _] := QC.
have [t0 [/(_ erefl) Et0 B0]] := R0' i (elimT ssrnat.ltP (ltn_ord i)) (elimN eqP NA).
have [t1 [_ B1]] := R1' j (elimT ssrnat.ltP (ltn_ord j)) (elimN eqP NB).
have [t2 [_ B2]] := R2' l (elimT ssrnat.ltP (ltn_ord l)) (elimN eqP NC).
rewrite Et0 in B0.
have := near_bound HL HP Hx (G0 erefl i (elimT ssrnat.ltP (ltn_ord i))) B0 B1 B2.
by rewrite RminusE RabsE => /RleE.
Qed.

Section Seq.
Variables (ns ps : triple) (q : nat) (types : stype * stype * stype) (DFx : point -> mat3 R_realFieldType)
  (polar dirichlet : bool).
Hypothesis Hs : supported ns ps q types polar dirichlet.
Hypothesis Hreg : regular_map DFx (seq_points ns ps q types).
Variable S : drseq R_realFieldType.
Hypothesis HS : new_sequence ns ps q types DFx polar dirichlet = Some S.
Notation field := (discrete_form ns ps types).
Notation n0 := ns.1.1.
Notation n1 := ns.1.2.
Notation n2 := ns.2.
Notation p0 := ps.1.1.
Notation p1 := ps.1.2.
Notation p2 := ps.2.
Notation xi := (get_xi n1 : nat -> nat -> nat -> R_realFieldType).

Definition om0 k c i : R := if has_dx k c 0 then dweight n0 p0 i else R1.
Definition nd0 k c i : R := if has_dx k c 0 then dnode n0 p0 i else cnode n0 p0 i.
Definition om1 k c : R := if has_dx k c 1 then Rinv (INR n1) else R1.
Definition om2 k c : R := if has_dx k c 2 then Rinv (INR n2) else R1.
Definition hs0 : R := Rdiv (INR (p0 + 1)) (INR (n0 - p0)).
Definition hs1 : R := Rdiv (INR (p1 + 1)) (INR n1).
Definition hs2 : R := Rdiv (INR (p2 + 1)) (INR n2).
Definition half01 (x : R) : Prop := Rle 0 x /\ Rlt x 1.

Lemma per_quasi n p l d x (b : bool) : (1 <= p)%N && (p < n)%N -> Rle (INR n) 49000 -> new_spline n p Periodic = Some l -> new_deriv l = Some d ->
  half01 x ->
  quasi n (fun i => if b then evaluate_deriv d x i else evaluate l x i) (fun _ => if b then Rinv (INR n) else R1) (pnode n) true (Rdiv (INR (p + 1)) (INR n)) x.
Proof.
move=> /andP [A B] N El Ed Hx; have [El' _] := new_spline_inv _ _ _ _ El; subst l.
rewrite new_deriv_periodic in Ed; try lia; case: Ed => Ed.
case: b.
- by apply: periodic_deriv_quasi => //; lia.
- by apply: periodic_quasi => //; lia.
Qed.

Lemma seq_quasi k c x0 x1 x2 : k <> KV -> (c < comps k)%N -> half01 x0 -> half01 x1 -> half01 x2 ->
  exists l0 l1 l2 d0 d1 d2, (forall k, DifferentialForm k ns ps types = Some (DForm k l0 l1 l2 d0 d1 d2)) /\
  let: (a, b, d) := cshape (Shape n0 n1 n2 true false false) k c in
  [/\ quasi a (factor (DForm k l0 l1 l2 d0 d1 d2) c 0 x0) (om0 k c) (nd0 k c) false hs0 x0,
      quasi b (factor (DForm k l0 l1 l2 d0 d1 d2) c 1 x1) (fun _ => om1 k c) (pnode n1) true hs1 x1
    & quasi d (factor (DForm k l0 l1 l2 d0 d1 d2) c 2 x2) (fun _ => om2 k c) (pnode n2) true hs2 x2].
Proof.
move=> Hk Hc H0 H1 H2.
have Hr : resolved ns ps q types by move: Hs; case: (ns) => [[? ?] ?] [].
move: Hr; rewrite /om0 /nd0 /om1 /om2 /hs0 /hs1 /hs2.
case: (ns) => [[m0 m1] m2]; case: (ps) => [[r0 r1] r2]; case: (types) => [[t0 t1] t2] Hr.
have [l0 [l1 [l2 [d0 [d1 [d2 [HD [/andP [A0 B0] N0 E0 F0] [A1 N1 E1 F1] Hz]]]]]]] := resolved_splines Hr.
exists l0, l1, l2, d0, d1, d2; split=> //=.
have Qr (b : bool) : quasi (if b then m0.-1 else m0) (fun i => if b then evaluate_deriv d0 x0 i else evaluate l0 x0 i)
   (fun i => if b then dweight m0 r0 i else R1) (fun i => if b then dnode m0 r0 i else cnode m0 r0 i) false (Rdiv (INR (r0 + 1)) (INR (m0 - r0))) x0.
  have [El' _] := new_spline_inv _ _ _ _ E0; subst l0.
  rewrite new_deriv_clamped in F0; try lia; case: F0 => F0.
  case: b.
  - rewrite -subn1; apply: clamped_deriv_quasi => //; lia.
  - by apply: clamped_quasi => //; try lia; case: H0 => H01 H02; split=> //; apply: Rlt_le.
have Qt b := per_quasi b A1 N1 E1 F1 H1.
have Qz (b : bool) : quasi m2 (fun i => if b then evaluate_deriv d2 x2 i else evaluate l2 x2 i) (fun _ => if b then Rinv (INR m2) else R1) (pnode m2) true (Rdiv (INR (r2 + 1)) (INR m2)) x2.
  case: Hz => [[_ A N [El Ed]]|[_ -> -> [El Ed]]]; first exact: (per_quasi b A N El Ed H2).
  have -> : (fun _ : nat => if b then Rinv (INR 1) else R1) = (fun _ => R1) by case: b; rewrite ?Rinv_1.
  apply: constant_quasi; last by case: H2 => A B; split=> //; apply: Rlt_le.
  by case: b; rewrite /evaluate_deriv /evaluate ?El ?Ed.
rewrite /factor /=.
by case: k Hk Hc => //=; case: c => [|[|[|c]]] //=; rewrite /dr /dt /dz /= ?subn0 ?subn1; split; (exact: (Qr true) || exact: (Qr false) || exact: (Qt true) || exact: (Qt false) || exact: (Qz true) || exact: (Qz false)).
Qed.

Section Phi.
Variables (k : deg) (phi : nat -> point -> R).
Hypothesis Hk : k <> KV.
Hypothesis Hedge : edge_ok polar dirichlet k phi.
Hypothesis Haxis : axis_ok polar k phi.
Definition qi (c i j l : nat) : R := om0 k c i * om1 k c * om2 k c * phi c (nd0 k c i, pnode n1 j, pnode n2 l).

Lemma qi_zero c i j l : phi c (nd0 k c i, pnode n1 j, pnode n2 l) = 0 -> qi c i j l = 0.
Proof. by rewrite /qi => ->; exact: mulr0. Qed.
Lemma sz : [/\ (1 <= p0)%N, (p0 < n0)%N, (1 < n0)%N & polar -> (2 < n0)%N].
Proof.
move: Hs; case: (ns) => [[m0 m1] m2]; case: (ps) => [[r0 r1] r2]; case: (types) => [[t0 t1] t2] [[_ H _ _] H2] /=.
by split; move: H H2; case: (polar); case: (dirichlet); lia.
Qed.
Lemma nd0_out c i : has_trace k c 0 -> (n0 <= i.+1)%N -> (i < n0)%N -> nd0 k c i = R1.
Proof.
move=> Ht H1 H2; have -> : i = (n0 - 1)%coq_nat by lia.
have : has_dx k c 0 = false by move: Ht Hk; rewrite /has_dx; case: (k); case: (c) => [|[|[|?]]].
by rewrite /nd0 => ->; exact: cnode_out.
Qed.
Lemma nd0_in c : nd0 k c 0 = R0.
Proof.
have [H1 H2 H3 _] := sz; rewrite /nd0; case: has_dx; first by apply: dnode_0; lia.
by apply: cnode_0; lia.
Qed.
Lemma nd0_in1 c : has_dx k c 0 = false -> polar -> nd0 k c 1 = R0.
Proof.
have [H1 H2 H3 H4] := sz => E Hp; rewrite /nd0 E; apply: cnode_in; have := H4 Hp; lia.
Qed.
Lemma phi_out c j l : dirichlet -> (c < comps k)%N -> has_trace k c 0 -> has_dx k c 0 = false -> qi c n0.-1 j l = 0.
Proof.
move=> Ho Hc Ht E; apply: qi_zero; have [_ _ H3 _] := sz.
by rewrite (nd0_out Ht); try lia; case: (Hedge Ho Hc Ht (pnode n1 j) (pnode n2 l)).
Qed.

Lemma qi_V : Vs n0 n1 n2 xi polar dirichlet k qi.
Proof.
rewrite /Vs; case Ep : polar.
- have Hxi : xi_ok xi n1 by have := seq_adm Hs Hreg HS; rewrite Ep => -[_ _ _ _ /(_ isT)].
  have cst c l : (c < comps k)%N -> has_dx k c 0 = false ->
     (forall t t' z, phi c (R0, t, z) = phi c (R0, t', z)) -> forall i j, (i < 2)%N -> (j < n1)%N ->
       qi c i j l = \sum_(p < 3) om1 k c * om2 k c * phi c (R0, R0, pnode n2 l) * xi p i j.
    move=> Hc Ed Hcst i j Hi Hj.
    have -> : \sum_(p < 3) om1 k c * om2 k c * phi c (R0, R0, pnode n2 l) * xi p i j = om1 k c * om2 k c * phi c (R0, R0, pnode n2 l).
      rewrite -mulr_sumr (sum3E (F := R_realFieldType) (fun p => xi p i j)) (proj1 (Hxi j Hj) i Hi); exact: mulr1.
    rewrite /qi /om0 Ed Rmult_1_l; congr (Rmult (Rmult _ _) _).
    have -> : nd0 k c i = R0 by case: i Hi => [|[|i]] // _; [exact: nd0_in | apply: nd0_in1; rewrite // Ep].
    exact: Hcst.
  have zin c j l : (c < comps k)%N -> (forall t z, phi c (R0, t, z) = 0) -> qi c 0 j l = 0.
    by move=> Hc Hz; apply: qi_zero; rewrite nd0_in; apply: Hz.
  have zin1 c j l : (c < comps k)%N -> has_dx k c 0 = false -> (forall t z, phi c (R0, t, z) = 0) -> qi c 1 j l = 0.
    by move=> Hc Ed Hz; apply: qi_zero; rewrite nd0_in1 ?Ep //; apply: Hz.
  have cst' c : (c < comps k)%N -> has_dx k c 0 = false -> (forall t t' z, phi c (R0, t, z) = phi c (R0, t', z)) ->
     exists g : nat -> R, forall i j l, (i < 2)%N -> (j < n1)%N -> qi c i j l = \sum_(p < 3) g l * xi p i j.
    move=> Hc Ed Hcst; exists (fun l => om1 k c * om2 k c * phi c (R0, R0, pnode n2 l)) => i j l Hi Hj.
    exact: cst.
  have Hax := Haxis Ep.
  rewrite /Vpol; case Ek : (k) => //.
  + have [g Hg] : exists g : nat -> R, forall i j l, (i < 2)%N -> (j < n1)%N -> qi 0 i j l = \sum_(p < 3) g l * xi p i j.
      by apply: cst'; rewrite ?Ek // => t t' z; have := Hax 0%N; rewrite Ek => /(_ isT); apply.
    exists (fun _ l => g l) => j l Hj Hl; split=> [i Hi|Ho]; first exact: Hg.
    by apply: phi_out; rewrite ?Ek.
  + have [g Hg] : exists g : nat -> R, forall i j l, (i < 2)%N -> (j < n1)%N -> qi 2 i j l = \sum_(p < 3) g l * xi p i j.
      by apply: cst'; rewrite ?Ek // => t t' z; have := Hax 2%N; rewrite Ek => /(_ isT); apply.
    have Z0 t z : phi 0 (R0, t, z) = 0 by have := Hax 0%N; rewrite Ek => /(_ isT t t z).
    have Z1 t z : phi 1 (R0, t, z) = 0 by have := Hax 1%N; rewrite Ek => /(_ isT t t z).
    exists (fun _ _ => 0), (fun _ l => g l) => j l Hj Hl; split.
    * by rewrite zin ?Ek // big1 // => p _; rewrite mul0r.
    * by rewrite zin ?Ek.
    * by rewrite zin1 ?Ek // big1 // => p _; rewrite mul0r.
    * by move=> i Hi; exact: Hg.
    * by move=> Ho; split; apply: phi_out; rewrite ?Ek.
  + have Z c t z : (c < 3)%N -> phi c (R0, t, z) = 0 by move=> Hc; have := Hax c; rewrite Ek => /(_ Hc t t z); case: c Hc => [|[|[|c]]].
    exists (fun _ _ => 0) => j l Hj Hl; split.
    * split; first by apply: zin => [|t z]; rewrite ?Ek //; apply: Z.
      rewrite zin1 ?Ek //; last by move=> t z; apply: Z.
      by rewrite big1 // => p _; rewrite mul0r.
    * rewrite zin ?Ek //; last by move=> t z; apply: Z.
      by rewrite big1 ?oppr0 // => p _; rewrite mul0r.
    * by apply: zin => [|t z]; rewrite ?Ek //; apply: Z.
    * by move=> Ho; apply: phi_out; rewrite ?Ek.
  + move=> j l Hj Hl; apply: zin; rewrite ?Ek // => t z.
    by have := Hax 0%N; rewrite Ek => /(_ isT t t z).
- move=> c i j l Hc Hin; rewrite freeE negbK => /andP [/andP [Ho Ht] Hi]; apply: qi_zero.
  have Hi0 : (i < n0)%N by move: Hin Hc Ht Hk; rewrite /in_comp; case: (k) => //; case: c => [|[|[|c]]] //= /and3P []; rewrite /dr /=; lia.
  have [E1 E0] := Hedge Ho Hc Ht (pnode n1 j) (pnode n2 l); rewrite Ep in E0.
  case/orP: Hi => [/eqP ->|Hi]; first by rewrite nd0_in; apply: E0.
  by rewrite (nd0_out Ht).
Qed.

Variable L : nat -> R * R * R.
Hypothesis Hlip : forall c, (c < comps k)%N -> lipschitz (L c) (phi c).
Hypothesis Hper : forall c, (c < comps k)%N -> periodic_tz (phi c).
Lemma approximant : exists z : 'cV_(rk S k), forall c x0 x1 x2, (c < comps k)%N -> half01 x0 -> half01 x1 -> half01 x2 ->
  Rle (Rabs (Rminus (phi c (x0, x1, x2)) (field z c (x0, x1, x2)))) (mesh_err ns ps (L c)).
Proof.
have [z Hz] := seq_real Hs Hreg HS Hk qi_V; exists z => c x0 x1 x2 Hc H0 H1 H2.
have [l0 [l1 [l2 [d0 [d1 [d2 [HD]]]]]]] := seq_quasi Hk Hc H0 H1 H2.
rewrite (form_str Hs Hreg HS HD) //; have := Hz c.
case E : cshape => [[a b] d] Hz' [Q0 Q1 Q2].
have H0' : Rle 0 x0 /\ Rle x0 1 by case: H0 => A B; split=> //; apply: Rlt_le.
have := approx3 Q0 Q1 Q2 (Hlip Hc) (Hper Hc) H0'.
have -> : Rplus (Rplus (Rmult (L c).1.1 hs0) (Rmult (L c).1.2 hs1)) (Rmult (L c).2 hs2) = mesh_err ns ps (L c).
  by rewrite /mesh_err /hs0 /hs1 /hs2; case: (ns) => [[? ?] ?]; case: (ps) => [[? ?] ?]; case: (L c) => [[? ?] ?].
apply: Rle_trans; right; congr (Rabs (Rminus _ _)).
apply: eq_bigr => i _; apply: eq_bigr => j _; apply: eq_bigr => l _.
by rewrite Hz' //; rewrite /in_comp E; apply/and3P.
Qed.
End Phi.
End Seq.
