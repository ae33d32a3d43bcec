(** C72: approximation power of the discrete spaces and error of the L2 projection. *)
From Coq Require Import Reals Lra.
From mathcomp Require Import all_ssreflect all_algebra zify.
From Verif Require Import Model.RBase Model.Spline Model.Quad Model.Forms Model.DeRham Model.FormEval Model.Geometry Model.SeqR.
From Verif Require Import Spec.Cochain Spec.PolarSpace Spec.FreeDofs Spec.SeqSpec Spec.FormSpec Spec.GeomSpec Spec.SeqRSpec Spec.CalculusSpec Spec.ApproxSpec.
From Verif Require Import Proof.RField Proof.MassSPD Proof.GeometryProofs Proof.SeqRProofs Proof.SeqCalculus Proof.LazyProofs Proof.ApproxSplines Proof.ApproxSeq
  Props.SequenceR.
Set Implicit Arguments.
Unset Strict Implicit.
Unset Printing Implicit Defensive.
Import Order.TTheory GRing.Theory Num.Theory.
Local Open Scope ring_scope.

Section Pure.
Local Open Scope R_scope.
Lemma sq_bound (e m : R) : Rabs e <= m -> e * e <= m * m.
Proof. by move=> H; rewrite -(Rabs_right (e * e)); [rewrite Rabs_mult; apply: Rmult_le_compat => //; apply: Rabs_pos | apply: Rle_ge; apply: Rle_0_sqr]. Qed.
Lemma width_le (p P n N : nat) (a A : R) : (p <= P)%N -> (0 < N)%N -> (N <= n)%N -> 0 <= a -> a <= A ->
  a * (INR (p + 1) / INR n) <= A * (INR (P + 1) / INR N).
Proof.
move=> Hp HN Hn Ha HA.
have N0 : 0 < INR N by apply: lt_0_INR; lia.
have Nn : INR N <= INR n by apply: le_INR; lia.
apply: Rmult_le_compat => //.
  by apply: Rmult_le_pos; [apply: pos_INR | left; apply: Rinv_0_lt_compat; lra].
apply: Rmult_le_compat; [exact: pos_INR | left; apply: Rinv_0_lt_compat; lra | apply: le_INR; lia |].
by apply: Rinv_le_contravar.
Qed.
Lemma mesh_pos ns ps L f : lipschitz L f -> (ps.1.1 < ns.1.1)%N -> (0 < ns.1.2)%N -> (0 < ns.2)%N -> 0 <= mesh_err ns ps L.
Proof.
case: ns => [[n0 n1] n2]; case: ps => [[p0 p1] p2]; case: L => [[a b] c] /= [Ha Hb Hc _] H0 H1 H2.
have aux x (p n : nat) : 0 <= x -> (0 < n)%N -> 0 <= x * (INR (p + 1) / INR n).
  move=> Hx Hn; apply: Rmult_le_pos => //; apply: Rmult_le_pos; first exact: pos_INR.
  by left; apply: Rinv_0_lt_compat; apply: lt_0_INR; lia.
have H0' : (0 < n0 - p0)%N by lia.
by have := aux a p0 _ Ha H0'; have := aux b p1 _ Hb H1; have := aux c p2 _ Hc H2; lra.
Qed.
End Pure.

Section Seq.
Variables (ns ps : triple) (q : nat) (types : stype * stype * stype) (DFx : point -> mat3 R_realFieldType)
  (polar dirichlet : bool).
Hypothesis Hs : supported ns ps q types polar dirichlet.
Hypothesis Hreg : regular_map DFx (seq_points ns ps q types).
Variable S : drseq R_realFieldType.
Hypothesis HS : new_sequence ns ps q types DFx polar dirichlet = Some S.
Notation field := (discrete_form ns ps types).
Notation qpt := (qpt ns ps q types).
Notation phys_l2 := (phys_l2 ns ps q types DFx).
Notation npts := (length (seq_points ns ps q types)).
(** volume of the mapped domain, by the quadrature rule of the sequence *)
Definition volume : R := \sum_(j < npts) (qwt ns ps q types j * det33 (DFx (qpt j))).

Variables (k : deg) (phi : nat -> point -> R) (L : nat -> R * R * R).
Hypothesis Hk : k <> KV.
Hypothesis Hlip : forall c, (c < comps k)%N -> lipschitz (L c) (phi c).
Hypothesis Hper : forall c, (c < comps k)%N -> periodic_tz (phi c).
Hypothesis Hedge : edge_ok polar dirichlet k phi.
Hypothesis Haxis : axis_ok polar k phi.

(** every Lipschitz k-form that satisfies the essential conditions is approximated by some element of the discrete
    space, uniformly on the domain, component by component, to within its Lipschitz constants times the support
    widths of the splines *)
Theorem C72_uniform : exists z : 'cV_(rk S k), forall c x0 x1 x2, (c < comps k)%N ->
  Rle 0 x0 /\ Rlt x0 1 -> Rle 0 x1 /\ Rlt x1 1 -> Rle 0 x2 /\ Rlt x2 1 ->
  Rle (Rabs (Rminus (phi c (x0, x1, x2)) (field z c (x0, x1, x2)))) (mesh_err ns ps (L c)).
Proof. exact: (approximant Hs Hreg HS Hk Hedge Haxis Hlip Hper). Qed.

(** the push-forward at the quadrature points stretches lengths by at most sqrt G *)
Variable G : R.
Hypothesis HG0 : 0 <= G.
Hypothesis HG : forall j e, (j < npts)%N ->
  \sum_(a < dcomp k) pushforward k (DFx (qpt j)) e a * pushforward k (DFx (qpt j)) e a <= G * \sum_(c < dcomp k) e c * e c.

Lemma push_sub (DF : mat3 R_realFieldType) (u v : vec3 R_realFieldType) a :
  pushforward k DF u a - pushforward k DF v a = pushforward k DF (fun c => u c - v c) a.
Proof.
have sub (A : mat3 R_realFieldType) : mulv3 A u a - mulv3 A v a = mulv3 A (fun c => u c - v c) a.
  by rewrite /mulv3 -sumrB; apply: eq_bigr => m _; rewrite mulrBr.
by case: (k) => //=; rewrite ?sub -?mulrBl ?sub.
Qed.

(** the L2 projection of the physical field (push-forward of phi) has a squared L2 error of at most
    G * (sum of the squared mesh errors) * volume *)
Theorem C72_projection :
  let f j := pushforward k (DFx (qpt j)) (fun c => phi c (qpt j)) in
  exists2 p, Projector S (fun j => DFx (qpt j)) k f = Some p &
  let e j a := f j a - phys ns ps q types DFx (solve (mass S k) p) j a in
  phys_l2 (dcomp k) e e <= G * (\sum_(c < dcomp k) mesh_err ns ps (L c) * mesh_err ns ps (L c)) * volume.
Proof.
move=> f.
have [p Hp [Hbest _ _]] := C29_sequence Hs Hreg HS (fun x => pushforward k (DFx x) (fun c => phi c x)) Hk.
exists p; first exact: Hp.
move=> e; have [z Hz] := C72_uniform.
apply: le_trans (Hbest z) _.
have [En Ew [_ _ HO _]] := seq_summary' Hs Hreg HS.
rewrite /SequenceR.phys_l2 /volume mulr_sumr; apply: ler_sum => j _.
have Hj : (j < n_q S)%N by rewrite En; exact: ltn_ord.
have [HJ Hw] := HO _ Hj; rewrite Ew in Hw.
apply: ler_wpmul2r; first exact: mulr_ge0 (ltW Hw) (ltW HJ).
under eq_bigr => a _ do rewrite push_sub.
apply: le_trans (HG _ (ltn_ord j)) _; apply: ler_wpmul2l => //; apply: ler_sum => c _.
have Hc : (c < comps k)%N by case: (k) Hk (c) => // _ [].
have Hin : List.In (qpt j) (seq_points ns ps q types) by apply: List.nth_In; apply/ssrnat.ltP; exact: ltn_ord.
have Hr : resolved ns ps q types by move: Hs; case: (ns) => [[? ?] ?] [].
have := point_off Hr Hin; case: (qpt j) => [[x0 x1] x2] Hoff.
have [H0 [H1 H2]] : (Rlt 0 x0 /\ Rlt x0 1) /\ (Rlt 0 x1 /\ Rlt x1 1) /\ (Rlt 0 x2 /\ Rlt x2 1).
  by move: Hoff; rewrite /off_knots; case: (ns) => [[? ?] ?]; case: (ps) => [[? ?] ?] [].
have cl x : Rlt 0 x /\ Rlt x 1 -> Rle 0 x /\ Rlt x 1 by lra.
apply/RleE; apply: sq_bound.
exact: Hz Hc (cl _ H0) (cl _ H1) (cl _ H2).
Qed.

(** first order: with Lipschitz constants at most Lam, degrees at most P and at least N elements per direction, the
    squared L2 error is at most 3 G (3 Lam (P+1) / N)^2 * volume *)
Theorem C72_first_order : forall (Lam : R) (P N : nat), (0 < N)%N ->
  [&& (ps.1.1 <= P)%N, (ps.1.2 <= P)%N & (ps.2 <= P)%N] -> [&& (N <= ns.1.1 - ps.1.1)%N, (N <= ns.1.2)%N & (N <= ns.2)%N] ->
  (forall c, (c < comps k)%N -> [/\ Rle (L c).1.1 Lam, Rle (L c).1.2 Lam & Rle (L c).2 Lam]) ->
  let f j := pushforward k (DFx (qpt j)) (fun c => phi c (qpt j)) in
  exists2 p, Projector S (fun j => DFx (qpt j)) k f = Some p &
  let e j a := f j a - phys ns ps q types DFx (solve (mass S k) p) j a in
  let h : R := Rmult (Rmult 3 Lam) (Rdiv (INR (P + 1)) (INR N)) in
  phys_l2 (dcomp k) e e <= G * (3%:R * (h * h)) * volume.
Proof.
move=> Lam P N HN /and3P [P0 P1 P2] /and3P [N0 N1 N2] HLam f.
have [p Hp He] := C72_projection; exists p => // e h; apply: le_trans He _.
have [En Ew [_ _ HO _]] := seq_summary' Hs Hreg HS.
apply: ler_wpmul2r.
  apply: sumr_ge0 => j _; have Hj : (j < n_q S)%N by rewrite En; exact: ltn_ord.
  by have [HJ Hw] := HO _ Hj; rewrite Ew in Hw; exact: mulr_ge0 (ltW Hw) (ltW HJ).
apply: ler_wpmul2l => //.
have hh : 0 <= h * h by apply/RleE; apply: Rle_0_sqr.
have le1 c : (c < comps k)%N -> mesh_err ns ps (L c) * mesh_err ns ps (L c) <= h * h.
  move=> Hc; apply/RleE; apply: sq_bound.
  have Hn0 : (ps.1.1 < ns.1.1)%N by lia.
  have Hn1 : (0 < ns.1.2)%N by lia. have Hn2 : (0 < ns.2)%N by lia.
  rewrite Rabs_right; last by apply: Rle_ge; exact: (mesh_pos (Hlip Hc) Hn0 Hn1 Hn2).
  have := Hlip Hc; have [A B C] := HLam c Hc; move: A B C P0 P1 P2 N0 N1 N2 Hn0; rewrite /mesh_err /h.
  case: (ns) => [[n0 n1] n2]; case: (ps) => [[p0 p1] p2]; case: (L c) => [[a b] d] /= A B C P0 P1 P2 N0 N1 N2 Hn0 [Ha Hb Hd _].
  have Q0 := @width_le p0 P (n0 - p0)%N N a Lam P0 HN N0 Ha A.
  have Q1 := @width_le p1 P n1 N b Lam P1 HN N1 Hb B.
  have Q2 := @width_le p2 P n2 N d Lam P2 HN N2 Hd C.
  lra.
apply: (@le_trans _ _ (\sum_(c < dcomp k) h * h)).
  by apply: ler_sum => c _; apply: le1; case: (k) Hk (c) => // _ [].
rewrite sumr_const card_ord -[_ *+ _]mulr_natl; apply: ler_wpmul2r => //.
by rewrite ler_nat; case: (k).
Qed.
End Seq.

(** no stretching: 0-forms (scalars) have G = 1, and so have all degrees for the identity map *)
Lemma push0 (DF : mat3 R_realFieldType) e :
  \sum_(a < dcomp K0) pushforward K0 DF e a * pushforward K0 DF e a <= 1 * \sum_(c < dcomp K0) e c * e c.
Proof. by rewrite mul1r. Qed.
Lemma push2_id e :
  \sum_(a < dcomp K2) pushforward K2 id33 e a * pushforward K2 id33 e a <= 1 * \sum_(c < dcomp K2) e c * e c.
Proof.
rewrite mul1r; apply: ler_sum => a _.
have D : det33 id33 = 1 by rewrite /det33 /id33 /= !mulr0 !mulr1 !addr0 !subr0.
rewrite /pushforward D !divr1 /mulv3 /id33.
by case: a => [[|[|[|a]]] Ha] //=; rewrite !big_ord_recl big_ord0 /= !mul0r !mul1r ?add0r ?addr0.
Qed.

(** the scripts' polar Dirichlet discretisation with the scalar 1 - r and a hollow one with the 2-form (0, 0, r) *)
Example C72_nonvacuous : exists S S' : drseq R_realFieldType,
  [/\ new_sequence (8, 8, 1)%N (3, 3, 0)%N 4 (Clamped, Periodic, Constant) (fun _ => id33) true true = Some S,
      new_sequence (8, 8, 6)%N (3, 2, 2)%N 5 (Clamped, Periodic, Periodic) (fun _ => id33) false true = Some S',
      exists z : 'cV_(rk S K0), forall x0 x1 x2, Rle 0 x0 /\ Rlt x0 1 -> Rle 0 x1 /\ Rlt x1 1 -> Rle 0 x2 /\ Rlt x2 1 ->
        Rle (Rabs (Rminus (Rminus 1 x0) (discrete_form (8, 8, 1)%N (3, 3, 0)%N (Clamped, Periodic, Constant) z 0 (x0, x1, x2)))) (Rdiv 4 5)
    & let qp := qpt (8, 8, 6)%N (3, 2, 2)%N 5 (Clamped, Periodic, Periodic) in
      let f j := pushforward K2 id33 (fun c => if c == 2%N then (qp j).1.1 else R0) in
      exists2 p, Projector S' (fun j => id33) K2 f = Some p &
      let e j a := f j a - phys (8, 8, 6)%N (3, 2, 2)%N 5 (Clamped, Periodic, Periodic) (fun _ => id33) (solve (mass S' K2) p) j a in
      phys_l2 (8, 8, 6)%N (3, 2, 2)%N 5 (Clamped, Periodic, Periodic) (fun _ => id33) 3 e e
        <= 1 * (3%:R * (Rmult (Rmult 3 1) (Rdiv (INR 4) (INR 5)) * Rmult (Rmult 3 1) (Rdiv (INR 4) (INR 5))))
           * volume (8, 8, 6)%N (3, 2, 2)%N 5 (Clamped, Periodic, Periodic) (fun _ => id33)].
Proof.
have [H1 H2 H3 _ _] := SequenceR_nonvacuous.
have H2' : supported (8, 8, 6)%N (3, 2, 2)%N 5 (Clamped, Periodic, Periodic) false true by case: H2 => A _; split.
have [S HS] := C26_constructor_total H1 (H3 _); have [S' HS'] := C26_constructor_total H2' (H3 _); exists S, S'.
split=> //.
- have [//|||||z Hz] := @C72_uniform _ _ _ _ _ _ _ H1 (H3 _) S HS K0 (fun _ x => Rminus 1 x.1.1) (fun _ => (R1, R0, R0)).
  + move=> c _; split; try lra; move=> r t z r' t' z' _ _ /=.
    have -> : Rminus (Rminus 1 r) (Rminus 1 r') = Ropp (Rminus r r') by ring.
    by rewrite Rabs_Ropp; lra.
  + by move=> c _ r t z.
  + by move=> _ c _ _ t z; split=> //=; rewrite Rminus_diag_eq.
  + by move=> _ c _ t t' z.
  exists z => x0 x1 x2 A B C; apply: Rle_trans (Hz 0%N x0 x1 x2 isT A B C) _.
  by rewrite /mesh_err /=; lra.
- move=> qp f.
  have F := @C72_first_order _ _ _ _ _ _ _ H2' (H3 _) S' HS' K2 (fun c x => if c == 2%N then x.1.1 else R0) (fun _ => (R1, R0, R0)).
  have F' := F _ _ _ _ _ R1 _ (fun j e _ => push2_id e) R1 3%N 5%N.
  apply: F' => //.
  + move=> c _; split; try lra; move=> r t z r' t' z' _ _ /=; case: (c == 2%N); first lra.
    by rewrite Rminus_diag_eq // Rabs_R0; have := Rabs_pos (Rminus r r'); lra.
  + by move=> _ [|[|[|c]]] // _ _ t z.
  + by apply/RleE; apply: Rle_0_1.
  + by move=> c _; split; rewrite /=; lra.
Qed.
Print Assumptions C72_uniform.
Print Assumptions C72_projection.
Print Assumptions C72_first_order.
