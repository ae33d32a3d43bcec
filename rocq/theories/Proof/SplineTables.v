(** The univariate tables at composite Gauss nodes have linearly independent rows. *)
From Coq Require Import Reals Lra Lia.
From mathcomp Require Import all_ssreflect all_algebra zify.
From Verif Require Import Model.RBase Model.Spline Model.Quad Spec.BSpline Spec.QuadSpec Spec.SeqSpec.
From Verif Require Import Proof.BSplineLemmas Proof.SplineLink Proof.SplineProps Proof.SplineDeriv.
From Verif Require Import Proof.QuadProofs Proof.BSplineIndep Proof.BSplinePoly Proof.GaussGap Proof.RField Props.Quadrature.
Set Implicit Arguments.
Unset Strict Implicit.
Unset Printing Implicit Defensive.
Import GRing.Theory.
Local Open Scope ring_scope.

(** enough nodes per cell for splines of degree p on E cells: p+1, or p if p >= 2 and E >= 2 *)
Definition enough (p m E : nat) : bool := (p < m)%N || [&& (2 <= p)%N, p == m & (2 <= E)%N].

Section MeshIndep.
Variables (t : nat -> R) (T : list R) (q p m0 N : nat) (a : nat -> R).
Hypotheses (Ht : nondecreasing t) (HT : increasing T) (Hm0 : (p <= m0)%N).
Hypothesis HTt : forall e, (e.+1 < length T)%N -> [/\ List.nth e T 0 = t (m0 + e)%N, List.nth e.+1 T 0 = t (m0 + e).+1 & (m0 + e < N)%N].
Let X := fst (composite_quad T q).
Hypothesis Hz : forall j, (j < length X)%N -> rsum N (fun i => Rmult (a i) (Bspl t p i (List.nth j X 0))) = 0.
Let ys e := [seq List.nth (e * order q + k)%N X 0 | k <- iota 0 (order q)].
Let P e : {poly R} := \sum_(i < N) (a i)%:P * bpoly t (m0 + e) p i.

Let LX : length X = ((length T - 1) * order q)%N. Proof. by rewrite /X comp_lx. Qed.
Let Hin e k : (e.+1 < length T)%N -> (k < order q)%N ->
  Rlt (t (m0 + e)%N) (List.nth (e * order q + k)%N X 0) /\ Rlt (List.nth (e * order q + k)%N X 0) (t (m0 + e).+1).
Proof.
move=> He Hk; have [E1 E2 _] := HTt He; rewrite -E1 -E2; apply: (@comp_inside q T e k HT); exact/ltP.
Qed.
Let Hlt e k : (e.+1 < length T)%N -> (k < order q)%N -> (e * order q + k < length X)%N.
Proof. by move=> He Hk; rewrite LX; nia. Qed.
Let uniq_ys e : (e.+1 < length T)%N -> uniq (ys e).
Proof.
move=> He; rewrite map_inj_in_uniq ?iota_uniq // => k l; rewrite !mem_iota !add0n /= => Hk Hl.
have M := increasing_lt X (comp_increasing q T HT).
case: (ltngtP k l) => // Hkl E; exfalso.
+ by have := M (e * order q + l)%N (e * order q + k)%N ltac:(lia) ltac:(have := Hlt He Hl; lia); rewrite E => /Rlt_irrefl.
+ by have := M (e * order q + k)%N (e * order q + l)%N ltac:(lia) ltac:(have := Hlt He Hk; lia); rewrite E => /Rlt_irrefl.
Qed.
Let ys_in e y : (e.+1 < length T)%N -> y \in ys e -> Rlt (t (m0 + e)%N) y /\ Rlt y (t (m0 + e).+1).
Proof. by move=> He /mapP [k]; rewrite mem_iota add0n /= => Hk ->; apply: Hin. Qed.
Let ys_z e y : (e.+1 < length T)%N -> y \in ys e -> rsum N (fun i => Rmult (a i) (Bspl t p i y)) = 0.
Proof. by move=> He /mapP [k]; rewrite mem_iota add0n /= => Hk ->; apply/Hz/Hlt. Qed.
Let PE e x : Rle (t (m0 + e)%N) x -> Rlt x (t (m0 + e).+1) -> rsum N (fun i => Rmult (a i) (Bspl t p i x)) = (P e).[x].
Proof.
move=> h1 h2; rewrite rsumE horner_sum; apply: eq_bigr => i _.
by rewrite (bpoly_eval Ht p i h1 h2) hornerM hornerC.
Qed.
Let Psize e : (size (P e) <= p.+1)%N.
Proof.
apply: (leq_trans (size_sum _ _ _)); apply/bigmax_leqP => i _.
apply: (leq_trans (size_mul_leq _ _)); rewrite -subn1 leq_subLR.
by rewrite (leq_trans (leq_add (size_polyC_leq1 (a i)) (bpoly_size t (m0 + e) p i))).
Qed.
Let Proot e : (e.+1 < length T)%N -> all (root (P e)) (ys e).
Proof.
move=> He; apply/allP => y Hy; have [h1 h2] := ys_in He Hy.
by rewrite rootE -PE ?(ys_z He Hy) //; lra.
Qed.

(** two adjacent cells *)
Let pair0 e : (2 <= p)%N -> p = order q -> (e.+2 < length T)%N -> P e = 0 /\ P e.+1 = 0.
Proof.
move=> Hp2 Ep He; have He1 : (e.+1 < length T)%N by lia.
have [E1 E2 _] := HTt He1; have [F1 F2 _] := HTt He.
have S1 : size (ys e) = p by rewrite size_map size_iota.
have S2 : size (ys e.+1) = p by rewrite size_map size_iota.
have Em : (m0 + e.+1)%N = (m0 + e).+1 by rewrite addnS.
have L1 : Rlt (t (m0 + e)%N) (t (m0 + e).+1) by have := @Hin e 0%N He1 ltac:(lia); lra.
have L2 : Rlt (t (m0 + e).+1) (t (m0 + e).+2) by have := @Hin e.+1 0%N He ltac:(lia); rewrite Em; lra.
have [r Er] : exists r, p = r.+2 by exists p.-2; lia.
have U1 := uniq_ys He1; have U2 := uniq_ys He.
apply: (@both_sides (P e) (P e.+1) (ys e) (ys e.+1) (t (m0 + e).+1)) => //.
- by rewrite -size_eq0 S1 Er.
- by rewrite -size_eq0 S2 Er.
- by rewrite S1.
- by rewrite S2.
- exact: Proot.
- exact: Proot.
- by move=> y /(ys_in He1) [_ H]; apply/RltE.
- by move=> y /(ys_in He); rewrite Em => -[H _]; apply/RltE.
- rewrite /P !horner_sum; apply: eq_bigr => i _; rewrite !hornerM; congr (_ * _).
  by rewrite Em Er; exact: (@pc_match t _ L1 L2 r.+1 i).
- have D e' : (P e')^`() = \sum_(i < N) (a i)%:P * (bpoly t (m0 + e') p i)^`().
    by rewrite /P raddf_sum; apply: eq_bigr => i _; rewrite /= derivM derivC mul0r add0r.
  rewrite !D !horner_sum; apply: eq_bigr => i _; rewrite !hornerM; congr (_ * _).
  by rewrite Er !(@pc_deriv t Ht) Em; exact: (@dpc_match t _ L1 L2 r i).
Qed.

Lemma mesh_indep : enough p (order q) (length T - 1) ->
  forall e i, (e.+1 < length T)%N -> (m0 + e - p <= i)%N -> (i <= m0 + e)%N -> a i = 0.
Proof.
move=> Hen e i He H1 H2.
have [E1 E2 HN] := HTt He.
have Hcell : Rlt (t (m0 + e)%N) (t (m0 + e).+1).
  have Ho := order_pos q; have := @Hin e 0%N He ltac:(lia); lra.
have P0 : P e = 0.
  case/orP: Hen => [Hp|/and3P [Hp2 /eqP Ep HE]].
  - apply/eqP; apply: contraTT Hp => HP0; rewrite -leqNgt.
    have H := max_poly_roots HP0 (Proot He) (uniq_ys He); rewrite size_map size_iota in H.
    by rewrite -ltnS; apply: (leq_trans H); apply: Psize.
  - case: (ltnP e.+2 (length T)) => He2; first by have [] := pair0 Hp2 Ep He2.
    case: e He He2 {H1 H2 E1 E2 HN Hcell} => [|e] He He2; first lia.
    by have [] := pair0 Hp2 Ep He.
apply: (@local_indep t Ht (m0 + e) N Hcell (elimT ltP HN) p a) => [|x [h1 h2]|]; [lia | | lia].
by rewrite (@PE e) ?P0 ?horner0 //; lra.
Qed.
End MeshIndep.

Lemma node_cell (T : list R) q j : (j < length (fst (composite_quad T q)))%N ->
  exists e k, [/\ (e.+1 < length T)%N, (k < order q)%N & j = (e * order q + k)%N].
Proof.
rewrite comp_lx => Hj; have Ho := order_pos q.
exists (j %/ order q)%N, (j %% order q)%N; split.
- have : (j %/ order q < length T - 1)%N by rewrite ltn_divLR; [lia | lia].
  by lia.
- by rewrite ltn_mod; lia.
- exact: divn_eq.
Qed.

Lemma node_in (T : list R) q j : increasing T -> (j < length (fst (composite_quad T q)))%N ->
  exists e, [/\ (e.+1 < length T)%N, Rlt (List.nth e T 0) (List.nth j (fst (composite_quad T q)) 0)
               & Rlt (List.nth j (fst (composite_quad T q)) 0) (List.nth e.+1 T 0)].
Proof.
move=> HT Hj; have [e [k [He Hk ->]]] := node_cell Hj; exists e; split=> //.
- by have [] := @comp_inside q T e k HT (elimT ltP He) (elimT ltP Hk).
- by have [] := @comp_inside q T e k HT (elimT ltP He) (elimT ltP Hk).
Qed.

Lemma linspace_len m : length (linspace01 m) = m.
Proof. by rewrite /linspace01 List.map_length List.seq_length. Qed.

Lemma rsum_tail n (f : nat -> R) : (0 < n)%N -> f 0%N = R0 -> rsum n f = \sum_(i < n - 1) f i.+1.
Proof. by case: n => // n _ E; rewrite rsumE big_ord_recl E [X in X + _]R0E add0r subn1. Qed.

Section Clamped.
Variables n p q : nat.
Hypotheses (Hp1 : (1 <= p)%N) (Hp : (p < n)%N) (HN : Rle (INR (n - p)) 99900).
Let s := mkSpline n p Clamped (init_knots n p Clamped).
Let T := linspace01 (n - p + 1).
Let X := fst (composite_quad T q).

Lemma clamped_mesh : slice_pp (sT s) (sp s) = T.
Proof. by have [] := @C14_spline_mesh n p (elimT leP Hp1) (elimT ltP Hp). Qed.

Lemma clampedT_inc : increasing T /\ length T = (n - p + 1)%N.
Proof.
split; last exact: linspace_len.
by have [] := @linspace_inc (n - p + 1)%N ltac:(lia).
Qed.

Lemma clampedT_nth e : (e <= n - p)%N -> List.nth e T 0 = tclamped n p (p + e)%N.
Proof.
move=> He; rewrite linspace01_nth; last lia.
rewrite tclamped_mid; [|lia|lia].
by congr (Rdiv (INR _) (INR _)); lia.
Qed.

Lemma clamped_node j : (j < length X)%N ->
  exists e, [/\ (e < n - p)%N, Rlt (tclamped n p (p + e)) (List.nth j X 0) & Rlt (List.nth j X 0) (tclamped n p (p + e).+1)].
Proof.
have [Hi HL] := clampedT_inc.
move=> /(node_in Hi) [e [He H1 H2]]; exists e; split; first lia.
- by rewrite -clampedT_nth //; lia.
- by rewrite -addnS -clampedT_nth //; lia.
Qed.

Lemma clamped_node01 j : (j < length X)%N -> Rlt 0 (List.nth j X 0) /\ Rlt (List.nth j X 0) 1.
Proof.
move=> /clamped_node [e [He H1 H2]].
have Hnd := separated_nondec _ (@tclamped_separated n p (elimT ltP Hp) HN).
have := @nondecreasing_le _ Hnd 0 (p + e)%N ltac:(lia).
have := @nondecreasing_le _ Hnd (p + e).+1 n ltac:(lia).
rewrite (@tclamped_lo n p 0); last lia.
rewrite (@tclamped_hi n p n); [|lia|lia].
move=> A B; split; [exact: (Rle_lt_trans _ _ _ B H1) | exact: (Rlt_le_trans _ _ _ H2 A)].
Qed.

Lemma clamped_node_ne j : (j < length X)%N -> List.nth j X R0 <> R1.
Proof. by move=> Hj E; have [_] := clamped_node01 Hj; rewrite E => /Rlt_irrefl. Qed.

Lemma clamped_rows : enough p (order q) (n - p) ->
  @indep_rows R_realFieldType n (length X) (fun i j => evaluate s (List.nth j X 0) i).
Proof.
move=> Hq c Hc i Hi.
have Hnd := separated_nondec _ (@tclamped_separated n p (elimT ltP Hp) HN).
have [HTi HTl] := clampedT_inc.
have [e [He H1 H2]] : exists e, [/\ (e.+1 < length T)%N, (p + e - p <= i)%N & (i <= p + e)%N].
  case: (leqP i (n - p - 1)) => H; first by exists i; split; lia.
  by exists (n - p - 1)%N; split; lia.
apply: (@mesh_indep (tclamped n p) T q p p n c Hnd HTi (leqnn p) _ _ _ e i He H1 H2); last by rewrite HTl addnK.
- by move=> e' He'; split; [apply: clampedT_nth; lia | rewrite -addnS; apply: clampedT_nth; lia | lia].
- move=> j Hj; rewrite rsumE -[RHS](Hc j Hj); apply: eq_bigr => k _.
  congr (_ * _); rewrite -ev_clamped //; [exact/ltP | exact/ltP/ltn_ord | exact: clamped_node_ne Hj].
Qed.

Lemma clamped_drows d : (p < (order q).+1)%N -> new_deriv s = Some d ->
  @indep_rows R_realFieldType (n - 1) (length X) (fun i j => evaluate_deriv d (List.nth j X 0) i).
Proof.
move=> Hq; rewrite (@new_deriv_clamped n p (elimT leP Hp1) (elimT ltP Hp)) => - [<-] c Hc i Hi.
have Hnd := separated_nondec _ (@tclamped_separated n p (elimT ltP Hp) HN).
have [HTi HTl] := clampedT_inc.
pose w k : R := Rmult (INR p) (inv0 (Rminus (tclamped n p (k + 1 + p)) (tclamped n p (k + 1)))).
have Hw k : (k < n - 1)%N -> w k != 0.
  move=> Hk; apply/eqP/Rmult_integral_contrapositive_currified; first by apply: not_0_INR; lia.
  have := @tclamped_lt n p (k + 1)%N (k + 1 + p)%N ltac:(lia) ltac:(lia) ltac:(lia) ltac:(lia) => H.
  by rewrite inv0_nz; [apply: Rinv_neq_0_compat; lra | lra].
pose a k : R := if k is k'.+1 then c k' * w k' else 0.
have [e [He H1 H2]] : exists e, [/\ (e.+1 < length T)%N, (p + e - p.-1 <= i.+1)%N & (i.+1 <= p + e)%N].
  case: (leqP i (n - p - 1)) => H; first by exists i; split; lia.
  by exists (n - p - 1)%N; split; lia.
have : a i.+1 = 0.
  apply: (@mesh_indep (tclamped n p) T q p.-1 p n a Hnd HTi _ _ _ _ e i.+1 He H1 H2); [lia | | | by apply/orP; left; lia].
  - by move=> e' He'; split; [apply: clampedT_nth; lia | rewrite -addnS; apply: clampedT_nth; lia | lia].
  - move=> j Hj; rewrite rsum_tail; [|lia|by rewrite /a Rmult_0_l].
    rewrite -[RHS](Hc j Hj); apply: eq_bigr => k _.
    rewrite ev_deriv_clamped; [|lia|lia|done|exact: clamped_node_ne Hj|exact/ltP/ltn_ord].
    rewrite /a -!RmultE /w; set y := List.nth _ _ _.
    rewrite !Rmult_assoc (_ : (p - 1)%coq_nat = p.-1); last lia.
    by rewrite (_ : k.+1 = (k + 1)%coq_nat) //; lia.
by move=> /eqP; rewrite /a mulf_eq0 (negbTE (Hw _ Hi)) orbF => /eqP.
Qed.
End Clamped.

Lemma wrap_sum n p (c B : nat -> R) : (p <= n)%N ->
  \sum_(i < n) c i * (if (i < p)%N then B i + B (n + i)%N else B i)
  = \sum_(i < n + p) (if (i < n)%N then c i else c (i - n)%N) * B i.
Proof.
move=> Hp; rewrite big_split_ord /=.
rewrite (eq_bigr (fun i : 'I_n => c i * B i + (if (i < p)%N then c i * B (n + i)%N else 0))); last first.
  by move=> i _; case: (i < p)%N; rewrite ?mulrDr ?addr0.
rewrite big_split /=; congr (_ + _); first by apply: eq_bigr => i _; rewrite ltn_ord.
transitivity (\sum_(i < p) c i * B (n + i)%N).
  by rewrite -big_mkcond /= (big_ord_widen n (fun i => c i * B (n + i)%N) Hp).
by apply: eq_bigr => i _; rewrite ltnNge leq_addr /= addKn.
Qed.

Section Periodic.
Variables n p q : nat.
Hypotheses (Hp1 : (1 <= p)%N) (Hp : (p < n)%N) (HN : Rle (INR n) 49000).
Let s := mkSpline n p Periodic (init_knots n p Periodic).
Let T := linspace01 (n + 1).
Let X := fst (composite_quad T q).

Lemma periodic_mesh : slice_pp (sT s) (sp s) = T.
Proof. by have [] := @C14_spline_mesh n p (elimT leP Hp1) (elimT ltP Hp). Qed.

Lemma periodicT_inc : increasing T /\ length T = (n + 1)%N.
Proof.
split; last exact: linspace_len.
by have [] := @linspace_inc (n + 1)%N ltac:(lia).
Qed.

Lemma periodicT_nth e : (e <= n)%N -> List.nth e T 0 = tperiodic n p (p + e)%N.
Proof.
move=> He; rewrite linspace01_nth; last lia.
rewrite /tperiodic -plusE plus_INR; congr (Rdiv _ (INR _)); [lra | lia].
Qed.

Lemma periodic_rows : enough p (order q) n ->
  @indep_rows R_realFieldType n (length X) (fun i j => evaluate s (List.nth j X 0) i).
Proof.
move=> Hq c Hc i Hi.
have Hnd := @tperiodic_nondec n p ltac:(lia).
have [HTi HTl] := periodicT_inc.
pose a k : R := if (k < n)%N then c k else c (k - n)%N.
have : a i = 0.
  have [e [He H1 H2]] : exists e, [/\ (e.+1 < length T)%N, (p + e - p <= i)%N & (i <= p + e)%N].
    by exists i; split; lia.
  apply: (@mesh_indep (tperiodic n p) T q p p (n + p) a Hnd HTi (leqnn p) _ _ _ e i He H1 H2); last by rewrite HTl addnK.
  - by move=> e' He'; split; [apply: periodicT_nth; lia | rewrite -addnS; apply: periodicT_nth; lia | lia].
  - move=> j Hj; rewrite rsumE -[RHS](Hc j Hj).
    rewrite -(@wrap_sum n p c (fun k => Bspl (tperiodic n p) p k (List.nth j X 0))); last lia.
    apply: eq_bigr => k _; congr (_ * _).
    rewrite ev_periodic //; [|lia|lia|exact/ltP/ltn_ord].
    by case: Nat.ltb_spec => [/ltP ->|/leP]; last rewrite leqNgt => /negbTE ->.
by rewrite /a Hi.
Qed.

Lemma periodic_drows d : (p < (order q).+1)%N -> new_deriv s = Some d ->
  @indep_rows R_realFieldType n (length X) (fun i j => evaluate_deriv d (List.nth j X 0) i).
Proof.
move=> Hq; rewrite (@new_deriv_periodic n p (elimT leP Hp1) (or_introl (elimT ltP Hp))) => - [<-] c Hc i Hi.
have Hnd := @tperiodic_nondec n p ltac:(lia).
have [HTi HTl] := periodicT_inc.
pose a k : R := if k is k'.+1 then (if (k' < n)%N then c k' else c (k' - n)%N) else 0.
have : a i.+1 = 0.
  have [e [He H1 H2]] : exists e, [/\ (e.+1 < length T)%N, (p + e - p.-1 <= i.+1)%N & (i.+1 <= p + e)%N].
    by exists i; split; lia.
  apply: (@mesh_indep (tperiodic n p) T q p.-1 p (n + p) a Hnd HTi _ _ _ _ e i.+1 He H1 H2); [lia | | | by apply/orP; left; lia].
  - by move=> e' He'; split; [apply: periodicT_nth; lia | rewrite -addnS; apply: periodicT_nth; lia | lia].
  - move=> j Hj; rewrite rsum_tail; [|lia|by rewrite /a Rmult_0_l].
    have W := @wrap_sum n p.-1 c (fun k => Bspl (tperiodic n p) p.-1 k.+1 (List.nth j X 0)) ltac:(lia).
    rewrite (_ : (n + p - 1)%N = (n + p.-1)%N); last lia.
    transitivity (\sum_(i0 < n) c i0 * (if (i0 < p.-1)%N then Bspl (tperiodic n p) p.-1 i0.+1 (List.nth j X 0) + Bspl (tperiodic n p) p.-1 (n + i0).+1 (List.nth j X 0) else Bspl (tperiodic n p) p.-1 i0.+1 (List.nth j X 0))); first by rewrite W.
    apply/eqP; have Hn0 : INR n != 0 by apply/eqP; apply: not_0_INR; lia.
    rewrite -(mulrI_eq0 _ (lregP Hn0)); apply/eqP; rewrite mulr_sumr -[RHS](Hc j Hj); apply: eq_bigr => k _.
    rewrite ev_deriv_periodic //; [|lia|left; lia|exact/ltP/ltn_ord].
    rewrite mulrCA; congr (_ * _); rewrite -!RmultE; congr (Rmult _ _).
    rewrite (_ : (p - 1)%coq_nat = p.-1); last lia.
    rewrite (_ : (k + 1)%coq_nat = k.+1); last lia.
    rewrite (_ : (n + k + 1)%coq_nat = (n + k).+1); last lia.
    by case: Nat.ltb_spec => [/ltP ->|/leP]; last rewrite leqNgt => /negbTE ->.
by rewrite /a Hi.
Qed.
End Periodic.
