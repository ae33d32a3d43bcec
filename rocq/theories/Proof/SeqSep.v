(** Point values and interval integrals separate the splines, in one and in three directions. *)
From Coq Require Import Reals Lra.
From Coquelicot Require Import Coquelicot.
From mathcomp Require Import all_ssreflect all_algebra zify.
From Verif Require Import Model.RBase Model.Spline Model.Quad Model.Forms Model.DeRham Model.FormEval Model.Geometry Model.SeqR.
From Verif Require Import Spec.QuadSpec Spec.Cochain Spec.PolarSpace Spec.SeqSpec Spec.FormSpec Spec.GeomSpec Spec.SeqRSpec Spec.CalculusSpec Spec.SmoothSpec Spec.FluxSpec Spec.TopologySpec Spec.SegSpec.
From Verif Require Import Proof.RField Proof.MCRing Proof.IndexLemmas Proof.Incidence Proof.SeqFacts Proof.BSplinePoly Proof.QuadProofs Proof.SplineTables
  Proof.SplineLink Proof.SplineProps Proof.SplineInt Proof.SplineSmooth Proof.SplineSeg Proof.FormEvalProofs Proof.GeometryProofs Proof.SeqRProofs Proof.SeqDeriv Proof.SeqCalculus Proof.SeqSmooth Proof.SeqFlux Proof.SeqSeg.
From Verif Require Import Props.Quadrature.
Set Implicit Arguments.
Unset Strict Implicit.
Unset Printing Implicit Defensive.
Import Order.TTheory GRing.Theory Num.Theory.
Local Open Scope ring_scope.

(** the family P of weight vectors separates coefficient vectors of length n *)
Definition sep n (P : (nat -> R) -> Prop) : Prop := forall c : nat -> R,
  (forall I, P I -> \sum_(i < n) c i * I i = 0) -> forall i, (i < n)%N -> c i = 0.
Definition at_l (l : spline) (I : nat -> R) : Prop := exists x, closed01 x /\ I = evaluate l x.
Definition over_d n (d : spline) (I : nat -> R) : Prop := exists a b, sub01 a b /\ weights n d a b I.

Lemma sep_rows n l (X : list R) : (forall j, (j < length X)%N -> closed01 (List.nth j X R0)) ->
  @indep_rows R_realFieldType n (length X) (fun i j => evaluate l (List.nth j X 0) i) -> sep n (at_l l).
Proof.
move=> HX H c Hc i Hi; apply: (H c) => // j Hj.
by apply: (Hc (evaluate l (List.nth j X R0))); exists (List.nth j X R0); split=> //; apply: HX.
Qed.
Lemma linspace_node m q j : (1 < m)%N -> (j < length (fst (composite_quad (linspace01 m) q)))%N ->
  closed01 (List.nth j (fst (composite_quad (linspace01 m) q)) R0).
Proof.
move=> Hm Hj; have [Hi _] := @linspace_inc m (elimT ssrnat.ltP Hm).
have [e [He H1 H2]] := node_in Hi Hj; rewrite linspace_len in He.
have P : Rlt 0 (INR (m - 1)) by apply: lt_0_INR; lia.
rewrite !linspace01_nth in H1 H2; try lia.
have A : Rle 0 (Rdiv (INR e) (INR (m - 1))) by apply: Rle_mult_inv_pos => //; exact: pos_INR.
have B : Rle (Rdiv (INR e.+1) (INR (m - 1))) 1.
  apply/(Rmult_le_reg_r (INR (m - 1))) => //; rewrite /Rdiv Rmult_assoc Rinv_l ?Rmult_1_r ?Rmult_1_l; last by apply: Rgt_not_eq.
  by apply: le_INR; lia.
by split; [exact: Rle_trans A (Rlt_le _ _ H1) | exact: Rle_trans (Rlt_le _ _ H2) B].
Qed.
Section Prim.
Variables (n : nat) (l d : spline).
Hypothesis Hl : sep n (at_l l).
Hypothesis Hpou : forall x, closed01 x -> \sum_(j < n) evaluate l x j = 1.
Let C (c : nat -> R) (i : nat) : R := \sum_(k < i) c k.
Lemma prim_const (c : nat -> R) v : (forall x, closed01 x -> \sum_(i < n) C c i * evaluate l x i = v) ->
  forall i, (i < n)%N -> C c i = v.
Proof.
move=> H i Hi; apply/eqP; rewrite -subr_eq0; apply/eqP.
apply: (Hl (c := fun i => C c i - v)) => // I [x [Hx ->]].
under eq_bigr do rewrite mulrBl.
by rewrite sumrB H // -mulr_sumr Hpou // mulr1 subrr.
Qed.
Lemma Z01 : closed01 R0. Proof. by split; [apply: Rle_refl | apply: Rle_0_1]. Qed.
Lemma sub0 x : closed01 x -> sub01 R0 x. Proof. by case=> A B; split; [apply: Rle_refl | split]. Qed.
Lemma sep_open : seg_open n l d -> sep n.-1 (over_d n.-1 d).
Proof.
move=> HS c Hc i Hi.
have K x : closed01 x -> \sum_(i < n) C c i * evaluate l x i = \sum_(i < n) C c i * evaluate l R0 i.
  move=> Hx; have [I [W E]] := HS _ _ (sub0 Hx); apply/eqP; rewrite -subr_eq0 -E; apply/eqP.
  rewrite -[RHS](Hc I); last by exists R0, x; split=> //; exact: sub0.
  by apply: eq_bigr => k _; rewrite /C big_ord_recr /= addrC addKr.
have A := prim_const K; have : C c i.+1 = C c i by rewrite !A //; lia.
by rewrite /C big_ord_recr /= => /eqP; rewrite -subr_eq0 addrC addKr => /eqP.
Qed.
Lemma sep_per : (0 < n)%N -> unit_int n (evaluate_deriv d) -> seg_per n l d -> sep n (over_d n d).
Proof.
move=> Hn HU HS c Hc i Hi.
have Cn : C c n = 0.
  rewrite -[RHS](Hc (fun _ => 1)); first by apply: eq_bigr => k _; rewrite mulr1.
  by exists R0, R1; split=> //; split; [apply: Rle_refl | split; [apply: Rle_0_1 | apply: Rle_refl]].
have step k : (k < n)%N -> C c (k.+1 %% n)%N = C c k.+1.
  move=> Hk; have [E|E] := eqVneq k.+1 n; last by rewrite modn_small //; lia.
  by rewrite E modnn Cn /C big_ord0.
have dC k : C c k.+1 - C c k = c k by rewrite /C big_ord_recr /= addrC addKr.
have K x : closed01 x -> \sum_(i < n) C c i * evaluate l x i = \sum_(i < n) C c i * evaluate l R0 i.
  move=> Hx; have [I [W E]] := HS _ _ (sub0 Hx); apply/eqP; rewrite -subr_eq0 -E; apply/eqP.
  rewrite -[RHS](Hc I); last by exists R0, x; split=> //; exact: sub0.
  by apply: eq_bigr => k _; rewrite step // dC.
have A := prim_const K; have : C c (i.+1 %% n)%N = C c i by rewrite !A // ltn_mod.
by rewrite step // => /eqP; rewrite -subr_eq0 dC => /eqP.
Qed.
End Prim.

(** ** three directions *)
Lemma sep3 N M P (A B D : (nat -> R) -> Prop) (u : nat -> nat -> nat -> R) : sep N A -> sep M B -> sep P D ->
  (forall I J K, A I -> B J -> D K -> \sum_(i < N) \sum_(j < M) \sum_(l < P) u i j l * (I i * J j * K l) = 0) ->
  forall i j l, (i < N)%N -> (j < M)%N -> (l < P)%N -> u i j l = 0.
Proof.
move=> HA HB HD H i j l Hi Hj Hl.
apply: (HD (fun l => u i j l)) Hl => K HK.
apply: (HB (fun j => \sum_(l < P) u i j l * K l)) Hj => J HJ.
rewrite -[RHS](HA (fun i => \sum_(j < M) \sum_(l < P) u i j l * (J j * K l)) _ i Hi).
  by apply: eq_bigr => b _; rewrite mulr_suml; apply: eq_bigr => a _; rewrite -mulrA [K a * _]mulrC.
by move=> I HI; rewrite -sum3_as_r; apply: H.
Qed.

Record sep_splines (ns ps : triple) (types : stype * stype * stype) (l0 l1 l2 d0 d1 d2 : spline) : Prop := SepSplines {
  se_seg : seg_splines ns ps types l0 l1 l2 d0 d1 d2;
  se_l0 : sep ns.1.1 (at_l l0); se_l1 : sep ns.1.2 (at_l l1); se_l2 : sep ns.2 (at_l l2);
  se_d0 : sep ns.1.1.-1 (over_d ns.1.1.-1 d0); se_d1 : sep ns.1.2 (over_d ns.1.2 d1); se_d2 : sep ns.2 (over_d ns.2 d2) }.
Lemma resolved_sep ns ps q types : resolved ns ps q types -> exists l0 l1 l2 d0 d1 d2, sep_splines ns ps types l0 l1 l2 d0 d1 d2.
Proof.
move=> Hr; have [l0 [l1 [l2 [d0 [d1 [d2 FS]]]]]] := resolved_flux Hr.
have [l0' [l1' [l2' [d0' [d1' [d2' SS]]]]]] := resolved_seg Hr.
have := ss_form SS K0; rewrite (fs_form FS K0) => -[e0 e1 e2 e3 e4 e5].
move: SS; rewrite -e0 -e1 -e2 -e3 -e4 -e5 => SS {e0 e1 e2 e3 e4 e5 l0' l1' l2' d0' d1' d2'}.
have [S0 S1 S2] : [/\ sep ns.1.1 (at_l l0), sep ns.1.2 (at_l l1) & sep ns.2 (at_l l2)].
  have HD0 := fs_form FS K0; clear FS SS; move: Hr HD0; case: ns => [[n0 n1] n2]; case: ps => [[p0 p1] p2]; case: types => [[t0 t1] t2] Hr HD.
  have [k0 [k1 [k2 [g0 [g1 [g2 [HD' [/andP [A0 B0] N0 E0 F0] [/andP [A1 B1] N1 E1 F1] Hz]]]]]]] := resolved_splines Hr.
  move: HD; rewrite HD' => -[<- <- <- _ _ _] {HD'}.
  case: Hr => -[_ _] /and5P [H1 H2 H3 H4 /andP [H5 H6]] [HN0 HN1] Hz'.
  rewrite !gauss_orderE in H3 H6.
  split=> /=.
  - have [-> _] := new_spline_inv _ _ _ _ E0.
    by apply: sep_rows (clamped_rows H1 H2 HN0 H3) => j; apply: linspace_node; lia.
  - have [-> _] := new_spline_inv _ _ _ _ E1.
    by apply: sep_rows (periodic_rows H4 H5 HN1 H6) => j; apply: linspace_node; lia.
  - case: Hz => [[E /andP [A B] N [El Ed]]|[E -> Ep [El Ed]]].
      have [-> _] := new_spline_inv _ _ _ _ El.
      case: Hz' => [[_ [/and3P [A' B' C'] D']]|[E' _]]; last by rewrite E in E'.
      rewrite gauss_orderE in C'.
      by apply: sep_rows (periodic_rows A' B' D' C') => j; apply: linspace_node; lia.
    move=> c Hc [|//] _; have := Hc (evaluate k2 R0) (ex_intro _ R0 (conj Z01 erefl)).
    by rewrite big_ord1 /evaluate El => H; rewrite -[LHS]mulr1.
exists l0, l1, l2, d0, d1, d2; split=> //.
- exact: (sep_open S0 (fs_pr FS) (ss_r SS)).
- apply: (sep_per S1 (fs_pt FS) _ (fs_t FS) (ss_t SS)).
  by move: Hr; case: (ns) => [[n0 n1] n2]; case: (ps) => [[p0 p1] p2]; case: (types) => [[t0 t1] t2] [_ /and5P [_ _ _ _ /andP [H _]] _ _] /=; lia.
- apply: (sep_per S2 (fs_pz FS) _ (fs_z FS) (ss_z SS)).
  move: Hr; case: (ns) => [[n0 n1] n2]; case: (ps) => [[p0 p1] p2]; case: (types) => [[t0 t1] t2] [_ _ _ [[_ [/and3P [_ H _] _]]|[_ [-> _]]]] //=; lia.
Qed.
