(** The constructor of DeRhamSequence on supported arguments meets all the hypotheses of
    the abstract theorems. *)
From Coq Require Import Reals Lra Lia.
From mathcomp Require Import all_ssreflect all_algebra zify.
From Verif Require Import Model.RBase Model.Spline Model.Quad Model.Forms Model.DeRham Model.FormEval Model.Geometry Model.SeqR.
From Verif Require Import Spec.BSpline Spec.QuadSpec Spec.Cochain Spec.PolarSpace Spec.FreeDofs Spec.SeqSpec Spec.GeomSpec Spec.FormSpec Spec.SeqRSpec.
From Verif Require Import Proof.RField Proof.IndexLemmas Proof.BoundarySel Proof.Complex Proof.FormEvalProofs Proof.QuadProofs Proof.SplineTables Proof.MassSPD Proof.PolarFree Proof.ProjectionProofs Proof.SplineDeriv.
Set Implicit Arguments.
Unset Strict Implicit.
Unset Printing Implicit Defensive.
Import Order.TTheory GRing.Theory Num.Theory.
Local Open Scope ring_scope.

Lemma RpowE (x : R) n : pow x n = x ^+ n.
Proof. by elim: n => [|n IH] //=; rewrite IH exprS. Qed.

Section Xi.
Variable nt : nat.
Notation xi := (get_xi nt : nat -> nat -> nat -> R_realFieldType).

Lemma get_xi_ok : xi_ok xi nt.
Proof.
move=> j Hj; split=> [[|[|i]] // _|p j' Hp Hj' //].
- by rewrite /get_xi -!RplusE -R1E; lra.
- by rewrite /get_xi /xiM -!RplusE -R1E; lra.
Qed.

Lemma theta_0 : theta_j nt 0 = R0.
Proof. by rewrite /theta_j /= /Rdiv !Rmult_0_l. Qed.

Lemma sin_theta_1 : (3 <= nt)%N -> Rlt 0 (sin (theta_j nt 1)).
Proof.
move=> H; have Hn : Rle 3 (INR nt).
  have -> : IZR 3 = INR 3 by rewrite /=; lra.
  by apply: le_INR; lia.
have := PI_RGT_0 => HP; rewrite /theta_j (_ : INR 1 = R1) //.
have Hi : Rlt 0 (/ INR nt) by apply: Rinv_0_lt_compat; lra.
have Hi3 : Rle (/ INR nt) (/ 3) by apply: Rinv_le_contravar; lra.
apply: sin_gt_0; rewrite /Rdiv Rmult_1_l.
- by apply: Rmult_lt_0_compat => //; apply: Rmult_lt_0_compat => //; lra.
- have : Rle (/ INR nt * 2 * PI) (/ 3 * 2 * PI).
    by apply: Rmult_le_compat_r; [lra | apply: Rmult_le_compat_r; lra].
  by lra.
Qed.

Lemma get_xi_indep : (3 <= nt)%N -> xi_indep xi nt.
Proof.
move=> Hnt c H.
have H0 := H 0%N 0%N isT (leq_trans (isT : 0 < 3)%N Hnt).
have H1 := H 1%N 0%N isT (leq_trans (isT : 0 < 3)%N Hnt).
have H2 := H 1%N 1%N isT (leq_trans (isT : 1 < 3)%N Hnt).
have Hs := sin_theta_1 Hnt.
have [E0 E1 E2] : [/\ c 0%N = R0, c 1%N = R0 & c 2%N = R0].
  move: H0 H1 H2; rewrite !sum3O /get_xi theta_0 cos_0 sin_0 /xiM /= -!RplusE -!RmultE -R0E.
  move: (c 0%N) (c 1%N) (c 2%N) (cos (theta_j nt 1)) (sin (theta_j nt 1)) Hs (sqrt 3) (sqrt_lt_R0 3 ltac:(lra)) => c0 c1 c2 co si Hs s3 Hs3 H0 H1 H2.
  have E0 : c0 = R0 by lra.
  have E1 : c1 = Ropp c2 by lra.
  have E2 : Rmult (Rmult c2 s3) si = R0 by move: H2; rewrite E0 E1; lra.
  have E3 : c2 = R0 by case: (Rmult_integral _ _ E2) => [/Rmult_integral [] //|]; lra.
  by split=> //; lra.
by move=> [|[|[|p]]] // _; rewrite ?E0 ?E1 ?E2.
Qed.
End Xi.

(** ** the data of a supported constructor call *)
Lemma new_spline_ok n p ty : (p < n)%N -> new_spline n p ty = Some (mkSpline n p ty (init_knots n p ty)).
Proof. by move=> H; rewrite /new_spline; have -> : Nat.leb n p = false by apply/Nat.leb_gt; lia. Qed.

Lemma const_deriv n p T : (p < n)%N -> new_deriv (mkSpline n p Constant T) = Some (mkSpline n p Constant T).
Proof.
move=> H; rewrite /new_deriv [sty _]/= [sp _]/=.
suff -> : Nat.leb (deriv_n (mkSpline n p Constant T)) (deriv_p (mkSpline n p Constant T)) = false by case: p H.
apply/Nat.leb_gt; exact/ssrnat.ltP.
Qed.

Lemma gauss_orderE q : gauss_order q = order q.
Proof.
rewrite /gauss_order /order; case: Nat.leb_spec => [/ssrnat.leP ->|/ssrnat.leP H] /=.
  by case: Nat.leb_spec => [/ssrnat.leP ->|/ssrnat.leP] //; rewrite ltnNge => /negbTE ->.
by rewrite leqNgt H.
Qed.

(** a rule is good for a univariate basis and its derivative basis *)
Record good1 (l d : spline) (n : nat) (X W : list R) : Prop := Good1 {
  g_n : sn l = n; g_len : length X = length W;
  g_pos : forall w, List.In w W -> Rlt 0 w;
  g_ind : @indep_rows R_realFieldType n (length X) (fun i j => evaluate l (List.nth j X 0) i);
  g_dind : @indep_rows R_realFieldType (sn d) (length X) (fun i j => evaluate_deriv d (List.nth j X 0) i) }.

Lemma clamped_good n p q : (1 <= p)%N -> (p < n)%N -> gauss_ok p (order q) (n - p) -> Rle (INR (n - p)) 99900 ->
  let l := mkSpline n p Clamped (init_knots n p Clamped) in
  exists d X W, [/\ new_deriv l = Some d, sn d = n.-1, select_quadrature l q = Some (X, W) & good1 l d n X W].
Proof.
move=> Hp1 Hp Hq HN l.
have Ed := @new_deriv_clamped n p (elimT ssrnat.leP Hp1) (elimT ssrnat.ltP Hp).
set d := mkSpline _ (p - 1)%coq_nat _ _ in Ed.
pose R := composite_quad (linspace01 (n - p + 1)) q.
exists d, (fst R), (snd R); split=> //.
- by rewrite /d /=; lia.
- by rewrite /select_quadrature /= -[slice_pp _ _]/(slice_pp (sT l) (sp l)) clamped_mesh // /R -surjective_pairing.
- have [Hinc _] := clampedT_inc Hp1 Hp; split=> //.
  + by rewrite comp_lx comp_lw.
  + by move=> w; apply: comp_pos.
  + exact: clamped_rows.
  + have -> : sn d = (n - 1)%N by rewrite /d /=; lia.
    by apply: clamped_drows => //; move: Hq; rewrite /gauss_ok; lia.
Qed.

Lemma periodic_good n p q : (1 <= p)%N -> (p < n)%N -> gauss_ok p (order q) n -> Rle (INR n) 49000 ->
  let l := mkSpline n p Periodic (init_knots n p Periodic) in
  exists d X W, [/\ new_deriv l = Some d, sn d = n, select_quadrature l q = Some (X, W) & good1 l d n X W].
Proof.
move=> Hp1 Hp Hq HN l.
have Ed := @new_deriv_periodic n p (elimT ssrnat.leP Hp1) (or_introl (elimT ssrnat.ltP Hp)).
set d := mkSpline _ (p - 1)%coq_nat _ _ in Ed.
pose R := composite_quad (linspace01 (n + 1)) q.
exists d, (fst R), (snd R); split=> //.
- by rewrite /select_quadrature /= -[slice_pp _ _]/(slice_pp (sT l) (sp l)) periodic_mesh // /R -surjective_pairing.
- have [Hinc _] := periodicT_inc Hp1 Hp; split=> //.
  + by rewrite comp_lx comp_lw.
  + by move=> w; apply: comp_pos.
  + exact: periodic_rows.
  + by apply: (@periodic_drows n p q Hp1 Hp HN) => //; move: Hq; rewrite /gauss_ok; lia.
Qed.

Lemma constant_good q : let l := mkSpline 1 0 Constant (init_knots 1 0 Constant) in
  exists d X W, [/\ new_deriv l = Some d, sn d = 1%N, select_quadrature l q = Some (X, W) & good1 l d 1 X W].
Proof.
move=> l; exists l; eexists; eexists; split; [exact: const_deriv | by [] | by rewrite /select_quadrature /spectral_quad /=; reflexivity |].
split=> //=.
- by move=> w [<-|[]] //; rewrite /ufl; lra.
- by move=> c /(_ 0%N isT); rewrite big_ord1 /evaluate /= [X in _ * X]R1E mulr1 => H [|i].
- by move=> c /(_ 0%N isT); rewrite big_ord1 /evaluate_deriv /= [X in _ * X]R1E mulr1 => H [|i].
Qed.

(** S is built from the form f and the rule Q *)
Definition built (ns ps : triple) q types DFx polar dirichlet (f : dform) (Q : quadrule) (S : drseq R_realFieldType) : Prop :=
  [/\ DifferentialForm K0 ns ps types = Some f, QuadratureRule (f_L0 f) (f_L1 f) (f_L2 f) q = Some Q
    & let xj j := List.nth j (q_x Q) (R0, R0, R0) in
      S = DeRhamSequence (f_shape f) (evaluate_1d f Q)
                  (fun j => metric (DFx (xj j))) (fun j => inv33 (metric (DFx (xj j))))
                  (fun j => det33 (DFx (xj j))) (fun j => List.nth j (q_w Q) R0)
                  (get_xi (ns.1.2)) polar dirichlet].

Lemma new_seqP ns ps q types DFx polar dirichlet S : new_sequence ns ps q types DFx polar dirichlet = Some S <->
  exists f Q, built ns ps q types DFx polar dirichlet f Q S.
Proof.
rewrite /new_sequence /built /seq_form; split.
- case: (DifferentialForm _ _ _ _) => [f|] //; case E : (QuadratureRule _ _ _ _) => [Q|] // [<-].
  by exists f, Q.
- by move=> [f [Q [-> -> ->]]].
Qed.

(** everything the abstract theorems ask for *)
Record facts (ns ps : triple) (types : stype * stype * stype) (f : dform) (Q : quadrule) : Prop := Facts {
  fa_shape : f_shape f = Shape ns.1.1 ns.1.2 ns.2 true false false;
  fa_tab : tables_indep (f_shape f) (evaluate_1d f Q);
  fa_len : length (q_x Q) = length (q_w Q);
  fa_len3 : length (q_x Q) = (length (x_x Q) * length (x_y Q) * length (x_z Q))%N;
  fa_pos : forall w, List.In w (q_w Q) -> Rlt 0 w }.

Lemma resolved_facts ns ps q types : resolved ns ps q types ->
  exists f Q, [/\ DifferentialForm K0 ns ps types = Some f, QuadratureRule (f_L0 f) (f_L1 f) (f_L2 f) q = Some Q
    & facts ns ps types f Q].
Proof.
case: ns => [[n0 n1] n2]; case: ps => [[p0 p1] p2]; case: types => [[t0 t1] t2].
case=> -[-> ->] /and5P [H1 H2 H3 H4 /andP [H5 H6]] [HN0 HN1] Hz.
rewrite !gauss_orderE in H3 H6.
have [d0 [X0 [W0 [Ed0 Sd0 Eq0 G0]]]] := clamped_good H1 H2 H3 HN0.
have [d1 [X1 [W1 [Ed1 Sd1 Eq1 G1]]]] := periodic_good H4 H5 H6 HN1.
pose l2 := mkSpline n2 p2 t2 (init_knots n2 p2 t2).
have [C2 [P2 [d2 [X2 [W2 [Ed2 Sd2 Eq2 G2]]]]]] : is_clamped t2 = false /\ (p2 < n2)%N /\ exists d X W,
    [/\ new_deriv l2 = Some d, sn d = n2, select_quadrature l2 q = Some (X, W) & good1 l2 d n2 X W].
  rewrite /l2; case: Hz => [[-> [/and3P [A B C] D]]|[-> [-> ->]]].
  - by rewrite gauss_orderE in C; split=> //; split=> //; apply: periodic_good.
  - by split=> //; split=> //; apply: constant_good.
set l0 := mkSpline n0 p0 _ _ in Ed0 Eq0 G0; set l1 := mkSpline n1 p1 _ _ in Ed1 Eq1 G1.
exists (DForm K0 l0 l1 l2 d0 d1 d2), (mkQuad X0 X1 X2 W0 W1 W2 (meshgrid3 X0 X1 X2) (List.map prod3 (meshgrid3 W0 W1 W2))).
split.
- by rewrite /DifferentialForm !new_spline_ok // -/l0 -/l1 -/l2 Ed0 Ed1 Ed2.
- by rewrite /QuadratureRule [f_L0 _]/= [f_L1 _]/= [f_L2 _]/= Eq0 Eq1 Eq2.
- split.
  + by rewrite /f_shape /= C2.
  + rewrite /tables_indep /= /dr /dt /dz /= C2 /= !subn0 subn1 -Sd0 -{2}Sd1 -{2}Sd2.
    by case: G0 => _ _ _ A0 B0; case: G1 => _ _ _ A1 B1; case: G2 => _ _ _ A2 B2.
  + rewrite /= List.map_length !QuadProofs.mesh_length.
    by rewrite (g_len G0) (g_len G1) (g_len G2).
  + by rewrite /= QuadProofs.mesh_length !multE mulnA (mulnC (length X1)).
  + move=> w /= /List.in_map_iff [[[a b] c] [<- Hin]].
    move: Hin; rewrite /meshgrid3 => /List.in_flat_map [b' [Hb /List.in_flat_map [a' [Ha /List.in_map_iff [c' [[<- <- <-] Hc]]]]]].
    by apply: Rmult_lt_0_compat; first apply: Rmult_lt_0_compat;
      [apply: (g_pos G0) | apply: (g_pos G1) | apply: (g_pos G2)].
Qed.

Lemma supported_facts ns ps q types polar dirichlet : supported ns ps q types polar dirichlet ->
  exists f Q, [/\ DifferentialForm K0 ns ps types = Some f, QuadratureRule (f_L0 f) (f_L1 f) (f_L2 f) q = Some Q
    & facts ns ps types f Q].
Proof. by move=> H; apply: resolved_facts; move: H; case: ns => [[n0 n1] n2] []. Qed.

Section Main.
Variables (ns ps : triple) (q : nat) (types : stype * stype * stype) (DFx : point -> mat3 R_realFieldType) (polar dirichlet : bool).
Hypothesis Hs : supported ns ps q types polar dirichlet.

Lemma supported_admissible : admissible (Shape ns.1.1 ns.1.2 ns.2 true false false) (get_xi ns.1.2 : nat -> nat -> nat -> R_realFieldType) polar dirichlet.
Proof.
move: Hs; case: ns => [[n0 n1] n2]; case: ps => [[p0 p1] p2]; case: types => [[t0 t1] t2].
case=> -[[_ _] /and5P [H1 H2 H3 H4 /andP [H5 H6]] _ Hz] /and4P [Ha Hb Hc Hd]; split=> //=.
- have Hn2 : (0 < n2)%N by case: Hz => [[_ [/and3P [A B _] _]]|[_ [-> _]]] //; apply: leq_ltn_trans B.
  by rewrite Hn2 Ha (leq_ltn_trans _ H5).
- case: polar dirichlet Hd => [] [] //= _; by rewrite addn0; apply: leq_trans H2; rewrite ltnS.
- by move=> _; apply: get_xi_ok.
Qed.

Hypothesis Hreg : regular_map DFx (seq_points ns ps q types).

Lemma supported_seq : exists f Q S, [/\ new_sequence ns ps q types DFx polar dirichlet = Some S,
    built ns ps q types DFx polar dirichlet f Q S, facts ns ps types f Q
  & let DF j := DFx (List.nth j (q_x Q) (R0, R0, R0)) in
    [/\ geometry_of S DF, regular S DF, oriented S DF & masses_invertible S]].
Proof.
have [f [Q [Hf HQ HF]]] := supported_facts Hs.
have [S HS] : exists S, built ns ps q types DFx polar dirichlet f Q S by eexists; split; [exact: Hf | exact: HQ | reflexivity].
exists f, Q, S; split=> //; first by apply/new_seqP; exists f, Q.
move=> DF.
have ES : S = DeRhamSequence (f_shape f) (evaluate_1d f Q)
   (fun j => metric (DF j)) (fun j => inv33 (metric (DF j))) (fun j => det33 (DF j))
   (fun j => List.nth j (q_w Q) R0) (get_xi (ns.1.2)) polar dirichlet by case: HS.
have [EG EGi EJ Ew] : [/\ G_jkl S = (fun j => metric (DF j)), G_inv_jkl S = (fun j => inv33 (metric (DF j))),
   J_j S = (fun j => det33 (DF j)) & w_j S = (fun j => List.nth j (q_w Q) R0)] by rewrite ES /DeRhamSequence; case: (polar).
have [Esh Etb] : sh S = f_shape f /\ tb S = evaluate_1d f Q by rewrite ES /DeRhamSequence; case: (polar).
have Enq : n_q S = length (q_x Q) by rewrite /n_q Etb /= (fa_len3 HF).
have HG : geometry_of S DF by move=> j _; rewrite EG EGi EJ.
have Hge j : (j < n_q S)%N -> (10%:R ^+ 5)^-1 <= det33 (DF j).
  rewrite Enq => Hj; have : Rle (/ 10 ^ 5) (det33 (DF j)).
    apply: Hreg; rewrite /seq_points Hf HQ /DF; apply: List.nth_In; exact/ssrnat.ltP.
  move=> /RleE; congr (_ <= _); rewrite RinvE.
    by rewrite RpowE (_ : IZR 10 = 10%:R) // -INRE /=; lra.
  by apply/eqP; apply: pow_nonzero; lra.
have P5 : 0 < (10%:R ^+ 5)^-1 :> R_realFieldType by rewrite invr_gt0 exprn_gt0 // ltr0n.
have HR : regular S DF by move=> j Hj; apply: le_trans (Hge j Hj) (ler_norm _).
have HO : oriented S DF.
  move=> j Hj; split; first exact: lt_le_trans P5 (Hge j Hj).
  rewrite Ew; apply/RltE/(fa_pos HF)/List.nth_In; rewrite -(fa_len HF) -Enq; exact/ssrnat.ltP.
split=> //.
apply: masses_unit; first exact: geometry_of_pos HG HR HO.
- by rewrite Esh Etb; exact: (fa_tab HF).
- have [_ _ Hn _ _] := supported_admissible.
  rewrite ES /DeRhamSequence => k Hk; move: Hs; case: (polar) Hn => [/= Hn Hsu|_ _] /=.
  + rewrite (fa_shape HF).
    have Ht3 : (3 <= ns.1.2)%N.
      by move: Hsu; case: (ns) => [[n0 n1] n2]; case: (ps) => [[p0 p1] p2]; case: (types) => [[t0 t1] t2] [_ /and4P []].
    apply: polar_row_free => //; first exact: leq_trans Ht3.
    * exact: get_xi_ok.
    * exact: get_xi_indep.
  + by apply/row_freeP; eexists; apply: boundary_BBt.
Qed.
End Main.
