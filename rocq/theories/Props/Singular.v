(** C77: constructor arguments that DeRhamSequence accepts although the mass matrices are singular (every
    operator of the sequence solves with one of them).  Together with C26_sequence this tells which
    discretisations are usable. *)
From Coq Require Import Reals Lra.
From mathcomp Require Import all_ssreflect all_algebra zify.
From Verif Require Import Model.RBase Model.Spline Model.Quad Model.Forms Model.DeRham Model.FormEval Model.Geometry Model.SeqR.
From Verif Require Import Spec.FreeDofs Spec.FormSpec Spec.GeomSpec Spec.SeqRSpec Spec.CalculusSpec Proof.RField Proof.IndexLemmas Proof.QuadProofs Proof.FormEvalProofs Proof.MassSPD Proof.SplineLink Proof.SplineTables Proof.Singular Props.Quadrature.
Set Implicit Arguments.
Unset Strict Implicit.
Unset Printing Implicit Defensive.
Import Order.TTheory GRing.Theory Num.Theory.
Local Open Scope ring_scope.

(** ** 1. fewer field values than degrees of freedom: whatever the extraction and the geometry *)
Theorem C77_counting : forall (F : realFieldType) (S : drseq F) (k : deg), k <> KV ->
  (dcomp k * n_q S < rk S k)%N -> exists2 x : 'cV[F]_(rk S k), x != 0 & mass S k *m x = 0.
Proof.
move=> F S k Hk Hlt.
pose V : 'M[F]_(rk S k, dcomp k * n_q S) :=
  \matrix_(i, t) form_value (delta_mx i 0 : 'cV[F]_(rk S k)) (t %/ dcomp k)%N (t %% dcomp k)%N.
have Hker : kermx V != 0.
  apply/negP => /eqP H0; have := mxrank_ker V; rewrite H0 mxrank0 => E.
  by have := rank_leq_col V; move: E Hlt; move: (\rank V) => a; lia.
have [i Hi] : exists i, row i (kermx V) != 0.
  apply/existsP; apply: contraNT Hker; rewrite negb_exists => /forallP H.
  by apply/eqP/row_matrixP => i; rewrite row0; apply/eqP; have := H i; rewrite negbK.
exists (row i (kermx V))^T; first by apply: contra Hi => /eqP E; rewrite -[row _ _]trmxK E trmx0.
apply: null_mass => // j m Hj Hm.
have Hd : (0 < dcomp k)%N by case: (k).
have Ht : (j * dcomp k + m < dcomp k * n_q S)%N by rewrite mulnC; nia.
have : (row i (kermx V) *m V) 0 (Ordinal Ht) = 0 by rewrite -row_mul mulmx_ker row0 mxE.
set y := row i _; rewrite mxE => E; rewrite -[RHS]E /form_value /evaluate_at_xq.
under [RHS]eq_bigr => a _ do rewrite [V _ _]mxE /form_value /evaluate_at_xq /= divnMDl // divn_small // addn0 modnMDl modn_small // mulr_sumr.
rewrite exchange_big /=; apply: eq_bigr => e _; rewrite [(_ *m y^T) _ _]mxE mulr_sumr; apply: eq_bigr => a _.
have -> : ((E_ S k)^T *m (delta_mx a 0 : 'cV_(rk S k))) e 0 = (E_ S k)^T e a.
  rewrite [LHS]mxE (bigD1 a) //= big1 => [|a' /negbTE Ha]; first by rewrite !mxE !eqxx mulr1 addr0.
  by rewrite !mxE Ha mulr0.
by rewrite [y^T _ _]mxE [RHS]mulrC mulrA.
Qed.
Print Assumptions C77_counting.

(** a matrix with a kernel vector is not invertible *)
Theorem C77_not_invertible : forall (F : realFieldType) n (A : 'M[F]_n) (x : 'cV[F]_n), x != 0 -> A *m x = 0 -> A \notin unitmx.
Proof.
move=> F n A x Hx E; apply: contra Hx => HU; apply/eqP.
by rewrite -[x]mul1mx -(mulVmx HU) -mulmxA E mulmx0.
Qed.
Print Assumptions C77_not_invertible.

Section Seq.
Variables (n0 n1 n2 p0 p1 p2 q : nat) (t0 t1 t2 : stype) (DFx : point -> mat3 R_realFieldType) (dirichlet : bool) (S : drseq R_realFieldType).
Notation ns := (n0, n1, n2).
Notation ps := (p0, p1, p2).

Lemma ctor polar : new_sequence ns ps q (t0, t1, t2) DFx polar dirichlet = Some S ->
  exists l0 l1 l2 d0 d1 d2 Q, [/\ new_spline n0 p0 t0 = Some l0, new_spline n1 p1 t1 = Some l1 & new_spline n2 p2 t2 = Some l2] /\
   [/\ new_deriv l0 = Some d0, new_deriv l1 = Some d1 & new_deriv l2 = Some d2] /\
   QuadratureRule l0 l1 l2 q = Some Q /\
   let f := DForm K0 l0 l1 l2 d0 d1 d2 in
   S = DeRhamSequence (f_shape f) (evaluate_1d f Q)
         (fun j => metric (DFx (List.nth j (q_x Q) (R0, R0, R0)))) (fun j => inv33 (metric (DFx (List.nth j (q_x Q) (R0, R0, R0)))))
         (fun j => det33 (DFx (List.nth j (q_x Q) (R0, R0, R0)))) (fun j => List.nth j (q_w Q) R0)
         (get_xi n1) polar dirichlet.
Proof.
rewrite /new_sequence /seq_form /DifferentialForm.
case E0 : (new_spline n0 p0 t0) => [l0|] //; case E1 : (new_spline n1 p1 t1) => [l1|] //; case E2 : (new_spline n2 p2 t2) => [l2|] //.
case D0 : (new_deriv l0) => [d0|] //; case D1 : (new_deriv l1) => [d1|] //; case D2 : (new_deriv l2) => [d2|] //.
rewrite /=; case EQ : (QuadratureRule l0 l1 l2 q) => [Q|] // [<-].
by exists l0, l1, l2, d0, d1, d2, Q.
Qed.

Lemma new_splineE n p t l : new_spline n p t = Some l -> l = mkSpline n p t (init_knots n p t).
Proof. by rewrite /new_spline; case: (_ && _)%bool => // -[<-]. Qed.
Lemma new_deriv_ty l d : new_deriv l = Some d -> sty d = sty l.
Proof. by rewrite /new_deriv; case E : (sty l) (sp l) => [] [|p] //; case: (_ && _)%bool => // -[<-]. Qed.

End Seq.

Section Seq2.
Variables (n0 n1 n2 p0 p1 p2 q : nat) (t0 t1 t2 : stype) (DFx : point -> mat3 R_realFieldType) (dirichlet : bool) (S : drseq R_realFieldType).
Notation ns := (n0, n1, n2).
Notation ps := (p0, p1, p2).

Lemma qx_pos (T : tables R_realFieldType) j : (j < qx T * qy T * qz T)%N -> ((qpoint T j).1.1 < qx T)%N.
Proof.
rewrite /qpoint /unravel3 => Hj /=; apply: ltn_pmod.
by case: (qx T) Hj => [|m]; rewrite ?mul0n.
Qed.

Lemma kernel_fun n m (M : 'M[R]_(n, m)) : (m < n)%N ->
  exists2 u : 'I_n -> R, exists i, u i != 0 & forall j, \sum_i M i j * u i = 0.
Proof.
move=> Hlt; have Hker : kermx M != 0.
  apply/negP => /eqP H0; have := mxrank_ker M; rewrite H0 mxrank0 => E.
  by have := rank_leq_col M; move: E Hlt; move: (\rank M) => a; lia.
have [i Hi] : exists i, row i (kermx M) != 0.
  apply/existsP; apply: contraNT Hker; rewrite negb_exists => /forallP H.
  by apply/eqP/row_matrixP => i; rewrite row0; apply/eqP; have := H i; rewrite negbK.
exists (fun a => row i (kermx M) 0 a).
  by apply/existsP; apply: contraNT Hi; rewrite negb_exists => /forallP H; apply/eqP/rowP => a; have := H a; rewrite negbK => /eqP ->; rewrite mxE.
move=> j; have : (row i (kermx M) *m M) 0 j = 0 by rewrite -row_mul mulmx_ker row0 mxE.
by rewrite mxE => E; rewrite -[RHS]E; apply: eq_bigr => a _; rewrite mulrC.
Qed.

(** ** 2. too few Gauss points per radial cell: with m points on each of the n0 - p0 cells and m (n0 - p0) < n0, the
    0-, 1- and 2-form mass matrices are singular, for every map and every resolution in theta and zeta *)
Theorem C77_radial : new_sequence ns ps q (Clamped, t1, t2) DFx false false = Some S ->
  [&& (1 <= p0)%N, (p0 < n0)%N, (is_clamped t1 < n1)%N & (is_clamped t2 < n2)%N] ->
  (gauss_order q * (n0 - p0) < n0)%N ->
  forall k, k = K0 \/ k = K1 \/ k = K2 -> exists2 x : 'cV_(rk S k), x != 0 & mass S k *m x = 0.
Proof.
move=> /ctor [l0 [l1 [l2 [d0 [d1 [d2 [Q [[E0 E1 E2] [[D0 D1 D2] [EQ ES]]]]]]]]]] /and4P [Hp1 Hp H1 H2] Hm k Hk.
have Hk' : k <> KV by case: Hk => [->|[->|->]].
have Ll := new_splineE E0; have L1 := new_splineE E1; have L2 := new_splineE E2.
have Eqx : length (x_x Q) = (gauss_order q * (n0 - p0))%N.
  move: EQ; rewrite /QuadratureRule Ll /select_quadrature [sty _]/=.
  case: (match sty l1 with Clamped | Periodic => _ | _ => _ end) => [[y1 z1]|] //.
  case: (match sty l2 with Clamped | Periodic => _ | _ => _ end) => [[y2 z2]|]; last by case: (composite_quad _ _).
  case EC : (composite_quad _ _) => [xx wx] [<-] /=.
  have -> : xx = (composite_quad (slice_pp (init_knots n0 p0 Clamped) p0) q).1 by rewrite -[slice_pp _ _]/(slice_pp (sT (mkSpline n0 p0 Clamped (init_knots n0 p0 Clamped))) p0) EC.
  have [|| -> _] := @C14_spline_mesh n0 p0; try lia.
  rewrite comp_lx linspace01_length.
  have -> : order q = gauss_order q by rewrite /order /gauss_order; case: q => [|[|[|[|[|[|[|[|[|[|[|q']]]]]]]]]]].
  by lia.
pose M : 'M[R]_(n0, length (x_x Q)) := \matrix_(i, j) evaluate l0 (List.nth j (x_x Q) R0) (minn i n0.-1).
have [u Hu Hz] : exists2 u : 'I_n0 -> R, exists i, u i != 0 & forall j, \sum_i M i j * u i = 0.
  by apply: kernel_fun; rewrite Eqx.
rewrite ES; set f := DForm _ _ _ _ _ _ _; set g1 := fun _ => metric _; set g2 := fun _ => inv33 _; set g3 := fun _ => det33 _; set g4 := fun _ => List.nth _ _ _.
pose c := if k is K1 then 1%N else 0%N.
have Hc : (c < ncomp k)%N by rewrite /c; case: (k) Hk'.
have Hin (i : 'I_n0) : in_comp (f_shape f) k c (val i, 0%N, 0%N).
  have Hi := ltn_ord i; rewrite /in_comp /c /f /f_shape Ll L1 L2 /=; case: Hk => [->|[->|->]] /=; rewrite /dt /dz /= Hi ?subn_gt0 ?H1 ?H2 //= ?(leq_ltn_trans (leq0n _) H1) ?(leq_ltn_trans (leq0n _) H2) //.
have [|||x Hx Hv] := @realise R_realFieldType (f_shape f) (NoBC, NoBC, NoBC) k c n0 (fun i => (val i, 0%N, 0%N)) u Hk' Hc Hin.
- by move=> i; apply/and3P; split; apply/implyP.
- by move=> i j [/val_inj].
- exact: Hu.
exists x => //; apply: null_mass => // j m Hj Hm'.
rewrite /form_value /evaluate_at_xq; set SS := DeRhamSequence _ _ _ _ _ _ _ _ _ in Hj *.
have := Hv (fun a => GeomSpec.getter SS k a j m) => E; apply: etrans E _.
have Hq : ((qpoint (evaluate_1d f Q) j).1.1 < length (x_x Q))%N := qx_pos Hj.
have Z := Hz (Ordinal Hq).
have HM (i : 'I_n0) : M i (Ordinal Hq) = rd n0 (lam_r (evaluate_1d f Q)) i (qpoint (evaluate_1d f Q) j).1.1 by rewrite mxE.
suff [C HC] : exists C, forall i : 'I_n0, GeomSpec.getter SS k (pos (f_shape f) k c (fun i : 'I_n0 => (val i, 0%N, 0%N)) i) j m = C * M i (Ordinal Hq).
  by rewrite (eq_bigr (fun i => C * (M i (Ordinal Hq) * u i))) -?mulr_sumr ?Z ?mulr0 // => i _; rewrite HC mulrA.
have Hun (i : 'I_n0) := pos_un Hc Hin i.
have En : sn l0 = n0 by rewrite Ll.
have Esh : sh SS = f_shape f by [].
have Etb : tb SS = evaluate_1d f Q by [].
move: HM; move: (M) => M' HM.
pose o1 := if k is K2 then rd (dt (f_shape f)) (dlam_t (evaluate_1d f Q)) 0 (qpoint (evaluate_1d f Q) j).1.2
  else if k is K1 then rd (dt (f_shape f)) (dlam_t (evaluate_1d f Q)) 0 (qpoint (evaluate_1d f Q) j).1.2
  else rd (nt (f_shape f)) (lam_t (evaluate_1d f Q)) 0 (qpoint (evaluate_1d f Q) j).1.2.
pose o2 := if k is K2 then rd (dz (f_shape f)) (dlam_z (evaluate_1d f Q)) 0 (qpoint (evaluate_1d f Q) j).2
  else rd (nz (f_shape f)) (lam_z (evaluate_1d f Q)) 0 (qpoint (evaluate_1d f Q) j).2.
exists ((if k is K0 then 1 else (m == c)%:R) * (o1 * o2)) => i; rewrite HM /o1 /o2.
have := Hun i; rewrite /c; case: Hk => [->|[->|->]] U; rewrite /GeomSpec.getter /get_Lambda_0 /get_Lambda_1 /get_Lambda_2 Esh Etb U; case: (qpoint _ _) => [[j1 j2] j3] /=; rewrite En ?mul1r.
- by rewrite [RHS]mulrC mulrA.
- by case: (m) => [|[|m']] /=; rewrite ?mul0r // mul1r [RHS]mulrC mulrA.
- by case: (m) => [|[|m']] /=; rewrite ?mul0r // mul1r [RHS]mulrC mulrA.
Qed.

(** ** 3. types 'fourier' and 'constant': every function evaluates to 1, so with two or more of them in theta or zeta there
    are non-zero degrees of freedom whose field vanishes identically, and all mass matrices are singular *)
Theorem C77_not_a_basis : new_sequence ns ps q (t0, t1, t2) DFx false dirichlet = Some S ->
  [&& (3 <= n0)%N, (is_clamped t1 < n1)%N & (is_clamped t2 < n2)%N] ->
  (t1 = Fourier \/ t1 = Constant) /\ (2 <= n1)%N \/ (t2 = Fourier \/ t2 = Constant) /\ (2 <= n2)%N ->
  forall k, k <> KV -> exists2 x : 'cV_(rk S k), x != 0 &
    mass S k *m x = 0 /\ forall c pt, (c < dcomp k)%N -> discrete_form ns ps (t0, t1, t2) x c pt = 0.
Proof.
move=> /ctor [l0 [l1 [l2 [d0 [d1 [d2 [Q [[E0 E1 E2] [[D0 D1 D2] [EQ ES]]]]]]]]]] /and3P [Hn H1 H2] Ht k Hk.
have Ll := new_splineE E0; have L1 := new_splineE E1; have L2 := new_splineE E2.
rewrite ES; set f := DForm _ _ _ _ _ _ _; set g1 := fun _ => metric _; set g2 := fun _ => inv33 _; set g3 := fun _ => det33 _; set g4 := fun _ => List.nth _ _ _.
pose f' := DForm k l0 l1 l2 d0 d1 d2.
have Hf' : DifferentialForm k ns ps (t0, t1, t2) = Some f' by rewrite /DifferentialForm E0 E1 E2 D0 D1 D2.
pose c := if k is K2 then 1%N else 0%N.
pose i0 := if k is K0 then 1%N else 0%N.
have [th Hth] : exists th : bool, if th then (t1 = Fourier \/ t1 = Constant) /\ (2 <= n1)%N else (t2 = Fourier \/ t2 = Constant) /\ (2 <= n2)%N.
  by case: Ht => Ht; [exists true | exists false].
have Hcl : if th then is_clamped t1 = false else is_clamped t2 = false by case: (th) Hth => -[[->|->] _].
pose t (i : 'I_2) : triple := if th then (i0, val i, 0%N) else (i0, 0%N, val i).
have Hc : (c < ncomp k)%N by rewrite /c; case: (k) Hk.
have Hin i : in_comp (f_shape f) k c (t i).
  have Hi := ltn_ord i; rewrite /in_comp /c /t /i0 /f /f_shape Ll L1 L2.
  move: Hth Hcl; case: (th) => -[Et Hn'] Ec /=; case: (k) Hk => //= _; rewrite /dr /dt /dz /= ?Ec; case: (is_clamped t0); lia.
have Hfr i : free_dof (f_shape f) (if dirichlet then Dirichlet else NoBC, NoBC, NoBC) k c (t i).
  have En : nr (f_shape f) = n0 by rewrite /f /= Ll.
  rewrite /free_dof /t /i0 En /c; case: (dirichlet); case: (th); case: (k) Hk => //= _; rewrite ?andbT //; lia.
have Hinj : injective t by move=> i j; rewrite /t; case: (th) => -[/val_inj].
pose u (i : 'I_2) : R := if val i is 0%N then 1 else -1.
have Hu : exists i, u i != 0 by exists ord0; rewrite /u /= oner_eq0.
have [x Hx Hv] := @realise R_realFieldType (f_shape f) (if dirichlet then Dirichlet else NoBC, NoBC, NoBC) k c 2 t u Hk Hc Hin Hfr Hinj Hu.
exists x => //.
have one l d : new_deriv l = Some d -> sty l = Fourier \/ sty l = Constant -> (forall y i, evaluate l y i = R1) /\ forall y i, evaluate_deriv d y i = R1.
  by move=> /new_deriv_ty Ed Es; split=> y i; rewrite /evaluate /evaluate_deriv ?Ed; case: Es => ->.
have H01 : if th then (forall y i, evaluate l1 y i = R1) /\ (forall y i, evaluate_deriv d1 y i = R1)
    else (forall y i, evaluate l2 y i = R1) /\ (forall y i, evaluate_deriv d2 y i = R1).
  by move: Hth; case: (th) => -[Et _]; apply: one => //; rewrite ?L1 ?L2.
have pair (h : nat -> R) : h (pos (f_shape f) k c t ord0) = h (pos (f_shape f) k c t (lift ord0 ord0)) ->
    \sum_(i < 2) h (pos (f_shape f) k c t i) * u i = 0.
  by move=> E; rewrite big_ord_recl big_ord1 E /u /= mulr1 mulrN1 subrr.
have Hun i := pos_un Hc Hin i.
split.
- apply: null_mass => // j m Hj Hm; rewrite /form_value /evaluate_at_xq.
  set SS := DeRhamSequence _ _ _ _ _ _ _ _ _ in Hj *.
  apply: etrans (Hv (fun a => GeomSpec.getter SS k a j m)) _; apply: (pair (fun a => GeomSpec.getter SS k a j m)).
  have Esh : sh SS = f_shape f by [].
  have Etb : tb SS = evaluate_1d f Q by [].
  have := Hun ord0; have := Hun (lift ord0 ord0); rewrite /c /t; move: H01.
  case: (th) => -[A B] U1 U0; move: U0 U1; case: (k) Hk => // _ U0 U1;
    rewrite /GeomSpec.getter /get_Lambda_0 /get_Lambda_1 /get_Lambda_2 /get_Lambda_3 Esh Etb U0 U1;
    case: (qpoint _ _) => [[j1 j2] j3]; rewrite /rd /=; rewrite ?A ?B //.
- move=> c' [[x0 x1] x2] Hc'; rewrite /discrete_form Hf'.
  have E := Hv (fun a => form_evaluate f' (x0, x1, x2) a c').
  rewrite (eq_bigr (fun i => form_evaluate f' (x0, x1, x2) (val i) c' * ((boundary_matrix R_realFieldType (f_shape f) (if dirichlet then Dirichlet else NoBC, NoBC, NoBC) k)^T *m x) i 0)); last first.
    by move=> i _; rewrite mulrC -[x^T *m _]trmxK trmx_mul trmxK mxE.
  apply: etrans E _; apply: (pair (fun a => form_evaluate f' (x0, x1, x2) a c')).
  have Hcc : (c' < comps k)%N by move: Hc'; rewrite /dcomp /comps; case: (k) Hk.
  have Hr i : in_range (f_shape f') k c (t i).1.1 (t i).1.2 (t i).2 by rewrite in_rangeE Hc -!surjective_pairing; exact: Hin.
  have Ep i : pos (f_shape f) k c t i = ravel_index (f_shape f') k c (t i).1.1 (t i).1.2 (t i).2 by rewrite /pos; case: (t i) => [[]].
  rewrite !Ep !(form_eval_spec Hf' _ _ _ (Hr _) Hcc); case: eqP => // _.
  rewrite /t /factor; move: H01; case: (th) => -[A B] /=; rewrite ?A ?B //.
Qed.
End Seq2.
Print Assumptions C77_radial.
Print Assumptions C77_not_a_basis.

(** one radial cell: q <= p0 Gauss points are too few (p0 + 1 are enough: C26_sequence) *)
Corollary C77_one_cell : forall (p0 n1 n2 p1 p2 q : nat) (DFx : point -> mat3 R_realFieldType) (S : drseq R_realFieldType),
  new_sequence (p0.+1, n1, n2) (p0, p1, p2) q (Clamped, Periodic, Periodic) DFx false false = Some S ->
  (1 <= q <= p0)%N -> (q <= 10)%N -> (0 < n1)%N -> (0 < n2)%N -> M0 S \notin unitmx /\ M1 S \notin unitmx /\ M2 S \notin unitmx.
Proof.
move=> p0 n1 n2 p1 p2 q DFx S HS /andP [Hq1 Hq2] Hq3 H1 H2.
have H k : k = K0 \/ k = K1 \/ k = K2 -> exists2 x : 'cV_(rk S k), x != 0 & mass S k *m x = 0.
  apply: (C77_radial HS); first by apply/and4P; split=> //; lia.
  by rewrite /gauss_order Hq1 Hq3 /= subSnn muln1.
have [x0 A0 B0] := H K0 (or_introl erefl).
have [x1 A1 B1] := H K1 (or_intror (or_introl erefl)).
have [x2 A2 B2] := H K2 (or_intror (or_intror erefl)).
split; [|split]; [exact: C77_not_invertible A0 B0 | exact: C77_not_invertible A1 B1 | exact: C77_not_invertible A2 B2].
Qed.
Print Assumptions C77_one_cell.

(** the constructor accepts such arguments *)
Example C77_nonvacuous : let id33 : mat3 R_realFieldType := fun k l => (k == l)%:R in
  [/\ exists S, new_sequence (8, 8, 6)%N (3, 2, 2)%N 1 (Clamped, Periodic, Periodic) (fun _ => id33) false false = Some S /\
        (gauss_order 1 * (8 - 3) < 8)%N /\ (dcomp K0 * n_q S < rk S K0)%N,
      exists S, new_sequence (8, 8, 6)%N (3, 2, 2)%N 4 (Clamped, Periodic, Fourier) (fun _ => id33) false true = Some S
    & exists S, new_sequence (4, 4, 4)%N (3, 2, 2)%N 3 (Clamped, Periodic, Periodic) (fun _ => id33) false false = Some S].
Proof.
move=> id33; split.
- by eexists; split; [reflexivity | split].
- by eexists.
- by eexists.
Qed.
