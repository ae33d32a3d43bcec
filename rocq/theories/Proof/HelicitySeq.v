(** Integration by parts for the pairing M12 of the sequences built by the constructor. *)
From Coq Require Import Reals Lra Lia.
From mathcomp Require Import all_ssreflect all_algebra zify.
From Verif Require Import Model.RBase Model.Spline Model.Quad Model.Forms Model.DeRham Model.FormEval Model.Geometry Model.SeqR.
From Verif Require Import Spec.BSpline Spec.QuadSpec Spec.Cochain Spec.PolarSpace Spec.FreeDofs Spec.SeqSpec Spec.GeomSpec Spec.FormSpec Spec.SeqRSpec Spec.TopologySpec Spec.RelaxSpec Spec.HelicitySpec.
From Verif Require Import Proof.RField Proof.IndexLemmas Proof.SequenceAlg Proof.DeRhamAlg Proof.Complex Proof.SeqFacts Proof.FormEvalProofs Proof.QuadProofs Proof.SplineTables Proof.SplineDeriv Proof.SeqRProofs Proof.Topology Proof.RelaxAlg Proof.SplineIBP Proof.SplineIBP2 Proof.HelicityIBP Proof.SeqCalculus Props.DeRham.
Set Implicit Arguments.
Unset Strict Implicit.
Unset Printing Implicit Defensive.
Import Order.TTheory GRing.Theory Num.Theory.
Local Open Scope ring_scope.

Lemma qsumE X W (f : R -> R) : length X = length W ->
  qsum (X, W) f = \sum_(j < length X) (List.nth j W R0 * f (List.nth j X R0) : R_realFieldType).
Proof.
rewrite /qsum /=; elim: X W => [|x X IH] [|w W] //=; first by rewrite big_ord0.
by move=> [H]; rewrite big_ord_recl /= -IH.
Qed.

Definition linear_rule (X W : list R) (g : nat -> R_realFieldType) : R_realFieldType :=
  \sum_(j < length X) (List.nth j W R0 : R_realFieldType) * g j.

(** what the integration by parts section asks of one direction *)
Definition dir_bounds (X W : list R) (L D dL : nat -> nat -> R_realFieldType) (nl nd : nat) (first : nat) (e x : R) : Prop :=
  (forall i i', (first <= i)%N -> (i < nd)%N -> (i' < nd)%N ->
     `|linear_rule X W (fun j => dL i j * L i' j + L i j * dL i' j)| <= (e : R_realFieldType)) /\
  (forall i i', (i < nd)%N -> (i' < nl)%N -> `|linear_rule X W (fun j => D i j * L i' j)| <= (x : R_realFieldType)).

Lemma clamped_dir n p q nt : (1 <= p)%N -> (p < n)%N -> (p <= order q)%N -> Rle (INR (n - p)) 99900 -> (n <= nt)%N ->
  let s := mkSpline n p Clamped (init_knots n p Clamped) in
  let d := mkSpline (n - 1) (p - 1) Clamped (init_knots n p Clamped) in
  let r := composite_quad (linspace01 (n - p + 1)) q in
  let L i j := evaluate s (List.nth j r.1 R0) (minn i n.-1) in
  let D i j := evaluate_deriv d (List.nth j r.1 R0) (minn i (n - 1).-1) in
  let dL i j := (if (0 < i)%N then D i.-1 j else 0) - (if i == nt.-1 then 0 else D i j) in
  dir_bounds r.1 r.2 L D dL n n.-1 1 (epsb p) (Xb p).
Proof.
move=> H1 H2 H3 H4 H5 s d r L D dL.
have Hl : length r.1 = length r.2 by rewrite comp_lx comp_lw.
split=> i i' Hi.
- move=> Hi1 Hi2.
  have := @clamped_ibp n p q (elimT ssrnat.leP H1) (elimT ssrnat.ltP H2) H4 (elimT ssrnat.leP H3) i i'
    (elimT ssrnat.leP Hi) ltac:(lia) ltac:(lia).
  rewrite [composite_quad _ _]surjective_pairing qsumE // => /RleE; set v := bigop _ _ _; set v' := linear_rule _ _ _; suff -> : v' = v by []; rewrite /v /v' /linear_rule.
  apply: eq_bigr => j _; congr (_ * _).
  have E k : (k < n.-1)%N -> cder n p k (List.nth j r.1 R0) = dL k j.
    move=> Hk; rewrite /cder /dL /D; have -> : (k == nt.-1) = false by apply/eqP; lia.
    have -> : Nat.eqb k (n - 1) = false by apply/Nat.eqb_neq; lia.
    case: k Hk => [|k] Hk /=; rewrite -[_ - _]/(Rminus _ _); congr (Rminus _ (evaluate_deriv _ _ _)); try (congr (evaluate_deriv _ _ _)); lia.
  have EL k : (k < n.-1)%N -> evaluate s (List.nth j r.1 R0) k = L k j.
    by move=> Hk; rewrite /L; congr (evaluate _ _ _); lia.
  by rewrite -(E i) // -(E i') // -(EL i) // -(EL i').
- move=> Hi'.
  have := @clamped_cross n p q (elimT ssrnat.leP H1) (elimT ssrnat.ltP H2) H4 (elimT ssrnat.leP H3) i' i ltac:(lia) ltac:(lia).
  rewrite [composite_quad _ _]surjective_pairing qsumE // => /RleE; set v := bigop _ _ _; set v' := linear_rule _ _ _; suff -> : v' = v by []; rewrite /v /v' /linear_rule.
  apply: eq_bigr => j _; congr (_ * _); rewrite /D /L -[_ * _]/(Rmult _ _).
  by congr (Rmult (evaluate_deriv _ _ _) (evaluate _ _ _)); lia.
Qed.

Lemma periodic_dir n p q m : (1 <= p)%N -> (p < n)%N -> (p <= order q)%N -> Rle (INR n) 49000 -> (n <= m)%N ->
  let s := mkSpline n p Periodic (init_knots n p Periodic) in
  let d := mkSpline n (p - 1) Periodic (List.removelast (List.tl (init_knots n p Periodic))) in
  let r := composite_quad (linspace01 (n + 1)) q in
  let L i j := evaluate s (List.nth j r.1 R0) (minn i n.-1) in
  let D i j := evaluate_deriv d (List.nth j r.1 R0) (minn i n.-1) in
  let dL i j := (if (0 < i)%N then D i.-1 j else D m.-1 j) - D i j in
  dir_bounds r.1 r.2 L D dL n n 0 (epsb p) (Xb p).
Proof.
move=> H1 H2 H3 H4 H5 s d r L D dL.
have Hl : length r.1 = length r.2 by rewrite comp_lx comp_lw.
split=> i i' Hi.
- move=> Hi1 Hi2.
  have := @periodic_ibp n p q (elimT ssrnat.leP H1) (elimT ssrnat.ltP H2) H4 (elimT ssrnat.leP H3) i i' ltac:(lia) ltac:(lia).
  rewrite [composite_quad _ _]surjective_pairing qsumE // => /RleE; set v := bigop _ _ _; set v' := linear_rule _ _ _; suff -> : v' = v by []; rewrite /v /v' /linear_rule.
  apply: eq_bigr => j _; congr (_ * _).
  have E k : (k < n)%N -> pder1 n p k (List.nth j r.1 R0) = dL k j.
    move=> Hk; rewrite /pder1 /dL /D -[_ - _]/(Rminus _ _); congr (Rminus _ (evaluate_deriv _ _ _)); last by lia.
    have Em : Nat.modulo (k + n - 1)%coq_nat n = if k is k'.+1 then k' else n.-1.
      case: k Hk => [|k] Hk; first by rewrite Nat.mod_small; lia.
      have -> : (k.+1 + n - 1)%coq_nat = (k + 1 * n)%coq_nat by lia.
      by rewrite Nat.mod_add ?Nat.mod_small; lia.
    rewrite Em; case: k Hk {Em} => [|k] Hk /=; congr (evaluate_deriv _ _ _); lia.
  have EL k : (k < n)%N -> evaluate s (List.nth j r.1 R0) k = L k j.
    by move=> Hk; rewrite /L; congr (evaluate _ _ _); lia.
  by rewrite -(E i) // -(E i') // -(EL i) // -(EL i').
- move=> Hi'.
  have := @periodic_cross n p q (elimT ssrnat.leP H1) (elimT ssrnat.ltP H2) H4 (elimT ssrnat.leP H3) i' i ltac:(lia) ltac:(lia).
  rewrite [composite_quad _ _]surjective_pairing qsumE // => /RleE; set v := bigop _ _ _; set v' := linear_rule _ _ _; suff -> : v' = v by []; rewrite /v /v' /linear_rule.
  apply: eq_bigr => j _; congr (_ * _); rewrite /D /L -[_ * _]/(Rmult _ _).
  by congr (Rmult (evaluate_deriv _ _ _) (evaluate _ _ _)); lia.
Qed.

Lemma constant_dir m : 
  let s := mkSpline 1 0 Constant (init_knots 1 0 Constant) in
  let r := (Rdiv (Rplus (ufl 0) 1) 2 :: nil, Rdiv (ufl 20000000000000000) 2 :: nil) in
  let L i j := evaluate s (List.nth j r.1 R0) (minn i 0) in
  let D i j := evaluate_deriv s (List.nth j r.1 R0) (minn i 0) in
  let dL i j := (if (0 < i)%N then D i.-1 j else D m.-1 j) - D i j in
  dir_bounds r.1 r.2 L D dL 1 1 0 (epsb 0) (Xb 0).
Proof.
move=> s r L D dL.
have dL0 i j : dL i j = 0 by rewrite /dL /D; case: ifP; rewrite subrr.
have E0 : epsb 0 = R0 by rewrite /epsb /= !Rmult_0_r !Rmult_0_l.
have EX : Xb 0 = R1 by rewrite /Xb /=; lra.
have Ew : Rdiv (ufl 20000000000000000) 2 = R1 by rewrite /ufl; lra.
split=> i i' _ _; rewrite /linear_rule /= big_ord1 /= Ew.
  by move=> _; rewrite !dL0 mul0r mulr0 addr0 mulr0 normr0 E0.
by rewrite EX /D /L /evaluate_deriv /evaluate /= -[IZR 1]/R1 R1E !mulr1 normr1.
Qed.

(** the coefficients that vanish under Dirichlet conditions *)
Definition bdry0 (F : realFieldType) (S : drseq F) (nr nt nz : nat) : Prop :=
  [/\ forall (f : 'cV_(rk S K0)) j l, (j < nt)%N -> (l < nz)%N -> coefs S K0 f 0%N nr.-1 j l = 0,
      forall (a : 'cV_(rk S K1)) j l, (j < nt)%N -> (l < nz)%N ->
        [/\ coefs S K1 a 1%N 0%N j l = 0, coefs S K1 a 1%N nr.-1 j l = 0 & coefs S K1 a 2%N nr.-1 j l = 0]
    & forall (b : 'cV_(rk S K2)) j l, (j < nt)%N -> (l < nz)%N ->
        coefs S K2 b 0%N 0%N j l = 0 /\ coefs S K2 b 0%N nr.-1 j l = 0].
Lemma bdry0_ok (F : realFieldType) (nr nt nz : nat) (t : tables F) (G Gi : nat -> nat -> nat -> F) (J w : nat -> F)
    (xi : nat -> nat -> nat -> F) (polar dirichlet : bool) :
  admissible (Shape nr nt nz true false false) xi polar dirichlet -> dirichlet = true ->
  bdry0 (DeRhamSequence (Shape nr nt nz true false false) t G Gi J w xi polar dirichlet) nr nt nz.
Proof.
move=> Hadm Ho; split=> y j l Hj Hl.
- by apply: (edge0 Hadm _ Ho) => //; apply: (V_coefs Hadm).
- have V := @V_coefs F nr nt nz t G Gi J w xi polar dirichlet Hadm K1 y ltac:(by []).
  have [A B] := edge1 Hadm V Ho Hj Hl; split=> //.
  have [Hp|Hp] := boolE polar; last by have [] := inner1 Hadm V Hp Ho Hj Hl.
  by move/(VsT _ _ _ _ _ _ _ Hp): V => -[al [ga /(_ j l Hj Hl)]] [].
- have V := @V_coefs F nr nt nz t G Gi J w xi polar dirichlet Hadm K2 y ltac:(by []).
  by split; [apply: (axis2 Hadm V Ho) | apply: (edge2 Hadm V Ho)].
Qed.

(** the constant of the integration by parts defect *)
Notation ibp_const := pairing_defect.
Lemma Xb_ge1 p : Rle 1 (Xb p).
Proof. by rewrite /Xb; have := pow2_ge_0 (INR p); lra. Qed.
Lemma ibp_const_ge ps : let: (p0, p1, p2) := ps in
  [/\ Rle (Rmult (Rmult (epsb p0) (Xb p1)) (Xb p2)) (ibp_const ps),
      Rle (Rmult (Rmult (Xb p0) (epsb p1)) (Xb p2)) (ibp_const ps),
      Rle (Rmult (Rmult (Xb p0) (Xb p1)) (epsb p2)) (ibp_const ps) & Rle 0 (ibp_const ps)].
Proof.
case: ps => [[p0 p1] p2].
have -> : ibp_const (p0, p1, p2) = Rmult (Rplus (Rplus (epsb p0) (epsb p1)) (epsb p2)) (Rmult (Rmult (Xb p0) (Xb p1)) (Xb p2)) by [].
have := (Xb_ge1 p0, Xb_ge1 p1, Xb_ge1 p2) => -[[a b] c].
have := (epsb_nonneg p0, epsb_nonneg p1, epsb_nonneg p2) => -[[d e] f].
move: (Xb p0) (Xb p1) (Xb p2) (epsb p0) (epsb p1) (epsb p2) a b c d e f => X0 X1 X2 e0 e1 e2 a b c d e f.
have M (u v : R) : Rle 1 u -> Rle 0 v -> Rle v (Rmult u v) by move=> *; nra.
have P12 : Rle 1 (Rmult X1 X2) by nra.
have P02 : Rle 1 (Rmult X0 X2) by nra.
have P01 : Rle 1 (Rmult X0 X1) by nra.
have P : Rle 1 (Rmult (Rmult X0 X1) X2) by nra.
have A1 : Rle 0 (Rmult e0 (Rmult X1 X2)) by apply: Rmult_le_pos; lra.
have A2 : Rle 0 (Rmult e1 (Rmult X0 X2)) by apply: Rmult_le_pos; lra.
have A3 : Rle 0 (Rmult e2 (Rmult X0 X1)) by apply: Rmult_le_pos; lra.
have := (M X0 _ a A1, M X1 _ b A2, M X2 _ c A3) => -[[B1 B2] B3].
split; lra.
Qed.

Lemma idx_lt a b c j1 j2 j3 : (j1 < a)%N -> (j2 < b)%N -> (j3 < c)%N -> ((j2 * a + j1) * c + j3 < b * (a * c))%N.
Proof.
move=> H1 H2 H3; apply: (@leq_trans ((j2 * a + j1).+1 * c)); first by rewrite mulSn addnC ltn_add2r.
rewrite mulnA leq_mul2r; apply/orP; right.
by apply: (@leq_trans (j2.+1 * a)); [rewrite mulSn addnC ltn_add2r | rewrite leq_mul2r H2 orbT].
Qed.
Section Main.
Variables (ns ps : triple) (q : nat) (types : stype * stype * stype) (DFx : point -> mat3 R_realFieldType)
  (polar dirichlet : bool).
Hypothesis Hs : supported ns ps q types polar dirichlet.
Variable S : drseq R_realFieldType.
Hypothesis HS : new_sequence ns ps q types DFx polar dirichlet = Some S.
Hypothesis Hdir : dirichlet = true.

(** the tables of the sequence, its weights, and the bounds of each direction *)
Lemma sequence_dirs : let: (n0, n1, n2) := ns in let: (p0, p1, p2) := ps in exists X0 X1 X2 W0 W1 W2,
  let t := tb S in let s := Shape n0 n1 n2 true false false in
  [/\ sh S = s, [/\ qx t = length X0, qy t = length X1 & qz t = length X2],
      forall j1 j2 j3, (j1 < length X0)%N -> (j2 < length X1)%N -> (j3 < length X2)%N ->
        w_j S ((j2 * length X0 + j1) * length X2 + j3)%N
        = (List.nth j1 W0 R0 : R_realFieldType) * (List.nth j2 W1 R0 : R_realFieldType) * (List.nth j3 W2 R0 : R_realFieldType)
    & [/\ dir_bounds X0 W0 (rd n0 (lam_r t)) (rd (dr s) (dlam_r t)) (fun i j => dr_m1 s t i j - dr_cur s t i j) n0 n0.-1 1 (epsb p0) (Xb p0),
      dir_bounds X1 W1 (rd n1 (lam_t t)) (rd (dt s) (dlam_t t)) (fun i j => dth_m1 s t i j - rd (dt s) (dlam_t t) i j) n1 n1 0 (epsb p1) (Xb p1)
    & dir_bounds X2 W2 (rd n2 (lam_z t)) (rd (dz s) (dlam_z t)) (fun i j => dz_m1 s t i j - rd (dz s) (dlam_z t) i j) n2 n2 0 (epsb p2) (Xb p2)]].
Proof.
move: Hs HS; case: ns => [[n0 n1] n2]; case: ps => [[p0 p1] p2]; case: types => [[t0 t1] t2].
case=> -[[-> ->] /and5P [H1 H2 H3 H4 /andP [H5 H6]] [HN0 HN1] Hz] /and4P [Hz1 Hz2 _ _] /new_seqP [f [Q [Ef EQ ->]]].
rewrite !gauss_orderE in H3 H6.
have {H3}O0 : (p0 <= order q)%N by move: H3; rewrite /gauss_ok => /orP [/ltnW //|/and3P [_ /eqP -> _]].
have {H6}O1 : (p1 <= order q)%N by move: H6; rewrite /gauss_ok => /orP [/ltnW //|/and3P [_ /eqP -> _]].
have n01 : (n0 <= n1)%N by case/orP: Hz2 => [/eqP -> //|/andP []].
have D0 := clamped_dir H1 H2 O0 HN0 n01; have D1 := periodic_dir H4 H5 O1 HN1 (leqnn n1).
set r0 := composite_quad _ _ in D0; set r1 := composite_quad _ _ in D1.
have Ed0 := @new_deriv_clamped n0 p0 (elimT ssrnat.leP H1) (elimT ssrnat.ltP H2).
have Ed1 := @new_deriv_periodic n1 p1 (elimT ssrnat.leP H4) (or_introl (elimT ssrnat.ltP H5)).
have Eq0 : select_quadrature (mkSpline n0 p0 Clamped (init_knots n0 p0 Clamped)) q = Some (r0.1, r0.2).
  rewrite /select_quadrature /= -[slice_pp _ _]/(slice_pp (sT (mkSpline n0 p0 Clamped (init_knots n0 p0 Clamped))) p0).
  rewrite (clamped_mesh H1 H2); congr Some; exact: surjective_pairing.
have Eq1 : select_quadrature (mkSpline n1 p1 Periodic (init_knots n1 p1 Periodic)) q = Some (r1.1, r1.2).
  rewrite /select_quadrature /= -[slice_pp _ _]/(slice_pp (sT (mkSpline n1 p1 Periodic (init_knots n1 p1 Periodic))) p1).
  rewrite (periodic_mesh H4 H5); congr Some; exact: surjective_pairing.
have [d2 [X2 [W2 [H7 Ed2 Eq2 [Ec Hlw2] D2]]]] : exists d2 X2 W2, let l2 := mkSpline n2 p2 t2 (init_knots n2 p2 t2) in
   [/\ (p2 < n2)%N, new_deriv l2 = Some d2, select_quadrature l2 q = Some (X2, W2), is_clamped t2 = false /\ length X2 = length W2 &
   let L i j := evaluate l2 (List.nth j X2 R0) (minn i n2.-1) in
   let D i j := evaluate_deriv d2 (List.nth j X2 R0) (minn i n2.-1) in
   let dL i j := (if (0 < i)%N then D i.-1 j else D n1.-1 j) - D i j in
   dir_bounds X2 W2 L D dL n2 n2 0 (epsb p2) (Xb p2)].
  case: Hz => [[-> [/and3P [A B C] E]]|[-> [-> ->]]].
  - rewrite gauss_orderE in C.
    have {C}O2 : (p2 <= order q)%N by move: C; rewrite /gauss_ok => /orP [/ltnW //|/and3P [_ /eqP -> _]].
    have D2 := periodic_dir A B O2 E Hz1; set r2 := composite_quad _ _ in D2.
    exists (mkSpline n2 (p2 - 1) Periodic (List.removelast (List.tl (init_knots n2 p2 Periodic)))), r2.1, r2.2; split=> //; last by rewrite comp_lx comp_lw.
      exact: (@new_deriv_periodic n2 p2 (elimT ssrnat.leP A) (or_introl (elimT ssrnat.ltP B))).
    rewrite /select_quadrature /= -[slice_pp _ _]/(slice_pp (sT (mkSpline n2 p2 Periodic (init_knots n2 p2 Periodic))) p2).
    rewrite (periodic_mesh A B); congr Some; exact: surjective_pairing.
  - have D2 := constant_dir n1.
    exists (mkSpline 1 0 Constant (init_knots 1 0 Constant)); eexists; eexists; split; [by [] | exact: const_deriv | reflexivity | by [] | exact: D2].
set l0 := mkSpline n0 p0 _ _ in Ed0 Eq0 D0; set l1 := mkSpline n1 p1 _ _ in Ed1 Eq1 D1; set l2 := mkSpline n2 p2 _ _ in Ed2 Eq2 D2.
have {}Ef : f = DForm K0 l0 l1 l2 (mkSpline (n0 - 1) (p0 - 1) Clamped (init_knots n0 p0 Clamped))
    (mkSpline n1 (p1 - 1) Periodic (List.removelast (List.tl (init_knots n1 p1 Periodic)))) d2.
  by move: Ef; rewrite /DifferentialForm !new_spline_ok // -/l0 -/l1 -/l2 Ed0 Ed1 Ed2 => -[<-].
have {}EQ : Q = mkQuad r0.1 r1.1 X2 r0.2 r1.2 W2 (meshgrid3 r0.1 r1.1 X2) (List.map prod3 (meshgrid3 r0.2 r1.2 W2)).
  by move: EQ; rewrite Ef /QuadratureRule [f_L0 _]/= [f_L1 _]/= [f_L2 _]/= Eq0 Eq1 Eq2 => -[<-].
exists r0.1, r1.1, X2, r0.2, r1.2, W2.
set S' := DeRhamSequence _ _ _ _ _ _ _ _ _.
have [Esh Etb Ew] : [/\ sh S' = f_shape f, tb S' = evaluate_1d f Q & w_j S' = (fun j => List.nth j (q_w Q) R0)].
  by rewrite /S' /DeRhamSequence; case: (polar).
have Hlw : [/\ length r0.1 = length r0.2, length r1.1 = length r1.2 & length X2 = length W2].
  by split; rewrite ?comp_lx ?comp_lw //.
move=> t s; rewrite /t Etb Esh Ew; split.
- by rewrite Ef /f_shape /= Ec.
- by rewrite EQ.
- move=> j1 j2 j3 L1 L2 L3; rewrite EQ [q_w _]/=.
  have [l1_ l2_ l3_] := Hlw; rewrite l1_ l2_ l3_ in L1 L2 L3 *.
  rewrite (@List.nth_indep _ _ _ _ (prod3 (R0, R0, R0))); last first.
    by rewrite List.map_length mesh_length; apply/ssrnat.ltP; apply: idx_lt.
  by rewrite List.map_nth mesh_nth //; apply/ssrnat.ltP.
- have [Edt Edz] : dt s = n1 /\ dz s = n2 by rewrite /dt /dz /= !subn0.
  rewrite /dth_m1 /dz_m1 Edt Edz EQ Ef; split.
  + exact: D0.
  + exact: D1.
  + exact: D2.
Qed.

Hypothesis Hreg : regular_map DFx (seq_points ns ps q types).
Lemma sequence_ibp :
  (forall a b : 'cV_(rk S K1), `|form (M12 S) a (strong_curl S *m b) - form (M12 S) b (strong_curl S *m a)|
     <= (ibp_const ps : R_realFieldType) * coef_norm a * coef_norm b) /\
  (forall (f : 'cV_(rk S K0)) (b : 'cV_(rk S K2)), strong_div S *m b = 0 ->
     `|form (M12 S) (strong_grad S *m f) b| <= (ibp_const ps : R_realFieldType) * coef_norm f * coef_norm b).
Proof.
have [f [Q [E Hadm [_ Ef] _ [_ _ _ HM]]]] := seq_summary Hs Hreg HS.
have [Eg Ec Ed] : [/\ forall (y : 'cV_(rk S K0)) j k, (k < 3)%N -> dval0 y j k = val1 (strong_grad S *m y) j k,
    forall (y : 'cV_(rk S K1)) j k, (k < 3)%N -> dval1 y j k = val2 (strong_curl S *m y) j k
  & forall (y : 'cV_(rk S K2)) j, dval2 y j 0%N = val3 (strong_div S *m y) j 0%N].
  move: HM; rewrite E => -[U0 U1 U2 U3].
  by split; [exact: (C22_strong_grad_exact Hadm U1) | exact: (C22_strong_curl_exact Hadm U2) | exact: (C22_strong_div_exact Hadm U3)].
have [P12 _] := C31_pairings S.
have HB : bdry0 S ns.1.1 ns.1.2 ns.2.
  by rewrite E; move: Hadm; rewrite Ef => Hadm; apply: bdry0_ok.
have Hn0 : (1 < ns.1.1)%N.
  by move: Hadm; rewrite Ef => -[_ _ /= A _ _]; apply: leq_trans A; rewrite leq_addr.
have HK := ibp_const_ge ps; set K := ibp_const ps in HK *; clearbody K.
move: sequence_dirs HB Hn0 HK; case: ns => [[n0 n1] n2]; case: ps => [[p0 p1] p2].
move=> [X0 [X1 [X2 [W0 [W1 [W2 [Esh [q0 q1 q2] Hw [[T0 C0] [T1 C1] [T2 C2]]]]]]]]] [HB0 HB1 HB2] Hn0.
case=> /RleE K0_ /RleE K1_ /RleE K2_ /RleE KK.
have E_ p : (0 : R_realFieldType) <= epsb p by apply/RleE/epsb_nonneg.
have X_ p : (0 : R_realFieldType) <= Xb p by apply/RleE; apply: Rle_trans (Xb_ge1 p); exact: Rle_0_1.
pose wr (W : list R) (j : nat) : R_realFieldType := List.nth j W R0.
have Lr0 g : ipr S (wr W0) g = linear_rule X0 W0 g by rewrite /ipr q0.
have Lr1 g : ipt S (wr W1) g = linear_rule X1 W1 g by rewrite /ipt q1.
have Lr2 g : ipz S (wr W2) g = linear_rule X2 W2 g by rewrite /ipz q2.
have Hw' j1 j2 j3 : (j1 < qx (tb S))%N -> (j2 < qy (tb S))%N -> (j3 < qz (tb S))%N ->
    w_j S ((j2 * qx (tb S) + j1) * qz (tb S) + j3)%N = wr W0 j1 * wr W1 j2 * wr W2 j3.
  by rewrite q0 q1 q2; apply: Hw.
have E1 g (c : R_realFieldType) : `|linear_rule X0 W0 g| <= c -> `|ipr S (wr W0) g| <= c by rewrite Lr0.
have E2 g (c : R_realFieldType) : `|linear_rule X1 W1 g| <= c -> `|ipt S (wr W1) g| <= c by rewrite Lr1.
have E3 g (c : R_realFieldType) : `|linear_rule X2 W2 g| <= c -> `|ipz S (wr W2) g| <= c by rewrite Lr2.
split.
- move=> a b; exact: (@ibp_curl _ S n0 n1 n2 Esh (wr W0) (wr W1) (wr W2) Hw' (epsb p0) (epsb p1) (epsb p2) (Xb p0) (Xb p1) (Xb p2)
    K (E_ p0) (E_ p1) (X_ p0) (X_ p1) K0_ K1_ K2_ KK
    (fun i i' a b c => E1 _ _ (T0 i i' a b c)) (fun i i' b c => E2 _ _ (T1 i i' isT b c)) (fun i i' b c => E3 _ _ (T2 i i' isT b c))
    (fun i i' b c => E1 _ _ (C0 i i' b c)) (fun i i' b c => E2 _ _ (C1 i i' b c)) (fun i i' b c => E3 _ _ (C2 i i' b c))
    Hn0 HB1 _ a b Ec P12).
- move=> g b Hb.
  have Hdb j : dval2 b j 0%N = 0.
    by rewrite Ed Hb /val3 /evaluate_at_xq mulmx0; apply: big1 => x _; rewrite mxE mulr0.
  exact: (@ibp_grad _ S n0 n1 n2 Esh (wr W0) (wr W1) (wr W2) Hw' (epsb p0) (epsb p1) (epsb p2) (Xb p0) (Xb p1) (Xb p2)
    K (E_ p0) (E_ p1) (X_ p0) (X_ p1) K0_ K1_ K2_
    (fun i i' a b c => E1 _ _ (T0 i i' a b c)) (fun i i' b c => E2 _ _ (T1 i i' isT b c)) (fun i i' b c => E3 _ _ (T2 i i' isT b c))
    (fun i i' b c => E1 _ _ (C0 i i' b c)) (fun i i' b c => E2 _ _ (C1 i i' b c)) (fun i i' b c => E3 _ _ (C2 i i' b c))
    Hn0 HB0 HB2 _ g b Eg P12 Hdb).
Qed.
(** Green's formula *)
Lemma sequence_green (h : 'cV_(rk S K0)) (b : 'cV_(rk S K2)) :
  `|form (M12 S) (strong_grad S *m h) b + form (M03 S) h (strong_div S *m b)|
     <= (ibp_const ps : R_realFieldType) * coef_norm h * coef_norm b.
Proof.
have [f [Q [E Hadm [_ Ef] _ [_ _ _ HM]]]] := seq_summary Hs Hreg HS.
have [Eg Ec Ed] : [/\ forall (y : 'cV_(rk S K0)) j k, (k < 3)%N -> dval0 y j k = val1 (strong_grad S *m y) j k,
    forall (y : 'cV_(rk S K1)) j k, (k < 3)%N -> dval1 y j k = val2 (strong_curl S *m y) j k
  & forall (y : 'cV_(rk S K2)) j, dval2 y j 0%N = val3 (strong_div S *m y) j 0%N].
  move: HM; rewrite E => -[U0 U1 U2 U3].
  by split; [exact: (C22_strong_grad_exact Hadm U1) | exact: (C22_strong_curl_exact Hadm U2) | exact: (C22_strong_div_exact Hadm U3)].
have [P12 P03] := C31_pairings S.
have HB : bdry0 S ns.1.1 ns.1.2 ns.2.
  by rewrite E; move: Hadm; rewrite Ef => Hadm; apply: bdry0_ok.
have Hn0 : (1 < ns.1.1)%N.
  by move: Hadm; rewrite Ef => -[_ _ /= A _ _]; apply: leq_trans A; rewrite leq_addr.
have HK := ibp_const_ge ps; set K := ibp_const ps in HK *; clearbody K.
move: sequence_dirs HB Hn0 HK; case: ns => [[n0 n1] n2]; case: ps => [[p0 p1] p2].
move=> [X0 [X1 [X2 [W0 [W1 [W2 [Esh [q0 q1 q2] Hw [[T0 C0] [T1 C1] [T2 C2]]]]]]]]] [HB0 HB1 HB2] Hn0.
case=> /RleE K0_ /RleE K1_ /RleE K2_ /RleE KK.
have E_ p : (0 : R_realFieldType) <= epsb p by apply/RleE/epsb_nonneg.
have X_ p : (0 : R_realFieldType) <= Xb p by apply/RleE; apply: Rle_trans (Xb_ge1 p); exact: Rle_0_1.
pose wr (W : list R) (j : nat) : R_realFieldType := List.nth j W R0.
have Lr0 g : ipr S (wr W0) g = linear_rule X0 W0 g by rewrite /ipr q0.
have Lr1 g : ipt S (wr W1) g = linear_rule X1 W1 g by rewrite /ipt q1.
have Lr2 g : ipz S (wr W2) g = linear_rule X2 W2 g by rewrite /ipz q2.
have Hw' j1 j2 j3 : (j1 < qx (tb S))%N -> (j2 < qy (tb S))%N -> (j3 < qz (tb S))%N ->
    w_j S ((j2 * qx (tb S) + j1) * qz (tb S) + j3)%N = wr W0 j1 * wr W1 j2 * wr W2 j3.
  by rewrite q0 q1 q2; apply: Hw.
have E1 g (c : R_realFieldType) : `|linear_rule X0 W0 g| <= c -> `|ipr S (wr W0) g| <= c by rewrite Lr0.
have E2 g (c : R_realFieldType) : `|linear_rule X1 W1 g| <= c -> `|ipt S (wr W1) g| <= c by rewrite Lr1.
have E3 g (c : R_realFieldType) : `|linear_rule X2 W2 g| <= c -> `|ipz S (wr W2) g| <= c by rewrite Lr2.
exact: (@ibp_green _ S n0 n1 n2 Esh (wr W0) (wr W1) (wr W2) Hw' (epsb p0) (epsb p1) (epsb p2) (Xb p0) (Xb p1) (Xb p2)
    K (E_ p0) (E_ p1) (X_ p0) (X_ p1) K0_ K1_ K2_
    (fun i i' a b c => E1 _ _ (T0 i i' a b c)) (fun i i' b c => E2 _ _ (T1 i i' isT b c)) (fun i i' b c => E3 _ _ (T2 i i' isT b c))
    (fun i i' b c => E1 _ _ (C0 i i' b c)) (fun i i' b c => E2 _ _ (C1 i i' b c)) (fun i i' b c => E3 _ _ (C2 i i' b c))
    Hn0 HB0 HB2 _ _ h b Eg Ed P12 P03).
Qed.
End Main.
