(** The radial derivative getter is wrong when nr differs from nt (C23). *)
From Coq Require Import Reals Lra.
From Coquelicot Require Import Coquelicot.
From mathcomp Require Import all_ssreflect all_algebra zify.
From Verif Require Import Model.RBase Model.Spline Model.Quad Model.Forms Model.DeRham Model.FormEval Model.Geometry Model.SeqR.
From Verif Require Import Spec.SeqSpec Spec.FormSpec Spec.SeqRSpec Spec.CalculusSpec.
From Verif Require Props.Quadrature Proof.SplineLink.
From Verif Require Import Proof.RField Proof.IndexLemmas Proof.FormEvalProofs Proof.SplineDeriv Proof.SplineTables Proof.SeqRProofs Proof.SeqDeriv
  Proof.QuadProofs Proof.SeqCalculus.
Set Implicit Arguments.
Unset Strict Implicit.
Unset Printing Implicit Defensive.
Import Order.TTheory GRing.Theory Num.Theory.
Local Open Scope ring_scope.

Lemma indep_nonzero n q (T : nat -> nat -> R_realFieldType) i : indep_rows n q T -> (i < n)%N ->
  exists2 j, (j < q)%N & T i j != 0.
Proof.
move=> H Hi; case E : [exists j : 'I_q, T i j != 0].
  by case/existsP: E => j Hj; exists j.
have Z : forall j, (j < q)%N -> \sum_(k < n) (k == i :> nat)%:R * T k j = 0.
  move=> j Hj; rewrite (bigD1 (Ordinal Hi)) //= eqxx mul1r big1 ?addr0.
    by move/negbT: E; rewrite negb_exists => /forallP /(_ (Ordinal Hj)); rewrite negbK => /eqP.
  by move=> k Hk; rewrite (_ : (_ == _ :> nat) = false) ?mul0r //; apply/negbTE.
have := H (fun k => (k == i)%:R) Z i Hi; rewrite eqxx => /eqP; by rewrite oner_eq0.
Qed.

Lemma mesh_off N q j : (1 <= N)%N -> (j < length (fst (composite_quad (linspace01 (N + 1)) q)))%N ->
  forall k : nat, Rmult (List.nth j (fst (composite_quad (linspace01 (N + 1)) q)) 0) (INR N) <> INR k.
Proof.
move=> HN Hj k.
have [Hinc _] := @Quadrature.linspace_inc (N + 1)%N ltac:(lia).
have [e [He]] := node_in Hinc Hj.
rewrite SplineTables.linspace_len in He.
have P : Rlt 0 (INR N) by apply: lt_0_INR; lia.
have L i : (i < N + 1)%N -> List.nth i (linspace01 (N + 1)) 0 = Rdiv (INR i) (INR N).
  move=> Hi; rewrite SplineLink.linspace01_nth; last lia. by have -> : (N + 1 - 1)%coq_nat = N by lia.
rewrite !L; [|lia|lia].
set x := List.nth j _ _ => Hlo Hhi E.
have A : Rlt (INR e) (INR k).
  rewrite -E; have -> : INR e = Rmult (Rdiv (INR e) (INR N)) (INR N) by field; lra.
  exact: Rmult_lt_compat_r.
have B : Rlt (INR k) (INR e.+1).
  rewrite -E; have -> : INR e.+1 = Rmult (Rdiv (INR e.+1) (INR N)) (INR N) by field; lra.
  exact: Rmult_lt_compat_r.
by move/INR_lt: A; move/INR_lt: B; lia.
Qed.

Section C23.
Variables (ns ps : triple) (q : nat) (types : stype * stype * stype).
Hypothesis Hres : resolved ns ps q types.
Hypothesis Hne : ns.1.1 <> ns.1.2.
Variables (f : dform) (Q : quadrule).
Hypothesis Hf : DifferentialForm K0 ns ps types = Some f.
Hypothesis HQ : QuadratureRule (f_L0 f) (f_L1 f) (f_L2 f) q = Some Q.

Lemma wrong_gradient : let i1 := (minn ns.1.1 ns.1.2).-1 in
  exists j d, [/\ (j < length (q_x Q))%N,
    is_partial 0 (fun x => form_evaluate f x (ravel_index (f_shape f) K0 0 i1 0 0) 0) (List.nth j (q_x Q) (R0, R0, R0)) d
  & get_d_Lambda_0 (f_shape f) (evaluate_1d f Q) (ravel_index (f_shape f) K0 0 i1 0 0) j 0 <> d].
Proof.
have [f' [Q' [Hf' HQ' HF]]] := resolved_facts Hres.
have Ef : f' = f by move: Hf'; rewrite Hf => -[].
rewrite Ef in Hf' HQ' HF => {f' Ef}.
have EQ : Q' = Q by move: HQ'; rewrite HQ => -[].
rewrite EQ in HQ' HF => {Q' EQ}.
move: Hres Hne Hf (fa_shape HF); case: (ns) => [[n0 n1] n2]; case: (ps) => [[p0 p1] p2]; case: (types) => [[t0 t1] t2].
case=> -[-> ->] /and5P [H1 H2 H3 H4 /andP [H5 H6]] [HN0 HN1] Hz /= Hn01 Hf0 Hsh.
rewrite !gauss_orderE in H3 H6.
have Hz0 : (0 < n2)%N by case: Hz => [[_ [/and3P [A B _] _]]|[_ [-> _]]] //; apply: leq_ltn_trans B.
set i1 := (minn n0 n1).-1.
have Hi0 : (i1 < n0)%N by rewrite /i1; lia.
have Hi1 : (0 < i1)%N by rewrite /i1; lia.
have [d0 [X0 [W0 [Ed0 Sd0 Eq0 G0]]]] := clamped_good H1 H2 H3 HN0.
set l0 := mkSpline n0 p0 _ _ in Ed0 Eq0 G0.
have Hl0 : f_L0 f = l0 /\ f_D0 f = d0.
  move: Hf0; rewrite new_spline_ok // -/l0 Ed0.
  case: (new_spline n1 p1 _) => [l1|] //; case: (new_spline n2 p2 t2) => [l2|] //.
  by case: (new_deriv l1) => [d1|] //; case: (new_deriv l2) => [d2|] // [<-].
have EX : x_x Q = fst (composite_quad (linspace01 (n0 - p0 + 1)) q).
  move: HQ; rewrite /QuadratureRule Hl0.1 /select_quadrature [sty l0]/=.
  rewrite (clamped_mesh H1 H2).
  case: (composite_quad _ _) => [X W].
  by case: (match sty (f_L1 f) with Periodic => _ | _ => _ end) => [[? ?]|] //; case: (match sty (f_L2 f) with Periodic => _ | _ => _ end) => [[? ?]|] // [<-].
have [T0 T1 T2 [T3 _ _]] := fa_tab HF.
have Sh : [/\ nr (f_shape f) = n0, nt (f_shape f) = n1, nz (f_shape f) = n2 & dr (f_shape f) = n0.-1].
  by rewrite Hsh /dr /= subn1.
case: Sh => S0 S1 S2 S3.
pose m := if (n0 < n1)%N then i1.-1 else i1.
have Hm : (m < n0.-1)%N by rewrite /m /i1; case: ifP; lia.
have [j1 Hj1 Nz1] := indep_nonzero T3 (i := m) ltac:(by rewrite S3).
have [j2 Hj2 Nz2] := indep_nonzero T1 (i := 0) ltac:(rewrite S1; lia).
have [j3 Hj3 Nz3] := indep_nonzero T2 (i := 0) ltac:(by rewrite S2).
rewrite /= in Hj1 Hj2 Hj3 Nz1 Nz2 Nz3.
pose j := ravel3 (length (x_y Q), length (x_x Q), length (x_z Q)) j2 j1 j3.
have EU : unravel3 (length (x_y Q), length (x_x Q), length (x_z Q)) j = (j2, j1, j3) by apply: unravel3_ravel3.
have Hj : (j < length (q_x Q))%N.
  have := @ravel3_lt (length (x_y Q)) (length (x_x Q)) (length (x_z Q)) j2 j1 j3 Hj2 Hj1 Hj3.
  by rewrite -/j (fa_len3 HF) (mulnC (length (x_x Q)) (length (x_y Q))).
have [k1 [k2 [k3 [_ _ _ Eqp Ept]]]] := Q_point HQ Hj.
have [Ek1 Ek2 Ek3] : [/\ k1 = j1, k2 = j2 & k3 = j3].
  by move: Eqp; rewrite /qpoint [unravel3 _ _]EU => -[-> -> ->].
subst k1 k2 k3.
set x0 := List.nth j1 (x_x Q) 0 in Ept; set x1 := List.nth j2 (x_y Q) 0 in Ept; set x2 := List.nth j3 (x_z Q) 0 in Ept.
have Hin : in_comp (f_shape f) K0 0 (i1, 0, 0)%N by rewrite /in_comp /cshape S0 S1 S2 Hi0 Hz0 /=; lia.
have Hoff : forall k : nat, Rmult x0 (INR (n0 - p0)) <> INR k.
  by rewrite /x0 EX; apply: mesh_off; [lia | rewrite -EX].
have [Ek _ _ _] := DF_inv Hf.
exists j; eexists; split=> //.
- rewrite Ept /is_partial /upd /coord /=.
  apply: (derive_fun (g := fun t => Rmult (Rmult (evaluate (f_L1 f) x1 0) (evaluate (f_L2 f) x2 0)) (evaluate l0 t i1))).
    move=> t; rewrite (form_eval_spec Hf); [|by rewrite in_rangeE Hin|by []].
    by rewrite /factor Ek /= Hl0.1 !RmultE [in RHS]mulrC mulrA.
  apply: is_derive_scal.
  exact: (@clamped_derivative n0 p0 l0 d0 x0 i1 (elimT ssrnat.leP H1) (elimT ssrnat.ltP H2) HN0 (new_spline_ok _ H2) Ed0 Hoff (elimT ssrnat.ltP Hi0)).
- rewrite /get_d_Lambda_0 [qpoint _ j]Eqp unravel_ravel_index //.
  rewrite (_ : (0 == 0)%N = true) //.
  have EL : rd (nt (f_shape f)) (lam_t (evaluate_1d f Q)) 0 j2 = evaluate (f_L1 f) x1 0.
    by rewrite /rd min0n.
  have EZ : rd (nz (f_shape f)) (lam_z (evaluate_1d f Q)) 0 j3 = evaluate (f_L2 f) x2 0.
    by rewrite /rd min0n.
  rewrite EL EZ.
  have -> : Nat.eqb i1 0 = false by apply/Nat.eqb_neq; lia.
  have ED i : (i < n0.-1)%N -> rd (dr (f_shape f)) (dlam_r (evaluate_1d f Q)) i j1 = evaluate_deriv d0 x0 i.
    by move=> Hi; rewrite /rd S3 /= Hl0.2; have -> : minn i n0.-1.-1 = i by lia.
  rewrite /dr_m1 /dr_cur Hi1 S1.
  have -> : Nat.sub i1 1 = i1.-1 by lia.
  move: Nz1 Nz2 Nz3; rewrite -/x1 -/x2 -/x0 Hl0.2.
  rewrite (ED i1.-1); last by lia.
  move=> Nz1 Nz2 Nz3.
  case: (ltnP n0 n1) => Hlt.
  + have Em : m = i1.-1 by rewrite /m Hlt.
    have -> : (i1 == n1.-1) = false by rewrite /i1; lia.
    have -> : Nat.eqb i1 (Nat.sub n0 1) by apply/Nat.eqb_eq; rewrite /i1; lia.
    have -> : rd (dr (f_shape f)) (dlam_r (evaluate_1d f Q)) i1 j1 = evaluate_deriv d0 x0 i1.-1.
      by rewrite -ED ?/rd ?S3; [congr (dlam_r _ _ _); rewrite /i1; lia | rewrite /i1; lia].
    rewrite subrr !mul0r; rewrite Em in Nz1 => /esym.
    rewrite RminusE RmultE RmultE subr0 => /eqP; rewrite !mulf_eq0.
    by rewrite (negbTE Nz1) (negbTE Nz2) (negbTE Nz3).
  + have Em : m = i1 by rewrite /m ltnNge Hlt.
    have -> : (i1 == n1.-1) by rewrite /i1; lia.
    have -> : Nat.eqb i1 (Nat.sub n0 1) = false by apply/Nat.eqb_neq; rewrite /i1; lia.
    rewrite Em in Nz1.
    rewrite RminusE RmultE RmultE subr0 -mulrA mulrC => /(mulfI (mulf_neq0 Nz2 Nz3)) /eqP.
    by rewrite eq_sym subr_eq addrC -subr_eq subrr eq_sym (negbTE Nz1).
Qed.
End C23.
