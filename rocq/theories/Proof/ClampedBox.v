(** The derivative getters with clamped theta and zeta (C59). *)
From Coq Require Import Reals Lra.
From Coquelicot Require Import Coquelicot.
From mathcomp Require Import all_ssreflect all_algebra zify.
From Verif Require Import Model.RBase Model.Spline Model.Quad Model.Forms Model.DeRham Model.FormEval Model.Geometry Model.SeqR.
From Verif Require Import Spec.SeqSpec Spec.FormSpec Spec.SeqRSpec Spec.CalculusSpec Spec.FreeDofs Spec.BoxSpec.
From Verif Require Props.Quadrature Proof.SplineLink.
From Verif Require Import Proof.RField Proof.IndexLemmas Proof.BoundarySel Proof.FormEvalProofs Proof.SplineDeriv Proof.SplineTables Proof.SeqRProofs Proof.SeqDeriv
  Proof.QuadProofs Proof.SeqCalculus Proof.Limits.
Set Implicit Arguments.
Unset Strict Implicit.
Unset Printing Implicit Defensive.
Import Order.TTheory GRing.Theory Num.Theory.
Local Open Scope ring_scope.

Lemma scal_eq (c : R) (g : R -> R) (x d d' : R) : is_derive g x d -> d' = Rmult c d -> is_derive (fun t => Rmult c (g t)) x d'.
Proof. by move=> H ->; apply: is_derive_scal. Qed.

(** one clamped direction *)
Record cdir (n p : nat) (l d : spline) (X : list R) : Prop := CDir {
  cd_n : (2 <= n)%N;
  cd_sn : sn l = n; cd_sd : sn d = n.-1;
  cd_der : forall j i, (j < length X)%N -> (i < n)%N ->
    is_derive (fun t => evaluate l t i) (List.nth j X 0)
      (Rminus (if i == 0%N then 0 else evaluate_deriv d (List.nth j X 0) i.-1)
              (if i == n.-1 then 0 else evaluate_deriv d (List.nth j X 0) i));
  cd_pos : forall j, (j < length X)%N -> Rlt 0 (List.nth j X 0) /\ Rlt (List.nth j X 0) 1;
  cd_nz : forall i, (i < n)%N -> exists2 j, (j < length X)%N & evaluate l (List.nth j X 0) i <> 0;
  cd_dnz : forall i, (i < n.-1)%N -> exists2 j, (j < length X)%N & evaluate_deriv d (List.nth j X 0) i <> 0 }.

Lemma clamped_cdir n p q : boxed1 n p q ->
  let l := mkSpline n p Clamped (init_knots n p Clamped) in
  new_spline n p Clamped = Some l /\
  exists d X W, [/\ new_deriv l = Some d, select_quadrature l q = Some (X, W), cdir n p l d X & length X = length W].
Proof.
case=> /and3P [H1 H2 H3] HN l; rewrite gauss_orderE in H3.
split; first exact: new_spline_ok.
have [d [X [W [Ed Sd Eq G]]]] := clamped_good H1 H2 H3 HN.
exists d, X, W; split=> //; last exact: (g_len G).
have EX : X = fst (composite_quad (linspace01 (n - p + 1)) q).
  move: Eq; rewrite /select_quadrature [sty _]/= (clamped_mesh H1 H2).
  by case: (composite_quad _ _) => [a b] [<-].
split=> //; first lia.
- move=> j i Hj Hi.
  have := @clamped_derivative n p l d (List.nth j X 0) i (elimT ssrnat.leP H1) (elimT ssrnat.ltP H2) HN (new_spline_ok _ H2) Ed _ (elimT ssrnat.ltP Hi).
  have -> : Nat.eqb i 0 = (i == 0%N) by [].
  have -> : Nat.eqb i (Nat.sub n 1) = (i == n.-1) by rewrite -[Nat.eqb _ _]/(_ == _); congr (_ == _); lia.
  have -> : Nat.sub i 1 = i.-1 by lia.
  by apply; rewrite EX; apply: mesh_off; [lia | rewrite -EX].
- by move=> j; rewrite EX; apply: (clamped_node01 H1 H2 HN).
- by move=> i Hi; have [j Hj Nz] := indep_nonzero (g_ind G) Hi; exists j => //; apply/eqP.
- by move=> i Hi; have [j Hj Nz] := indep_nonzero (g_dind G) (i := i) ltac:(by rewrite Sd); exists j => //; apply/eqP.
Qed.

Section Box.
Variables (n0 n1 n2 p0 p1 p2 q : nat).
Hypothesis Hb : boxed (n0, n1, n2) (p0, p1, p2) q.
Notation ns := (n0, n1, n2).
Notation ps := (p0, p1, p2).

Record boxfacts (f : dform) (Q : quadrule) : Prop := BoxFacts {
  bf_f : DifferentialForm K0 ns ps box = Some f;
  bf_Q : QuadratureRule (f_L0 f) (f_L1 f) (f_L2 f) q = Some Q;
  bf_sh : f_shape f = Shape n0 n1 n2 true true true;
  bf_0 : cdir n0 p0 (f_L0 f) (f_D0 f) (x_x Q);
  bf_1 : cdir n1 p1 (f_L1 f) (f_D1 f) (x_y Q);
  bf_2 : cdir n2 p2 (f_L2 f) (f_D2 f) (x_z Q);
  bf_len : length (q_x Q) = (length (x_x Q) * length (x_y Q) * length (x_z Q))%N }.

Lemma box_facts : exists f Q, boxfacts f Q.
Proof.
have [/clamped_cdir [N0 [d0 [X0 [W0 [E0 Q0 C0 L0]]]]] /clamped_cdir [N1 [d1 [X1 [W1 [E1 Q1 C1 L1]]]]] /clamped_cdir [N2 [d2 [X2 [W2 [E2 Q2 C2 L2]]]]]] := Hb.
eexists; eexists; split.
- by rewrite /DifferentialForm /box N0 N1 N2 E0 E1 E2; reflexivity.
- by rewrite /QuadratureRule [f_L0 _]/= [f_L1 _]/= [f_L2 _]/= Q0 Q1 Q2; reflexivity.
- by [].
- exact: C0.
- exact: C1.
- exact: C2.
- by rewrite /= QuadProofs.mesh_length !multE mulnA (mulnC (length X1)).
Qed.
Lemma box_facts_of f Q : DifferentialForm K0 ns ps box = Some f -> QuadratureRule (f_L0 f) (f_L1 f) (f_L2 f) q = Some Q ->
  boxfacts f Q.
Proof.
move=> Hf HQ; have [f' [Q' B]] := box_facts.
have Ef : f' = f by move: (bf_f B); rewrite Hf => -[].
subst f'; have EQ : Q' = Q by move: (bf_Q B); rewrite HQ => -[].
by subst Q'.
Qed.
Lemma box_form k f : DifferentialForm K0 ns ps box = Some f ->
  DifferentialForm k ns ps box = Some (DForm k (f_L0 f) (f_L1 f) (f_L2 f) (f_D0 f) (f_D1 f) (f_D2 f)).
Proof.
rewrite /DifferentialForm /box.
case: (new_spline n0 p0 _) => [l0|] //; case: (new_spline n1 p1 _) => [l1|] //; case: (new_spline n2 p2 _) => [l2|] //.
by case: (new_deriv l0) => [d0|] //; case: (new_deriv l1) => [d1|] //; case: (new_deriv l2) => [d2|] // [<-].
Qed.

(** the divergence getter vanishes on the last theta function *)
Lemma getter_last (tbl : tables R_realFieldType) i1 i3 j k : (2 <= n1)%N -> in_comp (Shape n0 n1 n2 true true true) K2 1 (i1, n1.-1, i3) ->
  get_d_Lambda_2 (Shape n0 n1 n2 true true true) tbl (ravel_index (Shape n0 n1 n2 true true true) K2 1 i1 n1.-1 i3) j k = 0.
Proof.
move=> Hn Hin; rewrite /get_d_Lambda_2; case: (qpoint _ _) => [[j1 j2] j3].
rewrite unravel_ravel_index //= /dth_m1 /rd /dt /= subn1.
have -> : (0 < n1.-1)%N by lia.
have -> : minn n1.-1.-1 n1.-1.-1 = minn n1.-1 n1.-1.-1 by lia.
by rewrite subrr mulr0 mul0r.
Qed.

(** *** the gradient getter *)
Section Gradient.
Variables (f : dform) (Q : quadrule).
Hypothesis BF : boxfacts f Q.
Notation s := (Shape n0 n1 n2 true true true).
Notation get := (get_d_Lambda_0 (f_shape f) (evaluate_1d f Q)).
Notation pt j := (List.nth j (q_x Q) (R0, R0, R0)).
Lemma dI j1 j2 j3 j : (j1 < length (x_x Q))%N -> (j2 < length (x_y Q))%N -> (j3 < length (x_z Q))%N ->
  j = ravel3 (length (x_y Q), length (x_x Q), length (x_z Q)) j2 j1 j3 ->
  [/\ (j < length (q_x Q))%N, qpoint (evaluate_1d f Q) j = (j1, j2, j3)
    & pt j = (List.nth j1 (x_x Q) 0, List.nth j2 (x_y Q) 0, List.nth j3 (x_z Q) 0)].
Proof.
move=> H1 H2 H3 Ej.
have EU : unravel3 (length (x_y Q), length (x_x Q), length (x_z Q)) j = (j2, j1, j3) by rewrite Ej; apply: unravel3_ravel3.
have Hj : (j < length (q_x Q))%N.
  have := @ravel3_lt (length (x_y Q)) (length (x_x Q)) (length (x_z Q)) j2 j1 j3 H2 H1 H3.
  by rewrite -Ej (bf_len BF) (mulnC (length (x_x Q)) (length (x_y Q))).
have [k1 [k2 [k3 [_ _ _ Eqp Ept]]]] := Q_point (bf_Q BF) Hj.
have [Ek1 Ek2 Ek3] : [/\ k1 = j1, k2 = j2 & k3 = j3].
  by move: Eqp; rewrite /qpoint [unravel3 _ _]EU => -[-> -> ->].
by subst k1 k2 k3.
Qed.
Definition slope (n : nat) (d : spline) (x : R) (i : nat) : R :=
  Rminus (if i == 0%N then 0 else evaluate_deriv d x i.-1) (if i == n.-1 then 0 else evaluate_deriv d x i).
(** the true partial derivatives *)
Lemma box_partials j i1 i2 i3 : (j < length (q_x Q))%N -> (i1 < n0)%N -> (i2 < n1)%N -> (i3 < n2)%N ->
  let i := ravel_index (f_shape f) K0 0 i1 i2 i3 in let: (x0, x1, x2) := pt j in
  [/\ is_partial 0 (fun x => form_evaluate f x i 0) (pt j) (slope n0 (f_D0 f) x0 i1 * evaluate (f_L1 f) x1 i2 * evaluate (f_L2 f) x2 i3),
      is_partial 1 (fun x => form_evaluate f x i 0) (pt j) (evaluate (f_L0 f) x0 i1 * slope n1 (f_D1 f) x1 i2 * evaluate (f_L2 f) x2 i3)
    & is_partial 2 (fun x => form_evaluate f x i 0) (pt j) (evaluate (f_L0 f) x0 i1 * evaluate (f_L1 f) x1 i2 * slope n2 (f_D2 f) x2 i3)].
Proof.
move=> Hj H1 H2 H3 i; have [k1 [k2 [k3 [L1 L2 L3 _ ->]]]] := Q_point (bf_Q BF) Hj.
have [Ek _ _ _] := DF_inv (bf_f BF).
have Fe t0 t1 t2 : form_evaluate f (t0, t1, t2) i 0 = evaluate (f_L0 f) t0 i1 * evaluate (f_L1 f) t1 i2 * evaluate (f_L2 f) t2 i3.
  rewrite (form_eval_spec (bf_f BF)) //; last by rewrite in_rangeE (bf_sh BF) /in_comp /= H1 H2 H3.
  by rewrite /factor Ek.
split; rewrite /is_partial /upd /coord /=.
- apply: (derive_fun (g := fun t => Rmult (evaluate (f_L1 f) (List.nth k2 (x_y Q) 0) i2 * evaluate (f_L2 f) (List.nth k3 (x_z Q) 0) i3) (evaluate (f_L0 f) t i1))).
    by move=> t; rewrite Fe RmultE -mulrA mulrC.
  by apply: scal_eq; [exact: (cd_der (bf_0 BF)) | rewrite -/(slope _ _ _ _); ring].
- apply: (derive_fun (g := fun t => Rmult (evaluate (f_L0 f) (List.nth k1 (x_x Q) 0) i1 * evaluate (f_L2 f) (List.nth k3 (x_z Q) 0) i3) (evaluate (f_L1 f) t i2))).
    by move=> t; rewrite Fe RmultE mulrAC.
  by apply: scal_eq; [exact: (cd_der (bf_1 BF)) | rewrite -/(slope _ _ _ _); ring].
- apply: (derive_fun (g := fun t => Rmult (evaluate (f_L0 f) (List.nth k1 (x_x Q) 0) i1 * evaluate (f_L1 f) (List.nth k2 (x_y Q) 0) i2) (evaluate (f_L2 f) t i3))).
    by move=> t; rewrite Fe.
  by apply: scal_eq; [exact: (cd_der (bf_2 BF)) | rewrite -/(slope _ _ _ _); ring].
Qed.
(** what the getter computes *)
Definition wrap (n m : nat) (d : spline) (x : R) (i : nat) : R :=
  Rminus (evaluate_deriv d x (minn (if i == 0%N then m else i.-1) n.-2)) (evaluate_deriv d x (minn i n.-2)).
Lemma box_get j i1 i2 i3 : (j < length (q_x Q))%N -> (i1 < n0)%N -> (i2 < n1)%N -> (i3 < n2)%N ->
  let i := ravel_index (f_shape f) K0 0 i1 i2 i3 in let: (x0, x1, x2) := pt j in
  [/\ n0 = n1 -> get i j 0 = slope n0 (f_D0 f) x0 i1 * evaluate (f_L1 f) x1 i2 * evaluate (f_L2 f) x2 i3,
      get i j 1 = evaluate (f_L0 f) x0 i1 * wrap n1 n1.-1 (f_D1 f) x1 i2 * evaluate (f_L2 f) x2 i3
    & get i j 2 = evaluate (f_L0 f) x0 i1 * evaluate (f_L1 f) x1 i2 * wrap n2 n1.-1 (f_D2 f) x2 i3].
Proof.
move=> Hj H1 H2 H3 i; have [k1 [k2 [k3 [L1 L2 L3 Ep ->]]]] := Q_point (bf_Q BF) Hj.
have Hin : in_comp s K0 0 (i1, i2, i3) by rewrite /in_comp /= H1 H2 H3.
rewrite /get_d_Lambda_0 [qpoint _ _]Ep /i (bf_sh BF) unravel_ravel_index //=.
have Hn := (cd_n (bf_0 BF), cd_n (bf_1 BF), cd_n (bf_2 BF)).
have E a m : (a < m)%N -> minn a m.-1 = a by lia.
rewrite /rd /= (E i1 n0 H1) (E i2 n1 H2) (E i3 n2 H3) /dr_m1 /dr_cur /dth_m1 /dz_m1 /rd /dr /dt /dz /= !subn1 /slope /wrap !RminusE; split.
- move=> En; congr (_ * _ * _); rewrite En -[in RHS]if_neg -lt0n.
  congr (_ - _).
  + by case: ifP => // Hp; rewrite -En E //; lia.
  + by case: ifP => // Hp; rewrite -En E //; lia.
- congr (_ * _ * _); congr (_ - _); rewrite lt0n; by case: eqP.
- congr (_ * _ * _); congr (_ - _); rewrite lt0n; by case: eqP.
Qed.
Lemma wrap_inner n m d x i : (0 < i < n.-1)%N -> wrap n m d x i = slope n d x i.
Proof.
move=> H; rewrite /wrap /slope; have -> : (i == 0)%N = false by lia.
have -> : (i == n.-1)%N = false by lia.
by have [-> ->] : minn i.-1 n.-2 = i.-1 /\ minn i n.-2 = i by lia.
Qed.
Lemma wrap_outer n m d x i : (2 <= n)%N -> i = 0%N \/ i = n.-1 ->
  Rminus (slope n d x i) (wrap n m d x i) =
  if i == 0%N then Ropp (evaluate_deriv d x (minn m n.-2)) else evaluate_deriv d x n.-2.
Proof.
move=> Hn; rewrite /wrap /slope => -[->|->].
  have -> : (0 == n.-1)%N = false by lia.
  rewrite /= min0n -R0E; move: (evaluate_deriv _ _ _) (evaluate_deriv _ _ _) => u v; rewrite /Rminus; ring.
have -> : (n.-1 == 0)%N = false by lia.
have [-> ->] : minn n.-2 n.-2 = n.-2 /\ minn n.-1 n.-2 = n.-2 by lia.
rewrite eqxx -R0E /Rminus; ring.
Qed.
Lemma wrap_wrong n m d p l X i : cdir n p l d X -> i = 0%N \/ i = n.-1 -> exists2 j, (j < length X)%N & slope n d (List.nth j X 0) i <> wrap n m d (List.nth j X 0) i.
Proof.
move=> C Hi; have Hn := cd_n C.
have [j Hj Hz] := cd_dnz C (i := if i == 0%N then minn m n.-2 else n.-2) ltac:(by case: ifP; lia).
exists j => // E; have := wrap_outer m d (List.nth j X 0) Hn Hi; rewrite E.
rewrite /Rminus Rplus_opp_r; case: ifP Hz => _ Hz H; apply: Hz => //; by rewrite -[LHS]Ropp_involutive -H Ropp_0.
Qed.
End Gradient.

Variables (DFx : point -> mat3 R_realFieldType) (dirichlet : bool) (S : drseq R_realFieldType).
Hypothesis HS : new_sequence ns ps q box DFx false dirichlet = Some S.

Lemma box_divergence : exists (B : 'cV_(rk S K2)) (x : point) (d : R),
  [/\ strong_div S *m B = 0, Rlt 0 x.1.1 /\ Rlt x.1.1 1 /\ Rlt 0 x.1.2 /\ Rlt x.1.2 1 /\ Rlt 0 x.2 /\ Rlt x.2 1,
      is_div (fun c => discrete_form ns ps box B c) x d & d <> R0].
Proof.
have [f [Q [Hf HQ ES]]] := proj1 (new_seqP _ _ _ _ _ _ _ _) HS.
have BF := box_facts_of Hf HQ.
have Hn0 := cd_n (bf_0 BF); have Hn1 := cd_n (bf_1 BF); have Hn2 := cd_n (bf_2 BF).
pose s := Shape n0 n1 n2 true true true.
have Hin : in_comp s K2 1 (0, n1.-1, 0)%N by rewrite /in_comp /= /dr /dz /=; lia.
pose i := ravel_index s K2 1 0 n1.-1 0.
pose b : bc * bc * bc := (if dirichlet then Dirichlet else NoBC, NoBC, NoBC).
have Hi : (i < fdim s K2)%N by apply: ravel_index_lt.
have [r Hr Er] : exists2 r, (r < bdim s b K2)%N & sel s b K2 r = i.
  by apply: sel_surj => //; rewrite unravel_ravel_index.
pose S0 := @Seq R_realFieldType s (evaluate_1d f Q) (fun j => metric (DFx (List.nth j (q_x Q) (R0, R0, R0))))
    (fun j => inv33 (metric (DFx (List.nth j (q_x Q) (R0, R0, R0))))) (fun j => det33 (DFx (List.nth j (q_x Q) (R0, R0, R0))))
    (fun j => List.nth j (q_w Q) R0) (bdim s b) (boundary_matrix R_realFieldType s b).
have -> : S = S0 by rewrite ES (bf_sh BF).
pose B : 'cV[R]_(bdim s b K2) := delta_mx (Ordinal Hr) 0.
have EB (v : nat -> R) : \sum_(k < fdim s K2) (B^T *m boundary_matrix R_realFieldType s b K2) ord0 k * v k = v i.
  rewrite (bigD1 (Ordinal Hi)) //= big1 => [|k Hk].
    by rewrite addr0 trmx_delta -rowE mxE boundary_entry //= Er eqxx mul1r.
  rewrite trmx_delta -rowE mxE boundary_entry //= Er.
  by have -> : (nat_of_ord k == i) = false by [apply/negbTE]; rewrite mul0r.
have [j0 Hj0 Z0] := cd_dnz (bf_0 BF) (i := 0) ltac:(lia).
have [j1 Hj1 Z1] := cd_dnz (bf_1 BF) (i := n1.-2) ltac:(lia).
have [j2 Hj2 Z2] := cd_dnz (bf_2 BF) (i := 0) ltac:(lia).
set x0 := List.nth j0 _ _ in Z0; set x1 := List.nth j1 _ _ in Z1; set x2 := List.nth j2 _ _ in Z2.
have Hf2 := box_form K2 Hf; set f2 := DForm _ _ _ _ _ _ _ in Hf2.
have Hev x c : discrete_form ns ps box (S := S0) (k := K2) B c x = form_evaluate f2 x i c.
  by rewrite /discrete_form Hf2; exact: (EB (fun k => form_evaluate f2 x k c)).
have Hir : in_range (f_shape f2) K2 1 0 n1.-1 0 by rewrite in_rangeE [f_shape _](bf_sh BF).
have Fe t0 t1 t2 c : (c < 3)%N -> form_evaluate f2 (t0, t1, t2) i c
    = if c == 1%N then evaluate_deriv (f_D0 f) t0 0%N * evaluate (f_L1 f) t1 n1.-1 * evaluate_deriv (f_D2 f) t2 0%N else 0.
  move=> Hc; have := form_eval_spec Hf2 t0 t1 t2 Hir (c' := c) Hc.
  by rewrite [f_shape _](bf_sh BF) => ->.
pose a := evaluate_deriv (f_D0 f) x0 0%N; pose e := evaluate_deriv (f_D2 f) x2 0%N.
exists B, (x0, x1, x2), (Rmult (Rmult a e) (evaluate_deriv (f_D1 f) x1 n1.-2)); split.
- suff H : D2 S0 *m B = 0 by rewrite /strong_div /solve -mulmxA H mulmx0.
  rewrite /D2 -!mulmxA; set v0 := (_ *m (_ *m B)); suff -> : v0 = 0 by rewrite mulmx0.
  apply/matrixP => u v; rewrite !mxE; apply: big1 => k _.
  have -> : ((boundary_matrix R_realFieldType s b K2)^T *m B) k v = (nat_of_ord k == i)%:R.
    by rewrite ord1 -colE mxE -Er -(@boundary_entry R_realFieldType s b K2 _ (Ordinal Hr) k) // mxE.
  case: eqP => [Ek|]; last by rewrite mulr0.
  rewrite mulr1 mxE; apply: big1 => j _; apply: big1 => k1 _; apply: big1 => k2 _.
  by rewrite Ek [get_d_Lambda_2 _ _ _ _ _]getter_last ?mulr0.
- by have := (cd_pos (bf_0 BF) Hj0, cd_pos (bf_1 BF) Hj1, cd_pos (bf_2 BF) Hj2) => -[[[? ?] [? ?]] [? ?]].
- exists 0, (Rmult (Rmult a e) (evaluate_deriv (f_D1 f) x1 n1.-2)), 0; split; rewrite /is_partial /upd /coord /=.
  + by apply: (derive_fun (g := fun _ => R0)) => [t|]; [rewrite Hev Fe | apply: is_derive_const].
  + apply: (derive_fun (g := fun t => Rmult (Rmult a e) (evaluate (f_L1 f) t n1.-1))).
      by move=> t; rewrite Hev Fe // !RmultE mulrAC.
    apply: is_derive_scal; have := cd_der (bf_1 BF) Hj1 (i := n1.-1) ltac:(lia).
    rewrite eqxx; have -> : (n1.-1 == 0)%N = false by lia.
    by rewrite RminusE subr0.
  + by apply: (derive_fun (g := fun _ => R0)) => [t|]; [rewrite Hev Fe | apply: is_derive_const].
  + by rewrite Rplus_0_l Rplus_0_r.
- by do 2! (apply: Rmult_integral_contrapositive; split=> //).
Qed.
End Box.
