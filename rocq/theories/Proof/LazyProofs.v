(** Lemmas on the lazily assembled matrices (C60). *)
From Coq Require Import Reals Lra.
From Coquelicot Require Import Coquelicot.
From mathcomp Require Import all_ssreflect all_algebra zify.
From Verif Require Import Model.RBase Model.Spline Model.Quad Model.Forms Model.DeRham Model.FormEval Model.Geometry Model.SeqR Model.Lazy.
From Verif Require Import Spec.SeqSpec Spec.FormSpec Spec.GeomSpec Spec.SeqRSpec Spec.CalculusSpec.
From Verif Require Import Proof.RField Proof.IndexLemmas Proof.FormEvalProofs Proof.SplineTables Proof.SeqRProofs Proof.SeqDeriv
  Proof.SeqCalculus Proof.Limits Props.SequenceR.
From Verif Require Props.Quadrature.
Set Implicit Arguments.
Unset Strict Implicit.
Unset Printing Implicit Defensive.
Import Order.TTheory GRing.Theory Num.Theory.
Local Open Scope ring_scope.

(** ** quadrature points are off the knots *)
Lemma mesh_node01 N q j : (1 <= N)%N -> (j < length (fst (composite_quad (linspace01 (N + 1)) q)))%N ->
  Rlt 0 (List.nth j (fst (composite_quad (linspace01 (N + 1)) q)) 0) /\ Rlt (List.nth j (fst (composite_quad (linspace01 (N + 1)) q)) 0) 1.
Proof.
move=> HN Hj.
have [Hinc _] := @Quadrature.linspace_inc (N + 1)%N ltac:(lia).
have [e [He]] := node_in Hinc Hj.
rewrite SplineTables.linspace_len in He.
have P : Rlt 0 (INR N) by apply: lt_0_INR; lia.
have L i : (i < N + 1)%N -> List.nth i (linspace01 (N + 1)) 0 = Rdiv (INR i) (INR N).
  move=> Hi; rewrite SplineLink.linspace01_nth; last lia. by have -> : (N + 1 - 1)%coq_nat = N by lia.
rewrite !L; [|lia|lia].
set x := List.nth j _ _ => Hlo Hhi.
have A : Rle 0 (Rdiv (INR e) (INR N)).
  by apply: Rmult_le_pos; [exact: pos_INR | left; exact: Rinv_0_lt_compat].
have B : Rle (Rdiv (INR e.+1) (INR N)) 1.
  apply: (Rle_trans _ (Rdiv (INR N) (INR N))); last by right; field; lra.
  apply: Rmult_le_compat_r; first by left; exact: Rinv_0_lt_compat.
  by apply: le_INR; lia.
by change (0 : R) with R0; lra.
Qed.

Lemma point_off ns ps q types x : resolved ns ps q types -> List.In x (seq_points ns ps q types) -> off_knots ns ps types.2 x.
Proof.
case: ns => [[n0 n1] n2]; case: ps => [[p0 p1] p2]; case: types => [[t0 t1] t2].
case=> -[-> ->] /and5P [H1 H2 H3 H4 /andP [H5 H6]] [HN0 HN1] Hz.
rewrite /seq_points /DifferentialForm !new_spline_ok //; last first.
  by case: Hz => [[_ [/and3P [_ -> _] _]]|[_ [-> ->]]].
case: (new_deriv _) => [d0|] //; case: (new_deriv _) => [d1|] //; case: (new_deriv _) => [d2|] //.
rewrite /QuadratureRule /select_quadrature [f_L0 _]/= [f_L1 _]/= [f_L2 _]/= [sty _]/= [sty _]/= [sty _]/=.
rewrite (clamped_mesh H1 H2) (periodic_mesh H4 H5).
case EX : (composite_quad (linspace01 (n0 - p0 + 1)) q) => [X0 W0].
case EY : (composite_quad (linspace01 (n1 + 1)) q) => [X1 W1].
have EX' : X0 = fst (composite_quad (linspace01 (n0 - p0 + 1)) q) by rewrite EX.
have EY' : X1 = fst (composite_quad (linspace01 (n1 + 1)) q) by rewrite EY.
have HX j : (j < length X0)%N -> (Rlt 0 (List.nth j X0 0) /\ Rlt (List.nth j X0 0) 1) /\ forall k : nat, Rmult (List.nth j X0 0) (INR (n0 - p0)) <> INR k.
  by rewrite EX' => Hj; split; [apply: mesh_node01 => //; lia | apply: mesh_off => //; lia].
have HY j : (j < length X1)%N -> (Rlt 0 (List.nth j X1 0) /\ Rlt (List.nth j X1 0) 1) /\ forall k : nat, Rmult (List.nth j X1 0) (INR n1) <> INR k.
  by rewrite EY' => Hj; split; [apply: mesh_node01 => //; lia | apply: mesh_off => //; lia].
have [X2 [W2 [-> HZ]]] : exists X2 W2, match t2 with Clamped | Periodic => Some (composite_quad (slice_pp (init_knots n2 p2 t2) p2) q)
     | Fourier => Some (trapezoidal_quad (2 * q)) | Constant => spectral_quad 1 end = Some (X2, W2) /\
     forall j, (j < length X2)%N -> (Rlt 0 (List.nth j X2 0) /\ Rlt (List.nth j X2 0) 1) /\ (t2 = Periodic -> forall k : nat, Rmult (List.nth j X2 0) (INR n2) <> INR k).
  case: Hz => [[-> [/and3P [A B C] D]]|[-> _]].
  - exists (fst (composite_quad (linspace01 (n2 + 1)) q)), (snd (composite_quad (linspace01 (n2 + 1)) q)); split.
      by rewrite -[slice_pp _ _]/(slice_pp (sT (mkSpline n2 p2 Periodic (init_knots n2 p2 Periodic))) (sp (mkSpline n2 p2 Periodic (init_knots n2 p2 Periodic)))) (periodic_mesh A B); case: (composite_quad _ _).
    by move=> j Hj; split; [apply: mesh_node01 => //; lia | move=> _; apply: mesh_off => //; lia].
  - eexists; eexists; split; first by rewrite /spectral_quad /=; reflexivity.
    case=> [|j] //= _; split=> //; change (0 : R) with R0; rewrite /ufl; lra.
rewrite [q_x _]/= /meshgrid3.
move=> /List.in_flat_map [b' [Hb /List.in_flat_map [a' [Ha /List.in_map_iff [c' [<- Hc]]]]]].
have [ja [Ja Ea]] := List.In_nth _ _ (0 : R) Ha.
have [jb [Jb Eb]] := List.In_nth _ _ (0 : R) Hb.
have [jc [Jc Ec]] := List.In_nth _ _ (0 : R) Hc.
have [A1 A2] := HX ja ltac:(lia); have [B1 B2] := HY jb ltac:(lia); have [C1 C2] := HZ jc ltac:(lia).
rewrite Ea in A1 A2; rewrite Eb in B1 B2; rewrite Ec in C1 C2.
by split.
Qed.

(** ** bilinear forms *)
Lemma form_ext n m (A B : 'M[R_realFieldType]_(n, m)) : (forall x y, form A x y = form B x y) -> A = B.
Proof.
move=> H; apply/matrixP => i j.
have E (C : 'M[R_realFieldType]_(n, m)) : C i j = form C (delta_mx i 0) (delta_mx j 0).
  by rewrite /form trmx_delta -rowE -colE !mxE.
by rewrite (E A) (E B) H.
Qed.

Lemma form_congr n m (G : 'M[R_realFieldType]_(m, n)) (A : 'M[R_realFieldType]_m) x y : form (G^T *m A *m G) x y = form A (G *m x) (G *m y).
Proof. by rewrite /form trmx_mul !mulmxA. Qed.

Definition comb (n : nat) (u : 'rV[R]_n) (A : nat -> nat -> vecR) (j k : nat) : R := \sum_(i < n) u 0 i * A i j k.

Lemma lazy_form nq d A B c w r0 n0 r1 n1 (E0 : 'M[R]_(r0, n0)) (E1 : 'M[R]_(r1, n1)) (x : 'cV[R]_r1) (y : 'cV[R]_r0) :
  form (lazy_matrix E0 E1 (einsum_li nq d A B c w n1 n0) : 'M[R_realFieldType]_(_, _)) x y
  = \sum_(j < nq) (\sum_(k < d) comb (y^T *m E0) A j k * comb (x^T *m E1) B j k) * (c j * w j).
Proof.
rewrite /form /lazy_matrix.
have -> : x^T *m (E1 *m einsum_li nq d A B c w n1 n0 *m E0^T) *m y
        = (x^T *m E1) *m einsum_li nq d A B c w n1 n0 *m (y^T *m E0)^T by rewrite trmx_mul trmxK !mulmxA.
move: (x^T *m E1) (y^T *m E0) => u v.
rewrite mxE (eq_bigr (fun i : 'I_n0 => \sum_(j < nq) \sum_(l < n1) \sum_(k < d) (v 0 i * A i j k) * (u 0 l * B l j k) * (c j * w j))).
  rewrite exchange_big /=; apply: eq_bigr => j _.
  rewrite (eq_bigr (fun i : 'I_n0 => \sum_(k < d) \sum_(l < n1) (v 0 i * A i j k) * (u 0 l * B l j k) * (c j * w j))); last by move=> i _; rewrite exchange_big.
  rewrite exchange_big mulr_suml /=; apply: eq_bigr => k _.
  rewrite /comb mulr_suml mulr_suml; apply: eq_bigr => i _.
  by rewrite mulr_sumr mulr_suml.
move=> i _; rewrite mxE exchange_big /= mulr_suml; apply: eq_bigr => l _; rewrite !mxE mulr_sumr mulr_suml.
apply: eq_bigr => j _; rewrite mulr_sumr mulr_suml; apply: eq_bigr => k _.
by rewrite -!RmultE; ring.
Qed.

Lemma comb_mulv n (u : 'rV[R]_n) (P : nat -> matR) (A : nat -> nat -> vecR) j k :
  comb u (fun i j => mulv3 (P j) (A i j)) j k = mulv3 (P j) (fun a => comb u A j a) k.
Proof.
rewrite /comb /mulv3 (eq_bigr (fun i : 'I_n => \sum_(m < 3) P j k m * (u 0 i * A i j m))).
  by rewrite exchange_big /=; apply: eq_bigr => m _; rewrite mulr_sumr.
by move=> i _; rewrite mulr_sumr; apply: eq_bigr => m _; rewrite mulrCA.
Qed.

(** ** linearity of the Jacobian on the basis functions *)
Lemma is_derive_lin n (u : 'rV[R]_n) (g : nat -> R -> R) (x : R) :
  (forall i, (i < n)%N -> ex_derive (g i) x) ->
  is_derive (fun t => \sum_(i < n) u 0 i * g i t) x (\sum_(i < n) u 0 i * Derive (g i) x).
Proof.
move=> H; pose v (i : nat) : R := if insub i is Some j then u 0 j else 0.
have Ev (i : 'I_n) : u 0 i = v i by rewrite /v valK.
rewrite (eq_bigr (fun i : 'I_n => Rmult (v i) (Derive (g i) x))); last by move=> i _; rewrite Ev.
apply: (derive_fun (g := fun t => \sum_(i < n) Rmult (v i) (g i t))); first by move=> t; apply: eq_bigr => i _; rewrite Ev.
apply: (sum_derive (f := fun i t => Rmult (v i) (g i t)) (d := fun i => Rmult (v i) (Derive (g i) x))) => i Hi.
by apply: scal_derive; apply: Derive_correct; apply: H.
Qed.

Lemma dir_ex n (l d : spline) x i : (dir_open n l d x \/ dir_per n l d x) -> (i < n)%N -> ex_derive (fun t => evaluate l t i) x.
Proof.
move=> H Hi.
have E t : evaluate l t i = \sum_(k < n) (k == i :> nat)%:R * evaluate l t k.
  rewrite (bigD1 (Ordinal Hi)) //= eqxx mul1r big1 ?addr0 // => k Hk.
  by rewrite (_ : (_ == _ :> nat) = false) ?mul0r //; apply/negbTE.
by case: H => H; eexists; apply: (derive_fun E); exact: (H (fun k => (k == i)%:R)).
Qed.

Lemma jacE F x k l : jac F x k l = Derive (fun t => F (upd l x t) k) (coord l x).
Proof. by case: x => [[x0 x1] x2]; rewrite /jac /upd /coord; case: (l == 0)%N; case: (l == 1)%N. Qed.

Section Seq.
Variables (ns ps : triple) (q : nat) (types : stype * stype * stype) (DFx : point -> matR) (polar dirichlet : bool).
Hypothesis Hs : supported ns ps q types polar dirichlet.
Hypothesis Hreg : regular_map DFx (seq_points ns ps q types).
Variable S : drseq R_realFieldType.
Hypothesis HS : new_sequence ns ps q types DFx polar dirichlet = Some S.
Notation field := (discrete_form ns ps types).

Lemma Hresolved : resolved ns ps q types.
Proof. by move: Hs; case: (ns) => [[n0 n1] n2] []. Qed.

Lemma ex_part k f x i c a : DifferentialForm k ns ps types = Some f -> k <> KV -> off_knots ns ps types.2 x ->
  (i < fdim (sh S) k)%N -> (c < comps k)%N -> (a < 3)%N -> has_dx k c a = false ->
  ex_derive (fun t => form_evaluate f (upd a x t) i c) (coord a x).
Proof.
case: x => [[x0 x1] x2] Hf HV Hx Hi Hc Ha Hd.
have [l0 [l1 [l2 [d0 [d1 [d2 [HD D0 D1 D2]]]]]]] := supported_dirs Hs Hx.
have Ef : f = DForm k l0 l1 l2 d0 d1 d2 by move: Hf; rewrite HD => -[].
have Esh : f_shape f = sh S.
  have [f' [Q' [-> _ [Hf' _] _ _]]] := seq_summary Hs Hreg HS.
  have -> : f_shape f = f_shape f' by move: Hf'; rewrite HD Ef => -[<-].
  by rewrite /DeRhamSequence; case: (polar).
have Esq := seq_sh Hs Hreg HS.
move: i Hi; apply: flat_ind => c' i1 i2 i3 Hc' Hin.
have Hir : in_range (f_shape f) k c' i1 i2 i3 by rewrite in_rangeE Hc' Esh.
have FE z0 z1 z2 : form_evaluate f (z0, z1, z2) (ravel_index (sh S) k c' i1 i2 i3) c
    = if c == c' then factor f c' 0 z0 i1 * factor f c' 1 z1 i2 * factor f c' 2 z2 i3 else 0.
  by rewrite -Esh (form_eval_spec Hf).
case: eqP FE => [E|_] FE; last first.
  apply: (ex_derive_ext (fun _ => R0)); last exact: ex_derive_const.
  by move=> t; case: (a) Ha => [|[|[|a']]] // _; rewrite /upd /= FE.
subst c'.
have Fk : f_k f = k by rewrite Ef.
have Hrng : [/\ has_dx k c 0 = false -> (i1 < ns.1.1)%N, has_dx k c 1 = false -> (i2 < ns.1.2)%N & has_dx k c 2 = false -> (i3 < ns.2)%N].
  by move: Hir; rewrite /in_range Esh Esq /= => /and4P [_ A B C]; split=> E; move: A B C; rewrite E.
case: Hrng => R0 R1 R2.
case: (a) Ha Hd => [|[|[|a']]] // _ Hd; rewrite /upd /coord /=.
- apply: (ex_derive_ext (fun t => Rmult (factor f c 1 x1 i2 * factor f c 2 x2 i3) (evaluate l0 t i1))).
    by move=> t; rewrite FE /factor Fk Hd /= Ef /= RmultE mulrC mulrA.
  by apply: ex_derive_scal; apply: (dir_ex (or_introl D0)); apply: R0.
- apply: (ex_derive_ext (fun t => Rmult (factor f c 0 x0 i1 * factor f c 2 x2 i3) (evaluate l1 t i2))).
    by move=> t; rewrite FE /factor Fk Hd /= Ef /= RmultE mulrAC.
  by apply: ex_derive_scal; apply: (dir_ex (or_intror D1)); apply: R1.
- apply: (ex_derive_ext (fun t => Rmult (factor f c 0 x0 i1 * factor f c 1 x1 i2) (evaluate l2 t i3))).
    by move=> t; rewrite FE /factor Fk Hd /= Ef /= RmultE.
  by apply: ex_derive_scal; apply: (dir_ex (or_intror D2)); apply: R2.
Qed.

Lemma sum_jac k f (y : 'cV_(rk S k)) x c a d : DifferentialForm k ns ps types = Some f -> k <> KV -> off_knots ns ps types.2 x ->
  (c < comps k)%N -> (a < 3)%N -> has_dx k c a = false -> is_partial a (field y c) x d ->
  \sum_(i < fdim (sh S) k) (y^T *m E_ S k) 0 i * jac (fun z => form_evaluate f z i) x c a = d.
Proof.
move=> Hf HV Hx Hc Ha Hd Hp.
have H := @is_derive_lin (fdim (sh S) k) (y^T *m E_ S k) (fun i t => form_evaluate f (upd a x t) i c) (coord a x)
  (fun i Hi => ex_part Hf HV Hx Hi Hc Ha Hd).
have H' : is_derive (fun t => field y c (upd a x t)) (coord a x) (\sum_(i < fdim (sh S) k) (y^T *m E_ S k) 0 i * Derive (fun t => form_evaluate f (upd a x t) i c) (coord a x)).
  by apply: (derive_fun _ H) => t; rewrite /discrete_form Hf.
rewrite -(is_derive_unique _ _ _ Hp) (is_derive_unique _ _ _ H').
by apply: eq_bigr => i _; rewrite jacE.
Qed.

Lemma sum_grad f (y : 'cV_(rk S K0)) x a : DifferentialForm K0 ns ps types = Some f -> off_knots ns ps types.2 x -> (a < 3)%N ->
  \sum_(i < fdim (sh S) K0) (y^T *m E_ S K0) 0 i * grad (fun z => form_evaluate f z i) x a = field (strong_grad S *m y) a x.
Proof. by move=> Hf Hx Ha; apply: sum_jac => //; apply: (C22_gradient Hs Hreg HS y Hx). Qed.

Lemma sum_curl f (y : 'cV_(rk S K1)) x a : DifferentialForm K1 ns ps types = Some f -> off_knots ns ps types.2 x -> (a < 3)%N ->
  \sum_(i < fdim (sh S) K1) (y^T *m E_ S K1) 0 i * curl (fun z => form_evaluate f z i) x a = field (strong_curl S *m y) a x.
Proof.
move=> Hf Hx Ha.
have [d12 [d21 [d20 [d02 [d01 [d10 [[A1 A2] [B1 B2] [C1 C2] [V0 V1 V2]]]]]]]] := C22_curl Hs Hreg HS y Hx.
have J := sum_jac (y := y) Hf _ Hx.
have D (u v : nat -> R) : \sum_(i < fdim (sh S) K1) (y^T *m E_ S K1) 0 i * (u i - v i)
  = \sum_(i < fdim (sh S) K1) (y^T *m E_ S K1) 0 i * u i - \sum_(i < fdim (sh S) K1) (y^T *m E_ S K1) 0 i * v i.
  by rewrite -sumrB; apply: eq_bigr => i _; rewrite mulrBr.
case: a Ha => [|[|[|a]]] // _; rewrite /curl /arr3 .
- rewrite V0; apply: (etrans (D (fun i => jac (fun z => form_evaluate f z i) x 2%N 1%N) (fun i => jac (fun z => form_evaluate f z i) x 1%N 2%N))).
  by congr (_ - _); apply: J.
- rewrite V1; apply: (etrans (D (fun i => jac (fun z => form_evaluate f z i) x 0%N 2%N) (fun i => jac (fun z => form_evaluate f z i) x 2%N 0%N))).
  by congr (_ - _); apply: J.
- rewrite V2; apply: (etrans (D (fun i => jac (fun z => form_evaluate f z i) x 1%N 0%N) (fun i => jac (fun z => form_evaluate f z i) x 0%N 1%N))).
  by congr (_ - _); apply: J.
Qed.

Lemma sum_div f (y : 'cV_(rk S K2)) x a : DifferentialForm K2 ns ps types = Some f -> off_knots ns ps types.2 x ->
  \sum_(i < fdim (sh S) K2) (y^T *m E_ S K2) 0 i * div (fun z => form_evaluate f z i) x a = field (strong_div S *m y) 0 x.
Proof.
move=> Hf Hx.
have [d0 [d1 [d2 [A B C ->]]]] := C22_divergence Hs Hreg HS y Hx.
have J := sum_jac (y := y) Hf _ Hx.
rewrite -(J _ _ _ _ _ _ _ A) // -(J _ _ _ _ _ _ _ B) // -(J _ _ _ _ _ _ _ C) // !RplusE -!big_split /=.
by apply: eq_bigr => i _; rewrite /div !mulrDr.
Qed.
End Seq.

Lemma den_eq (F : fieldType) (u v J w : F) : J != 0 -> u * v * (J^-1 * w) = u / J * (v / J) * (w * J).
Proof.
move=> H; rewrite -[LHS]mulr1 -(mulVf H) -!mulrA; congr (_ * _).
by rewrite mulrCA; congr (_ * (_ * _)); rewrite mulrCA.
Qed.

Section Main.
Variables (ns ps : triple) (q : nat) (types : stype * stype * stype) (DFx : point -> matR) (polar dirichlet : bool).
Hypothesis Hs : supported ns ps q types polar dirichlet.
Hypothesis Hreg : regular_map DFx (seq_points ns ps q types).
Variable S : drseq R_realFieldType.
Hypothesis HS : new_sequence ns ps q types DFx polar dirichlet = Some S.
Notation field := (discrete_form ns ps types).
Notation qpt := (qpt ns ps q types).
Notation phys_l2 := (phys_l2 ns ps q types DFx).
Variable Q : quadrule.
Hypothesis HQ : forall k f, DifferentialForm k ns ps types = Some f -> QuadratureRule (f_L0 f) (f_L1 f) (f_L2 f) q = Some Q.

Lemma Q_pts : q_x Q = seq_points ns ps q types /\ q_w Q = seq_weights ns ps q types.
Proof.
have [f [Q' [_ _ [Hf _] _ _]]] := seq_summary Hs Hreg HS.
by rewrite /seq_points /seq_weights Hf (HQ Hf).
Qed.
Lemma xqE j : xq Q j = qpt j.
Proof. by rewrite /xq /SequenceR.qpt (proj1 Q_pts). Qed.
Lemma wqE j : wq Q j = qwt ns ps q types j.
Proof. by rewrite /wq /qwt (proj2 Q_pts). Qed.
Lemma xq_off j : (j < length (q_x Q))%N -> off_knots ns ps types.2 (xq Q j).
Proof.
move=> Hj; apply: (@point_off ns ps q types); first exact: (Hresolved Hs).
by rewrite -(proj1 Q_pts); apply: List.nth_In; exact/ssrnat.ltP.
Qed.
Lemma Jq_neq0 j : (j < length (q_x Q))%N -> Jq Q DFx j != 0.
Proof.
move=> Hj; have : Rle (/ 10 ^ 5) (Jq Q DFx j).
  by apply: Hreg; rewrite -(proj1 Q_pts); apply: List.nth_In; exact/ssrnat.ltP.
move=> H; apply/eqP => E; rewrite E -R0E in H.
have P : Rlt 0 (/ 10 ^ 5) by apply: Rinv_0_lt_compat; apply: pow_lt; lra.
lra.
Qed.

Lemma inv_JqE j : (j < length (q_x Q))%N -> inv_Jq Q DFx j = (Jq Q DFx j)^-1.
Proof. by move=> Hj; rewrite /inv_Jq /Rdiv Rmult_1_l RinvE //; apply: Jq_neq0. Qed.

(** what the lazy classes apply to the value of a k-form, and the density they use *)
Definition lpush (k : deg) (j : nat) (v : vecR) : vecR :=
  match k with K0 | K3 => v | K1 => mulv3 (tr33 (inv33 (DFx (xq Q j)))) v | K2 | KV => mulv3 (DFx (xq Q j)) v end.
Definition lden (k : deg) : nat -> R := match k with K0 | K1 | KV => Jq Q DFx | K2 | K3 => inv_Jq Q DFx end.

Lemma lazy_phys k (U V : nat -> vecR) :
  \sum_(j < length (q_x Q)) (\sum_(a < dcomp k) lpush k j (U j) a * lpush k j (V j) a) * (lden k j * wq Q j)
  = phys_l2 (dcomp k) (fun j => pushforward k (DFx (qpt j)) (U j)) (fun j => pushforward k (DFx (qpt j)) (V j)).
Proof.
rewrite /SequenceR.phys_l2 -(proj1 Q_pts); apply: eq_bigr => j _.
have HJ := Jq_neq0 (ltn_ord j).
rewrite -wqE -(xqE j) -/(Jq Q DFx j) !mulr_suml; apply: eq_bigr => -[a Ha] _; rewrite [nat_of_ord (Ordinal Ha)]/= {Ha}.
case: k => /=.
- by rewrite (mulrC (wq Q j)).
- by rewrite (mulrC (wq Q j)).
- rewrite -/(Jq Q DFx j) inv_JqE ?ltn_ord //; exact: den_eq.
- rewrite -/(Jq Q DFx j) inv_JqE ?ltn_ord //; exact: den_eq.
- by rewrite (mulrC (wq Q j)).
Qed.

Lemma comb_field k f (y : 'cV_(rk S k)) j c : DifferentialForm k ns ps types = Some f ->
  comb (y^T *m E_ S k) (fun i j => form_evaluate f (xq Q j) i) j c = field y c (qpt j).
Proof. by move=> Hf; rewrite /comb /discrete_form Hf xqE. Qed.

(** pushing forward commutes with linear combinations *)
Lemma comb_push k n (u : 'rV[R]_n) (A : nat -> nat -> vecR) j a :
  comb u (fun i j => lpush k j (A i j)) j a = lpush k j (fun b => comb u A j b) a.
Proof. by case: k => //=; rewrite -?(comb_mulv u (fun j => tr33 (inv33 (DFx (xq Q j))))) -?(comb_mulv u (fun j => DFx (xq Q j))). Qed.
Lemma lpush_ext k j (u v : vecR) a : (a < dcomp k)%N -> (forall b, (b < dcomp k)%N -> u b = v b) -> lpush k j u a = lpush k j v a.
Proof.
move=> Ha H; case: k Ha H => //= Ha H; rewrite ?H //; by apply: eq_bigr => m _; rewrite H.
Qed.

(** the bilinear form of a lazily assembled matrix whose integrands have, at the quadrature
    points, the values U and V *)
Lemma lazy_value k r0 n0 r1 n1 (E0 : 'M[R]_(r0, n0)) (E1 : 'M[R]_(r1, n1)) A B x y (U V : nat -> vecR) :
  (forall j a, (j < length (q_x Q))%N -> (a < dcomp k)%N -> comb (y^T *m E0) A j a = U j a) ->
  (forall j a, (j < length (q_x Q))%N -> (a < dcomp k)%N -> comb (x^T *m E1) B j a = V j a) ->
  form (lazy_matrix E0 E1 (einsum_li (length (q_x Q)) (dcomp k) (fun i j => lpush k j (A i j)) (fun i j => lpush k j (B i j)) (lden k) (wq Q) n1 n0) : 'M[R_realFieldType]_(_, _)) x y
  = phys_l2 (dcomp k) (fun j => pushforward k (DFx (qpt j)) (V j)) (fun j => pushforward k (DFx (qpt j)) (U j)).
Proof.
move=> HU HV; rewrite lazy_form -lazy_phys; apply: eq_bigr => j _; congr (_ * _); apply: eq_bigr => a _.
rewrite !comb_push mulrC; congr (_ * _); apply: lpush_ext => // b Hb; [exact: HV | exact: HU].
Qed.

Lemma lazy_mass k f : DifferentialForm k ns ps types = Some f -> k <> KV ->
  LazyMassMatrix Q DFx f (E_ S k) = mass S k.
Proof.
move=> Hf HV; apply: form_ext => x y; rewrite (C33_sequence Hs Hreg HS) //.
apply: (etrans _ (@lazy_value k _ _ _ _ (E_ S k) (E_ S k) (fun i j => form_evaluate f (xq Q j) i) (fun i j => form_evaluate f (xq Q j) i) x y (fun j c => field y c (qpt j)) (fun j c => field x c (qpt j)) _ _)).
- have [Ek _ _ _] := DF_inv Hf; rewrite /LazyMassMatrix /LazyMass_assemble Ek.
  by move: (E_ S k) x y; case: (k) HV.
- by move=> j a _ _; rewrite (comb_field _ _ _ Hf).
- by move=> j a _ _; rewrite (comb_field _ _ _ Hf).
Qed.

Lemma lazy_grad f g : DifferentialForm K0 ns ps types = Some f -> DifferentialForm K1 ns ps types = Some g ->
  LazyDerivativeMatrix Q DFx f g (E_ S K0) (E_ S K1) = Some (M1 S *m strong_grad S).
Proof.
move=> Hf Hg; have [Ef _ _ _] := DF_inv Hf; have [Eg _ _ _] := DF_inv Hg.
rewrite /LazyDerivativeMatrix Ef Eg; congr Some; apply: form_ext => x y.
have -> : form (M1 S *m strong_grad S) x y = form (mass S K1) x (strong_grad S *m y) by rewrite /form /= !mulmxA.
rewrite (C33_sequence Hs Hreg HS) //.
apply: (@lazy_value K1 _ _ _ _ (E_ S K0) (E_ S K1) (fun i j => grad (fun z => form_evaluate f z i) (xq Q j)) (fun i j => form_evaluate g (xq Q j) i) x y).
- by move=> j a Hj Ha; rewrite -xqE -(sum_grad Hs Hreg HS y Hf (xq_off Hj) Ha).
- by move=> j a _ _; rewrite (comb_field _ _ _ Hg).
Qed.
Lemma lazy_curl f g : DifferentialForm K1 ns ps types = Some f -> DifferentialForm K2 ns ps types = Some g ->
  LazyDerivativeMatrix Q DFx f g (E_ S K1) (E_ S K2) = Some (M2 S *m strong_curl S).
Proof.
move=> Hf Hg; have [Ef _ _ _] := DF_inv Hf; have [Eg _ _ _] := DF_inv Hg.
rewrite /LazyDerivativeMatrix Ef Eg; congr Some; apply: form_ext => x y.
have -> : form (M2 S *m strong_curl S) x y = form (mass S K2) x (strong_curl S *m y) by rewrite /form /= !mulmxA.
rewrite (C33_sequence Hs Hreg HS) //.
apply: (@lazy_value K2 _ _ _ _ (E_ S K1) (E_ S K2) (fun i j => curl (fun z => form_evaluate f z i) (xq Q j)) (fun i j => form_evaluate g (xq Q j) i) x y).
- by move=> j a Hj Ha; rewrite -xqE -(sum_curl Hs Hreg HS y Hf (xq_off Hj) Ha).
- by move=> j a _ _; rewrite (comb_field _ _ _ Hg).
Qed.
Lemma lazy_div f g : DifferentialForm K2 ns ps types = Some f -> DifferentialForm K3 ns ps types = Some g ->
  LazyDerivativeMatrix Q DFx f g (E_ S K2) (E_ S K3) = Some (M3 S *m strong_div S).
Proof.
move=> Hf Hg; have [Ef _ _ _] := DF_inv Hf; have [Eg _ _ _] := DF_inv Hg.
rewrite /LazyDerivativeMatrix Ef Eg; congr Some; apply: form_ext => x y.
have -> : form (M3 S *m strong_div S) x y = form (mass S K3) x (strong_div S *m y) by rewrite /form /= !mulmxA.
rewrite (C33_sequence Hs Hreg HS) //.
apply: (@lazy_value K3 _ _ _ _ (E_ S K2) (E_ S K3) (fun i j => div (fun z => form_evaluate f z i) (xq Q j)) (fun i j => form_evaluate g (xq Q j) i) x y).
- by move=> j [|a] Hj Ha //; rewrite -xqE -(sum_div Hs Hreg HS y 0 Hf (xq_off Hj)).
- by move=> j a _ _; rewrite (comb_field _ _ _ Hg).
Qed.

Lemma lazy_stiff f : DifferentialForm K0 ns ps types = Some f ->
  LazyStiffnessMatrix Q DFx f (E_ S K0) = (strong_grad S)^T *m M1 S *m strong_grad S.
Proof.
move=> Hf; apply: form_ext => x y.
rewrite form_congr -[M1 S]/(mass S K1).
rewrite (C33_sequence Hs Hreg HS) //.
apply: (@lazy_value K1 _ _ _ _ (E_ S K0) (E_ S K0) (fun i j => grad (fun z => form_evaluate f z i) (xq Q j)) (fun i j => grad (fun z => form_evaluate f z i) (xq Q j)) x y).
- by move=> j a Hj Ha; rewrite -xqE -(sum_grad Hs Hreg HS y Hf (xq_off Hj) Ha).
- by move=> j a Hj Ha; rewrite -xqE -(sum_grad Hs Hreg HS x Hf (xq_off Hj) Ha).
Qed.
Lemma lazy_cc f : DifferentialForm K1 ns ps types = Some f ->
  LazyDoubleCurlMatrix Q DFx f (E_ S K1) = (strong_curl S)^T *m M2 S *m strong_curl S.
Proof.
move=> Hf; apply: form_ext => x y.
rewrite form_congr -[M2 S]/(mass S K2).
rewrite (C33_sequence Hs Hreg HS) //.
apply: (@lazy_value K2 _ _ _ _ (E_ S K1) (E_ S K1) (fun i j => curl (fun z => form_evaluate f z i) (xq Q j)) (fun i j => curl (fun z => form_evaluate f z i) (xq Q j)) x y).
- by move=> j a Hj Ha; rewrite -xqE -(sum_curl Hs Hreg HS y Hf (xq_off Hj) Ha).
- by move=> j a Hj Ha; rewrite -xqE -(sum_curl Hs Hreg HS x Hf (xq_off Hj) Ha).
Qed.
Lemma lazy_dd f : DifferentialForm K2 ns ps types = Some f ->
  LazyDoubleDivergenceMatrix Q DFx f (E_ S K2) = (strong_div S)^T *m M3 S *m strong_div S.
Proof.
move=> Hf; apply: form_ext => x y.
rewrite form_congr -[M3 S]/(mass S K3).
rewrite (C33_sequence Hs Hreg HS) //.
apply: (@lazy_value K3 _ _ _ _ (E_ S K2) (E_ S K2) (fun i j => div (fun z => form_evaluate f z i) (xq Q j)) (fun i j => div (fun z => form_evaluate f z i) (xq Q j)) x y).
- by move=> j [|a] Hj Ha //; rewrite -xqE -(sum_div Hs Hreg HS y 0 Hf (xq_off Hj)).
- by move=> j [|a] Hj Ha //; rewrite -xqE -(sum_div Hs Hreg HS x 0 Hf (xq_off Hj)).
Qed.
End Main.
