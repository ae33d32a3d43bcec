(** C66: the GVEC interface (mrx/gvec_interface.py).
    [misfit], [misfit_B], [data_point], [on_grid], [inside]: Spec/GvecSpec.v. *)
From Coq Require Import Reals Lra.
From mathcomp Require Import all_ssreflect all_algebra zify.
From Verif Require Import Model.RBase Model.Spline Model.Quad Model.Forms Model.DeRham Model.FormEval Model.Geometry Model.SeqR Model.Maps Model.Gvec.
From Verif Require Import Spec.Cochain Spec.SeqSpec Spec.GeomSpec Spec.SeqRSpec Spec.CalculusSpec Spec.MapSpec Spec.GvecSpec.
From Verif Require Import Proof.RField Proof.FormEvalProofs Proof.GeometryProofs Proof.SeqCalculus Proof.LeastSquares Proof.GvecProofs Props.SequenceR Props.Maps.
Set Implicit Arguments.
Unset Strict Implicit.
Unset Printing Implicit Defensive.
Import Order.TTheory GRing.Theory Num.Theory.
Local Open Scope ring_scope.

(** jnp.linalg.lstsq: the least-squares solution of least norm, for every matrix *)
Theorem C66_lstsq : forall (F : realFieldType) (m n : nat) (A : 'M[F]_(m, n)) (b : 'cV[F]_m) (y : 'cV[F]_n),
  let c := lstsq A b in
  let dist2 z := \sum_i ((A *m z - b) i ord0) ^+ 2 in
  dist2 c <= dist2 y /\
  (y <> c -> dist2 y = dist2 c -> \sum_i (c i ord0) ^+ 2 < \sum_i (y i ord0) ^+ 2).
Proof.
move=> F m n A b y c dist2; split; first exact: lstsq_min.
move=> Hne E; have := @lstsq_norm F m n A b y; rewrite -[sq (A *m y - b)]/(dist2 y) E => /(_ (lexx _)) E'.
rewrite -[X in _ < X]/(sq y) E' -/c -[X in X < _]/(sq c) ltr_addl lt_neqAle sq_ge0 andbT.
by apply/eqP => /esym/sq_eq0/eqP; rewrite subr_eq0 => /eqP.
Qed.
Print Assumptions C66_lstsq.

Lemma sq_cast n m (e : n = m) (z : 'cV[R_realFieldType]_n) : \sum_i (castmx (e, erefl) z i ord0) ^+ 2 = sq z.
Proof. by case: _ / e. Qed.

Lemma mulv3_inj (A : mat3 R_realFieldType) (v : vec3 R_realFieldType) : det33 A <> R0 ->
  (forall d, (d < 3)%N -> mulv3 A v d = 0) -> forall c, (c < 3)%N -> v c = 0.
Proof.
move=> HA H c Hc.
have U : mx33 A \in unitmx by rewrite unitmxE -det33E unitfE; apply/eqP.
have E : mx33 A *m (\col_(i < 3) v i) = mx33 A *m 0.
  rewrite mulmx0; apply/colP => i; rewrite !mxE -[RHS](H _ (ltn_ord i)); apply: eq_bigr => m _; by rewrite !mxE.
have := congr1 (mulmx (invmx (mx33 A))) E; rewrite !mulmxA (mulVmx U) !mul1mx => /colP/(_ (Ordinal Hc)).
by rewrite !mxE.
Qed.

Section Gvec.
Variables (ns ps : triple) (q : nat) (types : stype * stype * stype) (DFx : point -> mat3 R_realFieldType)
  (polar dirichlet : bool).
Hypothesis Hs : supported ns ps q types polar dirichlet.
Hypothesis Hreg : regular_map DFx (seq_points ns ps q types).
Variable S : drseq R_realFieldType.
Hypothesis HS : new_sequence ns ps q types DFx polar dirichlet = Some S.
Notation field0 := (@discrete_form ns ps types S K0).
Notation field2 := (@discrete_form ns ps types S K2).
Variables (g : gvec_eq) (nfp : R).

Lemma fieldB k (y z : 'cV[R_realFieldType]_(rk S k)) c x :
  discrete_form ns ps types (y - z) c x = discrete_form ns ps types y c x - discrete_form ns ps types z c x :> R_realFieldType.
Proof.
rewrite /discrete_form; case: (DifferentialForm _ _ _ _) => [h|]; last by rewrite subr0.
rewrite -sumrB; apply: eq_bigr => i _; by rewrite linearB /= mulmxBl mxE [in X in _ + X]mxE mulrBl.
Qed.
Lemma misfit0 X (y z : 'cV[R]_(rk S K0)) a b c :
  (forall z, misfit g nfp X (field0 y 0) <= misfit g nfp X (field0 z 0)) ->
  (forall a b c, on_grid g a b c -> X a b c = field0 z 0 (data_point g nfp a b c)) ->
  on_grid g a b c -> X a b c = field0 y 0 (data_point g nfp a b c).
Proof.
move=> B H [Ha Hb Hc].
have : misfit g nfp X (field0 y 0) = 0.
  apply/eqP; rewrite eq_le; apply/andP; split; last first.
    by do 3 (apply: sumr_ge0 => ? _); apply: sqr_ge0.
  apply: le_trans (B z) _; rewrite /misfit big1 // => i _; rewrite big1 // => j _; rewrite big1 // => l _.
  rewrite H ?subrr ?expr0n //; by split; apply: ltn_ord.
move/eqP; rewrite /misfit psumr_eq0; last by move=> i _; do 2 (apply: sumr_ge0 => ? _); apply: sqr_ge0.
move/allP/(_ (Ordinal Ha) (mem_index_enum _)); rewrite /= psumr_eq0; last by move=> i _; apply: sumr_ge0 => ? _; apply: sqr_ge0.
move/allP/(_ (Ordinal Hb) (mem_index_enum _)); rewrite /= psumr_eq0; last by move=> i _; apply: sqr_ge0.
move/allP/(_ (Ordinal Hc) (mem_index_enum _)); rewrite /= sqrf_eq0 subr_eq0 => /eqP ->; by [].
Qed.

Section Scalar.
Variable f : dform.
Hypothesis Hf : DifferentialForm K0 ns ps types = Some f.

(** the returned map can be evaluated only if the sequence was built with polar=False and
    dirichlet=False (the defaults are polar=True, dirichlet=True) *)
Theorem C66_map_needs_full_space : forall x,
  (exists p, interpolate_map_from_GVEC g nfp f S x = Some p) <-> polar = false /\ dirichlet = false.
Proof.
move=> x; have E : (exists p, interpolate_map_from_GVEC g nfp f S x = Some p) <-> fdim (sh S) K0 = rk S K0.
  rewrite /interpolate_map_from_GVEC /interpolated; case: eqP => H; split=> //; last by case.
  by move=> _; eexists.
rewrite E; have [f' [Q [ES _ [_ Esh] _ _]]] := seq_summary Hs Hreg HS.
rewrite ES /DeRhamSequence; move: Hs; rewrite /supported /resolved.
case: (ns) Esh => [[n0 n1] n2]; case: (ps) => [[p0 p1] p2]; case: (types) => [[t0 t1] t2] Esh.
case=> -[_ H1 _ H2] H3.
have Hn2 : (0 < n2)%N by case: H2 => [[_ [/and3P [_ + _] _]]|[_ [-> _]]] //; case: (n2).
have key (m : nat) : (m < n0 * n1)%N -> (n0 * n1 * n2)%N <> (m * n2)%N.
  by move=> Hm E'; move: Hm; rewrite -(ltn_pmul2r Hn2) E' ltnn.
have [Hn0 Hn1] : (2 <= n0)%N /\ (1 <= n1)%N by move: H1 => /andP [? /and3P [? _ /and3P [? ? _]]]; lia.
case: (polar) (dirichlet) H3 => [|] [|] /= H3; rewrite Esh; split=> //; try by case.
all: rewrite /fdim /fn1 /fn2 /fn3 /pdim /pn1 /pn2 /pn3 /bdim /bn1 /bn2 /bn3 /= !addn0; try by move=> E'; exfalso; move: E'; apply: key; move: H3; case/and3P=> _ _; rewrite /= ?andbT => ?; nia.
Qed.

Hypothesis Hfull : polar = false /\ dirichlet = false.

Lemma full_extraction : exists e : fdim (sh S) K0 = rk S K0,
  forall (y : 'cV[R]_(rk S K0)) i, (y^T *m E_ S K0) ord0 i = y (cast_ord e i) ord0.
Proof.
have [f' [Q [ES _ _ _ _]]] := seq_summary Hs Hreg HS; move: ES; case: Hfull => -> ->.
rewrite /DeRhamSequence => ->; have e : fdim (f_shape f') K0 = bdim (f_shape f') (NoBC, NoBC, NoBC) K0 by [].
by exists e => y i; apply: boundary_nobc.
Qed.

(** the two fitted functions are discrete 0-forms, each the best fit in the least-squares sense
    over all of them, and of the best fits the one with the smallest coefficients *)
Theorem C66_map_best_fit : exists y1 y2 : 'cV[R]_(rk S K0),
  [/\ forall x, interpolate_map_from_GVEC g nfp f S x = Some (gvec_stellarator_map (field0 y1 0) (field0 y2 0) nfp x),
      forall z, misfit g nfp (g_X1 g) (field0 y1 0) <= misfit g nfp (g_X1 g) (field0 z 0),
      forall z, misfit g nfp (g_X2 g) (field0 y2 0) <= misfit g nfp (g_X2 g) (field0 z 0),
      forall z, z <> y1 -> misfit g nfp (g_X1 g) (field0 z 0) = misfit g nfp (g_X1 g) (field0 y1 0) ->
        \sum_i (y1 i ord0) ^+ 2 < \sum_i (z i ord0) ^+ 2
    & forall z, z <> y2 -> misfit g nfp (g_X2 g) (field0 z 0) = misfit g nfp (g_X2 g) (field0 y2 0) ->
        \sum_i (y2 i ord0) ^+ 2 < \sum_i (z i ord0) ^+ 2].
Proof.
have [e HE] := full_extraction.
pose c X := map_coefficients g nfp f (fdim (sh S) K0) X.
have Ec (y : 'cV[R]_(rk S K0)) : exists2 z : 'cV_(fdim (sh S) K0), castmx (e, erefl) z = y & forall x, field0 y 0 x = \sum_(i < fdim (sh S) K0) z i ord0 * form_evaluate f x i 0.
  exists (castmx (esym e, erefl) y); first by rewrite castmxKV.
  move=> x; rewrite /discrete_form Hf; apply: eq_bigr => i _; rewrite HE castmxE /=; congr (y _ _ * _).
    by apply: val_inj.
  by apply: val_inj.
have Em X (y : 'cV[R]_(rk S K0)) : exists2 z : 'cV_(fdim (sh S) K0), castmx (e, erefl) z = y & misfit g nfp X (field0 y 0) = sq (map_matrix g nfp f _ *m z - \col_(j < g_n g) raveled g X j).
  have [z Ez H] := Ec y; exists z => //; rewrite -misfit_sq /misfit.
  by apply: eq_bigr => a _; apply: eq_bigr => b _; apply: eq_bigr => d _; rewrite H.
have sqc (z : 'cV[R_realFieldType]_(fdim (sh S) K0)) : \sum_i (castmx (e, erefl) z i ord0) ^+ 2 = sq z.
  exact: (sq_cast e z).
have inj := can_inj (castmxK e (erefl 1%N)).
have best X : (forall z, misfit g nfp X (field0 (castmx (e, erefl) (c X)) 0) <= misfit g nfp X (field0 z 0)) /\
   (forall z, z <> castmx (e, erefl) (c X) -> misfit g nfp X (field0 z 0) = misfit g nfp X (field0 (castmx (e, erefl) (c X)) 0) ->
        \sum_i (castmx (e, erefl) (c X) i ord0) ^+ 2 < \sum_i (z i ord0) ^+ 2).
  have [z0 /inj -> ->] := Em X (castmx (e, erefl) (c X)).
  split=> y; have [z <- ->] := Em X y; first exact: (C66_lstsq _ _ z).1.
  move=> Hne HE'; rewrite !sqc; apply: (C66_lstsq _ _ z).2 => //.
  by move=> E; apply: Hne; rewrite E.
exists (castmx (e, erefl) (c (g_X1 g))), (castmx (e, erefl) (c (g_X2 g))).
have [B1 N1] := best (g_X1 g); have [B2 N2] := best (g_X2 g); split=> //.
move=> x; rewrite /interpolate_map_from_GVEC /interpolated; case: eqP => // e'.
rewrite (eq_irrelevance e' e) /gvec_stellarator_map /discrete_form Hf; by case: x => [[? ?] ?].
Qed.

(** data sampled from discrete 0-forms are reproduced at the data points; the point with GVEC
    toroidal angle zeta is turned by zeta / 2 only (see C37) *)
Theorem C66_map_reproduces_data : forall z1 z2 : 'cV[R]_(rk S K0), nfp <> 0 ->
  (forall a b c, on_grid g a b c -> g_X1 g a b c = field0 z1 0 (data_point g nfp a b c)) ->
  (forall a b c, on_grid g a b c -> g_X2 g a b c = field0 z2 0 (data_point g nfp a b c)) ->
  forall a b c, on_grid g a b c ->
  interpolate_map_from_GVEC g nfp f S (data_point g nfp a b c)
  = Some (rotz (Rdiv (List.nth c (g_zeta g) R0) 2) (g_X1 g a b c, R0, g_X2 g a b c)).
Proof.
move=> z1 z2 Hn H1 H2 a b c Hg; have [y1 [y2 [E B1 B2 _ _]]] := C66_map_best_fit.
rewrite E; congr Some.
have -> := C37_gvec_map_turns_half (field0 y1 0) (field0 y2 0) (List.nth a (g_rho g) R0) (List.nth b (g_theta g) R0) (List.nth c (g_zeta g) R0) Hn.
by rewrite -(misfit0 B1 H1 Hg) -(misfit0 B2 H2 Hg).
Qed.

(** if only the zero 0-form vanishes at all data points, the forms are recovered everywhere *)
Theorem C66_map_recovers_forms : forall z1 z2 : 'cV[R]_(rk S K0),
  (forall y, (forall a b c, on_grid g a b c -> field0 y 0 (data_point g nfp a b c) = R0) -> y = 0) ->
  (forall a b c, on_grid g a b c -> g_X1 g a b c = field0 z1 0 (data_point g nfp a b c)) ->
  (forall a b c, on_grid g a b c -> g_X2 g a b c = field0 z2 0 (data_point g nfp a b c)) ->
  forall x, interpolate_map_from_GVEC g nfp f S x = Some (gvec_stellarator_map (field0 z1 0) (field0 z2 0) nfp x).
Proof.
move=> z1 z2 HU H1 H2 x; have [y1 [y2 [E B1 B2 _ _]]] := C66_map_best_fit.
have key X (y z : 'cV[R]_(rk S K0)) : (forall z, misfit g nfp X (field0 y 0) <= misfit g nfp X (field0 z 0)) ->
    (forall a b c, on_grid g a b c -> X a b c = field0 z 0 (data_point g nfp a b c)) -> y = z.
  move=> B H; apply/eqP; rewrite -subr_eq0; apply/eqP; apply: HU => a b c Hg.
  by rewrite fieldB -(H _ _ _ Hg) (misfit0 B H Hg) subrr.
by rewrite E (key _ _ _ B1 H1) (key _ _ _ B2 H2).
Qed.
End Scalar.

(** only the zero form vanishes at all quadrature points *)
Lemma vanish_quad k (y : 'cV[R_realFieldType]_(rk S k)) : k <> KV ->
  (forall x c, List.In x (seq_points ns ps q types) -> (c < dcomp k)%N -> discrete_form ns ps types y c x = R0) -> y = 0.
Proof.
move=> Hk H; apply/eqP; apply: contraT => Hy.
have : form (mass S k) y y = 0.
  rewrite (C33_sequence Hs Hreg HS) // /phys_l2 big1 // => j _; rewrite big1 ?mul0r // => a _.
  have Hin : List.In (qpt ns ps q types j) (seq_points ns ps q types).
    by rewrite /qpt; apply: List.nth_In; apply/ssrnat.ltP; exact: ltn_ord.
  have E c : (c < dcomp k)%N -> discrete_form ns ps types y c (qpt ns ps q types j) = R0 by move=> Hc; apply: H.
  suff -> : phys ns ps q types DFx y j a = 0 by rewrite mul0r.
  rewrite /phys /pushforward; case: (k) Hk y E a {H Hy} => //= _ y E a; rewrite ?E //.
  - by rewrite /mulv3 big1 // => m _; rewrite E // mulr0.
  - by rewrite /mulv3 big1 ?mul0r // => m _; rewrite E // mulr0.
  - by rewrite mul0r.
have [M0 M1 M2 M3] := C26_sequence Hs Hreg HS.
by case: (k) Hk y Hy {H} => // _ y Hy /= E; [have := M0.2 y Hy|have := M1.2 y Hy|have := M2.2 y Hy|have := M3.2 y Hy]; rewrite /= E ltxx.
Qed.

(** a grid that contains the quadrature points of the sequence determines the forms *)
Theorem C66_quadrature_grid_determines : 
  (forall x, List.In x (seq_points ns ps q types) -> exists a b c, on_grid g a b c /\ data_point g nfp a b c = x) ->
  forall y : 'cV[R]_(rk S K0),
  (forall a b c, on_grid g a b c -> field0 y 0 (data_point g nfp a b c) = R0) -> y = 0.
Proof.
move=> Hg y Hy; apply: vanish_quad => // x c Hx Hc.
have -> : c = 0%N by case: c Hc.
by have [a [b [d [Hd <-]]]] := Hg x Hx; apply: Hy.
Qed.

Section Vector.
Variable f : dform.
Hypothesis Hf : DifferentialForm K2 ns ps types = Some f.
Variable DPhi : point -> mat3 R_realFieldType.
(** push-forward of the discrete 2-form with degrees of freedom y *)
Definition vfield (y : 'cV[R]_(rk S K2)) (x : point) : nat -> R := pushforward K2 (DPhi x) (fun a => field2 y a x).
Notation B_dof tol := (interpolate_B_from_GVEC g f S DPhi nfp tol).1.
Notation residuals tol := (interpolate_B_from_GVEC g f S DPhi nfp tol).2.

Lemma misfit_vfield y : misfit_B g nfp (vfield y) = sq (B_matrix g nfp f DPhi S *m y - B_rhs g nfp).
Proof. by rewrite -misfit_B_sq /vfield /discrete_form Hf. Qed.

(** B_dof is the best fit in the least-squares sense over all discrete 2-forms at the data points
    with 1e-3 < rho < 1 - 1e-3, the best fit with the smallest coefficients, and the second
    value returned is its misfit *)
Theorem C66_B_best_fit : forall (tol : R) (z : 'cV[R]_(rk S K2)),
  [/\ misfit_B g nfp (vfield (B_dof tol)) <= misfit_B g nfp (vfield z),
      z <> B_dof tol -> misfit_B g nfp (vfield z) = misfit_B g nfp (vfield (B_dof tol)) ->
        \sum_i (B_dof tol i ord0) ^+ 2 < \sum_i (z i ord0) ^+ 2
    & residuals tol = misfit_B g nfp (vfield (B_dof tol))].
Proof.
move=> tol z; rewrite !misfit_vfield.
have [A B] := C66_lstsq (B_matrix g nfp f DPhi S : 'M[R_realFieldType]_(_, _)) (B_rhs g nfp) z.
split=> //; apply: eq_bigr => r _; by rewrite -sqrrN !mxE opprB.
Qed.

Lemma misfit_B0 (v : point -> nat -> R) : misfit_B g nfp v = 0 <->
  forall a b c d, on_grid g a b c -> inside (List.nth a (g_rho g) R0) -> (d < 3)%N -> v (data_point g nfp a b c) d = g_B g a b c d.
Proof.
have pos (a b c : nat) : 0 <= (if Rltb (Rdiv 1 1000) (List.nth a (g_rho g) R0) && Rltb (List.nth a (g_rho g) R0) (Rminus 1 (Rdiv 1 1000))
    then \sum_(d < 3) (v (data_point g nfp a b c) d - g_B g a b c d) ^+ 2 else 0 : R_realFieldType).
  by case: ifP => // _; apply: sumr_ge0 => d _; apply: sqr_ge0.
split.
- move/eqP; rewrite /misfit_B psumr_eq0; last by move=> i _; do 2 (apply: sumr_ge0 => ? _); apply: pos.
  move=> H a b c d [Ha Hb Hc] [I1 I2] Hd; move: H.
  move/allP/(_ (Ordinal Ha) (mem_index_enum _)); rewrite /= psumr_eq0; last by move=> i _; apply: sumr_ge0 => ? _; apply: pos.
  move/allP/(_ (Ordinal Hb) (mem_index_enum _)); rewrite /= psumr_eq0; last by move=> i _; apply: pos.
  move/allP/(_ (Ordinal Hc) (mem_index_enum _)); rewrite /=.
  have -> : Rltb (Rdiv 1 1000) (List.nth a (g_rho g) R0) && Rltb (List.nth a (g_rho g) R0) (Rminus 1 (Rdiv 1 1000)).
    by rewrite /Rltb; case: Rlt_dec => //; case: Rlt_dec.
  rewrite psumr_eq0; last by move=> ? _; apply: sqr_ge0.
  by move/allP/(_ (Ordinal Hd) (mem_index_enum _)); rewrite /= sqrf_eq0 subr_eq0 => /eqP.
- move=> H; rewrite /misfit_B big1 // => a _; rewrite big1 // => b _; rewrite big1 // => c _.
  case: ifP => // /andP []; rewrite /Rltb; case: Rlt_dec => // I1 _; case: Rlt_dec => // I2 _.
  rewrite big1 // => d _; rewrite H ?subrr ?expr0n //; by split; apply: ltn_ord.
Qed.
Lemma misfit_B_ge0 (v : point -> nat -> R) : 0 <= misfit_B g nfp v.
Proof. by do 3 (apply: sumr_ge0 => ? _); case: ifP => // _; apply: sumr_ge0 => d _; apply: sqr_ge0. Qed.

(** a discrete magnetic field is reproduced at the points used, with zero residual *)
Theorem C66_B_reproduces_data : forall (tol : R) (z : 'cV[R]_(rk S K2)),
  (forall a b c d, on_grid g a b c -> inside (List.nth a (g_rho g) R0) -> (d < 3)%N ->
     g_B g a b c d = vfield z (data_point g nfp a b c) d) ->
  residuals tol = R0 /\
  forall a b c d, on_grid g a b c -> inside (List.nth a (g_rho g) R0) -> (d < 3)%N ->
    vfield (B_dof tol) (data_point g nfp a b c) d = g_B g a b c d.
Proof.
move=> tol z H; have [A _ E] := C66_B_best_fit tol z.
have Ez : misfit_B g nfp (vfield z) = 0 by apply/misfit_B0 => a b c d Hg Hi Hd; rewrite H.
have E0 : misfit_B g nfp (vfield (B_dof tol)) = 0.
  by apply/eqP; rewrite eq_le misfit_B_ge0 andbT -Ez.
by split; [rewrite E | apply/misfit_B0].
Qed.

(** and recovered exactly if the points used contain the quadrature points of the sequence, the
    Jacobian of Phi being invertible there *)
Theorem C66_B_recovers_form : forall (tol : R) (z : 'cV[R]_(rk S K2)),
  (forall x, List.In x (seq_points ns ps q types) -> det33 (DPhi x) <> R0 /\
     exists a b c, [/\ on_grid g a b c, inside (List.nth a (g_rho g) R0) & data_point g nfp a b c = x]) ->
  (forall a b c d, on_grid g a b c -> inside (List.nth a (g_rho g) R0) -> (d < 3)%N ->
     g_B g a b c d = vfield z (data_point g nfp a b c) d) ->
  B_dof tol = z.
Proof.
move=> tol z HQ H; have [_ E] := C66_B_reproduces_data tol H.
apply/eqP; rewrite -subr_eq0; apply/eqP; apply: vanish_quad => // x c Hx Hc.
have [Hdet [a [b [e [Hg Hi Ex]]]]] := HQ x Hx.
rewrite fieldB; move: c Hc; apply: (mulv3_inj Hdet (v := fun c => field2 (B_dof tol) c x - field2 z c x)) => d Hd.
have := E a b e d Hg Hi Hd; rewrite (H _ _ _ _ Hg Hi Hd) Ex /vfield /pushforward => E'.
have {}E' : mulv3 (DPhi x) (fun a => field2 (B_dof tol) a x) d = mulv3 (DPhi x) (fun a => field2 z a x) d.
  by move: E' => /(congr1 (fun w => w * det33 (DPhi x))); rewrite !mulfVK //; apply/eqP.
rewrite /mulv3; under eq_bigr => m _ do rewrite mulrBr.
by rewrite sumrB; move: E'; rewrite /mulv3 => ->; rewrite subrr.
Qed.

(** exclude_axis_tol, documented as the tolerance for excluding points near the axis and the
    boundary, has no effect: data points that are all nearer than tol to the axis or the boundary
    are used nevertheless *)
Theorem C66_axis_tolerance_refuted : forall (tol : R) (z : 'cV[R]_(rk S K2)),
  (forall a, (a < length (g_rho g))%N -> ~ (Rlt tol (List.nth a (g_rho g) R0) /\ Rlt (List.nth a (g_rho g) R0) (Rminus 1 tol))) ->
  (forall a b c d, on_grid g a b c -> inside (List.nth a (g_rho g) R0) -> (d < 3)%N ->
     g_B g a b c d = vfield z (data_point g nfp a b c) d) ->
  (exists a b c d, [/\ on_grid g a b c, inside (List.nth a (g_rho g) R0), (d < 3)%N & vfield z (data_point g nfp a b c) d <> R0]) ->
  B_dof tol <> 0 /\ forall tol', B_dof tol' = B_dof tol.
Proof.
move=> tol z _ H [a [b [c [d [Hg Hi Hd Hne]]]]]; split=> // E0.
have [_ E] := C66_B_reproduces_data tol H; apply: Hne.
rewrite -(H _ _ _ _ Hg Hi Hd) -(E _ _ _ _ Hg Hi Hd) E0 /vfield /pushforward /mulv3.
rewrite big1 ?mul0r // => m _; have := fieldB (z : 'cV[R_realFieldType]_(rk S K2)) z m (data_point g nfp a b c).
by rewrite !subrr => ->; rewrite mulr0.
Qed.
End Vector.
End Gvec.
Print Assumptions C66_map_needs_full_space.
Print Assumptions C66_map_best_fit.
Print Assumptions C66_map_reproduces_data.
Print Assumptions C66_map_recovers_forms.
Print Assumptions C66_quadrature_grid_determines.
Print Assumptions C66_B_best_fit.
Print Assumptions C66_B_reproduces_data.
Print Assumptions C66_B_recovers_form.
Print Assumptions C66_axis_tolerance_refuted.

(** data sets on the Gauss grid, sampled from any discrete forms, meet the hypotheses *)
Definition ex_ns : triple := (5, 5, 1)%N.
Definition ex_ps : triple := (3, 3, 0)%N.
Definition ex_types : stype * stype * stype := (Clamped, Periodic, Constant).
Definition ex_id : point -> mat3 R_realFieldType := fun _ => id33.
Example C66_nonvacuous :
  [/\ supported ex_ns ex_ps 4 ex_types false false, regular_map ex_id (seq_points ex_ns ex_ps 4 ex_types)
    & exists2 S, new_sequence ex_ns ex_ps 4 ex_types ex_id false false = Some S &
  (exists z : 'cV[R]_(rk S K2), z <> 0) /\
  forall (z1 z2 : 'cV[R]_(rk S K0)) (z : 'cV[R]_(rk S K2)), z <> 0 -> exists g nfp,
  [/\ nfp <> R0,
      forall x, List.In x (seq_points ex_ns ex_ps 4 ex_types) -> det33 (ex_id x) <> R0 /\
        exists a b c, [/\ on_grid g a b c, inside (List.nth a (g_rho g) R0) & data_point g nfp a b c = x],
      forall a b c, g_X1 g a b c = discrete_form ex_ns ex_ps ex_types z1 0 (data_point g nfp a b c) /\
                    g_X2 g a b c = discrete_form ex_ns ex_ps ex_types z2 0 (data_point g nfp a b c),
      forall a b c d, g_B g a b c d = vfield ex_ns ex_ps ex_types ex_id z (data_point g nfp a b c) d
    & exists a b c d, [/\ on_grid g a b c, inside (List.nth a (g_rho g) R0), (d < 3)%N
        & vfield ex_ns ex_ps ex_types ex_id z (data_point g nfp a b c) d <> R0]]].
Proof.
have Hs : supported ex_ns ex_ps 4 ex_types false false.
  split=> //; split=> //; last by right.
  by split; rewrite /=; lra.
have [_ _ Hid _ _] := SequenceR_nonvacuous.
have Hreg : regular_map ex_id (seq_points ex_ns ex_ps 4 ex_types) by apply: Hid.
split=> //; have [S HS] := C26_constructor_total Hs Hreg; exists S => //; split.
  exists (const_mx R1) => /colP E.
  have [f' [Q [ES _ [_ Esh] _ _]]] := seq_summary Hs Hreg HS.
  have H0 : (0 < rk S K2)%N by rewrite ES /DeRhamSequence Esh.
  by have := E (Ordinal H0); rewrite !mxE; exact: R1_neq_R0.
move=> z1 z2 z Hz.
have [f [Q [_ _ [Hf _] [HQ _] _]]] := seq_summary Hs Hreg HS.
have Hn : forall x, List.In x (x_x Q) -> inside x.
  move: HQ; have [->] : Some f = DifferentialForm K0 ex_ns ex_ps ex_types by rewrite -Hf.
  case=> <- x; cbv -[Rplus Rmult Rdiv Rminus Rinv INR IZR pow Rlt R0 R1 List.In]; rewrite /inside.
  by do 8 (case=> [<-|]; first by (split; simpl; lra)); case.
have PI0 : PI <> R0 by apply: PI_neq0.
pose P a b c : point := (List.nth a (x_x Q) R0, List.nth b (x_y Q) R0, List.nth c (x_z Q) R0).
pose g := GvecEq (x_x Q) (List.map (Rmult (Rmult 2 PI)) (x_y Q)) (List.map (Rmult (Rmult 2 PI)) (x_z Q))
  (fun a b c => discrete_form ex_ns ex_ps ex_types z1 0 (P a b c)) (fun a b c => discrete_form ex_ns ex_ps ex_types z2 0 (P a b c))
  (fun a b c => vfield ex_ns ex_ps ex_types ex_id z (P a b c)).
have EP a b c : data_point g R1 a b c = P a b c.
  have aux l i : Rdiv (List.nth i (List.map (Rmult (Rmult 2 PI)) l) R0) (Rmult 2 PI) = List.nth i l R0.
    have <- : Rmult (Rmult 2 PI) (List.nth i l R0) = List.nth i (List.map (Rmult (Rmult 2 PI)) l) R0.
      by rewrite -(List.map_nth (Rmult (Rmult 2 PI))); congr (List.nth _ _ _); exact: Rmult_0_r.
    by field.
  by rewrite /data_point /P /= !aux Rmult_1_r.
have Epts : seq_points ex_ns ex_ps 4 ex_types = q_x Q by rewrite /seq_points Hf HQ.
have Hin x : List.In x (q_x Q) -> exists a b c, [/\ on_grid g a b c, inside (List.nth a (g_rho g) R0) & data_point g R1 a b c = x].
  move=> Hx; have [j [Hj Ej]] := List.In_nth _ _ (R0, R0, R0) Hx.
  have Hj' : (j < length (q_x Q))%N by apply/ssrnat.ltP.
  have [a [b [c [Ha Hb Hc _ E]]]] := Q_point HQ Hj'.
  exists a, b, c; split; first by split; rewrite /= ?List.map_length.
  - by apply: Hn; apply: List.nth_In; apply/ssrnat.ltP.
  - by rewrite EP -Ej; symmetry; exact: E.
have Hdet x : det33 (ex_id x) = R1 by rewrite /det33 /ex_id /id33 /= !mulr0 !mulr1 !addr0 !subr0.
exists g, R1; split.
- exact: R1_neq_R0.
- by rewrite Epts => x Hx; split; [rewrite Hdet; exact: R1_neq_R0 | exact: Hin].
- by move=> a b c; rewrite EP.
- by move=> a b c d; rewrite EP.
- apply: Classical_Prop.NNPP => Hno; apply: Hz.
  apply: (vanish_quad Hs Hreg HS) => // x c; rewrite Epts => Hx; move: c.
  apply: (@mulv3_inj (ex_id x)); first by rewrite Hdet; exact: R1_neq_R0.
  move=> d Hd; have [a [b [c [Hg Hi Ex]]]] := Hin x Hx.
  have : vfield ex_ns ex_ps ex_types ex_id z (data_point g R1 a b c) d = R0.
    by apply: Classical_Prop.NNPP => Hne; apply: Hno; exists a, b, c, d.
  by rewrite Ex /vfield /pushforward Hdet; rewrite -[R1]/(1 : R_realFieldType) invr1 mulr1.
Qed.
