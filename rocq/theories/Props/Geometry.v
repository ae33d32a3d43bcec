(** Property theorems on the 3x3 geometry, push-forwards, L2 projections and
    cross-product projections (C29, C30, C32-C34). *)
From Coq Require Import Ring Field.
From mathcomp Require Import all_ssreflect all_algebra.
From Verif Require Import Model.Forms Model.DeRham Model.Geometry Spec.GeomSpec Spec.SeqSpec
  Proof.MCRing Proof.GeometryProofs Proof.ProjectionProofs Proof.MassSPD.
Set Implicit Arguments.
Unset Strict Implicit.
Unset Printing Implicit Defensive.
Import Order.TTheory GRing.Theory Num.Theory.
Local Open Scope ring_scope.

Section Props.
Variable F : realFieldType.
Add Field Ffpr : (@mc_fth F).

(** ** C32 inv33 *)
Theorem C32_inv33_inverts (A : mat3 F) : (10%:R ^+ 10)^-1 <= `|\det (mx33 A)| ->
  mx33 (inv33 A) *m mx33 A = 1%:M /\ mx33 A *m mx33 (inv33 A) = 1%:M.
Proof.
rewrite -det33E => H; split; last exact: inv33_mulmx.
by rewrite inv33_invmx // mulVmx // unit33.
Qed.
Theorem C32_inv33_below_threshold (A : mat3 F) : `|\det (mx33 A)| < (10%:R ^+ 10)^-1 -> mx33 (inv33 A) = 0.
Proof. by rewrite -det33E => H; apply/matrixP => k l; rewrite !mxE inv33E H. Qed.
Theorem C32_det33 (A : mat3 F) : det33 A = \det (mx33 A).
Proof. exact: det33E. Qed.

(** ** C33 push-forward and pull-back *)
Theorem C33_mutually_inverse (k : deg) (DF : mat3 F) (v : vec3 F) (a : nat) :
  (10%:R ^+ 10)^-1 <= `|\det (mx33 DF)| -> (a < dcomp k)%N ->
  pullback k DF (pushforward k DF v) a = v a /\ pushforward k DF (pullback k DF v) a = v a.
Proof. by rewrite -det33E; apply: pull_push. Qed.

Section Seq.
Variables (S : drseq F) (DF : nat -> mat3 F).
Hypothesis HG : geometry_of S DF.
Hypothesis HR : regular S DF.

(** the mass matrices are the Gram matrices of the physical (pushed forward) fields *)
Theorem C33_mass_is_physical_l2 (k : deg) (x y : 'cV[F]_(rk S k)) : k <> KV ->
  form (mass S k) x y = l2_product S DF (dcomp k) (physical DF x) (physical DF y).
Proof. exact: mass_l2. Qed.

(** ** C29 L2 projections.
    The projector integrates against the push-forwards of the basis functions ... *)
Theorem C29_projector_tests (k : deg) f (p x : 'cV[F]_(rk S k)) : Projector S DF k f = Some p ->
  dotv x p = l2_product S DF (dcomp k) (physical DF x) f.
Proof. exact: projector_l2. Qed.
(** ... so projecting the discrete field with DoFs a and solving with the mass matrix
    returns a ... *)
Theorem C29_reproduces (k : deg) (a : 'cV[F]_(rk S k)) : k <> KV -> mass S k \in unitmx ->
  exists2 p, Projector S DF k (physical DF a) = Some p & solve (mass S k) p = a.
Proof.
move=> Hk HM.
have [p Hp] : exists p, Projector S DF k (physical DF a) = Some p by case: k a Hk {HM} => // a _; eexists.
by exists p => //; rewrite (reproduce HG HR HM Hp) /solve mulKmx.
Qed.
(** ... and for every function the result is the unique best approximation *)
Theorem C29_best_approximation (k : deg) f (p : 'cV[F]_(rk S k)) : oriented S DF -> mass S k \in unitmx ->
  Projector S DF k f = Some p ->
  let dist2 c := l2_product S DF (dcomp k) (fun j a => f j a - physical DF c j a) (fun j a => f j a - physical DF c j a) in
  (forall c, dist2 (solve (mass S k) p) <= dist2 c) /\
  (forall c, dist2 c = dist2 (solve (mass S k) p) -> c = solve (mass S k) p).
Proof.
move=> HO HM Hp d.
have E c : d c = d (solve (mass S k) p) + form (mass S k) (solve (mass S k) p - c) (solve (mass S k) p - c).
  exact (best_pyth HG HR Hp HM c).
have Hk := projector_notKV Hp.
have P0 z : 0 <= form (mass S k) z z by rewrite (mass_l2 HG HR) //; apply: l2_ge0.
split=> c; first by rewrite [d c]E ler_addl.
rewrite [d c]E -{2}[d _]addr0 => /addrI /eqP H0.
apply/eqP; rewrite eq_sym -subr_eq0; apply: contraTT H0 => Hz; rewrite gt_eqF //.
move: (_ - c) Hz => z Hz.
have Hpos := geometry_of_pos HG HR HO.
case: k Hk p HM Hp @d E P0 c z Hz => // _ p HM Hp d E P0 c z Hz.
- by apply: (unit_pd_iff (nq := n_q S) (d := 1) (W := W0 S)) => // j y Hj; apply: W0_pd.
- by apply: (unit_pd_iff (nq := n_q S) (d := 3) (W := W1 S)) => // j y Hj; apply: W1_pd.
- by apply: (unit_pd_iff (nq := n_q S) (d := 3) (W := W2 S)) => // j y Hj; apply: W2_pd.
- by apply: (unit_pd_iff (nq := n_q S) (d := 1) (W := W3 S)) => // j y Hj; apply: W3_pd.
Qed.

(** ** C30 cross-product projections: test against the physical cross product *)
Theorem C30_tests_cross_product n m k (w : 'cV[F]_(rk S m)) (u : 'cV[F]_(rk S k)) (p x : 'cV[F]_(rk S n)) :
  CrossProductProjection n w u = Some p ->
  dotv x p = l2_product S DF 3 (physical DF x) (fun j => cross (physical DF w j) (physical DF u j)).
Proof. exact: cpp_l2. Qed.
End Seq.

Theorem C30_bilinear (S : drseq F) n m k (a : F) (w w' : 'cV[F]_(rk S m)) (u u' : 'cV[F]_(rk S k))
    (p q r : 'cV[F]_(rk S n)) :
  CrossProductProjection n w u = Some p -> CrossProductProjection n w' u = Some q -> CrossProductProjection n w u' = Some r ->
  CrossProductProjection n (a *: w + w') u = Some (a *: p + q) /\
  CrossProductProjection n w (a *: u + u') = Some (a *: p + r).
Proof. by move=> H1 H2 H3; split; [apply: cpp_linl | apply: cpp_linr]. Qed.
Theorem C30_antisymmetric (S : drseq F) n m (w u : 'cV[F]_(rk S m)) (p : 'cV[F]_(rk S n)) :
  CrossProductProjection n w u = Some p -> CrossProductProjection n u w = Some (- p).
Proof. exact: cpp_anti. Qed.
(** a result is returned exactly for degrees 1 and 2, except (n,m,k) = (1,1,2); every
    other combination raises *)
Theorem C30_supported (S : drseq F) n m k (w : 'cV[F]_(rk S m)) (u : 'cV[F]_(rk S k)) :
  (exists p, CrossProductProjection n w u = Some p) <->
  [/\ n = K1 \/ n = K2, m = K1 \/ m = K2, k = K1 \/ k = K2 & ~ [/\ n = K1, m = K1 & k = K2]].
Proof.
split=> [[p]|[]].
- case: n p => // p; case: m w => // w; case: k u => // u _;
  (split; [tauto | tauto | tauto | by move=> [E1 E2 E3]; congruence]).
- move=> [En|En] [Em|Em] [Ek|Ek] H; move: w u; rewrite En Em Ek => w u; try by eexists.
  by case: H; rewrite En Em Ek.
Qed.

(** ** C34 the inverse metric silently vanishes for 0 < |J| < 1e-5, and with it M1 *)
Theorem C34_inverse_metric_vanishes (DF : mat3 F) : `|\det (mx33 DF)| < (10%:R ^+ 5)^-1 ->
  mx33 (inv33 (metric DF)) = 0.
Proof.
rewrite -det33E => H; apply: C32_inv33_below_threshold; rewrite -det33E det_metric normrX.
have -> : 10%:R ^+ 10 = (10%:R ^+ 5) ^+ 2 :> F by rewrite -exprM.
by rewrite -exprVn ltr_expn2r ?nnegrE ?normr_ge0 // invr_ge0 exprn_ge0 ?ler0n.
Qed.
Theorem C34_M1_vanishes (S : drseq F) (DF : nat -> mat3 F) : geometry_of S DF ->
  (forall j, (j < n_q S)%N -> `|\det (mx33 (DF j))| < (10%:R ^+ 5)^-1) -> M1 S = 0.
Proof.
move=> HG H; rewrite /M1 (_ : assemble _ _ _ _ _ _ _ = 0) ?mulmx0 ?mul0mx //.
apply/matrixP => a b; rewrite !mxE; apply: big1 => j _; apply: big1 => k _; apply: big1 => m _.
have [_ EGi _] := HG _ (ltn_ord j).
have /matrixP/(_ k m) := C34_inverse_metric_vanishes (H _ (ltn_ord j)); rewrite !mxE => E.
by rewrite /W1 EGi E mul0r mulr0 mul0r.
Qed.
(** a map meeting the hypothesis: the scaling by 1/100, with positive Jacobian 1e-6,
    whose exact inverse metric is 10^4 I *)
Definition scaling : mat3 F := fun k l => if k == l then (100%:R)^-1 else 0.
Example C34_nonvacuous : 0 < det33 scaling /\ `|\det (mx33 scaling)| < (10%:R ^+ 5)^-1.
Proof.
have E : det33 scaling = (100%:R ^+ 3)^-1.
  by rewrite /det33 /scaling /= !mulr0 !mul0r !addr0 !subr0 -exprVn !exprS expr0 mulr1 mulrA.
rewrite -det33E E; split; first by rewrite invr_gt0 exprn_gt0 // ltr0n.
rewrite ger0_norm ?invr_ge0 ?exprn_ge0 ?ler0n // ltf_pinv ?posrE ?exprn_gt0 ?ltr0n //.
by rewrite -!natrX ltr_nat.
Qed.

(** the hypotheses of C29, C30 and C33 are met by the identity map *)
Definition ident : mat3 F := fun k l => (k == l)%:R.
Example C33_nonvacuous (sp : shape) (t : tables F) (xi : nat -> nat -> nat -> F) (b c : bool) :
  let S := DeRhamSequence sp t (fun _ => metric ident) (fun _ => inv33 (metric ident))
             (fun _ => det33 ident) (fun _ => 1) xi b c in
  [/\ geometry_of S (fun _ => ident), regular S (fun _ => ident) & oriented S (fun _ => ident)].
Proof.
have E : det33 ident = 1 by rewrite /det33 /ident /= !mulr1n !mulr0n !mulr0 !mul0r !addr0 !subr0 !mulr1.
move=> S.
have [HG HGi HJ Hw] : [/\ G_jkl S = (fun _ => metric ident), G_inv_jkl S = (fun _ => inv33 (metric ident)),
   J_j S = (fun _ => det33 ident) & w_j S = (fun _ => 1)] by rewrite /S /DeRhamSequence; case: (b).
split=> [j _|j _|j _]; first by rewrite HG HGi HJ.
- by rewrite E normr1 invf_le1 ?exprn_gt0 ?ltr0n // -natrX (ler_nat _ 1).
- by rewrite E Hw; split; apply: ltr01.
Qed.
End Props.
Print Assumptions C29_projector_tests.
Print Assumptions C29_reproduces.
Print Assumptions C29_best_approximation.
Print Assumptions C30_tests_cross_product.
Print Assumptions C30_bilinear.
Print Assumptions C30_antisymmetric.
Print Assumptions C30_supported.
Print Assumptions C32_inv33_inverts.
Print Assumptions C32_inv33_below_threshold.
Print Assumptions C32_det33.
Print Assumptions C33_mutually_inverse.
Print Assumptions C33_mass_is_physical_l2.
Print Assumptions C34_inverse_metric_vanishes.
Print Assumptions C34_M1_vanishes.
