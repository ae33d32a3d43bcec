(** C65: force, pressure, energy variations and the Hessian of MRXDiagnostics / MRXHessian. *)
From Coq Require Import Reals Lra.
From mathcomp Require Import all_ssreflect all_algebra zify.
From Verif Require Import Model.RBase Model.Spline Model.Quad Model.Forms Model.DeRham Model.FormEval Model.Geometry Model.SeqR Model.Relaxation Model.Pressure.
From Verif Require Import Spec.SeqSpec Spec.GeomSpec Spec.SeqRSpec Spec.RelaxSpec Spec.HelicitySpec Spec.ScaleSpec Spec.CalculusSpec.
From Verif Require Import Proof.RField Proof.MCRing Proof.Complex Proof.FormEvalProofs Proof.GeometryProofs Proof.ProjectionProofs Proof.SeqFacts Proof.SequenceAlg Proof.DeRhamAlg Proof.RelaxAlg Proof.SeqCalculus
  Proof.SpectrumSeq Proof.UnitField Proof.ForceAlg Proof.ScaleProofs Proof.HelicitySeq Props.DeRham Props.Geometry Props.SequenceR Props.Relaxation Props.Topology Props.Spectrum Props.Poisson.
Set Implicit Arguments.
Unset Strict Implicit.
Unset Printing Implicit Defensive.
Import Order.TTheory GRing.Theory Num.Theory.
Local Open Scope ring_scope.

Section Alg.
Variable F : realFieldType.
Add Field FP : (@mc_fth F).
Lemma form_sub2 n (A : 'M[F]_n) (p r : 'cV_n) : A^T = A ->
  form A r r = form A p p - 2%:R * form A (p - r) p + form A (p - r) (p - r).
Proof.
move=> HT; rewrite !formDl !formDr !formNl !formNr (formC r p HT).
by mc_norm; ring.
Qed.
Lemma form_subl n m (A : 'M[F]_(n, m)) x x' y : form A (x - x') y = form A x y - form A x' y.
Proof. by rewrite formDl formNl. Qed.
Lemma near_final (ff fp gp x y z k : F) : 0 <= x -> - k <= y - z ->
  ff - 2%:R * fp + gp <= ff - 2%:R * (fp - y) + (gp - 2%:R * z + x) + 2%:R * k.
Proof.
move=> Hx Hk; rewrite -subr_ge0.
have -> : ff - 2%:R * (fp - y) + (gp - 2%:R * z + x) + 2%:R * k - (ff - 2%:R * fp + gp) = 2%:R * (y - z - - k) + x.
  by mc_norm; ring.
by apply: addr_ge0 => //; apply: mulr_ge0; rewrite ?ler0n // subr_ge0.
Qed.
Lemma half_dbl (x : F) : 2%:R^-1 * (x + x) = x.
Proof. by rewrite -[x in x + x]mul1r -mulrDl mulrA mulVf ?mul1r // pnatr_eq0. Qed.
Lemma lam_scalar (x y d : F) : d != 0 -> x / y * d = (x * d^-1) / (y * d^-1 * d^-1).
Proof.
move=> Hd; have [->|Hy] := eqVneq y 0; first by rewrite !mul0r !invr0 !mulr0 mul0r.
by move/eqP: Hd => H1; move/eqP: Hy => H2; mc_norm; field; repeat split.
Qed.
Lemma AAb (A : mat3 F) (b : vec3 F) :
  \sum_(l < 3) (\sum_(a < 3) mulv3 A b a * A a l) * b l = dot3 (mulv3 A b) (mulv3 A b).
Proof. by rewrite /dot3 /mulv3 !sum3O /=; mc_norm; ring. Qed.
(** parallel vectors *)
Lemma par3 (w b : vec3 F) : (forall a, (a < 3)%N -> cross w b a = 0) -> forall a, (a < 3)%N -> w a * dot3 b b = dot3 w b * b a.
Proof.
move=> H; have := H 0%N isT; have := H 1%N isT; have := H 2%N isT; rewrite /cross /arr3 /= /dot3.
move=> /eqP; rewrite subr_eq0 => /eqP E2 /eqP; rewrite subr_eq0 => /eqP E1 /eqP; rewrite subr_eq0 => /eqP E0.
have R0 : w 0%N * (b 0%N * b 0%N + b 1%N * b 1%N + b 2%N * b 2%N) - (w 0%N * b 0%N + w 1%N * b 1%N + w 2%N * b 2%N) * b 0%N
   = (w 0%N * b 1%N - w 1%N * b 0%N) * b 1%N - (w 2%N * b 0%N - w 0%N * b 2%N) * b 2%N by mc_norm; ring.
have R1 : w 1%N * (b 0%N * b 0%N + b 1%N * b 1%N + b 2%N * b 2%N) - (w 0%N * b 0%N + w 1%N * b 1%N + w 2%N * b 2%N) * b 1%N
   = (w 1%N * b 2%N - w 2%N * b 1%N) * b 2%N - (w 0%N * b 1%N - w 1%N * b 0%N) * b 0%N by mc_norm; ring.
have R2 : w 2%N * (b 0%N * b 0%N + b 1%N * b 1%N + b 2%N * b 2%N) - (w 0%N * b 0%N + w 1%N * b 1%N + w 2%N * b 2%N) * b 2%N
   = (w 2%N * b 0%N - w 0%N * b 2%N) * b 0%N - (w 1%N * b 2%N - w 2%N * b 1%N) * b 1%N by mc_norm; ring.
by apply: lt3P; apply/eqP; rewrite -subr_eq0 ?R0 ?R1 ?R2 ?E0 ?E1 ?E2 !subrr !mul0r subrr.
Qed.
Lemma dot_pos (b : vec3 F) : (exists2 a, (a < 3)%N & b a != 0) -> dot3 b b != 0.
Proof.
move=> [a Ha Hb]; rewrite /dot3 -!expr2; apply: lt0r_neq0.
have X (x : F) : x != 0 -> 0 < x ^+ 2 by move=> Hx; rewrite exprn_even_gt0.
case: a Ha Hb => [|[|[|//]]] _ Hb.
- by rewrite -addrA ltr_paddr ?addr_ge0 ?sqr_ge0 // X.
- by rewrite addrAC ltr_paddl ?addr_ge0 ?sqr_ge0 // X.
- by rewrite ltr_paddl ?addr_ge0 ?sqr_ge0 // X.
Qed.
End Alg.

Section Seq.
Variables (ns ps : triple) (q : nat) (types : stype * stype * stype) (DFx : point -> mat3 R_realFieldType)
  (polar dirichlet : bool).
Hypothesis Hs : supported ns ps q types polar dirichlet.
Hypothesis Hreg : regular_map DFx (seq_points ns ps q types).
Variable S : drseq R_realFieldType.
Hypothesis HS : new_sequence ns ps q types DFx polar dirichlet = Some S.
Notation qpt := (qpt ns ps q types).
(** integral over the physical domain, by quadrature; value of a discrete form at quadrature point j *)
Notation ip := (phys_l2 ns ps q types DFx).
Notation val := (phys ns ps q types DFx).
Notation G := (strong_grad S). Notation D := (strong_div S). Notation C := (strong_curl S).
Notation vec0 := 'cV[R_realFieldType]_(rk S K0).
Notation vec1 := 'cV[R_realFieldType]_(rk S K1).
Notation vec2 := 'cV[R_realFieldType]_(rk S K2).
Notation Kd := (pairing_defect ps : R_realFieldType).
Let OK := seq_ok Hs Hreg HS.
Let H0 := seq_H0 Hs Hreg HS.

(** *** What the diagnostics are about, in terms of the physical fields *)
(** the discrete 1-form J is the weak curl of the 2-form B *)
Definition is_current (B : vec2) (J : vec1) : Prop := forall v : vec1, ip 3 (val J) (val v) = ip 3 (val B) (val (C *m v)).
(** the discrete k-form f is the L2 projection of the (pointwise given) vector field g *)
Definition is_projection (k : deg) (g : nat -> vec3 R_realFieldType) (f : 'cV_(rk S k)) : Prop :=
  forall v : 'cV_(rk S k), ip 3 (val f) (val v) = ip 3 g (val v).
(** the 2-form f is the discrete Lorentz force J x B *)
Definition is_force (B f : vec2) : Prop := exists J H : vec1,
  [/\ is_current B J, is_projection (val B) H & is_projection (fun j => cross (val J j) (val H j)) f].
(** the 2-form b is the discrete curl (u x B), the 1-form e is u x J *)
Definition is_induced (B u b : vec2) : Prop := exists H e : vec1,
  [/\ is_projection (val B) H, is_projection (fun j => cross (val u j) (val H j)) e & b = C *m e].
Definition is_uxJ (B u : vec2) (e : vec1) : Prop := exists J : vec1,
  is_current B J /\ is_projection (fun j => cross (val u j) (val J j)) e.

Lemma ip0 (x y : vec0) : form (M0 S) x y = ip 1 (val x) (val y).
Proof. by rewrite (@C33_sequence _ _ _ _ _ _ _ Hs Hreg S HS K0). Qed.
Lemma ip1 (x y : vec1) : form (M1 S) x y = ip 3 (val x) (val y).
Proof. by rewrite (@C33_sequence _ _ _ _ _ _ _ Hs Hreg S HS K1). Qed.
Lemma ip2 (x y : vec2) : form (M2 S) x y = ip 3 (val x) (val y).
Proof. by rewrite (@C33_sequence _ _ _ _ _ _ _ Hs Hreg S HS K2). Qed.
Lemma reg_j j : (j < n_q S)%N -> (10%:R ^+ 10)^-1 <= `|det33 (DFx (qpt j))| /\ 0 < det33 (DFx (qpt j)).
Proof.
move=> Hj; have [_ _ [_ HR HO _]] := seq_summary' Hs Hreg HS.
by split; [apply: reg_inv; exact: HR | have [] := HO _ Hj].
Qed.
(** the metric-free pairings are integrals of products of physical fields *)
Lemma ip12 (x : vec1) (y : vec2) : form (M12 S) x y = ip 3 (val x) (val y).
Proof.
have [En Ew [_ _ HO _]] := seq_summary' Hs Hreg HS.
have [-> _] := C31_pairings S; rewrite /phys_l2 -En; apply: eq_bigr => j _.
have [HA Hd] := reg_j (ltn_ord j).
rewrite Ew [qwt _ _ _ _ _ * _]mulrC mulrA; congr (_ * _).
transitivity (dot3 (form_value x j) (form_value y j)); first by rewrite -sum3d.
transitivity (dot3 (physical (fun j => DFx (qpt j)) x j) (physical (fun j => DFx (qpt j)) y j) * det33 (DFx (qpt j))); last first.
  rewrite -sum3d; congr (_ * _); apply: eq_bigr => a _; rewrite !(phys_value Hs Hreg HS) //.
rewrite /physical push1E push2E dot_sc BTA_dot // mulfVK //; exact: lt0r_neq0.
Qed.
Lemma ip03 (x : vec0) (y : 'cV_(rk S K3)) : form (M03 S) x y = ip 1 (val x) (val y).
Proof.
have [En Ew [_ _ HO _]] := seq_summary' Hs Hreg HS.
have [_ ->] := C31_pairings S; rewrite /phys_l2 -En; apply: eq_bigr => j _.
have [HA Hd] := reg_j (ltn_ord j).
rewrite Ew [qwt _ _ _ _ _ * _]mulrC mulrA; congr (_ * _); rewrite big_ord1 -!(phys_value Hs Hreg HS) //.
by rewrite /physical /= -mulrA mulfVK //; apply: lt0r_neq0.
Qed.
Lemma ip_C d u v : ip d u v = ip d v u.
Proof. by apply: eq_bigr => j _; congr (_ * _); apply: eq_bigr => a _; rewrite mulrC. Qed.

(** the model's quantities are these *)
Lemma current_iff (B : vec2) (J : vec1) : is_current B J <-> J = weak_curl S *m B.
Proof.
split=> [H|->] ; last by move=> v; rewrite -ip1 -ip2 (formC _ _ (proj1 (ok_M1 OK))) (ok_wcurl OK) (formC _ _ (proj1 (ok_M2 OK))).
apply/eqP; rewrite -subr_eq0; apply/eqP; apply: (spd_nondeg (ok_M1 OK)) => v.
rewrite formDr formNr (ok_wcurl OK) (formC _ _ (proj1 (ok_M1 OK))) ip1 H -ip2 (formC _ _ (proj1 (ok_M2 OK))).
by rewrite subrr.
Qed.
Lemma proj_iff (k : deg) (A : 'M_(rk S k)) (p : 'cV_(rk S k)) (g : nat -> vec3 R_realFieldType) (f : 'cV_(rk S k)) :
  spd A -> (forall x y, form A x y = ip 3 (val x) (val y)) -> (forall x, dotv x p = ip 3 g (val x)) ->
  is_projection g f <-> f = solve A p.
Proof.
move=> HA E Hp; have HU := spd_unit HA.
split=> [H|->] ; last first.
  by move=> v; rewrite -E; have [-> _] := form_solve p v (proj1 HA) HU; rewrite dotvC Hp.
apply/eqP; rewrite -subr_eq0; apply/eqP; apply: (spd_nondeg HA) => v.
rewrite formDr formNr; have [_ ->] := form_solve p v (proj1 HA) HU.
by rewrite (formC _ _ (proj1 HA)) E H Hp subrr.
Qed.
Lemma H_iff (B : vec2) (H : vec1) : is_projection (val B) H <-> H = P12 S *m B.
Proof.
have -> : P12 S *m B = solve (M1 S) (M12 S *m B) by rewrite /P12 /solve mul2.
apply: proj_iff; [exact: ok_M1 OK | exact: ip1 |].
by move=> x; rewrite /dotv (ip_C 3) -ip12 /form mul2.
Qed.
Lemma cross_tests n m k (w : 'cV_(rk S m)) (u : 'cV_(rk S k)) (p x : 'cV_(rk S n)) : n <> KV -> m <> KV -> k <> KV ->
  dcomp n = 3%N -> dcomp m = 3%N -> dcomp k = 3%N ->
  CrossProductProjection n w u = Some p -> dotv x p = ip 3 (fun j => cross (val w j) (val u j)) (val x).
Proof.
move=> Hn Hm Hk En Em Ek Hp; have [_ _ [HG HR _ _]] := seq_summary' Hs Hreg HS.
rewrite (C30_tests_cross_product HG HR x Hp) (phys_l2E Hs Hreg HS) (ip_C 3).
apply: (phys_l2_ext Hs Hreg HS) => j a Hj Ha; split; last by apply: (phys_value Hs Hreg HS); rewrite ?En.
rewrite (@cross_ext _ (physical (fun j0 => DFx (qpt j0)) w j) (val w j) (physical (fun j0 => DFx (qpt j0)) u j) (val u j)) // => c Hc;
  apply: (phys_value Hs Hreg HS) => //; rewrite ?Em ?Ek //.
Qed.
Lemma force_iff (B f : vec2) : is_force B f <-> f = force B.
Proof.
have X J H : is_projection (k := K2) (fun j => cross (val (J : vec1) j) (val (H : vec1) j)) f <-> f = solve (M2 S) (P1x1_to_2 J H).
  apply: proj_iff; [exact: ok_M2 OK | exact: ip2 |].
  by move=> x; apply: (@cross_tests K2 K1 K1).
split=> [[J [H [/current_iff -> /H_iff -> /X ->]]] //|->].
exists (weak_curl S *m B), (P12 S *m B); split; [exact/current_iff | exact/H_iff | ].
apply/(proj_iff (A := M2 S) (p := P1x1_to_2 (weak_curl S *m B) (P12 S *m B))) => //; [exact: ok_M2 OK | exact: ip2 |].
by move=> x; apply: (@cross_tests K2 K1 K1).
Qed.
Lemma ux_iff (u : vec2) (H e : vec1) : is_projection (fun j => cross (val u j) (val H j)) e <-> e = solve (M1 S) (P2x1_to_1 u H).
Proof.
apply: proj_iff; [exact: ok_M1 OK | exact: ip1 |].
by move=> x; apply: (@cross_tests K1 K2 K1).
Qed.
Lemma induced_iff (B u b : vec2) : is_induced B u b <-> b = deltaB B u.
Proof.
split=> [[H [e [/H_iff -> /ux_iff -> ->]]] //|->].
by exists (P12 S *m B), (solve (M1 S) (P2x1_to_1 u (P12 S *m B))); split=> //; [apply/H_iff | apply/ux_iff].
Qed.
Lemma uxJ_iff (B u : vec2) (e : vec1) : is_uxJ B u e <-> e = uxJ B u.
Proof.
split=> [[J [/current_iff -> /ux_iff ->]] //|->].
by exists (weak_curl S *m B); split; [apply/current_iff | apply/ux_iff].
Qed.

(** *** The forces exist and are unique, and the stepper uses them *)
Theorem C65_force : forall B : vec2,
  [/\ exists! f, is_force B f, forall u, exists! b, is_induced B u b
    & forall st : rstate S, is_force (2%:R^-1 *: (B_guess st + B_n st)) (mid_JxH st)].
Proof.
move=> B; split.
- by exists (force B); split=> [|f /force_iff]; first exact/force_iff.
- by move=> u; exists (deltaB B u); split=> [|b /induced_iff]; first exact/induced_iff.
- by move=> st; apply/force_iff.
Qed.

(** *** Pressure: the discrete grad p = J x B *)
Lemma greens (g : vec0) (b : vec2) : dirichlet ->
  `|ip 3 (val (G *m g)) (val b) + ip 1 (val g) (val (D *m b))| <= Kd * coef_norm g * coef_norm b.
Proof. by move=> Hd; rewrite -ip12 -ip03; apply: (sequence_green Hs HS Hd Hreg). Qed.
Theorem C65_pressure : dirichlet -> forall B f : vec2, is_force B f ->
  let p := pressure B in
  let weak r := forall v : vec0, ip 3 (val (G *m v)) (val (G *m r)) = - ip 1 (val v) (val (D *m f)) in
  let err r := ip 3 (fun j a => val f j a - val (G *m r) j a) (fun j a => val f j a - val (G *m r) j a) in
  [/\ weak p, forall r, weak r -> r = p,
      forall v : vec0, `|ip 3 (val (G *m v)) (val f) - ip 3 (val (G *m v)) (val (G *m p))| <= Kd * coef_norm v * coef_norm f
    & forall r : vec0, err p <= err r + 2%:R * (Kd * coef_norm (p - r) * coef_norm f)].
Proof.
move=> Hd B f /force_iff -> p weak err; have HA := dirichlet_spd Hs Hreg HS Hd.
have HU0 := spd_unit (ok_M0 OK).
have Ep : M0 S *m dd0 S *m p = - (M03 S *m (D *m force B)).
  rewrite mul2 /p /pressure mulmxN {1}/solve mulKVmx; last first.
    by have := spd_unit HA; rewrite unitmx_mul => /andP [].
  rewrite mulmxN; congr (- _); rewrite -/(force B) (mul2 (P03 S) D) /P03 /solve (mul2 (invmx _)) mulKVmx //.
have W : weak p.
  move=> v; rewrite -(stiffness Hs Hreg HS) -dotv_form Ep /dotv mulmxN mxE.
  by rewrite -ip03 /form mul2.
have near v : `|ip 3 (val (G *m v)) (val (force B)) - ip 3 (val (G *m v)) (val (G *m p))| <= Kd * coef_norm v * coef_norm (force B).
  by rewrite W opprK; apply: greens.
split=> //.
- move=> r Hr; apply/eqP; rewrite -subr_eq0; apply/eqP; apply: (spd_nondeg HA) => y.
  by rewrite formDr formNr !(stiffness Hs Hreg HS) Hr W subrr.
- move=> r; rewrite /err !(ip_sub); set fo := force B.
  have Egp : ip 3 (val (G *m r)) (val (G *m r)) = ip 3 (val (G *m p)) (val (G *m p)) - 2%:R * ip 3 (val (G *m (p - r))) (val (G *m p))
      + ip 3 (val (G *m (p - r))) (val (G *m (p - r))).
    by rewrite -!(stiffness Hs Hreg HS); apply: form_sub2; exact: (proj1 HA).
  have Efp : ip 3 (val fo) (val (G *m r)) = ip 3 (val fo) (val (G *m p)) - ip 3 (val (G *m (p - r))) (val fo).
    by rewrite -(ip_C 3 (val (G *m r))) -(ip_C 3 (val (G *m p))) -!ip12 -form_subl -mulmxBr opprB addrC subrK.
  have Hpos : 0 <= ip 3 (val (G *m (p - r))) (val (G *m (p - r))) by rewrite -ip1; apply: (spd_ge0 (ok_M1 OK)).
  have := near (p - r); rewrite -/fo ler_norml => /andP [N _].
  rewrite Egp Efp; exact: near_final Hpos N.
Qed.

(** *** The energy changes by minus the work of the force *)
Theorem C65_energy_variation : forall B f u b : vec2, is_force B f -> is_induced B u b ->
  D *m b = 0 /\ forall t, energy (B + t *: b) = energy B - t * ip 3 (val f) (val u) + t ^+ 2 / 2%:R * ip 3 (val b) (val b).
Proof.
move=> B f u b /force_iff -> /induced_iff ->; split; first exact: (deltaB_div OK).
move=> t; have := taylor2 OK t B (deltaB B u) 0.
rewrite scaler0 addr0 !form0r !mulr0 !addr0 (first_var OK) mulrN => ->.
by rewrite !ip2.
Qed.
(** stationary under all divergence-free displacements exactly if the projected force vanishes, and
    moving along the projected force lowers the energy at the rate |P_Leray f|^2 *)
Theorem C65_equilibrium : forall pinv : 'M_(rk S K3), dd3 S *m pinv *m dd3 S = dd3 S ->
  forall B f : vec2, is_force B f -> let g := P_Leray S pinv *m f in
  ((forall u b, D *m u = 0 -> is_induced B u b -> ip 3 (val B) (val b) = 0) <-> g = 0) /\
  (forall b, is_induced B g b -> ip 3 (val B) (val b) = - ip 3 (val g) (val g)).
Proof.
move=> pinv Hp B f /force_iff -> g; have OKp := C38_sequence_ok Hs Hreg HS Hp.
split.
- apply: iff_trans (stationary OKp B); split=> [H u Du|H u b Du /induced_iff ->]; last by rewrite -ip2; apply: H.
  by rewrite ip2; apply: (H u) => //; apply/induced_iff.
- move=> b /induced_iff ->; rewrite -!ip2 (first_var OKp); congr (- _).
  have Dg : divfree S g by rewrite /divfree /g mulmxA (ok_Pdiv OKp) mul0mx.
  by rewrite (formC _ _ (proj1 (ok_M2 OKp))) -{1}(ok_Pid OKp Dg) -(ok_Psa OKp).
Qed.

(** *** The matrix of MRXHessian.assemble *)
(** its quadratic form, and the second variation of the energy along the flow dB/dt = curl (u x B):
    the second term differs in sign, and M2 is applied to the degrees of freedom of delta B *)
Theorem C65_hessian_refuted : forall (B f u b b2 : vec2) (e : vec1),
  is_force B f -> is_induced B u b -> is_uxJ B u e -> is_induced b u b2 ->
  [/\ (hessian B)^T = hessian B,
      forall t, energy (B + t *: b + (t ^+ 2 / 2%:R) *: b2) = energy B - t * ip 3 (val f) (val u)
        + t ^+ 2 / 2%:R * (ip 3 (val b) (val b) - ip 3 (val e) (val b)) + t ^+ 3 / 2%:R * ip 3 (val b) (val b2) + t ^+ 4 / 8%:R * ip 3 (val b2) (val b2),
      form (hessian B) u u = ip 3 (val b) (val b) + ip 3 (val e) (val (M2 S *m b))
    & form (hessian B) u u = ip 3 (val b) (val b) - ip 3 (val e) (val b) <-> ip 3 (val e) (val (M2 S *m b)) = - ip 3 (val e) (val b)].
Proof.
move=> B f u b b2 e /force_iff -> /induced_iff -> /uxJ_iff -> /induced_iff ->.
have E : form (hessian B) u u = ip 3 (val (deltaB B u)) (val (deltaB B u)) + ip 3 (val (uxJ B u)) (val (M2 S *m deltaB B u)).
  by rewrite hessian_form /= half_dbl ip2 ip12.
split=> //; first exact: hessian_sym.
- by move=> t; rewrite (taylor2 OK) (first_var OK) (second_pair OK B (deltaB B u) u) -!ip2 -!ip12 mulrN.
- by rewrite E; split=> [/addrI //|->].
Qed.
(** *** The force-free branch: the coefficient lambda of J = lambda B *)
Lemma lmbdaE (B : vec2) (J : vec1) j c : is_current B J -> (j < n_q S)%N ->
  lmbda ns ps types DFx B (qpt j) c = dot3 (val J j) (val B j) / dot3 (val B j) (val B j).
Proof.
move=> /current_iff -> Hj; have [HA Hd] := reg_j Hj; have Hd0 := lt0r_neq0 Hd.
rewrite /lmbda /vdot /phys push1E push2E.
set b := (fun c0 => discrete_form _ _ _ B _ _); set w := (fun c0 => discrete_form _ _ _ _ _ _).
rewrite dot_sc sc_dot dot_sc BTA_dot // (lam_scalar _ _ Hd0) -sum3d; congr (_ / (_ / _ / _)).
exact: AAb.
Qed.
Theorem C65_force_free : forall (B : vec2) (J : vec1), is_current B J ->
  (forall j, (j < n_q S)%N -> exists2 a, (a < 3)%N & val B j a != 0) ->
  let p := pressure_force_free ns ps types DFx qpt B in
  let lam j (a : nat) := (\sum_(c < 3) val J j c * val B j c) / (\sum_(c < 3) val B j c * val B j c) in
  let dist2 z := ip 1 (fun j a => lam j a - val z j a) (fun j a => lam j a - val z j a) in
  [/\ forall j, (j < n_q S)%N -> (forall a, (a < 3)%N -> cross (val J j) (val B j) a = 0) ->
        forall a, (a < 3)%N -> val J j a = lam j 0%N * val B j a,
      forall z : vec0, dist2 p <= dist2 z, forall z : vec0, dist2 z = dist2 p -> z = p
    & forall l : vec0, (forall j a, (j < n_q S)%N -> (a < 3)%N -> val J j a = val l j 0%N * val B j a) -> p = l].
Proof.
move=> B J HJ Hnz p lam dist2.
have HN j : (j < n_q S)%N -> dot3 (val B j) (val B j) != 0 by move=> Hj; apply: dot_pos; apply: Hnz.
have [p' Hp' [A1 A2 A3]] := @C29_sequence _ _ _ _ _ _ _ Hs Hreg S HS K0 (lmbda ns ps types DFx B) (fun e => ltac:(discriminate)).
have Ep : p = solve (M0 S) p' by move: Hp' => /= [<-].
have El j a : (j < n_q S)%N -> lmbda ns ps types DFx B (qpt j) a = lam j a.
  by move=> Hj; rewrite (lmbdaE _ HJ Hj) /lam !sum3d.
have Ed z : ip 1 (fun j a => lmbda ns ps types DFx B (qpt j) a - val z j a) (fun j a => lmbda ns ps types DFx B (qpt j) a - val z j a) = dist2 z.
  by apply: (phys_l2_ext Hs Hreg HS) => j a Hj _; rewrite El.
split.
- move=> j Hj Hc a Ha; rewrite /lam !sum3d mulrAC -(par3 Hc Ha) mulfK //; exact: HN.
- by move=> z; rewrite Ep -!Ed; apply: A1.
- by move=> z; rewrite Ep -!Ed; apply: A2.
- move=> l Hl; rewrite Ep; apply: A3; rewrite Ed /dist2 /phys_l2; apply: big1 => j _.
  have [En _ _] := seq_summary' Hs Hreg HS.
  have Hj : (j < n_q S)%N by rewrite En.
  rewrite big1 ?mul0r // => a _.
  suff -> : lam j a = val l j a by rewrite subrr mul0r.
  rewrite /lam !sum3d ord1; have -> : dot3 (val J j) (val B j) = val l j 0%N * dot3 (val B j) (val B j).
    by rewrite -!sum3d mulr_sumr; apply: eq_bigr => c _; rewrite Hl // mulrA.
  by rewrite mulfK //; apply: HN.
Qed.
End Seq.

(** The second term also has the wrong dimension: on a domain magnified by a, the second variation is
    a^-7 times the old one, and so is the first term of the matrix, but the second term is multiplied by a^-8 *)
Section Units.
Variable F : realFieldType.
Add Field FPU : (@mc_fth F).
Variable S : drseq F.
Hypothesis HM : masses_invertible S.
Variable a : F.
Hypothesis Ha : a != 0.
Variables (G Gi : nat -> nat -> nat -> F) (J : nat -> F).
Hypothesis HG : magnified a S G Gi J.
Notation S' := (regeom S G Gi J).
Lemma sc7 (x y : F) : a^-1 * (a ^- 3 * (a ^- 3 * x)) - a ^- 4 * (a ^- 3 * y) = a ^- 7 * (x - y).
Proof. by move/eqP: Ha => H; mc_norm; field; exact: H. Qed.
Lemma sc8 (x y : F) : a^-1 * (a ^- 3 * (a ^- 3 * x)) + a ^- 4 * (a^-1 * (a ^- 3 * y)) = a ^- 7 * x + a ^- 8 * y.
Proof. by move/eqP: Ha => H; mc_norm; field; exact: H. Qed.
Theorem C65_hessian_units : forall B u : 'cV_(rk S K2), let b := deltaB B u in let e := uxJ B u in
  [/\ deltaB (S := S') B u = a ^- 3 *: b,
      form (M2 S') (deltaB (S := S') B u) (deltaB (S := S') B u) - form (M12 S') (uxJ (S := S') B u) (deltaB (S := S') B u)
        = a ^- 7 * (form (M2 S) b b - form (M12 S) e b)
    & form (hessian (S := S') B) u u = a ^- 7 * form (M2 S) b b + a ^- 8 * form (M12 S) e (M2 S *m b)].
Proof.
move=> B u b e; have [U0 U1 U2 U3] := HM.
have E1 : deltaB (S := S') B u = a ^- 3 *: b.
  rewrite /b /deltaB (P12s Ha HG HM) (curls Ha HG HM) (M1s Ha HG) -[u in P2x1_to_1 u _]scale1r -scalemxAl (P2x1s Ha HG).
  rewrite solve_scale // -scalemxAr; congr (_ *: _).
  by move/eqP: Ha => H; mc_norm; field; exact: H.
have E2 : uxJ (S := S') B u = a ^- 4 *: e.
  rewrite /e /uxJ (wcurls Ha HG HM) (M1s Ha HG) -[u in P2x1_to_1 u _]scale1r -scalemxAl (P2x1s Ha HG).
  rewrite solve_scale //; congr (_ *: _).
  by move/eqP: Ha => H; mc_norm; field; exact: H.
have fM2 x y : form (M2 S') x y = a^-1 * form (M2 S) x y by rewrite (M2s Ha HG) /form -scalemxAr -scalemxAl mxE.
split=> //.
- rewrite fM2 E1 E2 (M12s S G Gi J) !formZl !formZr; exact: sc7.
- rewrite hessian_form /= half_dbl.
  rewrite fM2 E1 E2 (M2s Ha HG) (M12s S G Gi J) -scalemxAl -scalemxAr !formZl !formZr; exact: sc8.
Qed.
End Units.

Print Assumptions C65_force.
Print Assumptions C65_pressure.
Print Assumptions C65_energy_variation.
Print Assumptions C65_equilibrium.
Print Assumptions C65_hessian_refuted.
Print Assumptions C65_force_free.
Print Assumptions C65_hessian_units.

(** a 2-form that vanishes at no quadrature point *)
Lemma nowhere_zero ns ps q types DFx S (Hs : supported ns ps q types false false)
  (Hreg : regular_map DFx (seq_points ns ps q types)) (HS : new_sequence ns ps q types DFx false false = Some S) :
  exists B : 'cV[R_realFieldType]_(rk S K2), forall j, (j < n_q S)%N -> exists2 a, (a < 3)%N & phys ns ps q types DFx B j a != 0.
Proof.
have [B HB] := unit_field Hs Hreg HS; exists B => j Hj.
have [En _ _] := seq_summary' Hs Hreg HS.
have Hin : List.In (qpt ns ps q types j) (seq_points ns ps q types) by apply: List.nth_In; apply/ssrnat.ltP; rewrite -En.
have [HA Hd] := reg_j Hs Hreg HS Hj; have Hd0 := lt0r_neq0 Hd.
set b := (fun c => discrete_form ns ps types B c (qpt ns ps q types j)).
have Hb : dot3 b b != 0 by apply: dot_pos; exists 0%N => //; apply/eqP; apply: HB.
case: (boolP [forall a : 'I_3, phys ns ps q types DFx B j a == 0]) => [/forallP H|]; last first.
  by move/forallPn => [a Ha]; exists a.
case/eqP: Hb; rewrite -(BTA_dot HA b b) -sum3d big1 // => a _.
have /eqP := H a; rewrite /phys push2E /sc => /eqP; rewrite mulf_eq0 invr_eq0 (negPf Hd0) /= ?orbF => /eqP E.
by rewrite -/b in E; rewrite E mulr0.
Qed.
(** the hypotheses are met: a polar Dirichlet sequence of the kind used in the scripts exists (forces and
    induced fields exist by C65_force), and an annular one has a B that vanishes at no quadrature point;
    C63_nonvacuous gives a magnified sequence for C65_hessian_units *)
Example C65_nonvacuous :
  (exists S, new_sequence (8, 8, 1)%N (3, 3, 0)%N 4 (Clamped, Periodic, Constant) (fun _ => id33) true true = Some S /\
    supported (8, 8, 1)%N (3, 3, 0)%N 4 (Clamped, Periodic, Constant) true true) /\
  (exists S, new_sequence (8, 8, 6)%N (3, 2, 2)%N 5 (Clamped, Periodic, Periodic) (fun _ => id33) false false = Some S /\
    exists B : 'cV[R_realFieldType]_(rk S K2), (exists J, is_current (8, 8, 6)%N (3, 2, 2)%N 5 (Clamped, Periodic, Periodic) (fun _ => id33) B J) /\
      forall j, (j < n_q S)%N -> exists2 a, (a < 3)%N & phys (8, 8, 6)%N (3, 2, 2)%N 5 (Clamped, Periodic, Periodic) (fun _ => id33) B j a != 0).
Proof.
have [H1 H2 HR _ _] := SequenceR_nonvacuous.
split.
- by have [S HS] := C26_constructor_total H1 (HR _); exists S.
- have [S HS] := C26_constructor_total H2 (HR _); exists S; split=> //.
  have [B HB] := nowhere_zero H2 (HR _) HS; exists B; split=> //.
  by exists (weak_curl S *m B); apply/(current_iff H2 (HR _) HS).
Qed.
