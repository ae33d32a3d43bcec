(** Property theorems about sequences built by the constructor on real inputs: everything the
    abstract theorems of Props/DeRham.v and Props/Geometry.v assume is discharged from the
    constructor arguments (Spec/SeqRSpec.v: [supported], [regular_map]). *)
From Coq Require Import Reals Lra.
From Coquelicot Require Import Coquelicot.
From mathcomp Require Import all_ssreflect all_algebra zify.
From Verif Require Import Model.RBase Model.Spline Model.Quad Model.Forms Model.DeRham Model.FormEval Model.Geometry Model.SeqR.
From Verif Require Import Spec.Cochain Spec.PolarSpace Spec.SeqSpec Spec.FormSpec Spec.GeomSpec Spec.SeqRSpec Spec.CalculusSpec.
From Verif Require Import Proof.RField Proof.MassSPD Proof.FormEvalProofs Proof.GeometryProofs Proof.ProjectionProofs Proof.SeqRProofs Proof.SeqDeriv
  Proof.SeqCalculus Proof.Limits Props.DeRham Props.Geometry.
Set Implicit Arguments.
Unset Strict Implicit.
Unset Printing Implicit Defensive.
Import Order.TTheory GRing.Theory Num.Theory.
Local Open Scope ring_scope.

(** discrete_form is what DiscreteFunction returns (the cast identifies equal dimensions) *)
Theorem C22_discrete_form : forall (ns ps : triple) (types : stype * stype * stype) (S : drseq R_realFieldType)
    (k : deg) (f : dform) (e : fdim (sh S) k = f_n f) (y : 'cV[R]_(rk S k)) (x : point) (c : 'I_(f_comps (f_k f))),
  DifferentialForm k ns ps types = Some f ->
  DiscreteFunction y^T (castmx (erefl, e) (E_ S k)) x 0 c = discrete_form ns ps types y c x.
Proof.
move=> ns ps types S k f e y x c Hf; rewrite /discrete_form Hf /DiscreteFunction mxE.
case: _ / e => /=; apply: eq_bigr => i _; by rewrite !mxE.
Qed.
Print Assumptions C22_discrete_form.

Section Seq.
Variables (ns ps : triple) (q : nat) (types : stype * stype * stype) (DFx : point -> mat3 R_realFieldType)
  (polar dirichlet : bool).
Hypothesis Hs : supported ns ps q types polar dirichlet.
Hypothesis Hreg : regular_map DFx (seq_points ns ps q types).

(** the constructor succeeds *)
Theorem C26_constructor_total : exists S, new_sequence ns ps q types DFx polar dirichlet = Some S.
Proof. by have [f [Q [S [H _ _ _]]]] := supported_seq Hs Hreg; exists S. Qed.

Variable S : drseq R_realFieldType.
Hypothesis HS : new_sequence ns ps q types DFx polar dirichlet = Some S.
Notation field := (discrete_form ns ps types).

(** ** C22 strong_grad, strong_curl, strong_div are the gradient, curl and divergence of the
    discrete fields, in the sense of real analysis, at every point off the knot planes *)
Theorem C22_gradient : forall x (y : 'cV_(rk S K0)), off_knots ns ps types.2 x ->
  is_grad (field y 0) x (fun a => field (strong_grad S *m y) a x).
Proof. by move=> x y Hx; apply: (grad_calculus Hs Hreg HS Hx). Qed.
Theorem C22_curl : forall x (y : 'cV_(rk S K1)), off_knots ns ps types.2 x ->
  is_curl (fun c => field y c) x (fun a => field (strong_curl S *m y) a x).
Proof. by move=> x y Hx; apply: (curl_calculus Hs Hreg HS Hx). Qed.
Theorem C22_divergence : forall x (y : 'cV_(rk S K2)), off_knots ns ps types.2 x ->
  is_div (fun c => field y c) x (field (strong_div S *m y) 0 x).
Proof. by move=> x y Hx; apply: (div_calculus Hs Hreg HS Hx). Qed.

(** ** C24 the complex *)
Theorem C24_sequence_complex : strong_curl S *m strong_grad S = 0 /\ strong_div S *m strong_curl S = 0.
Proof.
have [f [Q [E Hadm _ _ [_ _ _ HM]]]] := seq_summary Hs Hreg HS; move: HM; rewrite E => HM.
by split; [apply: (C24_curl_grad Hadm HM) | apply: (C24_div_curl Hadm HM)].
Qed.

(** ** C25 the weak derivatives *)
Theorem C25_sequence :
  [/\ forall (u : 'cV_(rk S K1)) f, form (M0 S) f (weak_div S *m u) = - form (M1 S) (strong_grad S *m f) u,
      forall (u : 'cV_(rk S K2)) v, form (M1 S) v (weak_curl S *m u) = form (M2 S) (strong_curl S *m v) u,
      forall (p : 'cV_(rk S K3)) v, form (M2 S) v (weak_grad S *m p) = - form (M3 S) (strong_div S *m v) p
    & weak_div S *m weak_curl S = 0 /\ weak_curl S *m weak_grad S = 0].
Proof.
have [f [Q [E Hadm _ _ [HG HR HO HM]]]] := seq_summary Hs Hreg HS.
have Hsym := geometry_of_sym HG HR; move: HM Hsym; rewrite E => HM Hsym.
by have [A B C] := C25_weak_adjoint Hadm HM Hsym; split=> //; apply: (C25_weak_complex Hadm HM Hsym).
Qed.

(** ** C26 the mass matrices are symmetric positive definite *)
Theorem C26_sequence :
  [/\ (M0 S)^T = M0 S /\ (forall x, x != 0 -> 0 < form (M0 S) x x),
      (M1 S)^T = M1 S /\ (forall x, x != 0 -> 0 < form (M1 S) x x),
      (M2 S)^T = M2 S /\ (forall x, x != 0 -> 0 < form (M2 S) x x)
    & (M3 S)^T = M3 S /\ (forall x, x != 0 -> 0 < form (M3 S) x x)].
Proof.
have [f [Q [_ _ _ _ [HG HR HO [U0 U1 U2 U3]]]]] := seq_summary Hs Hreg HS.
have Hsym := geometry_of_sym HG HR; have Hp := geometry_of_pos HG HR HO.
have [S0 S1 S2 S3] := C26_symmetric Hsym.
split; (split; first by []).
- by apply: unit_pd_iff U0 => j z Hj; apply: W0_pd.
- by apply: unit_pd_iff U1 => j z Hj; apply: W1_pd.
- by apply: unit_pd_iff U2 => j z Hj; apply: W2_pd.
- by apply: unit_pd_iff U3 => j z Hj; apply: W3_pd.
Qed.

(** ** C27 Hodge Laplacians *)
Theorem C27_sequence :
  [/\ forall x, 0 <= form (M0 S) x (dd0 S *m x) /\ (dd0 S *m x = 0 <-> strong_grad S *m x = 0),
      forall x, 0 <= form (M1 S) x (dd1 S *m x) /\ (dd1 S *m x = 0 <-> strong_curl S *m x = 0 /\ weak_div S *m x = 0),
      forall x, 0 <= form (M2 S) x (dd2 S *m x) /\ (dd2 S *m x = 0 <-> strong_div S *m x = 0 /\ weak_curl S *m x = 0)
    & forall x, 0 <= form (M3 S) x (dd3 S *m x) /\ (dd3 S *m x = 0 <-> weak_grad S *m x = 0)].
Proof.
have [f [Q [E Hadm _ _ [HG HR HO HM]]]] := seq_summary Hs Hreg HS.
have Hsym := geometry_of_sym HG HR; have Hp := geometry_of_pos HG HR HO.
by move: HM Hsym Hp; rewrite E => HM Hsym Hp; apply: (C27_psd_kernel Hadm HM Hsym Hp).
Qed.

(** ** C28 Leray projection, for any generalised inverse of dd3 *)
Theorem C28_sequence : forall pinv : 'M_(rk S K3), dd3 S *m pinv *m dd3 S = dd3 S ->
  [/\ forall u : 'cV_(rk S K2), strong_div S *m (P_Leray S pinv *m u) = 0,
      forall u : 'cV_(rk S K2), strong_div S *m u = 0 -> P_Leray S pinv *m u = u,
      P_Leray S pinv *m P_Leray S pinv = P_Leray S pinv,
      forall u : 'cV_(rk S K2), exists p : 'cV_(rk S K3), u - P_Leray S pinv *m u = weak_grad S *m p
    & forall u v : 'cV_(rk S K2), form (M2 S) (u - P_Leray S pinv *m u) (P_Leray S pinv *m v) = 0].
Proof.
have [f [Q [E Hadm _ _ [HG HR HO HM]]]] := seq_summary Hs Hreg HS.
have Hsym := geometry_of_sym HG HR; have Hp := geometry_of_pos HG HR HO.
move: HM Hsym Hp; rewrite E => HM Hsym Hp pinv Hpinv; split.
- exact: (C28_divergence_free Hadm HM Hsym Hp Hpinv).
- exact: (C28_identity_on_divfree Hadm HM).
- exact: (C28_idempotent Hadm HM Hsym Hp Hpinv).
- exact: (C28_complement_is_gradient Hadm HM).
- by move=> u v; have [_] := C28_selfadjoint_orthogonal Hadm HM Hsym Hp Hpinv u v.
Qed.

(** ** C29, C33 masses and projections are about the physical fields at the quadrature points *)
Definition qpt (j : nat) : point := List.nth j (seq_points ns ps q types) (R0, R0, R0).
Definition qwt (j : nat) : R := List.nth j (seq_weights ns ps q types) R0.
(** push-forward of the discrete field with degrees of freedom y at quadrature point j *)
Definition phys (k : deg) (y : 'cV_(rk S k)) (j : nat) : vec3 R_realFieldType :=
  pushforward k (DFx (qpt j)) (fun c => field y c (qpt j)).
(** quadrature of the physical inner product of two fields with values at the points *)
Definition phys_l2 (d : nat) (u v : nat -> vec3 R_realFieldType) : R :=
  \sum_(j < length (seq_points ns ps q types)) (\sum_(a < d) u j a * v j a) * (qwt j * det33 (DFx (qpt j))).

Lemma field_value k (y : 'cV_(rk S k)) j c : k <> KV -> (j < n_q S)%N -> (c < dcomp k)%N ->
  form_value y j c = field y c (qpt j).
Proof.
move=> Hk Hj Hc.
have [f [Q [E _ [Hf _] [HQ Enq] _]]] := seq_summary Hs Hreg HS.
have [Esh Etb] : sh S = f_shape f /\ tb S = evaluate_1d f Q by rewrite E /DeRhamSequence; case: (polar).
have Eq : qpt j = List.nth j (q_x Q) (R0, R0, R0) by rewrite /qpt /seq_points Hf HQ.
have [g [Hg [Eg Et] HQg]] : exists g, [/\ DifferentialForm k ns ps types = Some g,
    f_shape g = f_shape f /\ evaluate_1d g Q = evaluate_1d f Q & QuadratureRule (f_L0 g) (f_L1 g) (f_L2 g) q = Some Q].
  move: Hf HQ; rewrite /DifferentialForm; case: (ns) => [[n0 n1] n2]; case: (ps) => [[p0 p1] p2]; case: (types) => [[t0 t1] t2].
  case: (new_spline n0 p0 t0) => [l0|] //; case: (new_spline n1 p1 t1) => [l1|] //; case: (new_spline n2 p2 t2) => [l2|] //.
  case: (new_deriv l0) => [d0|] //; case: (new_deriv l1) => [d1|] //; case: (new_deriv l2) => [d2|] // [<-] HQ.
  by eexists; split; [reflexivity | split | exact: HQ].
rewrite Eq /discrete_form Hg /form_value /evaluate_at_xq.
apply: eq_bigr => i _; rewrite mulrC; congr (_ * _); first by rewrite -[y^T *m _]trmxK trmx_mul trmxK [RHS]mxE.
have Hc' : (c < comps k)%N by case: (k) Hk Hc.
have Hi : (i < f_n g)%N.
  rewrite /f_n Eg -Esh; have [-> _ _ _] := DF_inv Hg; exact: ltn_ord.
rewrite -(getter_spec Hg HQg Hk Hi _ Hc'); last by rewrite -Enq.
by rewrite /FormEvalProofs.getter /getter Eg Et -Esh -Etb; move: (nat_of_ord i) => n; case: (k) Hk.
Qed.

Lemma phys_value k (y : 'cV_(rk S k)) j a : k <> KV -> (j < n_q S)%N -> (a < dcomp k)%N ->
  physical (fun j => DFx (qpt j)) y j a = phys y j a.
Proof.
move=> Hk Hj Ha; rewrite /physical /phys.
have Hv c : (c < dcomp k)%N -> form_value y j c = field y c (qpt j) by move=> Hc; apply: field_value.
rewrite /pushforward; case: (k) Hk y Hv Ha => //= _ y Hv Ha; rewrite ?Hv //.
- by rewrite /mulv3; apply: eq_bigr => m _; rewrite Hv.
- by rewrite /mulv3; congr (_ / _); apply: eq_bigr => m _; rewrite Hv.
Qed.

Lemma seq_summary' : [/\ n_q S = length (seq_points ns ps q types), (forall j, w_j S j = qwt j)
   & let DF j := DFx (qpt j) in [/\ geometry_of S DF, regular S DF, oriented S DF & masses_invertible S]].
Proof.
have [f [Q [E _ [Hf _] [HQ Enq] H]]] := seq_summary Hs Hreg HS.
split.
- by rewrite Enq /seq_points Hf HQ.
- by move=> j; rewrite /qwt /seq_weights Hf HQ E /DeRhamSequence; case: (polar).
- by rewrite /qpt /seq_points Hf HQ.
Qed.

Lemma phys_l2E d u v : l2_product S (fun j => DFx (qpt j)) d u v = phys_l2 d u v.
Proof.
have [En Ew _] := seq_summary'; rewrite /l2_product /phys_l2 -En.
apply: eq_bigr => j _; rewrite mulr_suml; apply: eq_bigr => a _.
by rewrite -mulrA (mulrC (det33 _)) Ew.
Qed.

Lemma phys_l2_ext d u v u' v' : (forall j a, (j < n_q S)%N -> (a < d)%N -> u j a = u' j a /\ v j a = v' j a) ->
  phys_l2 d u v = phys_l2 d u' v'.
Proof.
have [En Ew _] := seq_summary'; move=> H; apply: eq_bigr => j _; congr (_ * _); apply: eq_bigr => a _.
by have [|-> ->] := H j a _ (ltn_ord a); rewrite ?En //; exact: ltn_ord.
Qed.

Theorem C33_sequence : forall (k : deg) (x y : 'cV_(rk S k)), k <> KV ->
  form (mass S k) x y = phys_l2 (dcomp k) (phys x) (phys y).
Proof.
move=> k x y Hk; have [_ _ [HG HR _ _]] := seq_summary'.
rewrite (C33_mass_is_physical_l2 HG HR) // phys_l2E.
by apply: phys_l2_ext => j a Hj Ha; rewrite !phys_value.
Qed.

(** the L2 projection of a function phi (values in the physical frame, argument in logical
    coordinates) is the unique best approximation by discrete fields, and reproduces them *)
Theorem C29_sequence : forall (k : deg) (phi : point -> vec3 R_realFieldType), k <> KV ->
  exists2 p, Projector S (fun j => DFx (qpt j)) k (fun j => phi (qpt j)) = Some p &
  let c := solve (mass S k) p in
  let dist2 z := phys_l2 (dcomp k) (fun j a => phi (qpt j) a - phys z j a) (fun j a => phi (qpt j) a - phys z j a) in
  [/\ forall z, dist2 c <= dist2 z, forall z, dist2 z = dist2 c -> z = c
    & forall z, dist2 z = 0 -> c = z].
Proof.
move=> k phi Hk; have [_ _ [HG HR HO HM]] := seq_summary'.
have [p Hp] : exists p, Projector S (fun j => DFx (qpt j)) k (fun j => phi (qpt j)) = Some p.
  by case: (k) Hk => // _; eexists.
exists p => // c dist2.
have HMk : mass S k \in unitmx by case: HM => U0 U1 U2 U3; case: (k) Hk.
have [A B] := C29_best_approximation HG HR HO HMk Hp.
have E z : l2_product S (fun j => DFx (qpt j)) (dcomp k)
     (fun j a => phi (qpt j) a - physical (fun j => DFx (qpt j)) z j a)
     (fun j a => phi (qpt j) a - physical (fun j => DFx (qpt j)) z j a) = dist2 z.
  by rewrite phys_l2E; apply: phys_l2_ext => j a Hj Ha; rewrite phys_value.
have pos z : 0 <= dist2 z.
  rewrite -E /l2_product; apply: sumr_ge0 => j _; apply: sumr_ge0 => a _.
  have [HJ Hw] := HO _ (ltn_ord j).
  by apply: mulr_ge0 (ltW Hw); apply: mulr_ge0 (ltW HJ); rewrite -expr2 sqr_ge0.
have B' z : dist2 z = dist2 c -> z = c by move=> Hz; apply: B; rewrite !E.
split=> //.
- by move=> z; have := A z; rewrite !E.
- move=> z Hz; symmetry; apply: B'; apply/eqP; rewrite eq_le Hz pos /= -Hz.
  by have := A z; rewrite !E.
Qed.
End Seq.
Print Assumptions C26_constructor_total.
Print Assumptions C22_gradient.
Print Assumptions C22_curl.
Print Assumptions C22_divergence.
Print Assumptions C24_sequence_complex.
Print Assumptions C25_sequence.
Print Assumptions C26_sequence.
Print Assumptions C27_sequence.
Print Assumptions C28_sequence.
Print Assumptions C33_sequence.
Print Assumptions C29_sequence.

(** a polar Dirichlet discretisation of the kind used in the repository's scripts, the identity
    map, a point off the knots and a generalised inverse meet the hypotheses *)
Definition id33 : mat3 R_realFieldType := fun k l => (k == l)%:R.
Example SequenceR_nonvacuous :
  [/\ supported (8, 8, 1)%N (3, 3, 0)%N 4 (Clamped, Periodic, Constant) true true,
      supported (8, 8, 6)%N (3, 2, 2)%N 5 (Clamped, Periodic, Periodic) false false,
      forall pts, regular_map (fun _ => id33) pts,
      off_knots (8, 8, 6)%N (3, 2, 2)%N Periodic (Rdiv 1 3, Rdiv 1 3, Rdiv 1 5)
    & forall (S : drseq R_realFieldType), dd3 S *m pinvmx (dd3 S) *m dd3 S = dd3 S].
Proof.
split.
- split=> //; split=> //; last 1 first.
  + by right.
  + by split; rewrite /=; lra.
- split=> //; split=> //; last 1 first.
  + by left; split=> //; split=> //=; lra.
  + by split; rewrite /=; lra.
- move=> pts x _; have -> : det33 id33 = R1.
    by rewrite /det33 /id33 /= !mulr0 !mulr1 !addr0 !subr0.
  have H : Rle (/ 10 ^ 5) (/ 1) by apply: Rinv_le_contravar; lra.
  by move: H; rewrite Rinv_1.
- split; [lra | lra | lra |].
  have aux (m d k : nat) : (0 < d)%N -> (m %% d != 0)%N -> Rmult (Rdiv 1 (INR d)) (INR m) <> INR k.
    move=> Hd Hm E; case/negP: Hm.
    have Hd' : INR d <> R0 by apply: not_0_INR; case: (d) Hd.
    have : INR m = INR (k * d)%N by rewrite mult_INR -E; field.
    by move/INR_eq ->; rewrite modnMl.
  have E3 : IZR 3 = INR 3 by rewrite /=; lra.
  have E5 : IZR 5 = INR 5 by rewrite /=; lra.
  split=> [k|k|_ k]; rewrite ?E3 ?E5; exact: aux.
- by move=> S; apply: mulmxKpV.
Qed.

(** ** C23 the tabulated gradient is wrong as soon as nr differs from nt: at radial index
    min(nr, nt) - 1 some quadrature point gets a value that is not the partial derivative in r *)
Theorem C23_radial_derivative_refuted : forall (ns ps : triple) (q : nat) (types : stype * stype * stype) (f : dform) (Q : quadrule),
  resolved ns ps q types -> ns.1.1 <> ns.1.2 ->
  DifferentialForm K0 ns ps types = Some f -> QuadratureRule (f_L0 f) (f_L1 f) (f_L2 f) q = Some Q ->
  let i := ravel_index (f_shape f) K0 0 (minn ns.1.1 ns.1.2).-1 0 0 in
  exists j d, [/\ (j < length (q_x Q))%N,
    is_partial 0 (fun x => form_evaluate f x i 0) (List.nth j (q_x Q) (R0, R0, R0)) d
  & get_d_Lambda_0 (f_shape f) (evaluate_1d f Q) i j 0 <> d].
Proof. by move=> ns ps q types f Q Hr Hne Hf HQ; apply: (wrong_gradient Hr Hne Hf HQ). Qed.
Print Assumptions C23_radial_derivative_refuted.
Example C23_nonvacuous : resolved (8, 6, 1)%N (3, 3, 0)%N 4 (Clamped, Periodic, Constant) /\
  exists f Q, DifferentialForm K0 (8, 6, 1)%N (3, 3, 0)%N (Clamped, Periodic, Constant) = Some f /\
    QuadratureRule (f_L0 f) (f_L1 f) (f_L2 f) 4 = Some Q.
Proof.
split; last by eexists; eexists; split; reflexivity.
split=> //; first by split; rewrite /=; lra.
by right.
Qed.
