(** Property theorems C79: what test/test_helmholtz_decomposition.py and test/test_harmonic_fields_hollow_toroid.py
    rely on: the exact fields they compare with, the alignment identity, and the field of two prescribed currents. *)
From Coq Require Import Reals Lra.
From Coquelicot Require Import Coquelicot.
From mathcomp Require Import all_ssreflect all_algebra zify.
From Verif Require Import Model.RBase Model.Spline Model.Quad Model.Forms Model.DeRham Model.FormEval Model.Geometry Model.SeqR Model.Maps Model.Relaxation Model.Scripts Model.Eigen Model.HarmonicTests.
From Verif Require Import Spec.SeqSpec Spec.FormSpec Spec.GeomSpec Spec.SeqRSpec Spec.CalculusSpec Spec.SmoothSpec Spec.FluxSpec Spec.MapSpec Spec.SpectrumSpec Spec.TopologySpec Spec.RelaxSpec Spec.HarmonicSpec.
From Verif Require Import Proof.RField Proof.IndexLemmas Proof.SeqCalculus Proof.SeqFlux Proof.RelaxAlg Proof.RelaxHelicity Proof.SpectrumMat Proof.SpectrumSeq Proof.HarmonicFields Proof.JacProofs
  Proof.RelaxRun Proof.ForceAlg Proof.Arnold Props.DeRham Props.SequenceR Props.Relaxation Props.Topology Props.Spectrum Props.Helicity Props.Flux Props.Arnold Props.Scripts.
From Verif Require Import Spec.CalculusSpec Spec.HarmonicSpec.
Set Implicit Arguments.
Unset Strict Implicit.
Unset Printing Implicit Defensive.

Section Exact.
Local Open Scope R_scope.
Lemma partial_const a (x : point) (v : R) : is_partial a (fun _ => v) x 0.
Proof. exact: is_derive_const. Qed.
Lemma curl_const (v : nat -> R) x : is_curl (fun k _ => v k) x (fun _ => 0).
Proof. by exists 0, 0, 0, 0, 0, 0; split; first [split; exact: partial_const | split; lra]. Qed.

(** ** the field of the Helmholtz test: on the rotating ellipse with kappa = 1 (the value of the test) it is
    curl-free, divergence-free and tangential, whatever the other parameters *)
Theorem C79_helmholtz_field : forall eps nfp F, eps < 1 -> rotating_ellipse_map eps 1 nfp = Some F ->
  harmonic_field F (helmholtz_B eps F).
Proof.
move=> eps nfp F He HF; exists (fun k _ => if k == 2%N then 2 * PI / nfp else 0), (fun k x => helm_two eps (coord 0 x) (coord 1 x) k).
move=> [[r t] z] Hr; split=> //; first exact: (helm_forms HF).
- exact: curl_const.
- by exists 0, 0, 0; split; [exact: partial_const | exact: partial_const | rewrite /is_partial /=; exact: is_derive_const | lra].
Qed.
(** ... and with any other kappa it has a curl: its R is not the distance to the Z axis *)
Theorem C79_helmholtz_field_refuted : forall eps kappa nfp F, 0 < kappa < 2 -> kappa <> 1 -> 0 < eps -> 2 * eps < 1 ->
  rotating_ellipse_map eps kappa nfp = Some F -> ~ harmonic_field F (helmholtz_B eps F).
Proof.
move=> eps kappa nfp F Hk Hk1 He He2 HF [a [b H]]; have [Hn _] := helm_pos HF.
have PA r z : 0 < r <= 1 -> 0 < RA eps kappa r 0 z.
  move=> Hr; rewrite /RA Rmult_0_r cos_0 /nuR; have := COS_bound (2 * PI * z); move: (cos _) => c Hc.
  have : -1 < (1 - kappa) * c < 1 by nra.
  move: ((1 - kappa) * c) => u Hu.
  have : 0 <= eps * (1 + u) * r by apply: Rmult_le_pos; [apply: Rmult_le_pos|]; lra.
  lra.
have PT r : 0 < r <= 1 -> RT eps r 0 <> 0.
  by move=> Hr; rewrite /RT Rmult_0_r cos_0; have := Rmult_lt_0_compat r eps ltac:(lra) He; lra.
have E r z k : 0 < r <= 1 -> (k < 3)%N -> a k (r, 0, z) = helm_one eps kappa nfp r 0 z k.
  move=> Hr H3; have [Hf _ _ _] := H (r, 0, z) Hr.
  exact: (forms_pullback Hf (helm_jac HF r 0 z) (helm_pull HF (PA r z Hr) (PT r Hr)) H3).
have Hh : off_axis (/ 2, 0, 0) by rewrite /off_axis /=; lra.
have [_ [d12 [d21 [d20 [d02 [d01 [d10 [_ [H20 H02] _ [_ E1 _]]]]]]]] _ _] := H _ Hh.
have D20 : d20 = 0.
  apply: (is_partial_unique H20); rewrite /is_partial /=.
  apply: (is_derive_ext (fun _ => 0)); last exact: is_derive_const.
  by move=> z; rewrite E //; lra.
have D02 : d02 = 2 * PI / nfp * (eps * (1 - kappa)) / (1 + / 2 * eps) ^ 2.
  apply: (is_partial_unique H02); rewrite /is_partial /=.
  apply: (is_derive_ext_loc (fun r => 2 * PI / nfp * (1 + eps * (2 - kappa) * r) / (1 + r * eps))).
    exists (mkposreal (/ 4) ltac:(lra)) => r Hr; rewrite E //; last first.
      by move: Hr; rewrite /ball /= /AbsRing_ball /abs /= /minus /plus /opp /=; move/Rabs_def2; lra.
    rewrite /helm_one /= /RA /RT /nuR !Rmult_0_r cos_0.
    have -> : 1 + (1 - kappa) * 1 = 2 - kappa by ring.
    by rewrite !Rmult_1_r.
  auto_derive; last by field; lra.
  by lra.
move: E1; rewrite D20 D02 => E1.
have Ep := PI_RGT_0.
have Hz : 2 * PI / nfp * (eps * (1 - kappa)) / (1 + / 2 * eps) ^ 2 = 0 by lra.
have : 1 - kappa = 0; last lra.
transitivity (2 * PI / nfp * (eps * (1 - kappa)) / (1 + / 2 * eps) ^ 2 * ((1 + / 2 * eps) ^ 2 * nfp / (2 * PI * eps))); last by rewrite Hz; ring.
by field; lra.
Qed.

(** ** the field the hollow-toroid test compares with: its 1-form is the constant (0, mu0 Ip, mu0 It), so it is curl-free
    with circulations mu0 Ip (theta) and mu0 It (zeta) -- the docstring exchanges the two currents -- and it is tangential,
    but its divergence is -pi eps mu0 Ip sin(2 pi theta) *)
Theorem C79_hollow_field : forall mu0 Ip It e r t z, 0 < e < 1 -> 0 <= r <= 1 ->
  exists b : nat -> point -> R,
    [/\ forms_at (hollow_F e) (r, t, z) (hollow_B mu0 Ip It e (r, t, z)) (fun k => coord k (0, mu0 * Ip, mu0 * It)) (b^~ (r, t, z)),
        (forall r' t' z', 0 <= r' <= 1 -> forms_at (hollow_F e) (r', t', z') (hollow_B mu0 Ip It e (r', t', z')) (fun k => coord k (0, mu0 * Ip, mu0 * It)) (b^~ (r', t', z'))),
        is_div b (r, t, z) (- (PI * e * mu0 * Ip * sin (2 * PI * t))) & b 0%N (r, t, z) = 0].
Proof.
move=> mu0 Ip It e r t z He Hr; exists (fun k x => hol_two mu0 Ip It e (coord 0 x) (coord 1 x) k).
have Hf r' t' z' : 0 <= r' <= 1 -> forms_at (hollow_F e) (r', t', z') (hollow_B mu0 Ip It e (r', t', z')) (fun k => coord k (0, mu0 * Ip, mu0 * It)) (hol_two mu0 Ip It e r' t').
  move=> H; have [DF [H1 H2 H3]] := @hol_forms mu0 Ip It e He r' t' z' H; exists DF; split=> // k Hk; have [-> E] := H3 k Hk; split=> //.
  by move: k Hk {E} => [|[|[|//]]].
split=> //; [exact: Hf | ].
exists 0, (- (PI * e * mu0 * Ip * sin (2 * PI * t))), 0; split; [exact: partial_const | exact: hol_dt | rewrite /is_partial /=; exact: is_derive_const | ring].
Qed.
Theorem C79_hollow_field_refuted : forall mu0 Ip It e, 0 < e < 1 ->
  (harmonic_field (hollow_F e) (hollow_B mu0 Ip It e) <-> mu0 * Ip = 0).
Proof.
move=> mu0 Ip It e He; split=> [[a [b H]]|E].
- have Hx : off_axis (1, / 4, 0) by rewrite /off_axis /=; lra.
  have Eb r t k : 0 < r <= 1 -> (k < 3)%N -> b k (r, t, 0) = hol_two mu0 Ip It e r t k.
    move=> Hr Hk; have [Hf _ _ _] := H (r, t, 0) Hr.
    by apply: (forms_pushforward Hf (hol_jac e r t 0) _ Hk) => j Hj; apply: hol_push => //; lra.
  have Eb' t z k : (k < 3)%N -> b k (1, t, z) = hol_two mu0 Ip It e 1 t k.
    move=> Hk; have Hr1 : off_axis (1, t, z) by rewrite /off_axis /=; lra.
    have [Hf _ _ _] := H (1, t, z) Hr1.
    by apply: (forms_pushforward Hf (hol_jac e 1 t z) _ Hk) => j Hj; apply: hol_push => //; lra.
  have Hx' : off_axis (/ 2, / 4, 0) by rewrite /off_axis /=; lra.
  have [_ _ [d0 [d1 [d2 [H0 H1 H2 Es]]]] _] := H _ Hx'.
  have D0 : d0 = 0.
    apply: (is_partial_unique H0); rewrite /is_partial /=.
    apply: (is_derive_ext_loc (fun _ => 0)); last exact: is_derive_const.
    exists (mkposreal (/ 4) ltac:(lra)) => r Hr; rewrite Eb //.
    by move: Hr; rewrite /ball /= /AbsRing_ball /abs /= /minus /plus /opp /=; move/Rabs_def2; lra.
  have D1 : d1 = - (PI * e * mu0 * Ip * sin (2 * PI * / 4)).
    apply: (is_partial_unique H1); rewrite /is_partial /=.
    have Hh : 0 <= / 2 <= 1 by lra.
    apply: is_derive_ext (hol_dt mu0 Ip It He (/ 4) Hh) => t /=; rewrite Eb //; lra.
  have D2 : d2 = 0.
    apply: (is_partial_unique H2); rewrite /is_partial /=.
    apply: (is_derive_ext (fun _ => hol_two mu0 Ip It e (/ 2) (/ 4) 2)); last exact: is_derive_const.
    move=> z; symmetry; have Hr2 : off_axis (/ 2, / 4, z) by rewrite /off_axis /=; lra.
    have [Hf _ _ _] := H (/ 2, / 4, z) Hr2.
    by apply: (forms_pushforward Hf (hol_jac e (/ 2) (/ 4) z)) => // j Hj; apply: hol_push => //; lra.
  move: Es; rewrite D0 D1 D2; have -> : 2 * PI * / 4 = PI / 2 by field.
  rewrite sin_PI2 => Es; have Ep := PI_RGT_0.
  transitivity (- (0 + - (PI * e * mu0 * Ip * 1) + 0) * / (PI * e)); [by field; lra | by rewrite -Es; ring].
- exists (fun k _ => hol_one mu0 Ip It k), (fun k x => hol_two mu0 Ip It e (coord 0 x) (coord 1 x) k) => -[[r t] z] Hr.
  have Hr0 : 0 <= r <= 1 by move: Hr; rewrite /off_axis /=; lra.
  split=> //; [exact: hol_forms | exact: curl_const |].
  exists 0, 0, 0; split; [exact: partial_const | | rewrite /is_partial /=; exact: is_derive_const | lra].
  rewrite /is_partial /= /hol_two /=; apply: (is_derive_ext (fun _ => 0)); last exact: is_derive_const.
  by move=> s; rewrite E /Rdiv !Rmult_0_l.
Qed.
End Exact.

Import Order.TTheory GRing.Theory Num.Theory.
Local Open Scope ring_scope.

(** ** the circulations the test computes: the integrand is the Cartesian field times the derivative of the curve in
    physical space, and for the field it compares with every number of samples gives mu0 Ip and mu0 It exactly *)
Lemma star_pull (DF : mat3 R_realFieldType) (v : vec3 R_realFieldType) a : star_oneform DF v a = pullback K1 DF (pushforward K2 DF v) a.
Proof.
rewrite /star_oneform /= /mulv3 /mul33 mulr_suml.
under eq_bigr do rewrite mulr_suml mulr_suml.
rewrite exchange_big /=; apply: eq_bigr => m _; rewrite mulr_suml mulr_sumr; apply: eq_bigr => k _.
by rewrite /tr33 !mulrA.
Qed.
Lemma dcontour_sum (v : nat -> R_realFieldType) j : (j < 2)%N -> \sum_(a < 3) v a * dcontour j a = v j.+1.
Proof.
move=> Hj; rewrite !big_ord_recl big_ord0 /dcontour /arr3 /= /bump /=.
by case: j Hj => [|[|//]] _ /=; rewrite !(mulr0, mulr1, add0r, addr0).
Qed.
Theorem C79_integrand : forall F (DFx : point -> mat3 R_realFieldType) (two : point -> vec3 R_realFieldType) (B : point) r1 z1 r2 t2 j chi (D : nat -> R),
  (j < 2)%N -> let x := contour r1 z1 r2 t2 j chi in is_jacobian F x (DFx x) ->
  (forall k, (k < 3)%N -> pushforward K2 (DFx x) (two x) k = coord k B) ->
  (forall k, (k < 3)%N -> is_derive (fun s => coord k (F (contour r1 z1 r2 t2 j s))) chi (D k)) ->
  h_dl DFx two (contour r1 z1 r2 t2 j) (dcontour j) chi = \sum_(k < 3) coord k B * D k.
Proof.
move=> F DFx two B r1 z1 r2 t2 j chi D Hj x HJ HB HD.
rewrite /h_dl -/x (@dcontour_sum (star_oneform (DFx x) (two x)) j Hj) star_pull [LHS]/=; apply: eq_bigr => k _.
have := HB k (ltn_ord k); rewrite [pushforward _ _ _ _]/= => ->; rewrite mulrC; congr (_ * _); have H := HJ k j.+1 (ltn_ord k) Hj.
apply: etrans (is_derive_unique _ _ _ (HD k (ltn_ord k))); symmetry; apply: is_derive_unique.
by move: H; rewrite /is_partial /x /contour; case: j Hj {HD HJ HB x} => [|[|//]] _ /=.
Qed.
Theorem C79_circulation : forall mu0 Ip It e r1 z1 r2 t2 n_q (DFx : point -> mat3 R_realFieldType) (two : point -> vec3 R_realFieldType),
  Rlt 0 e -> Rlt e 1 -> Rle 0 r1 /\ Rle r1 1 -> Rle 0 r2 /\ Rle r2 1 -> (0 < n_q)%N ->
  (forall r t z, Rle 0 r /\ Rle r 1 -> is_jacobian (hollow_F e) (r, t, z) (DFx (r, t, z))) ->
  (forall r t z k, Rle 0 r /\ Rle r 1 -> let x := (r, t, z) in (k < 3)%N -> pushforward K2 (DFx x) (two x) k = coord k (hollow_B mu0 Ip It e x)) ->
  circ n_q DFx (contour r1 z1 r2 t2) two 0 = Rmult mu0 Ip /\ circ n_q DFx (contour r1 z1 r2 t2) two 1 = Rmult mu0 It.
Proof.
move=> mu0 Ip It e r1 z1 r2 t2 n DFx two He He1 Hr1 Hr2 Hn HJ HB.
have P x j : (j < 2)%N -> Rle 0 x.1.1 /\ Rle x.1.1 1 -> \sum_(a < 3) star_oneform (DFx x) (two x) a * dcontour j a = hol_one mu0 Ip It j.+1.
  move=> Hj; move: x => [[r t] z] Hr.
  rewrite (@dcontour_sum (star_oneform (DFx (r, t, z)) (two (r, t, z))) j Hj) star_pull.
  have Hf := hol_forms mu0 Ip It (conj He He1) t z Hr.
  have E k : (k < 3)%N -> pullback K1 (DFx (r, t, z)) (comps (hollow_B mu0 Ip It e (r, t, z))) k = hol_one mu0 Ip It k.
    move=> Hk; have [DF [H1 _ H3]] := Hf; have [<- _] := H3 k Hk.
    rewrite /= /mulv3; apply: eq_bigr => m _; congr (_ * _); rewrite /tr33.
    exact: (is_partial_unique (HJ _ _ _ Hr m k (ltn_ord m) Hk) (H1 m k (ltn_ord m) Hk)).
  apply: etrans (E j.+1 Hj); rewrite /= /mulv3; apply: eq_bigr => m _; congr (_ * _).
  by apply: (HB r t z).
have S1 (v : R_realFieldType) : \sum_(i < n) v * (n%:R)^-1 = v.
  by rewrite sumr_const card_ord -mulr_natr -mulrA mulVf ?mulr1 // pnatr_eq0 -lt0n.
split; rewrite /circ -[RHS]S1; apply: eq_bigr => i _; congr (_ * _); exact: P.
Qed.

(** ** the Helmholtz test, quantitatively: the alignment with the computed harmonic field and the energy of the curl part
    add up to one, so the misalignment bounds the vector potential the test asks to be small.  v is whatever vector eigh
    returned, B the projected field of the test *)
Section Aligned.
Variables (ns ps : triple) (q : nat) (types : stype * stype * stype) (DFx : point -> mat3 R_realFieldType).
Hypothesis Hs : supported ns ps q types true true.
Hypothesis Hreg : regular_map DFx (seq_points ns ps q types).
Variable S : drseq R_realFieldType.
Hypothesis HS : new_sequence ns ps q types DFx true true = Some S.
Variable pinv : 'M[R_realFieldType]_(rk S K3).
Hypothesis Hpinv : dd3 S *m pinv *m dd3 S = dd3 S.
Variable DF : nat -> mat3 R_realFieldType.
Let OK : relax_ok S pinv := C38_sequence_ok Hs Hreg HS Hpinv.
Let U1 := polar_dirichlet_dd1 Hs Hreg HS erefl erefl.

Theorem C79_alignment : forall (B_xyz : nat -> vec3 R_realFieldType) v, eigh_first (M2 S *m dd2 S) v ->
  let B0 := projected_field pinv DF B_xyz in B0 != 0 ->
  let B := normalise sqrt B0 in let h := normalise sqrt v in let A := potential B in
  [/\ alignment B h ^+ 2 + form (M2 S) (strong_curl S *m A) (strong_curl S *m A) = 1,
      alignment B h <= 1, alignment B h = 1 <-> norm_A sqrt A = 0
    & forall l, lowest (script_Q S) (saddle_mass S) l -> l * norm_A sqrt A ^+ 2 <= 1 - alignment B h ^+ 2].
Proof.
move=> Bx v Hv B0 N0 B h A.
have [Dh Ch Nh _] := proj2 (C61_solovev_start Hs Hreg HS Hpinv) v Hv.
have NB : norm_2 sqrt B = 1 by apply: (normalise_norm Rsqrt_is_sqrt OK).
have [D0 _ _] := C61_projected_field Hs Hreg HS Hpinv DF Bx.
have DB : strong_div S *m B = 0 by rewrite /B /normalise -scalemxAr D0 scaler0.
have [_ E1 E2] := C61_alignment Hs Hreg HS Hpinv Hv DB NB.
have bb : form (M2 S) B B = 1 by rewrite -(nrm_sq OK Rsqrt_is_sqrt) NB expr1n.
have hh : form (M2 S) h h = 1 by rewrite -(nrm_sq OK Rsqrt_is_sqrt) Nh expr1n.
have [g Ng Hline] := C58_sequence_harmonic_line Hs Hreg HS isT isT.
have Kh : dd2 S *m h = 0 by apply/(dd2_ker OK).
have [KH _] := C40_sequence_harmonic_component Hs Hreg HS Hpinv erefl erefl DB.
have [y Ey] := (Hline h).1 Kh; have [x Ex] := (Hline _).1 KH.
have Ny : y != 0 by apply/eqP => y0; move: hh; rewrite Ey y0 scale0r form0r => /eqP; rewrite eq_sym oner_eq0.
have EH : harmonic_component B = (x / y) *: h by rewrite Ex Ey scalerA divfK.
have NA2 : norm_A sqrt A ^+ 2 = form (M1 S) A A.
  by rewrite /norm_A; have [_ ->] := Rsqrt_is_sqrt (spd_ge0 (ok_M1 OK) A).
have EB : form (M2 S) B h = x / y.
  have -> : B = strong_curl S *m A + harmonic_component B by rewrite /harmonic_component addrC subrK.
  have [_ W _ _] := C25_sequence Hs Hreg HS.
  by rewrite formDl -W Ch form0r add0r EH formZl hh mulr1.
have Sp := energy_split OK U1 B; rewrite bb EH formZl formZr hh mulr1 -EB -expr2 in Sp.
have Sq : alignment B h ^+ 2 + form (M2 S) (strong_curl S *m A) (strong_curl S *m A) = 1.
  by rewrite /alignment real_normK ?num_real // addrC [RHS]Sp.
split=> //.
- by have [] := C61_alignment Hs Hreg HS Hpinv Hv DB NB.
- rewrite -[alignment B h]/(`|form (M2 S) B h|) E1 -/A; split=> [->|E].
    by rewrite /norm_A mulmx0 mxE (sqrt0 Rsqrt_is_sqrt).
  by apply: (spd_eq0 (ok_M1 OK)); rewrite -NA2 E expr0n.
- move=> l Hl; have := rayleigh_seq Hs Hreg HS erefl erefl Hl (potential_gauge OK U1 B).
  by rewrite NA2 -Sq addrC addKr.
Qed.
End Aligned.

(** ** The field of two prescribed currents *)
Section CurrentAlg.
Notation F := R_realFieldType.
Variables (n : nat) (C : 'cV[F]_n -> nat -> F) (dd : 'M[F]_n).
Hypothesis Clin : forall (a b : F) x y j, C (a *: x + b *: y) j = a * C x j + b * C y j.
Hypothesis Hrk : (\rank dd + 2)%N = n.
Variables h1 h2 : 'cV[F]_n.
Hypotheses (K1_ : dd *m h1 = 0) (K2_ : dd *m h2 = 0).
Hypothesis HP : circ_matrix C h1 h2 \in unitmx.
Let ind (u : 'rV[F]_2) : u 0 0 *: h1 + u 0 1 *: h2 = 0 -> u = 0.
Proof.
move=> E; suff : u *m circ_matrix C h1 h2 = 0 by move/(congr1 (fun M => M *m invmx (circ_matrix C h1 h2))); rewrite mulmxK // mul0mx.
apply/rowP => j; rewrite !mxE big_ord_recl big_ord1 !mxE /=.
have -> : lift ord0 ord0 = 1 :> 'I_2 by apply/val_inj.
rewrite -[u _ _ * C h1 j + _]Clin E.
by have := Clin 0 0 0 0 j; rewrite !scale0r addr0 !mul0r addr0.
Qed.
Let H : 'M[F]_(2, n) := \matrix_(i, j) (if i == 0 then h1 else h2) j 0.
Let uH (u : 'rV[F]_2) : (u *m H)^T = u 0 0 *: h1 + u 0 1 *: h2.
Proof.
apply/colP => j; rewrite !mxE big_ord_recl big_ord1 !mxE /=.
by have -> : lift ord0 ord0 = 1 :> 'I_2 by apply/val_inj.
Qed.
Lemma ker_span (b : 'cV[F]_n) : dd *m b = 0 -> exists u : 'rV[F]_2, b = u 0 0 *: h1 + u 0 1 *: h2.
Proof.
move=> Hb.
have RF : row_free H.
  rewrite -kermx_eq0; apply/eqP/row_matrixP => i; rewrite row0; apply: ind; rewrite -uH.
  by have /sub_kermxP -> := row_sub i (kermx H); rewrite trmx0.
have SH : (H <= kermx dd^T)%MS.
  apply/sub_kermxP/row_matrixP => i; rewrite row_mul row0 -[LHS]trmxK trmx_mul trmxK.
  have -> : (row i H)^T = if i == 0 then h1 else h2 by apply/colP => j; rewrite !mxE.
  by case: ifP => _; rewrite ?K1_ ?K2_ trmx0.
have RK : \rank (kermx dd^T) = 2%N by rewrite mxrank_ker mxrank_tr -{1}Hrk addKn.
have /eqmxP EH : (H == kermx dd^T)%MS by rewrite -(mxrank_leqif_eq SH) RK.
have /submxP [u Eu] : (b^T <= H)%MS by rewrite EH; apply/sub_kermxP; rewrite -trmx_mul Hb trmx0.
by exists u; rewrite -uH -Eu trmxK.
Qed.
Lemma circ_comb (u : 'rV[F]_2) (j : 'I_2) : C (u 0 0 *: h1 + u 0 1 *: h2) j = (u *m circ_matrix C h1 h2) 0 j.
Proof.
rewrite Clin !mxE big_ord_recl big_ord1 !mxE /=.
by have -> : lift ord0 ord0 = 1 :> 'I_2 by apply/val_inj.
Qed.
Lemma current_solve mu Ip It : let b := current_field C h1 h2 mu Ip It in
  [/\ dd *m b = 0, C b 0%N = mu * Ip, C b 1%N = mu * It &
    forall b', dd *m b' = 0 -> C b' 0%N = mu * Ip -> C b' 1%N = mu * It -> b' = b].
Proof.
set P := circ_matrix C h1 h2; set rhs := (\col_j (mu * (if j == 0 then Ip else It)) : 'cV[F]_2).
pose u : 'rV[F]_2 := rhs^T *m invmx P.
have Eb : current_field C h1 h2 mu Ip It = u 0 0 *: h1 + u 0 1 *: h2.
  rewrite /current_field /solve -/P -/rhs.
  by have -> : invmx P^T *m rhs = u^T; [rewrite /u trmx_mul trmxK trmx_inv | rewrite !mxE].
have Pu : u *m P = rhs^T by rewrite /u mulmxKV.
have Cb (j : 'I_2) : C (current_field C h1 h2 mu Ip It) j = mu * (if j == 0 then Ip else It).
  by rewrite Eb circ_comb -/P Pu !mxE.
split.
- by rewrite Eb mulmxDr -!scalemxAr K1_ K2_ !scaler0 addr0.
- exact: (Cb 0).
- exact: (Cb 1).
- move=> b' Kb C0 C1; have [u' Eu] := ker_span Kb; rewrite Eu Eb.
  suff -> : u' = u by [].
  apply: (can_inj (mulmxK HP)); rewrite -/P Pu; apply/rowP => j.
  rewrite -circ_comb -Eu mxE mxE.
  by case: j => -[|[|//]] Hj; [exact: C0 | exact: C1].
Qed.
End CurrentAlg.

Lemma base2 (F : fieldType) m n (A : 'M[F]_(m, n)) k : \rank A = k -> exists B : 'M[F]_(k, n), row_free B /\ (B <= A)%MS.
Proof. by case: _ /; exists (row_base A); rewrite row_base_free eq_row_base. Qed.
Section Currents.
Variables (ns ps : triple) (q : nat) (types : stype * stype * stype) (DFx : point -> mat3 R_realFieldType).
Hypothesis Hs : supported ns ps q types false true.
Hypothesis Hreg : regular_map DFx (seq_points ns ps q types).
Variable S : drseq R_realFieldType.
Hypothesis HS : new_sequence ns ps q types DFx false true = Some S.
Variables (n_q : nat) (c : nat -> R -> point).
(** circulation of the discrete 2-form with degrees of freedom y along contour j, as the test computes it *)
Notation circulation_of := (fun (y : 'cV[R_realFieldType]_(rk S K2)) (j : nat) => circ n_q DFx c (fun x k => discrete_form ns ps types y k x) j).

Lemma field_lin (a b : R_realFieldType) (x y : 'cV[R_realFieldType]_(rk S K2)) k p :
  discrete_form ns ps types (a *: x + b *: y) k p = a * discrete_form ns ps types x k p + b * discrete_form ns ps types y k p.
Proof.
rewrite /discrete_form; case: (DifferentialForm _ _ _ _) => [g|]; last by rewrite !mulr0 addr0.
rewrite !mulr_sumr -big_split; apply: eq_bigr => i _ /=.
by rewrite linearD !linearZ /= mulmxDl -!scalemxAl !mxE mulrDl !mulrA.
Qed.
Lemma circ_lin (a b : R_realFieldType) (x y : 'cV[R_realFieldType]_(rk S K2)) j :
  circulation_of (a *: x + b *: y) j = a * circulation_of x j + b * circulation_of y j.
Proof.
rewrite /circ !mulr_sumr -big_split; apply: eq_bigr => i _ /=.
rewrite mulrA mulrA -mulrDl; congr (_ * _).
rewrite /h_dl !mulr_sumr -big_split; apply: eq_bigr => m _ /=.
rewrite mulrA mulrA -mulrDl; congr (_ * _).
rewrite /star_oneform mulrA mulrA -mulrDl; congr (_ * _).
rewrite /mulv3 !mulr_sumr -big_split; apply: eq_bigr => k _ /=.
by rewrite field_lin mulrDr !mulrA ![_ * a]mulrC ![_ * b]mulrC.
Qed.

(** the field the test builds from two harmonic fields, as long as its 2 x 2 system is regular: it is divergence-free and
    current-free, its computed circulations are mu0 Ip and mu0 It, and it is the only such field -- so it does not depend
    on which pair of kernel vectors eigh returned, nor on their signs and order *)
Theorem C79_currents : forall h1 h2 : 'cV_(rk S K2), dd2 S *m h1 = 0 -> dd2 S *m h2 = 0 ->
  circ_matrix circulation_of h1 h2 \in unitmx -> forall mu0 Ip It, let b := current_field circulation_of h1 h2 mu0 Ip It in
  [/\ strong_div S *m b = 0 /\ weak_curl S *m b = 0,
      circulation_of b 0%N = mu0 * Ip /\ circulation_of b 1%N = mu0 * It,
      forall b' : 'cV_(rk S K2), strong_div S *m b' = 0 -> weak_curl S *m b' = 0 ->
        circulation_of b' 0%N = mu0 * Ip -> circulation_of b' 1%N = mu0 * It -> b' = b
    & forall h1' h2' : 'cV_(rk S K2), dd2 S *m h1' = 0 -> dd2 S *m h2' = 0 -> circ_matrix circulation_of h1' h2' \in unitmx ->
        current_field circulation_of h1' h2' mu0 Ip It = b].
Proof.
move=> h1 h2 Kh1 Kh2 HP mu0 Ip It b.
have [_ _ D2 _] := C58_sequence_betti Hs Hreg HS; rewrite /= in D2.
have [_ _ K_2 _] := C27_sequence Hs Hreg HS.
have [E0 E1 E2 E3] := current_solve circ_lin D2 Kh1 Kh2 HP mu0 Ip It.
split=> //.
- by apply/(K_2 b).2.
- by move=> b' Db Cb A B; apply: E3 => //; apply/(K_2 b').2.
- move=> h1' h2' Kh1' Kh2' HP'; have [G0 G1 G2 _] := current_solve circ_lin D2 Kh1' Kh2' HP' mu0 Ip It.
  exact: E3.
Qed.
(** the system is regular for some pair exactly if no non-zero harmonic field has two vanishing circulations *)
Theorem C79_currents_regular :
  (exists h1 h2 : 'cV_(rk S K2), [/\ dd2 S *m h1 = 0, dd2 S *m h2 = 0 & circ_matrix circulation_of h1 h2 \in unitmx]) <->
  (forall h : 'cV_(rk S K2), dd2 S *m h = 0 -> circulation_of h 0%N = 0 -> circulation_of h 1%N = 0 -> h = 0).
Proof.
have [_ _ D2 _] := C58_sequence_betti Hs Hreg HS; rewrite /= in D2.
split=> [[h1 [h2 [Kh1 Kh2 HP]]] h Kh C0 C1|Inj].
- have [u Eu] := ker_span circ_lin D2 Kh1 Kh2 HP Kh.
  suff U0 : u = 0 by rewrite Eu U0 !mxE !scale0r addr0.
  apply: (can_inj (mulmxK HP)); rewrite mul0mx; apply/rowP => j.
  rewrite -(circ_comb circ_lin) -Eu mxE.
  by case: j => -[|[|//]] Hj; [exact: C0 | exact: C1].
- have RK : \rank (kermx (dd2 S)^T) = 2%N by rewrite mxrank_ker mxrank_tr -{1}D2 addKn.
  have [B [RF SB]] := base2 RK.
  have KB i : dd2 S *m (row i B)^T = 0.
    have : (row i B <= kermx (dd2 S)^T)%MS by apply: submx_trans (row_sub i B) SB.
    by move/sub_kermxP => E; apply: trmx_inj; rewrite trmx_mul trmxK E trmx0.
  exists (row 0 B)^T, (row 1 B)^T; split=> //.
  rewrite -row_free_unit -kermx_eq0; apply/eqP/row_matrixP => i; rewrite row0; set u := row i _.
  have Pu : u *m circ_matrix circulation_of (row 0 B)^T (row 1 B)^T = 0 by apply/sub_kermxP/row_sub.
  clearbody u.
  have Z : u 0 0 *: (row 0 B)^T + u 0 1 *: (row 1 B)^T = 0.
    apply: Inj.
    + by rewrite mulmxDr -!scalemxAr !KB !scaler0 addr0.
    + by rewrite -[0%N]/((0 : 'I_2) : nat) (circ_comb circ_lin) Pu mxE.
    + by rewrite -[1%N]/((1 : 'I_2) : nat) (circ_comb circ_lin) Pu mxE.
  have EB : u *m B = 0.
    apply: trmx_inj; rewrite trmx0 -Z; apply/colP => j; rewrite !mxE big_ord_recl big_ord1 /=.
    have -> : lift ord0 0 = 1 :> 'I_2 by apply/val_inj.
    by [].
  by apply: (row_free_inj RF); rewrite mul0mx.
Qed.
End Currents.

(** ** regular systems exist: in the identity geometry, for every number of samples some pair of contours determines the
    harmonic fields *)
Section Int2.
Local Open Scope R_scope.
Lemma int2_lin (f g : R -> R -> R) v w a b : is_int2 f v -> is_int2 g w -> is_int2 (fun x y => a * f x y + b * g x y) (a * v + b * w).
Proof.
move=> [F [HF IF]] [G [HG IG]]; exists (fun s => a * F s + b * G s); split.
- move=> s Hs; have H1 := is_RInt_scal _ _ _ a _ (HF s Hs); have H2 := is_RInt_scal _ _ _ b _ (HG s Hs).
  exact: is_RInt_plus H1 H2.
- have H1 := is_RInt_scal _ _ _ a _ IF; have H2 := is_RInt_scal _ _ _ b _ IG.
  exact: is_RInt_plus H1 H2.
Qed.
Lemma RInt_zero a b : is_RInt (fun _ : R => 0) a b 0.
Proof. by have := is_RInt_const a b 0; rewrite /Hierarchy.scal /= /Hierarchy.mult /= Rmult_0_r. Qed.
Lemma int2_step (A v w : R) : A + v * w = 1 * A + w * v. Proof. ring. Qed.
End Int2.
Lemma int2_zero : is_int2 (fun _ _ => R0) R0.
Proof.
by exists (fun _ => R0); split=> *; exact: RInt_zero.
Qed.
Lemma int2_sum n (f : nat -> R -> R -> R) (w v : R) : (forall i, (i < n)%N -> is_int2 (f i) v) ->
  is_int2 (fun x y => (\sum_(i < n) f i x y * w)%R) (n%:R * (v * w))%R.
Proof.
elim: n => [|n IH] H.
  by rewrite mul0r; apply: int2_ext int2_zero => x y; rewrite big_ord0.
have H1 := int2_lin 1 w (IH (fun i Hi => H i (ltnW Hi))) (H n (ltnSn n)).
rewrite -addn1 natrD mulrDl mul1r; have -> : n%:R * (v * w) + v * w = Rplus (Rmult 1 (n%:R * (v * w))) (Rmult w v).
  exact: int2_step.
apply: int2_ext H1 => x y; rewrite addn1 big_ord_recr.
rewrite /=; exact: int2_step.
Qed.

Lemma det_22 (F : fieldType) (A : 'M[F]_2) : \det A = A 0 0 * A 1 1 - A 0 1 * A 1 0.
Proof.
rewrite (expand_det_row _ 0) big_ord_recl big_ord1 /cofactor !det_mx11 !mxE /=.
rewrite /bump /= expr0 expr1 mul1r mulN1r mulrN; congr (_ * _ - _ * _).
all: by congr (A _ _); apply/val_inj.
Qed.
Section Identity.
Variables (ns ps : triple) (q : nat) (types : stype * stype * stype).
Hypothesis Hs : supported ns ps q types false true.
Variable S : drseq R_realFieldType.
Hypothesis HS : new_sequence ns ps q types (fun _ => id33) false true = Some S.
Hypothesis Hreg : regular_map (fun _ => id33) (seq_points ns ps q types).
Lemma id_star v a : (a < 3)%N -> star_oneform id33 v a = v a.
Proof.
move=> Ha; rewrite /star_oneform; have -> : det33 id33 = 1 by rewrite /det33 /id33 /= !mulr0 !mulr1 !addr0 !subr0.
rewrite divr1 /mulv3 !big_ord_recl big_ord0 /mul33 !big_ord_recl !big_ord0 /tr33 /id33 /= /bump /= !addn0.
by case: a Ha => [|[|[|//]]] _ /=; rewrite !(mul0r, mulr0, mul1r, mulr1, add0r, addr0).
Qed.
Lemma id_circ n_q r1 z1 r2 t2 (y : 'cV[R_realFieldType]_(rk S K2)) : let f := discrete_form ns ps types y in
  let C j := circ n_q (fun _ => id33) (contour r1 z1 r2 t2) (fun x k => f k x) j in
  C 0%N = \sum_(i < n_q) f 1%N (r1, Rdiv (INR i) (INR n_q), z1) * (n_q%:R)^-1 /\
  C 1%N = \sum_(i < n_q) f 2%N (r2, t2, Rdiv (INR i) (INR n_q)) * (n_q%:R)^-1.
Proof.
move=> f C; split; rewrite /C /circ; apply: eq_bigr => i _; congr (_ * _); rewrite /h_dl !big_ord_recl big_ord0.
all: by rewrite !id_star //= /contour /dcontour /arr3 /= !(mulr0, mulr1, add0r, addr0).
Qed.
Theorem C79_currents_exist : forall n_q, (0 < n_q)%N -> exists r1 z1 r2 t2 : R, exists h1 h2 : 'cV_(rk S K2),
  [/\ dd2 S *m h1 = 0, dd2 S *m h2 = 0 &
    circ_matrix (fun y j => circ n_q (fun _ => id33) (contour r1 z1 r2 t2) (fun x k => discrete_form ns ps types y k x) j) h1 h2 \in unitmx].
Proof.
move=> n Hn; have [_ Fx] := C68_harmonic_flux Hs Hreg HS isT.
have [g [Kg Fg]] := Fx R0 R1; have [h [Kh Fh]] := Fx R1 R0.
pose a (y : 'cV[R_realFieldType]_(rk S K2)) r z : R := \sum_(i < n) discrete_form ns ps types y 1%N (r, Rdiv (INR i) (INR n), z) * (n%:R)^-1.
pose b (y : 'cV[R_realFieldType]_(rk S K2)) r t : R := \sum_(i < n) discrete_form ns ps types y 2%N (r, t, Rdiv (INR i) (INR n)) * (n%:R)^-1.
have Hi i : (i < n)%N -> closed01 (Rdiv (INR i) (INR n)).
  move=> Hi; have Pn : Rlt 0 (INR n) by apply: lt_0_INR; apply/ssrnat.ltP.
  split; first by apply: Rle_mult_inv_pos => //; exact: pos_INR.
  apply/(Rmult_le_reg_r (INR n)) => //; rewrite /Rdiv Rmult_assoc Rinv_l ?Rmult_1_r ?Rmult_1_l; last by apply: Rgt_not_eq.
  by apply: le_INR; apply/ssrnat.leP/ltnW.
have H00 : closed01 0 by split; [apply: Rle_refl | apply: Rle_0_1].
have nn (v : R) : n%:R * (v * (n%:R)^-1) = v by rewrite mulrCA divff ?mulr1 // pnatr_eq0 -lt0n.
have Ia y v : (forall t, closed01 t -> poloidal_flux (fun c => discrete_form ns ps types y c) t v) -> is_int2 (a y) v.
  move=> H; rewrite -[v]nn; apply: (@int2_sum n (fun i r z => discrete_form ns ps types y 1%N (r, Rdiv (INR i) (INR n), z))).
  by move=> i Hn'; apply: H; apply: Hi.
have Ib y v : (forall z, closed01 z -> toroidal_flux (fun c => discrete_form ns ps types y c) z v) -> is_int2 (b y) v.
  move=> H; rewrite -[v]nn; apply: (@int2_sum n (fun i r t => discrete_form ns ps types y 2%N (r, t, Rdiv (INR i) (INR n)))).
  by move=> i Hn'; apply: H; apply: Hi.
have Ag : is_int2 (a g) R1 by apply: Ia => t Ht; apply: (proj2 (Fg t 0 Ht H00)).
have Ah : is_int2 (a h) R0 by apply: Ia => t Ht; apply: (proj2 (Fh t 0 Ht H00)).
have Bh : is_int2 (b h) R1 by apply: Ib => z Hz; apply: (proj1 (Fh 0 z H00 Hz)).
have [[r1 [z1 [r2 [t2 N]]]]|No] := Classical_Prop.classic (exists r1 z1 r2 t2, a g r1 z1 * b h r2 t2 - b g r2 t2 * a h r1 z1 <> 0).
  exists r1, z1, r2, t2, g, h; split=> //.
  rewrite unitmxE det_22 !mxE /= unitfE; apply/eqP => E; apply: N.
  have [G0 G1] := id_circ n r1 z1 r2 t2 g; have [H0 H1] := id_circ n r1 z1 r2 t2 h.
  by move: E; rewrite G0 G1 H0 H1.
have Z r t : b h r t = R0.
  have I := int2_lin (b h r t) (- b g r t) Ag Ah.
  have I0 : is_int2 (fun x y => Rplus (Rmult (b h r t) (a g x y)) (Rmult (- b g r t) (a h x y))) R0.
    apply: int2_ext int2_zero => x y; case: (eqVneq (a g x y * b h r t - b g r t * a h x y) 0) => [E|/eqP N].
      by rewrite -[RHS]E [a g x y * _]mulrC RmultE RmultE RplusE mulNr.
    by case: No; exists x, y, r, t.
  have := int2_unique I I0; rewrite Rmult_0_r Rmult_1_r Rplus_0_r //.
have : R1 = R0 by apply: (int2_unique Bh); apply: int2_ext int2_zero.
by move=> E; case: R1_neq_R0; exact: E.
Qed.
End Identity.

(** the hypotheses are met: the ellipse of the test, a sequence with a polar axis for the alignment, one without for the
    currents *)
Example C79_nonvacuous :
  [/\ exists F, rotating_ellipse_map (Rdiv 1 3) 1 3 = Some F /\ harmonic_field F (helmholtz_B (Rdiv 1 3) F),
      exists F, rotating_ellipse_map (Rdiv 1 3) (Rdiv 3 2) 3 = Some F /\ ~ harmonic_field F (helmholtz_B (Rdiv 1 3) F),
      exists (S : drseq R_realFieldType) (v : 'cV_(rk S K2)),
        [/\ supported (8, 8, 1)%N (3, 3, 0)%N 4 (Clamped, Periodic, Constant) true true,
          new_sequence (8, 8, 1)%N (3, 3, 0)%N 4 (Clamped, Periodic, Constant) (fun _ => id33) true true = Some S
          & eigh_first (M2 S *m dd2 S) v]
    & exists (S : drseq R_realFieldType), exists c, exists h1 h2 : 'cV[R_realFieldType]_(rk S K2),
        [/\ supported (8, 8, 1)%N (3, 3, 0)%N 4 (Clamped, Periodic, Constant) false true,
          new_sequence (8, 8, 1)%N (3, 3, 0)%N 4 (Clamped, Periodic, Constant) (fun _ => id33) false true = Some S,
          dd2 S *m h1 = 0 /\ dd2 S *m h2 = 0
          & circ_matrix (fun y j => circ 256 (fun _ => id33) c
              (fun x k => discrete_form (8, 8, 1)%N (3, 3, 0)%N (Clamped, Periodic, Constant) y k x) j) h1 h2 \in unitmx]] /\
  (forall mu0 Ip It e, Rlt 0 e /\ Rlt e 1 -> exists (DFx : point -> mat3 R_realFieldType) (two : point -> vec3 R_realFieldType),
     forall r t z, Rle 0 r /\ Rle r 1 -> is_jacobian (hollow_F e) (r, t, z) (DFx (r, t, z)) /\
       forall k, (k < 3)%N -> pushforward K2 (DFx (r, t, z)) (two (r, t, z)) k = coord k (hollow_B mu0 Ip It e (r, t, z))).
Proof.
split; last first.
  move=> mu0 Ip It e He; exists (fun x => hol_mx e x.1.1 x.1.2 x.2), (fun x => hol_two mu0 Ip It e x.1.1 x.1.2) => r t z Hr; split; first exact: hol_jac.
  move=> k Hk; have [DF [A B C]] := hol_forms mu0 Ip It He t z Hr; have [_ <-] := C k Hk.
  have E i j : (i < 3)%N -> (j < 3)%N -> hol_mx e r t z i j = DF i j.
    by move=> Hi Hj; apply: (is_partial_unique (hol_jac e r t z Hi Hj) (A i j Hi Hj)).
  by rewrite /= /mulv3 /det33 !E //; congr (_ / _); apply: eq_bigr => i _; rewrite E.
have [H1 _ H3 _ H5] := SequenceR_nonvacuous.
split.
- case E : (rotating_ellipse_map (Rdiv 1 3) 1 3) => [F|]; last first.
    move: E; rewrite /rotating_ellipse_map; repeat (case: Rlt_dec || case: Rle_dec => //=); lra.
  exists F; split=> //; apply: (C79_helmholtz_field _ E); lra.
- case E : (rotating_ellipse_map (Rdiv 1 3) (Rdiv 3 2) 3) => [F|]; last first.
    move: E; rewrite /rotating_ellipse_map; repeat (case: Rlt_dec || case: Rle_dec => //=); lra.
  exists F; split=> //; apply: (C79_helmholtz_field_refuted _ _ _ _ E); lra.
- have [S [v [A B _ C _]]] := C61_nonvacuous; by exists S, v.
- have H1' : supported (8, 8, 1)%N (3, 3, 0)%N 4 (Clamped, Periodic, Constant) false true.
    split=> //; split=> //; last 1 first.
    + by right.
    + by split; rewrite /=; lra.
  have [S HS] := C26_constructor_total H1' (H3 _).
  have [r1 [z1 [r2 [t2 [h1 [h2 [A B C]]]]]]] := C79_currents_exist H1' HS (H3 _) (isT : (0 < 256)%N).
  by exists S, (contour r1 z1 r2 t2), h1, h2.
Qed.
Print Assumptions C79_helmholtz_field.
Print Assumptions C79_helmholtz_field_refuted.
Print Assumptions C79_hollow_field.
Print Assumptions C79_hollow_field_refuted.
Print Assumptions C79_integrand.
Print Assumptions C79_circulation.
Print Assumptions C79_alignment.
Print Assumptions C79_currents.
Print Assumptions C79_currents_regular.
Print Assumptions C79_currents_exist.
Print Assumptions C79_nonvacuous.
