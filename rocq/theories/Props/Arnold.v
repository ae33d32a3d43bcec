(** Property theorems C76: lower bounds of the magnetic energy by its flux and its helicity, and the force-free
    (Beltrami, Taylor) states, for the polar Dirichlet sequences of the relaxation scripts. *)
From Coq Require Import Reals Lra.
From mathcomp Require Import all_ssreflect all_algebra zify.
From Verif Require Import Model.RBase Model.Spline Model.Quad Model.Forms Model.DeRham Model.FormEval Model.Geometry Model.SeqR Model.Relaxation Model.Eigen.
From Verif Require Import Spec.SeqSpec Spec.FormSpec Spec.GeomSpec Spec.SeqRSpec Spec.CalculusSpec Spec.SmoothSpec Spec.FluxSpec Spec.SpectrumSpec Spec.TopologySpec Spec.RelaxSpec Spec.HelicitySpec.
From Verif Require Import Proof.RField Proof.SeqFlux Proof.RelaxAlg Proof.RelaxLoop Proof.RelaxRun Proof.RelaxHelicity Proof.HelicitySeq Proof.Spectral
  Proof.SpectrumMat Proof.SpectrumSeq Proof.ForceAlg Proof.Arnold
  Props.DeRham Props.SequenceR Props.Relaxation Props.Topology Props.Spectrum Props.Helicity Props.Flux Props.Pressure.
Set Implicit Arguments.
Unset Strict Implicit.
Unset Printing Implicit Defensive.
Import Order.TTheory GRing.Theory Num.Theory.
Local Open Scope ring_scope.

Lemma sq_sub (F : realFieldType) (x y : F) : (x - y) * (x - y) = x * x - 2%:R * (x * y) + y * y.
Proof. by rewrite -expr2 sqrrB !expr2 mulr_natl. Qed.

Lemma sum_sq_sub (F : realFieldType) n m (u v : nat -> nat -> F) (w : nat -> F) :
  \sum_(j < n) (\sum_(a < m) (u j a - v j a) * (u j a - v j a)) * w j
  = \sum_(j < n) (\sum_(a < m) u j a * u j a) * w j - 2%:R * (\sum_(j < n) (\sum_(a < m) u j a * v j a) * w j)
    + \sum_(j < n) (\sum_(a < m) v j a * v j a) * w j.
Proof.
rewrite mulr_sumr -sumrB -big_split; apply: eq_bigr => j _ /=.
rewrite mulrA -mulrBl -mulrDl; congr (_ * _); rewrite mulr_sumr -sumrB -big_split; apply: eq_bigr => a _ /=.
by rewrite sq_sub.
Qed.

Lemma double_half (F : realFieldType) (x : F) : x = x / 2%:R + x / 2%:R.
Proof. by rewrite -mulr2n -mulr_natr mulfVK // pnatr_eq0. Qed.

Lemma shuf4 (F : realFieldType) (w k c d : F) : w * (k * c * d) = k * w * c * d.
Proof. by rewrite !mulrA [w * k]mulrC. Qed.

Section Arnold.
Variables (ns ps : triple) (q : nat) (types : stype * stype * stype) (DFx : point -> mat3 R_realFieldType)
  (polar dirichlet : bool).
Hypothesis Hs : supported ns ps q types polar dirichlet.
Hypothesis Hreg : regular_map DFx (seq_points ns ps q types).
Variable S : drseq R_realFieldType.
Hypothesis HS : new_sequence ns ps q types DFx polar dirichlet = Some S.
Hypothesis Hpol : polar = true.
Hypothesis Hdir : dirichlet = true.
Notation Kd := (pairing_defect ps : R_realFieldType).
Notation field y := (fun c => discrete_form ns ps types y c).
Notation vec1 := 'cV[R_realFieldType]_(rk S K1).
Notation vec2 := 'cV[R_realFieldType]_(rk S K2).
Notation G := (strong_grad S). Notation C := (strong_curl S).
Notation W := (weak_div S). Notation K := (weak_curl S).
Notation ip := (phys_l2 ns ps q types DFx).
Notation val := (phys ns ps q types DFx).
Let OK := seq_ok Hs Hreg HS.
Let U1 := polar_dirichlet_dd1 Hs Hreg HS Hpol Hdir.

(** ** The field of least energy for its flux *)
(** The vector potential used by the diagnostics is in Coulomb gauge; the harmonic component carries no
    current, is orthogonal to every curl, and the energies add up.  For every field, divergence-free or not. *)
Theorem C76_split : forall B : vec2,
  [/\ W *m potential B = 0, K *m harmonic_component B = 0,
      forall a : vec1, form (M2 S) (C *m a) (harmonic_component B) = 0
    & energy B = energy (C *m potential B) + energy (harmonic_component B)].
Proof.
move=> B; split.
- exact: (potential_gauge OK U1).
- exact: (harmonic_current OK U1).
- exact: (harmonic_orth OK U1).
- by rewrite !energyE (energy_split OK U1) mulrDr.
Qed.

(** Among all divergence-free fields with the toroidal flux of B the harmonic component of B has the least
    energy, and it is the only one with that energy *)
Theorem C76_flux_minimum : forall (B B' : vec2) (z v : R), strong_div S *m B = 0 -> strong_div S *m B' = 0 -> closed01 z ->
  toroidal_flux (field B) z v -> toroidal_flux (field B') z v ->
  energy (harmonic_component B) <= energy B' /\ (energy B' = energy (harmonic_component B) -> B' = harmonic_component B).
Proof.
move=> B B' z v HB HB' Hz Ft Ft'.
have [Vt _] := flux_value Hs Hreg HS Hdir HB; have [Vt' _] := flux_value Hs Hreg HS Hdir HB'.
have El : B' - B = (-1) *: B + B' by rewrite scaleN1r addrC.
have Hd : strong_div S *m (B' - B) = 0 by rewrite mulmxBr HB HB' subrr.
have [Vd _] := flux_value Hs Hreg HS Hdir Hd.
have E0 : Phi_t ns (B' - B) 0%N = 0.
  rewrite El Phi_t_lin (int2_unique (Vt z Hz) Ft) (int2_unique (Vt' z Hz) Ft').
  by rewrite mulN1r addNr.
have [A HA] : exists A : vec1, B' - B = C *m A.
  apply/(C68_flux_potential Hs Hreg HS Hdir Hd Hz Hz); split; last by rewrite Hpol.
  by have := Vd z Hz; rewrite E0.
have EB : B' = B + C *m A by rewrite -HA addrC subrK.
have Eh : harmonic_component B' = harmonic_component B by rewrite EB (harmonic_curl OK U1).
have [_ _ _ En] := C76_split B'; rewrite -Eh En.
have P : 0 <= energy (C *m potential B') by exact: (energy_ge0 OK).
split; first by rewrite ler_addr.
move/eqP; rewrite -subr_eq0 addrK energyE mulf_eq0 invr_eq0 pnatr_eq0 /= => /eqP /(spd_eq0 (ok_M2 OK)) E.
by rewrite {1}(harmonic_split B') E add0r.
Qed.

(** ** The bound by the helicity *)
(** H = P12 B, the magnetic field as a 1-form, is never larger than B *)
Theorem C76_projection_contracts : forall B : vec2, form (M1 S) (P12 S *m B) (P12 S *m B) <= form (M2 S) B B.
Proof.
move=> B; set H := P12 S *m B.
have E : form (M1 S) H H = form (M12 S) H B by rewrite (M12_P12 OK).
have := E; rewrite (ip1 Hs Hreg HS) (ip12 Hs Hreg HS) (ip2 Hs Hreg HS) => {}E.
have : 0 <= ip 3 (fun j a => val H j a - val B j a) (fun j a => val H j a - val B j a).
  rewrite /phys_l2; apply: sumr_ge0 => j _; apply: mulr_ge0; first by apply: sumr_ge0 => a _; rewrite -expr2 sqr_ge0.
  have [En Ew [_ _ HO _]] := seq_summary' Hs Hreg HS; have Hj : (j < n_q S)%N by rewrite En.
  by have [Hd Hw] := HO _ Hj; rewrite -Ew; apply: mulr_ge0; apply: ltW.
have -> : ip 3 (fun j a => val H j a - val B j a) (fun j a => val H j a - val B j a)
   = ip 3 (val H) (val H) - 2%:R * ip 3 (val H) (val B) + ip 3 (val B) (val B).
  exact (@sum_sq_sub R_realFieldType (length (seq_points ns ps q types)) 3 (val H) (val B)
    (fun j => qwt ns ps q types j * det33 (DFx (qpt ns ps q types j)))).
by rewrite -E mulr_natl mulr2n opprD addrA subrr sub0r addrC subr_ge0.
Qed.

(** Arnold's inequality.  l is the smallest positive eigenvalue of the cavity problem curl curl u = l u (the
    lowest squared frequency of the domain, C62).  Every field has energy at least sqrt(3 l) / 4 times
    its helicity, and sqrt(l) / 2 if it has no harmonic part, i.e. is the curl of a potential. *)
Lemma rayleigh_seq (l : R_realFieldType) : lowest (script_Q S) (saddle_mass S) l ->
  forall A : vec1, W *m A = 0 -> l * form (M1 S) A A <= form (M2 S) (C *m A) (C *m A).
Proof.
move=> [l0 _ Hl] A HA.
have Edc : double_curl S = C^T *m M2 S *m C by rewrite (double_curlE OK) mulmxA (MK OK).
have HD : (double_curl S)^T = double_curl S by rewrite Edc; apply: congrT; case: (ok_M2 OK).
have [V [d [E1 E2]]] := @pencil R_rcfType _ (double_curl S) (M1 S) HD (proj1 (ok_M1 OK)) (proj2 (ok_M1 OK)).
have UM := M_unit OK (k := K1) (fun e => ltac:(discriminate)).
have E3 i : K *m (C *m col i V) = d 0 i *: col i V.
  have E3 : K *m C *m V = V *m diag_mx d.
    by have := cong_eigen E1 E2; rewrite (double_curlE OK) !(mul2 (M1 S)) => /(can_inj (mulKmx UM)).
  rewrite -(mul2 K); have -> : K *m C *m col i V = col i (V *m diag_mx d) by rewrite -E3 !colE mulmxA.
  apply/colP => k; rewrite !mxE (bigD1 i) //= big1 ?addr0 => [|j Hj]; first by rewrite mxE eqxx mulr1n mulrC.
  by rewrite mxE (negbTE Hj) mulr0n mulr0.
have Nz i : col i V != 0.
  apply/eqP => E; have := cong_diag (A := M1 S) (d := const_mx 1) (V := V) i.
  by rewrite diag_const_mx => /(_ E1); rewrite E form0l mxE => /eqP; rewrite eq_sym oner_eq0.
have -> : form (M2 S) (C *m A) (C *m A) = form (double_curl S) A A by rewrite Edc form_sandwich.
apply: (rayleigh E1 E2) => i Hi.
case: (ltP 0 (d 0 i)) => Hd.
  suff : l <= d 0 i by rewrite leNgt Hi.
  apply: (Hl _ (col_mx (col i V) 0)) => //; apply/(C62_cavity Hs Hreg HS); rewrite mulmx0 Nz; split=> //.
  rewrite -[col i V]scale1r -(mulVf (lt0r_neq0 Hd)) -scalerA -E3 -scalemxAr.
  by rewrite (wdiv_wcurl_0 OK) scaler0.
have d0 : d 0 i = 0.
  apply/eqP; rewrite eq_le Hd /=; rewrite -(cong_diag i E2) Edc form_sandwich; exact: (spd_ge0 (ok_M2 OK)).
have Z : C *m col i V = 0 by apply: (curlcurl0 OK); rewrite E3 d0 scale0r.
rewrite (exact1 OK U1 Z) -[LHS]opprK -(ok_wdiv OK) HA form0r oppr0 //.
Qed.
Theorem C76_arnold : forall l, lowest (script_Q S) (saddle_mass S) l -> forall B : vec2,
  3%:R * l * helicity B ^+ 2 <= 16%:R * energy B ^+ 2 /\
  (harmonic_component B = 0 -> l * helicity B ^+ 2 <= 4%:R * energy B ^+ 2).
Proof.
move=> l Hl B; have l0 : 0 <= l by case: Hl => /ltW.
have R := rayleigh_seq Hl; split; first exact: (arnold OK U1 C76_projection_contracts l0 R).
exact: (arnold0 OK U1 C76_projection_contracts l0 R).
Qed.

(** ** Force-free states *)
(** A field whose current is mu times the field (Beltrami) has no force; a midpoint evaluation started there
    returns it unchanged if there is no resistivity, and otherwise only applies the resistive diffusion *)
Theorem C76_beltrami : forall (mu : R_realFieldType) (B : vec2), K *m B = mu *: (P12 S *m B) ->
  is_force ns ps q types DFx B 0 /\
  forall (pinv : 'M[R_realFieldType]_(rk S K3)), dd3 S *m pinv *m dd3 S = dd3 S -> forall lstsq ts (st : rstate S),
    newton ts = false -> B_n st = B -> B_guess st = B ->
    B_nplus1 pinv lstsq ts st = B - (dt_ st * eta st) *: (C *m (K *m B)).
Proof.
move=> mu B HB; split; first by apply/(force_iff Hs Hreg HS); rewrite (beltrami_force OK HB).
move=> pinv Hpinv lstsq ts st Hn E1 E2; have OK' := C38_sequence_ok Hs Hreg HS Hpinv.
by rewrite (@beltrami_step _ S pinv OK' lstsq ts mu st) ?E1 ?E2.
Qed.
(** ** Taylor states: least energy for given helicity, no flux *)
(** among the fields without harmonic part (no flux, C68) that have the helicity of B0 one has least energy *)
Theorem C76_taylor_exists : forall B0 : vec2, harmonic_component B0 = 0 ->
  exists B : vec2, [/\ harmonic_component B = 0, helicity B = helicity B0 &
    forall B' : vec2, harmonic_component B' = 0 -> helicity B' = helicity B0 -> energy B <= energy B'].
Proof.
move=> B0 H0; case: (altP (helicity B0 =P 0)) => [E0|N0].
  exists 0; split.
  - by rewrite /harmonic_component /potential /solve !mulmx0 subrr.
  - by rewrite E0 (helicityE OK) /potential mulmx0 /solve mulmx0 form0l.
  - by move=> B' _ _; rewrite {1}energyE form0l mulr0; exact: (energy_ge0 OK).
apply: (taylor_exists OK U1 Rsqrt_is_sqrt) H0 N0 => A HA.
have [P1 P2] := dd1_spd OK U1; exact: (@pencil R_rcfType _ A (M1 S *m dd1 S) HA P1 P2).
Qed.
(** its current is mu B with mu = 2 energy / helicity (0 for the zero field), up to the defect of the discrete
    integration by parts: against every Coulomb test field the difference is bounded by the defect.  mu^2 is at
    least the lowest eigenvalue of the cavity *)
Theorem C76_taylor_beltrami : forall B : vec2, harmonic_component B = 0 ->
  (forall B' : vec2, harmonic_component B' = 0 -> helicity B' = helicity B -> energy B <= energy B') ->
  let mu := 2%:R * energy B / helicity B in
  (forall l, helicity B != 0 -> lowest (script_Q S) (saddle_mass S) l -> l <= mu ^+ 2) /\
  forall a : vec1, W *m a = 0 ->
    `| form (M1 S) a (K *m B - mu *: (P12 S *m B)) | <= Kd * (`|mu| / 2%:R) * coef_norm (potential B) * coef_norm a.
Proof.
move=> B Hh Bmin mu; split.
  move=> l h0 /C76_arnold /(_ B) [_ /(_ Hh) H].
  have h2 : 0 < helicity B ^+ 2 by rewrite lt_def sqrf_eq0 h0 sqr_ge0.
  by rewrite -(ler_pmul2r h2) /mu -exprMn mulfVK // exprMn -natrX.
move=> a Ha.
have Z0 : helicity (0 : vec2) = 0 by rewrite (helicityE OK) /potential mulmx0 /solve mulmx0 form0l.
have Zh : harmonic_component (0 : vec2) = 0 by rewrite /harmonic_component /potential /solve !mulmx0 subrr.
case: (altP (helicity B =P 0)) => [E0|k0].
  have B0 : B = 0.
    apply: (spd_eq0 (ok_M2 OK)); apply/eqP; rewrite eq_le (spd_ge0 (ok_M2 OK)) andbT.
    have := Bmin 0 Zh; rewrite Z0 E0 => /(_ erefl); rewrite !energyE form0l ler_pmul2l ?invr_gt0 ?ltr0n //.
  have -> : form (M1 S) a (K *m B - mu *: (P12 S *m B)) = 0 by rewrite B0 !mulmx0 scaler0 subrr form0r.
  have -> : mu = 0 by rewrite /mu E0 invr0 mulr0.
  by rewrite normr0 mul0r mulr0 !mul0r.
have P := taylor_polar OK U1 Rsqrt_is_sqrt k0 erefl Hh Bmin a.
rewrite (potential_coulomb OK U1 Ha) in P.
have EB : B = C *m potential B by have := harmonic_split B; rewrite Hh addr0.
have [I _] := C40_integration_by_parts Hs Hreg HS Hdir.
have {}I := I (potential B) a; rewrite -EB in I.
have E : form (M1 S) a (K *m B - mu *: (P12 S *m B)) = mu / 2%:R * (form (M12 S) (potential B) (C *m a) - form (M12 S) a B).
  rewrite formDr formNr formZr (ok_wcurl OK) (formC _ _ (proj1 (ok_M2 OK))) P -(M12_P12 OK).
  have -> : energy B / helicity B = mu / 2%:R by apply: (@mulIf _ (2%:R : R_realFieldType)); rewrite ?pnatr_eq0 // (mulfVK (x := 2%:R)) ?pnatr_eq0 // /mu [LHS]mulrC mulrA.
  by rewrite [X in _ - X * _](double_half mu); move: (form (M12 S) _ _) (form (M12 S) _ _) (mu / 2%:R) => x y w;
     rewrite mulrDr mulrBr mulrDl opprD addrA addrK.
rewrite E normrM normf_div (@ger0_norm _ 2%:R) ?ler0n //.
have n0 : 0 <= `|mu| / 2%:R by rewrite divr_ge0 ?ler0n ?normr_ge0.
apply: le_trans (ler_wpmul2l n0 I) _.
by rewrite shuf4.
Qed.
(** ** Runs *)
(** Every field and every recorded value of every relaxation run (all schedules of faults, rejections, step
    sizes) obeys the two bounds: as long as no perturbation is applied the energy never falls below that of the
    harmonic component of the initial field, and never below sqrt(3 l) / 4 times the current helicity *)
Theorem C76_run : forall (pinv : 'M[R_realFieldType]_(rk S K3)), dd3 S *m pinv *m dd3 S = dd3 S ->
  forall DF lstsq fault cfg st0, c_solver_tol cfg < 1 ->
  (forall n, (0 < n)%N -> n = c_apply_pert_after cfg -> c_pert_strength cfg <= 0) ->
  let t0 := Trace [::] [::] [::] [::] [::] [::] [::] [::] [::] [::] in
  forall n, let t := trace_at (S := S) sqrt pinv DF lstsq fault cfg t0 st0 n in
  energy (harmonic_component (B_n st0)) <= energy (B_n (state_at sqrt pinv DF lstsq fault cfg t0 st0 n)) /\
  forall m, (m < size (energy_trace t))%N ->
    energy (harmonic_component (B_n st0)) <= nth 0 (energy_trace t) m /\
    forall l, lowest (script_Q S) (saddle_mass S) l -> 3%:R * l * nth 0 (helicity_trace t) m ^+ 2 <= 16%:R * nth 0 (energy_trace t) m ^+ 2.
Proof.
move=> pinv Hpinv DF lstsq fault cfg st0 Ht Hp t0 n.
have Hc := C40_sequence_harmonic_conserved Hs Hreg HS Hpinv Hpol Hdir DF lstsq fault t0 st0 Ht Hp.
have low (B : vec2) : energy (harmonic_component B) <= energy B.
  by have [_ _ _ ->] := C76_split B; rewrite ler_addr (energy_ge0 OK).
split; first by rewrite -(Hc n); exact: low.
have [[_ _ Ee Eh _] _] := C44_recorded sqrt pinv DF lstsq fault cfg t0 st0 n.
move=> m; rewrite /= Ee Eh /=; set rec := [seq i <- _ | _].
have Es : forall f : vec2 -> R_realFieldType, f (B_n st0) :: [seq f (B_n (state_at sqrt pinv DF lstsq fault cfg t0 st0 i)) | i <- rec]
   = [seq f (B_n (state_at sqrt pinv DF lstsq fault cfg t0 st0 i)) | i <- 0%N :: rec] by [].
rewrite (Es (@energy _ S)) (Es (@helicity _ S)) size_map => Hm; rewrite !(nth_map 0%N) //.
split; first by rewrite -(Hc (nth 0%N (0%N :: rec) m)); exact: low.
by move=> l /C76_arnold /(_ (B_n (state_at sqrt pinv DF lstsq fault cfg t0 st0 (nth 0%N (0%N :: rec) m)))) [].
Qed.
End Arnold.
Print Assumptions C76_split.
Print Assumptions C76_flux_minimum.
Print Assumptions C76_projection_contracts.
Print Assumptions C76_arnold.
Print Assumptions C76_beltrami.
Print Assumptions C76_taylor_exists.
Print Assumptions C76_taylor_beltrami.
Print Assumptions C76_run.

(** hypotheses met: the scripts' polar Dirichlet discretisation has a lowest cavity frequency, a divergence-free
    field with non-zero harmonic component (non-zero flux), which is force-free with mu = 0, non-zero curls (fields
    without harmonic component), and perturbation-free runs with accepted iterations (C40_nonvacuous) *)
Example C76_nonvacuous : exists S : drseq R_realFieldType,
  [/\ new_sequence (8, 8, 1)%N (3, 3, 0)%N 4 (Clamped, Periodic, Constant) (fun _ => id33) true true = Some S,
      supported (8, 8, 1)%N (3, 3, 0)%N 4 (Clamped, Periodic, Constant) true true,
      exists l, lowest (script_Q S) (saddle_mass S) l,
      exists B : 'cV_(rk S K2), [/\ strong_div S *m B = 0, B != 0, harmonic_component B = B & weak_curl S *m B = 0 *: (P12 S *m B)]
    & exists B : 'cV_(rk S K2), [/\ B != 0, harmonic_component B = 0 & 0 < energy B]].
Proof.
have [H1 _ H3 _ H5] := SequenceR_nonvacuous.
have [S [HS U1 _ [_ NC] [B HD HB]]] := C58_nonvacuous; exists S.
have OK := seq_ok H1 (H3 _) HS.
have [h1 h2 h3] := C40_harmonic_component OK U1.
split=> //.
- exact: (C62_cavity_lowest H1 (H3 _) HS).
- exists (harmonic_component B); split=> //.
  + by rewrite /harmonic_component mulmxBr HD (div_curl_0 OK) subrr.
  + by rewrite (harmonic_current OK U1) scale0r.
- have [A HA] : exists A : 'cV_(rk S K1), strong_curl S *m A != 0.
    have [i Hi] : exists i, strong_curl S *m delta_mx i 0 != 0 :> 'cV_(rk S K2).
      apply/existsP; case: existsP => // H; case/negP: NC; apply/eqP; apply/matrixP => a j; rewrite mxE.
      have /eqP E : strong_curl S *m (delta_mx j 0 : 'cV_(rk S K1)) == 0 by apply/negPn/negP => Hj; apply: H; exists j.
      by have := congr1 (fun X : 'cV_(rk S K2) => X a 0) E; rewrite -colE !mxE.
    by exists (delta_mx i 0).
  exists (strong_curl S *m A); split=> //; first by rewrite (harmonic_im OK U1).
  by rewrite energyE mulr_gt0 ?invr_gt0 ?ltr0n //; exact: (proj2 (ok_M2 OK)).
Qed.
