(** Property theorems C63: the scaling law. *)
From Coq Require Import Reals Lra Ring Field.
From mathcomp Require Import all_ssreflect all_algebra zify.
From Verif Require Import Model.RBase Model.Spline Model.Quad Model.Forms Model.DeRham Model.FormEval Model.Geometry Model.SeqR Model.Relaxation.
From Verif Require Import Spec.SeqSpec Spec.GeomSpec Spec.SeqRSpec Spec.RelaxSpec Spec.ScaleSpec.
From Verif Require Import Proof.MCRing Proof.RField Proof.GeometryProofs Proof.RelaxAlg Proof.RelaxLoop Proof.RelaxRun Proof.SeqCalculus Proof.ScaleProofs Proof.ScaleRun
  Props.DeRham Props.SequenceR Props.Relaxation Props.Topology.
Set Implicit Arguments.
Unset Strict Implicit.
Unset Printing Implicit Defensive.
Import Order.TTheory GRing.Theory Num.Theory.
Local Open Scope ring_scope.

Section Geo.
Variable F : realFieldType.
Variable a : F.
Hypothesis Ha : a != 0.
Variable A : mat3 F.
Notation aA := (fun k l => a * A k l : F).
Add Field FScaleGeo : (@mc_fth F).
Lemma det33Z : det33 aA = a ^+ 3 * det33 A.
Proof. by rewrite /det33 !exprS expr0; mc_norm; ring. Qed.
Lemma metricZ k l : metric aA k l = a ^+ 2 * metric A k l.
Proof. rewrite /metric /mul33 /tr33 mulr_sumr; apply: eq_bigr => m _; rewrite expr2; mc_norm; ring. Qed.
Lemma det33_ext (B C : mat3 F) : (forall k l, (k < 3)%N -> (l < 3)%N -> B k l = C k l) -> det33 B = det33 C.
Proof. by move=> H; rewrite /det33 !H. Qed.
Lemma adjZ k l : adj aA k l = a ^+ 2 * adj A k l.
Proof.
rewrite /adj /arr33 /arr3 expr2; case: ifP => _; [|case: ifP => _]; (case: ifP => _; [|case: ifP => _]); mc_norm; ring.
Qed.
Hypothesis HA : (10%:R ^+ 5)^-1 <= `|det33 A|.
Hypothesis HaA : (10%:R ^+ 5)^-1 <= `|det33 aA|.
Lemma inv33Z k l : inv33 aA k l = a^-1 * inv33 A k l.
Proof.
rewrite (inv33_reg (reg_inv HA)) (inv33_reg (reg_inv HaA)) adjZ det33Z invfM.
rewrite [a ^+ 3](exprD _ 1 2) expr1 invfM; have H2 : a ^+ 2 != 0 by rewrite expf_neq0.
by move: (a ^+ 2) H2 (adj A k l) (det33 A)^-1 (a^-1) => b Hb x y z; rewrite -[RHS]mul1r -(mulfV Hb); mc_norm; ring.
Qed.
Lemma inv_metricZ k l : (k < 3)%N -> (l < 3)%N -> inv33 (metric aA) k l = a ^- 2 * inv33 (metric A) k l.
Proof.
move=> Hk Hl; rewrite !inv_metric // mulr_sumr; apply: eq_bigr => m _.
by rewrite !inv33Z expr2 invfM mulrACA.
Qed.
End Geo.

(** For every sequence with invertible mass matrices, whatever the spaces, boundary conditions and
    quadrature: the matrices on the domain magnified by a *)
Section Operators.
Variable F : realFieldType.
Variable S : drseq F.
Hypothesis HM : masses_invertible S.
Variable a : F.
Hypothesis Ha : a != 0.
Variables (G Gi : nat -> nat -> nat -> F) (J : nat -> F).
Hypothesis HG : magnified a S G Gi J.
Notation S' := (regeom S G Gi J).
Theorem C63_operators :
  [/\ [/\ M0 S' = a ^+ 3 *: M0 S, M1 S' = a *: M1 S, M2 S' = a^-1 *: M2 S & M3 S' = a ^- 3 *: M3 S],
      [/\ strong_grad S' = strong_grad S, strong_curl S' = strong_curl S & strong_div S' = strong_div S],
      [/\ weak_div S' = a ^- 2 *: weak_div S, weak_curl S' = a ^- 2 *: weak_curl S & weak_grad S' = a ^- 2 *: weak_grad S],
      [/\ dd0 S' = a ^- 2 *: dd0 S, dd1 S' = a ^- 2 *: dd1 S, dd2 S' = a ^- 2 *: dd2 S & dd3 S' = a ^- 2 *: dd3 S]
    & [/\ M12 S' = M12 S, M03 S' = M03 S, P12 S' = a^-1 *: P12 S, P03 S' = a ^- 3 *: P03 S
        & forall pinv : 'M[F]_(rk S K3), P_Leray S' (a ^+ 2 *: pinv) = P_Leray S pinv]].
Proof.
split; split.
- exact: M0s HG. - exact: M1s HG. - exact: M2s HG. - exact: M3s HG.
- exact: grads HG HM. - exact: curls HG HM. - exact: divs HG HM.
- exact: wdivs HG HM. - exact: wcurls HG HM. - exact: wgrads HG HM.
- exact: dd0s HG HM. - exact: dd1s HG HM. - exact: dd2s HG HM. - exact: dd3s HG HM.
- by []. - by []. - exact: P12s HG HM. - exact: P03s HG HM. - by move=> p; exact: Lerays HG HM _.
Qed.

(** The projection of a physical field is magnified by a^k for a k-form *)
Variables DF : nat -> mat3 F.
Notation DF' := (fun j k l => a * DF j k l : F).
Hypothesis Hr : forall j, (j < n_q S)%N -> (10%:R ^+ 5)^-1 <= `|det33 (DF j)| /\ (10%:R ^+ 5)^-1 <= `|det33 (DF' j)|.
Theorem C63_projection (f : nat -> vec3 F) :
  [/\ solve (M0 S') (Projector0 S' f) = solve (M0 S) (Projector0 S f),
      solve (M1 S') (Projector1 S' DF' f) = a *: solve (M1 S) (Projector1 S DF f),
      solve (M2 S') (Projector2 S' DF' f) = a ^+ 2 *: solve (M2 S) (Projector2 S DF f)
    & solve (M3 S') (Projector3 S' f) = a ^+ 3 *: solve (M3 S) (Projector3 S f)].
Proof.
have [U0 U1 U2 U3] := HM.
have E0 : Projector0 S' f = a ^+ 3 *: Projector0 S f.
  rewrite /Projector0 scalemxAr; congr (_ *m _); apply: integrate_scale => j k Hj _ /=.
  by rewrite (proj1 (HG Hj)) [w_j S j * (_ * _)]mulrCA [f j k * _]mulrCA.
have E1 : Projector1 S' DF' f = a ^+ 2 *: Projector1 S DF f.
  rewrite /Projector1 scalemxAr; congr (_ *m _); apply: integrate_scale => j k Hj Hk /=.
  have -> : mulv3 (inv33 (DF' j)) (f j) k = a^-1 * mulv3 (inv33 (DF j)) (f j) k.
    by rewrite /mulv3 mulr_sumr; apply: eq_bigr => m _; case: (Hr Hj) => H1 H2; rewrite inv33Z // mulrA.
  rewrite (proj1 (HG Hj)) [w_j S j * (_ * _)]mulrCA mulrACA; congr (_ * _).
  by rewrite [a ^+ 3](exprD _ 1 2) expr1 mulKf.
have E2 : Projector2 S' DF' f = a *: Projector2 S DF f.
  rewrite /Projector2 scalemxAr; congr (_ *m _); apply: integrate_scale => j k Hj Hk /=.
  rewrite mulrA; congr (_ * _); rewrite /mulv3 mulr_sumr; apply: eq_bigr => m _.
  by rewrite /tr33 mulrA.
have E3 : Projector3 S' f = Projector3 S f by [].
have [[-> -> -> ->] _ _ _ _] := C63_operators.
rewrite E0 E1 E2 E3; split.
- by rewrite solve_scale ?expf_neq0 // divff ?scale1r // expf_neq0.
- by rewrite solve_scale //; congr (_ *: _); rewrite expr2 mulfK.
- by rewrite solve_scale ?invr_eq0 //; congr (_ *: _); rewrite invrK expr2.
- by rewrite -[X in solve _ X]scale1r solve_scale ?invr_eq0 ?expf_neq0 // invrK mul1r.
Qed.
End Operators.

(** The sequences built by the constructor for the maps F and a F *)
Section Seq.
Variables (ns ps : triple) (q : nat) (types : stype * stype * stype) (DFx : point -> mat3 R_realFieldType)
  (polar dirichlet : bool) (a : R_realFieldType).
Notation aDFx := (fun x k l => a * DFx x k l : R_realFieldType).
Hypothesis Hs : supported ns ps q types polar dirichlet.
Hypothesis Ha0 : 0 < a.
Hypothesis Hreg : regular_map DFx (seq_points ns ps q types).
Hypothesis HregA : regular_map aDFx (seq_points ns ps q types).
Variable S : drseq R_realFieldType.
Hypothesis HS : new_sequence ns ps q types DFx polar dirichlet = Some S.
Let Ha : a != 0. Proof. by rewrite gt_eqF. Qed.

(** they differ in the geometry arrays only, and those are magnified by a *)
Theorem C63_sequence : exists G Gi J,
  new_sequence ns ps q types aDFx polar dirichlet = Some (regeom S G Gi J) /\ magnified a S G Gi J.
Proof.
have [f [Q [ES _ [Hf _] [HQ Hnq] [HG HR HO HM]]]] := seq_summary Hs Hreg HS.
have [S2 HS2] := C26_constructor_total Hs HregA.
have [f2 [Q2 [ES2 _ [Hf2 _] [HQ2 Hnq2] [HG2 HR2 HO2 _]]]] := seq_summary Hs HregA HS2.
have Ef : f2 = f by move: Hf2; rewrite Hf => -[].
rewrite {}Ef in ES2 HQ2.
have EQ : Q2 = Q by move: HQ2; rewrite HQ => -[].
rewrite {}EQ in ES2 Hnq2 HG2 HR2.
pose x j := List.nth j (q_x Q) (R0, R0, R0).
exists (fun j => metric (aDFx (x j))), (fun j => inv33 (metric (aDFx (x j)))), (fun j => det33 (aDFx (x j))); split.
  by rewrite HS2 ES2 ES /DeRhamSequence; case: (polar).
have En : n_q S2 = n_q S by rewrite Hnq Hnq2.
move=> j Hj; have H1 := HR j Hj; have H2 : (10%:R ^+ 5)^-1 <= `|det33 (aDFx (x j))| by apply: HR2; rewrite En.
have [-> -> ->] := HG j Hj; split; first exact: det33Z.
by move=> k m Hk Hm; rewrite metricZ inv_metricZ.
Qed.
Let HM : masses_invertible S.
Proof. by have [f [Q [_ _ _ _ []]]] := seq_summary Hs Hreg HS. Qed.

Variables (G Gi : nat -> nat -> nat -> R_realFieldType) (J : nat -> R_realFieldType).
Hypothesis HG : magnified a S G Gi J.
Notation S' := (regeom S G Gi J).
Variable pinv : 'M[R_realFieldType]_(rk S K3).
Hypothesis Hpinv : dd3 S *m pinv *m dd3 S = dd3 S.
Notation pinv' := (a ^+ 2 *: pinv : 'M_(rk S' K3)).
Variable sqrt_ : R_realFieldType -> R_realFieldType.
Hypothesis Hsq : is_sqrt sqrt_.
Notation c := (sqrt_ a^-1).
Let OK : relax_ok S pinv := C38_sequence_ok Hs Hreg HS Hpinv.

(** the generalised inverse of dd3, with which the projection onto divergence-free fields is
    built, is magnified too *)
Theorem C63_pinv : dd3 S' *m pinv' *m dd3 S' = dd3 S' /\ P_Leray S' pinv' = P_Leray S pinv.
Proof.
split; last exact: (Lerays Ha HG HM).
rewrite (dd3s Ha HG HM).
have E : (a ^- 2 *: dd3 S) *m (a ^+ 2 *: pinv) = dd3 S *m pinv.
  by rewrite -scalemxAl -scalemxAr scalerA mulVf ?expf_neq0 // scale1r.
transitivity ((dd3 S *m pinv) *m (a ^- 2 *: dd3 S)); first by congr (_ *m _); exact: E.
by rewrite -scalemxAr Hpinv.
Qed.

Hypotheses (Hpol : polar = true) (Hdir : dirichlet = true).
Let U1 : dd1 S \in unitmx := polar_dirichlet_dd1 Hs Hreg HS Hpol Hdir.

(** the diagnostics of a coefficient vector B on the magnified domain *)
Theorem C63_diagnostics (B : 'cV_(rk S K2)) :
  [/\ norm_2 (S := S') sqrt_ B = c * norm_2 (S := S) sqrt_ B, c ^+ 2 = a^-1,
      energy (S := S') B = a^-1 * energy (S := S) B,
      helicity (S := S') B = helicity (S := S) B
    & [/\ potential (S := S') B = potential (S := S) B,
          harmonic_component (S := S') B = harmonic_component (S := S) B
        & dd0 S \in unitmx -> pressure (S := S') B = a ^- 4 *: pressure (S := S) B]].
Proof.
split.
- exact: (norms Hsq OK Ha0 HG). - exact: (c2 Hsq Ha0). - exact: (energys Ha0 HG).
- exact: (helicitys OK Ha0 HG U1).
- split; [exact: (potentials OK Ha0 HG U1) | exact: (harmonics OK Ha0 HG U1) | exact: (pressures OK Ha0 HG)].
Qed.

(** Similarity of whole relaxation runs: with the time step in units of a^6, the resistivity in units
    of a^-4, the tolerances in units of the norms and everything else unchanged, the run on the
    magnified domain produces the same coefficients, accepts and rejects the same steps, and records
    the same traces in the new units. *)
Theorem C63_similarity : forall lstsq (cfg : config R_realFieldType) DF DF' (st0 : rstate S) (t0 : trace S),
  c_gamma cfg = 0%N -> c_precond cfg = false -> c_pert_strength cfg <= 0 ->
  c_solver_tol cfg < 1 -> c * c_solver_tol cfg < 1 ->
  [/\ [/\ iterations t0 = [::], force_trace t0 = [::], energy_trace t0 = [::] & helicity_trace t0 = [::]],
      [/\ velocity_trace t0 = [::], picard_iterations_trace t0 = [::], timesteps t0 = [::] & B_fields t0 = [::]]
    & [/\ divergence_trace t0 = [::] & picard_errors t0 = [::]]] ->
  let r := run_relaxation_loop (S := S) sqrt_ pinv DF lstsq (fun _ => None) cfg t0 st0 in
  let r' := run_relaxation_loop (S := S') sqrt_ pinv' DF' lstsq (fun _ => None) (magnify_config a c cfg)
              (Trace [::] [::] [::] [::] [::] [::] [::] [::] [::] [::]) (magnify_state G Gi J a c st0) in
  [/\ [/\ B_n (out_local r') = B_n (out_local r), B_guess (out_local r') = B_guess (out_local r),
          dt_ (out_local r') = a ^+ 6 * dt_ (out_local r) & eta (out_local r') = a ^- 4 * eta (out_local r)],
      [/\ iterations (out_trace r') = iterations (out_trace r),
          picard_iterations_trace (out_trace r') = picard_iterations_trace (out_trace r)
        & B_fields (out_trace r') = B_fields (out_trace r)],
      [/\ energy_trace (out_trace r') = [seq a^-1 * x | x <- energy_trace (out_trace r)],
          helicity_trace (out_trace r') = helicity_trace (out_trace r)
        & timesteps (out_trace r') = [seq a ^+ 6 * x | x <- timesteps (out_trace r)]]
    & [/\ force_trace (out_trace r') = [seq scale_num (c * a ^- 3) x | x <- force_trace (out_trace r)]
        & velocity_trace (out_trace r') = [seq scale_num (c * a ^- 3) x | x <- velocity_trace (out_trace r)]]].
Proof.
move=> lstsq cfg DF DF' st0 t0 Hg Hp Hpe Ht Ht' [[I1 I2 I3 I4] [I5 I6 I7 I8] _] r r'.
have Hst : sim sqrt_ a st0 (magnify_state G Gi J a c st0) by split.
have Htr : tsim sqrt_ a t0 (Trace [::] [::] [::] [::] [::] [::] [::] [::] [::] [::] : trace S').
  by split; rewrite /= ?I1 ?I2 ?I3 ?I4 ?I5 ?I6 ?I7 ?I8.
have [[s1 s2 s3 s4 _ _ _] [t1 t2 t3 t4 t5 t6 t7 t8]] := runs Hsq OK Ha0 HG U1 lstsq Hg Hp Ht Ht' Hpe DF DF' Hst Htr.
by split; split.
Qed.
End Seq.

(** the hypotheses are met: the identity map and the map x -> 2 x *)
Example C63_nonvacuous : exists (S : drseq R_realFieldType) G Gi J,
  [/\ supported (8, 8, 1)%N (3, 3, 0)%N 4 (Clamped, Periodic, Constant) true true,
      regular_map (fun _ k l => 2%:R * id33 k l : R_realFieldType) (seq_points (8, 8, 1)%N (3, 3, 0)%N 4 (Clamped, Periodic, Constant)),
      new_sequence (8, 8, 1)%N (3, 3, 0)%N 4 (Clamped, Periodic, Constant) (fun _ => id33) true true = Some S,
      new_sequence (8, 8, 1)%N (3, 3, 0)%N 4 (Clamped, Periodic, Constant) (fun _ k l => 2%:R * id33 k l) true true = Some (regeom S G Gi J)
    & [/\ magnified 2%:R S G Gi J, dd3 S *m pinvmx (dd3 S) *m dd3 S = dd3 S, dd1 S \in unitmx
        & strong_curl S != 0]].
Proof.
have [H1 _ H3 _ H5] := SequenceR_nonvacuous.
have [S [HS U1 _ [_ Hc] _]] := C58_nonvacuous.
have two0 : 0 < 2%:R :> R_realFieldType by rewrite ltr0n.
have Hr : regular_map (fun _ k l => 2%:R * id33 k l : R_realFieldType) (seq_points (8, 8, 1)%N (3, 3, 0)%N 4 (Clamped, Periodic, Constant)).
  move=> x Hx; rewrite det33Z; have H := H3 _ x Hx; apply: Rle_trans H _; apply/RleE.
  have -> : det33 id33 = 1 :> R_realFieldType by rewrite /det33 /id33 /= !mulr0 !mulr1 !addr0 !subr0.
  by rewrite mulr1 exprn_ege1 // (ler_nat _ 1).
have [G [Gi [J [HS' HG]]]] := C63_sequence H1 two0 (H3 _) Hr HS.
by exists S, G, Gi, J.
Qed.
Print Assumptions C63_operators.
Print Assumptions C63_projection.
Print Assumptions C63_sequence.
Print Assumptions C63_pinv.
Print Assumptions C63_diagnostics.
Print Assumptions C63_similarity.
