(** Property theorems C40, helicity, for the sequences built by the constructor. *)
From Coq Require Import Reals Lra.
From mathcomp Require Import all_ssreflect all_algebra zify.
From Verif Require Import Model.RBase Model.Spline Model.Quad Model.Forms Model.DeRham Model.FormEval Model.Geometry Model.SeqR Model.Relaxation.
From Verif Require Import Spec.SeqSpec Spec.GeomSpec Spec.SeqRSpec Spec.TopologySpec Spec.RelaxSpec Spec.HelicitySpec.
From Verif Require Import Proof.RField Proof.RelaxAlg Proof.RelaxLoop Proof.RelaxRun Proof.RelaxHelicity Proof.HelicitySeq
  Props.DeRham Props.SequenceR Props.Relaxation Props.Topology.
Set Implicit Arguments.
Unset Strict Implicit.
Unset Printing Implicit Defensive.
Import Order.TTheory GRing.Theory Num.Theory.
Local Open Scope ring_scope.

Section Helicity.
Variables (ns ps : triple) (q : nat) (types : stype * stype * stype) (DFx : point -> mat3 R_realFieldType)
  (polar dirichlet : bool).
Hypothesis Hs : supported ns ps q types polar dirichlet.
Hypothesis Hreg : regular_map DFx (seq_points ns ps q types).
Variable S : drseq R_realFieldType.
Hypothesis HS : new_sequence ns ps q types DFx polar dirichlet = Some S.
Hypothesis Hdir : dirichlet = true.
Notation K := (pairing_defect ps : R_realFieldType).

(** Integration by parts for the assembled pairing M12 of 1- and 2-forms with Dirichlet
    conditions: the curl is symmetric and gradients are orthogonal to divergence-free fields, up
    to the defect of the tabulated Gauss rule, whatever the map *)
Theorem C40_integration_by_parts :
  (forall a b : 'cV_(rk S K1), `|form (M12 S) a (strong_curl S *m b) - form (M12 S) b (strong_curl S *m a)|
     <= K * coef_norm a * coef_norm b) /\
  (forall (f : 'cV_(rk S K0)) (b : 'cV_(rk S K2)), strong_div S *m b = 0 ->
     `|form (M12 S) (strong_grad S *m f) b| <= K * coef_norm f * coef_norm b).
Proof. exact: (sequence_ibp Hs HS Hdir Hreg). Qed.

Variable pinv : 'M[R_realFieldType]_(rk S K3).
Hypothesis Hpinv : dd3 S *m pinv *m dd3 S = dd3 S.
Hypothesis Hpol : polar = true.
Variable lstsq : 'M[R_realFieldType]_(rk S K2) -> 'cV[R_realFieldType]_(rk S K2) -> 'cV[R_realFieldType]_(rk S K2).
Notation Bp := (B_nplus1 pinv lstsq).
Notation mE := (mid_E pinv lstsq).

(** Helicity balance of one midpoint evaluation, for every stepper and every state with a
    divergence-free B_n: it changes by -2 dt eta <J, H>, plus dt <E, P12 (B' - B_guess)>, which
    vanishes at a fixed point, up to the defect of integration by parts.  A' - A is the change of
    the vector potential, dt E + grad g. *)
Theorem C40_helicity_step : forall ts (st : rstate S), divfree S (B_n st) ->
  let A := potential (B_n st) in let A' := potential (Bp ts st) in
  exists2 g : 'cV_(rk S K0), A' - A = dt_ st *: mE ts st + strong_grad S *m g &
  `| helicity (Bp ts st) - helicity (B_n st)
     - (- (2%:R * dt_ st * eta st * form (M1 S) (mid_J st) (mid_H st))
        + dt_ st * form (M1 S) (mE ts st) (P12 S *m (Bp ts st - B_guess st))) |
  <= K * (coef_norm g * coef_norm (B_n st + Bp ts st) + coef_norm A * coef_norm (A' - A)).
Proof.
move=> ts st HB A A'.
have OK := C38_sequence_ok Hs Hreg HS Hpinv.
have U1 := polar_dirichlet_dd1 Hs Hreg HS Hpol Hdir.
have [I1 I2] := C40_integration_by_parts.
set g := weak_div S *m solve (dd1 S) (dt_ st *: mE ts st); exists g.
  rewrite /A' /B_nplus1 scalemxAr (potentialD _ _) (potential_curl OK U1) -/A -/g.
  by rewrite [A + _ - A]addrC addKr.
rewrite (helicity_step_defect OK U1) -/A -/A' -/g.
set x := - _ + _; set y := form _ (_ *m g) _; set z := _ - form _ _ (_ *m A).
have -> : x + y + z - x = y + z by rewrite -(addrA x) [x + _]addrC addrK.
apply: le_trans (ler_norm_add _ _) _; rewrite mulrDr !mulrA; apply: ler_add.
  apply: I2; apply: divfreeD => //; rewrite /B_nplus1; apply: divfreeD => //.
  by rewrite /divfree -scalemxAr (div_curl_0 OK) scaler0.
exact: I1.
Qed.

(** ideal evolution (no resistivity) at an exact fixed point of the midpoint map: the helicity
    is conserved, up to the defect *)
Theorem C40_ideal_conservation : forall ts (st : rstate S), divfree S (B_n st) -> eta st = 0 -> Bp ts st = B_guess st ->
  let A := potential (B_n st) in let A' := potential (B_guess st) in
  exists2 g : 'cV_(rk S K0), A' - A = dt_ st *: mE ts st + strong_grad S *m g &
  `| helicity (B_guess st) - helicity (B_n st) |
  <= K * (coef_norm g * coef_norm (B_n st + B_guess st) + coef_norm A * coef_norm (A' - A)).
Proof.
move=> ts st HB H0 Hfix A A'; have [g] := C40_helicity_step ts HB; rewrite Hfix => Hg H; exists g => //.
by move: H; rewrite H0 subrr mulmx0 form0r mulr0 mul0r mulr0 oppr0 addr0 subr0.
Qed.

(** whole runs: the same balance for every accepted iteration, the midpoint evaluation being the
    last one of the Picard solve, whose residual is below the tolerance *)
Variables (DF : nat -> mat3 R_realFieldType)
  (fault : rstate S -> option ('cV[R_realFieldType]_(rk S K2) * bool * num R_realFieldType * num R_realFieldType))
  (cfg : config R_realFieldType) (t0 : trace S) (st0 : rstate S).
Notation state n := (state_at sqrt pinv DF lstsq fault cfg t0 st0 n).
Notation solved n := (solved_at sqrt pinv DF lstsq fault cfg t0 st0 n).
Notation acc n := (accepted sqrt pinv DF lstsq fault cfg t0 st0 n).
Theorem C40_helicity_run : c_solver_tol cfg < 1 -> divfree S (B_n st0) -> divfree S (B_guess st0) ->
  forall n, acc n.+1 -> exists (st : rstate S) (g : 'cV_(rk S K0)),
  let B := B_n (state n) in let B' := B_guess (solved n.+1) in let r := B' - B_guess st in
  let A := potential B in let A' := potential B' in
  let J := weak_curl S *m (2%:R^-1 *: (B_guess st + B)) in let H := P12 S *m (2%:R^-1 *: (B_guess st + B)) in
  [/\ norm_2 sqrt r <= c_solver_tol cfg,
      exists E : 'cV_(rk S K1), [/\ B' = B + dt_ (state n) *: (strong_curl S *m E),
        form (M1 S) E H = - (eta st0 * form (M1 S) J H),
        A' - A = dt_ (state n) *: E + strong_grad S *m g
      & `| helicity B' - helicity B
           - (- (2%:R * dt_ (state n) * eta st0 * form (M1 S) J H) + dt_ (state n) * form (M1 S) E (P12 S *m r)) |
        <= K * (coef_norm g * coef_norm (B + B') + coef_norm A * coef_norm (A' - A))]
    & B_n (state n.+1) = B' + (if (n.+1 == c_apply_pert_after cfg) && (0 < c_pert_strength cfg)
                               then c_pert_strength cfg *: dB_hat sqrt pinv DF cfg else 0)].
Proof.
move=> Ht H0 H1 n Ha.
have OK := C38_sequence_ok Hs Hreg HS Hpinv.
have [st [[E1 E2 E3 E4] _ EB Hr _]] := accepted_step Ht Ha.
have HB : divfree S (B_n st) by rewrite E1; have [] := C38_divergence_free sqrt DF lstsq fault cfg t0 OK H0 H1 n.
have [g Hg Hb] := C40_helicity_step (the_stepper cfg) HB.
have [EBn _ _ _ _] := accept_state Ha.
exists st, g => /=; rewrite EB; split=> //; last by rewrite EBn EB.
exists (mE (the_stepper cfg) st); split.
- by rewrite -E1 -E2.
- by have := mid_EH OK lstsq (the_stepper cfg) st; rewrite E3 eta_const /mid_J /mid_H /Bmid E1.
- by rewrite -E1 -E2.
- by move: Hb; rewrite E3 eta_const /mid_J /mid_H /Bmid E1 E2.
Qed.
End Helicity.
Print Assumptions C40_integration_by_parts.
Print Assumptions C40_helicity_step.
Print Assumptions C40_ideal_conservation.
Print Assumptions C40_helicity_run.

(** hypotheses met: the scripts' polar Dirichlet discretisation, with a magnetic field that has a
    non-zero harmonic part and runs with accepted iterations *)
Example C40_nonvacuous : exists (S : drseq R_realFieldType) (B : 'cV_(rk S K2)),
  [/\ supported (8, 8, 1)%N (3, 3, 0)%N 4 (Clamped, Periodic, Constant) true true,
      new_sequence (8, 8, 1)%N (3, 3, 0)%N 4 (Clamped, Periodic, Constant) (fun _ => id33) true true = Some S,
      divfree S B /\ harmonic_component B != 0, dd3 S *m pinvmx (dd3 S) *m dd3 S = dd3 S
    & forall (DF : nat -> mat3 R_realFieldType) lstsq dB,
      let st0 := RState B B 1 0 0 0 (Fin 0) (Fin 0) (Fin 0) in
      let cfg := Config 10 false 1 1 2%:R 1 false 20 4 (2%:R^-1) 1 true 0 0 dB in
      let t0 := Trace [::] [::] [::] [::] [::] [::] [::] [::] [::] [::] in
      c_solver_tol cfg < 1 /\ exists n, accepted sqrt (pinvmx (dd3 S)) DF lstsq (fun _ => None) cfg t0 st0 n.+1].
Proof.
have [H1 _ H3 _ H5] := SequenceR_nonvacuous.
have [S [HS _ _ _ [B HD HB]]] := C58_nonvacuous.
exists S, B; split=> //.
move=> DF lstsq dB st0 cfg t0; split; first by rewrite /= invf_lt1 ?ltr0n // (ltr1n _ 2).
have Hp : exists k, (0 < k)%N && accepted sqrt (pinvmx (dd3 S)) DF lstsq (fun _ => None) cfg t0 st0 k.
  apply: (C42_progress H1 (H3 _) HS (H5 S)) => //=.
  - by rewrite invr_gt0 ltr0n.
  - by rewrite ltr01.
  - by rewrite ltr0n.
by have [[//|n] /andP [_ Hn]] := Hp; exists n.
Qed.
