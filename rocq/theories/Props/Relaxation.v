(** Property theorems about the relaxation (C38-C42, C44, C45, C56). *)
From Coq Require Import Reals Lra.
From Coquelicot Require Import Coquelicot.
From mathcomp Require Import all_ssreflect all_algebra zify.
From Verif Require Import Model.RBase Model.Spline Model.Quad Model.Forms Model.DeRham Model.FormEval Model.Geometry Model.SeqR Model.Relaxation.
From Verif Require Import Spec.SeqSpec Spec.GeomSpec Spec.SeqRSpec Spec.CalculusSpec Spec.RelaxSpec.
From Verif Require Import Proof.RField Proof.MCRing Proof.DeRhamAlg Proof.GeometryProofs Proof.SequenceAlg Proof.SeqFacts Proof.MassSPD Proof.ProjectionProofs Proof.Limits Proof.SeqRProofs Proof.SeqDeriv Proof.SeqCalculus Proof.RelaxAlg Proof.RelaxLoop Proof.RelaxRun Proof.RelaxHelicity Proof.RelaxProgress
  Props.DeRham Props.SequenceR.
Set Implicit Arguments.
Unset Strict Implicit.
Unset Printing Implicit Defensive.
Import Order.TTheory GRing.Theory Num.Theory.
Local Open Scope ring_scope.

Section Generic.
Variable F : realFieldType.
Variable sqrt_ : F -> F.
Variable S : drseq F.
Variable pinv : 'M[F]_(rk S K3).
Variable DF : nat -> mat3 F.
Variable lstsq : 'M[F]_(rk S K2) -> 'cV[F]_(rk S K2) -> 'cV[F]_(rk S K2).
Variable fault : rstate S -> option ('cV[F]_(rk S K2) * bool * num F * num F).
Notation vec1 := 'cV[F]_(rk S K1).
Notation vec2 := 'cV[F]_(rk S K2).

Section Stepper.
Variable ts : stepper F.
Notation solver := (picard_solver sqrt_ pinv lstsq ts fault).
Notation midpoint := (midpoint_residuum sqrt_ pinv lstsq ts fault).

(** ** C41 the inner solver.  The loop has stopped because its condition is false (the bound
    in the model's while_loop is not what stops it), after at most picard_maxit iterations *)
Theorem C41_terminates : forall st, cond_fun ts (solver st) = false /\
  (picard_iterations (solver st) <= picard_maxit ts)%N.
Proof. by move=> st; split; [exact: (proj2 (picard_inv _ _ _ _ _ _)) | exact: picard_iters]. Qed.
(** more fuel changes nothing *)
Theorem C41_fuel_irrelevant : forall st n, (picard_maxit ts <= n)%N ->
  while_loop sqrt_ pinv lstsq ts fault n (picard_init st) = solver st.
Proof.
move=> st n Hn; have Hc := proj2 (picard_inv sqrt_ pinv lstsq ts fault st); rewrite /picard_solver in Hc *.
have aux m k s : cond_fun ts (while_loop sqrt_ pinv lstsq ts fault m s) = false ->
  while_loop sqrt_ pinv lstsq ts fault (m + k) s = while_loop sqrt_ pinv lstsq ts fault m s.
  elim: m s => [|m IH] s /=; first by rewrite add0n; case: k => [//|k] /= ->.
  by case: (cond_fun ts s) => // H; apply: IH.
by rewrite -(subnKC Hn) aux.
Qed.
(** the solver changes nothing but the guess and the four diagnostics *)
Theorem C41_frame : forall st, [/\ B_n (solver st) = B_n st, dt_ (solver st) = dt_ st, eta (solver st) = eta st
  & Hessian (solver st) = Hessian st].
Proof. exact: picard_same. Qed.
(** leaving before the cap means that the residual is finite and within the tolerance *)
Theorem C41_converged : forall st, (picard_iterations (solver st) < picard_maxit ts)%N ->
  exists2 r, picard_residuum (solver st) = Fin r & r <= picard_tol ts.
Proof. exact: picard_converged. Qed.
(** a finite residual reported after at least one iteration is the distance between the
    returned guess and the previous one, the returned guess being its image *)
Theorem C41_residual_is_last_distance : forall st r, picard_residuum (solver st) = Fin r ->
  (0 < picard_iterations (solver st))%N -> exists st',
  [/\ B_n st' = B_n st, dt_ st' = dt_ st, eta st' = eta st
    & [/\ Hessian st' = Hessian st, B_guess (solver st) = B_nplus1 pinv lstsq ts st'
       & r = norm_2 sqrt_ (B_guess (solver st) - B_guess st')]].
Proof.
by move=> st r Hr Hi; have [st' [[[H1 H2 H3 H4] _ H5 H6] _]] := picard_last Hr Hi; exists st'; split=> //; split=> //; rewrite H5.
Qed.
(** nothing is computed exactly when the cap is 0 or the tolerance at least 1; the residual
    is then reported as 1 whatever the state, and the guess is returned as it was *)
Theorem C41_no_iteration : forall st,
  (picard_iterations (solver st) = 0%N <-> picard_maxit ts = 0%N \/ 1 <= picard_tol ts) /\
  (picard_iterations (solver st) = 0%N -> picard_residuum (solver st) = Fin 1 /\ B_guess (solver st) = B_guess st).
Proof.
move=> st; split; last by move/picard_zero ->.
have := picard_zero_iff sqrt_ pinv lstsq ts fault st => E; split.
- by move/eqP; rewrite E => /orP [/eqP|]; [left | right].
- by move=> H; apply/eqP; rewrite E; case: H => ->; rewrite ?orbT.
Qed.
(** nan does not stop the loop: if every evaluation gives nan, the cap is reached *)
Theorem C41_nan_runs_to_cap : forall st, picard_tol ts < 1 ->
  (forall s, picard_residuum (midpoint s) = NaN) -> picard_iterations (solver st) = picard_maxit ts.
Proof.
move=> st Ht Hn; apply/eqP; rewrite eqn_leq picard_iters /= leqNgt; apply/negP => Hlt.
have [r Hr Hle] := picard_converged Hlt.
case Hi : (picard_iterations (solver st)) => [|k].
  have /eqP := Hi; rewrite picard_zero_iff => /orP [/eqP E0|]; last by rewrite leNgt Ht.
  by rewrite E0 in Hlt.
have [[_ [[E _]|[st' E _]]] _] := picard_inv sqrt_ pinv lstsq ts fault st; first by rewrite E in Hi.
by move: Hr; rewrite E Hn.
Qed.

(** ** C39, C40: one midpoint evaluation *)
Hypothesis OK : relax_ok S pinv.
Notation Bp := (B_nplus1 pinv lstsq ts).
Notation mu := (mid_u pinv lstsq ts).
Notation mE := (mid_E pinv lstsq ts).

(** exact energy balance: work of the velocity against J x H, Ohmic heating, and a term
    proportional to the residual B' - B_guess *)
Theorem C39_energy_balance : forall st : rstate S,
  energy (Bp st) - energy (B_n st)
  = - dt_ st * (form (M2 S) (mu st) (mid_JxH st) + eta st * form (M1 S) (mid_J st) (mid_J st))
    + 2%:R^-1 * form (M2 S) (Bp st - B_n st) (Bp st - B_guess st).
Proof. by move=> st; exact: energy_balance. Qed.

(** at an exact fixed point of the midpoint map the energy decreases by at least
    dt (|u|^2 + eta |J|^2), for every regularisation order gamma and with or without the
    Leray projection (newton off) *)
Theorem C39_fixed_point_dissipates : forall st : rstate S, newton ts = false -> 0 <= dt_ st -> 0 <= eta st ->
  Bp st = B_guess st ->
  energy (B_guess st) <= energy (B_n st)
     - dt_ st * (form (M2 S) (mu st) (mu st) + eta st * form (M1 S) (mid_J st) (mid_J st))
  /\ energy (B_guess st) <= energy (B_n st).
Proof.
move=> st Hn Hdt Het Hfix.
have H1 : energy (B_guess st) <= energy (B_n st)
     - dt_ st * (form (M2 S) (mu st) (mu st) + eta st * form (M1 S) (mid_J st) (mid_J st)).
  have := C39_energy_balance st; rewrite Hfix subrr form0r mulr0 addr0 => /eqP; rewrite subr_eq => /eqP ->.
  rewrite addrC ler_add2l mulNr ler_opp2; apply: ler_wpmul2l => //.
  by rewrite ler_add2r; apply: (work_ge OK).
split=> //; apply: le_trans H1 _; rewrite ler_subl_addr ler_addl; apply: mulr_ge0 => //.
apply: addr_ge0; first exact: spd_ge0 (ok_M2 OK) _.
by apply: mulr_ge0 => //; exact: spd_ge0 (ok_M1 OK) _.
Qed.

(** inexact solve *)
Theorem C39_inexact_step : is_sqrt sqrt_ -> forall st : rstate S, newton ts = false -> 0 <= dt_ st -> 0 <= eta st ->
  energy (Bp st) <= energy (B_n st)
    - dt_ st * (norm_2 sqrt_ (mu st) ^+ 2 + eta st * form (M1 S) (mid_J st) (mid_J st))
    + 2%:R^-1 * (norm_2 sqrt_ (Bp st - B_n st) * norm_2 sqrt_ (Bp st - B_guess st))
  /\ norm_2 sqrt_ (Bp st) <= norm_2 sqrt_ (B_n st) + norm_2 sqrt_ (Bp st - B_guess st).
Proof. by move=> Hsq st Hn Hdt Het; split; [apply: (energy_step OK) | apply: (norm_step OK)]. Qed.

(** a current-free field is an equilibrium *)
Theorem C39_equilibrium : forall st : rstate S, newton ts = false -> weak_curl S *m B_n st = 0 -> B_guess st = B_n st ->
  Bp st = B_n st.
Proof.
move=> st Hn HJ HB.
have EJ : mid_J st = 0.
  by rewrite /mid_J HB -scalemxAr mulmxDr HJ addr0 scaler0.
have Z : mid_JxH st = 0.
  apply: (spd_nondeg (ok_M2 OK)) => y; rewrite /mid_JxH EJ.
  have [_ ->] := form_solve (P1x1_to_2 (0 : vec1) (mid_H st)) y (proj1 (ok_M2 OK)) (spd_unit (ok_M2 OK)).
  by rewrite -[LHS]opprK -triple_swap; [rewrite /dotv trmx0 mul0mx mxE oppr0 | exact: ok_sym OK].
have Sm g : smooth (S := S) g 0 = 0 by elim: g => [//|g]; rewrite /smooth iterS => ->; rewrite /solve mulmx0.
have Eu : mu st = 0 by rewrite /mid_u /mid_f Hn Z mulmx0 if_same Sm.
have EE : mE st = 0.
  apply: (spd_nondeg (ok_M1 OK)) => y; rewrite /mid_E EJ scaler0 subr0 Eu.
  have [_ ->] := form_solve (P2x1_to_1 (0 : vec2) (mid_H st)) y (proj1 (ok_M1 OK)) (spd_unit (ok_M1 OK)).
  by rewrite triple_swap; [rewrite /dotv trmx0 mul0mx mxE oppr0 | exact: ok_sym OK].
by rewrite /B_nplus1 EE mulmx0 scaler0 addr0.
Qed.

(** Ohm's law: the electric field of the midpoint step does work along H only through eta *)
Theorem C40_E_dot_H : forall st : rstate S,
  form (M1 S) (mE st) (mid_H st) = - (eta st * form (M1 S) (mid_J st) (mid_H st)).
Proof. by move=> st; exact: (mid_EH OK). Qed.

(** every curl-free discrete 1-form is a gradient, when dd1 is invertible (it is for the polar Dirichlet sequences, C58) *)
Theorem C40_curl_free_is_gradient : dd1 S \in unitmx -> forall z : vec1, strong_curl S *m z = 0 ->
  exists f : 'cV[F]_(rk S K0), z = strong_grad S *m f.
Proof. by move=> U z Hz; exists (- (weak_div S *m solve (dd1 S) z)); exact: (exact1 OK U Hz). Qed.
(** adding the curl of a potential does not change harmonic_component; it is idempotent, and
    zero exactly on the image of the curl *)
Theorem C40_harmonic_component : dd1 S \in unitmx ->
  [/\ forall (B : vec2) (A : vec1), harmonic_component (B + strong_curl S *m A) = harmonic_component B,
      forall B : vec2, harmonic_component (harmonic_component B) = harmonic_component B
    & forall B : vec2, harmonic_component B = 0 <-> exists A : vec1, B = strong_curl S *m A].
Proof.
move=> U; split.
- by move=> B A; exact: (harmonic_curl OK U).
- by move=> B; rewrite {2}/harmonic_component -mulmxN (harmonic_curl OK U).
- move=> B; split=> [|[A ->]].
    by rewrite /harmonic_component => /eqP; rewrite subr_eq0 => /eqP {1}->; eexists.
  by rewrite -[_ *m A]add0r (harmonic_curl OK U) /harmonic_component /potential /solve !mulmx0 subrr.
Qed.
(** Helicity balance of one evaluation under exact integration by parts.  For the pairing that the
    constructor assembles see Props/Helicity.v, which proves the two rules up to the defect of the
    tabulated quadrature and the balance with that defect. *)
Theorem C40_helicity_step_exact_quadrature : dd1 S \in unitmx ->
  (forall a b : vec1, form (M12 S) a (strong_curl S *m b) = form (M12 S) b (strong_curl S *m a)) ->
  (forall (f : 'cV[F]_(rk S K0)) (b : vec2), divfree S b -> form (M12 S) (strong_grad S *m f) b = 0) ->
  forall st : rstate S, divfree S (B_n st) ->
  helicity (Bp st) - helicity (B_n st)
  = - (2%:R * dt_ st * eta st * form (M1 S) (mid_J st) (mid_H st))
    + dt_ st * form (M1 S) (mE st) (P12 S *m (Bp st - B_guess st)).
Proof. by move=> U I1 I2 st HB; exact: (helicity_step OK U lstsq ts I1 I2 HB). Qed.
End Stepper.

Section Runs.
Variable cfg : config F.
Variables (t0 : trace S) (st0 : rstate S).
Notation state n := (state_at sqrt_ pinv DF lstsq fault cfg t0 st0 n).
Notation trc n := (trace_at sqrt_ pinv DF lstsq fault cfg t0 st0 n).
Notation solved n := (solved_at sqrt_ pinv DF lstsq fault cfg t0 st0 n).
Notation acc n := (accepted sqrt_ pinv DF lstsq fault cfg t0 st0 n).
Notation brk n := (breaks sqrt_ pinv DF lstsq fault cfg t0 st0 n).
Notation run := (run_relaxation_loop sqrt_ pinv DF lstsq fault cfg t0 st0).
Notation nrm := (norm_2 sqrt_).

(** ** C45 what a run is: the history of iterations up to the first break, or maxit of them *)
Theorem C45_first_break_or_maxit : exists N,
  [/\ (N <= c_maxit cfg)%N,
      out_local run = state N /\ out_trace run = trc N,
      (forall k, (0 < k < N)%N -> brk k = false)
    & N = c_maxit cfg \/ (0 < N)%N /\ brk N].
Proof.
have [N [H1 H2 H3 H4]] := run_history sqrt_ pinv DF lstsq fault cfg t0 st0.
by exists N; split=> //; rewrite /state_at /trace_at -H2.
Qed.
(** iteration k breaks iff its solve was accepted and the last force recorded so far
    (its own, if selected, else an earlier one) is finite and below force_tol *)
Theorem C45_break_condition : forall k, brk k = true <->
  acc k /\ exists2 f, last NaN (force_trace (trc k)) = Fin f & f < c_force_tol cfg.
Proof.
move=> k; rewrite /breaks; split=> [/andP [Ha]|[-> [f -> Hf]]] //.
by case E : (last _ _) => [f| |] //= Hf; split=> //; exists f.
Qed.

(** ** C42 accept / reject *)
Theorem C42_accept_iff : forall n, acc n.+1 <-> exists2 r, picard_residuum (solved n.+1) = Fin r & r <= c_solver_tol cfg.
Proof.
move=> n; split; first exact: accepted_residual.
by case=> r Hr Hle; rewrite /accepted /failed Hr /= ltNge Hle.
Qed.
Theorem C42_reject : forall n, acc n.+1 = false ->
  [/\ B_n (state n.+1) = B_n (state n), B_guess (state n.+1) = B_n (state n),
      dt_ (state n.+1) = dt_ (state n) / 2%:R, eta (state n.+1) = eta (state n)
    & Hessian (state n.+1) = Hessian (state n) /\ trc n.+1 = trc n].
Proof.
move=> n Hr; have [H1 H2 H3 H4 H5] := reject_fields Hr.
by split=> //; split=> //; exact: trace_reject Hr.
Qed.
Theorem C42_accept : forall n, acc n.+1 ->
  let few := (picard_iterations (solved n.+1) < c_critit cfg)%N in
  let due := c_precond cfg && (n.+1 %% c_precond_every cfg == 0)%N in
  [/\ B_guess (state n.+1) = B_guess (solved n.+1),
      B_n (state n.+1) = B_guess (solved n.+1) +
        (if (n.+1 == c_apply_pert_after cfg) && (0 < c_pert_strength cfg) then c_pert_strength cfg *: dB_hat sqrt_ pinv DF cfg else 0),
      dt_ (state n.+1) = dt_ (state n) * (if few then c_dt_factor cfg else (c_dt_factor cfg ^+ 2)^-1),
      eta (state n.+1) = eta (state n)
    & Hessian (state n.+1) = if due then hessian (B_n (state n.+1)) else Hessian (state n)].
Proof.
move=> n Ha few due; have [H1 H2 H3 H4 _] := accept_state Ha; split=> //.
rewrite (state_accept Ha) /accept -/due /=.
have [_ _ _ E] := solved_same sqrt_ pinv DF lstsq fault cfg t0 st0 n.
by case: (_ && (0 < _)); case: due => /=.
Qed.
(** the time step after n iterations is the product of the factors of the iterations *)
Theorem C42_dt_product : forall n, dt_ (state n) = dt_ st0 *
  \prod_(1 <= k < n.+1) (if ~~ acc k then 2%:R^-1
                       else if (picard_iterations (solved k) < c_critit cfg)%N then c_dt_factor cfg
                       else (c_dt_factor cfg ^+ 2)^-1).
Proof.
elim=> [|n IH]; first by rewrite big_geq // mulr1.
rewrite big_nat_recr //= mulrA -IH; case Ha : (acc n.+1).
  by have [_ _ -> _ _] := accept_state Ha.
by have [_ _ -> _ _] := reject_fields Ha.
Qed.
Theorem C42_dt_positive : 0 < dt_ st0 -> 0 < c_dt_factor cfg -> forall n, 0 < dt_ (state n).
Proof. by move=> H1 H2 n; apply: dt_pos. Qed.

(** ** C56 the perturbation is applied only if the step number apply_pert_after is accepted:
    if it is rejected, the field is never perturbed *)
Theorem C56_perturbation_iff_accepted : forall n, acc n.+1 ->
  (B_n (state n.+1) = B_guess (solved n.+1) \/ (n.+1 = c_apply_pert_after cfg /\ 0 < c_pert_strength cfg)) /\
  (n.+1 = c_apply_pert_after cfg -> 0 < c_pert_strength cfg ->
   B_n (state n.+1) = B_guess (solved n.+1) + c_pert_strength cfg *: dB_hat sqrt_ pinv DF cfg).
Proof.
move=> n Ha; have [-> _ _ _ _] := accept_state Ha; rewrite /pert /pert_at; split.
- by case: eqP => [->|_] /=; [case: ifP => H; [right | left; rewrite addr0] | left; rewrite addr0].
- by move=> -> Hp; rewrite eqxx Hp.
Qed.
Theorem C56_lost_when_rejected : (c_apply_pert_after cfg = 0%N \/ acc (c_apply_pert_after cfg) = false) ->
  forall n, acc n.+1 -> B_n (state n.+1) = B_guess (solved n.+1).
Proof.
move=> H n Ha; have [-> _ _ _ _] := accept_state Ha; rewrite /pert /pert_at.
case: eqP => [E|_] /=; last by rewrite addr0.
by case: H => H; [rewrite H in E | rewrite -E Ha in H].
Qed.

(** ** C44 the traces: which iterations are recorded, and with what *)
Theorem C44_recorded : forall n, let rec := [seq i <- iota 1 n | acc i && ((i %% c_save_every cfg == 0)%N || (i == c_maxit cfg))] in
  let dry := step sqrt_ pinv lstsq fault cfg st0 in
  [/\ iterations (trc n) = iterations t0 ++ 0%N :: rec,
      force_trace (trc n) = force_trace t0 ++ force_norm dry :: [seq force_norm (state i) | i <- rec],
      energy_trace (trc n) = energy_trace t0 ++ energy (B_n st0) :: [seq energy (B_n (state i)) | i <- rec],
      helicity_trace (trc n) = helicity_trace t0 ++ helicity (B_n st0) :: [seq helicity (B_n (state i)) | i <- rec]
    & divergence_trace (trc n) = divergence_trace t0 ++ divergence_norm sqrt_ (B_n st0) :: [seq divergence_norm sqrt_ (B_n (state i)) | i <- rec]]
  /\
  [/\ velocity_trace (trc n) = velocity_trace t0 ++ velocity_norm dry :: [seq velocity_norm (state i) | i <- rec],
      picard_iterations_trace (trc n) = picard_iterations_trace t0 ++ 0%N :: [seq picard_iterations (state i) | i <- rec],
      picard_errors (trc n) = picard_errors t0 ++ Fin 0 :: [seq picard_residuum (state i) | i <- rec],
      timesteps (trc n) = timesteps t0 ++ dt_ dry :: [seq dt_ (state i) | i <- rec]
    & B_fields (trc n) = B_fields t0 ++ if c_save_B cfg then B_n st0 :: [seq B_n (state i) | i <- rec] else [::]].
Proof. exact: traces. Qed.
(** starting from empty lists: all of the same length, strictly increasing iterations *)
Theorem C44_lengths : t0 = Trace [::] [::] [::] [::] [::] [::] [::] [::] [::] [::] -> forall n,
  let m := size (iterations (trc n)) in
  [/\ size (force_trace (trc n)) = m, size (energy_trace (trc n)) = m, size (helicity_trace (trc n)) = m,
      size (divergence_trace (trc n)) = m & size (velocity_trace (trc n)) = m] /\
  [/\ size (picard_iterations_trace (trc n)) = m, size (picard_errors (trc n)) = m, size (timesteps (trc n)) = m,
      size (B_fields (trc n)) = (if c_save_B cfg then m else 0%N) & sorted ltn (iterations (trc n))].
Proof.
move=> E n; have := traces sqrt_ pinv DF lstsq fault cfg t0 st0 n; rewrite E /=.
move=> [[-> -> -> -> ->] [-> -> -> -> ->]]; rewrite /= !size_map.
split; split=> //; first by case: (c_save_B cfg); rewrite //= size_map.
have : path ltn 0%N (recorded sqrt_ pinv DF lstsq fault cfg (Trace [::] [::] [::] [::] [::] [::] [::] [::] [::] [::]) st0 n).
  rewrite path_sortedE; last exact: ltn_trans.
  apply/andP; split; last by apply: sorted_filter; [exact: ltn_trans | exact: iota_ltn_sorted].
  by apply/allP => i; rewrite mem_filter mem_iota => /andP [_ /andP [H _]].
by [].
Qed.

(** ** C38 the divergence constraint *)
Section OK.
Hypothesis OK : relax_ok S pinv.
Theorem C38_divergence_free : divfree S (B_n st0) -> divfree S (B_guess st0) ->
  forall n, divfree S (B_n (state n)) /\ divfree S (B_guess (state n)).
Proof. by move=> H0 H1 n; apply: run_div. Qed.
(** ... of the final field, of every recorded field, and the recorded divergence norms are 0 *)
Theorem C38_run : is_sqrt sqrt_ -> divfree S (B_n st0) -> divfree S (B_guess st0) ->
  [/\ divfree S (B_n (out_local run)),
      forall b, b \in drop (size (B_fields t0)) (B_fields (out_trace run)) -> divfree S b
    & forall d, d \in drop (size (divergence_trace t0)) (divergence_trace (out_trace run)) -> d = 0].
Proof.
move=> Hsq H0 H1; have [N [_ [-> ->] _ _]] := C45_first_break_or_maxit.
have H n := proj1 (C38_divergence_free H0 H1 n).
have D (B : vec2) : divfree S B -> divergence_norm sqrt_ B = 0.
  by rewrite /divfree /divergence_norm => ->; rewrite trmx0 !mul0mx mxE (sqrt0 Hsq).
have [[_ _ _ _ ->] [_ _ _ _ ->]] := traces sqrt_ pinv DF lstsq fault cfg t0 st0 N.
rewrite !drop_size_cat //; split=> //.
- move=> b; case: (c_save_B cfg) => //; rewrite inE => /orP [/eqP -> //|/mapP [i _ ->]]; exact: H.
- move=> d; rewrite inE => /orP [/eqP ->|/mapP [i _ ->]]; apply: D => //; exact: H.
Qed.

(** ** C39 whole runs (newton off, exact arithmetic apart from the faults): an accepted step
    from B to B' (before any perturbation) with recorded velocity norm v satisfies
    E(B') <= E(B) - dt v^2 + |B' - B| tol / 2, hence |B| grows by at most tol per iteration *)
Theorem C39_run : is_sqrt sqrt_ -> c_precond cfg = false -> 0 <= c_solver_tol cfg < 1 ->
  0 < dt_ st0 -> 0 < c_dt_factor cfg -> 0 <= eta st0 ->
  (forall n, acc n.+1 -> exists v, velocity_norm (state n.+1) = Fin v /\
     let B' := B_guess (solved n.+1) in
     energy B' <= energy (B_n (state n)) - dt_ (state n) * v ^+ 2
        + 2%:R^-1 * (nrm (B' - B_n (state n)) * c_solver_tol cfg)) /\
  (forall n, nrm (B_n (state n)) <= nrm (B_n st0) + n%:R * c_solver_tol cfg
     + \sum_(1 <= i < n.+1) (if (i == c_apply_pert_after cfg) && (0 < c_pert_strength cfg) then c_pert_strength cfg else 0)).
Proof. by move=> *; split=> n; [apply: energy_run | apply: norm_run]. Qed.

(** ** C40 whole runs: the harmonic part changes only by that of the perturbation *)
Theorem C40_harmonic_conserved : dd1 S \in unitmx -> c_solver_tol cfg < 1 ->
  (forall n, (0 < n)%N -> n = c_apply_pert_after cfg -> c_pert_strength cfg <= 0) ->
  forall n, harmonic_component (B_n (state n)) = harmonic_component (B_n st0).
Proof.
move=> U Ht Hp; elim=> [//|n IH]; case Ha : (acc n.+1); last by have [-> _ _ _ _] := reject_fields Ha.
have [-> _ _ _ _] := accept_state Ha.
have -> : pert sqrt_ pinv DF cfg n.+1 = 0.
  by rewrite /pert /pert_at; case: eqP => //= E; rewrite ltNge (Hp n.+1).
have [st' [[E1 _ _ _] _ -> _ _]] := accepted_step Ht Ha.
by rewrite addr0 /B_nplus1 -IH -E1 scalemxAr (harmonic_curl OK U).
Qed.
End OK.
End Runs.
End Generic.
Print Assumptions C41_terminates.
Print Assumptions C41_fuel_irrelevant.
Print Assumptions C41_frame.
Print Assumptions C41_converged.
Print Assumptions C41_residual_is_last_distance.
Print Assumptions C41_no_iteration.
Print Assumptions C41_nan_runs_to_cap.
Print Assumptions C39_energy_balance.
Print Assumptions C39_fixed_point_dissipates.
Print Assumptions C39_inexact_step.
Print Assumptions C39_equilibrium.
Print Assumptions C39_run.
Print Assumptions C40_E_dot_H.
Print Assumptions C40_curl_free_is_gradient.
Print Assumptions C40_harmonic_component.
Print Assumptions C40_helicity_step_exact_quadrature.
Print Assumptions C40_harmonic_conserved.
Print Assumptions C45_first_break_or_maxit.
Print Assumptions C45_break_condition.
Print Assumptions C42_accept_iff.
Print Assumptions C42_reject.
Print Assumptions C42_accept.
Print Assumptions C42_dt_product.
Print Assumptions C42_dt_positive.
Print Assumptions C56_perturbation_iff_accepted.
Print Assumptions C56_lost_when_rejected.
Print Assumptions C44_recorded.
Print Assumptions C44_lengths.
Print Assumptions C38_divergence_free.
Print Assumptions C38_run.

(** * Sequences built by the constructor *)
Lemma Rsqrt_is_sqrt : is_sqrt (F := R_realFieldType) sqrt.
Proof.
move=> x /RleE Hx; split; first by apply/RleE; exact: sqrt_pos.
by rewrite expr2; exact: sqrt_sqrt.
Qed.
Lemma R_archimedean : forall x : R_realFieldType, exists k : nat, x < k%:R.
Proof.
move=> x; have [n Hn] := nfloor_ex (Rabs x) (Rabs_pos x); have Hx := Rle_abs x; exists n.+1; rewrite -INRE S_INR; apply/RltE; lra.
Qed.

(** bilinear forms of the Hodge Laplacians *)
Lemma dd_bilinear (F : realFieldType) (s : shape) (xi : nat -> nat -> nat -> F) (polar dirichlet : bool)
    (Hadm : admissible s xi polar dirichlet) (t : tables F) (G Gi : nat -> nat -> nat -> F) (J w : nat -> F) :
  let S := DeRhamSequence s t G Gi J w xi polar dirichlet in masses_invertible S -> geometry_sym S ->
  (forall z x, form (M1 S) z (dd1 S *m x) = form (M2 S) (strong_curl S *m z) (strong_curl S *m x) + form (M0 S) (weak_div S *m z) (weak_div S *m x)) /\
  (forall z x, form (M2 S) z (dd2 S *m x) = form (M3 S) (strong_div S *m z) (strong_div S *m x) + form (M1 S) (weak_curl S *m z) (weak_curl S *m x)).
Proof.
move=> S [U0 U1 U2 U3] Hsym; have [g [c [d [[Hg Hc Hd] _]]]] := seq_derivs t G Gi J w Hadm.
have cong n m (A : 'M[F]_n) (X : 'M[F]_(n, m)) x y : bl (X^T *m A *m X) x y = bl A (X *m x) (X *m y).
  by rewrite /bl trmx_mul !mulmxA.
split=> z x.
- by rewrite (strong_curlE Hc U2) formE bl_mulr (M1_dd1 Hsym Hg Hc U0 U1) blDA !cong.
- by rewrite (strong_divE Hd U3) formE bl_mulr (M2_dd2 Hsym Hc Hd U1 U2) blDA !cong.
Qed.

Section Seq.
Variables (ns ps : triple) (q : nat) (types : stype * stype * stype) (DFx : point -> mat3 R_realFieldType)
  (polar dirichlet : bool).
Hypothesis Hs : supported ns ps q types polar dirichlet.
Hypothesis Hreg : regular_map DFx (seq_points ns ps q types).
Variable S : drseq R_realFieldType.
Hypothesis HS : new_sequence ns ps q types DFx polar dirichlet = Some S.
Variable pinv : 'M[R_realFieldType]_(rk S K3).
Hypothesis Hpinv : dd3 S *m pinv *m dd3 S = dd3 S.

(** the hypothesis of the theorems above holds for every supported constructor call and every
    generalised inverse of dd3 *)
Theorem C38_sequence_ok : relax_ok S pinv.
Proof.
have [M0ok M1ok M2ok M3ok] := C26_sequence Hs Hreg HS.
have [Wd Wc Wg _] := C25_sequence Hs Hreg HS.
have [Ccg Cdc] := C24_sequence_complex Hs Hreg HS.
have [L1 L2 L3 L4 L5] := C28_sequence Hs Hreg HS Hpinv.
have [f [Q [E Hadm _ _ [HG HR HO HM]]]] := seq_summary Hs Hreg HS.
have Hsym := geometry_of_sym HG HR.
have vz n m (A : 'M[R_realFieldType]_(n, m)) : (forall x : 'cV_m, A *m x = 0) -> A = 0.
  move=> H; apply/matrixP => i j; have := H (delta_mx j 0) => /matrixP /(_ i 0).
  by rewrite -colE !mxE.
have nondeg n (M : 'M[R_realFieldType]_n) (x y : 'cV_n) : spd M -> (forall z, form M z x = form M z y) -> x = y.
  move=> HM0 H; apply/eqP; rewrite -subr_eq0; apply/eqP; apply: (spd_nondeg HM0) => z.
  by rewrite formDr formNr H subrr.
have [U0 U1 U2 U3] := HM.
have [D1 D2] := dd_bilinear Hadm (t := evaluate_1d f Q) (G := fun j => metric (DFx (List.nth j (q_x Q) (R0, R0, R0))))
   (Gi := fun j => inv33 (metric (DFx (List.nth j (q_x Q) (R0, R0, R0))))) (J := fun j => det33 (DFx (List.nth j (q_x Q) (R0, R0, R0))))
   (w := fun j => List.nth j (q_w Q) R0) ltac:(by rewrite -E) ltac:(by rewrite -E).
rewrite -E in D1 D2.
split=> //.
- apply/eqP; rewrite -subr_eq0; apply/eqP; apply: vz => x; rewrite mulmxBl; apply/eqP; rewrite subr_eq0; apply/eqP.
  apply: (nondeg _ _ _ _ M1ok) => z; rewrite D1 mulmxBl -(mulmxA (weak_curl S)) -(mulmxA (strong_grad S)).
  rewrite formDr formNr Wc; congr (_ + _).
  by rewrite (formC z _ (proj1 M1ok)) -Wd (formC _ _ (proj1 M0ok)).
- apply/eqP; rewrite -subr_eq0; apply/eqP; apply: vz => x; rewrite mulmxBl; apply/eqP; rewrite subr_eq0; apply/eqP.
  apply: (nondeg _ _ _ _ M2ok) => z; rewrite D2 mulmxBl -(mulmxA (weak_grad S)) -(mulmxA (strong_curl S)).
  rewrite formDr formNr Wg opprK addrC; congr (_ + _).
  by rewrite (formC z _ (proj1 M2ok)) -Wc (formC _ _ (proj1 M1ok)).
- by apply: vz => x; rewrite -mulmxA L1.
- move=> u v; have H1 := L5 u v; have H2 := L5 v u; move/eqP: H1; move/eqP: H2.
  rewrite !formDl !formNl !addr_eq0 !opprK => /eqP H2 /eqP H1.
  by rewrite H1 (formC _ v (proj1 M2ok)) H2 (formC _ _ (proj1 M2ok)).
Qed.

Variable DF : nat -> mat3 R_realFieldType.
Variable lstsq : 'M[R_realFieldType]_(rk S K2) -> 'cV[R_realFieldType]_(rk S K2) -> 'cV[R_realFieldType]_(rk S K2).
Variable cfg : config R_realFieldType.
Variables (t0 : trace S) (st0 : rstate S).
Notation field := (discrete_form ns ps types).

(** the magnetic field stays divergence free in the sense of real analysis, at every point off
    the knot planes, after any number of iterations, whatever the faults *)
Theorem C38_sequence_divergence : forall fault, divfree S (B_n st0) -> divfree S (B_guess st0) ->
  forall n x, off_knots ns ps types.2 x ->
  is_div (fun c => field (B_n (state_at sqrt pinv DF lstsq fault cfg t0 st0 n)) c) x 0.
Proof.
move=> fault H0 H1 n x Hx.
have [Hd _] := C38_divergence_free sqrt DF lstsq fault cfg t0 C38_sequence_ok H0 H1 n.
have := C22_divergence Hs Hreg HS (B_n (state_at sqrt pinv DF lstsq fault cfg t0 st0 n)) Hx.
rewrite Hd; congr is_div.
rewrite /discrete_form; case: (DifferentialForm _ _ _ _) => [g|] //.
by rewrite trmx0 mul0mx; apply: big1 => i _; rewrite mxE mul0r.
Qed.
(** without faults, the loop cannot reject forever: after every iteration there is an accepted
    one *)
Theorem C42_progress : (0 < c_solver_maxit cfg)%N -> 0 < c_solver_tol cfg -> 0 < dt_ st0 -> 0 < c_dt_factor cfg ->
  forall n, exists k, (n < k)%N && accepted sqrt pinv DF lstsq (fun _ => None) cfg t0 st0 k.
Proof.
move=> H1 H2 H3 H4 n; apply: (progress C38_sequence_ok Rsqrt_is_sqrt) => //; exact: R_archimedean.
Qed.
End Seq.
Print Assumptions C38_sequence_ok.
Print Assumptions C38_sequence_divergence.
Print Assumptions C42_progress.

(** a polar Dirichlet discretisation as in the repository's scripts meets the hypotheses, with
    a non-zero divergence-free field; its runs have accepted iterations, and rejected ones if
    the arithmetic produces nan *)
Example Relaxation_nonvacuous : exists (S : drseq R_realFieldType) (pinv : 'M_(rk S K3)) (B : 'cV_(rk S K2)),
  [/\ new_sequence (8, 8, 1)%N (3, 3, 0)%N 4 (Clamped, Periodic, Constant) (fun _ => id33) true true = Some S,
      relax_ok S pinv, B != 0 /\ divfree S B
    & forall (DF : nat -> mat3 R_realFieldType) lstsq dB,
      let st0 := RState B B 1 1 0 0 (Fin 0) (Fin 0) (Fin 0) in
      let cfg := Config 10 false 1 1 2%:R 1 false 20 4 (2%:R^-1) 1 true 0 0 dB in
      let t0 := Trace [::] [::] [::] [::] [::] [::] [::] [::] [::] [::] in
      (exists k, (0 < k)%N && accepted sqrt pinv DF lstsq (fun _ => None) cfg t0 st0 k) /\
      accepted sqrt pinv DF lstsq (fun _ => Some (0, true, NaN, NaN)) cfg t0 st0 1 = false].
Proof.
have [H1 _ H3 _ H5] := SequenceR_nonvacuous.
have [S HS] := C26_constructor_total H1 (H3 _).
exists S, (pinvmx (dd3 S)).
have OK := C38_sequence_ok H1 (H3 _) HS (H5 S).
have [B HB HD] : exists2 B : 'cV_(rk S K2), B != 0 & divfree S B.
  have Hr : (rk S K3 < rk S K2)%N.
    have [f [Q [-> _ [Hf Ef] _ _]]] := seq_summary H1 (H3 _) HS.
    by rewrite /DeRhamSequence /= Ef.
  have Hk : kermx (strong_div S)^T != 0.
    apply/negP => /eqP H0; have := mxrank_ker (strong_div S)^T; rewrite H0 mxrank0 => E.
    have := rank_leq_col (strong_div S)^T; move: E; move: (\rank _) => m; lia.
  have [i Hi] : exists i, row i (kermx (strong_div S)^T) != 0.
    apply/existsP; apply: contraNT Hk; rewrite negb_exists => /forallP H.
    by apply/eqP/row_matrixP => i; rewrite row0; apply/eqP; have := H i; rewrite negbK.
  exists (row i (kermx (strong_div S)^T))^T.
    by apply: contra Hi => /eqP H; rewrite -[row _ _]trmxK H trmx0.
  rewrite /divfree; apply: trmx_inj; rewrite trmx_mul trmxK trmx0.
  by apply/sub_kermxP; exact: row_sub.
exists B; split=> // DF lstsq dB st0 cfg t0; split.
  apply: (C42_progress H1 (H3 _) HS (H5 S)) => //=.
  - by rewrite invr_gt0 ltr0n.
  - by rewrite ltr01.
  - by rewrite ltr0n.
rewrite /accepted; apply/negbTE; rewrite negbK /failed.
have Hn : picard_residuum (solved_at sqrt (pinvmx (dd3 S)) DF lstsq (fun=> Some (0, true, NaN, NaN)) cfg t0 st0 1) = NaN.
  rewrite /solved_at /step /=.
  have [[_ [[E _]|[st' E _]]] _] := picard_inv sqrt (pinvmx (dd3 S)) lstsq (the_stepper cfg) (fun=> Some (0, true, NaN, NaN)) st0; last by rewrite E.
  have /eqP := E; rewrite picard_zero_iff /= leNgt invf_lt1 ?ltr0n // (ltr1n _ 2) //.
by rewrite Hn.
Qed.
