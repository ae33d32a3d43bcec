(** C69: the Newton option (newton=True / CONFIG["precond"]) of the relaxation. *)
From Coq Require Import Reals.
From mathcomp Require Import all_ssreflect all_algebra zify.
From Verif Require Import Model.RBase Model.Spline Model.Quad Model.Forms Model.DeRham Model.FormEval Model.Geometry Model.SeqR Model.Gvec Model.Relaxation.
From Verif Require Import Spec.SeqSpec Spec.GeomSpec Spec.SeqRSpec Spec.RelaxSpec.
From Verif Require Import Proof.RField Proof.DeRhamAlg Proof.GeometryProofs Proof.MassSPD Proof.LeastSquares Proof.RelaxAlg Proof.RelaxLoop Proof.RelaxRun
  Proof.ForceAlg Proof.RelaxNewton Props.DeRham Props.SequenceR Props.Relaxation.
Set Implicit Arguments.
Unset Strict Implicit.
Unset Printing Implicit Defensive.
Import Order.TTheory GRing.Theory Num.Theory.
Local Open Scope ring_scope.

Section Generic.
Variable F : realFieldType.
Variable S : drseq F.
Variable pinv : 'M[F]_(rk S K3).
Hypothesis OK : relax_ok S pinv.
Notation vec2 := 'cV[F]_(rk S K2).
Notation PL := (P_Leray S pinv).
(** jnp.linalg.lstsq: the least-squares solution of Model/Gvec.v *)
Notation lsq := (fun (A : 'M[F]_(rk S K2)) (b : vec2) => lstsq A b).

(** positive semidefinite *)
Definition psd n (H : 'M[F]_n) : Prop := H^T = H /\ forall x : 'cV_n, 0 <= form H x x.

Section Step.
Variable ts : stepper F.
Hypothesis Hn : newton ts.
Notation Bp := (B_nplus1 pinv lsq ts).
Notation mu := (mid_u pinv lsq ts).

(** The velocity is the Leray projection of the least-squares solution z, of least norm, of
    H z = g, where g represents v = the smoothed force tested with projected fields; it is divergence-free
    whatever the Hessian *)
Theorem C69_velocity : forall st : rstate S, let v := smooth (gamma ts) (mid_f pinv ts st) in
  exists z g : vec2,
  [/\ mu st = PL *m z, divfree S (mu st),
      forall w : vec2, \sum_i w i 0 * g i 0 = form (M2 S) (PL *m w) v,
      forall y : vec2, \sum_i (Hessian st *m z - g) i 0 ^+ 2 <= \sum_i (Hessian st *m y - g) i 0 ^+ 2
    & forall y : vec2, \sum_i (Hessian st *m y - g) i 0 ^+ 2 <= \sum_i (Hessian st *m z - g) i 0 ^+ 2 ->
        y != z -> \sum_i z i 0 ^+ 2 < \sum_i y i 0 ^+ 2].
Proof.
move=> st v; exists (newton_z pinv ts st), (newton_rhs pinv ts st); split.
- exact: mu_newton.
- by rewrite mu_newton //; apply: PL_div.
- by move=> w; rewrite -rhs_pair dotE.
- by move=> y; apply: lstsq_min.
- move=> y Hy Hne; have E := lstsq_norm Hy; rewrite -!/(sq _) E ltr_addl lt0r sq_ge0 andbT.
  by apply: contra Hne => /eqP H; rewrite -subr_eq0; apply/eqP; apply: sq_eq0; exact: H.
Qed.

(** With the mass matrix as Hessian, as in the scripts, the velocity is the projected smoothed force; unless
    force_free is set this is the velocity without the option, and so is the whole evaluation *)
Theorem C69_mass_hessian : forall st : rstate S, Hessian st = M2 S ->
  mu st = PL *m smooth (gamma ts) (mid_f pinv ts st) /\
  (force_free ts = false -> forall ts', newton ts' = false -> gamma ts' = gamma ts -> force_free ts' = false ->
     mu st = mid_u pinv lsq ts' st /\ Bp st = B_nplus1 pinv lsq ts' st).
Proof.
move=> st HM; split; first exact: newton_mass.
move=> Hf ts' Hn' Hg Hf'; have E : mu st = mid_u pinv lsq ts' st by apply: (newton_mass_off OK) => //; rewrite Hf'.
by split=> //; rewrite /B_nplus1 /mid_E E.
Qed.

(** Without smoothing the work done against J x H is exactly the Hessian's quadratic form at the least-squares
    solution z: for a positive semidefinite Hessian an exact step never increases the energy, and keeps
    it only if the velocity (and the Ohmic heating) is zero; for a negative semidefinite one an ideal
    step never decreases it *)
Theorem C69_work : forall st : rstate S, gamma ts = 0%N -> (Hessian st)^T = Hessian st -> exists z : vec2,
  [/\ mu st = PL *m z, form (M2 S) (mu st) (mid_JxH st) = form (Hessian st) z z
    & Bp st = B_guess st -> energy (B_guess st) = energy (B_n st)
        - dt_ st * (form (Hessian st) z z + eta st * form (M1 S) (mid_J st) (mid_J st))].
Proof.
move=> st Hg HS; exists (newton_z pinv ts st).
have W := newton_work OK Hn Hg HS; split=> //; first exact: mu_newton.
move=> Hfix; have := energy_balance OK lsq ts st; rewrite Hfix subrr form0r mulr0 addr0 W => /eqP.
by rewrite subr_eq => /eqP ->; rewrite addrC mulNr.
Qed.
Theorem C69_descent : forall st : rstate S, gamma ts = 0%N -> psd (Hessian st) -> 0 < dt_ st -> 0 <= eta st ->
  Bp st = B_guess st -> energy (B_guess st) <= energy (B_n st) /\
  (energy (B_guess st) = energy (B_n st) -> mu st = 0).
Proof.
move=> st Hg [HS Hp] Hdt Het Hfix.
have W := newton_work OK Hn Hg HS.
have := energy_balance OK lsq ts st; rewrite Hfix subrr form0r mulr0 addr0 W => /eqP.
rewrite subr_eq addrC mulNr => /eqP ->.
set q := form _ _ _; set j := form _ _ _.
have Hq : 0 <= q := Hp _.
have Hj : 0 <= eta st * j by apply: mulr_ge0 => //; exact: spd_ge0 (ok_M1 OK) _.
split; first by rewrite ger_addl oppr_le0; apply: mulr_ge0; [exact: ltW | apply: addr_ge0].
move=> /eqP; rewrite -subr_eq0 addrAC subrr add0r oppr_eq0 mulf_eq0 (gt_eqF Hdt) /= paddr_eq0 // => /andP [/eqP H0 _].
have K : Hessian st *m newton_z pinv ts st = 0 by apply: (psd_ker HS Hp).
by rewrite mu_newton // /newton_z (lstsq_still K) mulmx0.
Qed.
Theorem C69_ascent : forall st : rstate S, gamma ts = 0%N -> (Hessian st)^T = Hessian st ->
  (forall x : vec2, form (Hessian st) x x <= 0) -> 0 <= dt_ st -> eta st = 0 ->
  Bp st = B_guess st -> energy (B_n st) <= energy (B_guess st).
Proof.
move=> st Hg HS Hp Hdt He Hfix; have [z [_ _ ->]] := C69_work Hg HS; last by [].
by rewrite He mul0r addr0 ler_addl oppr_ge0; apply: mulr_ge0_le0.
Qed.

(** such exact steps exist around every field Bm, for every time step, resistivity and Hessian *)
Theorem C69_exact_steps : forall (Bm : vec2) (dt et : F) (H : 'M[F]_(rk S K2)), exists st : rstate S,
  [/\ 2%:R^-1 *: (B_guess st + B_n st) = Bm, dt_ st = dt, eta st = et, Hessian st = H & Bp st = B_guess st].
Proof.
move=> Bm dt et H; pose s0 := RState Bm Bm dt et H 0 (Fin 0) (Fin 0) (Fin 0).
pose d := (dt / 2%:R) *: (strong_curl S *m mid_E pinv lsq ts s0).
pose st := RState (Bm - d) (Bm + d) dt et H 0 (Fin 0) (Fin 0) (Fin 0).
have half (x : vec2) : 2%:R^-1 *: (x + x) = x by rewrite -mulr2n -scaler_nat scalerA mulVf ?scale1r // pnatr_eq0.
have E : 2%:R^-1 *: (Bm + d + (Bm - d)) = Bm by rewrite addrACA subrr addr0 half.
exists st; split=> //; rewrite /B_nplus1.
have -> : mid_E pinv lsq ts st = mid_E pinv lsq ts s0.
  by rewrite /mid_E /mid_u /mid_f /mid_JxH /mid_J /mid_H /= E half.
have -> : dt_ st *: (strong_curl S *m mid_E pinv lsq ts s0) = d + d.
  by rewrite /d -scalerDl -mulrDl -mulr2n -mulr_natr mulfK // pnatr_eq0.
by rewrite /= addrA subrK.
Qed.

(** a current-free field is an equilibrium also with the option *)
Theorem C69_equilibrium : forall st : rstate S, weak_curl S *m B_n st = 0 -> B_guess st = B_n st -> Bp st = B_n st.
Proof.
move=> st HJ HB; pose ts' := Stepper (gamma ts) false (picard_tol ts) (picard_maxit ts) (force_free ts).
have EJ : mid_J st = 0 by rewrite /mid_J HB -scalemxAr mulmxDr HJ addr0 scaler0.
have Z : mid_JxH st = 0.
  apply: (spd_nondeg (ok_M2 OK)) => y; rewrite /mid_JxH EJ.
  have [_ ->] := form_solve (P1x1_to_2 (0 : 'cV[F]_(rk S K1)) (mid_H st)) y (proj1 (ok_M2 OK)) (spd_unit (ok_M2 OK)).
  by rewrite -[LHS]opprK -triple_swap; [rewrite /dotv trmx0 mul0mx mxE oppr0 | exact: ok_sym OK].
have Sm g : smooth (S := S) g 0 = 0 by elim: g => [//|g]; rewrite /smooth iterS => ->; rewrite /solve mulmx0.
have Eu : mu st = 0 by rewrite /mid_u Hn /mid_f Z mulmx0 if_same Sm mulmx0 /lstsq !mulmx0.
have EE : mid_E pinv lsq ts st = 0.
  apply: (spd_nondeg (ok_M1 OK)) => y; rewrite /mid_E EJ scaler0 subr0 Eu.
  have [_ ->] := form_solve (P2x1_to_1 (0 : vec2) (mid_H st)) y (proj1 (ok_M1 OK)) (spd_unit (ok_M1 OK)).
  by rewrite triple_swap; [rewrite /dotv trmx0 mul0mx mxE oppr0 | exact: ok_sym OK].
by rewrite /B_nplus1 EE mulmx0 scaler0 addr0.
Qed.
End Step.

(** The Hessian assembled at a current-free field is positive semidefinite; every assembled one is symmetric *)
Theorem C69_assembled : forall B : vec2, (hessian B)^T = hessian B /\ (weak_curl S *m B = 0 -> psd (hessian B)).
Proof.
move=> B; split=> [|HJ]; first exact: hessian_sym.
split=> [|x]; first exact: hessian_sym.
have E : uxJ B x = 0.
  rewrite /uxJ HJ; have := P2x1_linr (-1) x (0 : 'cV[F]_(rk S K1)) 0.
  by rewrite scaler0 addr0 scaleN1r addNr => ->; rewrite /solve mulmx0.
rewrite hessian_form /= E !form0l !addr0; apply: mulr_ge0; first by rewrite invr_ge0 ler0n.
by apply: addr_ge0; exact: spd_ge0 (ok_M2 OK) _.
Qed.
Section Run.
Variable sqrt_ : F -> F.
Variable DF : nat -> mat3 F.
Variable fault : rstate S -> option (vec2 * bool * num F * num F).
Variable cfg : config F.
Variables (t0 : trace S) (st0 : rstate S).
Notation state := (state_at sqrt_ pinv DF lsq fault cfg t0 st0).
Notation solved := (solved_at sqrt_ pinv DF lsq fault cfg t0 st0).
Notation acc := (accepted sqrt_ pinv DF lsq fault cfg t0 st0).
Notation nrm := (norm_2 sqrt_).

(** Whole preconditioned runs without smoothing: as long as the Hessians in use are positive semidefinite, an accepted
    step gains at most |B' - B| tol / 2 of energy, and the norm of the field grows by at most the
    tolerance per iteration, apart from the perturbation *)
Theorem C69_run : is_sqrt sqrt_ -> c_precond cfg -> c_gamma cfg = 0%N -> 0 <= c_solver_tol cfg < 1 ->
  0 < dt_ st0 -> 0 < c_dt_factor cfg -> 0 <= eta st0 -> forall N, (forall n, (n < N)%N -> psd (Hessian (state n))) ->
  (forall n, (n < N)%N -> acc n.+1 -> let B' := B_guess (solved n.+1) in
     energy B' <= energy (B_n (state n)) + 2%:R^-1 * (nrm (B' - B_n (state n)) * c_solver_tol cfg)) /\
  nrm (B_n (state N)) <= nrm (B_n st0) + N%:R * c_solver_tol cfg
     + \sum_(1 <= i < N.+1) (if (i == c_apply_pert_after cfg) && (0 < c_pert_strength cfg) then c_pert_strength cfg else 0).
Proof.
move=> Hsq Hp Hg /andP [Ht0 Ht1] Hdt Hfac Heta N HN.
have E0 n (st' : rstate S) : (n < N)%N -> same st' (state n) ->
    energy (B_nplus1 pinv lsq (the_stepper cfg) st') <= energy (B_n st') + 2%:R^-1 * (nrm (B_nplus1 pinv lsq (the_stepper cfg) st' - B_n st')
      * nrm (B_nplus1 pinv lsq (the_stepper cfg) st' - B_guess st')).
  move=> Hn [E1 E2 E3 E4]; have [HS HQ] := HN n Hn; rewrite -E4 in HS HQ.
  apply: le_trans (newton_step OK (ts := the_stepper cfg) (st := st') Hsq Hp Hg HS) _.
  rewrite ler_add2r ger_addl oppr_le0; apply: mulr_ge0; first by rewrite E2; apply/ltW/dt_pos.
  apply: addr_ge0; first exact: HQ.
  by apply: mulr_ge0; [rewrite E3 eta_const | exact: spd_ge0 (ok_M1 OK) _].
split=> [n Hn Ha|].
  have [st' [Hs _ -> Hr _]] := accepted_step Ht1 Ha; have /= E := E0 n st' Hn Hs; case: (Hs) => E1 E2 E3 E4.
  rewrite /= -E1; apply: le_trans E _; rewrite ler_add2l.
  apply: ler_wpmul2l; first by rewrite invr_ge0 ler0n.
  by apply: ler_wpmul2l => //; apply: (nrm_ge0 OK Hsq).
elim: N HN E0 => [|n IH] HN E0; first by rewrite big_geq // mul0r !addr0.
have {}IH := IH (fun m Hm => HN m (ltnW Hm)) (fun m st' Hm => E0 m st' (ltnW Hm)).
rewrite big_nat_recr //= -/(pert_size cfg n.+1).
have -> : n.+1%:R * c_solver_tol cfg = n%:R * c_solver_tol cfg + c_solver_tol cfg by rewrite -addn1 natrD mulrDl mul1r.
have Ps i : 0 <= pert_size cfg i by rewrite /pert_size; case: ifP => // /andP [_ /ltW].
apply: (@le_trans _ _ (nrm (B_n (state n)) + c_solver_tol cfg + pert_size cfg n.+1)); last first.
  rewrite !addrA ler_add2r -[X in _ <= X]addrA [c_solver_tol cfg + _]addrC addrA ler_add2r; exact: IH.
case Ha : (acc n.+1); last first.
  by have [-> _ _ _ _] := reject_fields Ha; rewrite -addrA ler_addl addr_ge0.
have [-> _ _ _ _] := accept_state Ha.
have [st' [Hs _ -> Hr _]] := accepted_step Ht1 Ha; have /= E := E0 n st' (ltnSn n) Hs; case: (Hs) => E1 E2 E3 E4.
apply: le_trans (nrm_triangle OK Hsq _ _) _; apply: ler_add (nrm_pert DF cfg OK Hsq _).
by apply: le_trans (norm_of_energy OK Hsq E) _; rewrite E1 ler_add2l.
Qed.

(** the same configuration without the option *)
Definition plain : config F := Config (c_maxit cfg) false (c_precond_every cfg) (c_gamma cfg) (c_dt_factor cfg)
  (c_force_tol cfg) (c_force_free cfg) (c_solver_maxit cfg) (c_critit cfg) (c_solver_tol cfg)
  (c_save_every cfg) (c_save_B cfg) (c_pert_strength cfg) (c_apply_pert_after cfg) (c_dB_xyz cfg).
Lemma step_plain (st : rstate S) : c_force_free cfg = false -> Hessian st = M2 S ->
  step sqrt_ pinv lsq fault cfg st = step sqrt_ pinv lsq fault plain st.
Proof.
move=> Hf HM; case Hp : (c_precond cfg); last first.
  rewrite /step; have -> : the_stepper plain = the_stepper cfg by rewrite /the_stepper /= Hp.
  by [].
have M (s : rstate S) : Hessian s = M2 S -> midpoint_residuum sqrt_ pinv lsq (the_stepper cfg) fault s = midpoint_residuum sqrt_ pinv lsq (the_stepper plain) fault s.
  move=> Hs; rewrite /midpoint_residuum.
  have [_ H] := C69_mass_hessian (ts := the_stepper cfg) Hp Hs.
  have [-> ->] := H Hf (the_stepper plain) erefl erefl Hf.
  by [].
have Hi : Hessian (picard_init st) = M2 S by [].
rewrite /step /picard_solver /=; move: (picard_init st) Hi => s.
have C (s' : rstate S) : cond_fun (the_stepper cfg) s' = cond_fun (the_stepper plain) s' by [].
elim: (c_solver_maxit cfg) s => [//|m IH] s Hs /=; rewrite -C; case: (cond_fun _ s) => //.
rewrite M // IH // /midpoint_residuum; case: (fault s) => [[[[? ?] ?] ?]|] //.
Qed.

(** Started with the mass matrix as Hessian, a preconditioned run is the run without the option, state by state and record by record,
    until the Hessian is recomputed for the first time; in particular if it is recomputed
    less often than maxit *)
Theorem C69_same_run : c_force_free cfg = false -> Hessian st0 = M2 S ->
  (forall n, (n < c_precond_every cfg)%N -> state n = state_at sqrt_ pinv DF lsq fault plain t0 st0 n /\
     trace_at sqrt_ pinv DF lsq fault cfg t0 st0 n = trace_at sqrt_ pinv DF lsq fault plain t0 st0 n /\
     Hessian (state n) = M2 S) /\
  ((c_maxit cfg < c_precond_every cfg)%N ->
     run_relaxation_loop sqrt_ pinv DF lsq fault cfg t0 st0 = run_relaxation_loop sqrt_ pinv DF lsq fault plain t0 st0).
Proof.
move=> Hf HM.
have R0 : record_initial sqrt_ pinv lsq fault cfg t0 st0 = record_initial sqrt_ pinv lsq fault plain t0 st0.
  by rewrite /record_initial step_plain.
have Bd i (st : rstate S) t : Hessian st = M2 S -> (0 < i < c_precond_every cfg)%N ->
    loop_body sqrt_ pinv DF lsq fault cfg i st t = loop_body sqrt_ pinv DF lsq fault plain i st t /\
    Hessian (loop_body sqrt_ pinv DF lsq fault cfg i st t).1.1 = M2 S.
  move=> Hs /andP [Hi0 Hi]; rewrite /loop_body -(step_plain Hf Hs).
  have [_ _ _ HH] := picard_same sqrt_ pinv lsq (the_stepper cfg) fault st.
  have -> : failed plain (step sqrt_ pinv lsq fault cfg st) = failed cfg (step sqrt_ pinv lsq fault cfg st) by [].
  have {}HH : Hessian (step sqrt_ pinv lsq fault cfg st) = M2 S by rewrite -Hs; exact: HH.
  move: (step sqrt_ pinv lsq fault cfg st) HH => s HH.
  case: (failed _ _) => //=.
  have -> : accept sqrt_ pinv DF cfg i s = accept sqrt_ pinv DF plain i s.
    by rewrite /accept /= modn_small // (gtn_eqF Hi0) andbF.
  by split=> //; rewrite /accept /= ?modn_small // ?(gtn_eqF Hi0) ?andbF /=; case: (_ && _).
split.
- suff H n : (n < c_precond_every cfg)%N -> history sqrt_ pinv DF lsq fault cfg t0 st0 n = history sqrt_ pinv DF lsq fault plain t0 st0 n
      /\ Hessian (state n) = M2 S.
    move=> n Hn; have [E HE] := H n Hn; split; [by rewrite /state_at E | split=> //; by rewrite /trace_at E].
  elim: n => [|n IH] Hn; first by rewrite /= R0.
  have [E HE] := IH (ltnW Hn).
  have [B1 B2] := Bd n.+1 (state n) (trace_at sqrt_ pinv DF lsq fault cfg t0 st0 n) HE Hn.
  by rewrite /state_at !histS B1 -B1 B2 B1 /state_at /trace_at E.
- move=> Hm; rewrite /run_relaxation_loop -R0.
  suff -> : forall n i st t, Hessian st = M2 S -> (0 < i)%N -> (i + n <= c_precond_every cfg)%N ->
      loop sqrt_ pinv DF lsq fault cfg n i st t = loop sqrt_ pinv DF lsq fault plain n i st t by [].
  elim=> [//|n IH] i st t Hs Hi Hin; rewrite /=.
  have Hi' : (0 < i < c_precond_every cfg)%N by rewrite Hi /=; move: Hin; rewrite addnS => H; apply: leq_trans H; rewrite ltnS leq_addr.
  have [<- ] := Bd i st t Hs Hi'; case: (loop_body _ _ _ _ _ _ _ _ _) => [[st' t'] b] /= Hs'.
  by case: b => //; apply: IH => //; rewrite addSnnS.
Qed.
End Run.
End Generic.

(** the polar Dirichlet discretisation of the scripts, started with Hessian = M2: the Hessian is positive
    definite, there is a non-zero divergence-free field, exact steps from non-equilibria exist, and with
    precond_compute_every = 50 the first 49 iterations meet the hypotheses of C69_run *)
Example C69_nonvacuous : exists (S : drseq R_realFieldType) (pinv : 'M_(rk S K3)) (B : 'cV_(rk S K2)),
  [/\ new_sequence (8, 8, 1)%N (3, 3, 0)%N 4 (Clamped, Periodic, Constant) (fun _ => id33) true true = Some S,
      relax_ok S pinv, B != 0 /\ divfree S B, psd (M2 S)
    & forall (DF : nat -> mat3 R_realFieldType) dB n, (n < 50)%N ->
      let st0 := RState B B 1 1 (M2 S) 0 (Fin 0) (Fin 0) (Fin 0) in
      let cfg := Config 100 true 50 0 2%:R 1 false 20 4 (2%:R^-1) 1 true 0 0 dB in
      let t0 := Trace [::] [::] [::] [::] [::] [::] [::] [::] [::] [::] in
      psd (Hessian (state_at sqrt pinv DF (fun A b => lstsq A b) (fun _ => None) cfg t0 st0 n))].
Proof.
have [S [pinv [B [HS OK HB _]]]] := Relaxation_nonvacuous.
have PM : psd (M2 S) by split; [exact: (proj1 (ok_M2 OK)) | move=> x; exact: spd_ge0 (ok_M2 OK) x].
exists S, pinv, B; split=> // DF dB n Hn st0 cfg t0.
have [H _] := C69_same_run OK sqrt DF (fun _ => None) (cfg := cfg) t0 (st0 := st0) erefl erefl.
by have [_ [_ ->]] := H n Hn.
Qed.

Print Assumptions C69_velocity.
Print Assumptions C69_mass_hessian.
Print Assumptions C69_work.
Print Assumptions C69_descent.
Print Assumptions C69_ascent.
Print Assumptions C69_exact_steps.
Print Assumptions C69_equilibrium.
Print Assumptions C69_assembled.
Print Assumptions C69_run.
Print Assumptions C69_same_run.
