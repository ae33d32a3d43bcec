(** Invariants of whole relaxation runs. *)
From Coq Require Import Ring Field.
From mathcomp Require Import all_ssreflect all_algebra.
From Verif Require Import Model.Forms Model.DeRham Model.Geometry Model.Relaxation Spec.SeqSpec Spec.RelaxSpec
  Proof.RelaxAlg Proof.RelaxLoop.
Set Implicit Arguments.
Unset Strict Implicit.
Unset Printing Implicit Defensive.
Import Order.TTheory GRing.Theory Num.Theory.
Local Open Scope ring_scope.

Section Run.
Variable F : realFieldType.
Variable sqrt_ : F -> F.
Variable S : drseq F.
Variable pinv : 'M[F]_(rk S K3).
Variable DF : nat -> mat3 F.
Variable lstsq : 'M[F]_(rk S K2) -> 'cV[F]_(rk S K2) -> 'cV[F]_(rk S K2).
Variable fault : rstate S -> option ('cV[F]_(rk S K2) * bool * num F * num F).
Variable cfg : config F.
Variables (t0 : trace S) (st0 : rstate S).
Notation st_at := (state_at sqrt_ pinv DF lstsq fault cfg t0 st0).
Notation tr_at := (trace_at sqrt_ pinv DF lstsq fault cfg t0 st0).
Notation slv_at := (solved_at sqrt_ pinv DF lstsq fault cfg t0 st0).
Notation acc := (accepted sqrt_ pinv DF lstsq fault cfg t0 st0).
Notation dB := (dB_hat sqrt_ pinv DF cfg).
Notation ts := (the_stepper cfg).

(** the perturbation is applied in iteration i *)
Definition pert_at (i : nat) : bool := (i == c_apply_pert_after cfg) && (0 < c_pert_strength cfg).
Definition pert (i : nat) : 'cV[F]_(rk S K2) := if pert_at i then c_pert_strength cfg *: dB else 0.
Definition dt_fac (st : rstate S) : F :=
  if (picard_iterations st < c_critit cfg)%N then c_dt_factor cfg else (c_dt_factor cfg ^+ 2)^-1.

Lemma accept_fields i (st : rstate S) : let st' := accept sqrt_ pinv DF cfg i st in
  [/\ B_n st' = B_guess st + pert i, B_guess st' = B_guess st, dt_ st' = dt_ st * dt_fac st, eta st' = eta st
    & [/\ picard_iterations st' = picard_iterations st, picard_residuum st' = picard_residuum st,
       force_norm st' = force_norm st & velocity_norm st' = velocity_norm st]].
Proof.
rewrite /accept /pert /dt_fac -/(pert_at i).
by case: (pert_at i); case: (c_precond cfg && _) => /=; rewrite ?addr0; case: (_ < _)%N; split=> //=.
Qed.

Lemma accepted_residual n : acc n.+1 -> exists2 r, picard_residuum (slv_at n.+1) = Fin r & r <= c_solver_tol cfg.
Proof.
rewrite /accepted /failed negb_or negbK; case: (picard_residuum _) => [r| |] /andP [] //=.
by rewrite -leNgt => Hr _; exists r.
Qed.
(** an accepted step is the midpoint map of some guess with the old field *)
Lemma accepted_step n : c_solver_tol cfg < 1 -> acc n.+1 -> exists st', [/\ same st' (st_at n),
   fault st' = None,
   B_guess (slv_at n.+1) = B_nplus1 pinv lstsq ts st',
   norm_2 sqrt_ (B_nplus1 pinv lstsq ts st' - B_guess st') <= c_solver_tol cfg
 & velocity_norm (slv_at n.+1) = Fin (norm_2 sqrt_ (mid_u pinv lstsq ts st'))].
Proof.
move=> Ht Ha; have [r Hr Hle] := accepted_residual Ha.
have Hi : (0 < picard_iterations (slv_at n.+1))%N.
  rewrite lt0n; apply/negP => /eqP H0; have := picard_zero H0 => E.
  by move: Hr; rewrite /solved_at /step /= E /= => -[E1]; rewrite -E1 leNgt Ht in Hle.
have [st' [[H1 H2 H3 H4] [_ H5]]] := picard_last Hr Hi.
by exists st'; split=> //; rewrite -H4.
Qed.
Lemma accepted_cases n : acc n.+1 -> B_guess (slv_at n.+1) = B_guess (st_at n) \/
  exists2 st', same st' (st_at n) & B_guess (slv_at n.+1) = B_nplus1 pinv lstsq ts st'.
Proof.
move=> Ha; have [r Hr _] := accepted_residual Ha.
case Hi : (picard_iterations (slv_at n.+1)) => [|k].
  by left; have := picard_zero Hi; rewrite /solved_at /step /= => ->.
have H0 : (0 < picard_iterations (slv_at n.+1))%N by rewrite Hi.
by have [st' [[H1 H2 H3 H4] _]] := picard_last Hr H0; right; exists st'.
Qed.

Lemma reject_fields n : acc n.+1 = false ->
  [/\ B_n (st_at n.+1) = B_n (st_at n), B_guess (st_at n.+1) = B_n (st_at n),
      dt_ (st_at n.+1) = dt_ (st_at n) / 2%:R, eta (st_at n.+1) = eta (st_at n)
    & Hessian (st_at n.+1) = Hessian (st_at n)].
Proof. by move=> Hr; rewrite (state_reject Hr); have [H1 H2 H3 H4] := solved_same sqrt_ pinv DF lstsq fault cfg t0 st0 n; split=> //=; rewrite H2. Qed.
Lemma accept_state n : acc n.+1 ->
  [/\ B_n (st_at n.+1) = B_guess (slv_at n.+1) + pert n.+1, B_guess (st_at n.+1) = B_guess (slv_at n.+1),
      dt_ (st_at n.+1) = dt_ (st_at n) * dt_fac (slv_at n.+1), eta (st_at n.+1) = eta (st_at n)
    & velocity_norm (st_at n.+1) = velocity_norm (slv_at n.+1)].
Proof.
move=> Ha; rewrite (state_accept Ha).
have [H1 H2 H3 H4] := solved_same sqrt_ pinv DF lstsq fault cfg t0 st0 n.
by have [E1 E2 E3 E4 [E5 E6 E7 E8]] := accept_fields n.+1 (slv_at n.+1); split; rewrite // ?E3 ?H2 ?E4.
Qed.
Lemma eta_const n : eta (st_at n) = eta st0.
Proof.
elim: n => [//|n IH]; case Ha : (acc n.+1); first by have [_ _ _ -> _] := accept_state Ha.
by have [_ _ _ -> _] := reject_fields Ha.
Qed.

(** *** trace *)
Definition recorded n : seq nat := [seq i <- iota 1 n | acc i && selected cfg i].
Lemma iota_rcons n : iota 1 n.+1 = rcons (iota 1 n) n.+1.
Proof. by have := iotaD 1 n 1; rewrite addn1 cats1 add1n. Qed.
Lemma recordedS n : recorded n.+1 = if acc n.+1 && selected cfg n.+1 then rcons (recorded n) n.+1 else recorded n.
Proof. by rewrite /recorded iota_rcons filter_rcons. Qed.

Lemma trace_step n : tr_at n.+1 = if acc n.+1 && selected cfg n.+1 then
   append_to_trace_dict (tr_at n) n.+1 (force_norm (st_at n.+1)) (energy (B_n (st_at n.+1))) (helicity (B_n (st_at n.+1)))
         (divergence_norm sqrt_ (B_n (st_at n.+1))) (velocity_norm (st_at n.+1)) (picard_iterations (st_at n.+1))
         (picard_residuum (st_at n.+1)) (dt_ (st_at n.+1)) (if c_save_B cfg then Some (B_n (st_at n.+1)) else None)
  else tr_at n.
Proof.
case Ha : (acc n.+1); last exact: trace_reject Ha.
by rewrite (trace_accept Ha).
Qed.

Lemma traces n : let dry := step sqrt_ pinv lstsq fault cfg st0 in
  [/\ iterations (tr_at n) = iterations t0 ++ 0%N :: recorded n,
      force_trace (tr_at n) = force_trace t0 ++ force_norm dry :: [seq force_norm (st_at i) | i <- recorded n],
      energy_trace (tr_at n) = energy_trace t0 ++ energy (B_n st0) :: [seq energy (B_n (st_at i)) | i <- recorded n],
      helicity_trace (tr_at n) = helicity_trace t0 ++ helicity (B_n st0) :: [seq helicity (B_n (st_at i)) | i <- recorded n]
    & divergence_trace (tr_at n) = divergence_trace t0 ++ divergence_norm sqrt_ (B_n st0) :: [seq divergence_norm sqrt_ (B_n (st_at i)) | i <- recorded n]]
  /\
  [/\ velocity_trace (tr_at n) = velocity_trace t0 ++ velocity_norm dry :: [seq velocity_norm (st_at i) | i <- recorded n],
      picard_iterations_trace (tr_at n) = picard_iterations_trace t0 ++ 0%N :: [seq picard_iterations (st_at i) | i <- recorded n],
      picard_errors (tr_at n) = picard_errors t0 ++ Fin 0 :: [seq picard_residuum (st_at i) | i <- recorded n],
      timesteps (tr_at n) = timesteps t0 ++ dt_ dry :: [seq dt_ (st_at i) | i <- recorded n]
    & B_fields (tr_at n) = B_fields t0 ++ if c_save_B cfg then B_n st0 :: [seq B_n (st_at i) | i <- recorded n] else [::]].
Proof.
elim: n => [|n].
  rewrite /trace_at /= /record_initial /append_to_trace_dict /=; split; split; rewrite ?cats1 //.
  by case: (c_save_B cfg); rewrite ?cats1 ?cats0.
rewrite trace_step recordedS; case: (_ && _) => //= -[[H1 H2 H3 H4 H5] [H6 H7 H8 H9 H10]].
split; split; rewrite ?map_rcons -?rcons_cons -?rcons_cat ?H1 ?H2 ?H3 ?H4 ?H5 ?H6 ?H7 ?H8 ?H9 //.
by case: (c_save_B cfg) H10 => /= H10; rewrite ?map_rcons -?rcons_cons -?rcons_cat H10.
Qed.

(** *** divergence *)
Section OK.
Hypothesis OK : relax_ok S pinv.
Lemma pert_div i : divfree S (pert i).
Proof.
rewrite /divfree /pert /dB_hat; case: (pert_at i); last by rewrite mulmx0.
by rewrite -!scalemxAr (mulmxA (strong_div S) (P_Leray S pinv)) (ok_Pdiv OK) mul0mx !scaler0.
Qed.
Lemma divfreeD (x y : 'cV_(rk S K2)) : divfree S x -> divfree S y -> divfree S (x + y).
Proof. by rewrite /divfree mulmxDr => -> ->; rewrite addr0. Qed.
Lemma run_div n : divfree S (B_n st0) -> divfree S (B_guess st0) ->
  divfree S (B_n (st_at n)) /\ divfree S (B_guess (st_at n)).
Proof.
move=> H0 H1; elim: n => [//|n [IH1 IH2]]; case Ha : (acc n.+1); last first.
  by have [-> -> _ _ _] := reject_fields Ha.
have [-> -> _ _ _] := accept_state Ha.
suff H : divfree S (B_guess (slv_at n.+1)) by split=> //; apply: divfreeD => //; apply: pert_div.
have [->|[st' [E _ _ _] ->]] := accepted_cases Ha; first by [].
by apply: (step_div OK); rewrite E.
Qed.

Hypothesis Hsq : is_sqrt sqrt_.
Notation nrm := (norm_2 sqrt_).
Lemma sqrt0 : sqrt_ 0 = 0.
Proof. by have [_ /eqP] := Hsq (lexx 0); rewrite sqrf_eq0 => /eqP. Qed.

(** *** time step *)
Lemma dt_pos n : 0 < dt_ st0 -> 0 < c_dt_factor cfg -> 0 < dt_ (st_at n).
Proof.
move=> H0 Hf; elim: n => [//|n IH]; case Ha : (acc n.+1).
  have [_ _ -> _ _] := accept_state Ha; apply: mulr_gt0 => //; rewrite /dt_fac.
  by case: (_ < _)%N => //; rewrite invr_gt0 exprn_gt0.
by have [_ _ -> _ _] := reject_fields Ha; rewrite divr_gt0 // ltr0n.
Qed.

(** *** energy *)
Lemma same_dt (s s' : rstate S) : same s s' -> dt_ s = dt_ s'. Proof. by case. Qed.
Lemma nrmZ a (x : 'cV_(rk S K2)) : 0 <= a -> nrm (a *: x) = a * nrm x.
Proof.
move=> Ha; apply/eqP; rewrite -(@eqr_expn2 _ 2) ?mulr_ge0 ?(nrm_ge0 OK Hsq) //.
by rewrite exprMn !(nrm_sq OK Hsq) formZl formZr mulrA expr2.
Qed.
Lemma nrm_dB : nrm dB <= 1.
Proof.
rewrite /dB_hat; set d := _ *m _; rewrite nrmZ ?invr_ge0 ?(nrm_ge0 OK Hsq) //.
by case: (altP (nrm d =P 0)) => [->|H]; rewrite ?mulr0 ?ler01 // mulVf.
Qed.
Definition pert_size (i : nat) : F := if pert_at i then c_pert_strength cfg else 0.
Lemma nrm_pert i : nrm (pert i) <= pert_size i.
Proof.
rewrite /pert /pert_size; case: ifP => [/andP [_ /ltW H]|_].
  by rewrite nrmZ // ler_pimulr // nrm_dB.
by rewrite /norm_2 mulmx0 mxE sqrt0.
Qed.

Hypotheses (Hprec : c_precond cfg = false) (Htol : 0 <= c_solver_tol cfg < 1)
  (Hdt : 0 < dt_ st0) (Hfac : 0 < c_dt_factor cfg) (Heta : 0 <= eta st0).

Lemma energy_run n : acc n.+1 -> exists v, velocity_norm (st_at n.+1) = Fin v /\
  let B' := B_guess (slv_at n.+1) in
  energy B' <= energy (B_n (st_at n)) - dt_ (st_at n) * v ^+ 2
     + 2%:R^-1 * (nrm (B' - B_n (st_at n)) * c_solver_tol cfg).
Proof.
move=> Ha; have /andP [_ Ht1] := Htol.
have [st' [[E1 E2 E3 E4] _ -> Hr Hv]] := accepted_step Ht1 Ha.
have [_ _ _ _ Ev] := accept_state Ha; exists (nrm (mid_u pinv lstsq ts st')); split; first by rewrite Ev Hv.
have Hd : 0 <= dt_ st' by rewrite E2; apply/ltW/dt_pos.
have := energy_step OK lstsq Hsq (ts := ts) (st := st') Hprec Hd => H /=.
apply: le_trans H _; rewrite E1 E2; apply: ler_add.
  rewrite ler_add2l ler_opp2; apply: ler_wpmul2l; first by rewrite -E2.
  by rewrite ler_addl; apply: mulr_ge0; [rewrite E3 eta_const | exact: spd_ge0 (ok_M1 OK) _].
apply: ler_wpmul2l; first by rewrite invr_ge0 ler0n.
by apply: ler_wpmul2l => //; apply: (nrm_ge0 OK Hsq).
Qed.

Lemma norm_run n : nrm (B_n (st_at n)) <= nrm (B_n st0) + n%:R * c_solver_tol cfg + \sum_(1 <= i < n.+1) pert_size i.
Proof.
have /andP [Ht0 Ht1] := Htol.
have Ps i : 0 <= pert_size i by rewrite /pert_size; case: ifP => // /andP [_ /ltW].
elim: n => [|n IH]; first by rewrite big_geq // mul0r !addr0.
rewrite big_nat_recr //= -addn1 natrD mulrDl mul1r.
have IH' : nrm (B_n (st_at n)) + c_solver_tol cfg + pert_size n.+1 <=
   nrm (B_n st0) + (n%:R * c_solver_tol cfg + c_solver_tol cfg) + (\sum_(1 <= i < n.+1) pert_size i + pert_size n.+1).
  rewrite !addrA ler_add2r -[X in _ <= X]addrA [c_solver_tol cfg + _]addrC addrA ler_add2r; exact: IH.
rewrite addn1; apply: (@le_trans _ _ (nrm (B_n (st_at n)) + c_solver_tol cfg + pert_size n.+1)); last exact: IH'.
case Ha : (acc n.+1); last first.
  by have [-> _ _ _ _] := reject_fields Ha; rewrite -addrA ler_addl addr_ge0.
have [-> _ _ _ _] := accept_state Ha.
have [st' [[E1 E2 E3 E4] _ -> Hr _]] := accepted_step Ht1 Ha.
apply: le_trans (nrm_triangle OK Hsq _ _) _; apply: ler_add (nrm_pert _).
have Hd : 0 <= dt_ st' by rewrite E2; apply/ltW/dt_pos.
have He : 0 <= eta st' by rewrite E3 eta_const.
apply: le_trans (norm_step OK lstsq Hsq (ts := ts) (st := st') Hprec Hd He) _.
by rewrite E1 ler_add2l.
Qed.
End OK.
End Run.
