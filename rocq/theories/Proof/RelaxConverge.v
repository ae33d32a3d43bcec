(** Convergence of the relaxation: the time step stays bounded from below and the energy drops
    by a fixed amount as long as the force is above the tolerance. *)
From Coq Require Import Reals Lra.
From mathcomp Require Import all_ssreflect all_algebra zify.
From Verif Require Import Model.Forms Model.DeRham Model.Geometry Model.Relaxation Spec.GeomSpec Spec.SeqSpec Spec.RelaxSpec
  Proof.RField Proof.RelaxAlg Proof.RelaxLoop Proof.RelaxRun Proof.RelaxProgress Proof.RelaxBound.
Set Implicit Arguments.
Unset Strict Implicit.
Unset Printing Implicit Defensive.
Import Order.TTheory GRing.Theory Num.Theory.

(** arithmetic *)
Section Arith.
Local Open Scope R_scope.
(** what one accepted step gives: N, N' the norms of B before and after, v, f those of velocity
    and force, b that of the midpoint field, d that of the increment, r the residual, j = |J|^2 *)
Definition facts (N N' dt e K tol v f b d j r : R) : Prop :=
  (0 <= v /\ 0 <= j /\ 0 <= d /\ 0 <= r /\ 0 <= b) /\
  N' * N' <= N * N - 2 * dt * (v * v + e * j) + d * r /\ N' <= N + r /\ b <= (N + N' + r) / 2 /\
  d <= dt * (K * (v * b) + e * (K * b)) /\ f <= K * v /\ r <= tol.
Lemma decrease (N N' dt e K tol v f b d j r M tau vm : R) : facts N N' dt e K tol v f b d j r ->
  0 <= N -> 0 <= N' -> 0 < dt -> 0 <= e -> 1 <= K -> 0 < tau ->
  tol <= 1 -> N + 1 <= M -> K * vm <= tau -> 0 < vm -> tau <= f ->
  tol * (K * M) <= vm -> tol * (e * (K * M)) <= vm * vm / 2 ->
  N' * N' <= N * N - dt * (vm * vm) / 2.
Proof.
move=> [[Hv [Hj [Hd [Hr Hb]]]] [H1 [H2 [H3 [H4 [H5 H6]]]]]] HN HN' Hdt He HK Htau H7 H8 H9 H10 H11 H12 H13.
have Hbm : b <= M by lra.
have Hvv : vm <= v by apply: (Rmult_le_reg_l K); lra.
have HKb : K * b <= K * M by apply: Rmult_le_compat_l; lra.
have HKb0 : 0 <= K * b by apply: Rmult_le_pos; lra.
have Q1 : d * r <= d * tol by apply: Rmult_le_compat_l.
have T0 : 0 <= tol by lra.
have Q2 : d * tol <= dt * (v * (tol * (K * b)) + tol * (e * (K * b))).
  have := Rmult_le_compat_r _ _ _ T0 H4; lra.
have Q3 : tol * (K * b) <= vm.
  apply: Rle_trans H12; exact: Rmult_le_compat_l.
have Q4 : tol * (e * (K * b)) <= vm * vm / 2.
  apply: Rle_trans H13; apply: Rmult_le_compat_l => //; exact: Rmult_le_compat_l.
have Q5 : v * (tol * (K * b)) <= v * vm by apply: Rmult_le_compat_l.
have Q6 : v * vm <= v * v by apply: Rmult_le_compat_l.
have Q7 : vm * vm <= v * v by apply: Rmult_le_compat; lra.
have Q8 : dt * (v * (tol * (K * b)) + tol * (e * (K * b))) <= dt * (v * v + vm * vm / 2).
  by apply: Rmult_le_compat_l; lra.
have Q9 : 0 <= e * j by apply: Rmult_le_pos.
have Q10 : 0 <= dt * (e * j) by apply: Rmult_le_pos; lra.
have Q11 : dt * (vm * vm) <= dt * (v * v) by apply: Rmult_le_compat_l; lra.
lra.
Qed.
(** bounds of the time step *)
Definition Crate (e K A : R) : R := K * (K * (A * A) * A) + e * (K * A) + 1.
Lemma Crate_pos e K A : 0 <= e -> 1 <= K -> 0 <= A -> 0 < Crate e K A.
Proof.
move=> He HK HA; rewrite /Crate.
have H1 : 0 <= K * (K * (A * A) * A) by repeat apply: Rmult_le_pos; lra.
have H2 : 0 <= e * (K * A) by repeat apply: Rmult_le_pos; lra.
lra.
Qed.
Lemma rate_le (q e K A v b : R) : 0 <= e -> 1 <= K -> 0 <= v -> 0 <= b -> b <= A -> v <= K * (b * b) ->
  q <= K * (v * b) + e * (K * b) -> q <= Crate e K A.
Proof.
move=> He HK Hv Hb HA H1 H2; rewrite /Crate; apply: Rle_trans H2 _.
have Q1 : b * b <= A * A by apply: Rmult_le_compat.
have Q2 : v <= K * (A * A) by apply: Rle_trans H1 _; apply: Rmult_le_compat_l; lra.
have Q3 : v * b <= K * (A * A) * A by apply: Rmult_le_compat.
have Q4 : K * (v * b) <= K * (K * (A * A) * A) by apply: Rmult_le_compat_l; lra.
have Q5 : e * (K * b) <= e * (K * A) by apply: Rmult_le_compat_l => //; apply: Rmult_le_compat_l; lra.
lra.
Qed.
Lemma big_dt (dt q C tol : R) : 0 < C -> 0 <= dt -> q <= C -> ~ (dt * q <= tol) -> tol / C <= dt.
Proof.
move=> HC Hdt Hq Hn; apply: (Rmult_le_reg_r C) => //; rewrite /Rdiv Rmult_assoc Rinv_l; last lra.
rewrite Rmult_1_r; apply: Rle_trans (_ : dt * q <= _); first lra.
exact: Rmult_le_compat_l.
Qed.
(** lower bound of the time step *)
Definition dtlow (d0 tol C fac : R) : R := Rmin d0 (Rmin (tol / C / 2) (tol / C / (fac * fac))).
Lemma dtlow_pos d0 tol C fac : 0 < d0 -> 0 < tol -> 0 < C -> 1 <= fac -> 0 < dtlow d0 tol C fac.
Proof.
move=> H1 H2 H3 H4; have Q : 0 < tol / C by apply: Rdiv_lt_0_compat.
have F2 : 0 < fac * fac by apply: Rmult_lt_0_compat; lra.
by repeat apply: Rmin_glb_lt => //; apply: Rdiv_lt_0_compat => //; lra.
Qed.
Lemma dtlow_0 d0 tol C fac : dtlow d0 tol C fac <= d0. Proof. exact: Rmin_l. Qed.
Lemma dtlow_rej d0 tol C fac dt : tol / C <= dt -> dtlow d0 tol C fac <= dt / 2.
Proof. by move=> H; apply: Rle_trans (Rmin_r _ _) _; apply: Rle_trans (Rmin_l _ _) _; lra. Qed.
Lemma dtlow_acc d0 tol C fac dt : tol / C <= dt -> 1 <= fac -> dtlow d0 tol C fac <= dt / (fac * fac).
Proof.
move=> H Hf; apply: Rle_trans (Rmin_r _ _) _; apply: Rle_trans (Rmin_r _ _) _.
have F2 : 0 < fac * fac by apply: Rmult_lt_0_compat; lra.
by apply: Rmult_le_compat_r => //; apply: Rlt_le; apply: Rinv_0_lt_compat.
Qed.
Lemma grow_le dt fac : 0 <= dt -> 1 <= fac -> dt <= dt * fac.
Proof. by move=> H1 H2; have := Rmult_le_compat_l _ _ _ H1 H2; lra. Qed.
Lemma shrink_le dt fac : 0 <= dt -> 1 <= fac -> dt / (fac * fac) <= dt * fac.
Proof.
move=> H1 H2; apply: Rle_trans (grow_le H1 H2); have F2 : 1 <= fac * fac by have := Rmult_le_compat _ _ _ _ _ _ H2 H2; lra.
apply: (Rmult_le_reg_r (fac * fac)); first lra.
rewrite /Rdiv Rmult_assoc Rinv_l; last lra.
by have := Rmult_le_compat_l _ _ _ H1 F2; lra.
Qed.
Lemma sq_le N A : 0 <= N -> 0 <= A -> N * N <= A * A -> N <= A.
Proof. by move=> H1 H2 H3; apply: Rsqr_incr_0_var => //; rewrite /Rsqr. Qed.
Lemma pow2_ge r : INR r <= 2 ^ r.
Proof.
elim: r => [|r IH]; first by rewrite /=; lra.
rewrite S_INR -tech_pow_Rmult; have : 1 <= 2 ^ r by apply: pow_R1_Rle; lra.
lra.
Qed.
(** counting: a steps of decrease delta, r halvings *)
Lemma count_bound (A delta dt d0 low fac : R) (amax rmax a r : nat) : 0 < delta -> 0 < low -> 0 < d0 -> 1 <= fac ->
  A * A / delta < INR amax -> d0 * fac ^ amax / low < INR rmax ->
  INR a * delta <= A * A -> low <= dt -> dt * 2 ^ r <= d0 * fac ^ a -> (a + r < amax + rmax)%coq_nat.
Proof.
move=> Hd Hl H0 Hf Ha Hr H1 H2 H3.
have La : (a < amax)%coq_nat.
  apply: INR_lt; apply: Rle_lt_trans Ha; apply: (Rmult_le_reg_r delta) => //.
  by rewrite /Rdiv Rmult_assoc Rinv_l; lra.
have Lr : (r < rmax)%coq_nat.
  apply: INR_lt; apply: Rle_lt_trans Hr; apply: (Rmult_le_reg_r low) => //.
  rewrite /Rdiv Rmult_assoc Rinv_l; last lra.
  rewrite Rmult_1_r.
  have P2 : 0 <= 2 ^ r by apply: pow_le; lra.
  apply: Rle_trans (_ : low * 2 ^ r <= _).
    by rewrite Rmult_comm; apply: Rmult_le_compat_l; [lra | exact: pow2_ge].
  apply: Rle_trans (_ : dt * 2 ^ r <= _); first exact: Rmult_le_compat_r.
  apply: Rle_trans H3 _; apply: Rmult_le_compat_l; first lra.
  by apply: Rle_pow => //; apply: PeanoNat.Nat.lt_le_incl.
exact: PeanoNat.Nat.add_lt_mono.
Qed.
Lemma crate_mono (q e e' K b v A : R) : e' <= e -> 0 <= K -> 0 <= b ->
  q <= K * (v * b) + e' * (K * b) -> q <= K * (v * b) + e * (K * b).
Proof.
move=> He HK Hb H; apply: Rle_trans H _.
by have := Rmult_le_compat_r (K * b) _ _ (Rmult_le_pos _ _ HK Hb) He; lra.
Qed.
Lemma arith_e (n1 dt v e j d r : R) :
  n1 * n1 + - (2 * (dt * (v * v + e * j))) + d * r = n1 * n1 - 2 * dt * (v * v + e * j) + d * r.
Proof. ring. Qed.
End Arith.
Local Open Scope ring_scope.

Section Converge.
Notation F := R_realFieldType.
Variable sqrt_ : F -> F.
Variable S : drseq F.
Variable pinv : 'M[F]_(rk S K3).
Hypothesis OK : relax_ok S pinv.
Hypothesis Hsq : is_sqrt sqrt_.
Variable DF : nat -> mat3 F.
Variable lstsq : 'M[F]_(rk S K2) -> 'cV[F]_(rk S K2) -> 'cV[F]_(rk S K2).
Variable fault : rstate S -> option ('cV[F]_(rk S K2) * bool * num F * num F).
Variable cfg : config F.
Variables (t0 : trace S) (st0 : rstate S).
Notation st_at := (state_at sqrt_ pinv DF lstsq fault cfg t0 st0).
Notation tr_at := (trace_at sqrt_ pinv DF lstsq fault cfg t0 st0).
Notation slv_at := (solved_at sqrt_ pinv DF lstsq fault cfg t0 st0).
Notation acc := (accepted sqrt_ pinv DF lstsq fault cfg t0 st0).
Notation ts := (the_stepper cfg).
Notation nrm := (norm_2 sqrt_).
Notation K := (Kmid sqrt_ pinv ts).
Notation tol := (c_solver_tol cfg).
Notation fac := (c_dt_factor cfg).
Notation nB n := (nrm (B_n (st_at n))).

Hypotheses (Hprec : c_precond cfg = false) (Htol0 : (0 < tol :> R)%R) (Htol1 : (tol < 1 :> R)%R) (Hmaxit : (0 < c_solver_maxit cfg)%N)
  (Hcrit : (1 < c_critit cfg)%N) (Hfac : (1 <= fac :> R)%R) (Hpert : (c_pert_strength cfg <= 0 :> R)%R)
  (Hdt : (0 < dt_ st0 :> R)%R) (Heta : (0 <= eta st0 :> R)%R) (Hg : B_guess st0 = B_n st0) (Hfault : forall st, fault st = None).
Let Hnew : newton ts = false := Hprec.
Let fac_pos : (0 < fac :> F)%R. Proof. exact: (lt_le_trans ltr01 Hfac). Qed.

Lemma nopert n : pert sqrt_ pinv DF cfg n = 0.
Proof. by rewrite /pert /pert_at ltNge Hpert andbF. Qed.
Lemma guess_is n : B_guess (st_at n) = B_n (st_at n).
Proof.
case: n => [//|n]; case Ha : (acc n.+1).
  by have [-> -> _ _ _] := accept_state Ha; rewrite nopert addr0.
by have [-> -> _ _ _] := reject_fields Ha.
Qed.
Lemma Bmid_same (st : rstate S) : B_guess st = B_n st -> Bmid st = B_n st.
Proof. by move=> E; rewrite /Bmid E -mulr2n -scaler_nat scalerA mulVf ?pnatr_eq0 // scale1r. Qed.

Lemma step_facts n : acc n.+1 -> exists v f b d j r : R,
  force_norm (st_at n.+1) = Fin (f : F) /\ facts (nB n) (nB n.+1) (dt_ (st_at n)) (eta st0) K tol v f b d j r.
Proof.
move=> Ha.
have [r Hr Hle] := accepted_residual Ha.
have Hi : (0 < picard_iterations (slv_at n.+1))%N.
  rewrite lt0n; apply/negP => /eqP H0; have := picard_zero H0 => E.
  by move: Hr; rewrite /solved_at /step /= E /= => -[E1]; rewrite -E1 leNgt Htol1 in Hle.
have [st' [[[S1 S2 S3 S4] _ HB Er] [Hf Hv]]] := picard_last Hr Hi.
have Hf' : force_norm (st_at n.+1) = force_norm (slv_at n.+1).
  by rewrite (state_accept Ha); have [_ _ _ _ [_ _ -> _]] := accept_fields sqrt_ pinv DF cfg n.+1 (slv_at n.+1).
have [EB _ _ _ _] := accept_state Ha; rewrite nopert addr0 in EB.
set B' := B_nplus1 pinv lstsq ts st' in HB Er.
have EB' : B_n (st_at n.+1) = B' by rewrite EB; exact: HB.
have D0 : 0 <= dt_ st' by rewrite S2; apply/ltW/dt_pos.
have Ee : eta st' = eta st0 by rewrite S3; exact: eta_const.
have E0 : 0 <= eta st' by rewrite Ee.
exists (nrm (mid_u pinv lstsq ts st')), (nrm (mid_f pinv ts st')), (nrm (Bmid st')), (nrm (B' - B_n st')),
  (form (M1 S) (mid_J st') (mid_J st')), r.
split; first by rewrite Hf'; exact: Hf.
have P (x : 'cV[F]_(rk S K2)) : Rle 0 (nrm x) by apply/RleE; exact: (nrm_ge0 OK Hsq).
have Pr : Rle 0 r by rewrite Er.
have Pj : Rle 0 (form (M1 S) (mid_J st') (mid_J st')) by apply/RleE; exact: spd_ge0 (ok_M1 OK) _.
split; first by repeat split.
rewrite EB' -S1 -S2 -Ee.
have HN := norm_step OK lstsq Hsq (ts := ts) (st := st') Hnew D0 E0.
have HE := energy_step OK lstsq Hsq (ts := ts) (st := st') Hnew D0.
split; [|split; [|split; [|split; [|split]]]].
- have : 2%:R * energy B' <= 2%:R * energy (B_n st') - 2%:R * (dt_ st' * (nrm (mid_u pinv lstsq ts st') ^+ 2 + eta st' * form (M1 S) (mid_J st') (mid_J st')))
     + nrm (B' - B_n st') * r.
    have G (a b c d : F) : a <= b - c + 2%:R^-1 * d -> 2%:R * a <= 2%:R * b - 2%:R * c + d.
      have H2 : (0 : F) <= 2%:R by rewrite ler0n.
      move=> /(ler_wpmul2l H2); rewrite mulrDr mulrBr [2%:R * (_^-1 * _)]mulrA mulfV ?pnatr_eq0 // mul1r; exact.
    by rewrite Er; exact: G HE.
  rewrite !energyE ![2%:R * (_^-1 * _)]mulrA mulfV ?pnatr_eq0 // !mul1r -!(nrm_sq OK Hsq) => /RleE.
  rewrite !expr2 -!RmultE -RplusE -!RoppE => H; apply: Rle_trans H _; apply: Req_le.
  rewrite (_ : 2%:R = IZR 2) //; exact: arith_e.
- by apply/RleE; rewrite Er.
- apply/RleE.
  have -> : Bmid st' = 2%:R^-1 *: (B_n st' + B' + (B_guess st' - B')).
    by rewrite /Bmid -[B_n st' + B' + _]addrA [B' + _]addrC subrK addrC.
  rewrite (nrmZ OK Hsq) ?invr_ge0 ?ler0n // (_ : IZR 2 = 2%:R) // RdivE; last by rewrite pnatr_eq0.
  rewrite mulrC; apply: ler_wpmul2r; first by rewrite invr_ge0 ler0n.
  apply: le_trans (nrm_triangle OK Hsq _ _) _; rewrite -[B_guess _ - _]opprB nrmN -Er.
  by rewrite ler_add2r; exact: (nrm_triangle OK Hsq).
- apply/RleE; rewrite (incrE pinv lstsq ts) (nrmZ OK Hsq) //; apply: ler_wpmul2l => //.
  exact: (bound_rate OK Hsq lstsq ts E0).
- by apply/RleE; exact: (bound_f OK Hsq lstsq Hnew).
- exact/RleE.
Qed.

(** a small time step is accepted after one evaluation *)
Lemma first_iters (st : rstate S) : B_guess st = B_n st -> 0 <= dt_ st ->
  dt_ st * rate sqrt_ pinv lstsq cfg st <= tol -> (picard_iterations (step sqrt_ pinv lstsq fault cfg st) <= 1)%N.
Proof.
move=> HB Hd Hr.
have N : nrm (B_nplus1 pinv lstsq ts st - B_guess st) = dt_ st * rate sqrt_ pinv lstsq cfg st.
  rewrite HB /B_nplus1 addrAC subrr add0r -(nrmZ OK Hsq) //.
have Emid : midpoint_residuum sqrt_ pinv lstsq ts fault (picard_init st) =
  RState (B_n st) (B_nplus1 pinv lstsq ts st) (dt_ st) (eta st) (Hessian st) 1
        (Fin (dt_ st * rate sqrt_ pinv lstsq cfg st)) (Fin (nrm (mid_f pinv ts st))) (Fin (nrm (mid_u pinv lstsq ts st))).
  by rewrite /midpoint_residuum Hfault -N.
rewrite /step /picard_solver; move: (picard_maxit ts) => [//|m].
have -> : while_loop sqrt_ pinv lstsq ts fault m.+1 (picard_init st) = if cond_fun ts (picard_init st)
  then while_loop sqrt_ pinv lstsq ts fault m (midpoint_residuum sqrt_ pinv lstsq ts fault (picard_init st)) else picard_init st by [].
rewrite Emid; case: ifP => // _.
have Cd (s : rstate S) r : picard_residuum s = Fin r -> r <= tol -> cond_fun ts s = false.
  by move=> E Hle; rewrite /cond_fun E /= ltNge Hle orbF andbF.
by case: m => [|m] //=; rewrite (Cd _ _ _ Hr).
Qed.
Variables A e tau : R.
Hypotheses (Hee : Rle (eta st0) e) (HA0 : Rle 0 A) (Htau : Rlt 0 tau).
Lemma rate_bound n : Rle (nB n) A -> Rle (rate sqrt_ pinv lstsq cfg (st_at n)) (Crate e K A).
Proof.
move=> HA; have Em := Bmid_same (guess_is n); have En := eta_const sqrt_ pinv DF lstsq fault cfg t0 st0 n.
have He : 0 <= eta (st_at n) by rewrite En.
have HB := bound_rate OK Hsq lstsq ts He; rewrite Em En in HB.
have HU := bound_u OK Hsq lstsq Hnew (st_at n); rewrite Em in HU.
apply: (@rate_le _ _ _ _ (nrm (mid_u pinv lstsq ts (st_at n))) (nB n)).
- by apply: Rle_trans Hee; exact/RleE.
- by apply/RleE; have [] := Kmid_parts OK Hsq ts.
- by apply/RleE; exact: (nrm_ge0 OK Hsq).
- by apply/RleE; exact: (nrm_ge0 OK Hsq).
- exact: HA.
- exact/RleE.
- apply: (crate_mono A Hee); [by apply/RleE; exact: (Kmid_ge0 OK Hsq ts) | by apply/RleE; exact: (nrm_ge0 OK Hsq) |].
  apply/RleE; apply: le_trans HB; rewrite /rate /mid_E -Em -En mulmxBr -scalemxAr; exact: lexx.
Qed.

Notation C := (Crate e K A).
Notation low := (dtlow (dt_ st0) tol C fac).
Let e_ge0 : Rle 0 e. Proof. by apply: Rle_trans Hee; exact/RleE. Qed.
Let K_ge1 : Rle 1 K. Proof. by apply/RleE; have [] := Kmid_parts OK Hsq ts. Qed.
Let C_pos : Rlt 0 C. Proof. exact: Crate_pos. Qed.
Let dtR n : Rle 0 (dt_ (st_at n)). Proof. by apply/RleE/ltW/dt_pos. Qed.
Lemma dt_rej n : acc n.+1 = false -> Rle (nB n) A -> Rle low (dt_ (st_at n.+1)).
Proof.
move=> Ha HA; have [_ _ -> _ _] := reject_fields Ha; rewrite -RdivE ?pnatr_eq0 // (_ : 2%:R = IZR 2) //; apply: dtlow_rej.
apply: (big_dt C_pos (dtR n) (rate_bound HA)) => /RleE H.
have := @first_accept _ _ _ _ OK Hsq lstsq fault cfg (st_at n) (guess_is n) (Hfault _) _ Hmaxit H.
by move: Ha; rewrite /accepted /solved_at /= => /negbFE -> E; have := E (ltW (dt_pos sqrt_ pinv DF lstsq fault t0 n Hdt fac_pos)).
Qed.
Lemma dt_acc n : acc n.+1 -> Rle (nB n) A -> Rle low (dt_ (st_at n)) ->
  Rle low (dt_ (st_at n.+1)) /\ Rle (dt_ (st_at n.+1)) (Rmult (dt_ (st_at n)) fac).
Proof.
move=> Ha HA Hl; have [_ _ -> _ _] := accept_state Ha; rewrite /dt_fac; case: ifP => Hp.
  by split; [apply: Rle_trans Hl _; apply: grow_le => //; exact/RleE | exact: Rle_refl].
have -> : dt_ (st_at n) * (fac ^+ 2)^-1 = Rdiv (dt_ (st_at n)) (Rmult fac fac).
  by rewrite RmultE RdivE ?expr2 // mulf_neq0 // gt_eqF.
split; last by apply: shrink_le => //; exact/RleE.
apply: dtlow_acc; last exact/RleE.
apply: (big_dt C_pos (dtR n) (rate_bound HA)) => /RleE H.
have := first_iters (guess_is n) (ltW (dt_pos sqrt_ pinv DF lstsq fault t0 n Hdt fac_pos)) H.
move: Hp; rewrite /solved_at /= => /negbT; rewrite -leqNgt => Hp H1.
by have := leq_trans Hcrit (leq_trans Hp H1).
Qed.

Variable vm : R.
Hypotheses (Hvm : Rlt 0 vm) (HKv : Rle (Rmult K vm) tau) (HA : Rle (nrm (B_n st0)) A)
  (T1 : Rle (Rmult tol (Rmult K (Rplus A 1))) vm) (T2 : Rle (Rmult tol (Rmult e (Rmult K (Rplus A 1)))) (Rdiv (Rmult vm vm) 2)).
(** no accepted iteration up to n has a force below tau *)
Definition high n : Prop := forall k f, (0 < k <= n)%N -> acc k -> force_norm (st_at k) = Fin f -> Rle tau f.
Definition delta : R := Rdiv (Rmult low (Rmult vm vm)) 2.
Lemma invariant n : high n -> exists a r : nat, [/\ (a + r)%N = n, Rle low (dt_ (st_at n)),
   Rle (Rmult (dt_ (st_at n)) (pow 2 r)) (Rmult (dt_ st0) (pow fac a))
   & Rle (Rplus (Rmult (nB n) (nB n)) (Rmult (INR a) delta)) (Rmult A A)].
Proof.
have Pn (x : 'cV[F]_(rk S K2)) : Rle 0 (nrm x) by apply/RleE; exact: (nrm_ge0 OK Hsq).
have lowp : Rlt 0 low by apply: dtlow_pos => //; [exact/RltE | exact/RltE | exact/RleE].
have dp : Rle 0 delta.
  rewrite /delta; apply: Rlt_le; apply: Rdiv_lt_0_compat; last lra.
  by repeat apply: Rmult_lt_0_compat.
elim: n => [|n IH] Hh.
  exists 0%N, 0%N; split=> //; [exact: dtlow_0 | exact: Rle_refl |].
  by rewrite /= Rmult_0_l Rplus_0_r; apply: Rmult_le_compat.
have [|a [r [Ea Hl Hd HE]]] := IH.
  by move=> k f /andP [k1 k2]; apply: Hh; rewrite k1 ltnW.
have HAn : Rle (nB n) A.
  apply: sq_le => //; apply: Rle_trans HE; have := Rmult_le_pos _ _ (pos_INR a) dp; lra.
case Ha : (acc n.+1); last first.
  exists a, r.+1; split; [by rewrite addnS Ea | exact: dt_rej | |].
    have [_ _ -> _ _] := reject_fields Ha; rewrite -RdivE ?pnatr_eq0 // (_ : 2%:R = IZR 2) //.
    by rewrite -tech_pow_Rmult; lra.
  by have [-> _ _ _ _] := reject_fields Ha.
have [G1 G2] := dt_acc Ha HAn Hl.
exists a.+1, r; split; [by rewrite addSn Ea | exact: G1 | |].
  have P2 : Rle 0 (pow 2 r) by apply: pow_le; lra.
  apply: Rle_trans (Rmult_le_compat_r _ _ _ P2 G2) _.
  have := Rmult_le_compat_r fac _ _ (proj2 (RleE _ _) (ltW fac_pos)) Hd.
  by rewrite -tech_pow_Rmult; lra.
have [v [f [b [d [j [q [Hf Fa]]]]]]] := step_facts Ha.
have Htf := Hh n.+1 f (ltac:(by rewrite ltnS leqnn)) Ha Hf.
have Hd' : Rlt 0 (dt_ (st_at n)) by apply: Rlt_le_trans Hl.
have e0 : Rle 0 (eta st0) by apply/RleE.
have t1 : Rle tol 1 by apply/RleE/ltW.
have T2' : Rle (Rmult tol (Rmult (eta st0) (Rmult K (Rplus A 1)))) (Rdiv (Rmult vm vm) 2).
  apply: Rle_trans T2; apply: Rmult_le_compat_l; first by apply/RleE/ltW.
  by apply: Rmult_le_compat_r => //; apply: Rmult_le_pos; lra.
have HA1 : Rle (Rplus (nB n) 1) (Rplus A 1) by lra.
have := decrease Fa (Pn _) (Pn _) Hd' e0 K_ge1 Htau t1 HA1 HKv Hvm Htf T1 T2'.
have : Rle delta (Rdiv (Rmult (dt_ (st_at n)) (Rmult vm vm)) 2).
  rewrite /delta; apply: Rmult_le_compat_r; first lra.
  by apply: Rmult_le_compat_r => //; apply: Rmult_le_pos; lra.
by rewrite S_INR; lra.
Qed.
Lemma reach (amax rmax : nat) : Rlt (Rdiv (Rmult A A) delta) (INR amax) ->
  Rlt (Rdiv (Rmult (dt_ st0) (pow fac amax)) low) (INR rmax) ->
  exists k f, [/\ (0 < k <= amax + rmax)%N, acc k, force_norm (st_at k) = Fin f & f < tau :> F].
Proof.
move=> Ha Hr; set N := (amax + rmax)%N.
have lowp : Rlt 0 low by apply: dtlow_pos => //; [exact/RltE | exact/RltE | exact/RleE].
have dp : Rlt 0 delta.
  rewrite /delta; apply: Rdiv_lt_0_compat; last lra.
  by repeat apply: Rmult_lt_0_compat.
pose low_at k := acc k && (if force_norm (st_at k) is Fin f then f < tau else false).
case Hall : [forall k : 'I_N, ~~ low_at k.+1]; last first.
  have /forallPn [k] := negbT Hall; rewrite negbK /low_at => /andP [Hk].
  by case Ef : (force_norm _) => [f| |] // Hf; exists k.+1, f; split=> //; rewrite ltn_ord.
have Hh : high N.
  move=> k f /andP [k1 k2] Hk Ef; move/forallP: Hall => Hall.
  have Hk' : (k.-1 < N)%N by lia.
  have := Hall (Ordinal Hk'); rewrite /low_at /= prednK // Hk Ef /= -leNgt => H; exact/RleE.
have [a [r [E Hl Hd HE]]] := invariant Hh.
have Pn : Rle 0 (Rmult (nB N) (nB N)) by apply: Rmult_le_pos; apply/RleE; exact: (nrm_ge0 OK Hsq).
have H1 : Rle (Rmult (INR a) delta) (Rmult A A) by lra.
have := count_bound dp lowp (proj2 (RltE _ _) Hdt) (proj2 (RleE _ _) Hfac) Ha Hr H1 Hl Hd.
by rewrite -/N -E; lia.
Qed.
End Converge.
Section Tol.
Local Open Scope R_scope.
(** the admissible solver tolerance *)
Definition tol_max (K A e tau : R) : R :=
  Rmin (1 / 2) (Rmin (tau / K / (K * (A + 1))) (tau / K * (tau / K) / 2 / (e * (K * (A + 1)) + 1))).
Lemma tol_max_pos K A e tau : 1 <= K -> 0 <= A -> 0 <= e -> 0 < tau -> 0 < tol_max K A e tau.
Proof.
move=> HK HA He Ht.
have P1 : 0 < K * (A + 1) by apply: Rmult_lt_0_compat; lra.
have P2 : 0 < tau / K by apply: Rdiv_lt_0_compat; lra.
have P3 : 0 < tau / K * (tau / K) by apply: Rmult_lt_0_compat.
have P4 : 0 <= e * (K * (A + 1)) by apply: Rmult_le_pos; lra.
repeat apply: Rmin_glb_lt; first lra; first exact: Rdiv_lt_0_compat.
by apply: Rdiv_lt_0_compat; lra.
Qed.
Lemma tol_max_spec K A e tau tol : 1 <= K -> 0 <= A -> 0 <= e -> 0 < tau -> 0 < tol -> tol <= tol_max K A e tau ->
  [/\ tol < 1, 0 < tau / K, K * (tau / K) <= tau, tol * (K * (A + 1)) <= tau / K
    & tol * (e * (K * (A + 1))) <= tau / K * (tau / K) / 2].
Proof.
move=> HK HA He Ht Ht0 H.
have P1 : 0 < K * (A + 1) by apply: Rmult_lt_0_compat; lra.
have P2 : 0 < tau / K by apply: Rdiv_lt_0_compat; lra.
have P4 : 0 <= e * (K * (A + 1)) by apply: Rmult_le_pos; lra.
have M1 := Rle_trans _ _ _ H (Rmin_l _ _). have M2 := Rle_trans _ _ _ H (Rmin_r _ _).
have M3 := Rle_trans _ _ _ M2 (Rmin_l _ _). have M4 := Rle_trans _ _ _ M2 (Rmin_r _ _).
split=> //; first lra.
- by apply: Req_le; field; lra.
- have := Rmult_le_compat_r _ _ _ (Rlt_le _ _ P1) M3.
  by rewrite /Rdiv [tau * / K * _ * _]Rmult_assoc Rinv_l; lra.
- have P5 : 0 < e * (K * (A + 1)) + 1 by lra.
  have := Rmult_le_compat_r _ _ _ (Rlt_le _ _ P5) M4.
  rewrite {2}/Rdiv [_ / 2 * _ * _]Rmult_assoc Rinv_l; last lra.
  have : tol * (e * (K * (A + 1))) <= tol * (e * (K * (A + 1)) + 1) by apply: Rmult_le_compat_l; lra.
  lra.
Qed.
End Tol.
