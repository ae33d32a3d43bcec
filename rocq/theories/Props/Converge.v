(** Property theorems about the convergence of the relaxation (C71). *)
From Coq Require Import Reals Lra.
From Coquelicot Require Import Coquelicot.
From mathcomp Require Import all_ssreflect all_algebra zify.
From Verif Require Import Model.RBase Model.Spline Model.Quad Model.Forms Model.DeRham Model.FormEval Model.Geometry Model.SeqR Model.Relaxation.
From Verif Require Import Spec.SeqSpec Spec.GeomSpec Spec.SeqRSpec Spec.CalculusSpec Spec.RelaxSpec.
From Verif Require Import Proof.RField Proof.SeqFacts Proof.SeqRProofs Proof.SeqCalculus Proof.RelaxAlg Proof.RelaxLoop Proof.RelaxRun Proof.RelaxProgress Proof.RelaxBound Proof.RelaxConverge
  Props.DeRham Props.SequenceR Props.Relaxation.
Set Implicit Arguments.
Unset Strict Implicit.
Unset Printing Implicit Defensive.
Import Order.TTheory GRing.Theory Num.Theory.
Local Open Scope ring_scope.
Notation F := R_realFieldType.

(** a run without Newton option, perturbation or floating-point faults, started from a state whose
    guess is its field, with a time step that may grow *)
Definition plain_run (S : drseq F) (fault : rstate S -> option ('cV[F]_(rk S K2) * bool * num F * num F))
    (cfg : config F) (st0 : rstate S) : Prop :=
  [/\ c_precond cfg = false, c_pert_strength cfg <= 0, (forall st, fault st = None) & B_guess st0 = B_n st0]
  /\ [/\ (0 < c_solver_maxit cfg)%N, (1 < c_critit cfg)%N, 1 <= c_dt_factor cfg & 0 < dt_ st0].

Section Seq.
Variables (ns ps : triple) (q : nat) (types : stype * stype * stype) (DFx : point -> mat3 R_realFieldType)
  (polar dirichlet : bool).
Hypothesis Hs : supported ns ps q types polar dirichlet.
Hypothesis Hreg : regular_map DFx (seq_points ns ps q types).
Variable S : drseq R_realFieldType.
Hypothesis HS : new_sequence ns ps q types DFx polar dirichlet = Some S.
Variable pinv : 'M[R_realFieldType]_(rk S K3).
Hypothesis Hpinv : dd3 S *m pinv *m dd3 S = dd3 S.
Let OK := C38_sequence_ok Hs Hreg HS Hpinv.

(** For every bound A of the initial norm, every bound e of the resistivity and every force
    tolerance tau there is a threshold for solver_tol, and below it, for each choice of solver_tol,
    dt and dt_factor, a number N such that every run has an accepted iteration with a
    force below tau among its first N iterations, whatever the other settings. *)
Theorem C71_force_reached : forall (g : nat) (ff : bool) (A e tau : R), Rle 0 A -> Rle 0 e -> Rlt 0 tau ->
  exists2 tol0 : R, Rlt 0 tol0 &
  forall tol dt fac : R, Rlt 0 tol -> Rle tol tol0 -> Rlt 0 dt -> Rle 1 fac -> exists N : nat,
  forall DF lstsq fault cfg (t0 : trace S) st0, plain_run fault cfg st0 ->
    c_gamma cfg = g -> c_force_free cfg = ff -> c_solver_tol cfg = tol -> c_dt_factor cfg = fac -> dt_ st0 = dt ->
    0 <= eta st0 -> Rle (eta st0) e -> Rle (norm_2 sqrt (B_n st0)) A ->
    exists k f, [/\ (0 < k <= N)%N, accepted sqrt pinv DF lstsq fault cfg t0 st0 k,
      force_norm (state_at sqrt pinv DF lstsq fault cfg t0 st0 k) = Fin f & f < tau].
Proof.
move=> g ff A e tau HA He Ht.
pose K := Kmid sqrt pinv (Stepper g false (0 : F) 0 ff).
have HK : Rle 1 K by apply/RleE; have [] := Kmid_parts OK Rsqrt_is_sqrt (Stepper g false (0 : F) 0 ff).
exists (tol_max K A e tau); first exact: tol_max_pos.
move=> tol dt fac H0 H1 Hdt Hfac.
have [T1 T2 T3 T4 T5] := tol_max_spec HK HA He Ht H0 H1.
pose low := dtlow dt tol (Crate e K A) fac.
pose dl := Rdiv (Rmult low (Rmult (Rdiv tau K) (Rdiv tau K))) 2.
have [amax Ha] := R_archimedean (Rdiv (Rmult A A) dl).
have [rmax Hr] := R_archimedean (Rdiv (Rmult dt (pow fac amax)) low).
exists (amax + rmax)%N => DF lstsq fault cfg t0 st0 [[P1 P2 P3 P4] [P5 P6 P7 P8]] Eg Eff Et Ef Ed E0 Ee EA.
have EK : Kmid sqrt pinv (the_stepper cfg) = K by rewrite /K /Kmid /= Eg Eff.
apply: (@reach _ _ _ OK Rsqrt_is_sqrt DF lstsq fault cfg t0 st0 P1 _ _ P5 P6 P7 P2 P8 E0 P4 P3 A e tau Ee HA Ht (Rdiv tau K)) => //; rewrite ?EK ?Et ?Ef ?Ed //.
- exact/RltE.
- exact/RltE.
- by rewrite /delta EK Et Ef Ed -/low -/dl INRE; exact/RltE.
- by rewrite INRE; exact/RltE.
Qed.

(** If every iteration is recorded, a loop with maxit >= N therefore ends by its force tolerance:
    the last force it has recorded is below force_tol, and it recorded at most N iterations. *)
Theorem C71_run_converges : forall (g : nat) (ff : bool) (A e tau : R), Rle 0 A -> Rle 0 e -> Rlt 0 tau ->
  exists2 tol0 : R, Rlt 0 tol0 &
  forall tol dt fac : R, Rlt 0 tol -> Rle tol tol0 -> Rlt 0 dt -> Rle 1 fac -> exists N : nat,
  forall DF lstsq fault cfg (t0 : trace S) st0, plain_run fault cfg st0 ->
    c_gamma cfg = g -> c_force_free cfg = ff -> c_solver_tol cfg = tol -> c_dt_factor cfg = fac -> dt_ st0 = dt ->
    0 <= eta st0 -> Rle (eta st0) e -> Rle (norm_2 sqrt (B_n st0)) A ->
    c_save_every cfg = 1%N -> c_force_tol cfg = tau -> (N <= c_maxit cfg)%N ->
    let out := run_relaxation_loop sqrt pinv DF lstsq fault cfg t0 st0 in
    [/\ exists2 f, last NaN (force_trace (out_trace out)) = Fin f & f < tau,
        (size (iterations (out_trace out)) <= size (iterations t0) + N.+1)%N,
        force_norm (out_local out) = last NaN (force_trace (out_trace out))
      & last 0 (energy_trace (out_trace out)) = energy (B_n (out_local out))].
Proof.
move=> g ff A e tau HA He Ht; have [tol0 H0 H] := C71_force_reached g ff HA He Ht; exists tol0 => // tol dt fac h1 h2 h3 h4.
have [N HN] := H tol dt fac h1 h2 h3 h4; exists N => DF lstsq fault cfg t0 st0 P E1 E2 E3 E4 E5 E6 E7 E8 Es Eft Hm out.
have [k [f [Hk Hacc Hf Hlt]]] := HN DF lstsq fault cfg t0 st0 P E1 E2 E3 E4 E5 E6 E7 E8.
have Rec n : (0 < n)%N -> accepted sqrt pinv DF lstsq fault cfg t0 st0 n ->
  recorded sqrt pinv DF lstsq fault cfg t0 st0 n = rcons (recorded sqrt pinv DF lstsq fault cfg t0 st0 n.-1) n.
  by case: n => // n _ Ha; rewrite recordedS Ha /selected Es modn1.
have Lf n : (0 < n)%N -> accepted sqrt pinv DF lstsq fault cfg t0 st0 n ->
  last NaN (force_trace (trace_at sqrt pinv DF lstsq fault cfg t0 st0 n)) = force_norm (state_at sqrt pinv DF lstsq fault cfg t0 st0 n).
  move=> n0 Ha; have [[_ -> _ _ _] _] := traces sqrt pinv DF lstsq fault cfg t0 st0 n.
  by rewrite (Rec _ n0 Ha) map_rcons -rcons_cons -rcons_cat last_rcons.
have Le n : (0 < n)%N -> accepted sqrt pinv DF lstsq fault cfg t0 st0 n ->
  last 0 (energy_trace (trace_at sqrt pinv DF lstsq fault cfg t0 st0 n)) = energy (B_n (state_at sqrt pinv DF lstsq fault cfg t0 st0 n)).
  move=> n0 Ha; have [[_ _ -> _ _] _] := traces sqrt pinv DF lstsq fault cfg t0 st0 n.
  by rewrite (Rec _ n0 Ha) map_rcons -rcons_cons -rcons_cat last_rcons.
have /andP [k0 kN] := Hk.
have Bk : breaks sqrt pinv DF lstsq fault cfg t0 st0 k by rewrite /breaks Hacc (Lf _ k0 Hacc) Hf /= Eft.
have [M [M1 M2 M3 M4]] := run_history sqrt pinv DF lstsq fault cfg t0 st0.
have Mk : (M <= k)%N by rewrite leqNgt; apply/negP => HMk; have := M3 k; rewrite k0 HMk Bk => /(_ isT).
have [M0 BM] : (0 < M)%N /\ breaks sqrt pinv DF lstsq fault cfg t0 st0 M.
  case: M4 => [EM|//]; have -> : M = k by lia.
  by [].
have /andP [Ma Ml] := BM.
have Eo : out_trace out = trace_at sqrt pinv DF lstsq fault cfg t0 st0 M by rewrite /trace_at -M2.
have El : out_local out = state_at sqrt pinv DF lstsq fault cfg t0 st0 M by rewrite /state_at -M2.
split.
- move: Ml; rewrite Eo; case: (last _ _) => [x| |] //=; rewrite Eft => Hx; by exists x.
- rewrite Eo; have [[-> _ _ _ _] _] := traces sqrt pinv DF lstsq fault cfg t0 st0 M.
  rewrite size_cat leq_add2l /= ltnS /recorded size_filter; apply: leq_trans (count_size _ _) _.
  by rewrite size_iota; apply: leq_trans Mk kN.
- by rewrite Eo El Lf.
- by rewrite Eo El Le.
Qed.
End Seq.
Print Assumptions C71_force_reached.
Print Assumptions C71_run_converges.

(** The threshold cannot be dropped: with solver_tol >= 1 the inner solver evaluates nothing, every
    iteration is accepted, and field and force never change. *)
Theorem C71_large_solver_tol : forall (S : drseq F) (pinv : 'M[F]_(rk S K3)) DF lstsq fault cfg (t0 : trace S) st0,
  plain_run fault cfg st0 -> 1 <= c_solver_tol cfg -> forall n,
  [/\ accepted sqrt pinv DF lstsq fault cfg t0 st0 n.+1,
      B_n (state_at sqrt pinv DF lstsq fault cfg t0 st0 n) = B_n st0
    & force_norm (state_at sqrt pinv DF lstsq fault cfg t0 st0 n) = force_norm st0].
Proof.
move=> S pinv DF lstsq fault cfg t0 st0 [[P1 P2 P3 P4] _] Ht.
have Z st : step sqrt pinv lstsq fault cfg st = picard_init st.
  by apply: picard_zero; apply/eqP; rewrite picard_zero_iff /= Ht orbT.
have Acc n : accepted sqrt pinv DF lstsq fault cfg t0 st0 n.+1.
  by rewrite /accepted /solved_at Z /failed /= ltNge Ht.
suff H n : [/\ B_n (state_at sqrt pinv DF lstsq fault cfg t0 st0 n) = B_n st0,
    B_guess (state_at sqrt pinv DF lstsq fault cfg t0 st0 n) = B_n st0
    & force_norm (state_at sqrt pinv DF lstsq fault cfg t0 st0 n) = force_norm st0] by move=> n; have [] := H n.
elim: n => [//|n [I1 I2 I3]].
have [E1 E2 E3 E4 [E5 E6 E7 E8]] := accept_fields sqrt pinv DF cfg n.+1 (solved_at sqrt pinv DF lstsq fault cfg t0 st0 n.+1).
rewrite (state_accept (Acc n)) E1 E2 E7 /pert /pert_at ltNge P2 andbF /= addr0 /solved_at Z /= I2 I3.
by [].
Qed.
Corollary C71_large_solver_tol_run : forall (S : drseq F) (pinv : 'M[F]_(rk S K3)) DF lstsq fault cfg (t0 : trace S) st0 f,
  plain_run fault cfg st0 -> 1 <= c_solver_tol cfg -> c_save_every cfg = 1%N ->
  force_norm st0 = Fin f -> c_force_tol cfg <= f ->
  last NaN (force_trace (out_trace (run_relaxation_loop sqrt pinv DF lstsq fault cfg t0 st0))) = Fin f
  /\ B_n (out_local (run_relaxation_loop sqrt pinv DF lstsq fault cfg t0 st0)) = B_n st0.
Proof.
move=> S pinv DF lstsq fault cfg t0 st0 f HP Ht Hs Hf Hle.
have H := C71_large_solver_tol pinv DF lstsq t0 HP Ht.
have [N [N1 N2 N3 N4]] := run_history sqrt pinv DF lstsq fault cfg t0 st0.
have El : out_local (run_relaxation_loop sqrt pinv DF lstsq fault cfg t0 st0) = state_at sqrt pinv DF lstsq fault cfg t0 st0 N by rewrite /state_at -N2.
have Eo : out_trace (run_relaxation_loop sqrt pinv DF lstsq fault cfg t0 st0) = trace_at sqrt pinv DF lstsq fault cfg t0 st0 N by rewrite /trace_at -N2.
rewrite El Eo; split; last by have [_ -> _] := H N.
have [[_ -> _ _ _] _] := traces sqrt pinv DF lstsq fault cfg t0 st0 N.
rewrite last_cat /=.
have Ed : force_norm (step sqrt pinv lstsq fault cfg st0) = Fin f.
  suff -> : step sqrt pinv lstsq fault cfg st0 = picard_init st0 by [].
  by apply: picard_zero; apply/eqP; rewrite picard_zero_iff /= Ht orbT.
have A1 : all (fun x => if x is Fin y then y == f else false) [seq force_norm (state_at sqrt pinv DF lstsq fault cfg t0 st0 i) | i <- recorded sqrt pinv DF lstsq fault cfg t0 st0 N].
  by rewrite all_map; apply/allP => i _ /=; have [_ _ ->] := H i; rewrite Hf eqxx.
case/lastP: [seq _ | _ <- _] A1 => [|s x]; first by rewrite /= Ed.
rewrite all_rcons last_rcons => /andP [+ _]; by case: x => // y /eqP ->.
Qed.
Print Assumptions C71_large_solver_tol.
Print Assumptions C71_large_solver_tol_run.

(** the settings of DEFAULT_CONFIG (dt = 1e-6, dt_factor = 1.01, gamma = 0, 20 iterations, critit = 4,
    no resistivity) with save_every = 1, on a polar Dirichlet discretisation with a non-zero
    divergence-free field, meet the hypotheses for a small enough solver_tol *)
Example C71_nonvacuous : exists (S : drseq F) (pinv : 'M_(rk S K3)) (B : 'cV_(rk S K2)),
  [/\ new_sequence (8, 8, 1)%N (3, 3, 0)%N 4 (Clamped, Periodic, Constant) (fun _ => id33) true true = Some S,
      B != 0 /\ divfree S B
    & exists2 tol : F, 0 < tol & exists N, forall (DF : nat -> mat3 F) lstsq dB maxit, (N <= maxit)%N ->
      let st0 := RState B B (Rdiv 1 1000000) 0 0 0 (Fin 0) (Fin 0) (Fin 0) in
      let cfg := Config maxit false 1000 0 (Rdiv 101 100) (Rdiv 1 1000000) false 20 4 tol 1 false 0 2000 dB in
      let t0 := Trace [::] [::] [::] [::] [::] [::] [::] [::] [::] [::] in
      plain_run (fun _ => None) cfg st0 /\
      exists2 f, last NaN (force_trace (out_trace (run_relaxation_loop sqrt pinv DF lstsq (fun _ => None) cfg t0 st0))) = Fin f
        & f < (Rdiv 1 1000000)].
Proof.
have [H1 _ H3 _ H5] := SequenceR_nonvacuous.
have [S HS] := C26_constructor_total H1 (H3 _).
exists S, (pinvmx (dd3 S)).
have [B HB HD] : exists2 B : 'cV_(rk S K2), B != 0 & divfree S B.
  have Hr : (rk S K3 < rk S K2)%N.
    have [f [Q [-> _ [Hf Ef] _ _]]] := seq_summary H1 (H3 _) HS.
    by rewrite /DeRhamSequence /= Ef.
  have Hk : kermx (strong_div S)^T != 0.
    apply/negP => /eqP H0; have := mxrank_ker (strong_div S)^T; rewrite H0 mxrank0 => E.
    have := rank_leq_col (strong_div S)^T; move: E; move: (\rank _) => m; lia.
  have [i Hi] : exists i, row i (kermx (strong_div S)^T) != 0.
    apply/existsP; apply: contraNT Hk; rewrite negb_exists => /forallP H.
    by apply/eqP/row_matrixP => i; rewrite row0; apply/eqP; have := H i; rewrite negbK.
  exists (row i (kermx (strong_div S)^T))^T.
    by apply: contra Hi => /eqP H; rewrite -[row _ _]trmxK H trmx0.
  rewrite /divfree; apply: trmx_inj; rewrite trmx_mul trmxK trmx0.
  by apply/sub_kermxP; exact: row_sub.
have A0 : Rle 0 (norm_2 sqrt B) by apply/RleE; exact: (nrm_ge0 (C38_sequence_ok H1 (H3 _) HS (H5 S)) Rsqrt_is_sqrt).
exists B; split=> //.
have t0 : Rlt 0 (Rdiv 1 1000000) by lra.
have [tol0 P0 H] := C71_run_converges H1 (H3 _) HS (H5 S) 0 false A0 (Rle_refl 0) t0.
exists tol0; first exact/RltE.
have f1 : Rle 1 (Rdiv 101 100) by lra.
have [N HN] := H tol0 (Rdiv 1 1000000) (Rdiv 101 100) P0 (Rle_refl _) t0 f1.
exists N => DF lstsq dB maxit Hm st0 cfg t1.
have HP : plain_run (fun _ => None) cfg st0 by split; split=> //=; [exact/RleE | exact/RltE].
split=> //.
have [] := HN DF lstsq (fun _ => None) cfg t1 st0 HP => //=.
- exact: Rle_refl.
- exact: Rle_refl.
Qed.
