(** Control flow of picard_solver and run_relaxation_loop. *)
From Coq Require Import Ring Field.
From mathcomp Require Import all_ssreflect all_algebra.
From Verif Require Import Model.Forms Model.DeRham Model.Geometry Model.Relaxation Spec.SeqSpec Spec.RelaxSpec.
Set Implicit Arguments.
Unset Strict Implicit.
Unset Printing Implicit Defensive.
Import Order.TTheory GRing.Theory Num.Theory.
Local Open Scope ring_scope.

Section Picard.
Variable F : realFieldType.
Variable sqrt_ : F -> F.
Variable S : drseq F.
Variable pinv : 'M[F]_(rk S K3).
Variable lstsq : 'M[F]_(rk S K2) -> 'cV[F]_(rk S K2) -> 'cV[F]_(rk S K2).
Variable ts : stepper F.
Variable fault : rstate S -> option ('cV[F]_(rk S K2) * bool * num F * num F).
Notation mid := (midpoint_residuum sqrt_ pinv lstsq ts fault).
Notation while := (while_loop sqrt_ pinv lstsq ts fault).
Notation picard := (picard_solver sqrt_ pinv lstsq ts fault).
Notation cond := (cond_fun ts).

Lemma mid_iters st : picard_iterations (mid st) = (picard_iterations st).+1.
Proof. by rewrite /midpoint_residuum; case: (fault st) => [[[[v x] f] w]|]. Qed.
Definition same (s s' : rstate S) : Prop :=
  [/\ B_n s = B_n s', dt_ s = dt_ s', eta s = eta s' & Hessian s = Hessian s'].
Lemma same_refl s : same s s. Proof. by []. Qed.
Lemma same_trans s s' s'' : same s s' -> same s' s'' -> same s s''.
Proof. by move=> [H1 H2 H3 H4] [G1 G2 G3 G4]; split; etransitivity; eassumption. Qed.
Lemma mid_same st : same (mid st) st.
Proof. by rewrite /midpoint_residuum; case: (fault st) => [[[[v x] f] w]|]. Qed.

(** invariant of the loop *)
Definition iterated (st0 st : rstate S) : Prop :=
  same st st0 /\
  ((picard_iterations st = 0%N /\ st = picard_init st0) \/
   (exists2 st', st = mid st' & [/\ same st' st0, (picard_iterations st').+1 = picard_iterations st & cond st'])).

Lemma while_inv fuel st0 st : iterated st0 st -> (picard_maxit ts <= picard_iterations st + fuel)%N ->
  iterated st0 (while fuel st) /\ cond (while fuel st) = false.
Proof.
elim: fuel st => [|fuel IH] st Hi Hf /=.
  by split=> //; rewrite /cond_fun ltnNge -[X in (_ <= X)%N]addn0 Hf.
case Hc : (cond st); last by split.
apply: IH; last by rewrite mid_iters addSnnS.
split; first exact: same_trans (mid_same st) (proj1 Hi).
by right; exists st => //; split=> //; [exact: proj1 Hi | rewrite mid_iters].
Qed.

Lemma picard_inv st : iterated st (picard st) /\ cond (picard st) = false.
Proof.
apply: while_inv; last by rewrite add0n.
by split=> //; left.
Qed.

Lemma cond_iters (st : rstate S) : cond st -> (picard_iterations st < picard_maxit ts)%N.
Proof. by case/andP. Qed.
Lemma picard_iters st : (picard_iterations (picard st) <= picard_maxit ts)%N.
Proof.
have [[_ H] _] := picard_inv st; case: H => [[-> _] //|[st' _ [_ <- H]]]; exact: cond_iters H.
Qed.
Lemma picard_same st : same (picard st) st.
Proof. exact: (proj1 (proj1 (picard_inv st))). Qed.
(** leaving before the cap means convergence *)
Lemma picard_converged st : (picard_iterations (picard st) < picard_maxit ts)%N ->
  exists2 r, picard_residuum (picard st) = Fin r & r <= picard_tol ts.
Proof.
move=> Hlt; have [_] := picard_inv st; rewrite /cond_fun Hlt /=.
case: (picard_residuum _) => [r| |] //=; rewrite orbF => /negbT; rewrite -leNgt => Hr; by exists r.
Qed.
(** a finite residual is that of the last iteration *)
Lemma picard_last st r : picard_residuum (picard st) = Fin r -> (0 < picard_iterations (picard st))%N ->
  exists st', [/\ same st' st, fault st' = None, B_guess (picard st) = B_nplus1 pinv lstsq ts st' &
    r = norm_2 sqrt_ (B_nplus1 pinv lstsq ts st' - B_guess st')] /\
    (force_norm (picard st) = Fin (norm_2 sqrt_ (mid_f pinv ts st')) /\
     velocity_norm (picard st) = Fin (norm_2 sqrt_ (mid_u pinv lstsq ts st'))).
Proof.
move=> Hr Hi; have [[_ [[E _]|[st' E [Hs _ _]]]] _] := picard_inv st; first by rewrite E in Hi.
exists st'; move: Hr; rewrite E /midpoint_residuum; case: (fault st') => [[[[v x] f] w]|] /=.
  by case: x.
by case=> <-.
Qed.
Lemma picard_zero st : picard_iterations (picard st) = 0%N -> picard st = picard_init st.
Proof.
by move=> H0; have [[_ [[_ //]|[st' _ [_ E _]]]] _] := picard_inv st; rewrite H0 in E.
Qed.
Lemma picard_zero_iff st : (picard_iterations (picard st) == 0%N) = (picard_maxit ts == 0%N) || (1 <= picard_tol ts).
Proof.
apply/idP/idP => [/eqP H|].
- have := proj2 (picard_inv st); rewrite (picard_zero H) /cond_fun /=.
  by move/negbT; rewrite orbF negb_and -leqNgt leqn0 -leNgt.
- rewrite /picard_solver; case: (picard_maxit ts) => [//|m] /= H.
  by rewrite /cond_fun /= ltNge H andbF.
Qed.
End Picard.

Section Loop.
Variable F : realFieldType.
Variable sqrt_ : F -> F.
Variable S : drseq F.
Variable pinv : 'M[F]_(rk S K3).
Variable DF : nat -> mat3 F.
Variable lstsq : 'M[F]_(rk S K2) -> 'cV[F]_(rk S K2) -> 'cV[F]_(rk S K2).
Variable fault : rstate S -> option ('cV[F]_(rk S K2) * bool * num F * num F).
Variable cfg : config F.
Notation body := (loop_body sqrt_ pinv DF lstsq fault cfg).
Notation lp := (loop sqrt_ pinv DF lstsq fault cfg).
Notation run := (run_relaxation_loop sqrt_ pinv DF lstsq fault cfg).
Notation stp := (step sqrt_ pinv lstsq fault cfg).
Notation hist := (history sqrt_ pinv DF lstsq fault cfg).
Notation st_at := (state_at sqrt_ pinv DF lstsq fault cfg).
Notation tr_at := (trace_at sqrt_ pinv DF lstsq fault cfg).
Notation slv_at := (solved_at sqrt_ pinv DF lstsq fault cfg).
Notation acc := (accepted sqrt_ pinv DF lstsq fault cfg).
Notation brk := (breaks sqrt_ pinv DF lstsq fault cfg).

Variables (t0 : trace S) (st0 : rstate S).

Lemma histS n : hist t0 st0 n.+1 = (body n.+1 (st_at t0 st0 n) (tr_at t0 st0 n)).1.
Proof.
rewrite /state_at /trace_at /=; case: (hist t0 st0 n) => st t /=.
by case: (body _ _ _) => [[st' t'] b].
Qed.
Lemma histE n : hist t0 st0 n = (st_at t0 st0 n, tr_at t0 st0 n).
Proof. by rewrite /state_at /trace_at; case: (hist _ _ n). Qed.

Definition rejected_state (st : rstate S) : rstate S :=
  update_B_guess (update_dt st (dt_ st / 2%:R)) (B_n st).

Lemma state_reject n : acc t0 st0 n.+1 = false -> st_at t0 st0 n.+1 = rejected_state (slv_at t0 st0 n.+1).
Proof.
rewrite /accepted => /negbFE Hf; rewrite /state_at histS /loop_body /=.
by move: Hf; rewrite /solved_at /= => ->.
Qed.
Lemma trace_reject n : acc t0 st0 n.+1 = false -> tr_at t0 st0 n.+1 = tr_at t0 st0 n.
Proof.
rewrite /accepted => /negbFE Hf; rewrite {1}/trace_at histS /loop_body /=.
by move: Hf; rewrite /solved_at /= => ->.
Qed.
Lemma state_accept n : acc t0 st0 n.+1 -> st_at t0 st0 n.+1 = accept sqrt_ pinv DF cfg n.+1 (slv_at t0 st0 n.+1).
Proof.
rewrite /accepted => /negbTE Hf; rewrite /state_at histS /loop_body /=.
by move: Hf; rewrite /solved_at /= => ->.
Qed.
Lemma trace_accept n : acc t0 st0 n.+1 -> tr_at t0 st0 n.+1 = record_step sqrt_ cfg n.+1 (tr_at t0 st0 n) (st_at t0 st0 n.+1).
Proof.
move=> Ha; rewrite (state_accept Ha); move: Ha; rewrite /accepted => /negbTE Hf.
by rewrite {1}/trace_at histS /loop_body /=; move: Hf; rewrite /solved_at /= => ->.
Qed.
Lemma body_break n : (body n.+1 (st_at t0 st0 n) (tr_at t0 st0 n)).2 = brk t0 st0 n.+1.
Proof.
rewrite /breaks; case Ha : (acc t0 st0 n.+1); last first.
  by move: Ha; rewrite /accepted => /negbFE; rewrite /loop_body /solved_at /= => ->.
rewrite (trace_accept Ha) (state_accept Ha); move: Ha; rewrite /accepted => /negbTE.
by rewrite /loop_body /solved_at /= => ->.
Qed.

(** the run is the history cut at the first break *)
Lemma loop_history m n : (forall k, (k < n.+1)%N -> (0 < k)%N -> brk t0 st0 k = false) ->
  exists N, [/\ (n <= N <= n + m)%N, lp m n.+1 (st_at t0 st0 n) (tr_at t0 st0 n) = hist t0 st0 N,
    (forall k, (0 < k < N)%N -> brk t0 st0 k = false)
    & (N = (n + m)%N \/ (0 < N)%N /\ brk t0 st0 N)].
Proof.
elim: m n => [|m IH] n Hn.
  exists n; split; rewrite ?addn0 ?leqnn //= ?histE //; last by left.
  by move=> k /andP [H1 H2]; apply: Hn => //; apply: ltnW.
rewrite [lp _ _ _ _]/=; have Hb := body_break n.
have Est : (body n.+1 (st_at t0 st0 n) (tr_at t0 st0 n)).1.1 = st_at t0 st0 n.+1 by rewrite [RHS]/state_at histS.
have Et : (body n.+1 (st_at t0 st0 n) (tr_at t0 st0 n)).1.2 = tr_at t0 st0 n.+1 by rewrite [RHS]/trace_at histS.
case Eb : (body _ _ _) Hb Est Et => [[st t] b] /= Hb Est Et.
case: b Hb {Eb} => /esym Hb.
  exists n.+1; split; rewrite ?leqnSn ?addnS ?ltnS ?leq_addr ?Est ?Et -?histE //; last by right.
  by move=> k /andP [H1 H2]; apply: Hn.
have Hn' k : (k < n.+2)%N -> (0 < k)%N -> brk t0 st0 k = false.
  by rewrite ltnS leq_eqVlt => /orP [/eqP -> //|H1]; apply: Hn.
have [N [/andP [H1 H2] H3 H4 H5]] := IH n.+1 Hn'.
exists N; split=> //; first by rewrite (ltnW H1) -addSnnS.
  by rewrite Est Et.
by rewrite -addSnnS.
Qed.
Lemma run_history : exists N, [/\ (N <= c_maxit cfg)%N,
   (out_local (run t0 st0), out_trace (run t0 st0)) = hist t0 st0 N,
   (forall k, (0 < k < N)%N -> brk t0 st0 k = false)
   & (N = c_maxit cfg \/ (0 < N)%N /\ brk t0 st0 N)].
Proof.
have [|N [H1 H2 H3 H4]] := @loop_history (c_maxit cfg) 0.
  by move=> [|k].
exists N; split=> //; rewrite -H2 /run_relaxation_loop; rewrite /state_at /trace_at /=.
by case: (lp _ _ _ _).
Qed.

Lemma solved_same n : same (slv_at t0 st0 n.+1) (st_at t0 st0 n).
Proof. exact: picard_same. Qed.
End Loop.
