(** Property theorems C61: the fields the driver scripts start from, and the run of solovev.py. *)
From Coq Require Import Reals Lra.
From Coquelicot Require Import Coquelicot.
From mathcomp Require Import all_ssreflect all_algebra zify.
From Verif Require Import Model.RBase Model.Spline Model.Quad Model.Forms Model.DeRham Model.FormEval Model.Geometry Model.SeqR Model.Relaxation Model.Scripts.
From Verif Require Import Spec.PolarSpace Spec.SeqSpec Spec.FormSpec Spec.GeomSpec Spec.SeqRSpec Spec.TopologySpec Spec.RelaxSpec.
From Verif Require Import Proof.RField Proof.SequenceAlg Proof.DeRhamAlg Proof.RelaxAlg Proof.RelaxLoop Proof.RelaxRun Proof.RelaxHelicity
  Props.DeRham Props.SequenceR Props.Relaxation Props.Topology.
Set Implicit Arguments.
Unset Strict Implicit.
Unset Printing Implicit Defensive.
Import Order.TTheory GRing.Theory Num.Theory.
Local Open Scope ring_scope.

Section Gen.
Variable F : realFieldType.
Variable sqrt_ : F -> F.
Hypothesis Hsq : is_sqrt sqrt_.
Variable S : drseq F.
Variable pinv : 'M[F]_(rk S K3).
Hypothesis OK : relax_ok S pinv.
Notation vec1 := 'cV[F]_(rk S K1).
Notation vec2 := 'cV[F]_(rk S K2).
Notation nrm := (norm_2 (S := S) sqrt_).
Notation "<< x , y >>2" := (form (M2 S) x y).
Notation "<< x , y >>1" := (form (M1 S) x y).

Lemma dd2_quad (x : vec2) : << x, dd2 S *m x >>2 = << weak_curl S *m x, weak_curl S *m x >>1
  + form (M3 S) (strong_div S *m x) (strong_div S *m x).
Proof.
rewrite (dd2E OK) formDr formNr (formC _ _ (proj1 (ok_M2 OK))) (curl_adj OK).
by rewrite (ok_wgrad OK) opprK.
Qed.
Lemma dd2_ker (x : vec2) : dd2 S *m x = 0 <-> strong_div S *m x = 0 /\ weak_curl S *m x = 0.
Proof.
split=> [H|[H1 H2]]; last by rewrite (dd2E OK) H1 H2 !mulmx0 subr0.
have E := dd2_quad x; rewrite H form0r in E.
have H1 := spd_ge0 (ok_M1 OK) (weak_curl S *m x); have H3 := spd_ge0 (ok_M3 OK) (strong_div S *m x).
have /eqP := esym E; rewrite paddr_eq0 // => /andP [/eqP Ea /eqP Eb].
by split; [apply: (spd_eq0 (ok_M3 OK)) | apply: (spd_eq0 (ok_M1 OK))].
Qed.
Lemma form_inj n (A B : 'M[F]_n) : (forall x y, form A x y = form B x y) -> A = B.
Proof.
move=> H; apply/matrixP => i j; have := H (delta_mx i 0) (delta_mx j 0).
have aux (C : 'M[F]_n) : form C (delta_mx i 0) (delta_mx j 0) = C i j.
  by rewrite /form trmx_delta -mulmxA -rowE mxE -colE mxE.
by rewrite !aux.
Qed.
Lemma formA n (A B : 'M[F]_n) x y : form (A *m B) x y = form A x (B *m y).
Proof. by rewrite /form !mulmxA. Qed.
Lemma formT n (A : 'M[F]_n) x y : form A^T x y = form A y x.
Proof. by rewrite /form -[RHS]mulr1n -[in RHS](trmxK y) -[RHS]mulr1n; rewrite -[in LHS](trmxK y) -!trmx_mul mxE mulmxA trmxK. Qed.
Lemma dd2_sym : (M2 S *m dd2 S)^T = M2 S *m dd2 S.
Proof.
apply: form_inj => x y; rewrite formT !formA (dd2_sa OK).
by rewrite (formC _ _ (proj1 (ok_M2 OK))).
Qed.
Lemma sym_half n (A : 'M[F]_n) : A^T = A -> 2%:R^-1 *: (A + A^T) = A.
Proof. by move=> ->; rewrite -mulr2n -scaler_nat scalerA mulVf ?scale1r // pnatr_eq0. Qed.

(** the smallest eigenvalue of M2 dd2 is 0 as soon as there is a harmonic field; the vectors eigh
    may return are the unit harmonic fields *)
Lemma eigh_harmonic (h : vec2) : h != 0 -> dd2 S *m h = 0 ->
  forall v : vec2, eigh_first (M2 S *m dd2 S) v <-> (v^T *m v) 0 0 = 1 /\ dd2 S *m v = 0.
Proof.
move=> Hh Kh v; rewrite /eigh_first (sym_half dd2_sym); split=> [[H1 [lam [Hv Hmin]]]|[H1 H2]]; last first.
  split=> //; exists 0; rewrite -mulmxA H2 mulmx0 scale0r; split=> // mu w Hw Ew.
  have E : form (M2 S *m dd2 S) w w = mu * (w^T *m w) 0 0.
    by rewrite /form -mulmxA Ew -scalemxAr mxE.
  have H0 : 0 <= form (M2 S *m dd2 S) w w by rewrite formA (dd2_quad_ge0 OK).
  have Hp : 0 < (w^T *m w) 0 0.
    rewrite lt_neqAle; apply/andP; split.
      apply: contra Hw => /eqP E0; apply/eqP/matrixP => i j; rewrite ord1 [RHS]mxE.
      have /eqP := esym E0; rewrite mxE psumr_eq0; last by move=> k _; rewrite mxE -expr2 sqr_ge0.
      by move/allP/(_ i (mem_index_enum _)); rewrite mxE -expr2 sqrf_eq0 => /eqP.
    by rewrite mxE sumr_ge0 // => k _; rewrite mxE -expr2 sqr_ge0.
  by move: H0; rewrite E pmulr_lge0.
have Hle : lam <= 0 by apply: (Hmin 0 h Hh); rewrite -mulmxA Kh mulmx0 scale0r.
split=> //; have E : form (M2 S *m dd2 S) v v = lam.
  by rewrite /form -mulmxA Hv -scalemxAr mxE H1 mulr1.
have E0 : << v, dd2 S *m v >>2 = 0.
  by apply/eqP; rewrite eq_le (dd2_quad_ge0 OK) andbT -formA E.
have := dd2_quad v; rewrite E0 => /esym /eqP.
have P1 := spd_ge0 (ok_M1 OK) (weak_curl S *m v); have P3 := spd_ge0 (ok_M3 OK) (strong_div S *m v).
rewrite paddr_eq0 // => /andP [/eqP Ea /eqP Eb]; apply/dd2_ker.
by split; [apply: (spd_eq0 (ok_M3 OK)) | apply: (spd_eq0 (ok_M1 OK))].
Qed.

Lemma normalise_norm (B : vec2) : B != 0 -> nrm (normalise sqrt_ B) = 1.
Proof.
move=> HB; have Hn : nrm B != 0 by apply: contra HB => /eqP /(nrm_eq0 OK Hsq) ->.
rewrite /normalise (nrmZ OK Hsq); last by rewrite invr_ge0 (nrm_ge0 OK Hsq).
by rewrite mulVf.
Qed.
Lemma normalise_le (B : vec2) : nrm (normalise sqrt_ B) <= 1.
Proof.
case: (eqVneq B 0) => [->|HB]; last by rewrite normalise_norm.
by rewrite /normalise scaler0 /norm_2 mulmx0 mxE (sqrt0 Hsq) ler01.
Qed.

(** *** the vacuum fields are stationary *)
Variable lstsq : 'M[F]_(rk S K2) -> vec2 -> vec2.
Variable fault : rstate S -> option (vec2 * bool * num F * num F).
Hypothesis Hfault : forall st, fault st = None.
Variable DF : nat -> mat3 F.
Variable cfg : config F.
Hypothesis Hnew : c_precond cfg = false \/ forall H, lstsq H 0 = 0.
Hypothesis Htol : 0 <= c_solver_tol cfg < 1.
Hypothesis Hmax : (0 < c_solver_maxit cfg)%N.
Notation ts := (the_stepper cfg).
Lemma vacuum_mid (st : rstate S) : weak_curl S *m B_n st = 0 -> B_guess st = B_n st ->
  [/\ mid_f pinv ts st = 0, mid_u pinv lstsq ts st = 0 & B_nplus1 pinv lstsq ts st = B_n st].
Proof.
move=> HJ HB.
have EJ : mid_J st = 0 by rewrite /mid_J HB -scalemxAr mulmxDr HJ addr0 scaler0.
have Z : mid_JxH st = 0.
  apply: (spd_nondeg (ok_M2 OK)) => y; rewrite /mid_JxH EJ.
  have [_ ->] := form_solve (P1x1_to_2 (0 : vec1) (mid_H st)) y (proj1 (ok_M2 OK)) (spd_unit (ok_M2 OK)).
  by rewrite -[LHS]opprK -triple_swap; [rewrite /dotv trmx0 mul0mx mxE oppr0 | exact: ok_sym OK].
have Sm g : smooth (S := S) g 0 = 0 by elim: g => [//|g]; rewrite /smooth iterS => ->; rewrite /solve mulmx0.
have Ef : mid_f pinv ts st = 0 by rewrite /mid_f Z mulmx0 if_same.
have Eu : mid_u pinv lstsq ts st = 0.
  rewrite /mid_u Ef Sm mulmx0 /=; case: Hnew => [->|->] //.
  by rewrite mulmx0 if_same.
have EE : mid_E pinv lstsq ts st = 0.
  apply: (spd_nondeg (ok_M1 OK)) => y; rewrite /mid_E EJ scaler0 subr0 Eu.
  have [_ ->] := form_solve (P2x1_to_1 (0 : vec2) (mid_H st)) y (proj1 (ok_M1 OK)) (spd_unit (ok_M1 OK)).
  by rewrite triple_swap; [rewrite /dotv trmx0 mul0mx mxE oppr0 | exact: ok_sym OK].
by rewrite /B_nplus1 EE mulmx0 scaler0 addr0.
Qed.
Lemma nrm0 : nrm 0 = 0.
Proof. by rewrite /norm_2 mulmx0 mxE (sqrt0 Hsq). Qed.
Lemma vacuum_step (st : rstate S) : weak_curl S *m B_n st = 0 -> B_guess st = B_n st ->
  step sqrt_ pinv lstsq fault cfg st = RState (B_n st) (B_n st) (dt_ st) (eta st) (Hessian st) 1 (Fin 0) (Fin 0) (Fin 0).
Proof.
move=> HJ HB; rewrite /step /picard_solver /= -(prednK Hmax) /=.
have [H0 H1] := andP Htol.
have -> : cond_fun ts (picard_init st) by rewrite /cond_fun /= Hmax H1.
rewrite /midpoint_residuum Hfault.
have [Ef Eu Eb] := @vacuum_mid (picard_init st) HJ HB.
rewrite Ef Eu Eb /= HB subrr nrm0.
by case: (c_solver_maxit cfg).-1 => [//|m] /=; rewrite {1}/cond_fun /= ltNge H0 orbF andbF.
Qed.
Variables (t0 : trace S) (st0 : rstate S).
Hypothesis (HJ0 : weak_curl S *m B_n st0 = 0) (HB0 : B_guess st0 = B_n st0).
Notation state := (state_at sqrt_ pinv DF lstsq fault cfg t0 st0).
Notation solved := (solved_at sqrt_ pinv DF lstsq fault cfg t0 st0).
Notation acc := (accepted sqrt_ pinv DF lstsq fault cfg t0 st0).
Notation brk := (breaks sqrt_ pinv DF lstsq fault cfg t0 st0).
Notation pert_now i := ((i == c_apply_pert_after cfg) && (0 < c_pert_strength cfg)).

Lemma vacuum_state n : (forall i, (0 < i <= n)%N -> pert_now i = false) ->
  B_n (state n) = B_n st0 /\ B_guess (state n) = B_n st0.
Proof.
elim: n => [|n IH] Hp; first by rewrite /state_at /= HB0.
have [|E1 E2] := IH; first by move=> i /andP [H1 H2]; apply: Hp; rewrite H1 (leqW H2).
have Es : solved n.+1 = _ := vacuum_step (etrans (congr1 _ E1) HJ0) (etrans E2 (esym E1)).
have Ha : acc n.+1 by rewrite /accepted /failed Es /= ltNge; case/andP: Htol => ->.
have := C42_accept Ha; rewrite /= Hp ?leqnn // Es /= E1 addr0 => -[-> -> _ _ _].
by [].
Qed.
Lemma vacuum_solved n : (forall i, (0 < i <= n)%N -> pert_now i = false) ->
  [/\ acc n.+1, B_guess (solved n.+1) = B_n st0, picard_iterations (solved n.+1) = 1%N,
      picard_residuum (solved n.+1) = Fin 0
    & force_norm (solved n.+1) = Fin 0 /\ velocity_norm (solved n.+1) = Fin 0].
Proof.
move=> Hp; have [E1 E2] := vacuum_state Hp.
have Es : solved n.+1 = _ := vacuum_step (etrans (congr1 _ E1) HJ0) (etrans E2 (esym E1)).
by rewrite /accepted /failed Es /= E1 ltNge; case/andP: Htol => ->.
Qed.
End Gen.

(** ** sequences built by the constructor as the scripts do: polar=True, dirichlet=True *)
Section Seq.
Variables (ns ps : triple) (q : nat) (types : stype * stype * stype) (DFx : point -> mat3 R_realFieldType).
Hypothesis Hs : supported ns ps q types true true.
Hypothesis Hreg : regular_map DFx (seq_points ns ps q types).
Variable S : drseq R_realFieldType.
Hypothesis HS : new_sequence ns ps q types DFx true true = Some S.
Variable pinv : 'M[R_realFieldType]_(rk S K3).
Hypothesis Hpinv : dd3 S *m pinv *m dd3 S = dd3 S.
Variable DF : nat -> mat3 R_realFieldType.
Notation F := R_realFieldType.
Notation vec2 := 'cV[F]_(rk S K2).
Notation nrm := (norm_2 (S := S) sqrt).
Let OK : relax_ok S pinv := C38_sequence_ok Hs Hreg HS Hpinv.

(** *** solovev.py: the initial field *)
(** eigh does return a vector; whichever it is, it is harmonic: divergence free and current free
    in the discrete sense.  Normalised, it is the same field up to its sign. *)
Theorem C61_solovev_start :
  (exists v, eigh_first (M2 S *m dd2 S) v) /\
  forall v, eigh_first (M2 S *m dd2 S) v ->
  [/\ strong_div S *m normalise sqrt v = 0, weak_curl S *m normalise sqrt v = 0, nrm (normalise sqrt v) = 1
    & forall v', eigh_first (M2 S *m dd2 S) v' ->
      normalise sqrt v' = normalise sqrt v \/ normalise sqrt v' = - normalise sqrt v].
Proof.
have [h Hh Hline] := C58_sequence_harmonic_line Hs Hreg HS isT isT.
have Kh : dd2 S *m h = 0 by apply/Hline; exists 1; rewrite scale1r.
have E := eigh_harmonic OK Hh Kh.
have nz (v : vec2) : (v^T *m v) 0 0 = 1 -> v != 0.
  by move=> H; apply/eqP => E0; move: H; rewrite E0 mulmx0 mxE => /eqP; rewrite eq_sym oner_eq0.
split.
  have Hp : 0 < (h^T *m h) 0 0.
    rewrite lt_neqAle; apply/andP; split.
      apply: contra Hh => /eqP E0; apply/eqP/matrixP => i j; rewrite ord1 [RHS]mxE.
      have /eqP := esym E0; rewrite mxE psumr_eq0; last by move=> k _; rewrite mxE -expr2 sqr_ge0.
      by move/allP/(_ i (mem_index_enum _)); rewrite mxE -expr2 sqrf_eq0 => /eqP.
    by rewrite mxE sumr_ge0 // => k _; rewrite mxE -expr2 sqr_ge0.
  set a : F := sqrt ((h^T *m h) 0 0).
  have [Ha0 Ha2] := Rsqrt_is_sqrt (ltW Hp).
  have Ha : a != 0 by rewrite -(@sqrf_eq0 F) Ha2 gt_eqF.
  exists (a^-1 *: h); apply/E; split; last by rewrite -scalemxAr Kh scaler0.
  have -> : (a^-1 *: h)^T = a^-1 *: h^T by apply/matrixP => i j; rewrite !mxE.
  rewrite -scalemxAl -scalemxAr scalerA mxE -Ha2 -/a expr2.
  by rewrite mulrACA mulVf // mul1r.
move=> v /E [H1 Kv].
have [Dv Cv] := (dd2_ker OK v).1 Kv.
split; rewrite ?(normalise_norm Rsqrt_is_sqrt OK) ?nz //.
- by rewrite /normalise -scalemxAr Dv scaler0.
- by rewrite /normalise -scalemxAr Cv scaler0.
move=> v' /E [H1' Kv'].
have [a Ea] := (Hline v).1 Kv; have [b Eb] := (Hline v').1 Kv'.
have Na : a != 0 by apply/eqP => A0; move/eqP: (nz v H1); rewrite Ea A0 scale0r.
have {Eb} Eb : v' = (b / a) *: v by rewrite Ea scalerA divfK.
move: (b / a) Eb => c Eb {b Ea a Na}.
have Nv : nrm v != 0 by apply: contra (nz v H1) => /eqP /(nrm_eq0 OK Rsqrt_is_sqrt) ->.
have NZ (x : vec2) : normalise sqrt (- x) = - normalise sqrt x.
  by rewrite /normalise nrmN scalerN.
have PZ (d : F) (x : vec2) : 0 < d -> nrm x != 0 -> normalise sqrt (d *: x) = normalise sqrt x.
  move=> Hd Nx; rewrite /normalise (nrmZ OK Rsqrt_is_sqrt _ (ltW Hd)) scalerA invfM [d^-1 * _]mulrC -mulrA.
  by rewrite mulVf ?gt_eqF // mulr1.
case: (ltrgtP c 0) => Hc; last 1 first.
- by move/eqP: (nz v' H1'); rewrite Eb Hc scale0r.
- right; rewrite Eb -[c]opprK scaleNr NZ PZ ?oppr_gt0 //.
- by left; rewrite Eb PZ.
Qed.

(** *** solovev.py: the run *)
Section Run.
Variable lstsq : 'M[F]_(rk S K2) -> vec2 -> vec2.
Variable fault : rstate S -> option (vec2 * bool * num F * num F).
Variable cfg : config F.
Variables (t0 : trace S) (v : vec2) (dt eta0 : F).
Hypothesis Hv : eigh_first (M2 S *m dd2 S) v.
(** exact arithmetic; the preconditioner is off, or lstsq returns the least-norm solution *)
Hypothesis Hfault : forall st, fault st = None.
Hypothesis Hnew : c_precond cfg = false \/ forall H, lstsq H 0 = 0.
Hypothesis Htol : 0 <= c_solver_tol cfg < 1.
Hypothesis Hmax : (0 < c_solver_maxit cfg)%N.
Notation st0 := (solovev_state sqrt v dt eta0).
Notation state := (state_at sqrt pinv DF lstsq fault cfg t0 st0).
Notation solved := (solved_at sqrt pinv DF lstsq fault cfg t0 st0).
Notation trc := (trace_at sqrt pinv DF lstsq fault cfg t0 st0).
Notation acc := (accepted sqrt pinv DF lstsq fault cfg t0 st0).
Notation brk := (breaks sqrt pinv DF lstsq fault cfg t0 st0).
Notation run := (run_relaxation_loop sqrt pinv DF lstsq fault cfg t0 st0).
Let HJ0 : weak_curl S *m B_n st0 = 0. Proof. by case: (proj2 C61_solovev_start v Hv). Qed.

(** until a perturbation is added nothing moves: every step is accepted after one Picard
    iteration, with zero force and zero velocity, and returns the initial field *)
Theorem C61_solovev_stationary : forall n,
  (forall i, (0 < i < n)%N -> i = c_apply_pert_after cfg -> c_pert_strength cfg <= 0) ->
  forall k, (0 < k <= n)%N ->
  [/\ acc k, B_n (state k.-1) = normalise sqrt v, B_guess (solved k) = normalise sqrt v,
      picard_iterations (solved k) = 1%N
    & force_norm (solved k) = Fin 0 /\ velocity_norm (solved k) = Fin 0].
Proof.
move=> n Hp [//|k] /andP [_ Hk].
have Hp' i : (0 < i <= k)%N -> (i == c_apply_pert_after cfg) && (0 < c_pert_strength cfg) = false.
  move=> /andP [H1 H2]; apply/negP => /andP [/eqP E]; rewrite ltNge (Hp i) // H1 /=.
  by apply: leq_trans Hk.
have [E1 E2] := @vacuum_state F sqrt Rsqrt_is_sqrt S pinv OK lstsq fault Hfault DF cfg Hnew Htol Hmax t0 st0 HJ0 erefl k Hp'.
by have [H1 H2 H3 H4 H5] := @vacuum_solved F sqrt Rsqrt_is_sqrt S pinv OK lstsq fault Hfault DF cfg Hnew Htol Hmax t0 st0 HJ0 erefl k Hp'.
Qed.
(** with any positive force tolerance the run is over after its first iteration, so a
    perturbation scheduled for a later one is never added *)
Theorem C61_solovev_run : 0 < c_force_tol cfg -> (0 < c_maxit cfg)%N ->
  let one := (c_save_every cfg == 1%N) || (c_maxit cfg == 1%N) in
  [/\ out_local run = state 1, iterations (out_trace run) = iterations t0 ++ 0%N :: (if one then [:: 1%N] else [::]),
      force_trace (out_trace run) = force_trace t0 ++ Fin 0 :: (if one then [:: Fin 0] else [::])
    & c_apply_pert_after cfg <> 1%N -> B_n (out_local run) = normalise sqrt v].
Proof.
move=> Hf Hm one.
have H1 : [/\ acc 1, B_n (state 0) = normalise sqrt v, B_guess (solved 1) = normalise sqrt v,
      picard_iterations (solved 1) = 1%N
    & force_norm (solved 1) = Fin 0 /\ velocity_norm (solved 1) = Fin 0].
  apply: (@C61_solovev_stationary 1) => //; by case.
have [Ha _ Eg _ [Ef _]] := H1.
have Esel : (1 %% c_save_every cfg == 0)%N || (1%N == c_maxit cfg) = one.
  rewrite /one [1%N == _]eq_sym; congr orb.
  by case: (c_save_every cfg) => [//|[//|m]]; rewrite modn_small.
have := C44_recorded sqrt pinv DF lstsq fault cfg t0 st0 1.
rewrite /= Ha Esel /= => -[[Ei Efo _ _ _] _].
have Ed : force_norm (step sqrt pinv lstsq fault cfg st0) = Fin 0 := Ef.
have Es1 : force_norm (state 1) = Fin 0.
  by rewrite (state_accept Ha) /accept; do 2 case: ifP => _.
rewrite Ed in Efo.
have Hb : brk 1.
  apply/C45_break_condition; split=> //; exists 0 => //.
  by rewrite Efo last_cat /=; case: (one) => //=.
have [N [HN [EN ET] Hnb Hend]] := C45_first_break_or_maxit sqrt pinv DF lstsq fault cfg t0 st0.
have EN1 : N = 1%N.
  case: (ltngtP N 1) => // HN1.
    by case: Hend => [E|[H0 _]]; [rewrite -E in Hm|]; move: HN1; rewrite ltnNge ?Hm ?H0.
  by have := Hnb 1%N; rewrite Hb HN1 => /(_ isT).
rewrite EN1 in EN ET; split=> //; rewrite ?ET ?Ei ?Efo.
- by case: (one).
- by case: (one) => //=; rewrite Es1.
move=> Hpa; rewrite EN; have := C42_accept Ha; rewrite /=.
have -> : (1%N == c_apply_pert_after cfg) = false by apply/eqP => E; apply: Hpa.
by rewrite /= Eg addr0 => -[].
Qed.
(** so the report printed after the loop fails unless the first iteration was recorded *)
Theorem C61_solovev_report_raises : 0 < c_force_tol cfg -> (0 < c_maxit cfg)%N -> forall elapsed,
  average_time elapsed (out_trace run) = None <-> c_save_every cfg <> 1%N /\ c_maxit cfg <> 1%N.
Proof.
move=> Hf Hm el; have [_ E _ _] := C61_solovev_run Hf Hm.
rewrite /average_time E rev_cat; case Eo : (_ || _).
  have -> : rev [:: 0; 1]%N = [:: 1; 0]%N by [].
  split=> // -[/eqP /negbTE H1 /eqP /negbTE H2]; by move: Eo; rewrite H1 H2.
have -> : rev [:: 0]%N = [:: 0]%N by [].
split=> // _; by move/negbT: Eo; rewrite negb_or => /andP [/eqP ? /eqP ?].
Qed.
End Run.

(** *** the report after any run of any of the scripts *)
Theorem C61_report : forall lstsq fault (cfg : config F) t0 st0 elapsed,
  let r := run_relaxation_loop (S := S) sqrt pinv DF lstsq fault cfg t0 st0 in
  (average_time elapsed (out_trace r) = None <-> iterations (out_trace r) = rcons (iterations t0) 0%N) /\
  (forall a, average_time elapsed (out_trace r) = Some a -> a * (last 0%N (iterations (out_trace r)))%:R = elapsed).
Proof.
move=> lstsq fault cfg t0 st0 el r; split; last first.
  move=> a; rewrite /average_time; case: (iterations _) / lastP => [|s n]; first by [].
  rewrite rev_rcons last_rcons; case: eqP => // /eqP Hn [<-].
  by rewrite divfK // pnatr_eq0.
have [N [_ [_ ET] _ _]] := C45_first_break_or_maxit sqrt pinv DF lstsq fault cfg t0 st0.
have [[E _ _ _ _] _] := C44_recorded sqrt pinv DF lstsq fault cfg t0 st0 N.
rewrite /average_time /r ET E; set rec := [seq i <- _ | _].
have Hrec : all (leq 1) rec.
  by apply/allP => i; rewrite mem_filter mem_iota => /andP [_ /andP []].
clearbody rec; case/lastP: rec Hrec => [|s n] Hr.
  by rewrite cats1 rev_rcons.
rewrite -rcons_cons -rcons_cat rev_rcons; split; last by case/rcons_inj=> _ E0; rewrite E0.
by move: Hr; rewrite all_rcons => /andP [Hn _]; rewrite eqn0Ngt Hn.
Qed.

(** *** stell.py and iter_islands.py: the initial field *)
(** P_Leray @ solve(M2, P2(B)) is the L2-orthogonal projection onto the discretely
    divergence-free fields; the start is divergence free, of norm 1 if B is not orthogonal to all of
    them, up to pert_strength away from it if the perturbation is applied at once *)
Theorem C61_projected_field : forall B : nat -> vec3 F,
  [/\ strong_div S *m projected_field pinv DF B = 0,
      forall w : vec2, strong_div S *m w = 0 -> form (M2 S) w (projected_field pinv DF B) = (w^T *m Projector2 S DF B) 0 0
    & forall b : vec2, strong_div S *m b = 0 ->
      (forall w : vec2, strong_div S *m w = 0 -> form (M2 S) w b = (w^T *m Projector2 S DF B) 0 0) ->
      b = projected_field pinv DF B].
Proof.
move=> B.
have D : strong_div S *m projected_field pinv DF B = 0 by rewrite /projected_field mulmxA (ok_Pdiv OK) mul0mx.
have P (w : vec2) : strong_div S *m w = 0 -> form (M2 S) w (projected_field pinv DF B) = (w^T *m Projector2 S DF B) 0 0.
  move=> Hw; rewrite /projected_field (ok_Psa OK) (ok_Pid OK) //.
  by have [_ ->] := form_solve (Projector2 S DF B) w (proj1 (ok_M2 OK)) (spd_unit (ok_M2 OK)).
split=> // b Hb Pb; apply/eqP; rewrite -subr_eq0; apply/eqP; apply: (spd_eq0 (ok_M2 OK)).
by rewrite formDr formNr Pb ?P ?subrr // mulmxBr Hb D subrr.
Qed.
Theorem C61_projected_start : forall (cfg : config F) (B : nat -> vec3 F),
  let b := projected_start sqrt pinv DF cfg B in
  [/\ strong_div S *m b = 0,
      projected_field pinv DF B <> 0 -> (c_apply_pert_after cfg <> 0%N \/ c_pert_strength cfg <= 0) -> nrm b = 1
    & nrm (b - normalise sqrt (projected_field pinv DF B)) <=
      (if (c_apply_pert_after cfg == 0%N) && (0 < c_pert_strength cfg) then c_pert_strength cfg else 0)].
Proof.
move=> cfg B b; have D (C : nat -> vec3 F) : strong_div S *m normalise sqrt (projected_field pinv DF C) = 0.
  by have [H _ _] := C61_projected_field C; rewrite /normalise -scalemxAr H scaler0.
rewrite /b /projected_start; split.
- by case: ifP => _; rewrite ?mulmxDr ?D // -scalemxAr D scaler0 addr0.
- move=> /eqP HB; case: ifP => [/andP [/eqP H1 H2] [//|]|_ _]; first by rewrite leNgt H2.
  by rewrite (normalise_norm Rsqrt_is_sqrt OK).
case: ifP => [/andP [_ H2]|_]; last by rewrite subrr (nrm0 Rsqrt_is_sqrt S).
rewrite addrAC subrr add0r (nrmZ OK Rsqrt_is_sqrt _ (ltW H2)).
by rewrite ler_pimulr ?(ltW H2) // (normalise_le Rsqrt_is_sqrt OK).
Qed.
(** and so is every field of the run, the perturbed ones included *)
Theorem C61_projected_run : forall lstsq fault (cfg : config F) t0 B dt eta0,
  let st0 := initial_state (projected_start sqrt pinv DF cfg B) dt eta0 in
  forall n, strong_div S *m B_n (state_at sqrt pinv DF lstsq fault cfg t0 st0 n) = 0.
Proof.
move=> lstsq fault cfg t0 B dt eta0 st0 n; have [H _ _] := C61_projected_start cfg B.
by have [E _] := C38_divergence_free sqrt DF lstsq fault cfg t0 OK (st0 := st0) H H n.
Qed.

(** *** the check of test_helmholtz_decomposition.py *)
(** for a divergence-free field of norm 1 the alignment with the vector eigh returns is at most 1, and
    it is 1 exactly when the vector potential of the decomposition vanishes *)
Theorem C61_alignment : forall v (B : vec2), eigh_first (M2 S *m dd2 S) v -> strong_div S *m B = 0 -> nrm B = 1 ->
  [/\ `|form (M2 S) B (normalise sqrt v)| <= 1,
      `|form (M2 S) B (normalise sqrt v)| = 1 <-> potential B = 0
    & potential B = 0 <-> (B = normalise sqrt v \/ B = - normalise sqrt v)].
Proof.
move=> v B Hv HB HN; have [Dv Cv Nv Uv] := proj2 C61_solovev_start v Hv.
move: (normalise sqrt v) Dv Cv Nv {Uv} => h Dv Cv Nv.
have Sym := proj1 (ok_M2 OK).
have hh : form (M2 S) h h = 1 by rewrite -(nrm_sq OK Rsqrt_is_sqrt) Nv expr1n.
have bb : form (M2 S) B B = 1 by rewrite -(nrm_sq OK Rsqrt_is_sqrt) HN expr1n.
set a := form (M2 S) B h.
have Q : form (M2 S) (B - a *: h) (B - a *: h) = 1 - a ^+ 2.
  rewrite !(formDl, formDr, formNl, formNr, formZl, formZr).
  by rewrite hh bb (formC h B Sym) -/a mulr1 mulrN opprK addNr addr0 expr2.
have Q0 := spd_ge0 (ok_M2 OK) (B - a *: h).
have Ha : `|a| <= 1 by rewrite -(@ler_pexpn2r _ 2) ?nnegrE // real_normK ?num_real // expr1n -subr_ge0 -Q.
have Ea : `|a| = 1 <-> B = h \/ B = - h.
  split=> [E|[E|E]].
  - have a2 : a ^+ 2 = 1 by rewrite -[a ^+ 2]real_normK ?num_real // E expr1n.
    rewrite a2 subrr in Q; have /eqP := spd_eq0 (ok_M2 OK) Q; rewrite subr_eq0 => /eqP EB.
    have /orP [/eqP H|/eqP H] : (a == 1) || (a == -1) by rewrite -sqrf_eq1 a2.
      by left; rewrite EB H scale1r.
    by right; rewrite EB H scaleN1r.
  - by rewrite /a E hh normr1.
  - by rewrite /a E formNl hh normrN normr1.
have Ep : potential B = 0 <-> B = h \/ B = - h.
  have U := polar_dirichlet_dd1 Hs Hreg HS erefl erefl.
  split=> [E|[->|->]]; last 2 first.
  - by rewrite /potential Cv /solve mulmx0.
  - by rewrite /potential mulmxN Cv oppr0 /solve mulmx0.
  have CB : weak_curl S *m B = 0.
    have := dd1_solve U (weak_curl S *m B); rewrite -[solve _ _]/(potential B) E mulmx0 => <- //.
  have KB : dd2 S *m B = 0 by apply/(dd2_ker OK).
  have [g Hg Hline] := C58_sequence_harmonic_line Hs Hreg HS isT isT.
  have Kh : dd2 S *m h = 0 by apply/(dd2_ker OK).
  have [x Ex] := (Hline B).1 KB; have [y Ey] := (Hline h).1 Kh.
  have Ny : y != 0 by apply/eqP => y0; move: hh; rewrite Ey y0 scale0r form0r => /eqP; rewrite eq_sym oner_eq0.
  have EB : B = (x / y) *: h by rewrite Ey scalerA divfK.
  have : a = x / y by rewrite /a EB formZl hh mulr1.
  move=> Ec; apply/Ea; move: bb; rewrite EB -Ec formZl formZr hh mulr1 -expr2 => /eqP.
  by rewrite sqrf_eq1 => /orP [/eqP ->|/eqP ->]; rewrite ?normrN normr1.
split=> //; by rewrite Ea Ep.
Qed.
End Seq.

(** the hypotheses are met, with the values of DEFAULT_CONFIG (utils.py:291-318), and the report raises *)
Example C61_nonvacuous : exists (S : drseq R_realFieldType) (v : 'cV_(rk S K2)),
  [/\ supported (8, 8, 1)%N (3, 3, 0)%N 4 (Clamped, Periodic, Constant) true true,
      new_sequence (8, 8, 1)%N (3, 3, 0)%N 4 (Clamped, Periodic, Constant) (fun _ => id33) true true = Some S,
      dd3 S *m pinvmx (dd3 S) *m dd3 S = dd3 S, eigh_first (M2 S *m dd2 S) v
    & forall (DF : nat -> mat3 R_realFieldType) lstsq dB,
      let eps := (10%:R : R_realFieldType)^-1 in
      let cfg := Config 5000 false 1000 0 (1 + eps ^+ 2) (eps ^+ 15) false 20 4 (eps ^+ 12) 100 false 0 2000 dB in
      let t0 := Trace [::] [::] [::] [::] [::] [::] [::] [::] [::] [::] in
      average_time 1 (out_trace (run_relaxation_loop sqrt (pinvmx (dd3 S)) DF lstsq (fun _ => None) cfg t0
        (solovev_state sqrt v (eps ^+ 6) 0))) = None].
Proof.
have [H1 _ H3 _ H5] := SequenceR_nonvacuous.
have [S HS] := C26_constructor_total H1 (H3 _).
have [[v Hv] _] := C61_solovev_start H1 (H3 _) HS (H5 S).
exists S, v; split=> // DF lstsq dB eps cfg t0.
have He : 0 < eps by rewrite invr_gt0 ltr0n.
have He1 : eps < 1 by rewrite invf_lt1 ?ltr0n // ltr1n.
apply/(C61_solovev_report_raises H1 (H3 _) HS (H5 S)) => //.
- by left.
- by rewrite /= exprn_ge0 ?exprn_ilt1 // ltW.
- by rewrite exprn_gt0.
Qed.
Print Assumptions C61_solovev_start.
Print Assumptions C61_solovev_stationary.
Print Assumptions C61_solovev_run.
Print Assumptions C61_solovev_report_raises.
Print Assumptions C61_report.
Print Assumptions C61_projected_field.
Print Assumptions C61_projected_start.
Print Assumptions C61_projected_run.
Print Assumptions C61_alignment.
