(** Similarity of relaxation runs on magnified domains. *)
From Coq Require Import Ring Field.
From mathcomp Require Import all_ssreflect all_algebra.
From Verif Require Import Model.Forms Model.DeRham Model.Geometry Model.Relaxation Spec.SeqSpec Spec.RelaxSpec Spec.ScaleSpec
  Proof.MCRing Proof.ScaleProofs Proof.RelaxAlg Proof.RelaxLoop Proof.RelaxRun.
Set Implicit Arguments.
Unset Strict Implicit.
Unset Printing Implicit Defensive.
Import Order.TTheory GRing.Theory Num.Theory.
Local Open Scope ring_scope.

Section Run.
Variable F : realFieldType.
Variable sqrt_ : F -> F.
Hypothesis Hsq : is_sqrt sqrt_.
Variable S : drseq F.
Variable pinv : 'M[F]_(rk S K3).
Hypothesis OK : relax_ok S pinv.
Variable a : F.
Hypothesis Ha0 : 0 < a.
Let Ha : a != 0. Proof. by rewrite gt_eqF. Qed.
Variables (G' Gi' : nat -> nat -> nat -> F) (J' : nat -> F).
Hypothesis HG : magnified a S G' Gi' J'.
Notation S' := (regeom S G' Gi' J').
Notation pinv' := (a ^+ 2 *: pinv : 'M[F]_(rk S' K3)).
Notation vec2 := 'cV[F]_(rk S K2).
Let HM : masses_invertible S.
Proof. by split; apply: spd_unit; [apply: ok_M0 OK | apply: ok_M1 OK | apply: ok_M2 OK | apply: ok_M3 OK]. Qed.
Let U1 : M1 S \in unitmx. Proof. by case: HM. Qed.
Let U2 : M2 S \in unitmx. Proof. by case: HM. Qed.
Definition c : F := sqrt_ a^-1.
Lemma c2 : c ^+ 2 = a^-1. Proof. by apply: (proj2 (Hsq _)); rewrite invr_ge0 ltW. Qed.
Lemma c_gt0 : 0 < c.
Proof.
rewrite lt_neqAle (proj1 (Hsq _)) ?invr_ge0 ?ltW // andbT; apply/eqP => E.
by have := c2; rewrite -E expr0n /= => /esym /eqP; rewrite invr_eq0 (negbTE Ha).
Qed.
Lemma norms (x : vec2) : norm_2 (S := S') sqrt_ x = c * norm_2 (S := S) sqrt_ x.
Proof.
have Q := spd_ge0 (ok_M2 OK) x.
have Q' : 0 <= ((x : 'cV_(rk S' K2))^T *m M2 S' *m x) 0 0.
  rewrite (M2s Ha HG) -scalemxAr -scalemxAl mxE; apply: mulr_ge0; [by rewrite invr_ge0 ltW | exact: Q].
apply/eqP; rewrite /norm_2 -(@eqr_expn2 _ 2) ?mulr_ge0 ?(ltW c_gt0) //; last 2 first.
- by case: (Hsq Q').
- by case: (Hsq Q).
rewrite exprMn c2; have [_ ->] := Hsq Q'; have [_ ->] := Hsq Q.
by rewrite (M2s Ha HG) -scalemxAr -scalemxAl mxE.
Qed.
Lemma energys (B : vec2) : energy (S := S') B = a^-1 * energy (S := S) B.
Proof. by rewrite /energy (M2s Ha HG) -scalemxAr -scalemxAl mxE mulrCA. Qed.
Add Field FScaleRun : (@mc_fth F).
Hypothesis Hdd1 : dd1 S \in unitmx.
Let v2 : a ^- 2 != 0. Proof. by rewrite invr_eq0 expf_neq0. Qed.
Lemma potentials (B : vec2) : potential (S := S') B = potential (S := S) B.
Proof. by rewrite /potential (dd1s Ha HG HM) (wcurls Ha HG HM) -scalemxAl solve_scale // divff // scale1r. Qed.
Lemma harmonics (B : vec2) : harmonic_component (S := S') B = harmonic_component (S := S) B.
Proof. by rewrite /harmonic_component potentials (curls Ha HG HM). Qed.
Lemma helicitys (B : vec2) : helicity (S := S') B = helicity (S := S) B.
Proof.
rewrite /helicity potentials (curls Ha HG HM) (M1s Ha HG) (P12s Ha HG HM).
by rewrite -!scalemxAr -!scalemxAl scalerA mulVf // scale1r.
Qed.
Lemma pressures (B : vec2) : dd0 S \in unitmx -> pressure (S := S') B = a ^- 4 *: pressure (S := S) B.
Proof.
move=> U0; rewrite /pressure (wcurls Ha HG HM) (P12s Ha HG HM) -!scalemxAl (P1x1s Ha HG).
rewrite (M2s Ha HG) solve_scale ?invr_eq0 // (divs Ha HG HM) (P03s Ha HG HM) (dd0s Ha HG HM).
rewrite -!scalemxAl -!scalemxAr scalerA solve_scale // scalerN; congr (- (_ *: _)).
move/eqP: Ha => H; mc_norm; field; repeat split; first [exact: H | exact: (elimN eqP (oner_neq0 F))].
Qed.

Variable lstsq : 'M[F]_(rk S K2) -> vec2 -> vec2.
Variable cfg : config F.
Notation cfg' := (magnify_config a c cfg).
Hypotheses (Hg : c_gamma cfg = 0%N) (Hp : c_precond cfg = false).
Hypotheses (Ht : c_solver_tol cfg < 1) (Ht' : c * c_solver_tol cfg < 1).
Hypothesis Hpert : c_pert_strength cfg <= 0.
Notation nofault := (fun _ => None).
Notation ts := (the_stepper cfg).
Notation ts' := (the_stepper cfg').

(** related states *)
Record sim (st : rstate S) (st' : rstate S') : Prop := Sim {
  s_B : B_n st' = B_n st; s_g : B_guess st' = B_guess st; s_dt : dt_ st' = a ^+ 6 * dt_ st;
  s_eta : eta st' = a ^- 4 * eta st; s_it : picard_iterations st' = picard_iterations st;
  s_f : force_norm st' = scale_num (c * a ^- 3) (force_norm st);
  s_v : velocity_norm st' = scale_num (c * a ^- 3) (velocity_norm st) }.
Definition nrel (r r' : num F) : Prop := (r = Fin 1 /\ r' = Fin 1) \/ (r' = scale_num c r /\ exists x, r = Fin x).

Lemma mid_Js st st' : sim st st' -> mid_J (S := S') st' = a ^- 2 *: mid_J (S := S) st.
Proof. by case=> H1 H2 _ _ _ _ _; rewrite /mid_J H1 H2 (wcurls Ha HG HM) -scalemxAl. Qed.
Lemma mid_Hs st st' : sim st st' -> mid_H (S := S') st' = a^-1 *: mid_H (S := S) st.
Proof. by case=> H1 H2 _ _ _ _ _; rewrite /mid_H H1 H2 (P12s Ha HG HM) -scalemxAl. Qed.
Lemma mid_JxHs st st' : sim st st' -> mid_JxH (S := S') st' = a ^- 3 *: mid_JxH (S := S) st.
Proof.
move=> H; rewrite /mid_JxH (mid_Js H) (mid_Hs H) (P1x1s Ha HG) (M2s Ha HG) solve_scale ?invr_eq0 //.
congr (_ *: _); move/eqP: Ha => H0; mc_norm; field; repeat split; first [exact: H0 | exact: (elimN eqP (oner_neq0 F))].
Qed.
Lemma mid_fs st st' : sim st st' -> mid_f (S := S') pinv' ts' st' = a ^- 3 *: mid_f (S := S) pinv ts st.
Proof.
by move=> H; rewrite /mid_f (mid_JxHs H) (Lerays Ha HG HM) /=; case: ifP => _ //; rewrite -scalemxAr.
Qed.
Lemma mid_us st st' : sim st st' -> mid_u (S := S') pinv' lstsq ts' st' = a ^- 3 *: mid_u (S := S) pinv lstsq ts st.
Proof. by move=> H; rewrite /mid_u /= Hg Hp /= (mid_fs H). Qed.
Lemma mid_Es st st' : sim st st' -> mid_E (S := S') pinv' lstsq ts' st' = a ^- 6 *: mid_E (S := S) pinv lstsq ts st.
Proof.
move=> H; rewrite /mid_E (mid_us H) (mid_Hs H) (mid_Js H) (s_eta H) (P2x1s Ha HG) (M1s Ha HG) solve_scale //.
rewrite scalerBr !scalerA; congr (_ *: _ - _ *: _); move/eqP: Ha => H0; mc_norm; field; repeat split; first [exact: H0 | exact: (elimN eqP (oner_neq0 F))].
Qed.
Lemma nexts st st' : sim st st' -> B_nplus1 (S := S') pinv' lstsq ts' st' = B_nplus1 (S := S) pinv lstsq ts st.
Proof.
move=> H; rewrite /B_nplus1 (mid_Es H) (s_dt H) (s_B H) (curls Ha HG HM) -scalemxAr scalerA.
by congr (_ + _ *: _); rewrite mulrAC mulfV ?mul1r // expf_neq0.
Qed.
Lemma mids st st' : sim st st' ->
  sim (midpoint_residuum (S := S) sqrt_ pinv lstsq ts nofault st) (midpoint_residuum (S := S') sqrt_ pinv' lstsq ts' nofault st') /\
  nrel (picard_residuum (midpoint_residuum (S := S) sqrt_ pinv lstsq ts nofault st))
       (picard_residuum (midpoint_residuum (S := S') sqrt_ pinv' lstsq ts' nofault st')).
Proof.
move=> H; rewrite /midpoint_residuum /= (nexts H) (s_g H) (s_B H) (mid_fs H) (mid_us H); split; last first.
  by right; split; [rewrite /= norms | exists (norm_2 (S := S) sqrt_ (B_nplus1 (S := S) pinv lstsq ts st - B_guess st))].
have a3 : 0 <= a ^- 3 by rewrite invr_ge0 exprn_ge0 // ltW.
split=> //=; rewrite ?(s_dt H) ?(s_eta H) ?(s_it H) //; by rewrite norms (nrmZ OK Hsq) // mulrA.
Qed.
Lemma num_gts r r' t : nrel r r' -> t < 1 -> c * t < 1 -> num_gt r' (c * t) = num_gt r t.
Proof.
by case=> [[-> ->]|[-> [x ->]]] H1 H2 /=; rewrite ?H1 ?H2 // ltr_pmul2l // c_gt0.
Qed.
Lemma nrel_nan r r' : nrel r r' -> isnan r' = isnan r /\ isfinite r' = isfinite r.
Proof. by case=> [[-> ->]|[-> [x ->]]]. Qed.
Lemma whiles fuel st st' : sim st st' -> nrel (picard_residuum st) (picard_residuum st') ->
  let r := while_loop (S := S) sqrt_ pinv lstsq ts nofault fuel st in
  let r' := while_loop (S := S') sqrt_ pinv' lstsq ts' nofault fuel st' in
  sim r r' /\ nrel (picard_residuum r) (picard_residuum r').
Proof.
elim: fuel st st' => [//|n IH] st st' Hs Hr /=.
have -> : cond_fun (S := S') ts' st' = cond_fun (S := S) ts st.
  by rewrite /cond_fun (s_it Hs) /= (num_gts Hr Ht Ht') (proj1 (nrel_nan Hr)).
case: ifP => _ //; have [H1 H2] := mids Hs; exact: IH.
Qed.
Lemma steps st st' : sim st st' ->
  let r := step (S := S) sqrt_ pinv lstsq nofault cfg st in
  let r' := step (S := S') sqrt_ pinv' lstsq nofault cfg' st' in
  sim r r' /\ nrel (picard_residuum r) (picard_residuum r').
Proof.
move=> H; rewrite /step /picard_solver /=; apply: whiles; last by left.
by case: H => *; split.
Qed.

(** related traces *)
Record tsim (t : trace S) (t' : trace S') : Prop := TSim {
  t_i : iterations t' = iterations t; t_f : force_trace t' = [seq scale_num (c * a ^- 3) x | x <- force_trace t];
  t_e : energy_trace t' = [seq a^-1 * x | x <- energy_trace t]; t_h : helicity_trace t' = helicity_trace t;
  t_v : velocity_trace t' = [seq scale_num (c * a ^- 3) x | x <- velocity_trace t];
  t_p : picard_iterations_trace t' = picard_iterations_trace t;
  t_d : timesteps t' = [seq a ^+ 6 * x | x <- timesteps t]; t_B : B_fields t' = B_fields t }.
Variables DF DF' : nat -> mat3 F.
Notation body := (loop_body (S := S) sqrt_ pinv DF lstsq nofault cfg).
Notation body' := (loop_body (S := S') sqrt_ pinv' DF' lstsq nofault cfg').
Lemma appends t t' i f E (B : vec2) dv dv' v p e e' d (b : bool) : tsim t t' ->
  tsim (append_to_trace_dict t i f E (helicity (S := S) B) dv v p e d (if b then Some B else None))
       (append_to_trace_dict t' i (scale_num (c * a ^- 3) f) (a^-1 * E) (helicity (S := S') B) dv' (scale_num (c * a ^- 3) v) p e' (a ^+ 6 * d)
          (if b then Some (B : 'cV[F]_(rk S' K2)) else None)).
Proof.
by case=> H1 H2 H3 H4 H5 H6 H7 H8; split; rewrite /= ?map_rcons ?H1 ?H2 ?H3 ?H4 ?H5 ?H6 ?H7 ?H8 ?helicitys //; case: b.
Qed.
Lemma lasts (t : seq (num F)) tol : num_lt (last NaN [seq scale_num (c * a ^- 3) y | y <- t]) (c * a ^- 3 * tol) = num_lt (last NaN t) tol.
Proof.
have Hk : 0 < c * a ^- 3 by rewrite mulr_gt0 ?c_gt0 // invr_gt0 exprn_gt0.
case/lastP: t => [//|t y]; rewrite map_rcons !last_rcons; case: y => [y| |] //=.
by rewrite ltr_pmul2l.
Qed.
Lemma bodys i st st' t t' : sim st st' -> tsim t t' ->
  let r := body i st t in let r' := body' i st' t' in
  [/\ sim r.1.1 r'.1.1, tsim r.1.2 r'.1.2 & r'.2 = r.2].
Proof.
move=> Hs Htr; rewrite /loop_body.
have [H1 H2] := steps Hs.
move: (step (S := S) _ _ _ _ _ _) (step (S := S') _ _ _ _ _ _) H1 H2 => r r' H1 H2.
have -> : failed (S := S') cfg' r' = failed (S := S) cfg r.
  by rewrite /failed /= (num_gts H2 Ht Ht') (proj2 (nrel_nan H2)).
case: ifP => _ /=.
  by split=> //; case: H1 => E1 E2 E3 E4 E5 E6 E7; split=> //=; rewrite E3 mulrA.
have H3 : sim (accept (S := S) sqrt_ pinv DF cfg i r) (accept (S := S') sqrt_ pinv' DF' cfg' i r').
  case: H1 => E1 E2 E3 E4 E5 E6 E7; rewrite /accept /= Hp [0 < _]ltNge Hpert andbF /=.
  by split=> //=; rewrite ?E2 ?E5 ?E3 //; case: ifP => _; rewrite mulrA.
move: (accept (S := S) _ _ _ _ _ _) (accept (S := S') _ _ _ _ _ _) H3 => q q' H3.
have H4 : tsim (record_step (S := S) sqrt_ cfg i t q) (record_step (S := S') sqrt_ cfg' i t' q').
  rewrite /record_step /=; case: ifP => _ //.
  case: H3 => E1 E2 E3 E4 E5 E6 E7; rewrite E1 E3 E5 E6 E7 energys; exact: appends.
by split=> //; rewrite (t_f H4) lasts //.
Qed.
Lemma loops n i st st' t t' : sim st st' -> tsim t t' ->
  let r := loop (S := S) sqrt_ pinv DF lstsq nofault cfg n i st t in
  let r' := loop (S := S') sqrt_ pinv' DF' lstsq nofault cfg' n i st' t' in
  sim r.1 r'.1 /\ tsim r.2 r'.2.
Proof.
elim: n i st st' t t' => [//|n IH] i st st' t t' Hs Htr /=.
have := bodys i Hs Htr; case: (body _ _ _) => [[s1 t1] b1]; case: (body' _ _ _) => [[s2 t2] b2] /= [H1 H2 ->].
by case: ifP => _ //; exact: IH.
Qed.
Lemma runs st st' t t' : sim st st' -> tsim t t' ->
  let r := run_relaxation_loop (S := S) sqrt_ pinv DF lstsq nofault cfg t st in
  let r' := run_relaxation_loop (S := S') sqrt_ pinv' DF' lstsq nofault cfg' t' st' in
  sim (out_local r) (out_local r') /\ tsim (out_trace r) (out_trace r').
Proof.
move=> Hs Htr; rewrite /run_relaxation_loop.
have Hi : tsim (record_initial (S := S) sqrt_ pinv lstsq nofault cfg t st)
   (record_initial (S := S') sqrt_ pinv' lstsq nofault cfg' t' st').
  have [H1 H2] := steps Hs; rewrite /record_initial /= (s_f H1) (s_v H1) (s_dt H1) (s_B Hs) energys.
  exact: appends.
have := loops (c_maxit cfg) 1 Hs Hi; rewrite /=.
by case: (loop _ _ _ _ _ _ _ _ _ _) => s1 t1; case: (loop _ _ _ _ _ _ _ _ _ _) => s2 t2.
Qed.
End Run.
