(** Property theorems about what survives a run: C43 (final field) and C46 (trace dictionaries). *)
From Coq Require Import String List.
From mathcomp Require Import all_ssreflect all_algebra zify.
From Verif Require Import Model.Forms Model.DeRham Model.Geometry Model.Relaxation Model.Session.
From Verif Require Import Spec.SeqSpec Spec.RelaxSpec Proof.RelaxAlg Proof.RelaxLoop Props.Relaxation.
Set Implicit Arguments.
Unset Strict Implicit.
Unset Printing Implicit Defensive.
Import Order.TTheory GRing.Theory Num.Theory.
Local Open Scope ring_scope.

Section Final.
Variable F : realFieldType.
Variable sqrt_ : F -> F.
Variable S : drseq F.
Variable pinv : 'M[F]_(rk S K3).
Variable DF : nat -> mat3 F.
Variable lstsq : 'M[F]_(rk S K2) -> 'cV[F]_(rk S K2) -> 'cV[F]_(rk S K2).
Notation vec2 := 'cV[F]_(rk S K2).

(** ** C43 run_relaxation_loop returns None, and the field the scripts save as B_final (with the
    pressure p_final) is the initial field, whatever the run did: its energy is that of the
    first entry of the energy trace *)
Theorem C43_caller_sees_initial : forall fault cfg t st,
  let r := run_relaxation_loop sqrt_ pinv DF lstsq fault cfg t st in
  let s := script sqrt_ pinv DF lstsq fault cfg t st in
  [/\ out_return r = None, s_B_final s = B_n st, s_p_final s = pressure (B_n st)
    & nth 0 (energy_trace (s_trace s)) (size (energy_trace t)) = energy (s_B_final s)].
Proof.
move=> fault cfg t st r s.
have [N [_ [_ Et] _ _]] := C45_first_break_or_maxit sqrt_ pinv DF lstsq fault cfg t st.
have [[_ _ He _ _] _] := C44_recorded sqrt_ pinv DF lstsq fault cfg t st N.
have Er : out_caller_state r = st by rewrite /r /run_relaxation_loop; case: (loop _ _ _ _ _ _ _ _ _ _).
have Er' : out_return r = None by rewrite /r /run_relaxation_loop; case: (loop _ _ _ _ _ _ _ _ _ _).
have EB : s_B_final s = B_n st by rewrite -Er.
split=> //; first by rewrite -Er.
by rewrite EB -[s_trace s]/(out_trace r) Et He nth_cat ltnn subnn.
Qed.

(** so it is not the final field: whenever the discrete curl is not zero there are a
    divergence-free initial field and a configuration with which the run is one accepted
    iteration to a different field, recorded as the last of B_fields *)
Theorem C43_B_final_is_final_refuted : relax_ok S pinv -> is_sqrt sqrt_ -> strong_curl S != 0 ->
  exists (B : vec2) cfg st, let t := Trace [::] [::] [::] [::] [::] [::] [::] [::] [::] [::] in
  let r := run_relaxation_loop sqrt_ pinv DF lstsq (fun _ => None) cfg t st in
  let s := script sqrt_ pinv DF lstsq (fun _ => None) cfg t st in
  [/\ divfree S B, B_n st = B /\ B_guess st = B, iterations (s_trace s) = [:: 0; 1]%N,
      last 0 (B_fields (s_trace s)) = B_n (out_local r)
    & s_B_final s <> B_n (out_local r)].
Proof.
move=> OK Hsq HC.
have [v Hv] : exists v : 'cV_(rk S K1), strong_curl S *m v != 0.
  have : (strong_curl S)^T != 0 by apply: contra HC => /eqP H; rewrite -[strong_curl S]trmxK H trmx0.
  move=> H; have [i Hi] : exists i, row i (strong_curl S)^T != 0.
    apply/existsP; apply: contraNT H; rewrite negb_exists => /forallP H.
    by apply/eqP/row_matrixP => i; rewrite row0; apply/eqP; have := H i; rewrite negbK.
  exists (delta_mx i 0); apply: contra Hi => /eqP H'.
  by rewrite -tr_col colE H' trmx0.
pose B := strong_curl S *m v; exists B.
pose ts : stepper F := Stepper 0 false 2%:R^-1 1 false.
pose st d := RState B B d 1 (0 : 'M_(rk S K2)) 0 (Fin 0) (Fin 0) (Fin 0).
pose E := mid_E pinv lstsq ts (picard_init (st 0)).
have EE d : mid_E pinv lstsq ts (picard_init (st d)) = E by [].
pose c := norm_2 sqrt_ (strong_curl S *m E).
have c0 : 0 <= c by exact: (nrm_ge0 OK Hsq).
pose d := (2%:R * (1 + c))^-1.
have d0 : 0 < d by rewrite invr_gt0 mulr_gt0 ?ltr0n // (lt_le_trans ltr01) // ler_addl.
have HJ : mid_J (picard_init (st 0)) = weak_curl S *m B.
  by rewrite /mid_J /= -mulr2n -scaler_nat scalerA mulVf ?pnatr_eq0 // scale1r.
have HJ0 : 0 < form (M1 S) (mid_J (picard_init (st 0))) (mid_J (picard_init (st 0))).
  apply: (proj2 (ok_M1 OK)); rewrite HJ; apply/negP => /eqP H0.
  move: Hv; rewrite -/B; apply/negP; rewrite negbK; apply/eqP; apply: (spd_eq0 (ok_M2 OK)).
  by rewrite {1}/B -(ok_wcurl OK) H0 form0r.
have HE : strong_curl S *m E != 0.
  apply/negP => /eqP H0.
  have := mid_work OK lstsq ts (picard_init (st 0)).
  rewrite -/E {1}HJ -(curl_adj OK) H0 form0l => /esym /eqP; apply/negP.
  rewrite -opprD oppr_eq0; apply: lt0r_neq0; apply: ltr_paddl; last by rewrite /= mul1r.
  exact: le_trans (spd_ge0 (ok_M2 OK) _) (work_ge OK lstsq (ts := ts) _ erefl).
pose cfg := Config 1 false 1 0 2%:R 0 false 1 1 (2%:R^-1) 1 true 0 0 (fun=> (fun=> 0)) : config F.
exists cfg, (st d) => t r s.
have hlt1 : 2%:R^-1 < 1 :> F by rewrite invf_lt1 ?ltr0n // (ltr1n _ 2).
have Hc1 : cond_fun ts (picard_init (st d)) = true by rewrite /cond_fun /= hlt1.
pose st1 := midpoint_residuum sqrt_ pinv lstsq ts (fun _ => None) (picard_init (st d)).
have Est : step sqrt_ pinv lstsq (fun _ => None) cfg (st d) = st1.
  by rewrite /step /picard_solver /the_stepper /= -/ts Hc1.
have EB1 : B_guess st1 = B + d *: (strong_curl S *m E) by rewrite /st1 /midpoint_residuum /B_nplus1 EE.
have Hres : picard_residuum st1 = Fin (norm_2 sqrt_ (d *: (strong_curl S *m E))).
  by rewrite /st1 /midpoint_residuum /B_nplus1 EE /= addrAC subrr add0r.
have Hn : norm_2 sqrt_ (d *: (strong_curl S *m E)) <= 2%:R^-1.
  have := nrm_sq OK Hsq (d *: (strong_curl S *m E)); rewrite formZl formZr mulrA -expr2 -(nrm_sq OK Hsq) -exprMn -/c.
  move=> H; have H1 : d * c <= 2%:R^-1.
    rewrite /d invfM -mulrA ler_pimulr ?invr_ge0 ?ler0n // ler_pdivr_mull ?mulr1; last by rewrite (lt_le_trans ltr01) // ler_addl.
    by rewrite ler_addr ler01.
  apply: le_trans H1; rewrite -(@ler_pexpn2r _ 2) ?nnegrE ?H //; first exact: (nrm_ge0 OK Hsq).
  by rewrite mulr_ge0 ?(ltW d0).
have Hf : failed cfg st1 = false by rewrite /failed Hres /= ltNge Hn.
have Eacc : accept sqrt_ pinv DF cfg 1 st1 = update_dt (update_B_n st1 (B_guess st1)) (dt_ (accept sqrt_ pinv DF cfg 1 st1)) by rewrite /accept /=.
have HBn : B_n (accept sqrt_ pinv DF cfg 1 st1) = B_guess st1 by rewrite Eacc.
have [El Et] : out_local r = accept sqrt_ pinv DF cfg 1 st1 /\ out_trace r = record_step sqrt_ cfg 1
     (record_initial sqrt_ pinv lstsq (fun=> None) cfg t (st d)) (accept sqrt_ pinv DF cfg 1 st1).
  rewrite /r /run_relaxation_loop /=; rewrite /loop_body Est Hf; case: (num_lt _ _) => //.
have Es : s_trace s = out_trace r by [].
have EBf : s_B_final s = B by have [_ -> _ _] := C43_caller_sees_initial (fun=> None) cfg t (st d).
rewrite Es Et El HBn EBf; split=> //.
- by rewrite /B /divfree mulmxA (ok_dc OK) mul0mx.
- by rewrite EB1 => /eqP; rewrite -subr_eq0 opprD addrA subrr add0r oppr_eq0 scaler_eq0 (negbTE HE) orbF (gt_eqF d0).
Qed.
End Final.
Print Assumptions C43_caller_sees_initial.
Print Assumptions C43_B_final_is_final_refuted.
