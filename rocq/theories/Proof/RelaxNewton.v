(** The Newton option of the relaxation with the least-squares solver of Model/Gvec.v. *)
From Coq Require Import Ring Field.
From mathcomp Require Import all_ssreflect all_algebra.
From Verif Require Import Model.Forms Model.DeRham Model.Geometry Model.Gvec Model.Relaxation Spec.SeqSpec Spec.RelaxSpec
  Proof.MCRing Proof.DeRhamAlg Proof.GeometryProofs Proof.MassSPD Proof.LeastSquares Proof.RelaxAlg Proof.RelaxLoop Proof.RelaxRun Proof.ForceAlg.
Set Implicit Arguments.
Unset Strict Implicit.
Unset Printing Implicit Defensive.
Import Order.TTheory GRing.Theory Num.Theory.
Local Open Scope ring_scope.

Section Lin.
Variable F : realFieldType.
Variables (n : nat) (H : 'M[F]_n).
Lemma lstsq_range (g : 'cV[F]_n) : exists y : 'cV[F]_n, lstsq H g = H^T *m y.
Proof.
have [w ->] := lstsq_row H g.
have : (row_base H <= H)%MS by rewrite eq_row_base.
by case/submxP => D ->; exists (D^T *m w); rewrite trmx_mul mulmxA.
Qed.
Hypothesis HS : H^T = H.
Lemma lstsq_work (g : 'cV[F]_n) : ((lstsq H g)^T *m g) ord0 ord0 = form H (lstsq H g) (lstsq H g).
Proof.
have N := lstsq_normal H g; have [y E] := lstsq_range g.
rewrite /form; set z := lstsq H g in E N *.
have -> : z^T *m g = z^T *m H *m z; last by [].
by rewrite {1 2}E trmx_mul trmxK -!mulmxA; congr (_ *m _); move: N; rewrite HS => ->.
Qed.
(** no work is done only if nothing is left of the right-hand side *)
Lemma lstsq_still (g : 'cV[F]_n) : H *m lstsq H g = 0 -> lstsq H g = 0.
Proof.
move=> Z; have [y E] := lstsq_range g; apply: sq_eq0; rewrite sqE {1}E trmx_mul trmxK -mulmxA Z mulmx0.
by rewrite mxE.
Qed.
Lemma lstsq_unit (g : 'cV[F]_n) : H \in unitmx -> lstsq H g = invmx H *m g.
Proof.
move=> U; have N := lstsq_normal H g; rewrite HS in N.
by rewrite -[LHS](mulKmx U) -(mulKmx U (H *m _)) N (mulKmx U).
Qed.
End Lin.

(** positive semidefinite forms vanish only on the kernel *)
Section Psd.
Variable F : realFieldType.
Add Field Fpsd : (@mc_fth F).
Lemma psd_ker n (H : 'M[F]_n) (x : 'cV[F]_n) : H^T = H -> (forall y, 0 <= form H y y) -> form H x x = 0 -> H *m x = 0.
Proof.
move=> Hs Hp H0; pose w : 'cV[F]_n := H *m x.
have Q (t : F) : 0 <= 2%:R * t * sq w + t ^+ 2 * form H w w.
  have := Hp (x + t *: w).
  rewrite formDl !formDr !formZl !formZr H0 (formC x w Hs).
  have -> : form H w x = sq w by rewrite /form -mulmxA sqE.
  set a := sq w; set b := form H w w.
  have -> : 0 + t * a + (t * a + t * (t * b)) = 2%:R * t * a + t ^+ 2 * b by mc_norm; ring.
  by [].
have Hw : 0 <= form H w w := Hp w.
apply: sq_eq0; apply/eqP; rewrite eq_le sq_ge0 andbT leNgt; apply/negP => Hpos.
have P1 : 0 < 1 + form H w w by rewrite ltr_paddr // ltr01.
have := Q (- (sq w / (1 + form H w w))).
rewrite leNgt => /negP; apply.
set s := sq w in Hpos *; set h := form H w w in Hw P1 *.
have Hh : 1 + h <> 0 by apply/eqP; apply: lt0r_neq0.
have -> : 2%:R * - (s / (1 + h)) * s + (- (s / (1 + h))) ^+ 2 * h = - (s ^+ 2 / (1 + h) * (2%:R - h / (1 + h))).
  by mc_norm; field; exact: Hh.
rewrite oppr_lt0; apply: mulr_gt0; first by rewrite divr_gt0 // exprn_gt0.
rewrite subr_gt0; apply: (@le_lt_trans _ _ 1); last by rewrite ltr1n.
by rewrite ler_pdivr_mulr // mul1r ler_addr ler01.
Qed.
End Psd.

Section Newton.
Variable F : realFieldType.
Variable S : drseq F.
Variable pinv : 'M[F]_(rk S K3).
Hypothesis OK : relax_ok S pinv.
Notation vec2 := 'cV[F]_(rk S K2).
Notation PL := (P_Leray S pinv).
Notation "<< u , v >>2" := (form (M2 S) u v).
Notation lsq := (fun (A : 'M[F]_(rk S K2)) (b : vec2) => lstsq A b).
Variable ts : stepper F.
Notation Bp := (B_nplus1 pinv lsq ts).
Notation mu := (mid_u pinv lsq ts).

(** right-hand side of the least-squares problem and its solution *)
Definition newton_rhs (st : rstate S) : vec2 := PL^T *m M2 S *m smooth (gamma ts) (mid_f pinv ts st).
Definition newton_z (st : rstate S) : vec2 := lstsq (Hessian st) (newton_rhs st).

Lemma mu_newton st : newton ts -> mu st = PL *m newton_z st. Proof. by rewrite /mid_u => ->. Qed.
Lemma PL_div (x : vec2) : divfree S (PL *m x). Proof. by rewrite /divfree (mulmxA (strong_div S)) (ok_Pdiv OK) mul0mx. Qed.
Lemma rhs_pair st (w : vec2) : (w^T *m newton_rhs st) ord0 ord0 = << PL *m w, smooth (gamma ts) (mid_f pinv ts st) >>2.
Proof. by rewrite /newton_rhs /form trmx_mul !mulmxA. Qed.

Lemma mid_f_pair st (w : vec2) : << PL *m w, mid_f pinv ts st >>2 = << PL *m w, mid_JxH st >>2.
Proof.
rewrite /mid_f; case: (force_free ts) => //.
by rewrite (ok_Psa OK) (ok_Pid OK (PL_div w)).
Qed.

Lemma newton_work st : newton ts -> gamma ts = 0%N -> (Hessian st)^T = Hessian st ->
  << mu st, mid_JxH st >>2 = form (Hessian st) (newton_z st) (newton_z st).
Proof.
move=> Hn Hg HS; rewrite mu_newton // -mid_f_pair -(lstsq_work HS) rhs_pair Hg; exact: erefl.
Qed.

(** with the mass matrix as Hessian the option changes nothing *)
Lemma trPM : PL^T *m M2 S = M2 S *m PL.
Proof.
have Ms := proj1 (ok_M2 OK); apply/matrixP => i j.
have := ok_Psa OK (delta_mx i 0) (delta_mx j 0).
have el (A : 'M[F]_(rk S K2)) : form A (delta_mx i 0) (delta_mx j 0) = A i j.
  by rewrite /form trmx_delta -rowE -colE !mxE.
have -> : << delta_mx i 0, PL *m delta_mx j 0 >>2 = (M2 S *m PL) i j by rewrite -el /form !mulmxA.
have -> : << PL *m delta_mx i 0, delta_mx j 0 >>2 = (PL^T *m M2 S) i j by rewrite -el /form trmx_mul !mulmxA.
by move=> ->.
Qed.
Lemma newton_mass st : newton ts -> Hessian st = M2 S -> mu st = PL *m smooth (gamma ts) (mid_f pinv ts st).
Proof.
move=> Hn HM; rewrite mu_newton // /newton_z HM lstsq_unit ?(proj1 (ok_M2 OK)) //; last exact: spd_unit (ok_M2 OK).
rewrite /newton_rhs trPM -(mulmxA (M2 S)) (mulKmx (spd_unit (ok_M2 OK))).
exact: (ok_Pid OK (PL_div _)).
Qed.
Lemma newton_mass_off (ts' : stepper F) st : newton ts -> Hessian st = M2 S -> force_free ts = false ->
  newton ts' = false -> gamma ts' = gamma ts -> force_free ts' = force_free ts ->
  mu st = mid_u pinv lsq ts' st.
Proof.
move=> Hn HM Hf Hn' Hg Hf'; rewrite newton_mass // /mid_u Hn' Hg.
have -> : mid_f pinv ts' st = mid_f pinv ts st by rewrite /mid_f Hf'.
apply: (ok_Pid OK); apply: (smooth_div OK); rewrite /mid_f Hf; exact: PL_div.
Qed.

Section Norms.
Variable sqrt_ : F -> F.
Hypothesis Hsq : is_sqrt sqrt_.
Notation nrm := (norm_2 sqrt_).
(** growth of the norm from an energy inequality *)
Lemma norm_of_energy (B1 B0 Bg : vec2) : energy B1 <= energy B0 + 2%:R^-1 * (nrm (B1 - B0) * nrm (B1 - Bg)) ->
  nrm B1 <= nrm B0 + nrm (B1 - Bg).
Proof.
move=> H.
set b1 := nrm B1; set b0 := nrm B0; set r := nrm (B1 - Bg) in H *.
have H1 : 2%:R * energy B1 = b1 ^+ 2 by rewrite energyE mulVKf ?pnatr_eq0 // (nrm_sq OK Hsq).
have H0 : 2%:R * energy B0 = b0 ^+ 2 by rewrite energyE mulVKf ?pnatr_eq0 // (nrm_sq OK Hsq).
have HT : nrm (B1 - B0) <= b1 + b0 by apply: le_trans (nrm_triangle OK Hsq _ _) _; rewrite nrmN.
have P1 : 0 <= b1 by apply: (nrm_ge0 OK Hsq). have P0 : 0 <= b0 by apply: (nrm_ge0 OK Hsq).
have Pr : 0 <= r by apply: (nrm_ge0 OK Hsq).
have HQ : b1 ^+ 2 <= b0 ^+ 2 + (b1 + b0) * r.
  rewrite -H1 -H0.
  have : energy B1 <= energy B0 + 2%:R^-1 * ((b1 + b0) * r).
    apply: le_trans H _; rewrite ler_add2l; apply: ler_wpmul2l; first by rewrite invr_ge0 ler0n.
    by apply: ler_wpmul2r.
  move: (energy B1) (energy B0) => e1 e0 He.
  have -> : 2%:R * e0 + (b1 + b0) * r = 2%:R * (e0 + 2%:R^-1 * ((b1 + b0) * r)).
    by rewrite mulrDr; congr (_ + _); rewrite mulVKf // pnatr_eq0.
  by apply: ler_wpmul2l => //; rewrite ler0n.
rewrite -ler_subl_addl; case: (altP (b1 + b0 =P 0)) => [/eqP|Hne].
  by rewrite paddr_eq0 // => /andP [/eqP -> /eqP ->]; rewrite subrr.
have Hp : 0 < b1 + b0 by rewrite lt0r Hne addr_ge0.
by rewrite -(ler_pmul2r Hp) -subr_sqr [r * _]mulrC ler_subl_addl.
Qed.
Lemma newton_step st : newton ts -> gamma ts = 0%N -> (Hessian st)^T = Hessian st ->
  energy (Bp st) <= energy (B_n st)
    - dt_ st * (form (Hessian st) (newton_z st) (newton_z st) + eta st * form (M1 S) (mid_J st) (mid_J st))
    + 2%:R^-1 * (nrm (Bp st - B_n st) * nrm (Bp st - B_guess st)).
Proof.
move=> Hn Hg HS.
have -> : energy (Bp st) = energy (B_n st) + (energy (Bp st) - energy (B_n st)) by rewrite addrC subrK.
rewrite (energy_balance OK) newton_work // addrA mulNr ler_add2l.
by apply: ler_wpmul2l; [rewrite invr_ge0 ler0n | apply: (nrm_CS OK Hsq)].
Qed.
End Norms.
End Newton.
