(** Lower bounds of the magnetic energy, force-free and Taylor states: algebra. *)
From Coq Require Import Ring Field.
From mathcomp Require Import all_ssreflect all_algebra.
From Verif Require Import Model.Forms Model.DeRham Model.Geometry Model.Relaxation Model.Eigen Spec.GeomSpec Spec.SeqSpec Spec.RelaxSpec Spec.SpectrumSpec
  Proof.MCRing Proof.RelaxAlg Proof.RelaxLoop Proof.RelaxRun Proof.RelaxHelicity Proof.SpectrumMat Proof.SpectrumSeq Proof.ForceAlg.
Set Implicit Arguments.
Unset Strict Implicit.
Unset Printing Implicit Defensive.
Import Order.TTheory GRing.Theory Num.Theory.
Local Open Scope ring_scope.

(** *** quadratic forms *)
Section Quad.
Variable F : realFieldType.
Add Field Fqar : (@mc_fth F).
Lemma form_diag n (d : 'rV[F]_n) (c : 'cV[F]_n) : form (diag_mx d) c c = \sum_i d 0 i * c i 0 ^+ 2.
Proof.
rewrite /form mxE; apply: eq_bigr => i _; rewrite mul_mx_diag mxE expr2 mulrAC mxE; rewrite mulrC.
by rewrite mulrA.
Qed.
Lemma form_congr n (A V : 'M[F]_n) (c : 'cV[F]_n) : form A (V *m c) (V *m c) = form (V^T *m A *m V) c c.
Proof. by rewrite /form trmx_mul !mulmxA. Qed.
Lemma form_sandwich n m (A : 'M[F]_n) (X : 'M[F]_(n, m)) x : form (X^T *m A *m X) x x = form A (X *m x) (X *m x).
Proof. by rewrite -mulmxA form_mull form_mulr. Qed.
Section Ray.
Variables (n : nat) (A B V : 'M[F]_n) (d : 'rV[F]_n).
Hypothesis E1 : V^T *m B *m V = 1%:M.
Hypothesis E2 : V^T *m A *m V = diag_mx d.
Definition coord (x : 'cV[F]_n) : 'cV[F]_n := V^T *m B *m x.
Lemma coordE x i : coord x i 0 = form B (col i V) x.
Proof. by rewrite /coord /form -!mulmxA mxE [RHS]mxE; apply: eq_bigr => j _; rewrite !mxE. Qed.
Lemma coordK x : V *m coord x = x.
Proof.
have U := cong_unit E1; rewrite /coord.
by rewrite -[V^T *m B](mulmxK U) E1 mul1mx mulKVmx.
Qed.
Lemma ray_B x : form B x x = \sum_i coord x i 0 ^+ 2.
Proof.
rewrite -{1 2}[x]coordK form_congr E1 -diag_const_mx form_diag.
by apply: eq_bigr => i _; rewrite mxE mul1r.
Qed.
Lemma ray_A x : form A x x = \sum_i d 0 i * coord x i 0 ^+ 2.
Proof. by rewrite -{1 2}[x]coordK form_congr E2 form_diag. Qed.
Lemma rayleigh l x : (forall i, d 0 i < l -> form B (col i V) x = 0) -> l * form B x x <= form A x x.
Proof.
move=> H; rewrite ray_A ray_B mulr_sumr; apply: ler_sum => i _.
case: (ltP (d 0 i) l) => Hi; last by rewrite ler_wpmul2r ?sqr_ge0.
by rewrite coordE H // expr0n !mulr0.
Qed.
Lemma ray_max i0 x : (forall i, d 0 i <= d 0 i0) -> form A x x <= d 0 i0 * form B x x.
Proof. by move=> H; rewrite ray_A ray_B mulr_sumr; apply: ler_sum => i _; rewrite ler_wpmul2r ?sqr_ge0. Qed.
End Ray.

(** a non-negative quadratic function vanishing at A has A in its kernel *)
Lemma psd_alg (b c k w : F) : w * (1 + k) = 1 ->
  2%:R * (- b * w) * b + (- b * w) ^+ 2 * c = - (b ^+ 2 * w ^+ 2 * (2%:R + 2%:R * k - c)).
Proof.
move=> N; have -> : 2%:R * (- b * w) * b = 2%:R * (- b * w) * b * (w * (1 + k)) by rewrite N mulr1.
by mc_norm; ring.
Qed.
Lemma psd_kernel (b c : F) : (forall t : F, 0 <= 2%:R * t * b + t ^+ 2 * c) -> b = 0.
Proof.
move=> H; apply/eqP; apply: contraT => Hb; have C1 : 0 < 1 + `|c| by apply: ltr_paddr.
have := H (- b / (1 + `|c|)).
rewrite (@psd_alg b c `|c| (1 + `|c|)^-1) ?mulVf ?lt0r_neq0 //.
rewrite oppr_ge0 leNgt; apply: contraNT => _.
have P : 0 < b ^+ 2 * (1 + `|c|)^-1 ^+ 2 by apply: mulr_gt0; [rewrite lt_def sqrf_eq0 Hb sqr_ge0 | rewrite exprn_gt0 ?invr_gt0].
rewrite pmulr_rgt0 //.
have cc := ler_norm c; rewrite -addrA ltr_paddr ?ltr0n // mulr_natl mulr2n -addrA addr_ge0 ?subr_ge0 //.
Qed.
(** the scalar inequality behind the bound with harmonic part *)
Lemma four_thirds (c h : F) : 3%:R * (c * (c + 4%:R * h)) <= 4%:R * (c + h) ^+ 2.
Proof.
rewrite -subr_ge0 (_ : _ - _ = (c - 2%:R * h) ^+ 2) ?sqr_ge0 //.
by rewrite !expr2; mc_norm; ring.
Qed.
Lemma half_sq (x : F) : x ^+ 2 = 4%:R * (2%:R^-1 * x) ^+ 2.
Proof.
have N : (2%:R^-1 : F) * 2%:R = 1 by rewrite mulVf // pnatr_eq0.
move: (2%:R^-1) N => w N; have -> : 4%:R * (w * x) ^+ 2 = (w * 2%:R) * (w * 2%:R) * x ^+ 2 by mc_norm; ring.
by rewrite N !mul1r.
Qed.
End Quad.

Section Arnold.
Variable F : realFieldType.
Add Field Farn : (@mc_fth F).
Variables (S : drseq F) (pinv : 'M[F]_(rk S K3)).
Hypothesis OK : relax_ok S pinv.
Hypothesis U1 : dd1 S \in unitmx.
Notation vec0 := 'cV[F]_(rk S K0).
Notation vec1 := 'cV[F]_(rk S K1).
Notation vec2 := 'cV[F]_(rk S K2).
Notation G := (strong_grad S).
Notation C := (strong_curl S).
Notation W := (weak_div S).
Notation K := (weak_curl S).
Notation "<< x , y >>1" := (form (M1 S) x y).
Notation "<< x , y >>2" := (form (M2 S) x y).

(** the potential is in Coulomb gauge and solves curl curl A = J *)
Lemma potential_eq (B : vec2) : K *m (C *m potential B) - G *m (W *m potential B) = K *m B.
Proof. by rewrite -(dd1E OK) /potential (dd1_solve U1). Qed.
Lemma potential_gauge (B : vec2) : W *m potential B = 0.
Proof.
have E := congr1 (mulmx W) (potential_eq B).
rewrite mulmxBr !(wdiv_wcurl_0 OK) sub0r in E.
have Z : W *m (G *m (W *m potential B)) = 0 by apply/eqP; rewrite -oppr_eq0 E.
have := grad_wdiv0 OK Z => Gz.
apply: (spd_eq0 (ok_M0 OK)); by rewrite (ok_wdiv OK) Gz form0l oppr0.
Qed.
Lemma potential_curl_eq (B : vec2) : K *m (C *m potential B) = K *m B.
Proof. by have := potential_eq B; rewrite potential_gauge mulmx0 subr0. Qed.
Lemma potential_coulomb (A : vec1) : W *m A = 0 -> potential (C *m A) = A.
Proof.
move=> HA; rewrite (potential_curl OK U1) -(solve_GW OK U1) HA.
have -> : G *m (0 : vec0) = 0 by rewrite mulmx0.
by rewrite /solve mulmx0 addr0.
Qed.
Lemma harmonic_current (B : vec2) : K *m harmonic_component B = 0.
Proof. by rewrite /harmonic_component mulmxBr potential_curl_eq subrr. Qed.
Lemma harmonic_split (B : vec2) : B = C *m potential B + harmonic_component B.
Proof. by rewrite /harmonic_component addrC subrK. Qed.
Lemma harmonic_orth (B : vec2) (a : vec1) : << C *m a, harmonic_component B >>2 = 0.
Proof. by rewrite -(ok_wcurl OK) harmonic_current form0r. Qed.
Lemma pyth (a : vec1) (B : vec2) t : let h := harmonic_component B in
  << C *m a + t *: h, C *m a + t *: h >>2 = << C *m a, C *m a >>2 + t ^+ 2 * << h, h >>2.
Proof.
have := harmonic_orth B a; move: (harmonic_component B) (C *m a) => h c E /=.
rewrite !formDl !formDr !formZl !formZr (formC h c (proj1 (ok_M2 OK))) E.
by move: (form _ _ _) (form _ _ _) => x y; mc_norm; ring.
Qed.
Lemma energy_split (B : vec2) : << B, B >>2 = << C *m potential B, C *m potential B >>2 + << harmonic_component B, harmonic_component B >>2.
Proof. by have := pyth (potential B) B 1; rewrite /= scale1r -harmonic_split expr1n mul1r. Qed.

(** helicity of a field without harmonic part *)
Lemma harmonic_im (A : vec1) : harmonic_component (C *m A) = 0.
Proof. by rewrite /harmonic_component (curl_potential_curl OK U1) subrr. Qed.
Lemma helicity_im (A : vec1) : helicity (C *m A) = form (M12 S) (potential (C *m A)) (C *m A).
Proof. by rewrite (helicityE OK) harmonic_im addr0. Qed.

(** *** Arnold's inequality *)
Section Bound.
Hypothesis contr : forall y : vec2, << P12 S *m y, P12 S *m y >>1 <= << y, y >>2.
Variable l : F.
Hypothesis l0 : 0 <= l.
Hypothesis ray : forall A : vec1, W *m A = 0 -> l * << A, A >>1 <= << C *m A, C *m A >>2.
Lemma M12_CS (a : vec1) (b : vec2) : form (M12 S) a b ^+ 2 <= << a, a >>1 * << b, b >>2.
Proof.
rewrite (M12_P12 OK); apply: le_trans (spd_CS (ok_M1 OK) _ _) _.
by apply: ler_wpmul2l; [exact: spd_ge0 (ok_M1 OK) _ | exact: contr].
Qed.
Lemma arnold_gen (B : vec2) : l * helicity B ^+ 2 <= << C *m potential B, C *m potential B >>2
  * (<< C *m potential B, C *m potential B >>2 + 4%:R * << harmonic_component B, harmonic_component B >>2).
Proof.
set c := << C *m _, _ >>2; set h := << harmonic_component B, _ >>2; rewrite (helicityE OK); apply: le_trans (ler_wpmul2l l0 (M12_CS _ _)) _.
have -> : << B + harmonic_component B, B + harmonic_component B >>2 = c + 4%:R * h.
  have -> : B + harmonic_component B = C *m potential B + 2%:R *: harmonic_component B.
    by rewrite {1}(harmonic_split B) -addrA scaler_nat mulr2n.
  by rewrite pyth -/c -/h expr2 -natrM.
rewrite mulrA; apply: ler_wpmul2r; last by apply: ray; exact: potential_gauge.
by apply: addr_ge0; [exact: spd_ge0 (ok_M2 OK) _ | apply: mulr_ge0; [exact: ler0n | exact: spd_ge0 (ok_M2 OK) _]].
Qed.
Lemma arnold (B : vec2) : 3%:R * l * helicity B ^+ 2 <= 16%:R * energy B ^+ 2.
Proof.
have H := arnold_gen B; rewrite energyE energy_split -mulrA.
apply: le_trans (ler_wpmul2l (ler0n _ 3) H) _; apply: le_trans (four_thirds _ _) _.
by rewrite (half_sq (_ + _)) mulrA -natrM.
Qed.
Lemma arnold0 (B : vec2) : harmonic_component B = 0 -> l * helicity B ^+ 2 <= 4%:R * energy B ^+ 2.
Proof.
move=> Hh; have H := arnold_gen B; rewrite energyE energy_split; rewrite Hh form0l in H *.
by apply: le_trans H _; rewrite mulr0 !addr0 -half_sq -expr2.
Qed.
End Bound.

(** *** force-free (Beltrami) fields *)
Lemma P1x1_par (mu : F) (H : vec1) : solve (M2 S) (P1x1_to_2 (mu *: H) H) = 0.
Proof.
apply: (spd_nondeg (ok_M2 OK)) => y.
have [_ ->] := form_solve (P1x1_to_2 (mu *: H) H) y (proj1 (ok_M2 OK)) (spd_unit (ok_M2 OK)).
rewrite -[LHS]opprK -triple_swap; last exact: ok_sym OK.
rewrite triple_anti -[mu *: H]addr0 P2x1_linr.
have -> : dotv H (mu *: P2x1_to_1 y H + P2x1_to_1 y 0) = mu * dotv H (P2x1_to_1 y H) + dotv H (P2x1_to_1 y 0).
  by rewrite /dotv mulmxDr -scalemxAr !mxE.
by rewrite triple_zero mulr0 add0r triple_anti /dotv trmx0 mul0mx mxE !oppr0.
Qed.
Lemma beltrami_force mu (B : vec2) : K *m B = mu *: (P12 S *m B) -> force B = 0.
Proof. by move=> H; rewrite /force H P1x1_par. Qed.
Section Step.
Variable lstsq : 'M[F]_(rk S K2) -> vec2 -> vec2.
Variable ts : stepper F.
(** a force-free field only diffuses *)
Lemma beltrami_step mu (st : rstate S) : newton ts = false -> B_guess st = B_n st -> K *m B_n st = mu *: (P12 S *m B_n st) ->
  B_nplus1 pinv lstsq ts st = B_n st - (dt_ st * eta st) *: (C *m (K *m B_n st)).
Proof.
move=> Hn HB HK.
have EB : 2%:R^-1 *: (B_guess st + B_n st) = B_n st.
  by rewrite HB -[X in X + X]scale1r -scalerDl scalerA -mulr2n -[1 *+ 2]/(2%:R) mulVf ?pnatr_eq0 // scale1r.
have EJ : mid_J st = K *m B_n st by rewrite /mid_J EB.
have EH : mid_H st = P12 S *m B_n st by rewrite /mid_H EB.
have Z : mid_JxH st = 0 by rewrite /mid_JxH EJ EH HK P1x1_par.
have Sm g : smooth (S := S) g 0 = 0 by elim: g => [//|g]; rewrite /smooth iterS => ->; rewrite /solve mulmx0.
have Eu : mid_u pinv lstsq ts st = 0 by rewrite /mid_u /mid_f Hn Z mulmx0 if_same Sm.
have EE : mid_E pinv lstsq ts st = - (eta st *: mid_J st).
  rewrite /mid_E Eu -[RHS]add0r; congr (_ - _).
  apply: (spd_nondeg (ok_M1 OK)) => y.
  have [_ ->] := form_solve (P2x1_to_1 (0 : vec2) (mid_H st)) y (proj1 (ok_M1 OK)) (spd_unit (ok_M1 OK)).
  by rewrite triple_swap; [rewrite /dotv trmx0 mul0mx mxE oppr0 | exact: ok_sym OK].
by rewrite /B_nplus1 EE EJ mulmxN -scalemxAr scalerN scalerA.
Qed.
End Step.

(** *** states of least energy for their helicity *)
Section Taylor.
Variable sqrt_ : F -> F.
Hypothesis Hsq : is_sqrt sqrt_.
Lemma helicityZ s (B : vec2) : helicity (s *: B) = s ^+ 2 * helicity B.
Proof.
rewrite !(helicityE OK) /harmonic_component potentialZ -scalemxAr -scalerBr -scalerDr formZl formZr.
by rewrite mulrA expr2.
Qed.
Lemma energyZ s (B : vec2) : energy (s *: B) = s ^+ 2 * energy B.
Proof. by rewrite !energyE formZl formZr; move: (form _ _ _) => x; mc_norm; ring. Qed.
Variables (B : vec2) (k : F).
Hypotheses (k0 : k != 0) (HB : helicity B = k) (Bh : harmonic_component B = 0).
Hypothesis Bmin : forall B' : vec2, harmonic_component B' = 0 -> helicity B' = k -> energy B <= energy B'.
Notation A := (potential B).
Lemma energy_ge0 (X : vec2) : 0 <= energy X.
Proof. by rewrite energyE mulr_ge0 ?invr_ge0 ?ler0n //; exact: spd_ge0 (ok_M2 OK) _. Qed.
Lemma taylor_psd (X : vec2) : harmonic_component X = 0 -> 0 <= energy X - energy B / k * helicity X.
Proof.
move=> HX; rewrite subr_ge0 -mulrA [k^-1 * _]mulrC.
case: (leP (helicity X / k) 0) => Hs.
  by apply: le_trans (energy_ge0 X); apply: mulr_ge0_le0 => //; exact: energy_ge0.
have N : helicity X != 0 by apply: contraTneq Hs => ->; rewrite mul0r ltxx.
have Pk : 0 <= k / helicity X by rewrite ltW // -invr_gt0 invf_div.
have [s0 s2] := Hsq Pk; set s := sqrt_ _ in s0 s2.
have : energy B <= energy (s *: X).
  apply: Bmin; first by rewrite /harmonic_component potentialZ -scalemxAr -scalerBr -/(harmonic_component X) HX scaler0.
  by rewrite helicityZ s2 mulfVK.
rewrite energyZ s2 => /(ler_wpmul2r (ltW Hs)) H; apply: le_trans H _.
by rewrite mulrAC [k / _ * _]mulrA (mulfVK N) (divff k0) mul1r.
Qed.
Lemma taylor_polar (x : vec1) : << B, C *m x >>2 = energy B / k * (form (M12 S) A (C *m x) + form (M12 S) (potential (C *m x)) B).
Proof.
set lam := energy B / k.
have EB : B = C *m A by have := harmonic_split B; rewrite Bh addr0.
apply/eqP; rewrite -subr_eq0; apply/eqP; set z := _ - _.
suff: 2%:R^-1 * z = 0.
  by move/eqP; rewrite mulf_eq0 invr_eq0 pnatr_eq0 /= => /eqP.
apply: (@psd_kernel _ _ (energy (C *m x) - lam * helicity (C *m x))) => t.
have HX : harmonic_component (B + t *: (C *m x)) = 0.
  by rewrite scalemxAr (harmonic_curl OK U1).
have := taylor_psd HX.
have -> : energy (B + t *: (C *m x)) = energy B + t * << B, C *m x >>2 + t ^+ 2 * energy (C *m x).
  rewrite !energyE !formDl !formDr !formZl !formZr (formC (C *m x) B (proj1 (ok_M2 OK))).
  have N : (2%:R^-1 : F) * 2%:R = 1 by rewrite mulVf // pnatr_eq0.
  move: << B, B >>2 << B, C *m x >>2 << C *m x, C *m x >>2 (2%:R^-1) N => a b c w N.
  have Eb : t * b = w * 2%:R * (t * b) by rewrite N mul1r.
  by rewrite [in RHS]Eb; mc_norm; ring.
have -> : helicity (B + t *: (C *m x)) = k + t * (form (M12 S) A (C *m x) + form (M12 S) (potential (C *m x)) B)
    + t ^+ 2 * helicity (C *m x).
  rewrite -HB !(helicityE OK) Bh HX harmonic_im !addr0 potentialD potentialZ !formDl !formDr !formZl !formZr.
  move: (form _ A B) (form _ A (C *m x)) (form (M12 S) (potential (C *m x)) B) (form _ (potential (C *m x)) (C *m x)) => a b c d.
  by mc_norm; ring.
have El : lam * k = energy B by rewrite /lam mulfVK.
rewrite /z {z}; move: << B, C *m x >>2 (form (M12 S) A _) (form (M12 S) _ B) (energy (C *m x)) (helicity _) (energy B) lam El => a b c d e f lam El.
have N : (2%:R^-1 : F) * 2%:R = 1 by rewrite mulVf // pnatr_eq0.
move: (2%:R^-1) N => w N.
have -> : 2%:R * t * (w * (a - lam * (b + c))) = w * 2%:R * (t * (a - lam * (b + c))) by mc_norm; ring.
rewrite N mul1r -El => H.
have <- : lam * k + t * a + t ^+ 2 * d - lam * (k + t * (b + c) + t ^+ 2 * e) = t * (a - lam * (b + c)) + t ^+ 2 * (d - lam * e).
  by mc_norm; ring.
by move: H; rewrite mulfK.
Qed.
End Taylor.

(** the helicity of curl x is a quadratic form in x *)
Definition helmx : 'M[F]_(rk S K1) := (invmx (dd1 S) *m K *m C)^T *m M12 S *m C.
Lemma helmx_form (x : vec1) : form helmx x x = helicity (C *m x).
Proof.
rewrite helicity_im /helmx /form; congr (fun_of_matrix _ 0 0).
by rewrite /potential /solve !trmx_mul !mulmxA.
Qed.
Definition symx n (A : 'M[F]_n) : 'M[F]_n := 2%:R^-1 *: (A + A^T).
Lemma symx_sym n (A : 'M[F]_n) : (symx A)^T = symx A.
Proof. by rewrite /symx linearZ linearD /= trmxK addrC. Qed.
Lemma form_tr n (A : 'M[F]_n) x : form A^T x x = form A x x.
Proof. by rewrite /form -[RHS]/((_ *m _ *m _) 0 0) -[in RHS](trmxK (x^T *m A *m x)) [RHS]mxE !trmx_mul trmxK mulmxA. Qed.
Lemma symx_form n (A : 'M[F]_n) x : form (symx A) x x = form A x x.
Proof.
rewrite /symx {1}/form -scalemxAr -scalemxAl mxE -/(form (A + A^T) x x) form_add form_tr.
have N : (2%:R^-1 : F) * 2%:R = 1 by rewrite mulVf // pnatr_eq0.
by rewrite -mulr2n -[form _ _ _ *+ 2]mulr_natl mulrA N mul1r.
Qed.
Lemma dd1_form (x : vec1) : form (M1 S *m dd1 S) x x = << C *m x, C *m x >>2 + form (M0 S) (W *m x) (W *m x).
Proof. by rewrite (M1L OK) form_add !form_sandwich. Qed.
Lemma dd1_spd : spd (M1 S *m dd1 S).
Proof.
have S0 := proj1 (ok_M0 OK); have S2 := proj1 (ok_M2 OK).
split; first by rewrite (M1L OK) linearD /= !congrT.
move=> x Nx; rewrite dd1_form lt_neqAle addr_ge0 ?andbT; [|exact: spd_ge0 (ok_M2 OK) _ | exact: spd_ge0 (ok_M0 OK) _].
apply: contra Nx => /eqP /esym /eqP; rewrite paddr_eq0; [|exact: spd_ge0 (ok_M2 OK) _ | exact: spd_ge0 (ok_M0 OK) _].
case/andP => /eqP /(spd_eq0 (ok_M2 OK)) E1 /eqP /(spd_eq0 (ok_M0 OK)) E2.
by apply/eqP; apply: (dd1_inj U1); rewrite (dd1E OK) E1 E2 !mulmx0 subrr.
Qed.
Section Exist.
Variable sqrt_ : F -> F.
Hypothesis Hsq : is_sqrt sqrt_.
Hypothesis pen : forall A : 'M[F]_(rk S K1), A^T = A ->
  exists (V : 'M[F]_(rk S K1)) (d : 'rV[F]_(rk S K1)), V^T *m (M1 S *m dd1 S) *m V = 1%:M /\ V^T *m A *m V = diag_mx d.
Lemma taylor_exists (B0 : vec2) : harmonic_component B0 = 0 -> helicity B0 != 0 ->
  exists B : vec2, [/\ harmonic_component B = 0, helicity B = helicity B0 &
    forall B' : vec2, harmonic_component B' = 0 -> helicity B' = helicity B0 -> energy B <= energy B'].
Proof.
move=> H0 N0; set k := helicity B0 in N0 *.
pose s : F := Num.sg k; have ks : 0 < s * k by rewrite /s -normrEsg normr_gt0.
have [V [d [E1 E2]]] := pen (symx_sym (s *: helmx)).
have EA x : form (symx (s *: helmx)) x x = s * helicity (C *m x).
  by rewrite symx_form {1}/form -scalemxAr -scalemxAl mxE -/(form helmx x x) helmx_form.
have pot (X : vec2) : harmonic_component X = 0 -> X = C *m potential X.
  by move=> HX; have := harmonic_split X; rewrite HX addr0.
have [i1 Hi1] : exists i, 0 < d 0 i.
  apply/existsP; case: existsP => // Hd; suff : s * k <= 0 by rewrite leNgt ks.
  rewrite /k (pot _ H0) -EA (ray_A E1 E2) -oppr_ge0 -sumrN; apply: sumr_ge0 => i _; rewrite oppr_ge0; apply: mulr_le0_ge0; last exact: sqr_ge0.
  by rewrite leNgt; apply/negP => Hi; apply: Hd; exists i.
have [i Hi Hmax] := arg_maxP (P := fun i => 0 < d 0 i) (fun i => d 0 i) Hi1.
have {}Hmax j : d 0 j <= d 0 i.
  by case: (ltP 0 (d 0 j)) => [/Hmax //|Hj]; apply: le_trans Hj (ltW Hi).
pose v := col i V.
have Hv : s * helicity (C *m v) = d 0 i by rewrite -EA (cong_diag i E2).
have Bv : form (M1 S *m dd1 S) v v = 1.
  have E1' : V^T *m (M1 S *m dd1 S) *m V = diag_mx (const_mx 1) by rewrite E1 -diag_const_mx.
  by rewrite (cong_diag i E1') mxE.
have kd : 0 <= s * k / d 0 i by rewrite ltW // divr_gt0.
have [t0 t2] := Hsq kd; set t := sqrt_ _ in t0 t2.
have sgk : s != 0 by rewrite sgr_eq0.
exists (t *: (C *m v)); split.
- by rewrite scalemxAr harmonic_im.
- by apply: (mulfI sgk); rewrite helicityZ t2 mulrCA Hv mulfVK // lt0r_neq0.
- move=> B' HB' Hk; rewrite energyZ t2.
  have Hup := ray_max E1 E2 (potential B') Hmax.
  rewrite EA -(pot _ HB') Hk dd1_form potential_gauge form0l addr0 -(pot _ HB') in Hup.
  have Hlo : << C *m v, C *m v >>2 <= 1.
    by rewrite -Bv dd1_form ler_addl; exact: spd_ge0 (ok_M0 OK) _.
  rewrite !energyE mulrCA; apply: ler_wpmul2l; first by rewrite invr_ge0 ler0n.
  apply: le_trans (ler_wpmul2l kd Hlo) _; by rewrite mulr1 ler_pdivr_mulr // [X in _ <= X]mulrC.
Qed.
End Exist.
End Arnold.
