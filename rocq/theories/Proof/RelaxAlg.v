(** Algebra of one midpoint step. *)
From Coq Require Import Ring Field.
From mathcomp Require Import all_ssreflect all_algebra.
From Verif Require Import Model.Forms Model.DeRham Model.Geometry Model.Relaxation Spec.GeomSpec Spec.SeqSpec Spec.RelaxSpec
  Proof.MCRing Proof.SequenceAlg Proof.DeRhamAlg Proof.GeometryProofs Proof.ProjectionProofs.
Set Implicit Arguments.
Unset Strict Implicit.
Unset Printing Implicit Defensive.
Import Order.TTheory GRing.Theory Num.Theory.
Local Open Scope ring_scope.

Section Inner.
Variable F : realFieldType.
Add Field Ffra : (@mc_fth F).

Lemma formDl n m (A : 'M[F]_(n, m)) x x' y : form A (x + x') y = form A x y + form A x' y. Proof. exact: blDl. Qed.
Lemma formDr n m (A : 'M[F]_(n, m)) x y y' : form A x (y + y') = form A x y + form A x y'. Proof. exact: blDr. Qed.
Lemma formZl n m (A : 'M[F]_(n, m)) t x y : form A (t *: x) y = t * form A x y. Proof. exact: blZl. Qed.
Lemma formZr n m (A : 'M[F]_(n, m)) t x y : form A x (t *: y) = t * form A x y. Proof. exact: blZr. Qed.
Lemma formNl n m (A : 'M[F]_(n, m)) x y : form A (- x) y = - form A x y.
Proof. by rewrite -scaleN1r formZl mulN1r. Qed.
Lemma formNr n m (A : 'M[F]_(n, m)) x y : form A x (- y) = - form A x y.
Proof. by rewrite -scaleN1r formZr mulN1r. Qed.
Lemma formC n (A : 'M[F]_n) x y : A^T = A -> form A x y = form A y x. Proof. exact: blC. Qed.
Lemma form0l n m (A : 'M[F]_(n, m)) y : form A 0 y = 0. Proof. by rewrite /form trmx0 !mul0mx mxE. Qed.
Lemma form0r n m (A : 'M[F]_(n, m)) x : form A x 0 = 0. Proof. by rewrite /form mulmx0 mxE. Qed.

Section SPD.
Variables (n : nat) (A : 'M[F]_n).
Hypothesis HA : spd A.
Lemma spd_ge0 x : 0 <= form A x x.
Proof. by case: (altP (x =P 0)) => [->|/(proj2 HA)/ltW //]; rewrite form0l. Qed.
Lemma spd_eq0 x : form A x x = 0 -> x = 0.
Proof. by move=> H; apply/eqP; apply: contraT => /(proj2 HA); rewrite H ltxx. Qed.
Lemma spd_unit : A \in unitmx.
Proof.
rewrite -row_free_unit -kermx_eq0; apply/eqP/row_matrixP => i; rewrite row0.
have H : row i (kermx A) *m A = 0 by apply/sub_kermxP; exact: row_sub.
move: (row i _) H => v H; apply: trmx_inj; rewrite trmx0; apply: spd_eq0.
by rewrite /form trmxK H mul0mx mxE.
Qed.
Lemma spd_nondeg x : (forall y, form A y x = 0) -> x = 0.
Proof. by move=> H; apply: spd_eq0; apply: H. Qed.
(** Cauchy-Schwarz *)
Lemma spd_CS x y : form A x y ^+ 2 <= form A x x * form A y y.
Proof.
case: (altP (y =P 0)) => [->|Hy]; first by rewrite !form0r mulr0 expr0n.
have Py := proj2 HA _ Hy; have Hne : form A y y != 0 by rewrite lt0r_neq0.
have := spd_ge0 (x - (form A x y / form A y y) *: y).
rewrite formDl !formDr !formNl !formNr !formZl !formZr (formC y x (proj1 HA)).
have -> : form A x x + - (form A x y / form A y y * form A x y)
  + (- (form A x y / form A y y * form A x y) + - - (form A x y / form A y y * (form A x y / form A y y * form A y y)))
  = form A x x - form A x y ^+ 2 / form A y y.
  by rewrite mulfVK // opprK addNr addr0 expr2 mulrAC.
by rewrite subr_ge0 ler_pdivr_mulr.
Qed.
End SPD.

Lemma form_solve n (A : 'M[F]_n) (b : 'cV_n) (x : 'cV_n) : A^T = A -> A \in unitmx ->
  form A (solve A b) x = dotv b x /\ form A x (solve A b) = dotv x b :> F.
Proof.
move=> HA U; rewrite /form /solve /dotv; split.
- by rewrite trmx_mul trmx_inv HA mulmxKV.
- by rewrite -[x^T *m A *m _]mulmxA mulKVmx.
Qed.
Lemma dotvC n (x y : 'cV[F]_n) : dotv x y = dotv y x.
Proof. by rewrite /dotv -[x^T *m y]mx11_tr trmx_mul trmxK. Qed.
End Inner.

Section Step.
Variable F : realFieldType.
Add Field Ffrs : (@mc_fth F).
Variable S : drseq F.

Lemma dot_P2x1 (x : 'cV[F]_(rk S K1)) (u : 'cV[F]_(rk S K2)) (H : 'cV[F]_(rk S K1)) :
  dotv x (P2x1_to_1 u H) = \sum_(j < n_q S) \sum_(a < 3) form_value x j a *
     (cross (einsum_kl_k (G_jkl S j) (form_value u j)) (form_value H j) a * (w_j S j / J_j S j)).
Proof. by rewrite /P2x1_to_1 /=; apply: (etrans (@dot_integrate _ S K1 3 _ x)). Qed.
Lemma dot_P1x1 (x : 'cV[F]_(rk S K2)) (u : 'cV[F]_(rk S K1)) (H : 'cV[F]_(rk S K1)) :
  dotv x (P1x1_to_2 u H) = \sum_(j < n_q S) \sum_(a < 3) form_value x j a *
     (einsum_kl_k (G_jkl S j) (cross (form_value u j) (form_value H j)) a * (w_j S j / J_j S j)).
Proof. by rewrite /P1x1_to_2 /=; apply: (etrans (@dot_integrate _ S K2 3 _ x)). Qed.

Lemma triple_zero (u : 'cV[F]_(rk S K2)) (H : 'cV[F]_(rk S K1)) : dotv H (P2x1_to_1 u H) = 0.
Proof.
rewrite dot_P2x1; apply: big1 => j _; rewrite !big_ord_recl big_ord0 /cross /arr3 /=.
rewrite /bump /= !(addn0, add1n, addn1).
by move: (einsum_kl_k _ _) (form_value H j) => a b; mc_norm; ring.
Qed.
Lemma triple_swap (J H : 'cV[F]_(rk S K1)) (u : 'cV[F]_(rk S K2)) : geometry_sym S ->
  dotv J (P2x1_to_1 u H) = - dotv u (P1x1_to_2 J H).
Proof.
move=> Hs; rewrite dot_P2x1 dot_P1x1 -sumrN; apply: eq_bigr => j _.
have G10 := proj1 (Hs _ _ _ (ltn_ord j) (isT : 1 < 3)%N (isT : 0 < 3)%N).
have G20 := proj1 (Hs _ _ _ (ltn_ord j) (isT : 2 < 3)%N (isT : 0 < 3)%N).
have G21 := proj1 (Hs _ _ _ (ltn_ord j) (isT : 2 < 3)%N (isT : 1 < 3)%N).
rewrite !big_ord_recl !big_ord0 /cross /arr3 /einsum_kl_k !big_ord_recl !big_ord0 /=.
rewrite /bump /= !(addn0, add1n, addn1) G10 G20 G21.
by mc_norm; ring.
Qed.
End Step.

Section Midpoint.
Variable F : realFieldType.
Add Field Ffrm : (@mc_fth F).
Variables (S : drseq F) (pinv : 'M[F]_(rk S K3)).
Hypothesis OK : relax_ok S pinv.
Notation PL := (P_Leray S pinv).
Notation vec1 := 'cV[F]_(rk S K1).
Notation vec2 := 'cV[F]_(rk S K2).
Notation "<< x , y >>1" := (form (M1 S) x y).
Notation "<< x , y >>2" := (form (M2 S) x y).

Lemma curl_adj (E : vec1) (B : vec2) : << strong_curl S *m E, B >>2 = << E, weak_curl S *m B >>1.
Proof. by rewrite (ok_wcurl OK). Qed.

(** the (I + dd2) operator *)
Notation A := (1%:M + dd2 S).
Lemma dd2E (x : vec2) : dd2 S *m x = strong_curl S *m (weak_curl S *m x) - weak_grad S *m (strong_div S *m x).
Proof. by rewrite (ok_dd2 OK) mulmxBl; congr (_ - _); exact: esym (mulmxA _ _ _). Qed.
Lemma div_curl_0 (E : vec1) : strong_div S *m (strong_curl S *m E) = 0.
Proof. by rewrite (mulmxA (strong_div S) (strong_curl S)) (ok_dc OK) mul0mx. Qed.
Lemma dd2_quad_ge0 x : 0 <= << x, dd2 S *m x >>2.
Proof.
rewrite dd2E formDr formNr (ok_wgrad OK) opprK.
rewrite (formC _ _ (proj1 (ok_M2 OK))) curl_adj; apply: addr_ge0; apply: spd_ge0; [exact: ok_M1 OK | exact: ok_M3 OK].
Qed.
Lemma dd2_sa x y : << x, dd2 S *m y >>2 = << dd2 S *m x, y >>2.
Proof.
have E u v : << u, dd2 S *m v >>2 = << weak_curl S *m u, weak_curl S *m v >>1 + form (M3 S) (strong_div S *m u) (strong_div S *m v).
  rewrite dd2E formDr formNr (ok_wgrad OK) opprK.
  by rewrite (formC _ _ (proj1 (ok_M2 OK))) curl_adj (formC _ _ (proj1 (ok_M1 OK))).
rewrite E (formC _ y (proj1 (ok_M2 OK))) E; congr (_ + _).
  by rewrite (formC _ _ (proj1 (ok_M1 OK))).
by rewrite (formC _ _ (proj1 (ok_M3 OK))).
Qed.
Lemma AE (x : vec2) : A *m x = x + dd2 S *m x.
Proof. by rewrite (mulmxDl 1%:M (dd2 S)) mul1mx. Qed.
Lemma A_quad x : << x, A *m x >>2 = << x, x >>2 + << x, dd2 S *m x >>2.
Proof. by rewrite AE formDr. Qed.
Lemma A_sa x y : << x, A *m y >>2 = << A *m x, y >>2.
Proof. by rewrite !AE formDr formDl dd2_sa. Qed.
Lemma A_unit : A \in unitmx.
Proof.
rewrite -unitmx_tr -row_free_unit -kermx_eq0; apply/eqP/row_matrixP => i; rewrite row0.
have H : row i (kermx A^T) *m A^T = 0 by apply/sub_kermxP; exact: row_sub.
move: (row i _) H => v H; apply: trmx_inj; rewrite trmx0; apply: (spd_eq0 (ok_M2 OK)).
have E : A *m v^T = 0 by apply: trmx_inj; rewrite trmx_mul trmxK H trmx0.
have := A_quad v^T; rewrite E form0r => /esym/eqP.
by rewrite paddr_eq0 ?spd_ge0 ?dd2_quad_ge0 // ?(ok_M2 OK) // => [/andP [/eqP]|]; last exact: ok_M2 OK.
Qed.
Lemma A_solve (x : vec2) : A *m solve A x = x.
Proof. by rewrite /solve mulKVmx // A_unit. Qed.

(** <u, A^g u> >= <u, u> *)
Lemma A_pow_ge g (x : vec2) : << x, x >>2 <= << x, iter g (@mulmx F _ _ 1 A) x >>2.
Proof.
elim/ltn_ind: g x => -[|[|g]] IH x; first by [].
- by rewrite /= A_quad ler_addl dd2_quad_ge0.
- have -> : iter g.+2 (@mulmx F _ _ 1 A) x = A *m iter g (@mulmx F _ _ 1 A) (A *m x) by rewrite iterS iterSr.
  rewrite A_sa; apply: le_trans (IH g _ (A *m x)); last by [].
  rewrite AE formDl !formDr [X in _ + _ + (X + _)](formC _ _ (proj1 (ok_M2 OK))).
  rewrite -!addrA ler_addl; apply: addr_ge0; first exact: dd2_quad_ge0.
  by apply: addr_ge0; [exact: dd2_quad_ge0 | exact: spd_ge0 (ok_M2 OK) _].
Qed.
Lemma smooth_inv g (f : vec2) : iter g (@mulmx F _ _ 1 A) (smooth g f) = f.
Proof.
elim: g => [//|g IH]; rewrite iterSr /smooth iterS A_solve; exact: IH.
Qed.
Lemma smooth_ge g (f : vec2) : << smooth g f, smooth g f >>2 <= << smooth g f, f >>2.
Proof. by rewrite -{4}(smooth_inv g f); apply: A_pow_ge. Qed.

(** divergence-free fields are stable under the smoothing *)
Lemma A_div (x : vec2) : divfree S (A *m x) -> divfree S x.
Proof.
rewrite /divfree AE mulmxDr dd2E mulmxBr div_curl_0 sub0r.
set y := strong_div S *m x => H; apply: (spd_eq0 (ok_M3 OK)).
have : form (M3 S) y (y - strong_div S *m (weak_grad S *m y)) = 0 by rewrite H form0r.
rewrite formDr formNr (formC y _ (proj1 (ok_M3 OK))).
have -> : form (M3 S) (strong_div S *m (weak_grad S *m y)) y = - << weak_grad S *m y, weak_grad S *m y >>2.
  by rewrite -[LHS]opprK -(ok_wgrad OK).
rewrite opprK => /eqP; rewrite paddr_eq0 ?spd_ge0 //; [by case/andP => /eqP | exact: ok_M3 OK | exact: ok_M2 OK].
Qed.
Lemma smooth_div g (f : vec2) : divfree S f -> divfree S (smooth g f).
Proof. by elim: g => [//|g IH] H; apply: A_div; rewrite /smooth iterS A_solve; apply: IH. Qed.

Variable lstsq : 'M[F]_(rk S K2) -> vec2 -> vec2.
Variable ts : stepper F.
Notation Bp := (B_nplus1 pinv lstsq ts).
Notation mu := (mid_u pinv lstsq ts).
Notation mJ := mid_J. Notation mH := mid_H.
Definition Bmid (st : rstate S) : vec2 := 2%:R^-1 *: (B_guess st + B_n st).

(** the new field differs from the old one by a curl *)
Lemma step_div st : divfree S (B_n st) -> divfree S (Bp st).
Proof.
rewrite /divfree /B_nplus1 mulmxDr => ->.
by rewrite -scalemxAr div_curl_0 scaler0 addr0.
Qed.

Lemma mid_work st : << mid_E pinv lstsq ts st, mJ st >>1
  = - << mu st, mid_JxH st >>2 - eta st * << mJ st, mJ st >>1.
Proof.
rewrite /mid_E formDl formNl formZl; congr (_ - _).
have [-> _] := form_solve (P2x1_to_1 (mu st) (mH st)) (mJ st) (proj1 (ok_M1 OK)) (spd_unit (ok_M1 OK)).
rewrite dotvC triple_swap; last exact: ok_sym OK.
by have [_ ->] := form_solve (P1x1_to_2 (mJ st) (mH st)) (mu st) (proj1 (ok_M2 OK)) (spd_unit (ok_M2 OK)).
Qed.

Lemma energyE (B : vec2) : energy B = 2%:R^-1 * << B, B >>2. Proof. by []. Qed.

(** exact energy balance of one midpoint evaluation *)
Lemma energy_balance st :
  energy (Bp st) - energy (B_n st)
  = - dt_ st * (<< mu st, mid_JxH st >>2 + eta st * << mJ st, mJ st >>1)
    + 2%:R^-1 * << Bp st - B_n st, Bp st - B_guess st >>2.
Proof.
have ED : Bp st - B_n st = dt_ st *: (strong_curl S *m mid_E pinv lstsq ts st) by rewrite /B_nplus1 addrAC subrr add0r.
have W : << Bp st - B_n st, Bmid st >>2 = - dt_ st * (<< mu st, mid_JxH st >>2 + eta st * << mJ st, mJ st >>1).
  by rewrite ED formZl curl_adj -/(mJ st) mid_work -opprD mulrN mulNr.
rewrite -W /Bmid formZr -mulrDr -formDr !energyE -mulrBr; congr (_ * _).
have -> : B_guess st + B_n st + (Bp st - B_guess st) = Bp st + B_n st.
  by rewrite addrC addrA subrK.
move: (Bp st) (B_n st) => x y; rewrite formDl !formDr !formNl (formC y x (proj1 (ok_M2 OK))).
by rewrite addrA addrK.
Qed.

(** dissipation: without the Newton option the work done is at least |u|^2 *)
Lemma work_ge st : newton ts = false -> << mu st, mu st >>2 <= << mu st, mid_JxH st >>2.
Proof.
move=> Hn; rewrite /mid_u Hn; rewrite /mid_f; case: (force_free ts); first exact: smooth_ge.
set f := PL *m _; set u := smooth _ _.
have Du : divfree S u by apply: smooth_div; rewrite /divfree /f (mulmxA (strong_div S) PL) (ok_Pdiv OK) mul0mx.
have -> : << u, mid_JxH st >>2 = << u, f >>2 by rewrite /f (ok_Psa OK) (ok_Pid OK Du).
exact: smooth_ge.
Qed.

Section Norms.
Variable sqrt_ : F -> F.
Hypothesis Hsq : is_sqrt sqrt_.
Notation nrm := (norm_2 sqrt_).
Lemma nrm_ge0 (x : vec2) : 0 <= nrm x. Proof. exact: (proj1 (Hsq (spd_ge0 (ok_M2 OK) x))). Qed.
Lemma nrm_sq (x : vec2) : nrm x ^+ 2 = << x, x >>2. Proof. exact: (proj2 (Hsq (spd_ge0 (ok_M2 OK) x))). Qed.
Lemma nrm_CS (x y : vec2) : << x, y >>2 <= nrm x * nrm y.
Proof.
case: (lerP 0 (<< x, y >>2)) => [H|/ltW H]; last by apply: le_trans H _; apply: mulr_ge0; apply: nrm_ge0.
rewrite -(@ler_pexpn2r _ 2) ?nnegrE ?mulr_ge0 ?nrm_ge0 // exprMn !nrm_sq.
exact: (spd_CS (ok_M2 OK)).
Qed.
Lemma nrm_triangle (x y : vec2) : nrm (x + y) <= nrm x + nrm y.
Proof.
rewrite -(@ler_pexpn2r _ 2) ?nnegrE ?addr_ge0 ?nrm_ge0 // nrm_sq sqrrD !nrm_sq formDl !formDr.
rewrite (formC y x (proj1 (ok_M2 OK))) -addrA -[X in _ <= X]addrA ler_add2l addrA ler_add2r -mulr2n ler_muln2r //=.
exact: nrm_CS.
Qed.
Lemma nrmN (x : vec2) : nrm (- x) = nrm x.
Proof. by rewrite /norm_2 -!/(form (M2 S) _ _) formNl formNr opprK. Qed.
Lemma nrm_eq0 (x : vec2) : nrm x = 0 -> x = 0.
Proof. by move=> H; apply: (spd_eq0 (ok_M2 OK)); rewrite -nrm_sq H expr0n. Qed.

Lemma energy_step st : newton ts = false -> 0 <= dt_ st ->
  energy (Bp st) <= energy (B_n st)
    - dt_ st * (nrm (mu st) ^+ 2 + eta st * << mJ st, mJ st >>1)
    + 2%:R^-1 * (nrm (Bp st - B_n st) * nrm (Bp st - B_guess st)).
Proof.
move=> Hn Hdt.
have -> : energy (Bp st) = energy (B_n st) + (energy (Bp st) - energy (B_n st)) by rewrite addrC subrK.
rewrite energy_balance nrm_sq addrA.
apply: ler_add; last by apply: ler_wpmul2l; [rewrite invr_ge0 ler0n | apply: nrm_CS].
rewrite ler_add2l mulNr ler_opp2; apply: ler_wpmul2l => //.
by rewrite ler_add2r; apply: work_ge.
Qed.

(** hence the L2 norm of B grows by at most the residual *)
Lemma norm_step st : newton ts = false -> 0 <= dt_ st -> 0 <= eta st ->
  nrm (Bp st) <= nrm (B_n st) + nrm (Bp st - B_guess st).
Proof.
move=> Hn Hdt Het; have H := energy_step Hn Hdt.
set b1 := nrm (Bp st) in H *; set b0 := nrm (B_n st) in H *; set r := nrm (Bp st - B_guess st) in H *.
have H1 : 2%:R * energy (Bp st) = b1 ^+ 2 by rewrite energyE mulVKf ?pnatr_eq0 // nrm_sq.
have H0 : 2%:R * energy (B_n st) = b0 ^+ 2 by rewrite energyE mulVKf ?pnatr_eq0 // nrm_sq.
have HT : nrm (Bp st - B_n st) <= b1 + b0 by apply: le_trans (nrm_triangle _ _) _; rewrite nrmN.
have HQ : b1 ^+ 2 <= b0 ^+ 2 + (b1 + b0) * r.
  rewrite -H1 -H0.
  have : energy (Bp st) <= energy (B_n st) + 2%:R^-1 * ((b1 + b0) * r).
    apply: le_trans H _; apply: ler_add; last first.
      by apply: ler_wpmul2l; [rewrite invr_ge0 ler0n | apply: ler_wpmul2r => //; apply: nrm_ge0].
    rewrite ler_subl_addl ler_addr; apply: mulr_ge0 => //; apply: addr_ge0; first exact: sqr_ge0.
    by apply: mulr_ge0 => //; exact: spd_ge0 (ok_M1 OK) _.
  move: (energy (Bp st)) (energy (B_n st)) => e1 e0 He.
  have -> : 2%:R * e0 + (b1 + b0) * r = 2%:R * (e0 + 2%:R^-1 * ((b1 + b0) * r)).
    by rewrite mulrDr; congr (_ + _); rewrite mulVKf // pnatr_eq0.
  by apply: ler_wpmul2l => //; rewrite ler0n.
have P1 : 0 <= b1 by apply: nrm_ge0. have P0 : 0 <= b0 by apply: nrm_ge0. have Pr : 0 <= r by apply: nrm_ge0.
rewrite -ler_subl_addl; case: (altP (b1 + b0 =P 0)) => [/eqP|Hne].
  by rewrite paddr_eq0 // => /andP [/eqP -> /eqP ->]; rewrite subrr.
have Hp : 0 < b1 + b0 by rewrite lt0r Hne addr_ge0.
by rewrite -(ler_pmul2r Hp) -subr_sqr [r * _]mulrC ler_subl_addl.
Qed.
End Norms.
End Midpoint.
