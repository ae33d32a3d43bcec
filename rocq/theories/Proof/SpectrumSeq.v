(** The Hodge pencils and the cavity pencil of a sequence. *)
From mathcomp Require Import all_ssreflect all_algebra.
From Verif Require Import Model.Forms Model.DeRham Model.Eigen Spec.SeqSpec Spec.RelaxSpec Spec.SpectrumSpec Spec.GeomSpec Proof.RelaxAlg Proof.SpectrumAlg.
Set Implicit Arguments.
Unset Strict Implicit.
Unset Printing Implicit Defensive.
Import Order.TTheory GRing.Theory Num.Theory.
Local Open Scope ring_scope.

Section Seq.
Variable F : realFieldType.
Variable S : drseq F.
Variable pinv : 'M[F]_(rk S K3).
Hypothesis OK : relax_ok S pinv.
Notation G := (strong_grad S). Notation C := (strong_curl S). Notation D := (strong_div S).
Notation W := (weak_div S). Notation K := (weak_curl S). Notation N := (weak_grad S).
Hypothesis H0 : M0 S *m dd0 S = G^T *m M1 S *m G.
Hypotheses (WK : W *m K = 0) (KN : K *m N = 0).

Lemma form_ext n m (A B : 'M[F]_(n, m)) : (forall x y, form A x y = form B x y) -> A = B.
Proof.
move=> H; apply/matrixP => i j; have := H (delta_mx i 0) (delta_mx j 0).
have aux (X : 'M[F]_(n, m)) : form X (delta_mx i 0) (delta_mx j 0) = X i j.
  by rewrite /form trmx_delta -mulmxA -rowE mxE -colE mxE.
by rewrite !aux.
Qed.
Lemma form_mulr n m p (A : 'M[F]_(n, m)) (B : 'M[F]_(m, p)) x y : form (A *m B) x y = form A x (B *m y).
Proof. by rewrite /form !mulmxA. Qed.
Lemma form_mull n m p (A : 'M[F]_(n, m)) (B : 'M[F]_(n, p)) x y : form (B^T *m A) x y = form A (B *m x) y.
Proof. by rewrite /form trmx_mul !mulmxA. Qed.
Lemma form_opp n m (A : 'M[F]_(n, m)) x y : form (- A) x y = - form A x y.
Proof. by rewrite /form mulmxN mulNmx mxE. Qed.
Lemma MW : M0 S *m W = - (G^T *m M1 S).
Proof. by apply: form_ext => x y; rewrite form_opp form_mulr form_mull (ok_wdiv OK). Qed.
Lemma MK : M1 S *m K = C^T *m M2 S.
Proof. by apply: form_ext => x y; rewrite form_mulr form_mull (ok_wcurl OK). Qed.
Lemma MN : M2 S *m N = - (D^T *m M3 S).
Proof. by apply: form_ext => x y; rewrite form_opp form_mulr form_mull (ok_wgrad OK). Qed.
Lemma spd_mass k : k <> KV -> spd (mass S k).
Proof. case: k => // _ /=; [exact: ok_M0 OK | exact: ok_M1 OK | exact: ok_M2 OK | exact: ok_M3 OK]. Qed.
Lemma M_unit k : k <> KV -> mass S k \in unitmx.
Proof. by move=> Hk; apply/spd_unit/spd_mass. Qed.
Let U0 : M0 S \in unitmx := @M_unit K0 (fun e => ltac:(discriminate)).
Let U1 : M1 S \in unitmx := @M_unit K1 (fun e => ltac:(discriminate)).
Lemma dd0L : dd0 S = L0 G W.
Proof. by rewrite -[dd0 S](mulKmx U0) H0 -[G^T *m M1 S]opprK -MW /L0 mulNmx mulmxN -mulmxA (mulKmx U0). Qed.
Lemma dd1L : dd1 S = L1 G C W K. Proof. exact: ok_dd1 OK. Qed.
Lemma dd2L : dd2 S = L2 C D K N. Proof. exact: ok_dd2 OK. Qed.
Lemma dd3L : dd3 S = L3 D N. Proof. by rewrite /dd3 mulNmx. Qed.

Lemma congrT n m (A : 'M[F]_n) (X : 'M[F]_(n, m)) : A^T = A -> (X^T *m A *m X)^T = X^T *m A *m X.
Proof. by move=> H; rewrite !trmx_mul trmxK H mulmxA. Qed.
Lemma trN n m (A : 'M[F]_(n, m)) : (- A)^T = - A^T. Proof. exact: linearN. Qed.
Lemma tr2 n m p (A : 'M[F]_(m, n)) (B : 'M[F]_(m, p)) : (A^T *m B)^T = B^T *m A. Proof. by rewrite trmx_mul trmxK. Qed.
Lemma MG : M1 S *m G = - (W^T *m M0 S).
Proof.
have := congr1 trmx MW; rewrite [LHS]trmx_mul (proj1 (ok_M0 OK)) [RHS]trN tr2 (proj1 (ok_M1 OK)) => ->.
by rewrite opprK.
Qed.
Lemma MC : M2 S *m C = K^T *m M1 S.
Proof. by have := congr1 trmx MK; rewrite [LHS]trmx_mul tr2 (proj1 (ok_M2 OK)) (proj1 (ok_M1 OK)) => ->. Qed.
Lemma MD : M3 S *m D = - (N^T *m M2 S).
Proof.
have := congr1 trmx MN; rewrite [LHS]trmx_mul (proj1 (ok_M2 OK)) [RHS]trN tr2 (proj1 (ok_M3 OK)) => ->.
by rewrite opprK.
Qed.
Lemma M1L : M1 S *m dd1 S = C^T *m M2 S *m C + W^T *m M0 S *m W.
Proof.
rewrite dd1L /L1 mulmxBr; congr (_ + _); first by rewrite mulmxA MK.
by rewrite mulmxA MG mulNmx opprK.
Qed.
Lemma M2L : M2 S *m dd2 S = K^T *m M1 S *m K + D^T *m M3 S *m D.
Proof.
rewrite dd2L /L2 mulmxBr; congr (_ + _); first by rewrite mulmxA MC.
by rewrite mulmxA MN mulNmx opprK.
Qed.
Lemma M3L : M3 S *m dd3 S = N^T *m M2 S *m N.
Proof. by rewrite dd3L /L3 mulmxN mulmxA MD mulNmx opprK. Qed.
Lemma hodge_sym k : k <> KV -> (mass S k *m hodge S k)^T = mass S k *m hodge S k.
Proof.
have [S0 S1 S2 S3] : [/\ (M0 S)^T = M0 S, (M1 S)^T = M1 S, (M2 S)^T = M2 S & (M3 S)^T = M3 S].
  by split; [case: (ok_M0 OK) | case: (ok_M1 OK) | case: (ok_M2 OK) | case: (ok_M3 OK)].
case: k => // _ /=; rewrite ?H0 ?M1L ?M2L ?M3L ?linearD /= ?congrT //.
Qed.
Lemma congr_ge0 n m (A : 'M[F]_n) (X : 'M[F]_(n, m)) x : spd A -> 0 <= form (X^T *m A *m X) x x.
Proof. by move=> HA; rewrite -mulmxA form_mull form_mulr spd_ge0. Qed.
Lemma form_add n m (A B : 'M[F]_(n, m)) x y : form (A + B) x y = form A x y + form B x y.
Proof. by rewrite /form mulmxDr mulmxDl mxE. Qed.
Lemma hodge_ge0 k : k <> KV -> forall x, 0 <= form (mass S k *m hodge S k) x x.
Proof.
case: k => // _ x /=; rewrite ?H0 ?M1L ?M2L ?M3L ?form_add ?addr_ge0 ?congr_ge0 //;
  solve [exact: ok_M0 OK | exact: ok_M1 OK | exact: ok_M2 OK | exact: ok_M3 OK].
Qed.

(** *** the eigenvalues *)
Lemma psd_eigen n (A B : 'M[F]_n) l m x y : A^T = A -> spd B -> (forall z, 0 <= form A z z) ->
  complex_eigenpair A B l m x y -> m = 0 /\ 0 <= l.
Proof.
move=> HA HB Hp [Hn Hx Hy].
have E := sym_real HA (proj1 HB) Hx Hy.
have pos : 0 < form B x x + form B y y.
  case/orP: Hn => H; [apply: ltr_paddr | apply: ltr_paddl]; rewrite ?spd_ge0 //; exact: (proj2 HB).
have m0 : m = 0 by move/eqP: E; rewrite mulf_eq0 (gt_eqF pos) orbF => /eqP.
split=> //; rewrite m0 scale0r subr0 in Hx; rewrite m0 scale0r add0r in Hy.
have Ex : form A x x = l * form B x x by rewrite {1}/form -mulmxA Hx -scalemxAr mulmxA mxE.
have Ey : form A y y = l * form B y y by rewrite {1}/form -mulmxA Hy -scalemxAr mulmxA mxE.
have := addr_ge0 (Hp x) (Hp y); rewrite Ex Ey -mulrDr pmulr_lge0 //.
Qed.
Lemma pencil_dimker n (M L : 'M[F]_n) l : M \in unitmx -> multiplicity (M *m L) M l = dimker (L - l%:M).
Proof.
move=> U; rewrite /multiplicity -/(dimker _) -(dimker_unit (L - l%:M) U); congr dimker.
by rewrite mulmxBr mul_mx_scalar.
Qed.

(** *** the cavity pencil *)
Lemma double_curlE : double_curl S = M1 S *m (K *m C).
Proof. by rewrite /double_curl dd1L /L1 addrNK. Qed.
Lemma D0E : D0 S = M1 S *m G. Proof. by rewrite /strong_grad /solve mulKVmx. Qed.
Lemma mul3 n m p q (A : 'M[F]_(n, m)) (B : 'M[F]_(m, p)) (E : 'M[F]_(p, m)) (u : 'M[F]_(m, q)) : A *m (B *m E) *m u = A *m (B *m (E *m u)).
Proof. by rewrite -!mulmxA. Qed.
Lemma mul2 n m p q (A : 'M[F]_(n, m)) (B : 'M[F]_(m, p)) (u : 'M[F]_(p, q)) : A *m B *m u = A *m (B *m u).
Proof. by rewrite mulmxA. Qed.
Lemma saddle_split (l : F) (u : 'cV[F]_(rk S K1)) (p : 'cV[F]_(rk S K0)) :
  script_Q S *m col_mx u p = l *: (saddle_mass S *m col_mx u p) <->
  M1 S *m (K *m (C *m u)) + M1 S *m (G *m p) = l *: (M1 S *m u) /\ W *m u = 0.
Proof.
rewrite /script_Q /saddle /saddle_mass !mul_block_col !mul0mx !addr0 double_curlE scale_col_mx scaler0 D0E.
have -> : (M1 S *m G)^T *m u = - (M0 S *m (W *m u)).
  by rewrite [M0 S *m _]mulmxA MW mulNmx opprK trmx_mul (proj1 (ok_M1 OK)).
rewrite mul3 mul2; split=> [/eq_col_mx [-> /eqP]|[-> ->]]; last by rewrite mulmx0 oppr0.
by rewrite oppr_eq0 => /eqP E; split=> //; rewrite -[W *m u](mulKmx U0) E mulmx0.
Qed.
Lemma grad_wdiv0 (p : 'cV[F]_(rk S K0)) : W *m (G *m p) = 0 -> G *m p = 0.
Proof.
move=> H; apply: (spd_eq0 (ok_M1 OK)); have := ok_wdiv OK (G *m p) p; rewrite H form0r => /esym /eqP.
by rewrite oppr_eq0 => /eqP.
Qed.
Lemma saddle_eigen (l : F) (u : 'cV[F]_(rk S K1)) (p : 'cV[F]_(rk S K0)) :
  script_Q S *m col_mx u p = l *: (saddle_mass S *m col_mx u p) <->
  [/\ W *m u = 0, K *m (C *m u) = l *: u & G *m p = 0].
Proof.
rewrite saddle_split; split=> [[E Wu]|[Wu E Gp]]; last by rewrite E Gp mulmx0 addr0 -scalemxAr.
have E' : K *m (C *m u) + G *m p = l *: u.
  by apply: (can_inj (mulKmx U1)); rewrite mulmxDr E scalemxAr.
have Gp : G *m p = 0.
  apply: grad_wdiv0; have := congr1 (mulmx W) E'; rewrite mulmxDr mulmxA WK mul0mx add0r => ->.
  by rewrite -scalemxAr Wu scaler0.
by split=> //; rewrite -E' Gp addr0.
Qed.
Lemma saddle_complex (l m : F) (u v : 'cV[F]_(rk S K1)) (p q : 'cV[F]_(rk S K0)) :
  complex_eigenpair (script_Q S) (saddle_mass S) l m (col_mx u p) (col_mx v q) ->
  [/\ G *m p = 0, G *m q = 0, m * (form (M1 S) u u + form (M1 S) v v) = 0, W *m u = 0 & W *m v = 0].
Proof.
case=> _ Hx Hy.
have QT : (script_Q S)^T = script_Q S.
  rewrite /script_Q /saddle tr_block_mx trmxK trmx0; congr block_mx.
  have -> : double_curl S = C^T *m M2 S *m C by rewrite double_curlE mulmxA MK.
  by apply: congrT; case: (ok_M2 OK).
have PT : (saddle_mass S)^T = saddle_mass S by rewrite /saddle_mass tr_block_mx !trmx0 (proj1 (ok_M1 OK)).
have E := sym_real QT PT Hx Hy.
have fP (a : 'cV[F]_(rk S K1)) (b : 'cV[F]_(rk S K0)) : form (saddle_mass S) (col_mx a b) (col_mx a b) = form (M1 S) a a.
  by rewrite /form /saddle_mass -mulmxA mul_block_col !mul0mx !addr0 tr_col_mx mul_row_col mulmx0 addr0 mulmxA.
rewrite !fP in E.
move: Hx Hy; rewrite /script_Q /saddle /saddle_mass !mul_block_col !mul0mx !addr0 double_curlE !scale_col_mx !scaler0 D0E.
rewrite opp_col_mx !add_col_mx oppr0 addr0.
have tW (z : 'cV[F]_(rk S K1)) : (M1 S *m G)^T *m z = - (M0 S *m (W *m z)).
  by rewrite [M0 S *m _]mulmxA MW mulNmx opprK trmx_mul (proj1 (ok_M1 OK)).
rewrite !tW => /eq_col_mx [Eu /eqP Wu] /eq_col_mx [Ev /eqP Wv].
have W0 z : - (M0 S *m (W *m z)) == 0 -> W *m z = 0 :> 'cV_(rk S K0).
  by rewrite oppr_eq0 => /eqP e; rewrite -[W *m z](mulKmx U0) e mulmx0.
move/W0: Wu => Wu; move/W0: Wv => Wv.
have Eu' : K *m (C *m u) + G *m p = l *: u - m *: v.
  by apply: (can_inj (mulKmx U1)); rewrite mulmxDr mulmxBr -!scalemxAr -Eu !mulmxA.
have Ev' : K *m (C *m v) + G *m q = m *: u + l *: v.
  by apply: (can_inj (mulKmx U1)); rewrite !mulmxDr -!scalemxAr -Ev !mulmxA.
split=> //; apply: grad_wdiv0.
  have := congr1 (mulmx W) Eu'; rewrite mulmxDr mulmxBr mulmxA WK mul0mx add0r => ->.
  by rewrite -!scalemxAr Wu Wv !scaler0 subr0.
have := congr1 (mulmx W) Ev'; rewrite !mulmxDr mulmxA WK mul0mx add0r => ->.
by rewrite -!scalemxAr Wu Wv !scaler0 addr0.
Qed.
Lemma curlcurl_ge0 (u : 'cV[F]_(rk S K1)) : form (M1 S) u (K *m (C *m u)) = form (M2 S) (C *m u) (C *m u).
Proof. by rewrite (ok_wcurl OK). Qed.

(** *** multiplicities of the cavity pencil *)
Lemma saddle_kernel (l : F) (u : 'cV[F]_(rk S K1)) (p : 'cV[F]_(rk S K0)) :
  (script_Q S - l *: saddle_mass S) *m col_mx u p = 0 <-> [/\ W *m u = 0, K *m (C *m u) = l *: u & G *m p = 0].
Proof.
rewrite -saddle_eigen mulmxBl -scalemxAl; split=> [/eqP|->]; last by rewrite subrr.
by rewrite subr_eq0 => /eqP.
Qed.
Lemma cavity_kernel (l : F) (B : 'M[F]_(rk S K1)) : (forall p : 'cV[F]_(rk S K0), G *m p = 0 -> p = 0) ->
  (forall u : 'cV[F]_(rk S K1), B *m u = 0 <-> W *m u = 0 /\ K *m (C *m u) = l *: u) ->
  multiplicity (script_Q S) (saddle_mass S) l = dimker B.
Proof.
move=> HG HB; rewrite /multiplicity -/(dimker _).
apply: (@dimker_iso _ _ _ _ _ (row_mx 1%:M 0) (col_mx 1%:M 0)) => x.
- rewrite -[x]vsubmxK; move: (usubmx x) (dsubmx x) => u p.
  rewrite saddle_kernel mul_row_col mul1mx mul0mx addr0 mul_col_mx mul1mx mul0mx => -[Wu Ku Gp]; split.
    by apply/HB.
  by rewrite (HG _ Gp).
- move=> /HB [Wx Kx]; rewrite mul_col_mx mul1mx mul0mx saddle_kernel mulmx0; split; first by split.
  by rewrite mul_row_col mul1mx mul0mx addr0.
Qed.
Lemma cavity_mult (l : F) : (forall p : 'cV[F]_(rk S K0), G *m p = 0 -> p = 0) -> l != 0 ->
  multiplicity (script_Q S) (saddle_mass S) l = dimker (K *m C - l%:M).
Proof.
move=> HG Hl; apply: (cavity_kernel HG) => u; rewrite eigE -mulmxA; split=> [H|[]] //; split=> //.
have WKz (z : 'cV[F]_(rk S K2)) : W *m (K *m z) = 0 by rewrite mulmxA WK mul0mx.
by rewrite -[u]scale1r -(mulVf Hl) -scalerA -H -scalemxAr WKz scaler0.
Qed.
Lemma dd1_ker (u : 'cV[F]_(rk S K1)) : dd1 S *m u = 0 <-> W *m u = 0 /\ C *m u = 0.
Proof.
split=> [H|[Wu Cu]]; last by rewrite dd1L /L1 mulmxBl (mul2 K) (mul2 G) Cu Wu !mulmx0 subrr.
have : form (M1 S) u (dd1 S *m u) = 0 by rewrite H form0r.
rewrite -form_mulr M1L form_add (mul2 C^T) (mul2 W^T) !form_mull (form_mulr (M2 S)) (form_mulr (M0 S)) => /eqP.
rewrite paddr_eq0 ?spd_ge0 //; try solve [exact: ok_M0 OK | exact: ok_M2 OK].
by move=> /andP [/eqP E1 /eqP E2]; rewrite (spd_eq0 (ok_M2 OK) E1) (spd_eq0 (ok_M0 OK) E2).
Qed.
Lemma curlcurl0 (u : 'cV[F]_(rk S K1)) : K *m (C *m u) = 0 -> C *m u = 0.
Proof. by move=> H; apply: (spd_eq0 (ok_M2 OK)); rewrite -curlcurl_ge0 H form0r. Qed.
Lemma cavity_mult0 : (forall p : 'cV[F]_(rk S K0), G *m p = 0 -> p = 0) ->
  multiplicity (script_Q S) (saddle_mass S) 0 = dimker (dd1 S).
Proof.
move=> HG; apply: (cavity_kernel HG) => u; rewrite dd1_ker scale0r; split=> -[-> H]; split=> //; first by rewrite H mulmx0.
exact: curlcurl0.
Qed.
Lemma dd0_ker (p : 'cV[F]_(rk S K0)) : dd0 S *m p = 0 <-> G *m p = 0.
Proof.
split=> [H|H]; last by rewrite dd0L /L0 mulNmx (mul2 W) H mulmx0 oppr0.
apply: (spd_eq0 (ok_M1 OK)); rewrite -form_mulr -form_mull mulmxA -H0 form_mulr H form0r //.
Qed.
End Seq.
