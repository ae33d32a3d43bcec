(** Operator bounds in the L2 norm of the 2-forms (finite dimension). *)
From Coq Require Import Ring Field.
From mathcomp Require Import all_ssreflect all_algebra.
From Verif Require Import Model.Forms Model.DeRham Model.Geometry Model.Relaxation Spec.GeomSpec Spec.SeqSpec Spec.RelaxSpec
  Proof.MCRing Proof.SequenceAlg Proof.DeRhamAlg Proof.GeometryProofs Proof.ProjectionProofs Proof.RelaxAlg Proof.RelaxLoop Proof.RelaxRun
  Proof.RelaxProgress Proof.SpectrumSeq Proof.ForceAlg.
Set Implicit Arguments.
Unset Strict Implicit.
Unset Printing Implicit Defensive.
Import Order.TTheory GRing.Theory Num.Theory.
Local Open Scope ring_scope.

Section Bound.
Variable F : realFieldType.
Variable sqrt_ : F -> F.
Variables (S : drseq F) (pinv : 'M[F]_(rk S K3)).
Hypothesis OK : relax_ok S pinv.
Hypothesis Hsq : is_sqrt sqrt_.
Notation PL := (P_Leray S pinv).
Notation vec1 := 'cV[F]_(rk S K1).
Notation vec2 := 'cV[F]_(rk S K2).
Notation nrm := (norm_2 sqrt_).
Notation lin2 f := (forall a (u v : vec2), f (a *: u + v) = a *: f u + f v).

Lemma nrm0 : nrm (0 : vec2) = 0.
Proof. by rewrite /norm_2 mulmx0 mxE (sqrt0 Hsq). Qed.
Lemma nrmZn a (x : vec2) : nrm (a *: x) = `|a| * nrm x.
Proof.
case: (lerP 0 a) => H; first by rewrite ger0_norm //; exact: (nrmZ OK Hsq).
have E : a *: x = - ((- a) *: x) by rewrite scaleNr opprK.
rewrite E nrmN ler0_norm ?ltW //; apply: (nrmZ OK Hsq); by rewrite oppr_ge0 ltW.
Qed.
Lemma nrm_sum (I : Type) (r : seq I) (g : I -> vec2) : nrm (\sum_(i <- r) g i) <= \sum_(i <- r) nrm (g i).
Proof.
elim: r => [|i r IH]; first by rewrite !big_nil nrm0.
by rewrite !big_cons; apply: le_trans (nrm_triangle OK Hsq _ _) _; rewrite ler_add2l.
Qed.
Definition zc (i : 'I_(rk S K2)) : vec2 := solve (M2 S) (delta_mx i 0).
Lemma coord (x : vec2) i : `|x i 0| <= nrm (zc i) * nrm x.
Proof.
have E : x i 0 = form (M2 S) (zc i) x.
  have [-> _] := form_solve (delta_mx i 0) x (proj1 (ok_M2 OK)) (spd_unit (ok_M2 OK)).
  rewrite /dotv trmx_delta mxE (bigD1 i) //= big1 => [|j Hj]; rewrite !mxE ?eqxx ?mul1r ?addr0 //.
  by rewrite (negbTE Hj) andbF mul0r.
rewrite ler_norml; apply/andP; split; last by rewrite E; apply: (nrm_CS OK).
by rewrite ler_oppl E -formNr -(nrmN sqrt_ x); apply: (nrm_CS OK).
Qed.
Lemma vec_sum (u : vec2) : u = \sum_j u j 0 *: delta_mx j 0.
Proof. by rewrite {1}[u]matrix_sum_delta; apply: eq_bigr => i _; rewrite big_ord1. Qed.
Lemma lin0 (f : vec2 -> vec2) : lin2 f -> f 0 = 0.
Proof. by move=> Hf; have := Hf (-1) 0 0; rewrite scaler0 addr0 scaleN1r addNr. Qed.
Lemma lin_sum (f : vec2 -> vec2) : lin2 f -> forall u, f u = \sum_j u j 0 *: f (delta_mx j 0).
Proof.
move=> Hf u; rewrite {1}(vec_sum u).
have fs (I : Type) (r : seq I) (P : pred I) (a : I -> F) (g : I -> vec2) : f (\sum_(i <- r | P i) a i *: g i) = \sum_(i <- r | P i) a i *: f (g i).
  by elim/big_rec2: _ => [|i x y _ <-]; [exact: lin0 | rewrite Hf].
exact: fs.
Qed.
Definition linK (f : vec2 -> vec2) : F := \sum_j nrm (zc j) * nrm (f (delta_mx j 0)).
Lemma linK_ge0 f : 0 <= linK f.
Proof. by apply: sumr_ge0 => j _; apply: mulr_ge0; apply: (nrm_ge0 OK). Qed.
Lemma lin_bound (f : vec2 -> vec2) : lin2 f -> forall x, nrm (f x) <= linK f * nrm x.
Proof.
move=> Hf x; rewrite (lin_sum Hf); apply: le_trans (nrm_sum _ _) _.
rewrite /linK mulr_suml; apply: ler_sum => j _; rewrite nrmZn mulrAC.
by apply: ler_wpmul2r; [apply: (nrm_ge0 OK) | apply: coord].
Qed.
Definition bilK (f : vec2 -> vec2 -> vec2) : F := \sum_j nrm (zc j) * linK (f (delta_mx j 0)).
Lemma bilK_ge0 f : 0 <= bilK f.
Proof. by apply: sumr_ge0 => j _; apply: mulr_ge0; [apply: (nrm_ge0 OK) | apply: linK_ge0]. Qed.
Lemma bil_bound (f : vec2 -> vec2 -> vec2) : (forall y, lin2 (f^~ y)) -> (forall x, lin2 (f x)) ->
  forall x y, nrm (f x y) <= bilK f * (nrm x * nrm y).
Proof.
move=> Hl Hr x y; rewrite (lin_sum (Hl y)); apply: le_trans (nrm_sum _ _) _.
rewrite /bilK mulr_suml; apply: ler_sum => j _; rewrite nrmZn.
apply: (@le_trans _ _ (nrm (zc j) * nrm x * (linK (f (delta_mx j 0)) * nrm y))).
  by apply: ler_pmul; rewrite ?normr_ge0 ?(nrm_ge0 OK Hsq) ?coord ?lin_bound.
by rewrite mulrACA.
Qed.

(** the operators of the midpoint map *)
Definition op_ind (u b : vec2) : vec2 := strong_curl S *m solve (M1 S) (P2x1_to_1 u (P12 S *m b)).
Definition op_res (b : vec2) : vec2 := strong_curl S *m (weak_curl S *m b).
Definition op_force (ff : bool) (b b' : vec2) : vec2 :=
  let f := solve (M2 S) (P1x1_to_2 (weak_curl S *m b) (P12 S *m b')) in if ff then f else PL *m f.
Lemma lin_mul n m (A : 'M[F]_(n, m)) a (u v : 'cV[F]_m) : A *m (a *: u + v) = a *: (A *m u) + A *m v.
Proof. by rewrite mulmxDr -scalemxAr. Qed.
Lemma lin_solve n (A : 'M[F]_n) a (u v : 'cV[F]_n) : solve A (a *: u + v) = a *: solve A u + solve A v.
Proof. exact: lin_mul. Qed.
Lemma P1x1_linl a (u u' H : vec1) : P1x1_to_2 (a *: u + u') H = a *: P1x1_to_2 u H + P1x1_to_2 u' H.
Proof. by rewrite /P1x1_to_2 (@cpp_linl _ S K2 K1 K1 a u u' H _ _ erefl erefl). Qed.
Lemma P1x1_linr a (u H H' : vec1) : P1x1_to_2 u (a *: H + H') = a *: P1x1_to_2 u H + P1x1_to_2 u H'.
Proof. by rewrite /P1x1_to_2 (@cpp_linr _ S K2 K1 K1 a u H H' _ _ erefl erefl). Qed.
Lemma op_ind_l b : lin2 (op_ind^~ b).
Proof. by move=> a u v; rewrite /op_ind P2x1_linl lin_solve lin_mul. Qed.
Lemma op_ind_r u : lin2 (op_ind u).
Proof. by move=> a b v; rewrite /op_ind [X in P2x1_to_1 u X]lin_mul P2x1_linr lin_solve lin_mul. Qed.
Lemma op_res_lin : lin2 op_res.
Proof. by move=> a b v; rewrite /op_res [X in strong_curl S *m X]lin_mul lin_mul. Qed.
Lemma op_force_l ff b : lin2 ((op_force ff)^~ b).
Proof. by move=> a u v; rewrite /op_force [X in P1x1_to_2 X]lin_mul P1x1_linl lin_solve; case: ff => //; rewrite lin_mul. Qed.
Lemma op_force_r ff b : lin2 (op_force ff b).
Proof. by move=> a u v; rewrite /op_force [X in P1x1_to_2 _ X]lin_mul P1x1_linr lin_solve; case: ff => //; rewrite lin_mul. Qed.
Lemma smooth_lin g : lin2 (smooth g).
Proof. by elim: g => [//|g IH] a u v; rewrite /smooth !iterS -!/(smooth g _) IH lin_solve. Qed.
Lemma A_iter_lin g : lin2 (iter g (@mulmx F _ _ 1 (1%:M + dd2 S))).
Proof. by elim: g => [//|g IH] a u v; rewrite !iterS IH lin_mul. Qed.

Variable lstsq : 'M[F]_(rk S K2) -> vec2 -> vec2.
Variable ts : stepper F.
Hypothesis Hnewton : newton ts = false.
Notation mu := (mid_u pinv lstsq ts).
Notation mf := (mid_f pinv ts).
Definition Kmid : F := 1 + bilK op_ind + linK op_res
  + linK (smooth (gamma ts)) * bilK (op_force (force_free ts)) + linK (iter (gamma ts) (@mulmx F _ _ 1 (1%:M + dd2 S))).
Let K1_ := linK_ge0. Let K2_ := bilK_ge0.
Lemma Kmid_parts : [/\ 1 <= Kmid, bilK op_ind <= Kmid, linK op_res <= Kmid,
   linK (smooth (gamma ts)) * bilK (op_force (force_free ts)) <= Kmid & linK (iter (gamma ts) (@mulmx F _ _ 1 (1%:M + dd2 S))) <= Kmid].
Proof.
have Ha := K2_ op_ind. have Hb := K1_ op_res.
have Hc : 0 <= linK (smooth (gamma ts)) * bilK (op_force (force_free ts)) by apply: mulr_ge0.
have Hd := K1_ (iter (gamma ts) (@mulmx F _ _ 1 (1%:M + dd2 S))).
have G (a b c d : F) : 0 <= a -> 0 <= b -> 0 <= c -> 0 <= d -> [/\ 1 <= 1 + a + b + c + d, a <= 1 + a + b + c + d,
  b <= 1 + a + b + c + d, c <= 1 + a + b + c + d & d <= 1 + a + b + c + d].
  move=> {}Ha {}Hb {}Hc {}Hd; have H1 : (0 : F) <= 1 := ler01.
  have S1 : 0 <= 1 + a by exact: addr_ge0.
  have S2 : 0 <= 1 + a + b by exact: addr_ge0.
  have S3 : 0 <= 1 + a + b + c by exact: addr_ge0.
  by split; [do 4!(apply: ler_paddr => //) | do 3!(apply: ler_paddr => //); apply: ler_paddl
   | do 2!(apply: ler_paddr => //); apply: ler_paddl | apply: ler_paddr => //; apply: ler_paddl | apply: ler_paddl].
exact: G.
Qed.
Lemma Kmid_ge0 : 0 <= Kmid. Proof. by have [H _ _ _ _] := Kmid_parts; apply: le_trans H; apply: ler01. Qed.
Lemma bound_ind u b : nrm (op_ind u b) <= Kmid * (nrm u * nrm b).
Proof.
have [_ H _ _ _] := Kmid_parts; apply: le_trans (bil_bound op_ind_l op_ind_r u b) _.
by apply: ler_wpmul2r => //; apply: mulr_ge0; apply: (nrm_ge0 OK).
Qed.
Lemma bound_res b : nrm (op_res b) <= Kmid * nrm b.
Proof.
have [_ _ H _ _] := Kmid_parts; apply: le_trans (lin_bound op_res_lin b) _.
by apply: ler_wpmul2r => //; apply: (nrm_ge0 OK).
Qed.
Lemma mid_fE st : mf st = op_force (force_free ts) (Bmid st) (Bmid st).
Proof. by []. Qed.
Lemma mid_uE st : mu st = smooth (gamma ts) (mf st).
Proof. by rewrite /mid_u Hnewton. Qed.
Lemma bound_u st : nrm (mu st) <= Kmid * (nrm (Bmid st) * nrm (Bmid st)).
Proof.
have [_ _ _ H _] := Kmid_parts; rewrite mid_uE mid_fE.
apply: le_trans (lin_bound (@smooth_lin _) _) _.
apply: (@le_trans _ _ (linK (smooth (gamma ts)) * (bilK (op_force (force_free ts)) * (nrm (Bmid st) * nrm (Bmid st))))).
  by apply: ler_wpmul2l; [exact: linK_ge0 | apply: bil_bound; [apply: op_force_l | apply: op_force_r]].
rewrite mulrA; apply: ler_wpmul2r => //; apply: mulr_ge0; apply: (nrm_ge0 OK Hsq).
Qed.
Lemma bound_f st : nrm (mf st) <= Kmid * nrm (mu st).
Proof.
have [_ _ _ _ H] := Kmid_parts; rewrite mid_uE -{1}(smooth_inv OK (gamma ts) (mf st)).
apply: le_trans (lin_bound (@A_iter_lin _) _) _.
by apply: ler_wpmul2r => //; apply: (nrm_ge0 OK).
Qed.
(** the increment of one evaluation *)
Lemma incrE st : B_nplus1 pinv lstsq ts st - B_n st = dt_ st *: (op_ind (mu st) (Bmid st) - eta st *: op_res (Bmid st)).
Proof. by rewrite /B_nplus1 addrAC subrr add0r /mid_E mulmxBr -scalemxAr. Qed.
Lemma bound_rate st : 0 <= eta st ->
  nrm (op_ind (mu st) (Bmid st) - eta st *: op_res (Bmid st)) <= Kmid * (nrm (mu st) * nrm (Bmid st)) + eta st * (Kmid * nrm (Bmid st)).
Proof.
move=> He; apply: le_trans (nrm_triangle OK Hsq _ _) _; rewrite nrmN; apply: ler_add; first exact: bound_ind.
by rewrite (nrmZ OK Hsq) //; apply: ler_wpmul2l => //; apply: bound_res.
Qed.
End Bound.
