(** Property theorems C87: the spectral self-checks hold on every supported sequence. *)
From Coq Require Import Reals Lra.
From mathcomp Require Import all_ssreflect all_algebra zify.
From Verif Require Import Model.RBase Model.Spline Model.Quad Model.Forms Model.DeRham Model.FormEval Model.Geometry Model.SeqR Model.Relaxation Model.SpectralCheck.
From Verif Require Import Spec.SeqSpec Spec.SeqRSpec Spec.RelaxSpec.
From Verif Require Import Proof.RField Proof.SequenceAlg Proof.DeRhamAlg Proof.SeqFacts Proof.MassSPD Proof.GeometryProofs Proof.SeqRProofs Proof.ProjectionProofs Proof.SeqCalculus
  Props.DeRham Props.SequenceR Props.Relaxation Props.Topology.
Set Implicit Arguments.
Unset Strict Implicit.
Unset Printing Implicit Defensive.
Import Order.TTheory GRing.Theory Num.Theory.
Local Open Scope ring_scope.

Section Generic.
Variables (F : realFieldType) (n : nat) (M D : 'M[F]_n) (null : bool).
Hypotheses (Msym : M^T = M) (MU : M \in unitmx).
Hypothesis (sa : forall x y : 'cV_n, form M x (D *m y) = form M (D *m x) y).
Hypothesis (psd : forall x : 'cV_n, 0 <= form M x (D *m x)).
Hypothesis (Hnull : D \in unitmx <-> null = false).
Lemma normsq_gt0 (v : 'cV[F]_n) : v != 0 -> 0 < (v^T *m v) 0 0.
Proof.
move=> Hv; have Hs i : 0 <= v^T 0 i * v i 0 by rewrite mxE -expr2 sqr_ge0.
rewrite lt_neqAle mxE sumr_ge0 // andbT eq_sym; apply: contra Hv => /eqP/psumr_eq0P H.
apply/eqP/matrixP => i j; rewrite (ord1 j) !mxE.
by have /eqP := H (fun i _ => Hs i) i isT; rewrite mxE mulf_eq0 orbb => /eqP.
Qed.
Lemma Asym : (M *m D)^T = M *m D.
Proof.
apply/matrixP => i j; rewrite mxE.
have E (X : 'M[F]_n) k l : X k l = ((delta_mx k 0 : 'cV[F]_n)^T *m X *m (delta_mx l 0 : 'cV[F]_n)) 0 0.
  rewrite trmx_delta -rowE [RHS]mxE (bigD1 l) //= big1 ?addr0 => [|a /negPf Ha]; first by rewrite !mxE !eqxx mulr1.
  by rewrite !mxE Ha mulr0.
have H := sa (delta_mx j 0) (delta_mx i 0).
have H1 : form M (delta_mx j 0) (D *m delta_mx i 0) = (M *m D) j i by rewrite /form [RHS]E !mulmxA.
have H2 : form M (D *m delta_mx j 0) (delta_mx i 0) = (D^T *m M) j i by rewrite /form [RHS]E trmx_mul !mulmxA.
by rewrite -H1 H H2 -{1}Msym -trmx_mul mxE.
Qed.
Lemma sym_part : 2%:R^-1 *: (M *m D + (M *m D)^T) = M *m D.
Proof. by rewrite Asym -mulr2n -scaler_nat scalerA mulVf ?scale1r // pnatr_eq0. Qed.
Lemma generic_check : check_passes (M *m D) null.
Proof.
rewrite /check_passes /in_eigvalsh sym_part; split.
  move=> lam [v Hv E]; have := psd v; rewrite /form -mulmxA [M *m _]mulmxA E -scalemxAr mxE.
  by rewrite pmulr_lge0 // normsq_gt0.
split=> [[v Hv E]|Hn].
  case Enull: null => //; have DU : D \in unitmx by apply/Hnull.
  move: E; rewrite scale0r => E; case/negP: Hv.
  by rewrite -[v](mulKmx (_ : M *m D \in unitmx)) ?unitmx_mul ?MU ?DU // E mulmx0.
have : M *m D \notin unitmx.
  by rewrite unitmx_mul MU /=; apply/negP => /Hnull; rewrite Hn.
rewrite -row_free_unit -kermx_eq0 => /rowV0Pn [u Hu Hu0]; exists u^T; first by rewrite trmx_eq0.
by rewrite scale0r -Asym -trmx_mul (sub_kermxP Hu) trmx0.
Qed.
End Generic.

Section Seq.
Variables (ns ps : triple) (q : nat) (types : stype * stype * stype) (DFx : point -> mat3 R_realFieldType)
  (polar dirichlet : bool).
Hypothesis Hs : supported ns ps q types polar dirichlet.
Hypothesis Hreg : regular_map DFx (seq_points ns ps q types).
Variable S : drseq R_realFieldType.
Hypothesis HS : new_sequence ns ps q types DFx polar dirichlet = Some S.

(** all four combinations of axis and boundary condition: the null pattern of a hollow domain has all of k = 1, 2 *)
Theorem C87_spectra :
  [/\ check_passes (M0 S *m dd0 S) (~~ dirichlet),
      check_passes (M1 S *m dd1 S) (~~ (polar && dirichlet)),
      check_passes (M2 S *m dd2 S) (~~ (polar && ~~ dirichlet))
    & check_passes (M3 S *m dd3 S) dirichlet].
Proof.
have [[Y0 _] [Y1 _] [Y2 _] [Y3 _]] := C26_sequence Hs Hreg HS.
have [K_0 K_1 K_2 K_3] := C27_sequence Hs Hreg HS.
have [I0 I1 I2 I3] := C58_sequence_invertible Hs Hreg HS.
have [U0 U1 U2 U3] : masses_invertible S.
  by have [f [Q [_ _ _ _ [_ _ _ HM]]]] := seq_summary Hs Hreg HS.
have [A0 A1 A2 A3] : [/\ forall x y, form (M0 S) x (dd0 S *m y) = form (M0 S) (dd0 S *m x) y,
      forall x y, form (M1 S) x (dd1 S *m y) = form (M1 S) (dd1 S *m x) y,
      forall x y, form (M2 S) x (dd2 S *m y) = form (M2 S) (dd2 S *m x) y
    & forall x y, form (M3 S) x (dd3 S *m y) = form (M3 S) (dd3 S *m x) y].
  have [f [Q [E Hadm _ _ [HG HR HO HM]]]] := seq_summary Hs Hreg HS.
  by have Hsym := geometry_of_sym HG HR; move: HM Hsym; rewrite E => HM Hsym; apply: (C27_selfadjoint Hadm HM Hsym).
split; apply: generic_check => //.
- by move=> x; have [] := K_0 x.
- by rewrite I0; case: (dirichlet).
- by move=> x; have [] := K_1 x.
- by rewrite I1; case: (polar && dirichlet).
- by move=> x; have [] := K_2 x.
- by rewrite I2; case: (polar && ~~ dirichlet).
- by move=> x; have [] := K_3 x.
Qed.

(** with a polar axis the patterns are those the tests and scripts expect *)
Theorem C87_tests_pass : polar -> let should_be_zero := nth false (expected_nulls dirichlet) in
  [/\ check_passes (M0 S *m dd0 S) (should_be_zero 0%N), check_passes (M1 S *m dd1 S) (should_be_zero 1%N),
      check_passes (M2 S *m dd2 S) (should_be_zero 2%N) & check_passes (M3 S *m dd3 S) (should_be_zero 3%N)]
  /\ (strong_curl S *m strong_grad S = 0 /\ strong_div S *m strong_curl S = 0).
Proof.
move=> Hp z; split; last exact: (C24_sequence_complex Hs Hreg HS).
by have := C87_spectra; rewrite Hp /z; case: (dirichlet).
Qed.
End Seq.
Print Assumptions C87_spectra.
Print Assumptions C87_tests_pass.

(** the hypotheses are met *)
Example C87_nonvacuous : exists S : drseq R_realFieldType,
  [/\ new_sequence (8, 8, 1)%N (3, 3, 0)%N 4 (Clamped, Periodic, Constant) (fun _ => id33) true true = Some S,
      in_eigvalsh (M2 S *m dd2 S) 0 & ~ in_eigvalsh (M0 S *m dd0 S) 0].
Proof.
have [H1 _ H3 _ _] := SequenceR_nonvacuous.
have [S HS] := C26_constructor_total H1 (H3 _); exists S.
have [[[_ Z0] _ [_ Z2] _] _] := C87_tests_pass H1 (H3 _) HS isT.
by split=> //; [apply/Z2 | move/Z0].
Qed.
