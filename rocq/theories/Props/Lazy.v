(** C60: the lazily assembled matrices (mrx/lazy_matrices.py), which differentiate the basis
    functions automatically and apply the Jacobian pointwise, agree with the matrices that
    DeRhamSequence assembles from its tables. *)
From Coq Require Import Reals Lra.
From Coquelicot Require Import Coquelicot.
From mathcomp Require Import all_ssreflect all_algebra zify.
From Verif Require Import Model.RBase Model.Spline Model.Quad Model.Forms Model.DeRham Model.FormEval Model.Geometry Model.SeqR Model.Lazy.
From Verif Require Import Spec.SeqSpec Spec.FormSpec Spec.GeomSpec Spec.SeqRSpec Spec.CalculusSpec.
From Verif Require Import Proof.RField Proof.GeometryProofs Proof.ProjectionProofs Proof.IndexLemmas Proof.SeqFacts Proof.SequenceAlg Proof.DeRhamAlg Proof.MassSPD Proof.FormEvalProofs Proof.SeqRProofs Proof.SeqDeriv
  Proof.SeqCalculus Proof.Limits Proof.LazyProofs Props.DeRham Props.SequenceR.
Set Implicit Arguments.
Unset Strict Implicit.
Unset Printing Implicit Defensive.
Import Order.TTheory GRing.Theory Num.Theory.
Local Open Scope ring_scope.

Section Seq.
Variables (ns ps : triple) (q : nat) (types : stype * stype * stype) (DFx : point -> mat3 R_realFieldType)
  (polar dirichlet : bool).
Hypothesis Hs : supported ns ps q types polar dirichlet.
Hypothesis Hreg : regular_map DFx (seq_points ns ps q types).
Variable S : drseq R_realFieldType.
Hypothesis HS : new_sequence ns ps q types DFx polar dirichlet = Some S.
(** the form objects Lambda_k and the quadrature rule of the sequence *)
Variable (f_ : deg -> dform) (Q : quadrule).
Hypothesis Hf : forall k, DifferentialForm k ns ps types = Some (f_ k).
Hypothesis HQ : QuadratureRule (f_L0 (f_ K0)) (f_L1 (f_ K0)) (f_L2 (f_ K0)) q = Some Q.

Lemma same_rule k f : DifferentialForm k ns ps types = Some f -> QuadratureRule (f_L0 f) (f_L1 f) (f_L2 f) q = Some Q.
Proof.
move=> Hk; have := Hf K0; move: Hk HQ; rewrite /DifferentialForm.
case: (ns) => [[n0 n1] n2]; case: (ps) => [[p0 p1] p2]; case: (types) => [[t0 t1] t2].
case: (new_spline n0 p0 t0) => [l0|] //; case: (new_spline n1 p1 t1) => [l1|] //; case: (new_spline n2 p2 t2) => [l2|] //.
by case: (new_deriv l0) => [d0|] //; case: (new_deriv l1) => [d1|] //; case: (new_deriv l2) => [d2|] // [<-] HQ0 [E]; rewrite -E in HQ0.
Qed.

Lemma f_sh k : f_shape (f_ k) = sh S.
Proof.
have [f' [Q' [-> _ [Hf' _] _ _]]] := seq_summary Hs Hreg HS.
have -> : f_shape (f_ k) = f_shape f'.
  have := Hf k; move: Hf'; rewrite /DifferentialForm.
  case: (ns) => [[n0 n1] n2]; case: (ps) => [[p0 p1] p2]; case: (types) => [[t0 t1] t2].
  case: (new_spline n0 p0 t0) => [l0|] //; case: (new_spline n1 p1 t1) => [l1|] //; case: (new_spline n2 p2 t2) => [l2|] //.
  by case: (new_deriv l0) => [d0|] //; case: (new_deriv l1) => [d1|] //; case: (new_deriv l2) => [d2|] // [<-] [<-].
by rewrite /DeRhamSequence; case: (polar).
Qed.
(** the extraction matrices have as many columns as the forms have basis functions *)
Theorem C60_dimensions : forall k, f_n (f_ k) = fdim (sh S) k.
Proof. by move=> k; rewrite /f_n f_sh; have [-> _ _ _] := DF_inv (Hf k). Qed.

(** LazyMassMatrix(Lambda_k, Q, F, E_k).matrix() is M_k *)
Theorem C60_mass : forall k, k <> KV -> LazyMassMatrix Q DFx (f_ k) (E_ S k) = mass S k.
Proof. by move=> k; apply: (lazy_mass Hs Hreg HS same_rule). Qed.

(** LazyDerivativeMatrix(Lambda_k, Lambda_{k+1}, Q, F, E_k, E_{k+1}).matrix() is D_k *)
Theorem C60_derivative :
  [/\ LazyDerivativeMatrix Q DFx (f_ K0) (f_ K1) (E_ S K0) (E_ S K1) = Some (D0 S),
      LazyDerivativeMatrix Q DFx (f_ K1) (f_ K2) (E_ S K1) (E_ S K2) = Some (D1 S)
    & LazyDerivativeMatrix Q DFx (f_ K2) (f_ K3) (E_ S K2) (E_ S K3) = Some (D2 S)].
Proof.
have [f [Q' [_ _ _ _ [_ _ _ [U0 U1 U2 U3]]]]] := seq_summary Hs Hreg HS.
split.
- by rewrite (lazy_grad Hs Hreg HS same_rule) // /strong_grad /solve mulKVmx.
- by rewrite (lazy_curl Hs Hreg HS same_rule) // /strong_curl /solve mulKVmx.
- by rewrite (lazy_div Hs Hreg HS same_rule) // /strong_div /solve mulKVmx.
Qed.

(** on a 3-form: a zero matrix if both forms have the same dimension, otherwise a shape error *)
Theorem C60_threeform : forall k,
  LazyDerivativeMatrix Q DFx (f_ K3) (f_ k) (E_ S K3) (E_ S k) = if fdim (sh S) K3 == fdim (sh S) k then Some 0 else None.
Proof. by move=> k; rewrite /LazyDerivativeMatrix; have [-> _ _ _] := DF_inv (Hf K3). Qed.

Lemma Q_nq : length (q_x Q) = n_q S /\ forall j, wq Q j = w_j S j.
Proof.
have [A B _] := seq_summary' Hs Hreg HS; have [C D] := Q_pts Hs Hreg HS same_rule.
by rewrite A C; split=> // j; rewrite B /wq D.
Qed.
Lemma comb_getter k (x : 'cV_(rk S k)) j a : k <> KV -> (j < n_q S)%N -> (a < dcomp k)%N ->
  comb (x^T *m E_ S k) (fun i j => form_evaluate (f_ k) (xq Q j) i) j a = fval (GeomSpec.getter S k) (x^T *m E_ S k) j a.
Proof.
move=> Hk Hj Ha; rewrite (comb_field Hs Hreg HS same_rule _ _ _ (Hf k)) -(field_value Hs Hreg HS) //.
by rewrite /form_value /evaluate_at_xq /fval; apply: eq_bigr => i _; rewrite mulrC -[x^T *m _]trmxK trmx_mul trmxK [in LHS]mxE !mxE.
Qed.

(** LazyProjectionMatrix(Lambda_2, Lambda_1, ...) is M12 and LazyProjectionMatrix(Lambda_3,
    Lambda_0, ...) is M03 *)
Theorem C60_projection :
  LazyProjectionMatrix Q 3 (f_ K2) (f_ K1) (E_ S K2) (E_ S K1) = M12 S /\
  LazyProjectionMatrix Q 1 (f_ K3) (f_ K0) (E_ S K3) (E_ S K0) = M03 S.
Proof.
have [En Ew] := Q_nq.
have lin n1 r1 n2 r2 (A : 'M[R_realFieldType]_(n1, n2)) (E1 : 'M_(r1, n1)) (E2 : 'M_(r2, n2)) (x : 'cV_r1) (y : 'cV_r2) :
    x^T *m (E1 *m A *m E2^T) *m y = (x^T *m E1) *m A *m (y^T *m E2)^T by rewrite trmx_mul trmxK !mulmxA.
split; apply: form_ext => x y; rewrite /LazyProjectionMatrix lazy_form En /form /M12 /M03 lin assemble_row.
- apply: eq_bigr => -[j Hj] _; rewrite [nat_of_ord (Ordinal Hj)]/= mulr_suml; apply: eq_bigr => k _.
  rewrite (bigD1 k) //= [X in _ = _ + X]big1 ?addr0; last first.
    by move=> m Hm; rewrite (_ : (_ == _ :> nat) = false) ?mulr0 ?mul0r //; rewrite eq_sym; apply/negbTE.
  rewrite eqxx mulr1 (comb_getter (k := K2)) // (comb_getter (k := K1)) // Ew mul1r.
  move: (fval _ _ _ _) (fval _ _ _ _) => u v.
  by rewrite -mulrA mulrC.
- apply: eq_bigr => -[j Hj] _; rewrite [nat_of_ord (Ordinal Hj)]/= mulr_suml; apply: eq_bigr => k _.
  rewrite (bigD1 k) //= [X in _ = _ + X]big1 ?addr0; last first.
    by move=> m Hm; case/eqP: Hm; apply: val_inj; case: m k => [[|m] Hm] // [[|k] Hk].
  rewrite (comb_getter (k := K3)) // (comb_getter (k := K0)) // Ew mul1r; move: (fval _ _ _ _) (fval _ _ _ _) => u v.
  by rewrite -mulrA mulrC.
Qed.

(** the second-order classes assemble the corresponding parts of the Hodge Laplacians *)
Theorem C60_second_order :
  [/\ LazyStiffnessMatrix Q DFx (f_ K0) (E_ S K0) = M0 S *m dd0 S,
      forall x, form (M1 S) x (dd1 S *m x) = form (LazyDoubleCurlMatrix Q DFx (f_ K1) (E_ S K1) : 'M[R_realFieldType]_(_, _)) x x
                                           + form (M0 S) (weak_div S *m x) (weak_div S *m x)
    & forall x, form (M2 S) x (dd2 S *m x) = form (LazyDoubleDivergenceMatrix Q DFx (f_ K2) (E_ S K2) : 'M[R_realFieldType]_(_, _)) x x
                                           + form (M1 S) (weak_curl S *m x) (weak_curl S *m x)].
Proof.
have [f [Q' [E Hadm _ _ [HG HR HO HM]]]] := seq_summary Hs Hreg HS.
have Hsym := geometry_of_sym HG HR.
rewrite (lazy_stiff Hs Hreg HS same_rule (Hf K0)) (lazy_cc Hs Hreg HS same_rule (Hf K1)) (lazy_dd Hs Hreg HS same_rule (Hf K2)).
move: HM Hsym; rewrite E => HM Hsym.
have [_ E1 E2 _] := C27_energy Hadm HM Hsym.
split.
- have [U0 U1 U2 U3] := HM.
  have [g [c [d [[Hg Hc Hd] _]]]] := seq_derivs (evaluate_1d f Q') (fun j => metric (DFx (List.nth j (q_x Q') (R0, R0, R0))))
     (fun j => inv33 (metric (DFx (List.nth j (q_x Q') (R0, R0, R0))))) (fun j => det33 (DFx (List.nth j (q_x Q') (R0, R0, R0))))
     (fun j => List.nth j (q_w Q') R0) Hadm.
  by rewrite (strong_gradE Hg U1) (M0_dd0 Hg U0).
- by move=> x; rewrite E1 form_congr.
- by move=> x; rewrite E2 form_congr.
Qed.

(** the mass matrix of vector fields (k = -1), which only the lazy classes assemble: the
    quadrature of the dot product of the pushed-forward fields; symmetric, non-negative *)
Theorem C60_vector_mass : forall x y : 'cV_(rk S KV),
  let A := LazyMassMatrix Q DFx (f_ KV) (E_ S KV) : 'M[R_realFieldType]_(_, _) in
  let field u j := pushforward KV (DFx (qpt ns ps q types j)) (fun c => discrete_form ns ps types u c (qpt ns ps q types j)) in
  [/\ form A x y = phys_l2 ns ps q types DFx 3 (field x) (field y), form A x y = form A y x & 0 <= form A x x].
Proof.
have E x y : form (LazyMassMatrix Q DFx (f_ KV) (E_ S KV) : 'M[R_realFieldType]_(_, _)) x y = phys_l2 ns ps q types DFx 3
  (fun j => pushforward KV (DFx (qpt ns ps q types j)) (fun c => discrete_form ns ps types x c (qpt ns ps q types j)))
  (fun j => pushforward KV (DFx (qpt ns ps q types j)) (fun c => discrete_form ns ps types y c (qpt ns ps q types j))).
  apply: (etrans _ (@lazy_value _ _ _ _ _ _ _ Hs Hreg _ HS Q same_rule KV _ _ _ _ (E_ S KV) (E_ S KV)
    (fun i j => form_evaluate (f_ KV) (xq Q j) i) (fun i j => form_evaluate (f_ KV) (xq Q j) i) x y
    (fun j c => discrete_form ns ps types y c (qpt ns ps q types j)) (fun j c => discrete_form ns ps types x c (qpt ns ps q types j)) _ _)).
  - by have [Ek _ _ _] := DF_inv (Hf KV); rewrite /LazyMassMatrix /LazyMass_assemble Ek.
  - by move=> j a _ _; rewrite (comb_field Hs Hreg HS same_rule _ _ _ (Hf KV)).
  - by move=> j a _ _; rewrite (comb_field Hs Hreg HS same_rule _ _ _ (Hf KV)).
move=> x y; split; first exact: E.
- by rewrite !E; apply: eq_bigr => j _; congr (_ * _); apply: eq_bigr => a _; rewrite mulrC.
- rewrite E; apply: sumr_ge0 => j _; apply: mulr_ge0; first by apply: sumr_ge0 => a _; rewrite -expr2 sqr_ge0.
  have Hin : List.In (qpt ns ps q types j) (seq_points ns ps q types) by apply: List.nth_In; apply/ssrnat.ltP.
  have HJ := Hreg Hin.
  apply: mulr_ge0.
  + have [f [Q' [_ _ _ _ [HG HR HO _]]]] := seq_summary Hs Hreg HS.
    have [En Ew] := Q_nq; have [Ex _] := Q_pts Hs Hreg HS same_rule.
    have [|Hw _ _] := geometry_of_pos HG HR HO (j := j); first by rewrite -En Ex.
    by rewrite -(wqE Hs Hreg HS same_rule) Ew ltW.
  + by apply/RleE; apply: Rle_trans HJ; apply: Rlt_le; apply: Rinv_0_lt_compat; apply: pow_lt; lra.
Qed.
End Seq.
Print Assumptions C60_dimensions.
Print Assumptions C60_mass.
Print Assumptions C60_derivative.
Print Assumptions C60_threeform.
Print Assumptions C60_projection.
Print Assumptions C60_second_order.
Print Assumptions C60_vector_mass.

(** a polar Dirichlet sequence, its forms and its quadrature rule exist *)
Example C60_nonvacuous : let ns := (8, 8, 1)%N in let ps := (3, 3, 0)%N in let ts : stype * stype * stype := (Clamped, Periodic, Constant) in
  exists S f_ Q, [/\ supported ns ps 4 ts true true, new_sequence ns ps 4 ts (fun _ => id33) true true = Some S,
    forall k, DifferentialForm k ns ps ts = Some (f_ k) & QuadratureRule (f_L0 (f_ K0)) (f_L1 (f_ K0)) (f_L2 (f_ K0)) 4 = Some Q].
Proof.
move=> ns ps ts; have [Hs _ Hr _ _] := SequenceR_nonvacuous; 
have [S HS] := C26_constructor_total (DFx := fun _ => id33) Hs (Hr _).
exists S.
eexists (fun k => DForm k _ _ _ _ _ _), _; split; [exact: Hs | exact: HS | reflexivity | reflexivity].
Qed.

