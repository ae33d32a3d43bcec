(** strong_grad, strong_curl, strong_div of a constructed sequence are the actual
    gradient, curl and divergence of the discrete fields. *)
From Coq Require Import Reals Lra.
From Coquelicot Require Import Coquelicot.
From mathcomp Require Import all_ssreflect all_algebra zify.
From Verif Require Import Model.RBase Model.Spline Model.Quad Model.Forms Model.DeRham Model.FormEval Model.Geometry Model.SeqR.
From Verif Require Import Spec.Cochain Spec.PolarSpace Spec.SeqSpec Spec.FormSpec Spec.GeomSpec Spec.SeqRSpec Spec.CalculusSpec.
From Verif Require Import Proof.RField Proof.MCRing Proof.IndexLemmas Proof.Incidence Proof.SeqFacts
  Proof.FormEvalProofs Proof.GeometryProofs Proof.SeqRProofs Proof.SeqDeriv Props.DeRham.
Set Implicit Arguments.
Unset Strict Implicit.
Unset Printing Implicit Defensive.
Import Order.TTheory GRing.Theory Num.Theory.
Local Open Scope ring_scope.

Lemma resolved_dirs ns ps q types x0 x1 x2 : resolved ns ps q types ->
  off_knots ns ps types.2 (x0, x1, x2) ->
  exists l0 l1 l2 d0 d1 d2, [/\ forall k, DifferentialForm k ns ps types = Some (DForm k l0 l1 l2 d0 d1 d2),
    dir_open ns.1.1 l0 d0 x0, dir_per ns.1.2 l1 d1 x1 & dir_per ns.2 l2 d2 x2].
Proof.
case: ns => [[n0 n1] n2]; case: ps => [[p0 p1] p2]; case: types => [[t0 t1] t2].
case=> -[-> ->] /and5P [H1 H2 H3 H4 /andP [H5 H6]] [HN0 HN1] Hz /= [Hx0 Hx1 Hx2 [K0 K1 K2]].
rewrite !gauss_orderE in H3 H6.
have [d0 [X0 [W0 [Ed0 Sd0 Eq0 G0]]]] := clamped_good H1 H2 H3 HN0.
have [d1 [X1 [W1 [Ed1 Sd1 Eq1 G1]]]] := periodic_good H4 H5 H6 HN1.
pose l2 := mkSpline n2 p2 t2 (init_knots n2 p2 t2).
have [P2 [d2 [Ed2 D2]]] : (p2 < n2)%N /\ exists d, new_deriv l2 = Some d /\ dir_per n2 l2 d x2.
  rewrite /l2; case: Hz => [[E [/and3P [A B C] D]]|[E [E1 E2]]].
  - rewrite !gauss_orderE in C; split=> //.
    have [d [X [W [Ed _ _ _]]]] := periodic_good A B C D.
    rewrite E; exists d; split=> //; apply: (periodic_dir A B D _ Ed Hx2 (K2 E)).
    by rewrite new_spline_ok.
  - rewrite E E1 E2; split=> //; exists (mkSpline 1 0 Constant (init_knots 1 0 Constant)); split; last exact: constant_dir.
    exact: const_deriv.
exists (mkSpline n0 p0 Clamped (init_knots n0 p0 Clamped)), (mkSpline n1 p1 Periodic (init_knots n1 p1 Periodic)), l2, d0, d1, d2.
split=> //.
- by move=> k; rewrite /DifferentialForm !new_spline_ok // Ed0 Ed1 -/l2 Ed2.
- by apply: (clamped_dir H1 H2 HN0 _ Ed0 K0); rewrite new_spline_ok.
- by apply: (periodic_dir H4 H5 HN1 _ Ed1 Hx1 K1); rewrite new_spline_ok.
Qed.

Lemma supported_dirs ns ps q types polar dirichlet x0 x1 x2 : supported ns ps q types polar dirichlet ->
  off_knots ns ps types.2 (x0, x1, x2) ->
  exists l0 l1 l2 d0 d1 d2, [/\ forall k, DifferentialForm k ns ps types = Some (DForm k l0 l1 l2 d0 d1 d2),
    dir_open ns.1.1 l0 d0 x0, dir_per ns.1.2 l1 d1 x1 & dir_per ns.2 l2 d2 x2].
Proof. by move=> H; apply: (@resolved_dirs _ _ q); move: H; case: ns => [[n0 n1] n2] []. Qed.

Lemma derive_eq (f : R -> R) (x d d' : R) : is_derive f x d -> d = d' -> is_derive f x d'.
Proof. by move=> H <-. Qed.

Lemma derive_fun (f g : R -> R) (x d : R) : (forall t, f t = g t) -> is_derive g x d -> is_derive f x d.
Proof. by move=> H; apply: is_derive_ext => t; rewrite H. Qed.

Section Calc.
Variables (ns ps : triple) (q : nat) (types : stype * stype * stype) (DFx : point -> mat3 R_realFieldType) (polar dirichlet : bool).
Hypothesis Hs : supported ns ps q types polar dirichlet.
Hypothesis Hreg : regular_map DFx (seq_points ns ps q types).
Variable S : drseq R_realFieldType.
Hypothesis HS : new_sequence ns ps q types DFx polar dirichlet = Some S.

(** what the theorems of Props/DeRham.v and Props/Geometry.v need *)
Lemma seq_summary : exists f Q,
  [/\ S = DeRhamSequence (f_shape f) (evaluate_1d f Q)
         (fun j => metric (DFx (List.nth j (q_x Q) (R0, R0, R0)))) (fun j => inv33 (metric (DFx (List.nth j (q_x Q) (R0, R0, R0)))))
         (fun j => det33 (DFx (List.nth j (q_x Q) (R0, R0, R0)))) (fun j => List.nth j (q_w Q) R0)
         (get_xi (ns.1.2)) polar dirichlet,
     admissible (f_shape f) (get_xi (ns.1.2) : nat -> nat -> nat -> R_realFieldType) polar dirichlet,
     DifferentialForm K0 ns ps types = Some f /\ f_shape f = Shape ns.1.1 ns.1.2 ns.2 true false false,
     QuadratureRule (f_L0 f) (f_L1 f) (f_L2 f) q = Some Q /\ n_q S = length (q_x Q)
   & let DF j := DFx (List.nth j (q_x Q) (R0, R0, R0)) in
    [/\ geometry_of S DF, regular S DF, oriented S DF & masses_invertible S]].
Proof.
have [f [Q [S' [ES' [Hf HQ HB] HF HG]]]] := supported_seq Hs Hreg.
have E : S = S' by move: ES'; rewrite HS => -[].
exists f, Q; split=> //; rewrite ?E //.
- rewrite (fa_shape HF); exact: (supported_admissible Hs).
- split=> //; exact: (fa_shape HF).
- split=> //; rewrite HB /n_q /DeRhamSequence (fa_len3 HF); by case: (polar).
Qed.

Lemma seq_sh : sh S = Shape ns.1.1 ns.1.2 ns.2 true false false.
Proof. by have [f [Q [-> _ [_ <-] _ _]]] := seq_summary; rewrite /DeRhamSequence; case: polar. Qed.

Lemma E_incidence :
  [/\ forall (y : 'cV_(rk S K0)) a i j l, (a < 3)%N -> in_comp (sh S) K1 a (i, j, l) ->
       coefs S K1 (strong_grad S *m y) a i j l = cgrad ns.1.2 ns.2 (coefs S K0 y) a i j l,
      forall (y : 'cV_(rk S K1)) a i j l, (a < 3)%N -> in_comp (sh S) K2 a (i, j, l) ->
       coefs S K2 (strong_curl S *m y) a i j l = ccurl ns.1.2 ns.2 (coefs S K1 y) a i j l
    & forall (y : 'cV_(rk S K2)) i j l, in_comp (sh S) K3 0 (i, j, l) ->
       coefs S K3 (strong_div S *m y) 0%N i j l = cdiv ns.1.2 ns.2 (coefs S K2 y) 0%N i j l].
Proof.
have [f [Q [E Hadm [_ Esh] _ [_ _ _ [U0 U1 U2 U3]]]]] := seq_summary.
have [E1 E2] : nt (f_shape f) = ns.1.2 /\ nz (f_shape f) = ns.2 by rewrite Esh.
move: U0 U1 U2 U3; rewrite E => U0 U1 U2 U3.
split.
- by move=> y a i j l Ha Hi; rewrite (C24_strong_grad_incidence Hadm U1) // E1 E2.
- by move=> y a i j l Ha Hi; rewrite (C24_strong_curl_incidence Hadm U2) // E1 E2.
- by move=> y i j l Hi; rewrite (C24_strong_div_incidence Hadm U3) // E1 E2.
Qed.

Notation form := (discrete_form ns ps types).
Section Struct.
Variables (l0 l1 l2 d0 d1 d2 : spline).
Hypothesis HD : forall k, DifferentialForm k ns ps types = Some (DForm k l0 l1 l2 d0 d1 d2).
Notation n0 := ns.1.1.
Notation n1 := ns.1.2.
Notation n2 := ns.2.

Lemma form_str k (y : 'cV_(rk S k)) c z0 z1 z2 : k <> KV -> (c < comps k)%N ->
  form y c (z0, z1, z2) = let: (a, b, d) := cshape (Shape n0 n1 n2 true false false) k c in
    \sum_(i < a) \sum_(j < b) \sum_(l < d) coefs S k y c i j l
       * (factor (DForm k l0 l1 l2 d0 d1 d2) c 0 z0 i * factor (DForm k l0 l1 l2 d0 d1 d2) c 1 z1 j
          * factor (DForm k l0 l1 l2 d0 d1 d2) c 2 z2 l).
Proof.
move=> HV Hc; rewrite -seq_sh; apply: form_structured => //.
have [f [Q [_ _ [Hf E] _ _]]] := seq_summary.
by move: Hf; rewrite (HD K0) => -[Ef]; rewrite seq_sh -E -Ef.
Qed.
Variables x0 x1 x2 : R.
Hypotheses (D0 : dir_open n0 l0 d0 x0) (D1 : dir_per n1 l1 d1 x1) (D2 : dir_per n2 l2 d2 x2).
Notation x := (x0, x1, x2).
Notation L0 := (evaluate l0). Notation L1 := (evaluate l1). Notation L2 := (evaluate l2).
Notation T0 := (evaluate_deriv d0). Notation T1 := (evaluate_deriv d1). Notation T2 := (evaluate_deriv d2).

Lemma f0 (y : 'cV_(rk S K0)) z0 z1 z2 : form y 0 (z0, z1, z2)
  = \sum_(i < n0) \sum_(j < n1) \sum_(l < n2) coefs S K0 y 0%N i j l * (L0 z0 i * L1 z1 j * L2 z2 l).
Proof. by rewrite form_str. Qed.
Lemma f1 (y : 'cV_(rk S K1)) z0 z1 z2 :
  [/\ form y 0 (z0, z1, z2) = \sum_(i < n0.-1) \sum_(j < n1) \sum_(l < n2) coefs S K1 y 0%N i j l * (T0 z0 i * L1 z1 j * L2 z2 l),
      form y 1 (z0, z1, z2) = \sum_(i < n0) \sum_(j < n1) \sum_(l < n2) coefs S K1 y 1%N i j l * (L0 z0 i * T1 z1 j * L2 z2 l)
    & form y 2 (z0, z1, z2) = \sum_(i < n0) \sum_(j < n1) \sum_(l < n2) coefs S K1 y 2%N i j l * (L0 z0 i * L1 z1 j * T2 z2 l)].
Proof. by rewrite !form_str // /cshape /= /dr /dt /dz /= !subn0 subn1. Qed.
Lemma f2 (y : 'cV_(rk S K2)) z0 z1 z2 :
  [/\ form y 0 (z0, z1, z2) = \sum_(i < n0) \sum_(j < n1) \sum_(l < n2) coefs S K2 y 0%N i j l * (L0 z0 i * T1 z1 j * T2 z2 l),
      form y 1 (z0, z1, z2) = \sum_(i < n0.-1) \sum_(j < n1) \sum_(l < n2) coefs S K2 y 1%N i j l * (T0 z0 i * L1 z1 j * T2 z2 l)
    & form y 2 (z0, z1, z2) = \sum_(i < n0.-1) \sum_(j < n1) \sum_(l < n2) coefs S K2 y 2%N i j l * (T0 z0 i * T1 z1 j * L2 z2 l)].
Proof. by rewrite !form_str // /cshape /= /dr /dt /dz /= !subn0 subn1. Qed.
Lemma f3 (y : 'cV_(rk S K3)) z0 z1 z2 : form y 0 (z0, z1, z2)
  = \sum_(i < n0.-1) \sum_(j < n1) \sum_(l < n2) coefs S K3 y 0%N i j l * (T0 z0 i * T1 z1 j * T2 z2 l).
Proof. by rewrite form_str // /cshape /= /dr /dt /dz /= !subn0 subn1. Qed.

Lemma incidence_in k c i j l : in_comp (sh S) k c (i, j, l) = in_comp (Shape n0 n1 n2 true false false) k c (i, j, l).
Proof. by rewrite seq_sh. Qed.

Ltac solve_in := rewrite ?incidence_in /in_comp /cshape /= /dr /dt /dz /= ?subn0 ?subn1; apply/and3P; split; assumption.

Lemma grad_str (y : 'cV_(rk S K0)) : is_grad (form y 0) x (fun a => form (strong_grad S *m y) a x).
Proof.
have [Hg _ _] := E_incidence; have [G0 G1 G2] := f1 (strong_grad S *m y) x0 x1 x2.
case=> [|[|[|a]]] // _; rewrite /is_partial /upd /coord /=.
- apply: (derive_fun (fun t => f0 y t x1 x2)).
  apply: (derive_eq (part_r D0 n1 n2 (coefs S K0 y 0%N) (L1 x1) (L2 x2))).
  rewrite G0; apply: eq_bigr => -[i Hi] _; apply: eq_bigr => -[j Hj] _; apply: eq_bigr => -[l Hl] _; congr (_ * _); rewrite [nat_of_ord (Ordinal Hi)]/= [nat_of_ord (Ordinal Hj)]/= [nat_of_ord (Ordinal Hl)]/=.
  by rewrite Hg //; solve_in.
- apply: (derive_fun (fun t => f0 y x0 t x2)).
  apply: (derive_eq (part_t D1 n0 n2 (coefs S K0 y 0%N) (L0 x0) (L2 x2))).
  rewrite G1; apply: eq_bigr => -[i Hi] _; apply: eq_bigr => -[j Hj] _; apply: eq_bigr => -[l Hl] _; congr (_ * _); rewrite [nat_of_ord (Ordinal Hi)]/= [nat_of_ord (Ordinal Hj)]/= [nat_of_ord (Ordinal Hl)]/=.
  by rewrite Hg //; solve_in.
- apply: (derive_fun (fun t => f0 y x0 x1 t)).
  apply: (derive_eq (part_z D2 n0 n1 (coefs S K0 y 0%N) (L0 x0) (L1 x1))).
  rewrite G2; apply: eq_bigr => -[i Hi] _; apply: eq_bigr => -[j Hj] _; apply: eq_bigr => -[l Hl] _; congr (_ * _); rewrite [nat_of_ord (Ordinal Hi)]/= [nat_of_ord (Ordinal Hj)]/= [nat_of_ord (Ordinal Hl)]/=.
  by rewrite Hg //; solve_in.
Qed.

Lemma curl_str (y : 'cV_(rk S K1)) :
  is_curl (fun c => form y c) x (fun a => form (strong_curl S *m y) a x).
Proof.
have [_ Hc _] := E_incidence; have [G0 G1 G2] := f2 (strong_curl S *m y) x0 x1 x2.
have F0 z0 z1 z2 := let: And3 e _ _ := f1 y z0 z1 z2 in e.
have F1 z0 z1 z2 := let: And3 _ e _ := f1 y z0 z1 z2 in e.
have F2 z0 z1 z2 := let: And3 _ _ e := f1 y z0 z1 z2 in e.
do 6! eexists; split; first split.
- rewrite /is_partial /upd /coord /=.
  apply: (derive_fun (fun t => F2 x0 t x2)).
  exact: (part_t D1 n0 n2 (coefs S K1 y 2%N) (L0 x0) (T2 x2)).
- rewrite /is_partial /upd /coord /=.
  apply: (derive_fun (fun t => F1 x0 x1 t)).
  exact: (part_z D2 n0 n1 (coefs S K1 y 1%N) (L0 x0) (T1 x1)).
- split; rewrite /is_partial /upd /coord /=.
    apply: (derive_fun (fun t => F0 x0 x1 t)).
    exact: (part_z D2 n0.-1 n1 (coefs S K1 y 0%N) (T0 x0) (L1 x1)).
  apply: (derive_fun (fun t => F2 t x1 x2)).
  exact: (part_r D0 n1 n2 (coefs S K1 y 2%N) (L1 x1) (T2 x2)).
- split; rewrite /is_partial /upd /coord /=.
    apply: (derive_fun (fun t => F1 t x1 x2)).
    exact: (part_r D0 n1 n2 (coefs S K1 y 1%N) (T1 x1) (L2 x2)).
  apply: (derive_fun (fun t => F0 x0 t x2)).
  exact: (part_t D1 n0.-1 n2 (coefs S K1 y 0%N) (T0 x0) (L2 x2)).
- split.
  + rewrite G0 RminusE -sumrB; apply: eq_bigr => -[i Hi] _; rewrite -sumrB; apply: eq_bigr => -[j Hj] _; rewrite -sumrB; apply: eq_bigr => -[l Hl] _; rewrite -mulrBl; congr (_ * _); rewrite [nat_of_ord (Ordinal Hi)]/= [nat_of_ord (Ordinal Hj)]/= [nat_of_ord (Ordinal Hl)]/=.
    by rewrite Hc //; solve_in.
  + rewrite G1 RminusE -sumrB; apply: eq_bigr => -[i Hi] _; rewrite -sumrB; apply: eq_bigr => -[j Hj] _; rewrite -sumrB; apply: eq_bigr => -[l Hl] _; rewrite -mulrBl; congr (_ * _); rewrite [nat_of_ord (Ordinal Hi)]/= [nat_of_ord (Ordinal Hj)]/= [nat_of_ord (Ordinal Hl)]/=.
    by rewrite Hc //; solve_in.
  + rewrite G2 RminusE -sumrB; apply: eq_bigr => -[i Hi] _; rewrite -sumrB; apply: eq_bigr => -[j Hj] _; rewrite -sumrB; apply: eq_bigr => -[l Hl] _; rewrite -mulrBl; congr (_ * _); rewrite [nat_of_ord (Ordinal Hi)]/= [nat_of_ord (Ordinal Hj)]/= [nat_of_ord (Ordinal Hl)]/=.
    by rewrite Hc //; solve_in.
Qed.

Lemma div_str (y : 'cV_(rk S K2)) :
  is_div (fun c => form y c) x (form (strong_div S *m y) 0 x).
Proof.
have [_ _ Hd] := E_incidence; have G := f3 (strong_div S *m y) x0 x1 x2.
have F0 z0 z1 z2 := let: And3 e _ _ := f2 y z0 z1 z2 in e.
have F1 z0 z1 z2 := let: And3 _ e _ := f2 y z0 z1 z2 in e.
have F2 z0 z1 z2 := let: And3 _ _ e := f2 y z0 z1 z2 in e.
do 3! eexists; split.
- rewrite /is_partial /upd /coord /=.
  apply: (derive_fun (fun t => F0 t x1 x2)).
  exact: (part_r D0 n1 n2 (coefs S K2 y 0%N) (T1 x1) (T2 x2)).
- rewrite /is_partial /upd /coord /=.
  apply: (derive_fun (fun t => F1 x0 t x2)).
  exact: (part_t D1 n0.-1 n2 (coefs S K2 y 1%N) (T0 x0) (T2 x2)).
- rewrite /is_partial /upd /coord /=.
  apply: (derive_fun (fun t => F2 x0 x1 t)).
  exact: (part_z D2 n0.-1 n1 (coefs S K2 y 2%N) (T0 x0) (T1 x1)).
- rewrite G RplusE RplusE sum3_add sum3_add; apply: eq_bigr => -[i Hi] _; apply: eq_bigr => -[j Hj] _; apply: eq_bigr => -[l Hl] _.
  rewrite -!mulrDl; congr (_ * _); rewrite [nat_of_ord (Ordinal Hi)]/= [nat_of_ord (Ordinal Hj)]/= [nat_of_ord (Ordinal Hl)]/=.
  by rewrite Hd //; solve_in.
Qed.
End Struct.

Variable x : point.
Hypothesis Hx : off_knots ns ps types.2 x.
Lemma grad_calculus (y : 'cV_(rk S K0)) : is_grad (form y 0) x (fun a => form (strong_grad S *m y) a x).
Proof.
case: x Hx => [[x0 x1] x2] Hx'; have [l0 [l1 [l2 [d0 [d1 [d2 [HD D0 D1 D2]]]]]]] := supported_dirs Hs Hx'.
exact: (grad_str HD D0 D1 D2).
Qed.
Lemma curl_calculus (y : 'cV_(rk S K1)) : is_curl (fun c => form y c) x (fun a => form (strong_curl S *m y) a x).
Proof.
case: x Hx => [[x0 x1] x2] Hx'; have [l0 [l1 [l2 [d0 [d1 [d2 [HD D0 D1 D2]]]]]]] := supported_dirs Hs Hx'.
exact: (curl_str HD D0 D1 D2).
Qed.
Lemma div_calculus (y : 'cV_(rk S K2)) : is_div (fun c => form y c) x (form (strong_div S *m y) 0 x).
Proof.
case: x Hx => [[x0 x1] x2] Hx'; have [l0 [l1 [l2 [d0 [d1 [d2 [HD D0 D1 D2]]]]]]] := supported_dirs Hs Hx'.
exact: (div_str HD D0 D1 D2).
Qed.
End Calc.
