(** Property theorems for boundary / polar extraction and the de Rham sequence
    (C18-C28, C31). *)
From Coq Require Import Ring Field.
From mathcomp Require Import all_ssreflect all_algebra.
From Verif Require Import Model.Forms Model.DeRham Spec.Cochain Spec.PolarSpace Spec.FreeDofs Spec.SeqSpec
  Proof.MCRing Proof.IndexLemmas Proof.Incidence Proof.SequenceAlg Proof.DeRhamAlg Proof.BoundarySel
  Proof.PolarSpan Proof.Complex Proof.SeqFacts Proof.MassSPD Proof.PolarFree.
Set Implicit Arguments.
Unset Strict Implicit.
Unset Printing Implicit Defensive.
Import Order.TTheory GRing.Theory Num.Theory.
Local Open Scope ring_scope.

(** ** C18 Boundary operator selects exactly the free DoFs *)
Section C18.
Variable F : realFieldType.

(** every row has exactly one non-zero entry, a 1, at a free DoF *)
Theorem C18_rows_select_free (s : shape) (b : bc * bc * bc) (k : deg) : k <> KV ->
  forall r : 'I_(bdim s b k), exists2 x : 'I_(fdim s k),
    (let: (c, t) := unravel_index s k x in free_dof s b k c t) &
    forall y, boundary_matrix F s b k r y = (y == x)%:R.
Proof.
move=> Hk r; exists (Ordinal (sel_lt Hk (ltn_ord r))); first by have := sel_free Hk (ltn_ord r); rewrite /=; case: (unravel_index s k _).
by move=> y; rewrite boundary_entry.
Qed.

(** every free DoF is selected by exactly one row *)
Theorem C18_free_selected_once (s : shape) (b : bc * bc * bc) (k : deg) : k <> KV ->
  forall x : 'I_(fdim s k), (let: (c, t) := unravel_index s k x in free_dof s b k c t) ->
  exists r, forall r', boundary_matrix F s b k r' x = (r' == r)%:R.
Proof.
move=> Hk x Hx; have [r Hr Er] := sel_surj Hk (ltn_ord x) Hx.
exists (Ordinal Hr) => r'; rewrite boundary_entry // -Er; congr (_%:R); congr nat_of_bool.
by apply/eqP/eqP => [/(sel_inj Hk Hr (ltn_ord r')) E|->] //; apply: val_inj.
Qed.

Theorem C18_BBt (s : shape) (b : bc * bc * bc) (k : deg) : k <> KV ->
  boundary_matrix F s b k *m (boundary_matrix F s b k)^T = 1%:M.
Proof. exact: boundary_BBt. Qed.

Theorem C18_BtB_projector (s : shape) (b : bc * bc * bc) (k : deg) : k <> KV ->
  (boundary_matrix F s b k)^T *m boundary_matrix F s b k
  = \matrix_(x, y) ((x == y) && let: (c, t) := unravel_index s k x in free_dof s b k c t)%:R.
Proof. exact: boundary_BtB. Qed.
End C18.
Print Assumptions C18_rows_select_free.
Print Assumptions C18_free_selected_once.
Print Assumptions C18_BBt.
Print Assumptions C18_BtB_projector.

Example C18_nonvacuous : let s := Shape 4 4 3 true false false in
  let b := (Dirichlet, NoBC, NoBC) in (bdim s b K1, fdim s K1) = (84, 132)%N
  /\ free_dof s b K1 1 (1, 0, 0)%N /\ ~~ free_dof s b K1 1 (3, 0, 0)%N.
Proof. by []. Qed.

(** ** C19 Vector fields: with Dirichlet conditions in r the operator keeps DoFs on
    the boundary and drops interior ones, for every grid with at least 3 radial splines *)
Section C19.
Variable F : realFieldType.
Theorem C19_vector_boundary_refuted (s : shape) : (2 < nr s)%N -> (0 < nt s)%N -> (0 < nz s)%N ->
  let b := (Dirichlet, NoBC, NoBC) in
  (* a DoF of component 1 on the face r = 0 is kept ... *)
  (exists (r : 'I_(bdim s b KV)) (x : 'I_(fdim s KV)),
     [/\ unravel_index s KV x = (1, (0, 0, 0))%N, ~~ free_dof s b KV 1 (0, 0, 0)%N
       & boundary_matrix F s b KV r x = 1])
  (* ... and an interior DoF of component 1 is in no row *)
  /\ (exists x : 'I_(fdim s KV),
     [/\ unravel_index s KV x = (1, (nr s - 2, 0, 0))%N, free_dof s b KV 1 (nr s - 2, 0, 0)%N
       & forall r : 'I_(bdim s b KV), boundary_matrix F s b KV r x = 0]).
Proof.
move=> Hr Ht Hz b.
have Hr0 : (0 < nr s)%N by apply: ltn_trans Hr.
have Hg i : (i < nr s - 2)%N -> gin_comp (bshape s b KV) 1 (i, 0, 0)%N by move=> Hi; rewrite /gin_comp /= Hi Ht Hz.
have Hi i : (i < nr s)%N -> in_comp s KV 1 (i, 0, 0)%N by move=> Hi; rewrite /in_comp /= Hi Ht Hz.
have H0 : (0 < nr s - 2)%N by rewrite subn_gt0.
split.
- have Lr : (gravel_index (bshape s b KV) (is_scalar KV) 1 0 0 0 < bdim s b KV)%N.
    exact: (gravel_index_lt (csh := bshape s b KV) (sc := false) (c := 1)) (Hg _ H0).
  have Lx : (ravel_index s KV 1 0 0 0 < fdim s KV)%N by apply: ravel_index_lt (Hi _ Hr0).
  exists (Ordinal Lr), (Ordinal Lx); split.
  + by rewrite /= unravel_ravel_index // Hi.
  + by rewrite /free_dof.
  + have Eb : bunravel_index s b KV (gravel_index (bshape s b KV) (is_scalar KV) 1 0 0 0) = (1, (0, 0, 0))%N.
      exact: (gunravel_ravel_index (csh := bshape s b KV) (sc := false) (c := 1)) (Hg _ H0).
    by rewrite mxE /boundary_element; rewrite [bunravel_index _ _ _ _]Eb [unravel_index _ _ _](unravel_ravel_index _ (Hi _ Hr0)).
- have Hm : (nr s - 2 < nr s)%N by rewrite ltn_subrL Hr0.
  have Lx : (ravel_index s KV 1 (nr s - 2) 0 0 < fdim s KV)%N by apply: ravel_index_lt (Hi _ Hm).
  exists (Ordinal Lx); split.
  + by rewrite /= unravel_ravel_index // Hi.
  + by rewrite /free_dof /= H0 /= !andbT; case: (nr s) Hr => [|[|[|n]]] // _; rewrite !subSS subn0.
  + move=> r; rewrite mxE /boundary_element [unravel_index _ _ _](unravel_ravel_index _ (Hi _ Hm)) //.
    have P : forall t, t = bunravel_index s b KV r -> let: (c, (i, j, l)) := t in gin_comp (bshape s b KV) c (i, j, l).
      by move=> t ->; have [] := @bunravelP s b KV r (ltn_ord r).
    rewrite /b -/b; case: (bunravel_index s b KV r) P => [c [[i j] l]] /(_ _ erefl).
    case: eqP => [->|//] /=; rewrite /gin_comp /= => /and3P [Hi' _ _].
    by rewrite (ltn_eqF Hi').
Qed.
End C19.
Print Assumptions C19_vector_boundary_refuted.

(** ** C20, C21 Polar extraction *)
Section C20.
Variable F : realFieldType.
Variable xi : nat -> nat -> nat -> F.
Variables (nr nt nz : nat) (o : bool).
Notation s := (Shape nr nt nz true false false).
(** coefficient vector as a structured cochain *)
Definition vec_cochain (k : deg) (v : 'rV[F]_(fdim s k)) : cochain F :=
  fun c i j l => \sum_(x < fdim s k | nat_of_ord x == ravel_index s k c i j l) v 0 x.
Arguments vec_cochain k v : clear implicits.
Lemma vec_cochainE k v c i j l : vec_cochain k v c i j l = coch s k (rvf v) c i j l.
Proof. by rewrite /vec_cochain /coch rvf_sum. Qed.

Definition polar_compatible (k : deg) (u : cochain F) : Prop :=
  match k with
  | K0 => pol0 xi nr nt nz o u
  | K1 => pol1 xi nr nt nz o u
  | K2 => pol2 xi nr nt nz o u
  | K3 => pol3 nt nz u
  | KV => True
  end.

(** the extracted k-forms are exactly the spline k-forms satisfying the polar
    (and, if o, the boundary) conditions *)
Theorem C20_row_space (k : deg) : k <> KV -> (2 + o <= nr)%N ->
  forall v : 'rV[F]_(fdim s k), (v <= polar_matrix xi s o k)%MS <-> polar_compatible k (vec_cochain k v).
Proof.
move=> Hk Hnr v; split.
- move=> /submxP [y ->].
  apply: (@Vpol_ext F xi nr nt nz o Hnr k (coch s k (pe xi nr nt nz o k (rvf y)))) => //.
    move=> c i j l Hc Hin; rewrite vec_cochainE /coch; have Hlt := ravel_index_lt Hc Hin.
    rewrite (rvf_ord _ (Ordinal Hlt)) mxE; apply: eq_bigr => r _.
    by rewrite rvf_ord mxE.
  exact: Vpol_pe.
- move=> H; apply: (@Vpol_span F xi nr nt nz o Hnr) => //.
  by apply: (@Vpol_ext F xi nr nt nz o Hnr k (vec_cochain k v)) => // c i j l _ _; rewrite vec_cochainE.
Qed.

(** the rows are linearly independent (the advertised number of DoFs is the dimension) *)
Theorem C20_rank (k : deg) : k <> KV -> (2 + o <= nr)%N -> (0 < nt)%N -> xi_ok xi nt -> xi_indep xi nt ->
  \rank (polar_matrix xi s o k) = pdim s o k.
Proof. by move=> Hk Hnr Ht Hxi Hi; apply/eqP; apply: polar_row_free. Qed.

(** extracted 0-forms have a theta-independent coefficient at the axis *)
Theorem C21_axis_single_valued : (2 + o <= nr)%N -> xi_ok xi nt ->
  forall (y : 'rV[F]_(pdim s o K0)) j j' l, (j < nt)%N -> (j' < nt)%N -> (l < nz)%N ->
  vec_cochain K0 (y *m polar_matrix xi s o K0) 0%N 0%N j l = vec_cochain K0 (y *m polar_matrix xi s o K0) 0%N 0%N j' l.
Proof.
move=> Hnr Hxi y j j' l Hj Hj' Hl.
have [/(_ (submxMl _ _)) [ga H] _] := C20_row_space (k := K0) ltac:(by []) Hnr (y *m polar_matrix xi s o K0).
rewrite (proj1 (H j l Hj Hl) 0%N) // (proj1 (H j' l Hj' Hl) 0%N) //.
by apply: eq_bigr => p _; congr (_ * _); apply: (xic Hxi).
Qed.

End C20.
Section C21.
Variable F : realFieldType.
Variable xi : nat -> nat -> nat -> F.
Variables (nr nt nz : nat).
Notation s := (Shape nr nt nz true false false).
(** without boundary condition the extracted 0-forms reproduce constants: the sum of
    all rows of E0 is the vector of ones *)
Theorem C21_partition_of_unity : (2 <= nr)%N -> xi_ok xi nt ->
  forall x : 'I_(fdim s K0), \sum_(r < pdim s false K0) polar_matrix xi s false K0 r x = 1.
Proof.
move=> Hnr Hxi x.
have -> : \sum_(r < pdim s false K0) polar_matrix xi s false K0 r x = pe xi nr nt nz false K0 (fun _ => 1) x.
  by apply: eq_bigr => r _; rewrite mxE mul1r.
move: (nat_of_ord x) (ltn_ord x); apply: flat_ind => c i j l Hc; rewrite in0 => /and3P [Hi Hj Hl].
have -> : c = 0%N by move: Hc; rewrite /ncomp /=; case: (c).
rewrite pe0 ?addn0 // subn0 Hi andbT; case: (ltnP i 2) => H2.
- rewrite mul1r addr0 sum3O /= !mul1r; have [H _] := Hxi j Hj; apply: H.
  by rewrite ltnS geq_minr.
- by rewrite mul0r add0r.
Qed.
End C21.
Print Assumptions C20_row_space.
Print Assumptions C20_rank.
Print Assumptions C21_axis_single_valued.
Print Assumptions C21_partition_of_unity.

(** rational barycentric coordinates for three angles meet all hypotheses *)
Definition xi_ex (p i j : nat) : rat := if i == 0%N then 1 / 3%:R else (p == j)%:R.
Example C20_nonvacuous : xi_ok xi_ex 3 /\ xi_indep xi_ex 3 /\ (2 + true <= 4)%N.
Proof.
split; last split=> //.
- move=> [|[|[|j]]] // _; (split; first by case=> [|[|i]]); by [].
- move=> c H [|[|[|p]]] // _.
  + by have := H 1%N 0%N isT isT; rewrite sum3O /xi_ex /= mulr1 !mulr0 !addr0.
  + by have := H 1%N 1%N isT isT; rewrite sum3O /xi_ex /= mulr1 !mulr0 add0r addr0.
  + by have := H 1%N 2%N isT isT; rewrite sum3O /xi_ex /= mulr1 !mulr0 !add0r.
Qed.

(** ** C22 - C28, C31 The assembled sequence *)
Section Seq.
Variable F : realFieldType.
Variables (s : shape) (t : tables F) (G Gi : nat -> nat -> nat -> F) (J w : nat -> F)
  (xi : nat -> nat -> nat -> F) (polar dirichlet : bool).
Hypothesis Hadm : admissible s xi polar dirichlet.
Notation S := (DeRhamSequence s t G Gi J w xi polar dirichlet).

Lemma exact_val (g : nat -> nat -> nat -> F) n m k0 (E : 'M[F]_(m, n)) n' m' (E' : 'M[F]_(m', n')) (g' : nat -> nat -> nat -> F)
   (A : 'M[F]_(m', m)) y j k :
  (forall r j k, (k < k0)%N -> fval g (row r E) j k = fval g' (row r (A^T *m E')) j k) -> (k < k0)%N ->
  evaluate_at_xq g (E^T *m y) j k = evaluate_at_xq g' (E'^T *m (A *m y)) j k.
Proof.
move=> H Hk; rewrite -[E^T *m y]trmxK -fvalE -[E'^T *m _]trmxK -fvalE.
rewrite !trmx_mul !trmxK -mulmxA !fval_mulmx; apply: eq_bigr => r _.
by rewrite H // row_mul.
Qed.

(** C22: applying strong_grad / strong_curl / strong_div to the DoFs gives the DoFs of
    the exterior derivative: same values at every quadrature point *)
Theorem C22_strong_grad_exact : M1 S \in unitmx ->
  forall (y : 'cV_(rk S K0)) j k, (k < 3)%N -> dval0 y j k = val1 (strong_grad S *m y) j k.
Proof.
move=> U1 y j k Hk; have [g [c [d [[Hg _ _] _]]]] := seq_derivs t G Gi J w Hadm.
by rewrite (strong_gradE Hg U1); apply: (exact_val y j Hg Hk).
Qed.
Theorem C22_strong_curl_exact : M2 S \in unitmx ->
  forall (y : 'cV_(rk S K1)) j k, (k < 3)%N -> dval1 y j k = val2 (strong_curl S *m y) j k.
Proof.
move=> U2 y j k Hk; have [g [c [d [[_ Hc _] _]]]] := seq_derivs t G Gi J w Hadm.
by rewrite (strong_curlE Hc U2); apply: (exact_val y j Hc Hk).
Qed.
Theorem C22_strong_div_exact : M3 S \in unitmx ->
  forall (y : 'cV_(rk S K2)) j, dval2 y j 0%N = val3 (strong_div S *m y) j 0%N.
Proof.
move=> U3 y j; have [g [c [d [[_ _ Hd] _]]]] := seq_derivs t G Gi J w Hadm.
by rewrite (strong_divE Hd U3); apply: (exact_val y j Hd).
Qed.

(** C24: the strong derivatives are the incidence (forward difference) operators on
    the spline coefficients, whatever the metric and the quadrature *)
Theorem C24_strong_grad_incidence : M1 S \in unitmx ->
  forall (y : 'cV_(rk S K0)) a i j l, (a < 3)%N -> in_comp (sh S) K1 a (i, j, l) ->
  coefs S K1 (strong_grad S *m y) a i j l = cgrad (nt s) (nz s) (coefs S K0 y) a i j l.
Proof.
move=> U1; have [g [c [d [[Hg _ _] [_ [_ [C _ _]]]]]]] := seq_derivs t G Gi J w Hadm.
by rewrite (strong_gradE Hg U1) => y a i j l Ha Hin; rewrite C // sh_S.
Qed.
Theorem C24_strong_curl_incidence : M2 S \in unitmx ->
  forall (y : 'cV_(rk S K1)) a i j l, (a < 3)%N -> in_comp (sh S) K2 a (i, j, l) ->
  coefs S K2 (strong_curl S *m y) a i j l = ccurl (nt s) (nz s) (coefs S K1 y) a i j l.
Proof.
move=> U2; have [g [c [d [[_ Hc _] [_ [_ [_ C _]]]]]]] := seq_derivs t G Gi J w Hadm.
by rewrite (strong_curlE Hc U2) => y a i j l Ha Hin; rewrite C // sh_S.
Qed.
Theorem C24_strong_div_incidence : M3 S \in unitmx ->
  forall (y : 'cV_(rk S K2)) i j l, in_comp (sh S) K3 0 (i, j, l) ->
  coefs S K3 (strong_div S *m y) 0%N i j l = cdiv (nt s) (nz s) (coefs S K2 y) 0%N i j l.
Proof.
move=> U3; have [g [c [d [[_ _ Hd] [_ [_ [_ _ C]]]]]]] := seq_derivs t G Gi J w Hadm.
by rewrite (strong_divE Hd U3) => y i j l Hin; rewrite C // sh_S.
Qed.

Lemma E_free (k : deg) : masses_invertible S -> k <> KV -> row_free (E_ S k).
Proof. by case=> U0 U1 U2 U3; case: k => // _; [apply: mass_row_free U0 | apply: mass_row_free U1 | apply: mass_row_free U2 | apply: mass_row_free U3]. Qed.

Theorem C24_curl_grad : masses_invertible S -> strong_curl S *m strong_grad S = 0.
Proof.
move=> HM; have [U0 U1 U2 U3] := HM.
have [g [c [d [[Hg Hc Hd] [H1 _]]]]] := seq_derivs t G Gi J w Hadm.
by rewrite (strong_gradE Hg U1) (strong_curlE Hc U2); apply: H1; apply: E_free.
Qed.
Theorem C24_div_curl : masses_invertible S -> strong_div S *m strong_curl S = 0.
Proof.
move=> HM; have [U0 U1 U2 U3] := HM.
have [g [c [d [[Hg Hc Hd] [_ [H2 _]]]]]] := seq_derivs t G Gi J w Hadm.
by rewrite (strong_divE Hd U3) (strong_curlE Hc U2); apply: H2; apply: E_free.
Qed.

Lemma formE n m (A : 'M[F]_(n, m)) x y : form A x y = bl A x y. Proof. by []. Qed.

(** C25 *)
Section Sym.
Hypotheses (HM : masses_invertible S) (Hsym : geometry_sym S).

Theorem C25_weak_adjoint :
  [/\ forall (u : 'cV_(rk S K1)) f, form (M0 S) f (weak_div S *m u) = - form (M1 S) (strong_grad S *m f) u,
      forall (u : 'cV_(rk S K2)) v, form (M1 S) v (weak_curl S *m u) = form (M2 S) (strong_curl S *m v) u
    & forall (p : 'cV_(rk S K3)) v, form (M2 S) v (weak_grad S *m p) = - form (M3 S) (strong_div S *m v) p].
Proof.
have [U0 U1 U2 U3] := HM; have [g [c [d [[Hg Hc Hd] _]]]] := seq_derivs t G Gi J w Hadm.
have X0 := M0_wdiv Hsym Hg U0; have X1 := M1_wcurl Hsym Hc U1; have X2 := M2_wgrad Hsym Hd U2.
rewrite (strong_gradE Hg U1) (strong_curlE Hc U2) (strong_divE Hd U3).
split=> u v; rewrite !formE.
- by rewrite bl_mulr X0 blNA -bl_mull.
- by rewrite bl_mulr X1 -bl_mull.
- by rewrite bl_mulr X2 blNA -bl_mull.
Qed.

Theorem C25_weak_complex : weak_div S *m weak_curl S = 0 /\ weak_curl S *m weak_grad S = 0.
Proof.
have [U0 U1 U2 U3] := HM; have [g [c [d [[Hg Hc Hd] [H1 [H2 _]]]]]] := seq_derivs t G Gi J w Hadm.
split; [apply: (wdiv_wcurl Hsym Hg Hc) => // | apply: (wcurl_wgrad Hsym Hc Hd) => //].
- by apply: H1; apply: E_free.
- by apply: H2; apply: E_free.
Qed.
End Sym.

(** C27: Hodge Laplacians (dd_k is the k-form Laplacian) are self-adjoint for M_k,
    positive semidefinite with the expected energy, and their kernels are the
    harmonic (closed and co-closed) forms *)
Section Hodge.
Hypotheses (HM : masses_invertible S) (Hsym : geometry_sym S).

Theorem C27_selfadjoint :
  [/\ forall x y, form (M0 S) x (dd0 S *m y) = form (M0 S) (dd0 S *m x) y,
      forall x y, form (M1 S) x (dd1 S *m y) = form (M1 S) (dd1 S *m x) y,
      forall x y, form (M2 S) x (dd2 S *m y) = form (M2 S) (dd2 S *m x) y
    & forall x y, form (M3 S) x (dd3 S *m y) = form (M3 S) (dd3 S *m x) y].
Proof.
have [U0 U1 U2 U3] := HM; have [g [c [d [[Hg Hc Hd] _]]]] := seq_derivs t G Gi J w Hadm.
have aux n (M D : 'M[F]_n) : M^T = M -> (M *m D)^T = M *m D -> forall x y, form M x (D *m y) = form M (D *m x) y.
  by move=> HS HT x y; rewrite !formE bl_mulr bl_mull -HT trmx_mul HS.
split; apply: aux.
- exact: M0_sym. - exact: (dd0_sym Hsym Hg U0).
- exact: M1_sym. - exact: (dd1_sym Hsym Hg Hc U0 U1).
- exact: M2_sym. - exact: (dd2_sym Hsym Hc Hd U1 U2).
- exact: M3_sym. - exact: (dd3_sym Hsym Hd U2 U3).
Qed.

(** energy identities, hence positivity below *)
Theorem C27_energy :
  [/\ forall x, form (M0 S) x (dd0 S *m x) = form (M1 S) (strong_grad S *m x) (strong_grad S *m x),
      forall x, form (M1 S) x (dd1 S *m x) = form (M2 S) (strong_curl S *m x) (strong_curl S *m x)
                                           + form (M0 S) (weak_div S *m x) (weak_div S *m x),
      forall x, form (M2 S) x (dd2 S *m x) = form (M3 S) (strong_div S *m x) (strong_div S *m x)
                                           + form (M1 S) (weak_curl S *m x) (weak_curl S *m x)
    & forall x, form (M3 S) x (dd3 S *m x) = form (M2 S) (weak_grad S *m x) (weak_grad S *m x)].
Proof.
have [U0 U1 U2 U3] := HM; have [g [c [d [[Hg Hc Hd] _]]]] := seq_derivs t G Gi J w Hadm.
rewrite (strong_gradE Hg U1) (strong_curlE Hc U2) (strong_divE Hd U3).
split=> x; rewrite formE bl_mulr.
- exact: (dd0_quad Hg U0).
- exact: (dd1_quad Hsym Hg Hc U0 U1).
- exact: (dd2_quad Hsym Hc Hd U1 U2).
- exact: (dd3_quad Hsym Hd U2 U3).
Qed.

Hypothesis Hpos : geometry_pos S.
Theorem C27_psd_kernel :
  [/\ forall x, 0 <= form (M0 S) x (dd0 S *m x) /\ (dd0 S *m x = 0 <-> strong_grad S *m x = 0),
      forall x, 0 <= form (M1 S) x (dd1 S *m x) /\ (dd1 S *m x = 0 <-> strong_curl S *m x = 0 /\ weak_div S *m x = 0),
      forall x, 0 <= form (M2 S) x (dd2 S *m x) /\ (dd2 S *m x = 0 <-> strong_div S *m x = 0 /\ weak_curl S *m x = 0)
    & forall x, 0 <= form (M3 S) x (dd3 S *m x) /\ (dd3 S *m x = 0 <-> weak_grad S *m x = 0)].
Proof.
have [U0 U1 U2 U3] := HM; have [g [c [d [[Hg Hc Hd] _]]]] := seq_derivs t G Gi J w Hadm.
have Hp := geometry_pos_geom Hpos; have [E0 E1 E2 E3] := C27_energy.
have P0 := proj2 (M0_psd Hp); have P1 := proj2 (M1_psd Hsym Hp).
have P2 := proj2 (M2_psd Hsym Hp); have P3 := proj2 (M3_psd Hp).
have aux n (M D : 'M[F]_n) (x : 'cV_n) : M \in unitmx -> psd (M *m D) -> (D *m x = 0 <-> bl (M *m D) x x = 0).
  move=> HU HA; split=> [H|H]; first by rewrite -bl_mulr H /bl mulmx0 mxE.
  by apply: (unit_inj HU); rewrite mulmx0 mulmxA; apply: psd_null.
have Q0 x : 0 <= form (M0 S) x (dd0 S *m x) by rewrite E0; apply: P1.
have Q1 x : 0 <= form (M1 S) x (dd1 S *m x) by rewrite E1; apply: addr_ge0; [apply: P2 | apply: P0].
have Q2 x : 0 <= form (M2 S) x (dd2 S *m x) by rewrite E2; apply: addr_ge0; [apply: P3 | apply: P1].
have Q3 x : 0 <= form (M3 S) x (dd3 S *m x) by rewrite E3; apply: P2.
have mk n (M D : 'M[F]_n) : (M *m D)^T = M *m D -> (forall x, 0 <= form M x (D *m x)) -> psd (M *m D).
  by move=> H Q; split=> // x; have := Q x; rewrite formE bl_mulr.
have S0 := mk _ _ _ (dd0_sym Hsym Hg U0) Q0; have S1 := mk _ _ _ (dd1_sym Hsym Hg Hc U0 U1) Q1.
have S2 := mk _ _ _ (dd2_sym Hsym Hc Hd U1 U2) Q2; have S3 := mk _ _ _ (dd3_sym Hsym Hd U2 U3) Q3.
rewrite (strong_gradE Hg U1) (strong_curlE Hc U2) (strong_divE Hd U3).
split=> x; (split; first by []).
- exact: iff_trans (aux _ _ _ x U0 S0) (dd0_kernel Hsym Hg U0 U1 Hp x).
- exact: iff_trans (aux _ _ _ x U1 S1) (dd1_kernel Hsym Hg Hc U0 U1 U2 Hp x).
- exact: iff_trans (aux _ _ _ x U2 S2) (dd2_kernel Hsym Hc Hd U1 U2 U3 Hp x).
- exact: iff_trans (aux _ _ _ x U3 S3) (dd3_kernel Hsym Hd U2 U3 Hp x).
Qed.

(** C28: Leray projection, for any generalised inverse of dd3 (the pseudo-inverse is one) *)
Variable pinv : 'M[F]_(rk S K3).
Hypothesis Hpinv : dd3 S *m pinv *m dd3 S = dd3 S.
Notation P := (P_Leray S pinv).
Theorem C28_divergence_free : forall u : 'cV_(rk S K2), strong_div S *m (P *m u) = 0.
Proof.
have [U0 U1 U2 U3] := HM; have [g [c [d [[Hg Hc Hd] _]]]] := seq_derivs t G Gi J w Hadm.
move=> u; rewrite (strong_divE Hd U3) mulmxA (leray_div Hsym Hd U2 U3 (geometry_pos_geom Hpos) Hpinv).
by rewrite mul0mx.
Qed.
Theorem C28_identity_on_divfree : forall u : 'cV_(rk S K2), strong_div S *m u = 0 -> P *m u = u.
Proof.
have [U0 U1 U2 U3] := HM; have [g [c [d [[Hg Hc Hd] _]]]] := seq_derivs t G Gi J w Hadm.
by move=> u; rewrite {1}(strong_divE Hd U3); apply: (leray_id Hd U3).
Qed.
Theorem C28_idempotent : P *m P = P.
Proof.
have [U0 U1 U2 U3] := HM; have [g [c [d [[Hg Hc Hd] _]]]] := seq_derivs t G Gi J w Hadm.
exact: (leray_idem Hsym Hd U2 U3 (geometry_pos_geom Hpos) Hpinv).
Qed.
Theorem C28_complement_is_gradient : forall u : 'cV_(rk S K2), exists p : 'cV_(rk S K3), u - P *m u = weak_grad S *m p.
Proof.
have [U0 U1 U2 U3] := HM; have [g [c [d [[Hg Hc Hd] _]]]] := seq_derivs t G Gi J w Hadm.
by move=> u; exists (- (pinv *m (d *m u))); apply: (leray_grad Hd U3).
Qed.
Theorem C28_selfadjoint_orthogonal : forall u v : 'cV_(rk S K2),
  form (M2 S) u (P *m v) = form (M2 S) (P *m u) v /\ form (M2 S) (u - P *m u) (P *m v) = 0.
Proof.
have [U0 U1 U2 U3] := HM; have [g [c [d [[Hg Hc Hd] _]]]] := seq_derivs t G Gi J w Hadm.
have Hsa := leray_selfadj Hsym Hd U2 U3 (geometry_pos_geom Hpos) Hpinv.
have SA (u v : 'cV_(rk S K2)) : form (M2 S) u (P *m v) = form (M2 S) (P *m u) v.
  by rewrite !formE bl_mulr bl_mull -Hsa trmx_mul (M2_sym Hsym).
move=> u v; split; first exact: SA.
rewrite SA mulmxBr mulmxA C28_idempotent subrr /form trmx0 !mul0mx mxE //.
Qed.
End Hodge.
End Seq.

(** ** C26 Mass matrices (no condition on the shape is needed) *)
Section C26.
Variable F : realFieldType.
Variable S : drseq F.
Theorem C26_symmetric : geometry_sym S ->
  [/\ (M0 S)^T = M0 S, (M1 S)^T = M1 S, (M2 S)^T = M2 S & (M3 S)^T = M3 S].
Proof. by move=> H; split; [apply: M0_sym | apply: M1_sym | apply: M2_sym | apply: M3_sym]. Qed.
(** x^T M_k x is the quadrature of the squared physical norm of the form: |f|^2 J,
    v^T G^-1 v J, v^T G v / J, f^2 / J *)
Theorem C26_quadrature :
  [/\ forall x, form (M0 S) x x = \sum_(j < n_q S) val0 x j 0 ^+ 2 * J_j S j * w_j S j,
      forall x, form (M1 S) x x = \sum_(j < n_q S)
         (\sum_(k < 3) \sum_(m < 3) val1 x j k * G_inv_jkl S j k m * val1 x j m) * J_j S j * w_j S j,
      forall x, form (M2 S) x x = \sum_(j < n_q S)
         (\sum_(k < 3) \sum_(m < 3) val2 x j k * G_jkl S j k m * val2 x j m) / J_j S j * w_j S j
    & forall x, form (M3 S) x x = \sum_(j < n_q S) val3 x j 0 ^+ 2 / J_j S j * w_j S j].
Proof.
split=> x; rewrite formE mass_quad; apply: eq_bigr => j _.
- by rewrite !big_ord1 /W0 -/(val0 x j 0) mulrAC -expr2 mulrA.
- rewrite -mulrA mulr_suml; apply: eq_bigr => k _; rewrite mulr_suml; apply: eq_bigr => m _.
  by rewrite /W1 -/(val1 x j k) -/(val1 x j m) mulrA mulrAC.
- rewrite -mulrA mulr_suml; apply: eq_bigr => k _; rewrite mulr_suml; apply: eq_bigr => m _.
  by rewrite /W2 -/(val2 x j k) -/(val2 x j m) mulrA mulrAC.
- by rewrite !big_ord1 /W3 -/(val3 x j 0) mulrAC -expr2 mulrA.
Qed.
Theorem C26_psd : geometry_sym S -> geometry_pos S ->
  [/\ forall x, 0 <= form (M0 S) x x, forall x, 0 <= form (M1 S) x x,
      forall x, 0 <= form (M2 S) x x & forall x, 0 <= form (M3 S) x x].
Proof.
move=> Hs /geometry_pos_geom Hp.
by split=> x; [apply: (proj2 (M0_psd Hp)) | apply: (proj2 (M1_psd Hs Hp)) | apply: (proj2 (M2_psd Hs Hp)) | apply: (proj2 (M3_psd Hp))].
Qed.
(** if the spline tables resolve the splines and the extracted basis is independent, all masses
    are positive definite and invertible *)
Theorem C26_definite : geometry_pos S -> tables_indep (sh S) (tb S) -> (forall k, k <> KV -> row_free (E_ S k)) ->
  masses_invertible S /\
  [/\ forall x, x != 0 -> 0 < form (M0 S) x x, forall x, x != 0 -> 0 < form (M1 S) x x,
      forall x, x != 0 -> 0 < form (M2 S) x x & forall x, x != 0 -> 0 < form (M3 S) x x].
Proof.
move=> Hp Ht HE; have HM := masses_unit Hp Ht HE; have [U0 U1 U2 U3] := HM.
split=> //; split.
- by apply: unit_pd_iff U0 => j z Hj; apply: W0_pd.
- by apply: unit_pd_iff U1 => j z Hj; apply: W1_pd.
- by apply: unit_pd_iff U2 => j z Hj; apply: W2_pd.
- by apply: unit_pd_iff U3 => j z Hj; apply: W3_pd.
Qed.
End C26.

(** ** C31 metric-free pairings *)
Section C31.
Variable F : realFieldType.
Variable S : drseq F.
Theorem C31_pairings :
  [/\ forall x y, form (M12 S) x y = \sum_(j < n_q S) (\sum_(k < 3) val1 x j k * val2 y j k) * w_j S j
    & forall x y, form (M03 S) x y = \sum_(j < n_q S) val0 x j 0 * val3 y j 0 * w_j S j].
Proof.
have aux n d n2 (g1 g2 : nat -> nat -> nat -> F) W r (E : 'M[F]_(r, n)) r2 (E2 : 'M[F]_(r2, n2)) (x : 'cV_r) (y : 'cV_r2) :
  form (E *m assemble (n_q S) d g1 g2 W n n2 *m E2^T) x y
  = \sum_(j < n_q S) \sum_(k < d) \sum_(m < d)
      evaluate_at_xq g1 (E^T *m x) j k * W j k m * evaluate_at_xq g2 (E2^T *m y) j m.
  rewrite /form !mulmxA -(mulmxA _ E2^T y) -[E2^T *m y]trmxK assemble_row.
  by apply: eq_bigr => j _; apply: eq_bigr => k _; apply: eq_bigr => m _; rewrite !fvalE trmx_mul !trmxK.
split=> x y; rewrite aux; apply: eq_bigr => j _.
- rewrite mulr_suml; apply: eq_bigr => k _; rewrite (bigD1 k) //= big1 ?addr0.
    by rewrite eqxx mulr1 mulrAC.
  by move=> m Hm; rewrite eq_sym (_ : (_ == _ :> nat) = false) ?mulr0 ?mul0r //; apply/negbTE.
- by rewrite !big_ord1 mulrAC.
Qed.
(** P12, P03 are the L2 projections: <v, P12 u> = pairing of v with u *)
Theorem C31_projections : M1 S \in unitmx -> M0 S \in unitmx ->
  (forall x y, form (M1 S) x (P12 S *m y) = form (M12 S) x y) /\
  (forall x y, form (M0 S) x (P03 S *m y) = form (M03 S) x y).
Proof. by move=> U1 U0; split=> x y; rewrite !formE bl_mulr /P12 /P03 /solve mulKVmx. Qed.
End C31.

Print Assumptions C22_strong_grad_exact.
Print Assumptions C22_strong_curl_exact.
Print Assumptions C22_strong_div_exact.
Print Assumptions C24_strong_grad_incidence.
Print Assumptions C24_strong_curl_incidence.
Print Assumptions C24_strong_div_incidence.
Print Assumptions C24_curl_grad.
Print Assumptions C24_div_curl.
Print Assumptions C25_weak_adjoint.
Print Assumptions C25_weak_complex.

Print Assumptions C26_symmetric.
Print Assumptions C26_quadrature.
Print Assumptions C26_psd.
Print Assumptions C26_definite.
Print Assumptions C27_selfadjoint.
Print Assumptions C27_energy.
Print Assumptions C27_psd_kernel.
Print Assumptions C28_divergence_free.
Print Assumptions C28_identity_on_divfree.
Print Assumptions C28_idempotent.
Print Assumptions C28_complement_is_gradient.
Print Assumptions C28_selfadjoint_orthogonal.
Print Assumptions C31_pairings.
Print Assumptions C31_projections.
