(** C62: the spectra of the Hodge Laplacians and of the cavity problems of the scripts. *)
From Coq Require Import Reals Lra.
From mathcomp Require Import all_ssreflect all_algebra zify.
From Verif Require Import Model.RBase Model.Spline Model.Quad Model.Forms Model.DeRham Model.FormEval Model.Geometry Model.SeqR Model.Eigen.
From Verif Require Import Spec.SeqSpec Spec.GeomSpec Spec.SeqRSpec Spec.RelaxSpec Spec.TopologySpec Spec.ScaleSpec Spec.SpectrumSpec.
From Verif Require Import Proof.RField Proof.ProjectionProofs Proof.SeqFacts Proof.SequenceAlg Proof.DeRhamAlg Proof.RelaxAlg Proof.SeqCalculus
  Proof.Spectral Proof.SpectrumAlg Proof.SpectrumSeq Proof.SpectrumMat Proof.ScaleProofs
  Props.DeRham Props.SequenceR Props.Relaxation Props.Topology Props.Scale.
Set Implicit Arguments.
Unset Strict Implicit.
Unset Printing Implicit Defensive.
Import Order.TTheory GRing.Theory Num.Theory.
Local Open Scope ring_scope.

Lemma tr_eq0 (F : realFieldType) n (y : 'rV[F]_n) : (y^T == 0) = (y == 0).
Proof. by apply/eqP/eqP => [/(congr1 trmx)|->]; rewrite ?trmxK ?trmx0. Qed.
Lemma spd_congr0 (F : realFieldType) n m (A : 'M[F]_n) (X : 'M[F]_(n, m)) : spd A -> X^T *m A *m X = 0 -> X = 0.
Proof.
move=> HA E; apply/matrixP => i j; have : form A (X *m delta_mx j 0) (X *m delta_mx j 0) = 0.
  by rewrite /form trmx_mul -!mulmxA [A *m _]mulmxA [X^T *m _]mulmxA [X^T *m _]mulmxA E mul0mx mulmx0 mxE.
by move/(spd_eq0 HA); rewrite -colE => /matrixP /(_ i 0); rewrite !mxE.
Qed.
Lemma vz (F : realFieldType) n m (A : 'M[F]_(n, m)) : (forall x : 'cV_m, A *m x = 0) -> A = 0.
Proof.
move=> H; apply/matrixP => i j; have := H (delta_mx j 0) => /matrixP /(_ i 0).
by rewrite -colE !mxE.
Qed.
Section Seq.
Variables (ns ps : triple) (q : nat) (types : stype * stype * stype) (DFx : point -> mat3 R_realFieldType)
  (polar dirichlet : bool).
Hypothesis Hs : supported ns ps q types polar dirichlet.
Hypothesis Hreg : regular_map DFx (seq_points ns ps q types).
Variable S : drseq R_realFieldType.
Hypothesis HS : new_sequence ns ps q types DFx polar dirichlet = Some S.

Lemma seq_ok : relax_ok S (pinvmx (dd3 S)).
Proof. by apply: (C38_sequence_ok Hs Hreg HS); apply: mulmxKpV. Qed.
Let OK := seq_ok.
Lemma seq_H0 : M0 S *m dd0 S = (strong_grad S)^T *m M1 S *m strong_grad S.
Proof.
have [f [Q' [E Hadm _ _ [HG HR HO HM]]]] := seq_summary Hs Hreg HS.
move: HM; rewrite E => HM; have [U0 U1 U2 U3] := HM.
have [g [c [d [[Hg Hc Hd] _]]]] := seq_derivs (evaluate_1d f Q') (fun j => metric (DFx (List.nth j (q_x Q') (R0, R0, R0))))
   (fun j => inv33 (metric (DFx (List.nth j (q_x Q') (R0, R0, R0))))) (fun j => det33 (DFx (List.nth j (q_x Q') (R0, R0, R0))))
   (fun j => List.nth j (q_w Q') R0) Hadm.
by rewrite (strong_gradE Hg U1) (M0_dd0 Hg U0).
Qed.
Lemma seq_WK : weak_div S *m weak_curl S = 0 /\ weak_curl S *m weak_grad S = 0.
Proof. by have [_ _ _ H] := C25_sequence Hs Hreg HS. Qed.
Let H0 := seq_H0.
Let WK := proj1 seq_WK.
Let KN := proj2 seq_WK.

(** The eigenvalues of the Hodge Laplacian of the k-forms are real and non-negative *)
Theorem C62_real : forall k l m (x y : 'cV_(rk S k)), k <> KV ->
  complex_eigenpair (mass S k *m hodge S k) (mass S k) l m x y -> m = 0 /\ 0 <= l.
Proof.
move=> k l m x y Hk; apply: psd_eigen; [exact: (hodge_sym OK H0) | exact: (spd_mass OK) | exact: (hodge_ge0 OK H0)].
Qed.

Lemma seq_betti k : k <> KV -> (\rank (hodge S k) + betti polar dirichlet k)%N = rk S k.
Proof. by move=> Hk; have [B0 B1 B2 B3] := C58_sequence_betti Hs Hreg HS; case: k Hk. Qed.

(** there is a basis of mass-orthonormal eigenvectors, and the eigenvalue 0 occurs as often as
    the Betti number of the domain says *)
Theorem C62_eigenbasis : forall k, k <> KV -> exists (V : 'M_(rk S k)) (d : 'rV_(rk S k)),
  [/\ V^T *m mass S k *m V = 1%:M, hodge S k *m V = V *m diag_mx d, forall i, 0 <= d 0 i
    & #|[pred i | d 0 i == 0]| = betti polar dirichlet k].
Proof.
move=> k Hk.
have HA := hodge_sym OK H0 Hk; have HB := spd_mass OK Hk.
have [V [d [E1 E2]]] := @pencil R_rcfType _ (mass S k *m hodge S k) (mass S k) HA (proj1 HB) (proj2 HB).
exists V, d; have HV := cong_unit E1; have UM := M_unit OK Hk.
have E3 : hodge S k *m V = V *m diag_mx d.
  by have := cong_eigen E1 E2; rewrite -!mulmxA => /(can_inj (mulKmx UM)).
split=> //.
- by move=> i; rewrite -(cong_diag i E2); apply: (hodge_ge0 OK H0).
- have := cong_rank HV E2; have -> : \rank (mass S k *m hodge S k) = \rank (hodge S k).
    by rewrite -mxrank_tr trmx_mul mxrankMfree ?mxrank_tr // row_free_unit unitmx_tr.
  by move=> E; apply: (@addnI (\rank (hodge S k))); rewrite E (seq_betti Hk).
Qed.

(** eigenvectors of different eigenvalues are orthogonal, and the derivatives carry eigenvectors to
    eigenvectors *)
Theorem C62_orthogonal : forall k l m (x y : 'cV_(rk S k)), k <> KV -> hodge S k *m x = l *: x -> hodge S k *m y = m *: y ->
  l != m -> form (mass S k) x y = 0.
Proof.
move=> k l m x y Hk Hx Hy; apply: (sym_orth (hodge_sym OK H0 Hk) (proj1 (spd_mass OK Hk))).
  by rewrite -mulmxA Hx -scalemxAr.
by rewrite -mulmxA Hy -scalemxAr.
Qed.
Theorem C62_commute :
  [/\ dd1 S *m strong_grad S = strong_grad S *m dd0 S, dd2 S *m strong_curl S = strong_curl S *m dd1 S
    & dd3 S *m strong_div S = strong_div S *m dd2 S].
Proof.
rewrite (dd0L OK H0) (dd1L OK) (dd2L OK) (dd3L S); split.
- exact: (comm_grad _ _ (ok_cg OK)).
- exact: (comm_curl _ _ _ (ok_cg OK) (ok_dc OK)).
- exact: (comm_div _ _ (ok_dc OK)).
Qed.

(** a non-zero eigenvalue of the 1-forms is one of the 0-forms or of the double curl (the pencil
    of toroid_cavity.py), one of the 2-forms is one of the double curl or of the 3-forms, with
    multiplicities *)
Definition mult k l := multiplicity (mass S k *m hodge S k) (mass S k) l.
Lemma multE k l : k <> KV -> mult k l = dimker (hodge S k - l%:M).
Proof. by move=> Hk; rewrite /mult (pencil_dimker _ _ (M_unit OK Hk)). Qed.
Lemma cavE l : multiplicity (double_curl S) (M1 S) l = dimker (weak_curl S *m strong_curl S - l%:M).
Proof. by rewrite (double_curlE OK) (pencil_dimker _ _ (M_unit OK (k := K1) _)). Qed.
Theorem C62_multiplicities : forall l, l != 0 ->
  let m := fun k => multiplicity (mass S k *m hodge S k) (mass S k) l in
  let c := multiplicity (double_curl S) (M1 S) l in
  [/\ m K1 = (m K0 + c)%N, m K2 = (c + m K3)%N & (m K0 + m K2)%N = (m K1 + m K3)%N].
Proof.
move=> l Hl m c.
have E1 : m K1 = (m K0 + c)%N.
  rewrite /m /c cavE -!/(mult _ _) !multE //= (dd0L OK H0) (dd1L OK).
  exact: (dimker_L1 (ok_cg OK) WK Hl).
have E2 : m K2 = (c + m K3)%N.
  rewrite /m /c cavE -!/(mult _ _) !multE //= (dd3L S) (dd2L OK).
  exact: (dimker_L2 (ok_dc OK) KN Hl).
by split=> //; rewrite E1 E2 addnA.
Qed.

(** *** the cavity problem of scripts/interactive/cylinder_cavity.py, u: electric field, p: multiplier *)
Theorem C62_cavity : forall l (u : 'cV_(rk S K1)) (p : 'cV_(rk S K0)),
  eigenpair (script_Q S) (saddle_mass S) l (col_mx u p) <->
  [/\ (u != 0) || (p != 0), weak_div S *m u = 0, weak_curl S *m (strong_curl S *m u) = l *: u & strong_grad S *m p = 0].
Proof.
move=> l u p; rewrite /eigenpair (saddle_eigen OK WK) col_mx_eq0 negb_and.
by split=> [[H1 [H2 H3 H4]]|[H1 H2 H3 H4]]; split.
Qed.
Lemma grad_inj : dirichlet -> forall p : 'cV_(rk S K0), strong_grad S *m p = 0 -> p = 0.
Proof. by have [H _ _ _] := C58_sequence_exact Hs Hreg HS. Qed.
(** with Dirichlet conditions: the multiplier vanishes, the eigenvalues are real and non-negative,
    each non-zero one occurs as often as for the double curl, 0 as often as the first Betti number *)
Theorem C62_cavity_dirichlet : dirichlet ->
  [/\ forall l m (u v : 'cV_(rk S K1)) (p q : 'cV_(rk S K0)),
        complex_eigenpair (script_Q S) (saddle_mass S) l m (col_mx u p) (col_mx v q) -> [/\ p = 0, q = 0, m = 0 & 0 <= l],
      forall l, l != 0 -> multiplicity (script_Q S) (saddle_mass S) l = multiplicity (double_curl S) (M1 S) l
    & multiplicity (script_Q S) (saddle_mass S) 0 = betti polar dirichlet K1].
Proof.
move=> Hd; have HG := grad_inj Hd; split.
- move=> l m u v p r HE; have [Gp Gr Em Wu Wv] := saddle_complex OK WK HE.
  have Ep := HG _ Gp; have Er := HG _ Gr; rewrite {}Ep {}Er in HE *.
  have Hn : (u != 0) || (v != 0) by case: HE; rewrite !col_mx_eq0 !eqxx !andbT.
  have pos : 0 < form (M1 S) u u + form (M1 S) v v.
    case/orP: Hn => H; [apply: ltr_paddr | apply: ltr_paddl]; rewrite ?spd_ge0 ?(proj2 (ok_M1 OK)) //; exact: (ok_M1 OK).
  have m0 : m = 0 by move/eqP: Em; rewrite mulf_eq0 (gt_eqF pos) orbF => /eqP.
  split=> //; case: HE => _; rewrite m0 !scale0r subr0 add0r => /(saddle_eigen OK WK) [_ Eu _] /(saddle_eigen OK WK) [_ Ev _].
  have := addr_ge0 (spd_ge0 (ok_M2 OK) (strong_curl S *m u)) (spd_ge0 (ok_M2 OK) (strong_curl S *m v)).
  by rewrite -!(curlcurl_ge0 OK) Eu Ev !formZr -mulrDr pmulr_lge0.
- by move=> l Hl; rewrite (cavity_mult OK WK HG Hl) cavE.
- rewrite (cavity_mult0 OK WK HG); apply: (@addIn (\rank (dd1 S))); rewrite dimkerE addnC.
  by rewrite (seq_betti (k := K1)).
Qed.
(** on a solid torus or cylinder with Dirichlet conditions there is no zero mode *)
Corollary C62_cavity_positive : polar -> dirichlet -> forall l x, eigenpair (script_Q S) (saddle_mass S) l x -> 0 < l.
Proof.
move=> Hp Hd l x; rewrite -[x]vsubmxK => HE; have HE' := HE; move/C62_cavity: HE' => [Hn Wu Ku Gp].
have p0 := grad_inj Hd Gp; rewrite p0 eqxx orbF in Hn.
have [_ U1 _ _] := C58_sequence_invertible Hs Hreg HS; have {}U1 : dd1 S \in unitmx by apply/U1; rewrite Hp Hd.
have N2 : strong_curl S *m usubmx x != 0.
  apply: contra Hn => /eqP Cu; rewrite -[usubmx x](mulKmx U1).
  have -> : dd1 S *m usubmx x = 0 by apply/(dd1_ker OK).
  by rewrite mulmx0.
have := proj2 (ok_M2 OK) _ N2; rewrite -(curlcurl_ge0 OK) Ku formZr pmulr_lgt0 // (proj2 (ok_M1 OK)) //.
Qed.
(** without Dirichlet conditions the pencil is singular: the constants give an eigenvector for
    every number *)
Theorem C62_cavity_singular : dirichlet = false -> exists2 x, x != 0 & forall l, eigenpair (script_Q S) (saddle_mass S) l x.
Proof.
move=> Hd; have : (\rank (dd0 S) < rk S K0)%N.
  have E := seq_betti (k := K0) (fun e => ltac:(discriminate)); rewrite Hd /= in E.
  by rewrite -[X in (_ < X)%N]E -[X in (X < _)%N]addn0 ltn_add2l; case: (polar).
rewrite -mxrank_tr -subn_gt0 -mxrank_ker lt0n mxrank_eq0 => /rowV0Pn [y /sub_kermxP Hy Ny].
have Dy : dd0 S *m y^T = 0 by rewrite -[dd0 S]trmxK -trmx_mul Hy trmx0.
exists (col_mx 0 y^T); first by rewrite col_mx_eq0 negb_and tr_eq0 Ny orbT.
move=> l; apply/C62_cavity; rewrite !mulmx0 scaler0; split=> //; last by apply/(dd0_ker OK H0).
by rewrite tr_eq0 Ny orbT.
Qed.

(** *** the singular vector Poisson problem *)
(** the tests' L = M2 dd2 and pseudo-inverse from eigh with a cut-off: if no non-zero eigenvalue is
    below the cut-off, L u = P2(f) exactly when f is L2-orthogonal to the harmonic fields; the coefficient
    vector returned is Euclid-orthogonal to those of the harmonic fields (least norm) *)
Theorem C62_vector_poisson : forall V d tol, eigh_value (M2 S *m dd2 S) d V -> 0 <= tol ->
  (forall i, d 0 i = 0 \/ tol < d 0 i) -> forall f : 'cV_(rk S K2),
  (dd2 S *m (spectral_pinv V d tol *m (M2 S *m f)) = f <->
    (forall h : 'cV_(rk S K2), strong_div S *m h = 0 -> weak_curl S *m h = 0 -> form (M2 S) h f = 0)) /\
  (forall h : 'cV_(rk S K2), dd2 S *m h = 0 -> (h^T *m (spectral_pinv V d tol *m (M2 S *m f))) 0 0 = 0).
Proof.
move=> V d tol HE Ht Hd f; split; last by move=> h Hh; apply: (pinv_orth HE Ht); rewrite -mulmxA Hh mulmx0.
have UM := M_unit OK (k := K2) (fun e => ltac:(discriminate)).
have Hd' i : d 0 i = 0 \/ tol < `|d 0 i|.
  by case: (Hd i) => H; [left | right; apply: lt_le_trans H _; exact: ler_norm].
have := pinv_compatible HE Ht (M2 S *m f) Hd'.
have -> : M2 S *m dd2 S *m (spectral_pinv V d tol *m (M2 S *m f)) = M2 S *m (dd2 S *m (spectral_pinv V d tol *m (M2 S *m f))) by rewrite [RHS]mulmxA.
move=> [H1 H2]; split=> [E h Dh Kh|H].
  have Lh : M2 S *m dd2 S *m h = 0 by rewrite (ok_dd2 OK) (mul2 (M2 S)) mulmxBl (mul2 (strong_curl S)) (mul2 (weak_grad S)) Kh Dh !mulmx0 subrr mulmx0.
  by have := H1 (congr1 (mulmx (M2 S)) E) h Lh; rewrite /form mulmxA.
apply: (can_inj (mulKmx UM)); apply: H2 => h Lh; rewrite mulmxA; apply: H.
all: have := congr1 (fun z => (h^T *m z) 0 0) Lh; rewrite mulmxA mulmx0 [RHS]mxE -/(form _ _ _) (M2L OK) form_add !(mul2 _^T) !form_mull.
all: rewrite (form_mulr (M1 S)) (form_mulr (M3 S)) => /eqP; rewrite paddr_eq0 ?spd_ge0 //; try solve [exact: ok_M1 OK | exact: ok_M3 OK].
all: by move=> /andP [/eqP E1 /eqP E2]; rewrite ?(spd_eq0 (ok_M1 OK) E1) ?(spd_eq0 (ok_M3 OK) E2).
Qed.
(** a cut-off above a non-zero eigenvalue loses a solvable right-hand side *)
Theorem C62_vector_poisson_cutoff : forall V d tol i, eigh_value (M2 S *m dd2 S) d V -> 0 <= tol -> 0 < d 0 i <= tol ->
  exists u : 'cV_(rk S K2), dd2 S *m (spectral_pinv V d tol *m (M2 S *m (dd2 S *m u))) <> dd2 S *m u.
Proof.
move=> V d tol i HE Ht /andP [Hi1 Hi2]; exists (col i V) => E.
have Ni : d 0 i != 0 by rewrite gt_eqF.
have Hi : `|d 0 i| <= tol by rewrite gtr0_norm.
apply: (pinv_truncates HE Ht Ni Hi); rewrite !(mul2 (M2 S)) E //.
Qed.
(** test_cylinder_vector_poisson_projection.py: on its domain (hollow, Dirichlet) projecting out
    one harmonic field v leaves right-hand sides without solution, because there are two *)
Theorem C62_one_vector_deflation_refuted : polar = false -> dirichlet = true -> forall v : 'cV_(rk S K2), v != 0 -> dd2 S *m v = 0 ->
  exists f : 'cV_(rk S K2), form (M2 S) v f = 0 /\
  forall x, deflation (M2 S) v *m (M2 S *m dd2 S) *m deflation (M2 S) v *m x <> deflation (M2 S) v *m (M2 S *m f).
Proof.
move=> Hp Hd v Nv Dv.
have E2 := seq_betti (k := K2) (fun e => ltac:(discriminate)); rewrite Hp Hd /= in E2.
have Hr : (\rank (row_mx (dd2 S)^T (M2 S *m v)) < rk S K2)%N.
  rewrite -[X in (_ < X)%N]E2 -mxrank_tr tr_row_mx trmxK.
  have H : (\rank (col_mx (dd2 S) (M2 S *m v)^T) <= \rank (dd2 S) + \rank (M2 S *m v)^T)%N.
    by rewrite -addsmxE; apply: mxrank_adds_leqif.
  apply: leq_ltn_trans H _; rewrite ltn_add2l ltnS; exact: rank_leq_row.
move: Hr; rewrite -subn_gt0 -mxrank_ker lt0n mxrank_eq0 => /rowV0Pn [y /sub_kermxP].
rewrite mul_mx_row -row_mx0 => /eq_row_mx [Hy My] Ny.
have Nw : y^T != 0 by rewrite tr_eq0.
have Dw : dd2 S *m y^T = 0 by rewrite -[dd2 S]trmxK -trmx_mul Hy trmx0.
have Ew : form (M2 S) v y^T = 0 by rewrite (formC _ _ (proj1 (ok_M2 OK))) /form trmxK -mulmxA My mxE.
exists y^T; split=> // x.
have HL := hodge_sym OK H0 (k := K2) (fun e => ltac:(discriminate)).
by apply: (defl_second (ok_M2 OK) HL) => //; rewrite (mul2 (M2 S)) ?Dv ?Dw mulmx0.
Qed.
(** ... and its unknown x is not the solution: P x is, and x itself solves the problem only if its
    coefficient vector happens to be Euclid-orthogonal to v, or L M2 v = 0 *)
Theorem C62_deflation : forall v f x : 'cV_(rk S K2), v != 0 -> dd2 S *m v = 0 -> form (M2 S) v f = 0 ->
  deflation (M2 S) v *m (M2 S *m dd2 S) *m deflation (M2 S) v *m x = deflation (M2 S) v *m (M2 S *m f) ->
  dd2 S *m (deflation (M2 S) v *m x) = f /\
  (dd2 S *m x = f <-> (v^T *m x) 0 0 *: (dd2 S *m (M2 S *m v)) = 0).
Proof.
move=> v f x Nv Dv Ef HE; have UM := M_unit OK (k := K2) (fun e => ltac:(discriminate)).
have HL := hodge_sym OK H0 (k := K2) (fun e => ltac:(discriminate)).
have Lv : M2 S *m dd2 S *m v = 0 by rewrite (mul2 (M2 S)) Dv mulmx0.
have Ef' : (v^T *m (M2 S *m f)) 0 0 = 0 by rewrite mulmxA.
have [] := defl_solution (ok_M2 OK) HL Nv Lv Ef' HE; rewrite !(mul2 (M2 S)) scalemxAr.
move=> /(can_inj (mulKmx UM)) E1 E2; split=> //; split=> [E|E].
  by apply: (can_inj (mulKmx UM)); rewrite mulmx0; apply/E2; rewrite /= E.
by apply: (can_inj (mulKmx UM)); apply/E2; rewrite /= E mulmx0.
Qed.
(** a cavity in which not every field is curl-free has a lowest frequency *)
Theorem C62_cavity_lowest : dirichlet -> strong_curl S != 0 -> exists l, lowest (script_Q S) (saddle_mass S) l.
Proof.
move=> Hd NC; have HG := grad_inj Hd.
have HA : (double_curl S)^T = double_curl S.
  have -> : double_curl S = (strong_curl S)^T *m M2 S *m strong_curl S by rewrite (double_curlE OK) mulmxA (MK OK).
  by apply: congrT; case: (ok_M2 OK).
have [V [d [E1 E2]]] := @pencil R_rcfType _ (double_curl S) (M1 S) HA (proj1 (ok_M1 OK)) (proj2 (ok_M1 OK)).
have HV := cong_unit E1; have UM := M_unit OK (k := K1) (fun e => ltac:(discriminate)).
have E3 : weak_curl S *m strong_curl S *m V = V *m diag_mx d.
  by have := cong_eigen E1 E2; rewrite (double_curlE OK) !(mul2 (M1 S)) => /(can_inj (mulKmx UM)).
have dge i : 0 <= d 0 i.
  rewrite -(cong_diag i E2) (double_curlE OK) (form_mulr (M1 S)) (mul2 (weak_curl S)) (curlcurl_ge0 OK).
  exact: (spd_ge0 (ok_M2 OK)).
have [i0 Hi0] : exists i0, 0 < d 0 i0.
  apply/existsP; case: existsP => // H; case/negP: NC; apply/eqP.
  have d0 : d = 0.
    apply/rowP => i; rewrite mxE; apply/eqP; rewrite eq_le dge andbT leNgt; apply/negP => Hi.
    by apply: H; exists i.
  have KC : weak_curl S *m strong_curl S = 0.
    by rewrite -[LHS](mulmxK HV) E3 d0 (_ : diag_mx 0 = 0) ?mulmx0 ?mul0mx //; apply/matrixP => i j; rewrite !mxE mul0rn.
  apply: vz => x; apply: (curlcurl0 OK); by rewrite -(mul2 (weak_curl S)) KC mul0mx.
have [i Hi Hmin] := arg_minP (P := fun i => 0 < d 0 i) (fun i => d 0 i) Hi0.
exists (d 0 i); split=> //.
  exists (col_mx (col i V) 0); apply/C62_cavity; rewrite mulmx0.
  have Ei : weak_curl S *m (strong_curl S *m col i V) = d 0 i *: col i V.
    rewrite -(mul2 (weak_curl S)); have -> : weak_curl S *m strong_curl S *m col i V = col i (V *m diag_mx d) by rewrite -E3 !colE mulmxA.
    apply/colP => k; rewrite !mxE (bigD1 i) //= big1 ?addr0 => [|j Hj]; first by rewrite mxE eqxx mulr1n mulrC.
    by rewrite mxE (negbTE Hj) mulr0n mulr0.
  have Nz : col i V != 0.
    apply/eqP => E; have := congr1 (mulmx (invmx V)) E; rewrite colE mulmxA mulVmx // mul1mx mulmx0 => /colP /(_ i).
    by rewrite !mxE !eqxx => /eqP; rewrite oner_eq0.
  split=> //; first by rewrite Nz.
  rewrite -[col i V]scale1r -(mulVf (lt0r_neq0 Hi)) -scalerA -Ei -scalemxAr.
  by rewrite -(mul2 (weak_div S)) WK mul0mx scaler0.
move=> m x Hm; rewrite -[x]vsubmxK => /C62_cavity [Hn Wu Ku Gp].
rewrite (HG _ Gp) eqxx orbF in Hn.
have [c Hc] : exists c, c = invmx V *m usubmx x by eexists.
have Ec : diag_mx d *m c = m *: c.
  have : V *m (diag_mx d *m c) = V *m (m *: c).
    rewrite mulmxA -E3 Hc -[LHS]mulmxA mulKVmx // (mul2 (weak_curl S)) Ku -scalemxAr mulKVmx //.
  exact: (can_inj (mulKmx HV)).
have [k Hk] : exists k, c k 0 != 0.
  apply/existsP; case: existsP => // H; case/negP: Hn; apply/eqP.
  have -> : usubmx x = V *m c by rewrite Hc mulKVmx.
  have -> : c = 0; last by rewrite mulmx0.
  by apply/colP => k; rewrite mxE; apply/eqP; apply/negPn/negP => Hk; apply: H; exists k.
have /colP /(_ k) := Ec; rewrite mul_diag_mx !mxE => /(mulIf Hk) <-; apply: Hmin.
by have /colP /(_ k) := Ec; rewrite mul_diag_mx !mxE => /(mulIf Hk) ->.
Qed.
End Seq.

(** *** Which of the pencils of the scripts and tests can be right: the eigenvalues of a cavity
    magnified by a are a^-2 times those of the cavity *)
Section Scaling.
Variable F : realFieldType.
Variable S : drseq F.
Hypothesis HM : masses_invertible S.
Variable a : F.
Hypothesis Ha : 0 < a.
Variables (G Gi : nat -> nat -> nat -> F) (J : nat -> F).
Hypothesis HG : magnified a S G Gi J.
Notation S' := (regeom S G Gi J).
Let a0 : a != 0. Proof. by rewrite gt_eqF. Qed.
Let cc_s : double_curl S' = a^-1 *: double_curl S.
Proof.
rewrite /double_curl (M1s a0 HG) (dd1s a0 HG HM) (grads a0 HG HM) (wdivs a0 HG HM) -scalemxAr -scalerDr -scalemxAl -scalemxAr scalerA.
by congr (_ *: _); rewrite expr2 invfM mulVKf.
Qed.
Lemma saddle_s (c l : F) (A A' : 'M[F]_(rk S K1)) (u : 'cV_(rk S K1)) (p : 'cV_(rk S K0)) : c != 0 -> A' = (a * c) *: A ->
  eigenpair (saddle A) (saddle_mass S) l (col_mx u p) <->
  eigenpair (saddle (S := S') A') (saddle_mass S') (c * l) (col_mx u (c *: p)).
Proof.
move=> Hc ->; rewrite /eigenpair !col_mx_eq0 scaler_eq0 (negbTE Hc) /= /saddle /saddle_mass !mul_block_col (D0s a0 HG) (M1s a0 HG) !mul0mx !addr0.
rewrite !scale_col_mx !scaler0.
have -> : (a * c) *: A *m u + a *: D0 S *m (c *: p) = (a * c) *: (A *m u + D0 S *m p).
  by rewrite -!scalemxAl -scalemxAr scalerDr scalerA.
have -> : (c * l) *: (a *: M1 S *m u) = (a * c) *: (l *: (M1 S *m u)).
  by rewrite -scalemxAl !scalerA; congr (_ *: _); rewrite mulrC mulrA.
have -> : (a *: D0 S)^T *m u = a *: ((D0 S)^T *m u) by rewrite linearZ /= -scalemxAl.
have ac0 : a * c != 0 by rewrite mulf_neq0.
split=> -[Hn /eq_col_mx [E1 E2]]; split=> //; first by rewrite E1 E2 scaler0.
by rewrite (scalerI ac0 E1) (scalerI a0 (etrans E2 (esym (scaler0 _ _)))).
Qed.
Lemma lowest_s (c l : F) (A A' : 'M[F]_(rk S K1)) : 0 < c -> A' = (a * c) *: A ->
  lowest (saddle A) (saddle_mass S) l -> lowest (saddle (S := S') A') (saddle_mass S') (c * l).
Proof.
move=> Hc EA [Hl [x Hx] Hmin]; have c0 : c != 0 by rewrite gt_eqF.
split; first exact: mulr_gt0.
  by move: Hx; rewrite -[x]vsubmxK => /(saddle_s _ _ _ c0 EA) Hx; eexists; exact: Hx.
move=> m y Hm; rewrite -[y]vsubmxK; move: (usubmx y) (dsubmx y) => u p.
have -> : m = c * (c^-1 * m) by rewrite mulVKf.
have -> : p = c *: (c^-1 *: p) by rewrite scalerA mulfV // scale1r.
move=> /(saddle_s _ _ _ c0 EA) Hy; rewrite ler_pmul2l //; apply: Hmin Hy.
by rewrite mulr_gt0 // invr_gt0.
Qed.
(** cylinder_cavity.py has the scaling of the physical problem, test_cylinder_cavity.py, whose
    double curl is dd1, does not: if its lowest frequency is right on a domain it is wrong on
    every magnified or reduced one *)
Theorem C62_cavity_scaling : forall l, lowest (script_Q S) (saddle_mass S) l -> lowest (script_Q S') (saddle_mass S') (a ^- 2 * l).
Proof.
move=> l; apply: lowest_s; first by rewrite invr_gt0 exprn_gt0.
by rewrite cc_s; congr (_ *: _); rewrite expr2 invfM mulVKf.
Qed.
Theorem C62_test_cavity_scaling : forall l, lowest (test_Q S) (saddle_mass S) l -> lowest (test_Q S') (saddle_mass S') (a ^- 3 * l).
Proof.
move=> l; apply: (lowest_s (A := dd1 S)); first by rewrite invr_gt0 exprn_gt0.
have -> : a * a ^- 3 = a ^- 2 by rewrite [a ^+ 3]exprS invfM mulVKf.
exact: (dd1s a0 HG HM).
Qed.
Theorem C62_test_cavity_refuted : a != 1 -> forall l, lowest (script_Q S) (saddle_mass S) l -> lowest (test_Q S) (saddle_mass S) l ->
  exists l1 l2, [/\ lowest (script_Q S') (saddle_mass S') l1, lowest (test_Q S') (saddle_mass S') l2 & l1 != l2].
Proof.
move=> Ha1 l H1 H2; exists (a ^- 2 * l), (a ^- 3 * l); split; first exact: C62_cavity_scaling.
- exact: C62_test_cavity_scaling.
- have [Hl _ _] := H1; apply/negP => /eqP /(mulIf (lt0r_neq0 Hl)) E.
  have : a ^- 2 * a ^+ 3 = 1 by rewrite E mulVf // expf_neq0.
  by rewrite [a ^+ 3](exprD _ 2 1) mulKf ?expf_neq0 // expr1 => /eqP; rewrite (negbTE Ha1).
Qed.
(** cylinder_vector_poisson.py's L = C solve(M1, C^T) + divdiv is not M2 dd2: it cannot be on a
    domain and on a magnified one, unless all curls vanish *)
Theorem C62_script_laplacian_refuted : forall pinv : 'M[F]_(rk S K3), relax_ok S pinv -> a != 1 ->
  script_L S = M2 S *m dd2 S -> script_L S' = M2 S' *m dd2 S' -> strong_curl S = 0.
Proof.
move=> pinv OK Ha1; rewrite /script_L.
rewrite (M2s a0 HG) (M1s a0 HG) (dd2s a0 HG HM) (curls a0 HG HM) (wcurls a0 HG HM).
have [U0 U1 U2 U3] := HM.
have [E HE] : exists E, E = strong_curl S *m solve (M1 S) (strong_curl S)^T by eexists.
have -> : strong_curl S *m solve (a *: M1 S) (strong_curl S)^T = a^-1 *: E.
  by rewrite -[X in solve _ X]scale1r solve_scale // div1r HE -scalemxAr.
rewrite -HE; have sub (X Y Z : 'M[F]_(rk S K2)) : X + (Y - Z) = Y -> X = Z.
  by move=> /eqP; rewrite addrCA -[X in _ == X]addr0 (inj_eq (addrI _)) subr_eq0 => /eqP.
rewrite -scalemxAr -scalerBr -!scalemxAl -!scalemxAr mulmxBr !scalerBr => /sub E1 /sub; rewrite -E1 => E2.
have E0 : E = 0.
  have : (a^-1 - a^-1 * a ^- 2) *: E = 0 by rewrite scalerBl {1}E2 !scalerA subrr.
  move/eqP; rewrite scaler_eq0 -{1}[a^-1]mulr1 -mulrBr mulf_eq0 invr_eq0 (negbTE a0) /= subr_eq0 eq_sym.
  by rewrite invr_eq1 (pexpr_eq1 _ (ltW Ha)) // (negbTE Ha1) => /eqP.
have Sm : solve (M1 S) (strong_curl S)^T = 0.
  apply: (spd_congr0 (ok_M1 OK)); rewrite -mulmxA; have -> : M1 S *m solve (M1 S) (strong_curl S)^T = (strong_curl S)^T.
    by rewrite /solve mulKVmx.
  by rewrite -E0 HE /solve trmx_mul trmxK trmx_inv (proj1 (ok_M1 OK)) [RHS]mulmxA.
apply: trmx_inj; rewrite trmx0.
by have := congr1 (mulmx (M1 S)) Sm; rewrite /solve mulKVmx // mulmx0.
Qed.
End Scaling.

(** *** generalized_eigh of drumshape.py: exact eigenpairs of the shifted problem, hence a residual
    proportional to the eigenvalue *)
Theorem C62_generalized_eigh : forall (F : realFieldType) n (A B : 'M[F]_n) d X, generalized_eigh A B d X ->
  let eps := (10%:R ^+ 12)^-1 in
  [/\ X^T *m (B + eps%:M) *m X = 1%:M, A *m X = (B + eps%:M) *m X *m diag_mx d
    & forall i, A *m col i X - d 0 i *: (B *m col i X) = (eps * d 0 i) *: col i X].
Proof.
move=> F n A B d X HX eps; have [E1 E2] := geigh HX; split=> // i.
have : A *m col i X = d 0 i *: ((B + eps%:M) *m col i X).
  rewrite !colE mulmxA E2 -mulmxA; have -> : diag_mx d *m delta_mx i 0 = d 0 i *: delta_mx i 0 :> 'cV_n.
    apply/colP => k; rewrite mul_diag_mx !mxE; case: (altP (k =P i)) => [->|]; by rewrite ?mulr0 //= mulr0.
  by rewrite -scalemxAr -mulmxA.
by move=> ->; rewrite mulmxDl scalerDr addrC addKr mul_scalar_mx scalerA mulrC.
Qed.
Theorem C62_generalized_eigh_total : forall n (A B : 'M[R_realFieldType]_n), A^T = A -> spd B -> exists d X, generalized_eigh A B d X.
Proof.
move=> n A B HA HB; pose eps : R_realFieldType := (10%:R ^+ 12)^-1.
have e0 : 0 < eps by rewrite invr_gt0 exprn_gt0 // ltr0n.
have HBe : spd (B + eps%:M).
  split=> [|x Hx]; first by rewrite linearD /= tr_scalar_mx (proj1 HB).
  rewrite form_add addr_gt0 ?(proj2 HB) //.
  have -> : form eps%:M x x = eps * (x^T *m x) 0 0 by rewrite /form mul_mx_scalar -scalemxAl mxE.
  rewrite mulr_gt0 //; have -> : (x^T *m x) 0 0 = (x^T *m (x^T)^T) 0 0 by rewrite trmxK.
  rewrite lt_neqAle (dot_ge0 (R := R_rcfType)) andbT eq_sym; apply/eqP => /(dot_eq0 (R := R_rcfType)) E.
  by case/eqP: Hx; apply: trmx_inj; rewrite E trmx0.
have [V [d0 [E1 _]]] := @pencil R_rcfType _ A (B + eps%:M) HA (proj1 HBe) (proj2 HBe).
have HV := cong_unit E1; have HVT : V^T \in unitmx by rewrite unitmx_tr.
have HS : (V^T *m A *m V)^T = V^T *m A *m V by apply: congrT.
have [Q [d [QQ Qd]]] := spectral (R := R_rcfType) HS.
have EI : invmx (invmx V)^T = V^T by rewrite trmx_inv invmxK.
exists d, (V *m Q^T), (invmx V)^T, Q^T; split.
- by rewrite unitmx_tr unitmx_inv.
- rewrite trmxK trmx_inv; apply: (can_inj (mulKmx HVT)); rewrite mulmxA mulmxV // mul1mx.
  by apply: (can_inj (mulmxK HV)); rewrite mulVmx // -[LHS]E1 mulmxA.
- rewrite EI trmxK; split; first by rewrite trmxK.
  have QT : Q^T *m Q = 1%:M by apply: mulmx1C.
  by rewrite -Qd !mulmxA QT mul1mx.
- by rewrite EI trmxK.
Qed.

(** the hypotheses above are met: a sequence with non-zero curls, its magnification by 2, its lowest
    cavity frequency, its eigen-decompositions *)
Example C62_nonvacuous : exists (S : drseq R_realFieldType) G Gi J,
  [/\ new_sequence (8, 8, 1)%N (3, 3, 0)%N 4 (Clamped, Periodic, Constant) (fun _ => id33) true true = Some S,
      supported (8, 8, 1)%N (3, 3, 0)%N 4 (Clamped, Periodic, Constant) true true, strong_curl S != 0 /\ magnified 2%:R S G Gi J,
      exists l, lowest (script_Q S) (saddle_mass S) l
    & exists d V, eigh_value (M2 S *m dd2 S) d V].
Proof.
have [H1 _ H3 _ H5] := SequenceR_nonvacuous.
have [S [G [Gi [J [Hs _ HS _ [HG _ _ HC]]]]]] := C63_nonvacuous.
exists S, G, Gi, J; split=> //.
- exact: (C62_cavity_lowest Hs (H3 _) HS).
- have HL := hodge_sym (seq_ok Hs (H3 _) HS) (seq_H0 Hs (H3 _) HS) (k := K2) (fun e => ltac:(discriminate)).
  have [Q [d [QQ Qd]]] := spectral (R := R_rcfType) HL.
  exists d, Q^T; split; first by rewrite trmxK.
  by rewrite -Qd !mulmxA (mulmx1C QQ) mul1mx.
Qed.
Print Assumptions C62_eigenbasis.
Print Assumptions C62_multiplicities.
Print Assumptions C62_cavity_dirichlet.
Print Assumptions C62_cavity_lowest.
Print Assumptions C62_script_laplacian_refuted.
Print Assumptions C62_generalized_eigh_total.
