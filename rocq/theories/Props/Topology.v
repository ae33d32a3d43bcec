(** Property theorems C58: the topology the discretisation sees (Spec/TopologySpec.v). *)
From Coq Require Import Reals Lra.
From Coquelicot Require Import Coquelicot.
From mathcomp Require Import all_ssreflect all_algebra zify.
From Verif Require Import Model.RBase Model.Spline Model.Quad Model.Forms Model.DeRham Model.FormEval Model.Geometry Model.SeqR Model.Relaxation.
From Verif Require Import Spec.Cochain Spec.PolarSpace Spec.SeqSpec Spec.FormSpec Spec.GeomSpec Spec.SeqRSpec Spec.TopologySpec Spec.RelaxSpec.
From Verif Require Import Proof.RField Proof.SequenceAlg Proof.DeRhamAlg Proof.SeqFacts Proof.MassSPD Proof.GeometryProofs Proof.ProjectionProofs Proof.Limits Proof.SeqRProofs Proof.SeqDeriv Proof.SeqCalculus Proof.Topology
  Props.DeRham Props.SequenceR Props.Relaxation.
Set Implicit Arguments.
Unset Strict Implicit.
Unset Printing Implicit Defensive.
Import Order.TTheory GRing.Theory Num.Theory.
Local Open Scope ring_scope.

Section Top.
Variable F : realFieldType.
Variables (s : shape) (t : tables F) (G Gi : nat -> nat -> nat -> F) (J w : nat -> F)
  (xi : nat -> nat -> nat -> F) (polar dirichlet : bool).
Hypothesis Hadm : admissible s xi polar dirichlet.
Notation S := (DeRhamSequence s t G Gi J w xi polar dirichlet).
Hypotheses (HM : masses_invertible S) (Hsym : geometry_sym S) (Hpos : geometry_pos S).

(** the kernel of the k-th Hodge Laplacian (the harmonic k-forms) has dimension betti_k *)
Theorem C58_betti :
  [/\ (\rank (dd0 S) + betti polar dirichlet K0)%N = rk S K0,
      (\rank (dd1 S) + betti polar dirichlet K1)%N = rk S K1,
      (\rank (dd2 S) + betti polar dirichlet K2)%N = rk S K2
    & (\rank (dd3 S) + betti polar dirichlet K3)%N = rk S K3].
Proof.
have [U0 U1 U2 U3] := HM; have Hp := geometry_pos_geom Hpos.
have [g [c [d [[Hg Hc Hd] _]]]] := seq_derivs t G Gi J w Hadm.
have [K_0 K_1 K_2 K_3] := C27_psd_kernel Hadm HM Hsym Hpos.
have CG := C24_curl_grad Hadm HM; have DC := C24_div_curl Hadm HM.
have [R0 R1 R2 R3] := strong_ranks Hadm HM.
have ui n (M : 'M[F]_n) (x : 'cV_n) : M \in unitmx -> x = 0 <-> M *m x = 0.
  by move=> U; split=> [->|H]; [rewrite mulmx0 | apply: (unit_inj U); rewrite H mulmx0].
have on n m (A : 'M[F]_(n, m)) (x : 'cV_m) : - A *m x = 0 <-> A *m x = 0.
  by rewrite mulNmx; split=> [/eqP|->]; rewrite ?oppr0 // oppr_eq0 => /eqP.
have Eg := strong_gradE Hg U1; have Ec := strong_curlE Hc U2; have Ed := strong_divE Hd U3.
have k0 : \rank (dd0 S) = \rank (strong_grad S).
  have := @hodge_rank _ _ _ 0 (M0 S) (dd0 S) (strong_grad S) 0.
  rewrite mxrank0 addn0; apply=> //; [exact: M0_psd | by rewrite mulmx0 |].
  by move=> x; rewrite (K_0 x).2 trmx0 !mul0mx; split=> [|[]].
have k1 : \rank (dd1 S) = (\rank (strong_curl S) + \rank (strong_grad S))%N.
  apply: (@hodge_rank _ _ _ _ (M1 S)) => //; first exact: M1_psd.
  move=> x; rewrite (K_1 x).2.
  have -> // : weak_div S *m x = 0 <-> (strong_grad S)^T *m M1 S *m x = 0.
  by rewrite (ui _ (M0 S)) // mulmxA (M0_wdiv Hsym Hg) // Eg on.
have k2 : \rank (dd2 S) = (\rank (strong_div S) + \rank (strong_curl S))%N.
  apply: (@hodge_rank _ _ _ _ (M2 S)) => //; first exact: M2_psd.
  move=> x; rewrite (K_2 x).2.
  have -> // : weak_curl S *m x = 0 <-> (strong_curl S)^T *m M2 S *m x = 0.
  by rewrite (ui _ (M1 S)) // mulmxA (M1_wcurl Hsym Hc) // Ec.
have k3 : \rank (dd3 S) = \rank (strong_div S).
  have := @hodge_rank _ _ 0 _ (M3 S) (dd3 S) 0 (strong_div S).
  rewrite mxrank0 add0n; apply=> //; [exact: M3_psd | by rewrite mul0mx |].
  move=> x; rewrite (K_3 x).2 mul0mx.
  have -> : weak_grad S *m x = 0 <-> (strong_div S)^T *m M3 S *m x = 0.
    by rewrite (ui _ (M2 S)) // mulmxA (M2_wgrad Hsym Hd) // Ed on.
  by split=> [|[]].
split.
- by rewrite k0.
- by rewrite k1; apply: etrans R1; rewrite -addnA addnC addnAC addnC addnA [(betti _ _ _ + _)%N]addnC.
- by rewrite k2; apply: etrans R2; rewrite -addnA addnC addnAC addnC addnA [(betti _ _ _ + _)%N]addnC.
- by rewrite k3.
Qed.

(** exactly which Hodge Laplacians are invertible *)
Theorem C58_invertible :
  [/\ dd0 S \in unitmx <-> dirichlet = true,
      dd1 S \in unitmx <-> polar && dirichlet = true,
      dd2 S \in unitmx <-> polar && ~~ dirichlet = true
    & dd3 S \in unitmx <-> dirichlet = false].
Proof.
have [R0 R1 R2 R3] := C58_betti.
have aux n (A : 'M[F]_n) b (P : Prop) : (\rank A + b)%N = n -> (b = 0%N <-> P) -> A \in unitmx <-> P.
  move=> E H; rewrite -row_free_unit /row_free -H; split=> [/eqP e|e].
    by move: E; rewrite e -[RHS]addn0 => /addnI.
  by apply/eqP; rewrite -[RHS]E e addn0.
split; [apply: aux R0 _ | apply: aux R1 _ | apply: aux R2 _ | apply: aux R3 _];
  by case: (polar); case: (dirichlet).
Qed.

(** every closed form is exact in the degrees without cohomology; in the top degree the
    divergences are all 3-forms, or with boundary conditions those of zero total mass *)
Theorem C58_exact :
  [/\ dirichlet -> forall f : 'cV_(rk S K0), strong_grad S *m f = 0 -> f = 0,
      polar -> dirichlet -> forall u : 'cV_(rk S K1), strong_curl S *m u = 0 -> exists f, u = strong_grad S *m f,
      polar -> ~~ dirichlet -> forall b : 'cV_(rk S K2), strong_div S *m b = 0 -> exists a, b = strong_curl S *m a
    & forall p : 'cV_(rk S K3), (exists b, p = strong_div S *m b) <-> (dirichlet -> total_mass p = 0)].
Proof.
have [R0 R1 R2 R3] := strong_ranks Hadm HM.
have CG := C24_curl_grad Hadm HM; have DC := C24_div_curl Hadm HM.
split.
- move=> Ho f Hf; have E : betti polar dirichlet K0 = 0%N by case: (polar); move: Ho; case: (dirichlet).
  have [||f' ->] := @exact_of_rank _ _ 0 _ (0 : 'M_(rk S K0, 0)) (strong_grad S) _ _ f Hf; last by rewrite mul0mx.
  + by rewrite mulmx0.
  + by rewrite mxrank0 add0n -[RHS]R0 E addn0.
- move=> Hp Ho; have E : betti polar dirichlet K1 = 0%N by move: Hp Ho; case: (polar); case: (dirichlet).
  by apply: exact_of_rank => //; rewrite -[RHS]R1 E addn0.
- move=> Hp Ho; have E : betti polar dirichlet K2 = 0%N by move: Hp Ho; case: (polar); case: (dirichlet).
  by apply: exact_of_rank => //; rewrite -[RHS]R2 E addn0.
- by move=> p; apply: div_image.
Qed.

(** Hodge decomposition of the divergence-free 2-forms, whatever the topology: a harmonic form
    plus a curl, orthogonal in the mass inner product, the harmonic part being unique *)
Theorem C58_hodge_decomposition : forall B : 'cV_(rk S K2), strong_div S *m B = 0 ->
  exists h : 'cV_(rk S K2), [/\ dd2 S *m h = 0, exists A, B - h = strong_curl S *m A,
    forall A, form (M2 S) (strong_curl S *m A) h = 0
  & forall h' A', dd2 S *m h' = 0 -> B - h' = strong_curl S *m A' -> h' = h].
Proof.
have [U0 U1 U2 U3] := HM; have Hp := geometry_pos_geom Hpos.
have [_ W _] := C25_weak_adjoint Hadm HM Hsym.
have [_ _ K_2 _] := C27_psd_kernel Hadm HM Hsym Hpos.
have [_ _ R2 _] := strong_ranks Hadm HM; have [_ _ D2 _] := C58_betti.
have DC := C24_div_curl Hadm HM.
have Orth h A : dd2 S *m h = 0 -> form (M2 S) (strong_curl S *m A) h = 0.
  by move=> /(K_2 h).2 [_ Hh]; rewrite -W Hh /form mulmx0 mxE.
have Sep (x : 'cV_(rk S K2)) A : dd2 S *m x = 0 -> x = strong_curl S *m A -> x = 0.
  move=> Hx E; have H0 : bl (M2 S) x x = 0 by rewrite {1}E; apply: (Orth x A Hx).
  by apply: (unit_inj U2); rewrite mulmx0; apply: psd_null => //; apply: M2_psd.
move=> B HB.
set c := strong_curl S; set K := kermx (dd2 S)^T.
have Hcap : (c^T :&: K = 0)%MS.
  apply/eqP; rewrite -submx0; apply/row_subP => i; set v := row i _.
  have /submxP [x Hx] : (v <= c^T)%MS by apply: submx_trans (row_sub _ _) (capmxSl _ _).
  have /sub_kermxP Hy : (v <= K)%MS by apply: submx_trans (row_sub _ _) (capmxSr _ _).
  suff -> : v = 0 by apply: sub0mx.
  rewrite -[v]trmxK (@Sep v^T x^T) ?trmx0 //; last by rewrite Hx trmx_mul trmxK.
  by apply: trmx_inj; rewrite trmx_mul trmxK Hy trmx0.
have Hsub : (c^T + K <= kermx (strong_div S)^T)%MS.
  rewrite addsmx_sub; apply/andP; split; apply/sub_kermxP; first by rewrite -trmx_mul DC trmx0.
  apply/row_matrixP => i; rewrite row_mul row0; apply: trmx_inj; rewrite trmx_mul trmxK trmx0.
  apply: (proj1 (proj1 (K_2 _).2 _)); apply: trmx_inj; rewrite trmx_mul trmxK trmx0 -row_mul mulmx_ker.
  exact: row0.
have RK : \rank K = betti polar dirichlet K2.
  by apply/eqP; rewrite mxrank_ker mxrank_tr -(eqn_add2l (\rank (dd2 S))) D2 subnKC // rank_leq_row.
have /eqmxP E : (c^T + K == kermx (strong_div S)^T)%MS.
  rewrite -(geq_leqif (mxrank_leqif_eq Hsub)) (mxrank_disjoint_sum Hcap) mxrank_ker !mxrank_tr RK.
  by rewrite leq_subLR addnC R2.
have : (B^T <= c^T + K)%MS by rewrite E; apply/sub_kermxP; rewrite -trmx_mul HB trmx0.
case/sub_addsmxP => -[x y] /= HBxy.
have Hh : dd2 S *m (y *m K)^T = 0.
  by apply: trmx_inj; rewrite trmx_mul trmxK trmx0 -mulmxA mulmx_ker mulmx0.
have HBh : B - (y *m K)^T = c *m x^T.
  by apply: trmx_inj; rewrite linearB /= HBxy trmxK addrK [RHS]trmx_mul [x^T^T]trmxK.
exists (y *m K)^T; split=> //.
- by exists x^T.
- by move=> A; apply: Orth.
- move=> h' A' Hh' HA'; apply/eqP; rewrite -subr_eq0; apply/eqP; apply: (@Sep _ (x^T - A')).
    by rewrite mulmxBr Hh' Hh subrr.
  by rewrite mulmxBr -/c -HBh -HA' opprB [RHS]addrC addrA subrK.
Qed.

(** on a solid torus with boundary conditions the harmonic fields are one line *)
Theorem C58_harmonic_line : polar -> dirichlet -> exists2 h : 'cV_(rk S K2), h != 0 &
  forall b, dd2 S *m b = 0 <-> exists a, b = a *: h.
Proof.
move=> Hp Ho; have [_ _ D2 _] := C58_betti.
have Eb : betti polar dirichlet K2 = 1%N by move: Hp Ho; case: (polar); case: (dirichlet).
have RK : \rank (kermx (dd2 S)^T) = 1%N.
  rewrite -[RHS]Eb; apply/eqP; rewrite mxrank_ker mxrank_tr -(eqn_add2l (\rank (dd2 S))) D2.
  by rewrite subnKC // rank_leq_row.
have Hk : forall b : 'cV_(rk S K2), dd2 S *m b = 0 <-> (b^T <= kermx (dd2 S)^T)%MS.
  move=> b; split=> [H|/sub_kermxP H]; first by apply/sub_kermxP; rewrite -trmx_mul H trmx0.
  by apply: trmx_inj; rewrite trmx_mul H trmx0.
have /rowV0Pn [v Hs Hv] : kermx (dd2 S)^T != 0 by rewrite -mxrank_eq0 RK.
have /eqmxP Ev : (v == kermx (dd2 S)^T)%MS.
  by rewrite -(geq_leqif (mxrank_leqif_eq Hs)) RK lt0n mxrank_eq0.
exists v^T.
  by apply: contra Hv => /eqP E; rewrite -[v]trmxK E trmx0.
move=> b; rewrite Hk -Ev; split=> [/sub_rVP [a Ha]|[a ->]].
  by exists a; apply: trmx_inj; rewrite Ha linearZ /= trmxK.
by rewrite linearZ /= trmxK scalemx_sub.
Qed.
End Top.
Print Assumptions C58_betti.
Print Assumptions C58_invertible.
Print Assumptions C58_exact.
Print Assumptions C58_hodge_decomposition.
Print Assumptions C58_harmonic_line.

(** ** sequences built by the constructor *)
Section Seq.
Variables (ns ps : triple) (q : nat) (types : stype * stype * stype) (DFx : point -> mat3 R_realFieldType)
  (polar dirichlet : bool).
Hypothesis Hs : supported ns ps q types polar dirichlet.
Hypothesis Hreg : regular_map DFx (seq_points ns ps q types).
Variable S : drseq R_realFieldType.
Hypothesis HS : new_sequence ns ps q types DFx polar dirichlet = Some S.

Theorem C58_sequence_betti :
  [/\ (\rank (dd0 S) + betti polar dirichlet K0)%N = rk S K0,
      (\rank (dd1 S) + betti polar dirichlet K1)%N = rk S K1,
      (\rank (dd2 S) + betti polar dirichlet K2)%N = rk S K2
    & (\rank (dd3 S) + betti polar dirichlet K3)%N = rk S K3].
Proof.
have [f [Q [E Hadm _ _ [HG HR HO HM]]]] := seq_summary Hs Hreg HS.
have Hsym := geometry_of_sym HG HR; have Hp := geometry_of_pos HG HR HO.
by move: HM Hsym Hp; rewrite E => HM Hsym Hp; apply: (C58_betti Hadm HM Hsym Hp).
Qed.
Theorem C58_sequence_invertible :
  [/\ dd0 S \in unitmx <-> dirichlet = true,
      dd1 S \in unitmx <-> polar && dirichlet = true,
      dd2 S \in unitmx <-> polar && ~~ dirichlet = true
    & dd3 S \in unitmx <-> dirichlet = false].
Proof.
have [f [Q [E Hadm _ _ [HG HR HO HM]]]] := seq_summary Hs Hreg HS.
have Hsym := geometry_of_sym HG HR; have Hp := geometry_of_pos HG HR HO.
by move: HM Hsym Hp; rewrite E => HM Hsym Hp; apply: (C58_invertible Hadm HM Hsym Hp).
Qed.
Theorem C58_sequence_exact :
  [/\ dirichlet -> forall f : 'cV_(rk S K0), strong_grad S *m f = 0 -> f = 0,
      polar -> dirichlet -> forall u : 'cV_(rk S K1), strong_curl S *m u = 0 -> exists f, u = strong_grad S *m f,
      polar -> ~~ dirichlet -> forall b : 'cV_(rk S K2), strong_div S *m b = 0 -> exists a, b = strong_curl S *m a
    & forall p : 'cV_(rk S K3), (exists b, p = strong_div S *m b) <-> (dirichlet -> total_mass p = 0)].
Proof.
have [f [Q [E Hadm _ _ [HG HR HO HM]]]] := seq_summary Hs Hreg HS.
by move: HM; rewrite E => HM; apply: (C58_exact Hadm HM).
Qed.
Theorem C58_sequence_hodge : forall B : 'cV_(rk S K2), strong_div S *m B = 0 ->
  exists h : 'cV_(rk S K2), [/\ dd2 S *m h = 0, exists A, B - h = strong_curl S *m A,
    forall A, form (M2 S) (strong_curl S *m A) h = 0
  & forall h' A', dd2 S *m h' = 0 -> B - h' = strong_curl S *m A' -> h' = h].
Proof.
have [f [Q [E Hadm _ _ [HG HR HO HM]]]] := seq_summary Hs Hreg HS.
have Hsym := geometry_of_sym HG HR; have Hp := geometry_of_pos HG HR HO.
by move: HM Hsym Hp; rewrite E => HM Hsym Hp; apply: (C58_hodge_decomposition Hadm HM Hsym Hp).
Qed.
Theorem C58_sequence_harmonic_line : polar -> dirichlet -> exists2 h : 'cV_(rk S K2), h != 0 &
  forall b, dd2 S *m b = 0 <-> exists a, b = a *: h.
Proof.
have [f [Q [E Hadm _ _ [HG HR HO HM]]]] := seq_summary Hs Hreg HS.
have Hsym := geometry_of_sym HG HR; have Hp := geometry_of_pos HG HR HO.
by move: HM Hsym Hp; rewrite E => HM Hsym Hp; apply: (C58_harmonic_line Hadm HM Hsym Hp).
Qed.

(** ** C40 on the constructor's polar Dirichlet sequences *)
Variable pinv : 'M[R_realFieldType]_(rk S K3).
Hypothesis Hpinv : dd3 S *m pinv *m dd3 S = dd3 S.
Hypotheses (Hpol : polar = true) (Hdir : dirichlet = true).
Lemma polar_dirichlet_dd1 : dd1 S \in unitmx.
Proof. by have [_ H _ _] := C58_sequence_invertible; apply/H; rewrite Hpol Hdir. Qed.

(** the code's harmonic component of a divergence-free field is the harmonic part of its Hodge
    decomposition; it is the whole history's invariant *)
Theorem C40_sequence_harmonic_component : forall B : 'cV_(rk S K2), strong_div S *m B = 0 ->
  dd2 S *m harmonic_component B = 0 /\
  (harmonic_component B = 0 <-> exists A : 'cV_(rk S K1), B = strong_curl S *m A).
Proof.
move=> B HB; have OK := C38_sequence_ok Hs Hreg HS Hpinv.
have [H1 H2 H3] := C40_harmonic_component OK polar_dirichlet_dd1.
split=> //; have [h [Hh [A HA] _ Hu]] := C58_sequence_hodge HB.
have EB : B = h + strong_curl S *m A by rewrite -HA addrC subrK.
rewrite EB H1 {1}/harmonic_component /potential.
have [_ _ K_2 _] := C27_sequence Hs Hreg HS.
have [_ Hw] := proj1 (K_2 h).2 Hh.
by rewrite Hw /solve !mulmx0 subr0.
Qed.
Theorem C40_sequence_harmonic_conserved : forall (DF : nat -> mat3 R_realFieldType) lstsq fault cfg t0 st0,
  c_solver_tol cfg < 1 ->
  (forall n, (0 < n)%N -> n = c_apply_pert_after cfg -> c_pert_strength cfg <= 0) ->
  forall n, harmonic_component (B_n (state_at (S := S) sqrt pinv DF lstsq fault cfg t0 st0 n)) = harmonic_component (B_n st0).
Proof.
move=> DF lstsq fault cfg t0 st0 Ht Hp n.
by apply: (C40_harmonic_conserved sqrt DF lstsq fault t0 st0 (C38_sequence_ok Hs Hreg HS Hpinv) polar_dirichlet_dd1 Ht Hp).
Qed.
End Seq.
Print Assumptions C58_sequence_betti.
Print Assumptions C58_sequence_invertible.
Print Assumptions C58_sequence_exact.
Print Assumptions C58_sequence_hodge.
Print Assumptions C58_sequence_harmonic_line.
Print Assumptions C40_sequence_harmonic_component.
Print Assumptions C40_sequence_harmonic_conserved.

(** the polar Dirichlet discretisation of the scripts: its derivatives do not vanish, dd1 is
    invertible, there is one harmonic 2-form, and dd3 is singular (hence the pseudo-inverse).
    These are also the hypotheses of C43_B_final_is_final_refuted and the C40 theorems *)
Example C58_nonvacuous : exists S : drseq R_realFieldType,
  [/\ new_sequence (8, 8, 1)%N (3, 3, 0)%N 4 (Clamped, Periodic, Constant) (fun _ => id33) true true = Some S,
      dd1 S \in unitmx, ~~ (dd3 S \in unitmx), relax_ok S (pinvmx (dd3 S)) /\ strong_curl S != 0
    & exists2 B : 'cV_(rk S K2), strong_div S *m B = 0 & harmonic_component B != 0].
Proof.
have [H1 _ H3 _ H5] := SequenceR_nonvacuous.
have [S HS] := C26_constructor_total H1 (H3 _); exists S.
have OK := C38_sequence_ok H1 (H3 _) HS (H5 S).
have [_ U1 _ U3] := C58_sequence_invertible H1 (H3 _) HS.
have [R0 R1 R2 R3] : [/\ (\rank (strong_grad S) + betti true true K0)%N = rk S K0,
      (\rank (strong_grad S) + betti true true K1 + \rank (strong_curl S))%N = rk S K1,
      (\rank (strong_curl S) + betti true true K2 + \rank (strong_div S))%N = rk S K2
    & (\rank (strong_div S) + betti true true K3)%N = rk S K3].
  have [f [Q [E Hadm _ _ [_ _ _ HM]]]] := seq_summary H1 (H3 _) HS.
  by move: HM; rewrite E => HM; apply: (strong_ranks Hadm HM).
have UU : dd1 S \in unitmx by apply/U1.
split=> //.
- by apply/negP => /U3.
- split=> //; rewrite -mxrank_eq0; apply/negP => /eqP Ec.
  have Hr : (rk S K0 < rk S K1)%N.
    have [f [Q [-> _ [Hf Ef] _ _]]] := seq_summary H1 (H3 _) HS.
    by rewrite /DeRhamSequence /= Ef.
  have E01 : rk S K0 = rk S K1 by apply: etrans R1; rewrite Ec addn0; apply: etrans (esym R0) _.
  by move: Hr; rewrite E01 ltnn.
- have [h Hh Hl] := C58_sequence_harmonic_line H1 (H3 _) HS isT isT.
  have Hd : dd2 S *m h = 0 by apply/Hl; exists 1; rewrite scale1r.
  have [_ _ K_2 _] := C27_sequence H1 (H3 _) HS.
  have [Hdh Hw] := proj1 (K_2 h).2 Hd; exists h => //.
  by rewrite /harmonic_component /potential Hw /solve !mulmx0 subr0.
Qed.
