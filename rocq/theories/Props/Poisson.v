(** C64: the Poisson solvers of the tutorials. *)
From Coq Require Import Reals Lra.
From mathcomp Require Import all_ssreflect all_algebra zify.
From Verif Require Import Model.RBase Model.Spline Model.Quad Model.Forms Model.DeRham Model.FormEval Model.Geometry Model.SeqR Model.Eigen Model.Poisson.
From Verif Require Import Spec.SeqSpec Spec.GeomSpec Spec.SeqRSpec Spec.RelaxSpec Spec.TopologySpec Spec.SpectrumSpec Spec.CalculusSpec.
From Verif Require Import Proof.RField Proof.FormEvalProofs Proof.ProjectionProofs Proof.SeqFacts Proof.SequenceAlg Proof.DeRhamAlg Proof.RelaxAlg Proof.SeqCalculus
  Proof.MCRing Proof.SpectrumAlg Proof.SpectrumSeq Props.DeRham Props.Geometry Props.SequenceR Props.Relaxation Props.Topology Props.Spectrum.
Set Implicit Arguments.
Unset Strict Implicit.
Unset Printing Implicit Defensive.
Import Order.TTheory GRing.Theory Num.Theory.
Local Open Scope ring_scope.

(** minimisation of a quadratic functional *)
Section Quadratic.
Variable F : realFieldType.
Add Field FQ : (@mc_fth F).
Lemma dotv_form n (A : 'M[F]_n) (x u : 'cV[F]_n) : dotv x (A *m u) = form A x u.
Proof. by rewrite /dotv /form mulmxA. Qed.
Lemma quad_min n (A : 'M[F]_n) (p u v : 'cV[F]_n) : A^T = A -> A *m u = p ->
  form A v v / 2%:R - dotv v p = form A u u / 2%:R - dotv u p + form A (v - u) (v - u) / 2%:R.
Proof.
move=> HA <-; rewrite !dotv_form formDl !formDr !formNl !formNr (formC u v HA).
have H2 : (2%:R : F) != 0 by rewrite pnatr_eq0.
by mc_norm; field; apply/eqP.
Qed.
Lemma sqr_sub (u v : F) : (u - v) * (u - v) = u * u - 2%:R * (u * v) + v * v.
Proof. by mc_norm; ring. Qed.
Lemma sing_nosol n (A : 'M[F]_n) : A \notin unitmx -> exists p : 'cV_n, forall u, A *m u <> p.
Proof.
move=> HU; have : kermx A != 0 by rewrite kermx_eq0 row_free_unit.
case/rowV0Pn => r /sub_kermxP Hr Hn; exists r^T => u E.
have E1 : form 1%:M r^T r^T = 0 by rewrite -{2}E /form mulmx1 trmxK mulmxA Hr mul0mx mxE.
have : r^T != 0 by rewrite tr_eq0.
case/cV0Pn => i Hi; move: E1; rewrite /form mulmx1 mxE => /eqP; rewrite psumr_eq0; last first.
  by move=> k _; rewrite mxE -expr2 sqr_ge0.
by move/allP => /(_ i (mem_index_enum _)) /=; rewrite mxE -expr2 sqrf_eq0 (negbTE Hi).
Qed.
Lemma pyth n (A : 'M[F]_n) (s t : 'cV[F]_n) : A^T = A -> form A (s - t) t = 0 -> form A s s = form A t t + form A (s - t) (s - t).
Proof.
move=> HA; rewrite formDl formNl => /eqP; rewrite subr_eq0 => /eqP E.
by rewrite formDl !formDr !formNl !formNr (formC t s HA) E addrN addr0 addrC addrNK.
Qed.
End Quadratic.

Section Seq.
Variables (ns ps : triple) (q : nat) (types : stype * stype * stype) (DFx : point -> mat3 R_realFieldType)
  (polar dirichlet : bool).
Hypothesis Hs : supported ns ps q types polar dirichlet.
Hypothesis Hreg : regular_map DFx (seq_points ns ps q types).
Variable S : drseq R_realFieldType.
Hypothesis HS : new_sequence ns ps q types DFx polar dirichlet = Some S.
Notation qpt := (qpt ns ps q types).
(** integral of the product of two fields (d components) over the physical domain, by quadrature;
    the values of a discrete form and of its derivative at the quadrature points *)
Notation ip := (phys_l2 ns ps q types DFx).
Notation val := (phys ns ps q types DFx).
Notation G := (strong_grad S). Notation D := (strong_div S). Notation N := (weak_grad S).
Let OK := seq_ok Hs Hreg HS.
Let H0 := seq_H0 Hs Hreg HS.

Lemma ip_tests k phi (p x : 'cV_(rk S k)) : Projector S (fun j => DFx (qpt j)) k phi = Some p -> dotv x p = ip (dcomp k) phi (val x).
Proof.
move=> Hp; have [En Ew [HG HR HO HM]] := seq_summary' Hs Hreg HS.
have Hk : k <> KV by move: Hp; case: (k) (p).
rewrite (C29_projector_tests HG HR x Hp) (phys_l2E Hs Hreg HS).
transitivity (ip (dcomp k) (val x) phi).
  by apply: (phys_l2_ext Hs Hreg HS) => j a Hj Ha; rewrite (phys_value Hs Hreg HS).
by apply: eq_bigr => j _; congr (_ * _); apply: eq_bigr => a _; rewrite mulrC.
Qed.
Lemma ip_sub d u v : ip d (fun j a => u j a - v j a) (fun j a => u j a - v j a) = ip d u u - 2%:R * ip d u v + ip d v v.
Proof.
rewrite /phys_l2 mulr_sumr -sumrB -big_split /=; apply: eq_bigr => j _.
rewrite [2%:R * _]mulrA -mulrBl -mulrDl; congr (_ * _); rewrite mulr_sumr -sumrB -big_split /=; apply: eq_bigr => a _.
exact: sqr_sub.
Qed.

Lemma dirichlet_spd : dirichlet -> spd (M0 S *m dd0 S).
Proof.
move=> Hd; split; first exact: (@hodge_sym _ _ _ OK H0 K0 (fun e => ltac:(discriminate))).
move=> x Hx; rewrite H0 -mulmxA form_mull (form_mulr (M1 S)).
have [_ P] := ok_M1 OK; apply: P; apply: contra Hx => /eqP E; apply/eqP.
exact: (grad_inj Hs Hreg HS Hd E).
Qed.
Lemma stiffness u v : form (M0 S *m dd0 S) u v = ip 3 (val (G *m u)) (val (G *m v)).
Proof.
rewrite H0 -mulmxA form_mull (form_mulr (M1 S)).
by rewrite (@C33_sequence _ _ _ _ _ _ _ Hs Hreg S HS K1).
Qed.
(** polar_poisson.py, toroid_poisson.py: the Galerkin equations, their uniqueness, and the
    minimum principle *)
Definition dirichlet_energy (phi : point -> vec3 R_realFieldType) (v : 'cV_(rk S K0)) : R_realFieldType :=
  ip 3 (val (G *m v)) (val (G *m v)) / 2%:R - ip 1 (fun j => phi (qpt j)) (val v).
Theorem C64_primal : dirichlet -> forall phi : point -> vec3 R_realFieldType,
  let u := poisson_primal S (fun j => phi (qpt j)) in
  let weak w := forall v : 'cV_(rk S K0), ip 3 (val (G *m v)) (val (G *m w)) = ip 1 (fun j => phi (qpt j)) (val v) in
  [/\ weak u, forall w, weak w -> w = u & forall v, v <> u -> dirichlet_energy phi u < dirichlet_energy phi v].
Proof.
move=> Hd phi u weak; have HA := dirichlet_spd Hd.
set p := Projector0 S (fun j => phi (qpt j)).
have Hp (x : 'cV_(rk S K0)) : dotv x p = ip 1 (fun j => phi (qpt j)) (val x) by apply: (@ip_tests K0).
have Hu : M0 S *m dd0 S *m u = p by rewrite /u /poisson_primal /solve mulKVmx ?(spd_unit HA).
split.
- by move=> v; rewrite -stiffness -dotv_form Hu Hp.
- move=> w Hw; apply/eqP; rewrite -subr_eq0; apply/eqP; apply: (spd_nondeg HA) => y.
  by rewrite formDr formNr stiffness Hw -[form _ y u]dotv_form Hu Hp subrr.
- move=> v Hv; have -> : dirichlet_energy phi v = dirichlet_energy phi u + form (M0 S *m dd0 S) (v - u) (v - u) / 2%:R.
    by rewrite /dirichlet_energy -!stiffness -!Hp; apply: (quad_min v (proj1 HA) Hu).
  rewrite ltr_addl divr_gt0 ?ltr0n //.
  by apply: (proj2 HA); rewrite subr_eq0; apply/eqP.
Qed.
(** Cea: if the (values of the) vector field g satisfy the weak form that the exact gradient
    satisfies, the gradient of the solution is the best approximation of g *)
Theorem C64_cea : dirichlet -> forall phi : point -> vec3 R_realFieldType,
  let u := poisson_primal S (fun j => phi (qpt j)) in
  forall g : nat -> vec3 R_realFieldType,
  (forall v : 'cV_(rk S K0), ip 3 g (val (G *m v)) = ip 1 (fun j => phi (qpt j)) (val v)) ->
  let err v := ip 3 (fun j a => g j a - val (G *m v) j a) (fun j a => g j a - val (G *m v) j a) in
  forall v : 'cV_(rk S K0), v <> u -> err u < err v.
Proof.
move=> Hd phi u g Hg err v Hv; have [_ _ M] := C64_primal Hd phi.
have E w : err w = ip 3 g g + 2%:R * dirichlet_energy phi w.
  rewrite /err ip_sub Hg /dirichlet_energy mulrBr mulrCA divff ?pnatr_eq0 // mulr1 -addrA; congr (_ + _).
  by rewrite addrC.
by rewrite !E ltr_add2l ltr_pmul2l ?ltr0n //; apply: M.
Qed.
(** without Dirichlet conditions the matrix handed to jnp.linalg.solve is singular *)
Theorem C64_neumann_singular : ~~ dirichlet -> M0 S *m dd0 S \notin unitmx /\
  exists p : 'cV_(rk S K0), forall u, M0 S *m dd0 S *m u <> p.
Proof.
move=> Hd; have [[I _] _ _ _] := C58_sequence_invertible Hs Hreg HS.
have HU : M0 S *m dd0 S \notin unitmx.
  by rewrite unitmx_mul negb_and; apply/orP; right; apply/negP => /I E; rewrite E in Hd.
by split=> //; apply: sing_nosol.
Qed.

(** mixed_polar_poisson.py: with sigma = weak_grad u, the pair (sigma, u) solves the mixed equations,
    the divergence constraint exactly, uniquely, and sigma has the least norm among all fields with that
    divergence *)
Theorem C64_mixed : ~~ dirichlet -> forall phi : point -> vec3 R_realFieldType,
  let u := poisson_mixed S (fun j => phi (qpt j)) in let sigma := N *m u in
  let fh := solve (M3 S) (Projector3 S (fun j => phi (qpt j))) in
  let mixed s w := D *m s = - fh /\ (forall t : 'cV_(rk S K2), ip 3 (val t) (val s) = - ip 1 (val (D *m t)) (val w)) in
  [/\ mixed sigma u, forall s w, mixed s w -> s = sigma /\ w = u
    & forall s : 'cV_(rk S K2), D *m s = - fh -> s <> sigma -> ip 3 (val sigma) (val sigma) < ip 3 (val s) (val s)].
Proof.
move=> Hd phi u sigma fh mixed; have [_ _ _ [_ I]] := C58_sequence_invertible Hs Hreg HS.
have U3 : M3 S \in unitmx := @M_unit _ _ _ OK K3 (fun e => ltac:(discriminate)).
have U : dd3 S \in unitmx by apply: I; apply/negbTE.
have Eu : dd3 S *m u = fh.
  by apply: (can_inj (mulKmx U3)); rewrite /fh /solve mulKVmx // -mul2 /u /poisson_mixed /solve mulKVmx // unitmx_mul U3.
have i2 (x y : 'cV_(rk S K2)) : ip 3 (val x) (val y) = form (M2 S) x y by rewrite (@C33_sequence _ _ _ _ _ _ _ Hs Hreg S HS K2).
have i3 (x y : 'cV_(rk S K3)) : ip 1 (val x) (val y) = form (M3 S) x y by rewrite (@C33_sequence _ _ _ _ _ _ _ Hs Hreg S HS K3).
have Hmix s w : mixed s w <-> D *m s = - fh /\ s = N *m w.
  split=> [[E1 E2]|[E1 E2]]; split=> //.
    apply/eqP; rewrite -subr_eq0; apply/eqP; apply: (spd_nondeg (ok_M2 OK)) => y.
    by rewrite formDr formNr -i2 E2 i3 (ok_wgrad OK) subrr.
  by move=> t; rewrite E2 i2 i3 (ok_wgrad OK).
have L3 w : D *m (N *m w) = - (dd3 S *m w) by rewrite (dd3L S) /L3 mulNmx opprK (mul2 D N).
split.
- by apply/Hmix; split=> //; rewrite /sigma L3 Eu.
- move=> s w /Hmix [E1 E2]; suff Ew : w = u by rewrite E2 Ew.
  apply: (can_inj (mulKmx U)); rewrite Eu; apply: oppr_inj; by rewrite -E1 E2 L3.
- move=> s E1 Hn; rewrite !i2.
  have -> : form (M2 S) s s = form (M2 S) sigma sigma + form (M2 S) (s - sigma) (s - sigma).
    have O : form (M2 S) (s - sigma) sigma = 0.
      by rewrite (ok_wgrad OK) mulmxBr E1 L3 Eu subrr form0l oppr0.
    exact: (pyth (proj1 (ok_M2 OK)) O).
  by rewrite ltr_addl; apply: (proj2 (ok_M2 OK)); rewrite subr_eq0; apply/eqP.
Qed.
(** with Dirichlet conditions the matrix is singular; there is a solution exactly if the projected
    right-hand side has no mean *)
Theorem C64_mixed_dirichlet : dirichlet -> M3 S *m dd3 S \notin unitmx /\
  forall phi : point -> vec3 R_realFieldType,
  let p := Projector3 S (fun j => phi (qpt j)) in
  (exists u, M3 S *m dd3 S *m u = p) <-> total_mass (solve (M3 S) p) = 0.
Proof.
move=> Hd; have [_ _ _ [I _]] := C58_sequence_invertible Hs Hreg HS.
have U3 : M3 S \in unitmx := @M_unit _ _ _ OK K3 (fun e => ltac:(discriminate)).
split; first by rewrite unitmx_mul negb_and; apply/orP; right; apply/negP => /I E; rewrite E in Hd.
move=> phi p; have [_ _ _ Ex] := C58_sequence_exact Hs Hreg HS.
have L3 w : D *m (N *m w) = - (dd3 S *m w) by rewrite (dd3L S) /L3 mulNmx opprK (mul2 D N).
split=> [[u Hu]|Hm].
  have -> : solve (M3 S) p = D *m - (N *m u) by rewrite mulmxN L3 opprK /solve -Hu mul2 mulKmx.
  by apply: (Ex _).1 => //; eexists.
have [b Hb] : exists b, solve (M3 S) p = D *m b by apply: (Ex _).2.
have [A1 _ _ A4 _] := @C28_sequence _ _ _ _ _ _ _ Hs Hreg S HS (pinvmx (dd3 S)) (mulmxKpV (submx_refl _)).
have [w Hw] := A4 b; exists (- w).
have -> : M3 S *m dd3 S *m - w = M3 S *m (D *m (N *m w)) by rewrite L3 mulmxN mul2 mulmxN.
by rewrite -Hw mulmxBr A1 subr0 -Hb /solve mulKVmx.
Qed.
End Seq.
Print Assumptions C64_primal.
Print Assumptions C64_cea.
Print Assumptions C64_neumann_singular.
Print Assumptions C64_mixed.
Print Assumptions C64_mixed_dirichlet.

(** both kinds of sequences exist (the tutorials' spaces with n = 8, p = 3), and the hypothesis of
    C64_cea is met (by a field that is not assumed to be discrete; here the discrete gradient itself) *)
Example C64_nonvacuous : exists S0 S1 : drseq R_realFieldType,
  [/\ supported (8, 8, 1)%N (3, 3, 0)%N 5 (Clamped, Periodic, Constant) true true,
      supported (8, 8, 1)%N (3, 3, 0)%N 5 (Clamped, Periodic, Constant) true false,
      new_sequence (8, 8, 1)%N (3, 3, 0)%N 5 (Clamped, Periodic, Constant) (fun _ => id33) true true = Some S0,
      new_sequence (8, 8, 1)%N (3, 3, 0)%N 5 (Clamped, Periodic, Constant) (fun _ => id33) true false = Some S1
    & forall phi, exists g, forall v : 'cV_(rk S0 K0),
        phys_l2 (8, 8, 1)%N (3, 3, 0)%N 5 (Clamped, Periodic, Constant) (fun _ => id33) 3 g
          (phys (8, 8, 1)%N (3, 3, 0)%N 5 (Clamped, Periodic, Constant) (fun _ => id33) (strong_grad S0 *m v)) =
        phys_l2 (8, 8, 1)%N (3, 3, 0)%N 5 (Clamped, Periodic, Constant) (fun _ => id33) 1
          (fun j => phi (qpt (8, 8, 1)%N (3, 3, 0)%N 5 (Clamped, Periodic, Constant) j))
          (phys (8, 8, 1)%N (3, 3, 0)%N 5 (Clamped, Periodic, Constant) (fun _ => id33) v)].
Proof.
have [_ _ Hreg _ _] := SequenceR_nonvacuous.
have S0ok : supported (8, 8, 1)%N (3, 3, 0)%N 5 (Clamped, Periodic, Constant) true true.
  split=> //; split=> //; last by right. by split; rewrite /=; lra.
have S1ok : supported (8, 8, 1)%N (3, 3, 0)%N 5 (Clamped, Periodic, Constant) true false.
  split=> //; split=> //; last by right. by split; rewrite /=; lra.
have [S0 HS0] := C26_constructor_total S0ok (Hreg _); have [S1 HS1] := C26_constructor_total S1ok (Hreg _).
exists S0, S1; split=> // phi; eexists => v.
have [H _ _] := C64_primal S0ok (Hreg _) HS0 isT phi; rewrite -H.
by apply: eq_bigr => j _; congr (_ * _); apply: eq_bigr => a _; rewrite mulrC.
Qed.
