(** Property theorems C68: boundary and axis traces, fluxes, circulations, the integral theorems, and the
    conservation of the magnetic fluxes by the relaxation. *)
From Coq Require Import Reals Lra String.
From Coquelicot Require Import Coquelicot.
From mathcomp Require Import all_ssreflect all_algebra zify.
From Verif Require Import Model.RBase Model.Spline Model.Quad Model.Forms Model.DeRham Model.FormEval Model.Geometry Model.SeqR Model.Relaxation.
From Verif Require Import Spec.Cochain Spec.PolarSpace Spec.SeqSpec Spec.FormSpec Spec.GeomSpec Spec.SeqRSpec Spec.CalculusSpec Spec.SmoothSpec Spec.FluxSpec Spec.TopologySpec Spec.RelaxSpec.
From Verif Require Import Proof.RField Proof.MCRing Proof.IndexLemmas Proof.SplineInt Proof.FormEvalProofs Proof.GeometryProofs Proof.SeqRProofs Proof.SeqDeriv Proof.SeqCalculus Proof.SeqSmooth Proof.Complex Proof.PolarSpan Proof.Topology Proof.RelaxRun Proof.SeqFlux
  Props.SequenceR Props.Relaxation Props.Topology.
Set Implicit Arguments.
Unset Strict Implicit.
Unset Printing Implicit Defensive.
Import Order.TTheory GRing.Theory Num.Theory.
Local Open Scope ring_scope.

(** ** the derivative splines have unit integral over [0,1] *)
Theorem C68_clamped_unit_integral : forall (n p : nat) (s d : spline) (i : nat),
  (1 <= p)%coq_nat -> (p < n)%coq_nat -> Rle (INR (n - p)) 99900 ->
  new_spline n p Clamped = Some s -> new_deriv s = Some d -> (i < n - 1)%coq_nat ->
  is_RInt (fun x => evaluate_deriv d x i) 0 1 1.
Proof. move=> n p s d i A B C D E H; exact: (clamped_deriv_int n p s d i A B C D E H). Qed.
Theorem C68_periodic_unit_integral : forall (n p : nat) (s d : spline) (i : nat),
  (1 <= p)%coq_nat -> (p < n)%coq_nat -> Rle (INR n) 49000 ->
  new_spline n p Periodic = Some s -> new_deriv s = Some d -> (i < n)%coq_nat ->
  is_RInt (fun x => evaluate_deriv d x i) 0 1 1.
Proof. move=> n p s d i A B C D E H; exact: (periodic_deriv_int n p s d i A B C D E H). Qed.

(** the integrals below are unique *)
Theorem C68_unique : forall f g v w, (is_int2 f v -> is_int2 f w -> v = w) /\ (is_int3 g v -> is_int3 g w -> v = w).
Proof. by move=> f g v w; split; [apply: int2_unique | apply: int3_unique]. Qed.

Section Seq.
Variables (ns ps : triple) (q : nat) (types : stype * stype * stype) (DFx : point -> mat3 R_realFieldType)
  (polar dirichlet : bool).
Hypothesis Hs : supported ns ps q types polar dirichlet.
Hypothesis Hreg : regular_map DFx (seq_points ns ps q types).
Variable S : drseq R_realFieldType.
Hypothesis HS : new_sequence ns ps q types DFx polar dirichlet = Some S.
Notation field y := (fun c => discrete_form ns ps types y c).
Notation n0 := ns.1.1.
Notation n1 := ns.1.2.
Notation n2 := ns.2.

Lemma Hres : resolved ns ps q types.
Proof. by move: Hs; case: ns => [[a b] c] []. Qed.

(** ** the integral of a 3-form over the domain is its total mass (C58) *)
Theorem C68_total_mass : forall y : 'cV_(rk S K3), is_int3 (fun r t z => field y 0%N (r, t, z)) (total_mass y).
Proof.
move=> y; have [l0 [l1 [l2 [d0 [d1 [d2 FS]]]]]] := resolved_flux Hres.
have := @int_rtz n0.-1 n1 n2 (coefs S K3 y 0%N) _ _ _ (fs_r FS) (fs_t FS) (fs_z FS).
rewrite /total_mass (seq_sh Hs Hreg HS) /dr /= subn1 => -[g [Hg Hi]]; exists g; split=> // z Hz.
by apply: int2_ext (Hg z Hz) => r t; rewrite (f3 Hs Hreg HS (fs_form FS)).
Qed.

(** ** Dirichlet conditions: on the boundary 0-forms vanish, 1-forms have no tangential and 2-forms
    no normal component; for the inner boundary of a hollow domain as well *)
Theorem C68_dirichlet_traces : dirichlet -> forall (y : 'cV_(rk S K0)) (a : 'cV_(rk S K1)) (b : 'cV_(rk S K2)) r t z,
  r = R1 \/ (r = R0 /\ polar = false) ->
  [/\ field y 0%N (r, t, z) = 0, field a 1%N (r, t, z) = 0 /\ field a 2%N (r, t, z) = 0 & field b 0%N (r, t, z) = 0].
Proof.
move=> Ho y a b r t z Hr; have [l0 [l1 [l2 [d0 [d1 [d2 FS]]]]]] := resolved_flux Hres.
have Hadm := seq_adm Hs Hreg HS; have [N0 N1 N2] := seq_sizes Hs Hreg HS.
have Vy := seq_V Hs Hreg HS y (fun e => ltac:(discriminate)).
have Va := seq_V Hs Hreg HS a (fun e => ltac:(discriminate)).
have Vb := seq_V Hs Hreg HS b (fun e => ltac:(discriminate)).
have HD := fs_form FS.
have Z (u : nat -> nat -> nat -> R) i (B C : nat -> R) : (forall j l, (j < n1)%N -> (l < n2)%N -> u i j l = 0) ->
    \sum_(j < n1) \sum_(l < n2) u i j l * (B j * C l) = 0.
  by move=> H; apply: big1 => j _; apply: big1 => l _; rewrite H ?mul0r.
have [_ F1 F2] := f1 Hs Hreg HS HD a r t z; have [B0 _ _] := f2 Hs Hreg HS HD b r t z.
rewrite (f0 Hs Hreg HS HD) F1 F2 B0.
case: Hr => [->|[-> Hp]].
- rewrite R1E; split.
  + by rewrite (sum_out Hs Hreg HS FS n1 n2 (coefs S K0 y 0%N)) Z // => j l Hj Hl; apply: (edge0 Hadm Vy).
  + split.
      by rewrite (sum_out Hs Hreg HS FS n1 n2 (coefs S K1 a 1%N)) Z // => j l Hj Hl; have [] := edge1 Hadm Va Ho Hj Hl.
    by rewrite (sum_out Hs Hreg HS FS n1 n2 (coefs S K1 a 2%N)) Z // => j l Hj Hl; have [] := edge1 Hadm Va Ho Hj Hl.
  + by rewrite (sum_out Hs Hreg HS FS n1 n2 (coefs S K2 b 0%N)) Z // => j l Hj Hl; apply: (edge2 Hadm Vb).
- rewrite R0E; split.
  + rewrite (sum_in Hs Hreg HS FS n1 n2 (coefs S K0 y 0%N)) Z // => j l Hj Hl.
    move: Vy => /(VsF _ _ _ _ _ _ _ Hp) H; apply: (H 0%N 0%N j l) => //; first by rewrite in0 Hj Hl (ltnW N0).
    by rewrite freeE Ho.
  + split.
      by rewrite (sum_in Hs Hreg HS FS n1 n2 (coefs S K1 a 1%N)) Z // => j l Hj Hl; have [] := inner1 Hadm Va Hp Ho Hj Hl.
    by rewrite (sum_in Hs Hreg HS FS n1 n2 (coefs S K1 a 2%N)) Z // => j l Hj Hl; have [] := inner1 Hadm Va Hp Ho Hj Hl.
  + by rewrite (sum_in Hs Hreg HS FS n1 n2 (coefs S K2 b 0%N)) Z // => j l Hj Hl; apply: (axis2 Hadm Vb).
Qed.

(** ** polar sequences, on the axis: 0-forms and the zeta component of 1-forms do not depend on theta,
    the theta component of 1-forms and the radial component of 2-forms vanish *)
Theorem C68_axis_traces : polar -> forall (y : 'cV_(rk S K0)) (a : 'cV_(rk S K1)) (b : 'cV_(rk S K2)) t t' z,
  closed01 t -> closed01 t' ->
  [/\ field y 0%N (R0, t, z) = field y 0%N (R0, t', z), field a 1%N (R0, t, z) = 0,
      field a 2%N (R0, t, z) = field a 2%N (R0, t', z) & field b 0%N (R0, t, z) = 0].
Proof.
move=> Hp y a b t t' z Ht Ht'; have [l0 [l1 [l2 [d0 [d1 [d2 FS]]]]]] := resolved_flux Hres.
have Hadm := seq_adm Hs Hreg HS; have [N0 N1 N2] := seq_sizes Hs Hreg HS.
have HD := fs_form FS.
have [_ _ _ _ Hxi] := Hadm; have {}Hxi := Hxi Hp.
have /(VsT _ _ _ _ _ _ _ Hp) Vy := seq_V Hs Hreg HS y (fun e => ltac:(discriminate)).
have /(VsT _ _ _ _ _ _ _ Hp) Va := seq_V Hs Hreg HS a (fun e => ltac:(discriminate)).
have /(VsT _ _ _ _ _ _ _ Hp) Vb := seq_V Hs Hreg HS b (fun e => ltac:(discriminate)).
have [_ A1 A2] := f1 Hs Hreg HS HD a R0 t z; have [_ _ A2'] := f1 Hs Hreg HS HD a R0 t' z.
have [B0 _ _] := f2 Hs Hreg HS HD b R0 t z.
have Z (u : nat -> nat -> nat -> R) i (B C : nat -> R) : (forall j l, (j < n1)%N -> (l < n2)%N -> u i j l = 0) ->
    \sum_(j < n1) \sum_(l < n2) u i j l * (B j * C l) = 0.
  by move=> H; apply: big1 => j _; apply: big1 => l _; rewrite H ?mul0r.
have Cst (u : nat -> nat -> nat -> R) (C : nat -> R) x : closed01 x -> (forall j l, (j < n1)%N -> (l < n2)%N -> u 0%N j l = u 0%N 0%N l) ->
    \sum_(j < n1) \sum_(l < n2) u 0%N j l * (evaluate l1 x j * C l) = \sum_(l < n2) u 0%N 0%N l * C l.
  move=> Hx H; transitivity (\sum_(j < n1) evaluate l1 x j * \sum_(l < n2) u 0%N 0%N l * C l).
    apply: eq_bigr => j _; rewrite mulr_sumr; apply: eq_bigr => l _; rewrite H //.
    by rewrite mulrCA mulrA.
  by rewrite -mulr_suml (fs_pt FS Hx) mul1r.
have Cx j l (ga : nat -> nat -> R) : (j < n1)%N -> \sum_(p < 3) ga p l * (get_xi n1 : nat -> nat -> nat -> R) p 0%N j = \sum_(p < 3) ga p l * (get_xi n1 : nat -> nat -> nat -> R) p 0%N 0%N.
  by move=> Hj; apply: eq_bigr => p _; congr (_ * _); have [_ H] := Hxi j Hj; apply: H.
rewrite !(f0 Hs Hreg HS HD) A1 A2 A2' B0 R0E; split.
- rewrite !(sum_in Hs Hreg HS FS n1 n2 (coefs S K0 y 0%N)) !Cst // => j l Hj Hl;
  case: Vy => ga H; have [/(_ 0%N isT) -> _] := H j l Hj Hl; have [/(_ 0%N isT) -> _] := H 0%N l N1 Hl; exact: Cx.
- rewrite (sum_in Hs Hreg HS FS n1 n2 (coefs S K1 a 1%N)) Z // => j l Hj Hl.
  by case: Va => al [ga H]; have [_ -> _ _ _] := H j l Hj Hl.
- rewrite !(sum_in Hs Hreg HS FS n1 n2 (coefs S K1 a 2%N)) !Cst // => j l Hj Hl;
  case: Va => al [ga H]; have [_ _ _ /(_ 0%N isT) -> _] := H j l Hj Hl; have [_ _ _ /(_ 0%N isT) -> _] := H 0%N l N1 Hl; exact: Cx.
- rewrite (sum_in Hs Hreg HS FS n1 n2 (coefs S K2 b 0%N)) Z // => j l Hj Hl.
  by case: Vb => be H; have [[-> _] _ _ _] := H j l Hj Hl.
Qed.

(** ** the fluxes exist through every coordinate surface *)
Theorem C68_fluxes_exist : forall (b : 'cV_(rk S K2)) r t z,
  [/\ exists v, toroidal_flux (field b) z v, exists v, poloidal_flux (field b) t v & exists v, radial_flux (field b) r v].
Proof.
move=> b r t z; have [l0 [l1 [l2 [d0 [d1 [d2 FS]]]]]] := resolved_flux Hres.
split; eexists; [exact: (tor_flux Hs Hreg HS FS) | exact: (pol_flux Hs Hreg HS FS) | exact: (rad_flux Hs Hreg HS FS)].
Qed.

(** ** Stokes' theorem for strong_curl: over the cross-section zeta = z and over the ribbon theta = t *)
Theorem C68_stokes : forall (a : 'cV_(rk S K1)) t z,
  (exists v1 v0, [/\ poloidal_loop (field a) 1 z v1, poloidal_loop (field a) 0 z v0
                   & toroidal_flux (field (strong_curl S *m a)) z (Rminus v1 v0)]) /\
  (exists v1 v0, [/\ toroidal_loop (field a) 1 t v1, toroidal_loop (field a) 0 t v0
                   & poloidal_flux (field (strong_curl S *m a)) t (Rminus v0 v1)]).
Proof.
move=> a t z; have [l0 [l1 [l2 [d0 [d1 [d2 FS]]]]]] := resolved_flux Hres.
split; do 2! eexists; split.
- exact: (loop_out_t Hs Hreg HS FS).
- exact: (loop_in_t Hs Hreg HS FS).
- have := tor_flux Hs Hreg HS FS (strong_curl S *m a) z; set v := \sum_(l < n2) _ => H.
  rewrite (_ : Rminus _ _ = v) //; rewrite RminusE /v -sumrB; apply: eq_bigr => l _.
  by rewrite (Phi_t_curl Hs Hreg HS) // mulrBl.
- exact: (loop_out_z Hs Hreg HS FS).
- exact: (loop_in_z Hs Hreg HS FS).
- have := pol_flux Hs Hreg HS FS (strong_curl S *m a) t; set v := \sum_(j < n1) _ => H.
  rewrite (_ : Rminus _ _ = v) //; rewrite RminusE /v -sumrB; apply: eq_bigr => l _.
  by rewrite (Phi_p_curl Hs Hreg HS) // mulrBl.
Qed.

(** ** Gauss' theorem for strong_div *)
Theorem C68_gauss : forall b : 'cV_(rk S K2), exists v1 v0,
  [/\ radial_flux (field b) 1 v1, radial_flux (field b) 0 v0
    & is_int3 (fun r t z => field (strong_div S *m b) 0%N (r, t, z)) (Rminus v1 v0)].
Proof.
move=> b; have [l0 [l1 [l2 [d0 [d1 [d2 FS]]]]]] := resolved_flux Hres.
have [N0 N1 N2] := seq_sizes Hs Hreg HS.
have R1' := rad_flux Hs Hreg HS FS b 1; have R0' := rad_flux Hs Hreg HS FS b 0.
rewrite (at_out Hs Hreg HS FS) in R1'; rewrite (at_in Hs Hreg HS FS) in R0'.
exists (Phi_r ns b n0.-1), (Phi_r ns b 0%N); split=> //.
have := C68_total_mass (strong_div S *m b); rewrite (_ : total_mass _ = Rminus (Phi_r ns b n0.-1) (Phi_r ns b 0%N)) //.
rewrite /total_mass (seq_sh Hs Hreg HS) /dr /= subn1 RminusE -(tele n0.-1 (fun i => Phi_r ns b i)).
apply: eq_bigr => i _.
have [_ _ Hd] := E_incidence Hs Hreg HS.
transitivity (\sum_(j < n1) \sum_(l < n2) cdiv n1 n2 (coefs S K2 b) 0%N i j l).
  apply: eq_bigr => j _; apply: eq_bigr => l _; apply: Hd.
  by rewrite (seq_sh Hs Hreg HS) /in_comp /cshape /= /dr /dt /dz /= ?subn0 ?subn1; apply/and3P.
rewrite /cdiv /Phi_r -sumrB.
rewrite (eq_bigr (fun j : 'I_n1 => \sum_(l < n2) dr_ (coefs S K2 b 0%N) i j l + \sum_(l < n2) dt_ n1 (coefs S K2 b 1%N) i j l
   + \sum_(l < n2) dz_ n2 (coefs S K2 b 2%N) i j l)); last by move=> j _; rewrite -!big_split.
rewrite big_split /= big_split /= [X in _ + X]big1 => [|j _]; last by rewrite /dz_ sumrB (cyc (fun l => coefs S K2 b 2%N i j l)) // subrr.
rewrite addr0 [X in _ + X]exchange_big [X in _ + X]big1 => [|l _]; last by rewrite /dt_ sumrB (cyc (fun j => coefs S K2 b 1%N i j l)) // subrr.
by rewrite addr0; apply: eq_bigr => j _; rewrite /dr_ sumrB.
Qed.

(** ** divergence-free fields: the radial flux does not depend on the surface, and is 0 for polar or
    Dirichlet sequences; with Dirichlet conditions the toroidal (poloidal) flux is the same through every
    cross-section (ribbon) *)
Lemma step_const n (f : nat -> R) : (forall i, (i < n.-1)%N -> f i.+1 = f i) -> forall i, (i < n)%N -> f i = f 0%N.
Proof. by move=> H; elim=> [//|i IH] Hi; rewrite H ?IH //; lia. Qed.
Lemma sum_const n (f g : nat -> R) (c : R) : (forall i, (i < n)%N -> f i = c) -> \sum_(i < n) g i = 1 -> \sum_(i < n) f i * g i = c.
Proof.
move=> H E; transitivity (\sum_(i < n) c * g i); first by apply: eq_bigr => i _; rewrite H.
by rewrite -mulr_sumr E mulr1.
Qed.
Theorem C68_radial_flux : forall b : 'cV_(rk S K2), strong_div S *m b = 0 -> exists v,
  (forall r, closed01 r -> radial_flux (field b) r v) /\ (polar || dirichlet -> v = 0).
Proof.
move=> b Hb; have [l0 [l1 [l2 [d0 [d1 [d2 FS]]]]]] := resolved_flux Hres.
have [N0 N1 N2] := seq_sizes Hs Hreg HS.
have Hadm := seq_adm Hs Hreg HS.
have C := step_const (fun i => Phi_r_step Hs Hreg HS Hb (i := i)).
exists (Phi_r ns b 0%N); split.
- move=> r Hr; have := rad_flux Hs Hreg HS FS b r.
  by rewrite (sum_const (c := Phi_r ns b 0%N)) //; apply: (fs_pr FS).
- move=> Hpd; have Vb := seq_V Hs Hreg HS b (fun e => ltac:(discriminate)).
  apply: big1 => j _; apply: big1 => l _.
  case Hp : polar Hpd => /= Ho; last exact: (axis2 Hadm Vb).
  by move: Vb => /(VsT _ _ _ _ _ _ _ Hp) [be H]; have [[-> _] _ _ _] := H j l (ltn_ord j) (ltn_ord l).
Qed.
Lemma cyc_const n (f : nat -> R) : (forall j, (j < n)%N -> f (j.+1 %% n)%N - f j = 0) -> forall j, (j < n)%N -> f j = f 0%N.
Proof. exact: (@circ_const R_realFieldType n f). Qed.
Theorem C68_flux_constant : dirichlet -> forall b : 'cV_(rk S K2), strong_div S *m b = 0 -> exists vt vp,
  (forall z, closed01 z -> toroidal_flux (field b) z vt) /\ (forall t, closed01 t -> poloidal_flux (field b) t vp).
Proof.
move=> Ho b Hb; have [l0 [l1 [l2 [d0 [d1 [d2 FS]]]]]] := resolved_flux Hres.
have [N0 N1 N2] := seq_sizes Hs Hreg HS; have Hadm := seq_adm Hs Hreg HS.
have Vb := seq_V Hs Hreg HS b (fun e => ltac:(discriminate)).
have Z j l : (j < n1)%N -> (l < n2)%N -> coefs S K2 b 0%N 0%N j l - coefs S K2 b 0%N n0.-1 j l = 0.
  by move=> Hj Hl; rewrite (axis2 Hadm Vb) // (edge2 Hadm Vb) // subr0.
exists (Phi_t ns b 0%N), (Phi_p ns b 0%N); split.
- move=> z Hz; have := tor_flux Hs Hreg HS FS b z; rewrite (sum_const (c := Phi_t ns b 0%N)) //; last exact: (fs_pz FS).
  apply: cyc_const => l Hl; rewrite (Phi_t_step Hs Hreg HS) // big1 // => j _; exact: Z.
- move=> t Ht; have := pol_flux Hs Hreg HS FS b t; rewrite (sum_const (c := Phi_p ns b 0%N)) //; last exact: (fs_pt FS).
  apply: cyc_const => j Hj; rewrite (Phi_p_step Hs Hreg HS) // big1 // => l _; exact: Z.
Qed.

(** ** a curl has no toroidal flux, and in a hollow domain no poloidal flux, under Dirichlet conditions *)
Theorem C68_curl_no_flux : dirichlet -> forall (a : 'cV_(rk S K1)) t z,
  toroidal_flux (field (strong_curl S *m a)) z 0 /\ (polar = false -> poloidal_flux (field (strong_curl S *m a)) t 0).
Proof.
move=> Ho a t z; have [l0 [l1 [l2 [d0 [d1 [d2 FS]]]]]] := resolved_flux Hres.
have [N0 N1 N2] := seq_sizes Hs Hreg HS; have Hadm := seq_adm Hs Hreg HS.
have Va := seq_V Hs Hreg HS a (fun e => ltac:(discriminate)).
split=> [|Hp].
- have := tor_flux Hs Hreg HS FS (strong_curl S *m a) z; rewrite big1 // => l _.
  rewrite (Phi_t_curl Hs Hreg HS) // !big1 ?subr0 ?mul0r // => j _; last by have [] := edge1 Hadm Va Ho (ltn_ord j) (ltn_ord l).
  case Hp : polar; last by have [] := inner1 Hadm Va Hp Ho (ltn_ord j) (ltn_ord l).
  by move: Va => /(VsT _ _ _ _ _ _ _ Hp) [al [ga H]]; have [_ -> _ _ _] := H j l (ltn_ord j) (ltn_ord l).
- have := pol_flux Hs Hreg HS FS (strong_curl S *m a) t; rewrite big1 // => j _.
  rewrite (Phi_p_curl Hs Hreg HS) // !big1 ?subr0 ?mul0r // => l _.
    by have [] := edge1 Hadm Va Ho (ltn_ord j) (ltn_ord l).
  by have [] := inner1 Hadm Va Hp Ho (ltn_ord j) (ltn_ord l).
Qed.

Lemma curl_Phi : dirichlet -> forall a : 'cV_(rk S K1),
  (forall l, (l < n2)%N -> Phi_t ns (strong_curl S *m a) l = 0) /\
  (polar = false -> forall j, (j < n1)%N -> Phi_p ns (strong_curl S *m a) j = 0).
Proof.
move=> Ho a; have [N0 N1 N2] := seq_sizes Hs Hreg HS; have Hadm := seq_adm Hs Hreg HS.
have Va := seq_V Hs Hreg HS a (fun e => ltac:(discriminate)).
split=> [l Hl|Hp j Hj].
- rewrite (Phi_t_curl Hs Hreg HS) // !big1 ?subr0 // => j _; last by have [] := edge1 Hadm Va Ho (ltn_ord j) Hl.
  case Hp : polar; last by have [] := inner1 Hadm Va Hp Ho (ltn_ord j) Hl.
  by move: Va => /(VsT _ _ _ _ _ _ _ Hp) [al [ga H]]; have [_ -> _ _ _] := H j l (ltn_ord j) Hl.
- rewrite (Phi_p_curl Hs Hreg HS) // !big1 ?subr0 // => l _.
    by have [] := edge1 Hadm Va Ho Hj (ltn_ord l).
  by have [] := inner1 Hadm Va Hp Ho Hj (ltn_ord l).
Qed.

(** adding a curl changes neither flux *)
Lemma add_curl_flux : dirichlet -> forall (b : 'cV_(rk S K2)) (a : 'cV_(rk S K1)) t z v,
  (toroidal_flux (field b) z v -> toroidal_flux (field (strong_curl S *m a + b)) z v) /\
  (polar = false -> poloidal_flux (field b) t v -> poloidal_flux (field (strong_curl S *m a + b)) t v).
Proof.
move=> Ho b a t z v; have [l0 [l1 [l2 [d0 [d1 [d2 FS]]]]]] := resolved_flux Hres.
have [Ct Cp] := curl_Phi Ho a.
split=> [H|Hp H].
- rewrite (int2_unique H (tor_flux Hs Hreg HS FS b z)).
  have := tor_flux Hs Hreg HS FS (strong_curl S *m a + b) z.
  rewrite (eq_bigr (fun l : 'I_n2 => Phi_t ns b l * evaluate l2 z l)) // => l _.
  by rewrite -{1}[strong_curl S *m a]scale1r Phi_t_lin Ct // mulr0 add0r.
- rewrite (int2_unique H (pol_flux Hs Hreg HS FS b t)).
  have := pol_flux Hs Hreg HS FS (strong_curl S *m a + b) t.
  rewrite (eq_bigr (fun j : 'I_n1 => Phi_p ns b j * evaluate l1 t j)) // => j _.
  by rewrite -{1}[strong_curl S *m a]scale1r Phi_p_lin Cp // mulr0 add0r.
Qed.

(** ** a divergence-free field is a curl exactly if it has no toroidal flux and, in a hollow domain, no
    poloidal flux (Dirichlet conditions) *)
Lemma dual_basis (F : fieldType) b n (K : 'M[F]_n) (V : 'M[F]_(b, n)) (P : 'M[F]_(n, b)) : (V <= K)%MS -> \rank K = b -> V *m P = 1%:M ->
  forall h : 'rV_n, (h <= K)%MS -> h *m P = 0 -> h = 0.
Proof.
move=> HV HK HP h Hh H0.
have RV : \rank V = b.
  apply/eqP; rewrite eqn_leq rank_leq_row /=; have : \rank (1%:M : 'M[F]_b) = b by rewrite mxrank1.
  by rewrite -HP => E; rewrite -{1}E mxrankM_maxl.
have /eqmxP E : (V == K)%MS by rewrite -(geq_leqif (mxrank_leqif_eq HV)) HK RV.
have /submxP [x Hx] : (h <= V)%MS by rewrite E.
by move: H0; rewrite Hx -mulmxA HP mulmx1 => ->; rewrite mul0mx.
Qed.
(** fields with prescribed fluxes *)
Lemma unit_fluxes : dirichlet -> exists bt : 'cV_(rk S K2), [/\ strong_div S *m bt = 0, Phi_t ns bt 0%N = 1 & Phi_p ns bt 0%N = 0].
Proof.
move=> Ho; have [N0 N1 N2] := seq_sizes Hs Hreg HS; have Hadm := seq_adm Hs Hreg HS.
have Hn : (2 + (polar && dirichlet) <= n0)%N by case: Hadm.
pose u : cochain [ringType of R] := fun c i j l => if (c == 2%N) && (i == n0.-2) && (j == 0%N) then 1 else 0.
have Vu : Vs n0 n1 n2 (get_xi n1 : nat -> nat -> nat -> R_realFieldType) polar dirichlet K2 u.
  rewrite /Vs; case Hp : polar => /=.
  - exists (fun _ _ => 0) => j l Hj Hl; rewrite !big1 ?oppr0 => *; rewrite ?mul0r //; split=> //.
    by rewrite /u; have -> : (0%N == n0.-2) = false by move: Hn; rewrite Hp Ho /=; lia.
  - move=> c i j l Hc Hin; rewrite freeE Ho /=; case: c Hc Hin => [|[|[|c]]] //= Hc Hin.
have [b Hb] := @seq_real ns ps q types DFx polar dirichlet Hs Hreg S HS K2 u (fun e => ltac:(discriminate)) Vu; exists b.
have in2' c i j l : (i < (if c == 0%N then n0 else n0.-1))%N -> (j < n1)%N -> (l < n2)%N -> in_comp (Shape n0 n1 n2 true false false) K2 c (i, j, l).
  by move=> Hi Hj Hl; rewrite in2 Hi Hj Hl.
split.
- apply: (seq_coefs_inj Hs Hreg HS) => // c i j l Hc; rewrite in3 => /and3P [Hi Hj Hl].
  have [_ _ Hd] := E_incidence Hs Hreg HS.
  have -> : c = 0%N by case: c Hc.
  rewrite Hd; last by rewrite (seq_sh Hs Hreg HS) in3 Hi Hj Hl.
  have Hj' : (j.+1 %% n1 < n1)%N by rewrite ltn_pmod. have Hl' : (l.+1 %% n2 < n2)%N by rewrite ltn_pmod.
  rewrite /cdiv /dr_ /dt_ /dz_ !Hb ?in2' //=; try lia.
  by rewrite /u /= !subrr !addr0.
- rewrite /Phi_t.
  have Hlt : (n0.-2 < n0.-1)%N by lia.
  rewrite (bigD1 (Ordinal Hlt)) //= (bigD1 (Ordinal N1)) //= Hb ?in2' // /u /= eqxx /= !big1 ?addr0 //.
  + move=> i Hi; apply: big1 => j _; rewrite Hb ?in2' // /u /=.
    by have -> : (i == n0.-2 :> nat) = false by apply/negbTE; move: Hi; apply: contra => /eqP E; apply/eqP/val_inj.
  + move=> j Hj; rewrite Hb ?in2' // /u /= eqxx /=.
    by have -> : (j == 0%N :> nat) = false by apply/negbTE; move: Hj; apply: contra => /eqP E; apply/eqP/val_inj.
- by rewrite /Phi_p big1 // => i _; rewrite big1 // => l _; rewrite Hb ?in2'.
Qed.
Lemma unit_fluxes_p : dirichlet -> polar = false -> exists bp : 'cV_(rk S K2), [/\ strong_div S *m bp = 0, Phi_t ns bp 0%N = 0 & Phi_p ns bp 0%N = 1].
Proof.
move=> Ho Hp; have [N0 N1 N2] := seq_sizes Hs Hreg HS; have Hadm := seq_adm Hs Hreg HS.
pose u : cochain [ringType of R] := fun c i j l => if (c == 1%N) && (i == 0%N) && (l == 0%N) then 1 else 0.
have Vu : Vs n0 n1 n2 (get_xi n1 : nat -> nat -> nat -> R_realFieldType) polar dirichlet K2 u.
  rewrite /Vs Hp /= => c i j l Hc Hin; rewrite freeE Ho /=; case: c Hc Hin => [|[|[|c]]] //= Hc Hin.
have [b Hb] := @seq_real ns ps q types DFx polar dirichlet Hs Hreg S HS K2 u (fun e => ltac:(discriminate)) Vu; exists b.
have in2' c i j l : (i < (if c == 0%N then n0 else n0.-1))%N -> (j < n1)%N -> (l < n2)%N -> in_comp (Shape n0 n1 n2 true false false) K2 c (i, j, l).
  by move=> Hi Hj Hl; rewrite in2 Hi Hj Hl.
split.
- apply: (seq_coefs_inj Hs Hreg HS) => // c i j l Hc; rewrite in3 => /and3P [Hi Hj Hl].
  have [_ _ Hd] := E_incidence Hs Hreg HS.
  have -> : c = 0%N by case: c Hc.
  rewrite Hd; last by rewrite (seq_sh Hs Hreg HS) in3 Hi Hj Hl.
  have Hj' : (j.+1 %% n1 < n1)%N by rewrite ltn_pmod. have Hl' : (l.+1 %% n2 < n2)%N by rewrite ltn_pmod.
  rewrite /cdiv /dr_ /dt_ /dz_ !Hb ?in2' //=; try lia.
  by rewrite /u /= !subrr !addr0.
- by rewrite /Phi_t big1 // => i _; rewrite big1 // => l _; rewrite Hb ?in2'.
- rewrite /Phi_p.
  have Hlt : (0 < n0.-1)%N by lia.
  rewrite (bigD1 (Ordinal Hlt)) //= (bigD1 (Ordinal N2)) //= Hb ?in2' // /u /= !big1 ?addr0 //.
  + move=> i Hi; apply: big1 => j _; rewrite Hb ?in2' // /u /=.
    by have -> : (i == 0%N :> nat) = false by apply/negbTE; move: Hi; apply: contra => /eqP E; apply/eqP/val_inj.
  + move=> j Hj; rewrite Hb ?in2' // /u /=.
    by have -> : (j == 0%N :> nat) = false by apply/negbTE; move: Hj; apply: contra => /eqP E; apply/eqP/val_inj.
Qed.
Lemma flux_value : dirichlet -> forall b : 'cV_(rk S K2), strong_div S *m b = 0 ->
  (forall z, closed01 z -> toroidal_flux (field b) z (Phi_t ns b 0%N)) /\ (forall t, closed01 t -> poloidal_flux (field b) t (Phi_p ns b 0%N)).
Proof.
move=> Ho b Hb; have [l0 [l1 [l2 [d0 [d1 [d2 FS]]]]]] := resolved_flux Hres.
have [N0 N1 N2] := seq_sizes Hs Hreg HS; have Hadm := seq_adm Hs Hreg HS.
have Vb := seq_V Hs Hreg HS b (fun e => ltac:(discriminate)).
have Z j l : (j < n1)%N -> (l < n2)%N -> coefs S K2 b 0%N 0%N j l - coefs S K2 b 0%N n0.-1 j l = 0.
  by move=> Hj Hl; rewrite (axis2 Hadm Vb) // (edge2 Hadm Vb) // subr0.
split.
- move=> z Hz; have := tor_flux Hs Hreg HS FS b z; rewrite (sum_const (c := Phi_t ns b 0%N)) //; last exact: (fs_pz FS).
  apply: cyc_const => l Hl; rewrite (Phi_t_step Hs Hreg HS) // big1 // => j _; exact: Z.
- move=> t Ht; have := pol_flux Hs Hreg HS FS b t; rewrite (sum_const (c := Phi_p ns b 0%N)) //; last exact: (fs_pt FS).
  apply: cyc_const => j Hj; rewrite (Phi_p_step Hs Hreg HS) // big1 // => l _; exact: Z.
Qed.
Lemma harmonic_no_flux : dirichlet -> forall h : 'cV_(rk S K2), dd2 S *m h = 0 -> Phi_t ns h 0%N = 0 -> (polar = false -> Phi_p ns h 0%N = 0) -> h = 0.
Proof.
move=> Ho h Hh Ft Fp; have [N0 N1 N2] := seq_sizes Hs Hreg HS.
have [_ _ D2 _] := C58_sequence_betti Hs Hreg HS.
have RK : \rank (kermx (dd2 S)^T) = betti polar dirichlet K2.
  by apply/eqP; rewrite mxrank_ker mxrank_tr -(eqn_add2l (\rank (dd2 S))) D2 subnKC // rank_leq_row.
have inK (x : 'cV_(rk S K2)) : dd2 S *m x = 0 -> (x^T <= kermx (dd2 S)^T)%MS.
  by move=> H; apply/sub_kermxP; rewrite -trmx_mul H trmx0.
have [ut Ht] : exists u : 'rV[R_realFieldType]_(rk S K2), forall x, (u *m x) 0 0 = Phi_t ns x 0%N.
  by apply: functional => a x y; apply: Phi_t_lin.
have [up Hp'] : exists u : 'rV[R_realFieldType]_(rk S K2), forall x, (u *m x) 0 0 = Phi_p ns x 0%N.
  by apply: functional => a x y; apply: Phi_p_lin.
have P11 (v : 'rV[R_realFieldType]_(rk S K2)) x : (x^T *m v^T) = ((v *m x) 0 0)%:M :> 'M_1.
  by apply/matrixP => i j; rewrite -trmx_mul mxE !ord1 [RHS]mxE eqxx mulr1n.
have Hodge (b : 'cV_(rk S K2)) : strong_div S *m b = 0 -> exists h' : 'cV_(rk S K2), [/\ dd2 S *m h' = 0, Phi_t ns h' 0%N = Phi_t ns b 0%N & polar = false -> Phi_p ns h' 0%N = Phi_p ns b 0%N].
  move=> Hb; have [h' [Hh' [A HA] _ _]] := C58_sequence_hodge Hs Hreg HS Hb; exists h'.
  have [Ct Cp] := curl_Phi Ho A.
  have E : b = 1 *: (strong_curl S *m A) + h' by rewrite scale1r -HA subrK.
  split=> // [|Hp]; first by rewrite [in RHS]E Phi_t_lin Ct // mulr0 add0r.
  by rewrite [in RHS]E Phi_p_lin Cp // mulr0 add0r.
have [bt [Dt Tt Pt]] := unit_fluxes Ho.
have [ht [Kt Tt' Pt']] := Hodge _ Dt.
apply: trmx_inj; rewrite trmx0.
case Hp : polar RK => RK.
- apply: (@dual_basis _ 1 _ (kermx (dd2 S)^T) ht^T ut^T); rewrite ?RK ?inK //.
  + by move: Ho; case: (dirichlet).
  + by rewrite P11 Ht Tt' Tt.
  + by rewrite P11 Ht Ft; apply/matrixP => i j; rewrite !mxE mul0rn.
- have [bp [Dp Tp Pp]] := unit_fluxes_p Ho Hp.
  have [hp [Kp Tp' Pp']] := Hodge _ Dp.
  apply: (@dual_basis _ (1 + 1) _ (kermx (dd2 S)^T) (col_mx ht^T hp^T) (row_mx ut^T up^T)).
  + by rewrite col_mx_sub !inK.
  + by rewrite RK; move: Ho; case: (dirichlet).
  + rewrite mul_col_row !P11 Ht Hp' Tt' Tt Pt' // Pt Ht Tp' Tp Hp' Pp' // Pp.
    rewrite (_ : 0%:M = 0 :> 'M_1); last by apply/matrixP => i j; rewrite !mxE mul0rn.
    by rewrite -scalar_mx_block.
  + exact: inK.
  + rewrite mul_mx_row !P11 Ht Hp' Ft Fp //.
    rewrite (_ : 0%:M = 0 :> 'M_1); last by apply/matrixP => i j; rewrite !mxE mul0rn.
    by rewrite row_mx0.
Qed.
Theorem C68_flux_potential : dirichlet -> forall B : 'cV_(rk S K2), strong_div S *m B = 0 -> forall t z, closed01 t -> closed01 z ->
  (exists A : 'cV_(rk S K1), B = strong_curl S *m A) <->
  (toroidal_flux (field B) z 0 /\ (polar = false -> poloidal_flux (field B) t 0)).
Proof.
move=> Ho B HB t z Ht Hz; split=> [[A ->]|[Ft Fp]]; first exact: C68_curl_no_flux.
have [Vt Vp] := flux_value Ho HB.
have Et : Phi_t ns B 0%N = 0 by apply: int2_unique (Vt z Hz) Ft.
have Ep : polar = false -> Phi_p ns B 0%N = 0 by move=> Hp; apply: int2_unique (Vp t Ht) (Fp Hp).
have [h [Hh [A HA] _ _]] := C58_sequence_hodge Hs Hreg HS HB.
have [Ct Cp] := curl_Phi Ho A; have [_ N1 N2] := seq_sizes Hs Hreg HS.
have E : B = 1 *: (strong_curl S *m A) + h by rewrite scale1r -HA subrK.
have h0 : h = 0.
  apply: harmonic_no_flux => //.
  - by move: Et; rewrite E Phi_t_lin Ct // mulr0 add0r.
  - by move=> Hp; move: (Ep Hp); rewrite E Phi_p_lin Cp // mulr0 add0r.
by exists A; rewrite -HA h0 subr0.
Qed.
(** a harmonic field is determined by its fluxes, which can be prescribed *)
Theorem C68_harmonic_flux : dirichlet -> (forall h h' : 'cV_(rk S K2), dd2 S *m h = 0 -> dd2 S *m h' = 0 ->
    (forall t z v, closed01 t -> closed01 z -> (toroidal_flux (field h) z v -> toroidal_flux (field h') z v) /\
       (polar = false -> poloidal_flux (field h) t v -> poloidal_flux (field h') t v)) -> h = h') /\
  forall vt vp : R, exists h : 'cV_(rk S K2), dd2 S *m h = 0 /\ forall t z, closed01 t -> closed01 z ->
    toroidal_flux (field h) z vt /\ (polar = false -> poloidal_flux (field h) t vp).
Proof.
move=> Ho; have [_ N1 N2] := seq_sizes Hs Hreg HS.
have [_ _ K_2 _] := C27_sequence Hs Hreg HS.
have Dv (h : 'cV_(rk S K2)) : dd2 S *m h = 0 -> strong_div S *m h = 0 by move=> /(K_2 h).2 [].
have H00 : closed01 0 by split; [apply: Rle_refl | apply: Rle_0_1].
split.
- move=> h h' Hh Hh' H; apply/eqP; rewrite -subr_eq0; apply/eqP.
  have [Vt Vp] := flux_value Ho (Dv h Hh); have [Vt' Vp'] := flux_value Ho (Dv h' Hh').
  have El : h - h' = (-1) *: h' + h by rewrite scaleN1r addrC.
  apply: harmonic_no_flux => //.
  + by rewrite mulmxBr Hh Hh' subrr.
  + have [H1 _] := H 0 0 (Phi_t ns h 0%N) H00 H00.
    by rewrite El Phi_t_lin (int2_unique (Vt' 0 H00) (H1 (Vt 0 H00))) mulN1r addNr.
  + move=> Hp; have [_ H1] := H 0 0 (Phi_p ns h 0%N) H00 H00.
    by rewrite El Phi_p_lin (int2_unique (Vp' 0 H00) (H1 Hp (Vp 0 H00))) mulN1r addNr.
- move=> vt vp.
  have Zt : Phi_t ns (0 : 'cV_(rk S K2)) 0%N = 0.
    by have := Phi_t_lin ns (-1) (0 : 'cV_(rk S K2)) 0 0%N; rewrite scaler0 addr0 mulN1r addNr.
  have Zp : Phi_p ns (0 : 'cV_(rk S K2)) 0%N = 0.
    by have := Phi_p_lin ns (-1) (0 : 'cV_(rk S K2)) 0 0%N; rewrite scaler0 addr0 mulN1r addNr.
  have [b [Db Tb Pb]] : exists b : 'cV_(rk S K2), [/\ strong_div S *m b = 0, Phi_t ns b 0%N = vt & polar = false -> Phi_p ns b 0%N = vp].
    have [bt [Dt Tt Pt]] := unit_fluxes Ho.
    case Hp : polar.
      by exists (vt *: bt + 0); split=> //; [rewrite mulmxDr -scalemxAr Dt mulmx0 scaler0 addr0 | rewrite Phi_t_lin Tt Zt mulr1 addr0].
    have [bp [Dp Tp Pp]] := unit_fluxes_p Ho Hp.
    exists (vt *: bt + (vp *: bp + 0)); split=> [||_].
    - by rewrite !mulmxDr -!scalemxAr Dt Dp mulmx0 !scaler0 !addr0.
    - by rewrite !Phi_t_lin Tt Tp Zt mulr1 mulr0 !addr0.
    - by rewrite !Phi_p_lin Pt Pp Zp mulr1 mulr0 add0r addr0.
  have [h [Hh [A HA] _ _]] := C58_sequence_hodge Hs Hreg HS Db; exists h; split=> // t z Ht Hz.
  have [Ct Cp] := curl_Phi Ho A.
  have E : b = 1 *: (strong_curl S *m A) + h by rewrite scale1r -HA subrK.
  have [Vt Vp] := flux_value Ho (Dv h Hh).
  have Et : Phi_t ns h 0%N = vt by rewrite -Tb E Phi_t_lin Ct // mulr0 add0r.
  split; first by rewrite -Et; apply: Vt.
  move=> Hp; have Ep : Phi_p ns h 0%N = vp by rewrite -(Pb Hp) E Phi_p_lin Cp // mulr0 add0r.
  by rewrite -Ep; apply: Vp.
Qed.
(** ... whereas in a polar sequence the poloidal flux between the axis and the boundary is not fixed by the
    topology: there are curls with any poloidal flux *)
Theorem C68_polar_poloidal_flux : polar -> dirichlet -> forall v : R, exists a : 'cV_(rk S K1),
  forall t, closed01 t -> poloidal_flux (field (strong_curl S *m a)) t v.
Proof.
move=> Hp Ho v; have [l0 [l1 [l2 [d0 [d1 [d2 FS]]]]]] := resolved_flux Hres.
have [N0 N1 N2] := seq_sizes Hs Hreg HS; have Hadm := seq_adm Hs Hreg HS.
have Hn : (2 + (polar && dirichlet) <= n0)%N by case: Hadm.
have {}Hn : (3 <= n0)%N by move: Hn; rewrite Hp Ho.
have [_ _ _ _ Hxi] := Hadm; have {}Hxi := Hxi Hp.
pose w : R := v * (n2%:R)^-1.
have Hw : n2%:R * w = v by rewrite /w mulrCA divff ?mulr1 // pnatr_eq0 -lt0n.
pose u : cochain [ringType of R] := fun c i j l => if (c == 2%N) && (i < 2)%N then w else 0.
have Vu : Vs n0 n1 n2 (get_xi n1 : nat -> nat -> nat -> R_realFieldType) polar dirichlet K1 u.
  apply/(VsT _ _ _ _ _ _ _ Hp); exists (fun _ _ => 0), (fun _ _ => w) => j l Hj Hl; split.
  - by rewrite big1 // => p _; rewrite mul0r.
  - by [].
  - by rewrite big1 // => p _; rewrite mul0r.
  - move=> i Hi; rewrite /u Hi /= -mulr_sumr sum3O.
    by have [Hsum _] := Hxi j Hj; rewrite (Hsum i Hi) mulr1.
  - by rewrite /u /=; have -> : (n0.-1 < 2)%N = false by lia.
have [a Ha] := @seq_real ns ps q types DFx polar dirichlet Hs Hreg S HS K1 u (fun e => ltac:(discriminate)) Vu; exists a => t Ht.
have in1' c i j l : (i < (if c == 0%N then n0.-1 else n0))%N -> (j < n1)%N -> (l < n2)%N -> in_comp (Shape n0 n1 n2 true false false) K1 c (i, j, l).
  by move=> Hi Hj Hl; rewrite in1 Hi Hj Hl.
have := pol_flux Hs Hreg HS FS (strong_curl S *m a) t; rewrite (sum_const (c := v)) //; last exact: (fs_pt FS).
move=> j Hj; rewrite (Phi_p_curl Hs Hreg HS) // [X in _ - X]big1; last first.
  move=> l _; rewrite Ha ?in1' //= ?prednK //; try lia.
  by rewrite /u /=; have -> : (n0.-1 < 2)%N = false by lia.
rewrite subr0 (eq_bigr (fun _ => w)); last by move=> l _; rewrite Ha ?in1' //=; lia.
by rewrite sumr_const card_ord -mulr_natl.
Qed.

(** ** the magnetic fluxes are invariants of every relaxation run (all schedules of faults, step rejections
    and step sizes), as long as no perturbation is applied *)
Section Run.
Variable pinv : 'M[R_realFieldType]_(rk S K3).
Variables (DF : nat -> mat3 R_realFieldType) (lstsq : 'M[R_realFieldType]_(rk S K2) -> 'cV[R_realFieldType]_(rk S K2) -> 'cV[R_realFieldType]_(rk S K2))
  (fault : rstate S -> option ('cV[R_realFieldType]_(rk S K2) * bool * num R_realFieldType * num R_realFieldType)).
Lemma run_curl cfg t0 st0 : c_solver_tol cfg < 1 ->
  (forall n, (0 < n)%N -> n = c_apply_pert_after cfg -> c_pert_strength cfg <= 0) ->
  forall n, exists a : 'cV_(rk S K1), B_n (state_at (S := S) sqrt pinv DF lstsq fault cfg t0 st0 n) = strong_curl S *m a + B_n st0.
Proof.
move=> Ht Hp; elim=> [|n [a IH]]; first by exists 0; rewrite mulmx0 add0r.
case Ha : (accepted (S := S) sqrt pinv DF lstsq fault cfg t0 st0 n.+1); last first.
  by have [-> _ _ _ _] := reject_fields Ha; exists a.
have [-> _ _ _ _] := accept_state Ha.
have -> : pert sqrt pinv DF cfg n.+1 = 0.
  by rewrite /pert /pert_at; case: eqP => //= E; rewrite ltNge (Hp n.+1).
have [st' [[E1 _ _ _] _ -> _ _]] := accepted_step Ht Ha.
rewrite addr0 /B_nplus1 E1 IH scalemxAr; eexists.
by rewrite addrAC -mulmxDr.
Qed.
Theorem C68_flux_conserved : dirichlet -> forall cfg t0 st0, c_solver_tol cfg < 1 ->
  (forall n, (0 < n)%N -> n = c_apply_pert_after cfg -> c_pert_strength cfg <= 0) ->
  forall n t z v, let B := B_n (state_at (S := S) sqrt pinv DF lstsq fault cfg t0 st0 n) in
  (toroidal_flux (field (B_n st0)) z v -> toroidal_flux (field B) z v) /\
  (polar = false -> poloidal_flux (field (B_n st0)) t v -> poloidal_flux (field B) t v).
Proof.
move=> Ho cfg t0 st0 Ht Hp n t z v; have [a Ea] := run_curl t0 st0 Ht Hp n.
by rewrite /= Ea; apply: (add_curl_flux Ho (B_n st0) a t z v).
Qed.
End Run.
End Seq.

Section Phys.
Variable F : realFieldType.
Add Field Fflux : (@mc_fth F).
(** ** physical meaning: the logical components of a 2-form are the flux densities of its pushforward (the
    physical vector field) through the coordinate surfaces of the map: B . (F_r x F_theta) = b_zeta etc. *)
Theorem C68_physical_flux_density : forall (DF : mat3 F) (v : vec3 F), det33 DF <> 0 ->
  let B := pushforward K2 DF v in let e c : vec3 F := fun a => DF a c in
  [/\ dot3 B (cross (e 1%N) (e 2%N)) = v 0%N, dot3 B (cross (e 2%N) (e 0%N)) = v 1%N & dot3 B (cross (e 0%N) (e 1%N)) = v 2%N].
Proof.
move=> DF v /eqP Hd; rewrite /dot3 /cross /pushforward /mulv3 /arr3 /= !sum3O /=.
have aux (a b c x y z D : F) : a / D * x + b / D * y + c / D * z = (a * x + b * y + c * z) / D.
  by rewrite !mulrDl -!mulrA ![_^-1 * _]mulrC.
have can (w D : F) : D != 0 -> w * D / D = w by move=> H; rewrite mulfK.
split; rewrite aux -[RHS](can _ _ Hd); congr (_ / _); rewrite /det33; mc_norm; ring.
Qed.
End Phys.

(** the polar Dirichlet discretisation of the scripts and a hollow one: harmonic fields with prescribed fluxes
    exist, they are divergence-free, and those of nonzero toroidal flux are not curls *)
Example C68_nonvacuous : exists S S' : drseq R_realFieldType,
  [/\ new_sequence (8, 8, 1)%N (3, 3, 0)%N 4 (Clamped, Periodic, Constant) (fun _ => id33) true true = Some S,
      new_sequence (8, 8, 6)%N (3, 2, 2)%N 5 (Clamped, Periodic, Periodic) (fun _ => id33) false true = Some S',
      exists2 b : 'cV_(rk S K2), strong_div S *m b = 0 & toroidal_flux (fun c => discrete_form (8, 8, 1)%N (3, 3, 0)%N (Clamped, Periodic, Constant) b c) 0 1
    & exists2 b : 'cV_(rk S' K2), strong_div S' *m b = 0 &
        toroidal_flux (fun c => discrete_form (8, 8, 6)%N (3, 2, 2)%N (Clamped, Periodic, Periodic) b c) 0 2 /\
        poloidal_flux (fun c => discrete_form (8, 8, 6)%N (3, 2, 2)%N (Clamped, Periodic, Periodic) b c) 0 3].
Proof.
have [H1 H2 H3 _ _] := SequenceR_nonvacuous.
have H2' : supported (8, 8, 6)%N (3, 2, 2)%N 5 (Clamped, Periodic, Periodic) false true by case: H2 => A _; split.
have [S HS] := C26_constructor_total H1 (H3 _); have [S' HS'] := C26_constructor_total H2' (H3 _); exists S, S'.
have H00 : closed01 0 by split; [apply: Rle_refl | apply: Rle_0_1].
split=> //.
- have [_ /(_ 1 0) [h [Hh H]]] := C68_harmonic_flux H1 (H3 _) HS isT; exists h; last by have [] := H 0 0 H00 H00.
  by have [_ _ K_2 _] := C27_sequence H1 (H3 _) HS; have [] := proj1 (K_2 h).2 Hh.
- have [_ /(_ 2 3) [h [Hh H]]] := C68_harmonic_flux H2' (H3 _) HS' isT; exists h; last by have [A B] := H 0 0 H00 H00; split=> //; apply: B.
  by have [_ _ K_2 _] := C27_sequence H2' (H3 _) HS'; have [] := proj1 (K_2 h).2 Hh.
Qed.
Print Assumptions C68_clamped_unit_integral.
Print Assumptions C68_periodic_unit_integral.
Print Assumptions C68_unique.
Print Assumptions C68_total_mass.
Print Assumptions C68_dirichlet_traces.
Print Assumptions C68_axis_traces.
Print Assumptions C68_fluxes_exist.
Print Assumptions C68_stokes.
Print Assumptions C68_gauss.
Print Assumptions C68_radial_flux.
Print Assumptions C68_flux_constant.
Print Assumptions C68_curl_no_flux.
Print Assumptions C68_flux_potential.
Print Assumptions C68_harmonic_flux.
Print Assumptions C68_polar_poloidal_flux.
Print Assumptions C68_flux_conserved.
Print Assumptions C68_physical_flux_density.
