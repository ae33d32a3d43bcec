(** Traces, fluxes and circulations of discrete forms. *)
From Coq Require Import Reals Lra.
From Coquelicot Require Import Coquelicot.
From mathcomp Require Import all_ssreflect all_algebra zify.
From Verif Require Import Model.RBase Model.Spline Model.Quad Model.Forms Model.DeRham Model.FormEval Model.Geometry Model.SeqR.
From Verif Require Import Spec.Cochain Spec.PolarSpace Spec.SeqSpec Spec.FormSpec Spec.GeomSpec Spec.SeqRSpec Spec.CalculusSpec Spec.SmoothSpec Spec.FluxSpec Spec.TopologySpec.
From Verif Require Import Proof.RField Proof.MCRing Proof.IndexLemmas Proof.Incidence Proof.SeqFacts Proof.DeRhamAlg Proof.PolarSpan Proof.BSplinePoly
  Proof.SplineProps Proof.SplineInt Proof.FormEvalProofs Proof.GeometryProofs Proof.SeqRProofs Proof.SeqDeriv Proof.SeqCalculus Proof.SeqSmooth Proof.Topology.
Set Implicit Arguments.
Unset Strict Implicit.
Unset Printing Implicit Defensive.
Import Order.TTheory GRing.Theory Num.Theory.
Local Open Scope ring_scope.

(** ** integrals of finite sums *)
Lemma sum_int n (f : nat -> R -> R) (a b : R) (v : nat -> R) :
  (forall i, (i < n)%N -> is_RInt (f i) a b (v i)) -> is_RInt (fun t => \sum_(i < n) f i t) a b (\sum_(i < n) v i).
Proof.
elim: n => [|n IH] H.
  rewrite big_ord0; apply: (is_RInt_ext (fun _ => R0)); first by move=> t _; rewrite big_ord0.
  have := is_RInt_const a b R0; rewrite /scal /= /mult /=.
  by rewrite Rmult_0_r.
rewrite big_ord_recr /=; apply: (is_RInt_ext (fun t => Rplus (\sum_(i < n) f i t) (f n t))).
  by move=> t _; rewrite big_ord_recr.
by apply: is_RInt_plus; [apply: IH => i Hi; apply: H; apply: ltnW | apply: H].
Qed.
Lemma lin_int n (c : nat -> R) (f : nat -> R -> R) : (forall i, (i < n)%N -> is_RInt (f i) 0 1 1) ->
  is_RInt (fun t => \sum_(i < n) c i * f i t) 0 1 (\sum_(i < n) c i).
Proof.
move=> H; apply: (@sum_int n (fun i t => c i * f i t)) => i Hi.
have := is_RInt_scal _ _ _ (c i) _ (H i Hi); rewrite /scal /= /mult /=.
by rewrite Rmult_1_r.
Qed.
Lemma int_eq (f g : R -> R) (v w : R) : (forall x, Rlt 0 x /\ Rlt x 1 -> f x = g x) -> v = w -> is_RInt g 0 1 w -> is_RInt f 0 1 v.
Proof.
move=> H ->; apply: is_RInt_ext => x; rewrite Rmin_left ?Rmax_right; try lra.
by move=> Hx; rewrite H.
Qed.
Lemma int_unique (f : R -> R) v w : is_RInt f 0 1 v -> is_RInt f 0 1 w -> v = w.
Proof. by move=> H1 H2; rewrite -(is_RInt_unique _ _ _ _ H1) (is_RInt_unique _ _ _ _ H2). Qed.
Lemma int2_unique f v w : is_int2 f v -> is_int2 f w -> v = w.
Proof.
case=> g [Hg Iv] [h [Hh Iw]]; apply: (int_unique Iv); apply: (int_eq _ erefl Iw) => x Hx.
exact: int_unique (Hg x Hx) (Hh x Hx).
Qed.
Lemma int3_unique f v w : is_int3 f v -> is_int3 f w -> v = w.
Proof.
case=> g [Hg Iv] [h [Hh Iw]]; apply: (int_unique Iv); apply: (int_eq _ erefl Iw) => x Hx.
exact: int2_unique (Hg x Hx) (Hh x Hx).
Qed.

Section Sums.
Variables (N M P : nat).
Implicit Type u : nat -> nat -> nat -> R.
Definition unit_int n (A : R -> nat -> R) : Prop := forall i, (i < n)%N -> is_RInt (fun x => A x i) 0 1 1.

Lemma int_r u A (B C : nat -> R) : unit_int N A ->
  is_RInt (fun x => \sum_(i < N) \sum_(j < M) \sum_(l < P) u i j l * (A x i * B j * C l)) 0 1
    (\sum_(i < N) \sum_(j < M) \sum_(l < P) u i j l * (B j * C l)).
Proof.
move=> HA; apply: (@int_eq _ (fun x => \sum_(i < N) (\sum_(j < M) \sum_(l < P) u i j l * (B j * C l)) * A x i) _ _ _ erefl).
  by move=> x _; exact: (sum3_as_r N M P u (A x) B C).
exact: (@lin_int N (fun i => \sum_(j < M) \sum_(l < P) u i j l * (B j * C l)) (fun i x => A x i) HA).
Qed.
Lemma int_t u (A : nat -> R) B (C : nat -> R) : unit_int M B ->
  is_RInt (fun x => \sum_(i < N) \sum_(j < M) \sum_(l < P) u i j l * (A i * B x j * C l)) 0 1
    (\sum_(j < M) \sum_(i < N) \sum_(l < P) u i j l * (A i * C l)).
Proof.
move=> HB; apply: (@int_eq _ (fun x => \sum_(j < M) (\sum_(i < N) \sum_(l < P) u i j l * (A i * C l)) * B x j) _ _ _ erefl).
  by move=> x _; exact: (sum3_as_t N M P u A (B x) C).
exact: (@lin_int M (fun j => \sum_(i < N) \sum_(l < P) u i j l * (A i * C l)) (fun j x => B x j) HB).
Qed.
Lemma int_z u (A B : nat -> R) C : unit_int P C ->
  is_RInt (fun x => \sum_(i < N) \sum_(j < M) \sum_(l < P) u i j l * (A i * B j * C x l)) 0 1
    (\sum_(l < P) \sum_(i < N) \sum_(j < M) u i j l * (A i * B j)).
Proof.
move=> HC; apply: (@int_eq _ (fun x => \sum_(l < P) (\sum_(i < N) \sum_(j < M) u i j l * (A i * B j)) * C x l) _ _ _ erefl).
  by move=> x _; exact: (sum3_as_z N M P u A B (C x)).
exact: (@lin_int P (fun l => \sum_(i < N) \sum_(j < M) u i j l * (A i * B j)) (fun l x => C x l) HC).
Qed.

Lemma int_rt u A B (C : nat -> R) : unit_int N A -> unit_int M B ->
  is_int2 (fun x y => \sum_(i < N) \sum_(j < M) \sum_(l < P) u i j l * (A x i * B y j * C l))
    (\sum_(l < P) (\sum_(i < N) \sum_(j < M) u i j l) * C l).
Proof.
move=> HA HB; exists (fun y => \sum_(i < N) \sum_(j < M) \sum_(l < P) u i j l * (B y j * C l)); split.
  by move=> y _; apply: int_r.
have H := @int_t u (fun _ : nat => 1 : R) B C HB; apply: (int_eq _ _ H).
  by move=> y _; apply: eq_bigr => i _; apply: eq_bigr => j _; apply: eq_bigr => l _; rewrite mul1r.
rewrite [RHS]exchange_big /= -[LHS]/(\sum_(l < P) _).
under [RHS]eq_bigr => i _ do rewrite exchange_big /=.
rewrite [RHS]exchange_big /=; apply: eq_bigr => l _; rewrite mulr_suml; apply: eq_bigr => i _; rewrite mulr_suml.
by apply: eq_bigr => j _; rewrite mul1r.
Qed.
Lemma int_rz u A (B : nat -> R) C : unit_int N A -> unit_int P C ->
  is_int2 (fun x y => \sum_(i < N) \sum_(j < M) \sum_(l < P) u i j l * (A x i * B j * C y l))
    (\sum_(j < M) (\sum_(i < N) \sum_(l < P) u i j l) * B j).
Proof.
move=> HA HC; exists (fun y => \sum_(i < N) \sum_(j < M) \sum_(l < P) u i j l * (B j * C y l)); split.
  by move=> y _; apply: int_r.
have H := @int_z u (fun _ : nat => 1 : R) B C HC; apply: (int_eq _ _ H).
  by move=> y _; apply: eq_bigr => i _; apply: eq_bigr => j _; apply: eq_bigr => l _; rewrite mul1r.
under [RHS]eq_bigr => l _ do rewrite exchange_big /=.
rewrite [RHS]exchange_big /=; apply: eq_bigr => j _; rewrite mulr_suml [RHS]exchange_big /=; apply: eq_bigr => i _; rewrite mulr_suml.
by apply: eq_bigr => l _; rewrite mul1r.
Qed.
Lemma int_tz u (A : nat -> R) B C : unit_int M B -> unit_int P C ->
  is_int2 (fun x y => \sum_(i < N) \sum_(j < M) \sum_(l < P) u i j l * (A i * B x j * C y l))
    (\sum_(i < N) (\sum_(j < M) \sum_(l < P) u i j l) * A i).
Proof.
move=> HB HC; exists (fun y => \sum_(j < M) \sum_(i < N) \sum_(l < P) u i j l * (A i * C y l)); split.
  by move=> y _; apply: int_t.
have H := @int_z u A (fun _ : nat => 1 : R) C HC; apply: (int_eq _ _ H).
  by move=> y _; rewrite exchange_big; apply: eq_bigr => i _; apply: eq_bigr => j _; apply: eq_bigr => l _; rewrite mulr1.
rewrite [RHS]exchange_big /=; apply: eq_bigr => i _; rewrite [RHS]exchange_big /= mulr_suml; apply: eq_bigr => j _; rewrite mulr_suml.
by apply: eq_bigr => l _; rewrite mulr1.
Qed.
Lemma int_rtz u A B C : unit_int N A -> unit_int M B -> unit_int P C ->
  is_int3 (fun x y z => \sum_(i < N) \sum_(j < M) \sum_(l < P) u i j l * (A x i * B y j * C z l))
    (\sum_(i < N) \sum_(j < M) \sum_(l < P) u i j l).
Proof.
move=> HA HB HC; exists (fun z => \sum_(l < P) (\sum_(i < N) \sum_(j < M) u i j l) * C z l); split.
  by move=> z _; apply: int_rt.
apply: (@int_eq _ (fun z => \sum_(l < P) (\sum_(i < N) \sum_(j < M) u i j l) * C z l) _ (\sum_(l < P) (\sum_(i < N) \sum_(j < M) u i j l)) _ _ _) => //.
  under [LHS]eq_bigr => i _ do rewrite exchange_big /=.
  by rewrite exchange_big.
exact: (@lin_int P (fun l => \sum_(i < N) \sum_(j < M) u i j l) (fun l x => C x l) HC).
Qed.
End Sums.

(** ** the univariate facts *)
Record flux_splines (ns ps : triple) (types : stype * stype * stype) (l0 l1 l2 d0 d1 d2 : spline) : Prop := FluxSplines {
  fs_form : forall k, DifferentialForm k ns ps types = Some (DForm k l0 l1 l2 d0 d1 d2);
  fs_r : unit_int ns.1.1.-1 (evaluate_deriv d0);
  fs_t : unit_int ns.1.2 (evaluate_deriv d1);
  fs_z : unit_int ns.2 (evaluate_deriv d2);
  fs_pr : forall x, closed01 x -> \sum_(j < ns.1.1) evaluate l0 x j = 1;
  fs_pt : forall x, closed01 x -> \sum_(j < ns.1.2) evaluate l1 x j = 1;
  fs_pz : forall x, closed01 x -> \sum_(l < ns.2) evaluate l2 x l = 1;
  fs_in : forall i, (i < ns.1.1)%N -> evaluate l0 0 i = (i == 0%N)%:R;
  fs_out : forall i, (i < ns.1.1)%N -> evaluate l0 1 i = (i == ns.1.1.-1)%:R }.
Lemma periodic_sum1 n p l x : (1 <= p)%N && (p < n)%N -> Rle (INR n) 49000 -> new_spline n p Periodic = Some l -> closed01 x ->
  \sum_(j < n) evaluate l x j = 1.
Proof.
move=> /andP [A B] N E Hx; have [-> _] := new_spline_inv _ _ _ _ E; rewrite -rsumE.
rewrite periodic_pou //; try lia.
by case: Hx => H0 [H1|H1]; [left | right; split; [lia|]].
Qed.
Lemma resolved_flux ns ps q types : resolved ns ps q types ->
  exists l0 l1 l2 d0 d1 d2, flux_splines ns ps types l0 l1 l2 d0 d1 d2.
Proof.
case: ns => [[n0 n1] n2]; case: ps => [[p0 p1] p2]; case: types => [[t0 t1] t2] Hr.
have [l0 [l1 [l2 [d0 [d1 [d2 [HD [/andP [A0 B0] N0 E0 F0] [A1 N1 E1 F1] Hz]]]]]]] := resolved_splines Hr.
exists l0, l1, l2, d0, d1, d2; split=> //=.
- move=> i Hi; apply: (@clamped_deriv_int n0 p0 l0 d0 i) => //; lia.
- case/andP: (A1) => A B; move=> i Hi; apply: (@periodic_deriv_int n1 p1 l1 d1 i) => //; lia.
- case: Hz => [[E /andP [A B] N [El Ed]]|[E En Ep [El Ed]]] i Hi.
    by apply: (@periodic_deriv_int n2 p2 l2 d2 i) => //; lia.
  rewrite /evaluate_deriv Ed; have := is_RInt_const 0 1 R1; rewrite /scal /= /mult /=.
  by rewrite Rminus_0_r Rmult_1_l.
- have [-> _] := new_spline_inv _ _ _ _ E0; move=> x Hx; rewrite -rsumE clamped_pou //; lia.
- by move=> x Hx; apply: (periodic_sum1 A1 N1 E1).
- move=> x Hx; case: Hz => [[E A N [El Ed]]|[E -> Ep [El Ed]]]; first exact: (periodic_sum1 A N El).
  by rewrite big_ord1 /evaluate El.
- have [-> _] := new_spline_inv _ _ _ _ E0; move=> i Hi; rewrite clamped_left //; try lia.
  by case: Nat.eqb_spec => [->|H]; [rewrite eqxx | have -> : (i == 0%N) = false by lia].
- have [-> _] := new_spline_inv _ _ _ _ E0; move=> i Hi; rewrite ev_clamped_one //; try lia.
  by case: Nat.eqb_spec => [->|H]; [have -> : ((n0 - 1)%coq_nat == n0.-1) by lia | have -> : (i == n0.-1) = false by lia].
Qed.

(** ** sequences *)
Section Seq.
Variables (ns ps : triple) (q : nat) (types : stype * stype * stype) (DFx : point -> mat3 R_realFieldType)
  (polar dirichlet : bool).
Hypothesis Hs : supported ns ps q types polar dirichlet.
Hypothesis Hreg : regular_map DFx (seq_points ns ps q types).
Variable S : drseq R_realFieldType.
Hypothesis HS : new_sequence ns ps q types DFx polar dirichlet = Some S.
Notation field := (discrete_form ns ps types).
Notation n0 := ns.1.1.
Notation n1 := ns.1.2.
Notation n2 := ns.2.
Notation xi := (get_xi n1 : nat -> nat -> nat -> R_realFieldType).

Lemma seq_adm : admissible (Shape n0 n1 n2 true false false) xi polar dirichlet.
Proof. by have [f [Q [_ H [_ <-] _ _]]] := seq_summary Hs Hreg HS. Qed.
Lemma seq_V k (y : 'cV_(rk S k)) : k <> KV -> Vs n0 n1 n2 xi polar dirichlet k (coefs S k y).
Proof.
have [f [Q [E Hadm [_ Esh] _ _]]] := seq_summary Hs Hreg HS; move: y; rewrite E Esh => y HV.
by apply: V_coefs => //; rewrite -Esh.
Qed.
Lemma seq_real k u : k <> KV -> Vs n0 n1 n2 xi polar dirichlet k u -> exists y : 'cV_(rk S k), forall c i j l,
  (c < ncomp k)%N -> in_comp (Shape n0 n1 n2 true false false) k c (i, j, l) -> coefs S k y c i j l = u c i j l.
Proof.
have [f [Q [E Hadm [_ Esh] _ _]]] := seq_summary Hs Hreg HS; rewrite E Esh => HV HVs.
by apply: V_real => //; rewrite -Esh.
Qed.
Lemma seq_sizes : [/\ (1 < n0)%N, (0 < n1)%N & (0 < n2)%N].
Proof. by have [_ /and3P [H1 H2 _] H3 _ _] := seq_adm; split=> //; move: H3 => /=; lia. Qed.
Lemma coefs_linear k a (x y : 'cV_(rk S k)) c i j l :
  coefs S k (a *: x + y) c i j l = a * coefs S k x c i j l + coefs S k y c i j l.
Proof. by rewrite /coefs mulr_sumr -big_split; apply: eq_bigr => p _; rewrite mulmxDr -scalemxAr !mxE. Qed.

Lemma seq_coefs_inj k (y : 'cV_(rk S k)) : k <> KV ->
  (forall c i j l, (c < ncomp k)%N -> in_comp (Shape n0 n1 n2 true false false) k c (i, j, l) -> coefs S k y c i j l = 0) -> y = 0.
Proof.
have [f [Q [E Hadm [_ Esh] _ [_ _ _ HM]]]] := seq_summary Hs Hreg HS; move: y HM; rewrite E Esh => y HM HV H.
rewrite Esh in Hadm.
exact: (coefs_inj (masses_free HM HV)).
Qed.
Section Spl.
Variables (l0 l1 l2 d0 d1 d2 : spline).
Hypothesis FS : flux_splines ns ps types l0 l1 l2 d0 d1 d2.
Let HD := fs_form FS.
Notation L0 := (evaluate l0). Notation L1 := (evaluate l1). Notation L2 := (evaluate l2).
Notation T0 := (evaluate_deriv d0). Notation T1 := (evaluate_deriv d1). Notation T2 := (evaluate_deriv d2).

Lemma at_in (c : nat -> R) : \sum_(i < n0) c i * L0 0 i = c 0%N.
Proof.
have [H _ _] := seq_sizes; have H0 : (0 < n0)%N by lia.
rewrite (bigD1 (Ordinal H0)) //= (fs_in FS) // eqxx mulr1 big1 ?addr0 // => i Hi.
rewrite (fs_in FS) //; have -> : ((i : nat) == 0%N) = false by apply/negbTE; move: Hi; apply: contra => /eqP E; apply/eqP/val_inj.
exact: mulr0.
Qed.
Lemma at_out (c : nat -> R) : \sum_(i < n0) c i * L0 1 i = c n0.-1.
Proof.
have [H _ _] := seq_sizes; have H0 : (n0.-1 < n0)%N by lia.
rewrite (bigD1 (Ordinal H0)) //= (fs_out FS) // eqxx mulr1 big1 ?addr0 // => i Hi.
rewrite (fs_out FS) //; have -> : ((i : nat) == n0.-1) = false by apply/negbTE; move: Hi; apply: contra => /eqP E; apply/eqP/val_inj.
exact: mulr0.
Qed.
(** values of a radially non-derivative component on the two radial faces *)
Lemma sum_in M P (u : nat -> nat -> nat -> R) (B C : nat -> R) :
  \sum_(i < n0) \sum_(j < M) \sum_(l < P) u i j l * (L0 0 i * B j * C l) = \sum_(j < M) \sum_(l < P) u 0%N j l * (B j * C l).
Proof. by rewrite (sum3_as_r n0 M P u (L0 0) B C) (at_in (fun i => \sum_(j < M) \sum_(l < P) u i j l * (B j * C l))). Qed.
Lemma sum_out M P (u : nat -> nat -> nat -> R) (B C : nat -> R) :
  \sum_(i < n0) \sum_(j < M) \sum_(l < P) u i j l * (L0 1 i * B j * C l) = \sum_(j < M) \sum_(l < P) u n0.-1 j l * (B j * C l).
Proof. by rewrite (sum3_as_r n0 M P u (L0 1) B C) (at_out (fun i => \sum_(j < M) \sum_(l < P) u i j l * (B j * C l))). Qed.

(** fluxes in terms of coefficients *)
Definition Phi_t (b : 'cV_(rk S K2)) l : R := \sum_(i < n0.-1) \sum_(j < n1) coefs S K2 b 2%N i j l.
Definition Phi_p (b : 'cV_(rk S K2)) j : R := \sum_(i < n0.-1) \sum_(l < n2) coefs S K2 b 1%N i j l.
Definition Phi_r (b : 'cV_(rk S K2)) i : R := \sum_(j < n1) \sum_(l < n2) coefs S K2 b 0%N i j l.
Lemma Phi_t_lin a x y l : Phi_t (a *: x + y) l = a * Phi_t x l + Phi_t y l.
Proof.
rewrite /Phi_t mulr_sumr -big_split; apply: eq_bigr => i _; rewrite mulr_sumr -big_split; apply: eq_bigr => j _.
exact: coefs_linear.
Qed.
Lemma Phi_p_lin a x y j : Phi_p (a *: x + y) j = a * Phi_p x j + Phi_p y j.
Proof.
rewrite /Phi_p mulr_sumr -big_split; apply: eq_bigr => i _; rewrite mulr_sumr -big_split; apply: eq_bigr => l _.
exact: coefs_linear.
Qed.
Lemma int2_ext (f g : R -> R -> R) v : (forall x y, f x y = g x y) -> is_int2 g v -> is_int2 f v.
Proof.
move=> H [h [H1 H2]]; exists h; split=> // s Hsx; apply: is_RInt_ext (H1 s Hsx) => x _.
by rewrite H.
Qed.
Lemma tor_flux b z : toroidal_flux (fun c => field b c) z (\sum_(l < n2) Phi_t b l * L2 z l).
Proof.
apply: (int2_ext (g := fun r t => \sum_(i < n0.-1) \sum_(j < n1) \sum_(l < n2) coefs S K2 b 2%N i j l * (T0 r i * T1 t j * L2 z l))).
  by move=> r t; have [_ _ ->] := f2 Hs Hreg HS HD b r t z.
exact: (@int_rt n0.-1 n1 n2 (coefs S K2 b 2%N) T0 T1 (L2 z) (fs_r FS) (fs_t FS)).
Qed.
Lemma pol_flux b t : poloidal_flux (fun c => field b c) t (\sum_(j < n1) Phi_p b j * L1 t j).
Proof.
apply: (int2_ext (g := fun r z => \sum_(i < n0.-1) \sum_(j < n1) \sum_(l < n2) coefs S K2 b 1%N i j l * (T0 r i * L1 t j * T2 z l))).
  by move=> r z; have [_ -> _] := f2 Hs Hreg HS HD b r t z.
exact: (@int_rz n0.-1 n1 n2 (coefs S K2 b 1%N) T0 (L1 t) T2 (fs_r FS) (fs_z FS)).
Qed.
Lemma rad_flux b r : radial_flux (fun c => field b c) r (\sum_(i < n0) Phi_r b i * L0 r i).
Proof.
apply: (int2_ext (g := fun t z => \sum_(i < n0) \sum_(j < n1) \sum_(l < n2) coefs S K2 b 0%N i j l * (L0 r i * T1 t j * T2 z l))).
  by move=> t z; have [-> _ _] := f2 Hs Hreg HS HD b r t z.
exact: (@int_tz n0 n1 n2 (coefs S K2 b 0%N) (L0 r) T1 T2 (fs_t FS) (fs_z FS)).
Qed.
Lemma cyc (n : nat) (f : nat -> R) : (0 < n)%N -> \sum_(i < n) f (i.+1 %% n)%N = \sum_(i < n) f i.
Proof. exact: (@circ_sum R_realFieldType n f). Qed.
Lemma tele (n : nat) (f : nat -> R) : \sum_(i < n) (f i.+1 - f i) = f n - f 0%N.
Proof. exact: (@prim_tele R_realFieldType f n). Qed.

(** divergence-free coefficients *)
Lemma div0_coefs b : strong_div S *m b = 0 -> forall i j l, (i < n0.-1)%N -> (j < n1)%N -> (l < n2)%N ->
  dr_ (coefs S K2 b 0%N) i j l + dt_ n1 (coefs S K2 b 1%N) i j l + dz_ n2 (coefs S K2 b 2%N) i j l = 0.
Proof.
move=> H i j l Hi Hj Hl; have [_ _ Hd] := E_incidence Hs Hreg HS.
have := Hd b i j l; rewrite H /cdiv => <-.
  by rewrite /coefs mulmx0 big1 // => p _; rewrite mxE.
by rewrite (seq_sh Hs Hreg HS) /in_comp /cshape /= /dr /dt /dz /= ?subn0 ?subn1; apply/and3P.
Qed.
Lemma Phi_t_step b l : strong_div S *m b = 0 -> (l < n2)%N ->
  Phi_t b (l.+1 %% n2)%N - Phi_t b l = \sum_(j < n1) (coefs S K2 b 0%N 0%N j l - coefs S K2 b 0%N n0.-1 j l).
Proof.
move=> H Hl; have [_ Hn1 _] := seq_sizes.
rewrite /Phi_t -sumrB.
under eq_bigr => i _ do rewrite -sumrB.
transitivity (\sum_(i < n0.-1) \sum_(j < n1) - (dr_ (coefs S K2 b 0%N) i j l + dt_ n1 (coefs S K2 b 1%N) i j l)).
  apply: eq_bigr => i _; apply: eq_bigr => j _; apply/eqP; rewrite -addr_eq0 addrC.
  by rewrite -[X in X == 0]/(_ + _ + dz_ n2 (coefs S K2 b 2%N) i j l) div0_coefs.
transitivity (\sum_(i < n0.-1) \sum_(j < n1) - dr_ (coefs S K2 b 0%N) i j l).
  apply: eq_bigr => i _; under eq_bigr => j _ do rewrite opprD.
  rewrite big_split /= [X in _ + X]sumrN /dt_ sumrB (cyc (fun j => coefs S K2 b 1%N i j l)) // subrr oppr0 addr0 //.
rewrite exchange_big /=; apply: eq_bigr => j _; rewrite sumrN (tele _ (fun i => coefs S K2 b 0%N i j l)) opprB //.
Qed.
Lemma Phi_p_step b j : strong_div S *m b = 0 -> (j < n1)%N ->
  Phi_p b (j.+1 %% n1)%N - Phi_p b j = \sum_(l < n2) (coefs S K2 b 0%N 0%N j l - coefs S K2 b 0%N n0.-1 j l).
Proof.
move=> H Hj; have [_ _ Hn2] := seq_sizes.
rewrite /Phi_p -sumrB.
under eq_bigr => i _ do rewrite -sumrB.
transitivity (\sum_(i < n0.-1) \sum_(l < n2) - (dr_ (coefs S K2 b 0%N) i j l + dz_ n2 (coefs S K2 b 2%N) i j l)).
  apply: eq_bigr => i _; apply: eq_bigr => l _; apply/eqP; rewrite -addr_eq0 addrC.
  by rewrite -[X in X == 0]/(_ + _ + dt_ n1 (coefs S K2 b 1%N) i j l) addrAC div0_coefs.
transitivity (\sum_(i < n0.-1) \sum_(l < n2) - dr_ (coefs S K2 b 0%N) i j l).
  apply: eq_bigr => i _; under eq_bigr => l _ do rewrite opprD.
  rewrite big_split /= [X in _ + X]sumrN /dz_ sumrB (cyc (fun l => coefs S K2 b 2%N i j l)) // subrr oppr0 addr0 //.
rewrite exchange_big /=; apply: eq_bigr => l _; rewrite sumrN (tele _ (fun i => coefs S K2 b 0%N i j l)) opprB //.
Qed.
Lemma Phi_r_step b i : strong_div S *m b = 0 -> (i < n0.-1)%N -> Phi_r b i.+1 = Phi_r b i.
Proof.
move=> H Hi; have [_ Hn1 Hn2] := seq_sizes; apply/eqP; rewrite -subr_eq0 /Phi_r -sumrB.
under eq_bigr => j _ do rewrite -sumrB.
rewrite (_ : \sum_(j < n1) _ = \sum_(j < n1) \sum_(l < n2) - (dt_ n1 (coefs S K2 b 1%N) i j l + dz_ n2 (coefs S K2 b 2%N) i j l)); last first.
  apply: eq_bigr => j _; apply: eq_bigr => l _; apply/eqP; rewrite -addr_eq0 addrA.
  by rewrite -[X in X + _ + _ == 0]/(dr_ (coefs S K2 b 0%N) i j l) div0_coefs.
under eq_bigr => j _ do rewrite sumrN big_split /=.
rewrite sumrN big_split /= /dt_ /dz_ oppr_eq0 [X in _ + X]big1 ?addr0.
  by rewrite exchange_big big1 // => l _ /=; rewrite sumrB (cyc (fun j => coefs S K2 b 1%N i j l)) // subrr.
by move=> j _; rewrite sumrB (cyc (fun l => coefs S K2 b 2%N i j l)) // subrr.
Qed.
(** curls *)
Lemma curl_coefs (a : 'cV_(rk S K1)) c i j l : (c < 3)%N -> (i < (if c == 0%N then n0 else n0.-1))%N -> (j < n1)%N -> (l < n2)%N ->
  coefs S K2 (strong_curl S *m a) c i j l = ccurl n1 n2 (coefs S K1 a) c i j l.
Proof.
move=> Hc Hi Hj Hl; have [_ H _] := E_incidence Hs Hreg HS; apply: H => //.
rewrite (seq_sh Hs Hreg HS); move: Hc Hi; case: c => [|[|[|c]]] //= _ Hi.
all: by rewrite /in_comp /cshape /= /dr /dt /dz /= ?subn0 ?subn1; apply/and3P.
Qed.
Lemma Phi_t_curl a l : (l < n2)%N -> Phi_t (strong_curl S *m a) l
  = \sum_(j < n1) coefs S K1 a 1%N n0.-1 j l - \sum_(j < n1) coefs S K1 a 1%N 0%N j l.
Proof.
move=> Hl; have [_ Hn1 _] := seq_sizes; rewrite /Phi_t.
transitivity (\sum_(i < n0.-1) \sum_(j < n1) (dr_ (coefs S K1 a 1%N) i j l - dt_ n1 (coefs S K1 a 0%N) i j l)).
  by apply: eq_bigr => i _; apply: eq_bigr => j _; rewrite curl_coefs.
transitivity (\sum_(i < n0.-1) \sum_(j < n1) dr_ (coefs S K1 a 1%N) i j l).
  apply: eq_bigr => i _; rewrite sumrB /dt_ [X in _ - X]sumrB (cyc (fun j => coefs S K1 a 0%N i j l)) // subrr subr0 //.
by rewrite exchange_big /= -sumrB; apply: eq_bigr => j _; rewrite (tele _ (fun i => coefs S K1 a 1%N i j l)).
Qed.
Lemma Phi_p_curl a j : (j < n1)%N -> Phi_p (strong_curl S *m a) j
  = \sum_(l < n2) coefs S K1 a 2%N 0%N j l - \sum_(l < n2) coefs S K1 a 2%N n0.-1 j l.
Proof.
move=> Hj; have [_ _ Hn2] := seq_sizes; rewrite /Phi_p.
transitivity (\sum_(i < n0.-1) \sum_(l < n2) (dz_ n2 (coefs S K1 a 0%N) i j l - dr_ (coefs S K1 a 2%N) i j l)).
  by apply: eq_bigr => i _; apply: eq_bigr => l _; rewrite curl_coefs.
transitivity (- \sum_(i < n0.-1) \sum_(l < n2) dr_ (coefs S K1 a 2%N) i j l).
  rewrite -sumrN; apply: eq_bigr => i _; rewrite sumrB /dz_ [X in X - _]sumrB (cyc (fun l => coefs S K1 a 0%N i j l)) // subrr sub0r //.
rewrite exchange_big /= -sumrB -sumrN; apply: eq_bigr => l _; rewrite (tele _ (fun i => coefs S K1 a 2%N i j l)) opprB //.
Qed.
Lemma loop_out_t a z : poloidal_loop (fun c => field a c) 1 z (\sum_(l < n2) (\sum_(j < n1) coefs S K1 a 1%N n0.-1 j l) * L2 z l).
Proof.
apply: (@int_eq _ (fun t => \sum_(j < n1) (\sum_(l < n2) coefs S K1 a 1%N n0.-1 j l * L2 z l) * T1 t j) _ (\sum_(j < n1) \sum_(l < n2) coefs S K1 a 1%N n0.-1 j l * L2 z l)).
- move=> t _; have [_ -> _] := f1 Hs Hreg HS HD a 1 t z.
  rewrite (sum_out n1 n2 (coefs S K1 a 1%N) (T1 t) (L2 z)); apply: eq_bigr => j _; rewrite mulr_suml; apply: eq_bigr => l _.
  by rewrite -mulrA [L2 z l * _]mulrC.
- by rewrite exchange_big /=; apply: eq_bigr => j _; rewrite mulr_suml.
- exact: (@lin_int n1 (fun j => \sum_(l < n2) coefs S K1 a 1%N n0.-1 j l * L2 z l) (fun j t => T1 t j) (fs_t FS)).
Qed.
Lemma loop_in_t a z : poloidal_loop (fun c => field a c) 0 z (\sum_(l < n2) (\sum_(j < n1) coefs S K1 a 1%N 0%N j l) * L2 z l).
Proof.
apply: (@int_eq _ (fun t => \sum_(j < n1) (\sum_(l < n2) coefs S K1 a 1%N 0%N j l * L2 z l) * T1 t j) _ (\sum_(j < n1) \sum_(l < n2) coefs S K1 a 1%N 0%N j l * L2 z l)).
- move=> t _; have [_ -> _] := f1 Hs Hreg HS HD a 0 t z.
  rewrite (sum_in n1 n2 (coefs S K1 a 1%N) (T1 t) (L2 z)); apply: eq_bigr => j _; rewrite mulr_suml; apply: eq_bigr => l _.
  by rewrite -mulrA [L2 z l * _]mulrC.
- by rewrite exchange_big /=; apply: eq_bigr => j _; rewrite mulr_suml.
- exact: (@lin_int n1 (fun j => \sum_(l < n2) coefs S K1 a 1%N 0%N j l * L2 z l) (fun j t => T1 t j) (fs_t FS)).
Qed.
Lemma loop_out_z a t : toroidal_loop (fun c => field a c) 1 t (\sum_(j < n1) (\sum_(l < n2) coefs S K1 a 2%N n0.-1 j l) * L1 t j).
Proof.
apply: (@int_eq _ (fun z => \sum_(l < n2) (\sum_(j < n1) coefs S K1 a 2%N n0.-1 j l * L1 t j) * T2 z l) _ (\sum_(l < n2) \sum_(j < n1) coefs S K1 a 2%N n0.-1 j l * L1 t j)).
- move=> z _; have [_ _ ->] := f1 Hs Hreg HS HD a 1 t z.
  rewrite (sum_out n1 n2 (coefs S K1 a 2%N) (L1 t) (T2 z)) exchange_big; apply: eq_bigr => l _; rewrite mulr_suml; apply: eq_bigr => j _.
  by rewrite mulrA.
- by rewrite exchange_big /=; apply: eq_bigr => j _; rewrite mulr_suml.
- exact: (@lin_int n2 (fun l => \sum_(j < n1) coefs S K1 a 2%N n0.-1 j l * L1 t j) (fun l z => T2 z l) (fs_z FS)).
Qed.
Lemma loop_in_z a t : toroidal_loop (fun c => field a c) 0 t (\sum_(j < n1) (\sum_(l < n2) coefs S K1 a 2%N 0%N j l) * L1 t j).
Proof.
apply: (@int_eq _ (fun z => \sum_(l < n2) (\sum_(j < n1) coefs S K1 a 2%N 0%N j l * L1 t j) * T2 z l) _ (\sum_(l < n2) \sum_(j < n1) coefs S K1 a 2%N 0%N j l * L1 t j)).
- move=> z _; have [_ _ ->] := f1 Hs Hreg HS HD a 0 t z.
  rewrite (sum_in n1 n2 (coefs S K1 a 2%N) (L1 t) (T2 z)) exchange_big; apply: eq_bigr => l _; rewrite mulr_suml; apply: eq_bigr => j _.
  by rewrite mulrA.
- by rewrite exchange_big /=; apply: eq_bigr => j _; rewrite mulr_suml.
- exact: (@lin_int n2 (fun l => \sum_(j < n1) coefs S K1 a 2%N 0%N j l * L1 t j) (fun l z => T2 z l) (fs_z FS)).
Qed.
End Spl.
End Seq.
