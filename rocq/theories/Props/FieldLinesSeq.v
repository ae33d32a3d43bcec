(** Property theorem C74, continued: the field lines of a discrete Dirichlet 2-form are confined. *)
From Coq Require Import Reals Lra.
From Coquelicot Require Import Coquelicot.
From mathcomp Require Import all_ssreflect all_algebra zify.
From Verif Require Import Model.RBase Model.Spline Model.Quad Model.Forms Model.DeRham Model.FormEval Model.Geometry Model.SeqR Model.Maps Model.FieldLines.
From Verif Require Import Spec.BSpline Spec.Cochain Spec.PolarSpace Spec.SeqSpec Spec.FormSpec Spec.GeomSpec Spec.SeqRSpec Spec.CalculusSpec Spec.SmoothSpec Spec.ApproxSpec Spec.FieldLineSpec.
From Verif Require Import Proof.RField Proof.MCRing Proof.IndexLemmas Proof.BSplineLemmas Proof.SplineProps Proof.SplineDeriv Proof.SplineIBP2 Proof.BSplinePoly Proof.FormEvalProofs Proof.GeometryProofs Proof.SeqRProofs Proof.SeqDeriv Proof.SeqCalculus Proof.SeqSmooth Proof.Complex Proof.PolarSpan Proof.Topology Proof.SeqFlux Proof.ApproxSplines Proof.ApproxSeq Proof.FieldLineProofs
  Props.SequenceR Props.Flux Props.FieldLines.
Set Implicit Arguments.
Unset Strict Implicit.
Unset Printing Implicit Defensive.
Import Order.TTheory GRing.Theory Num.Theory.
Local Open Scope ring_scope.

Section Bounds.
Local Open Scope R_scope.
Definition bounded (f : R -> R) : Prop := exists M, 0 <= M /\ forall x, 0 <= x < 1 -> Rabs (f x) <= M.
Definition lin_edge (f : R -> R -> R -> R) : Prop := exists L, 0 <= L /\ forall r t z, 0 <= r <= 1 -> 0 <= t < 1 -> 0 <= z < 1 ->
  Rabs (f r t z) <= L * (1 - r).
Lemma lin_add f g : lin_edge f -> lin_edge g -> lin_edge (fun r t z => f r t z + g r t z).
Proof.
move=> [L [HL Hf]] [M [HM Hg]]; exists (L + M); split; first lra.
move=> r t z Hr Ht Hz; have := Hf r t z Hr Ht Hz; have := Hg r t z Hr Ht Hz; have := Rabs_triang (f r t z) (g r t z); lra.
Qed.
Lemma lin_zero : lin_edge (fun _ _ _ => 0).
Proof. by exists 0; split; [lra|] => r t z _ _ _; rewrite Rabs_R0; lra. Qed.
Lemma lin_mul (c : R) (A B C : R -> R) : (exists K, 0 <= K /\ forall r, 0 <= r <= 1 -> Rabs (A r) <= K * (1 - r)) ->
  bounded B -> bounded C -> lin_edge (fun r t z => c * (A r * B t * C z)).
Proof.
move=> [K [HK HA]] [M [HM HB]] [N [HN HC]]; exists (Rabs c * (K * M * N)).
have Hc := Rabs_pos c.
split; first by apply: Rmult_le_pos => //; apply: Rmult_le_pos => //; apply: Rmult_le_pos.
move=> r t z Hr Ht Hz; rewrite !Rabs_mult.
have h1 := HA r Hr; have h2 := HB t Ht; have h3 := HC z Hz.
have p1 := Rabs_pos (A r); have p2 := Rabs_pos (B t); have p3 := Rabs_pos (C z).
have -> : Rabs c * (K * M * N) * (1 - r) = Rabs c * (K * (1 - r) * M * N) by ring.
apply: Rmult_le_compat_l => //; apply: Rmult_le_compat => //; last by apply: Rmult_le_compat.
exact: Rmult_le_pos.
Qed.
Lemma quasi_bounded n ev om node per h : (0 < om) -> (forall x, 0 <= x < 1 -> quasi n (ev x) (fun _ => om) node per h x) ->
  forall i, (i < n)%coq_nat -> bounded (fun x => ev x i).
Proof.
move=> Hom H i Hi; exists (/ om); split; first by left; apply: Rinv_0_lt_compat.
move=> x Hx; have [S P _ _] := H x Hx.
have T := @rsum_ge_term n (fun i => om * ev x i) i Hi P; rewrite S in T.
have Pi := P i Hi; have E : 0 <= ev x i.
  by apply: (Rmult_le_reg_l om); lra.
rewrite Rabs_pos_eq //; apply: (Rmult_le_reg_l om) => //; rewrite Rinv_r; lra.
Qed.
Lemma quasi_sum_ge1 n ev om node per h x : (forall i, (i < n)%coq_nat -> 0 < om i <= 1) -> quasi n ev om node per h x ->
  1 <= BSpline.rsum n ev.
Proof.
move=> Hom [E P _ _]; rewrite -E; apply: SplineIBP2.rsum_le => i Hi; have [A B] := Hom i Hi; have Q := P i Hi.
have Hp : 0 <= ev i by apply: (Rmult_le_reg_l (om i)) => //; lra.
have := Rmult_le_compat_r (ev i) (om i) 1 Hp B; lra.
Qed.
Lemma dweight_range n p i : (1 <= p)%coq_nat -> (p < n)%coq_nat -> (i < n - 1)%coq_nat -> 0 < dweight n p i <= 1.
Proof.
move=> H1 H2 Hi; have G := @tclamped_gap n p (i + 1)%coq_nat H1 H2 ltac:(lia) ltac:(lia).
have Q1 := @tclamped_range n p (i + 1)%coq_nat H2; have Q2 := @tclamped_range n p ((i + 1)%coq_nat + p)%coq_nat H2.
have P1 : 1 <= INR p by apply: (le_INR 1).
have P2 : / INR p <= 1 by rewrite -Rinv_1; apply: Rinv_le_contravar; lra.
have P3 : 0 < / INR p by apply: Rinv_0_lt_compat; lra.
rewrite /dweight /Rdiv; split; first by apply: Rmult_lt_0_compat; lra.
apply: (Rle_trans _ (1 * 1)); last lra.
apply: Rmult_le_compat; lra.
Qed.
End Bounds.

Lemma lin_big n (f : nat -> R -> R -> R -> R) : (forall i, (i < n)%N -> lin_edge (f i)) ->
  lin_edge (fun r t z => \sum_(i < n) f i r t z).
Proof.
elim: n => [|n IH] H.
  have [L [HL E]] := lin_zero; exists L; split=> // r t z Hr Ht Hz; rewrite big_ord0; exact (E r t z Hr Ht Hz).
have [L [HL E]] := lin_add (IH (fun i Hi => H i (ltnW Hi))) (H n (ltnSn n)).
exists L; split=> // r t z Hr Ht Hz; rewrite big_ord_recr; exact (E r t z Hr Ht Hz).
Qed.

Section Seq.
Variables (ns ps : triple) (q : nat) (types : stype * stype * stype) (DFx : point -> mat3 R_realFieldType)
  (polar dirichlet : bool).
Hypothesis Hs : supported ns ps q types polar dirichlet.
Hypothesis Hreg : regular_map DFx (seq_points ns ps q types).
Variable S : drseq R_realFieldType.
Hypothesis HS : new_sequence ns ps q types DFx polar dirichlet = Some S.
Notation field y := (fun c => discrete_form ns ps types y c).
(** the discrete 2-form as the callable B_h of the scripts *)
Definition B_h (b : 'cV_(rk S K2)) (x : point) : point := (field b 0%N x, field b 1%N x, field b 2%N x).

(** the radial component of a Dirichlet 2-form vanishes linearly at the outer wall *)
Theorem C74_radial_component : dirichlet -> forall b : 'cV_(rk S K2), exists L : R, Rle 0 L /\
  forall r t z, Rle 0 r /\ Rle r 1 -> Rle 0 t /\ Rlt t 1 -> Rle 0 z /\ Rlt z 1 ->
    Rle (Rabs (field b 0%N (r, t, z))) (Rmult L (Rminus 1 r)).
Proof.
move=> Ho b; have Hadm := seq_adm Hs Hreg HS; have [N0 N1 N2] := seq_sizes Hs Hreg HS.
have Vb := seq_V Hs Hreg HS b (fun e => ltac:(discriminate)).
have [l0 [l1 [l2 [d0 [d1 [d2 [HD Hr Ht Hz]]]]]]] : exists l0 l1 l2 d0 d1 d2,
  [/\ forall k, DifferentialForm k ns ps types = Some (DForm k l0 l1 l2 d0 d1 d2),
      forall i, (i < ns.1.1.-1)%N -> exists K, Rle 0 K /\ forall x, Rle 0 x /\ Rle x 1 -> Rle (Rabs (evaluate l0 x i)) (Rmult K (Rminus 1 x)),
      forall j, (j < ns.1.2)%N -> bounded (fun x => evaluate_deriv d1 x j) & forall l, (l < ns.2)%N -> bounded (fun x => evaluate_deriv d2 x l)].
  have := Hres Hs; case: (ns) (ps) (types) => [[n0 n1] n2] [[p0 p1] p2] [[t0 t1] t2] Hr.
  have [l0 [l1 [l2 [d0 [d1 [d2 [HD [/andP [A0 B0] M0 E0 F0] [A1 M1 E1 F1] Hz]]]]]]] := resolved_splines Hr.
  exists l0, l1, l2, d0, d1, d2; split=> //=.
  - move=> i Hi; have [-> _] := new_spline_inv _ _ _ _ E0; apply: clamped_edge => //; lia.
  - move=> j Hj; apply: (@quasi_bounded n1 (fun x => evaluate_deriv d1 x) (Rinv (INR n1))); last by apply/ssrnat.ltP.
      by apply: Rinv_0_lt_compat; apply: lt_0_INR; lia.
    by move=> x Hx; apply: (per_quasi true A1 M1 E1 F1).
  - case: Hz => [[_ A N [El Ed]]|[_ En _ [El Ed]]] l Hl.
      apply: (@quasi_bounded n2 (fun x => evaluate_deriv d2 x) (Rinv (INR n2))); last by apply/ssrnat.ltP.
        by apply: Rinv_0_lt_compat; apply: lt_0_INR; lia.
      by move=> x Hx; apply: (per_quasi true A N El Ed).
    exists R1; split; first lra; move=> x _; rewrite /evaluate_deriv /evaluate ?El ?Ed /=.
    rewrite En in Hl; by case: l Hl => // _; rewrite Rabs_R1; lra.
have [L [HL E]] : lin_edge (fun r t z => field b 0%N (r, t, z)).
  have H : lin_edge (fun r t z => \sum_(i < ns.1.1) \sum_(j < ns.1.2) \sum_(l < ns.2) coefs S K2 b 0%N i j l * (evaluate l0 r i * evaluate_deriv d1 t j * evaluate_deriv d2 z l)).
    apply: (@lin_big _ (fun i r t z => \sum_(j < ns.1.2) \sum_(l < ns.2) coefs S K2 b 0%N i j l * (evaluate l0 r i * evaluate_deriv d1 t j * evaluate_deriv d2 z l))) => i Hi.
    apply: (@lin_big _ (fun j r t z => \sum_(l < ns.2) coefs S K2 b 0%N i j l * (evaluate l0 r i * evaluate_deriv d1 t j * evaluate_deriv d2 z l))) => j Hj.
    apply: (@lin_big _ (fun l r t z => coefs S K2 b 0%N i j l * (evaluate l0 r i * evaluate_deriv d1 t j * evaluate_deriv d2 z l))) => l Hl.
    case Ei : (i == ns.1.1.-1).
      have -> : coefs S K2 b 0%N i j l = 0 by rewrite (eqP Ei); apply: (edge2 Hadm Vb).
      have [L [HL E]] := lin_zero; exists L; split=> // r t z h1 h2 h3; rewrite mul0r; exact (E r t z h1 h2 h3).
    apply: lin_mul; [apply: Hr; lia | exact: Ht | exact: Hz].
  case: H => L [HL E]; exists L; split=> // r t z h1 h2 h3.
  by have [-> _ _] := f2 Hs Hreg HS HD b r t z; apply: E.
by exists L.
Qed.

(** a field line of a Dirichlet 2-form that does not vanish near the wall never reaches it *)
Theorem C74_dirichlet_confined : dirichlet -> forall (b : 'cV_(rk S K2)) (DF : point -> nat -> nat -> R) (c rho T : R) Xr Xt Xz,
  Rle 0 T -> Rle 0 rho /\ Rlt rho 1 -> Rlt 0 c ->
  (forall r t z, Rle rho r /\ Rlt r 1 -> Rle 0 t /\ Rlt t 1 -> Rle 0 z /\ Rlt z 1 ->
     Rle c (phys_length (DF (r, t, z)) (B_h b (r, t, z)))) ->
  solves (vector_field None (B_h b) DF) T Xr Xt Xz -> Rlt (Xr R0) 1 ->
  forall s, Rle 0 s /\ Rle s T -> Rlt (Xr s) 1.
Proof.
move=> Ho b DF c rho T Xr Xt Xz HT Hrho Hc Hn Hsol H0.
have [L [HL E]] := C74_radial_component Ho b.
have Hb : forall r t z, Rle rho r /\ Rlt r 1 -> Rle 0 t /\ Rlt t 1 -> Rle 0 z /\ Rlt z 1 ->
    Rle (Rabs (comp3 0 (B_h b (r, t, z)))) (Rmult L (Rminus 1 r)) /\ Rle c (phys_length (DF (r, t, z)) (B_h b (r, t, z))).
  move=> r t z h1 h2 h3; split; last exact: Hn.
  by apply: E => //; case: h1 => h4 h5; split; [case: Hrho => h6 _; exact: (Rle_trans _ _ _ h6 h4) | exact: Rlt_le].
have [H _] := C74_confined (B_h b) DF L c rho T Xr Xt Xz HT Hrho Hc HL Hb Hsol H0; exact: H.
Qed.

(** a field for which the hypotheses hold: purely toroidal, of strength at least 1 *)
Lemma toroidal_field : polar = false -> exists b : 'cV_(rk S K2), forall r t z,
  Rle 0 r /\ Rlt r 1 -> Rle 0 t /\ Rlt t 1 -> Rle 0 z /\ Rlt z 1 ->
  [/\ field b 0%N (r, t, z) = R0, field b 1%N (r, t, z) = R0 & Rle 1 (field b 2%N (r, t, z))].
Proof.
move=> Hp; have [N0 N1 N2] := seq_sizes Hs Hreg HS.
have [|b Hb] := @seq_real _ _ _ _ _ _ _ Hs Hreg S HS K2 (fun c _ _ _ => (c == 2%N)%:R) (fun e => ltac:(discriminate)).
  apply/(VsF _ _ _ _ _ _ _ Hp) => c i j l Hc _; rewrite freeE negbK => /andP [/andP [_ /eqP]] H _.
  by move: Hc H; case: c => [|[|[|c]]].
exists b => r t z Hr Ht Hz.
have [l0 [l1 [l2 [d0 [d1 [d2 [HD Sr St Sz]]]]]]] : exists l0 l1 l2 d0 d1 d2,
  [/\ forall k, DifferentialForm k ns ps types = Some (DForm k l0 l1 l2 d0 d1 d2),
      Rle 1 (\sum_(i < ns.1.1.-1) evaluate_deriv d0 r i), Rle 1 (\sum_(j < ns.1.2) evaluate_deriv d1 t j) & Rle 1 (\sum_(l < ns.2) evaluate l2 z l)].
  have := Hres Hs; clear Hb; case: (ns) (ps) (types) N0 N1 N2 => [[n0 n1] n2] [[p0 p1] p2] [[t0 t1] t2] N0 N1 N2 Hr'.
  have [l0 [l1 [l2 [d0 [d1 [d2 [HD [/andP [A0 B0] M0 E0 F0] [A1 M1 E1 F1] Hz']]]]]]] := resolved_splines Hr'.
  exists l0, l1, l2, d0, d1, d2; split=> //=.
  - rewrite -rsumE -subn1; move: F0; have [-> _] := new_spline_inv _ _ _ _ E0.
    rewrite new_deriv_clamped; [|lia|lia] => -[F0].
    apply: (quasi_sum_ge1 _ (@clamped_deriv_quasi n0 p0 d0 r _ _ M0 Hr (esym F0))); [|lia|lia].
    by move=> i Hi; apply: dweight_range; lia.
  - rewrite -rsumE; apply: (quasi_sum_ge1 _ (per_quasi true A1 M1 E1 F1 Ht)) => i Hi.
    have P1 : Rle 1 (INR n1) by apply: (le_INR 1); lia.
    split; first by apply: Rinv_0_lt_compat; lra.
    by rewrite -Rinv_1; apply: Rinv_le_contravar; lra.
  - case: Hz' => [[_ A N [El Ed]]|[_ En _ [El Ed]]].
      rewrite -rsumE; apply: (quasi_sum_ge1 _ (per_quasi false A N El Ed Hz)) => i Hi; lra.
    by rewrite En big_ord1 /evaluate El; right.
have Z (c : nat) (P : nat -> nat -> nat -> R) a0 a1 a2 : (c < 3)%N -> c != 2%N -> cshape (Shape ns.1.1 ns.1.2 ns.2 true false false) K2 c = (a0, a1, a2) ->
    \sum_(i < a0) \sum_(j < a1) \sum_(l < a2) coefs S K2 b c i j l * P i j l = 0.
  move=> Hc Hc2 Ec; apply: big1 => i _; apply: big1 => j _; apply: big1 => l _.
  rewrite Hb //; last by rewrite /in_comp Ec; apply/and3P.
  by rewrite (negbTE Hc2) mul0r.
have [-> -> ->] := f2 Hs Hreg HS HD b r t z; split.
- by apply: (Z 0%N (fun i j l => evaluate l0 r i * evaluate_deriv d1 t j * evaluate_deriv d2 z l)); rewrite // /cshape /= /dr /dt /dz /= !subn0.
- by apply: (Z 1%N (fun i j l => evaluate_deriv d0 r i * evaluate l1 t j * evaluate_deriv d2 z l)); rewrite // /cshape /= /dr /dt /dz /= !subn0 subn1.
rewrite (_ : \sum_(i < ns.1.1.-1) _ = (\sum_(i < ns.1.1.-1) evaluate_deriv d0 r i) * (\sum_(j < ns.1.2) evaluate_deriv d1 t j) * (\sum_(l < ns.2) evaluate l2 z l)); last first.
  rewrite !mulr_suml; apply: eq_bigr => i _; rewrite [evaluate_deriv d0 r i * _]mulr_sumr mulr_suml; apply: eq_bigr => j _; rewrite mulr_sumr.
  apply: eq_bigr => l _; rewrite Hb ?mul1r //.
  by rewrite /in_comp /cshape /= /dr /dt /dz /= ?subn0 subn1; apply/and3P.
have ge1 (x y : R) : Rle 1 x -> Rle 1 y -> Rle 1 (Rmult x y) by nra.
exact: (ge1 _ _ (ge1 _ _ Sr St) Sz).
Qed.

End Seq.

(** ** the hypotheses are met: an 8 x 8 x 6 Dirichlet sequence on the unit box, a toroidal field, and its
    field line through (1/2, 0, 0), followed for five turns *)
Example C74_seq_nonvacuous : exists S (b : 'cV_(rk S K2)),
  [/\ supported (8, 8, 6)%N (3, 2, 2)%N 5 (Clamped, Periodic, Periodic) false true,
      new_sequence (8, 8, 6)%N (3, 2, 2)%N 5 (Clamped, Periodic, Periodic) (fun _ => id33) false true = Some S,
      (forall r t z, Rle 0 r /\ Rlt r 1 -> Rle 0 t /\ Rlt t 1 -> Rle 0 z /\ Rlt z 1 ->
         Rle 1 (phys_length (fun i j => if Nat.eqb i j then R1 else R0)
           (B_h (8, 8, 6)%N (3, 2, 2)%N (Clamped, Periodic, Periodic) b (r, t, z))))
    & solves (vector_field None (B_h (8, 8, 6)%N (3, 2, 2)%N (Clamped, Periodic, Periodic) b) (fun _ i j => if Nat.eqb i j then R1 else R0)) 5
        (fun _ => Rdiv 1 2) (fun _ => R0) (fun s => s)].
Proof.
have Hs : supported (8, 8, 6)%N (3, 2, 2)%N 5 (Clamped, Periodic, Periodic) false true.
  split=> //; split=> //; last 1 first.
  + by left; split=> //; split=> //=; lra.
  + by split; rewrite /=; lra.
have Hreg pts : regular_map (fun _ => id33) pts by have [_ _ H _ _] := SequenceR_nonvacuous; exact: H.
have [S HS] := C26_constructor_total Hs (Hreg _).
have [b Hb] := toroidal_field Hs (Hreg _) HS erefl.
exists S, b; rewrite /B_h in Hb *.
have Nf (v : R) : Rle 1 v -> norm3 (mat_vec (fun i j => if Nat.eqb i j then R1 else R0) (R0, R0, v)) = v.
  move=> Hv; rewrite /mat_vec /norm3 /=.
  have -> : forall u, u = Rmult v v -> sqrt u = v by move=> u ->; apply: sqrt_square; lra.
    by [].
  ring.
split=> //.
- move=> r t z Hr Ht Hz; have [-> -> H] := Hb r t z Hr Ht Hz; rewrite -phys_lengthE Nf //.
- move=> s _; exists R0, R0, R1.
  have H2 : Rle 0 (Rdiv 1 2) /\ Rlt (Rdiv 1 2) 1 by split; lra.
  have [H0 H1 H] := Hb _ _ _ H2 (MapProofs.mod1_range R0) (MapProofs.mod1_range s).
  split; last by split; [|split]; auto_derive => //; ring.
  rewrite vector_fieldE; have [-> // _] := C74_evaluation (Rdiv 1 2) R0 s.
  rewrite H0 H1 Nf //=; congr (_, _, _); try ring.
  by apply: Rinv_l; lra.
Qed.

Print Assumptions C74_radial_component.
Print Assumptions C74_dirichlet_confined.
