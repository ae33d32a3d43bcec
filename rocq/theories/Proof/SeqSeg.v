(** Segments, rectangles and boxes: the integral theorems. *)
From Coq Require Import Reals Lra.
From Coquelicot Require Import Coquelicot.
From mathcomp Require Import all_ssreflect all_algebra zify.
From Verif Require Import Model.RBase Model.Spline Model.Quad Model.Forms Model.DeRham Model.FormEval Model.Geometry Model.SeqR.
From Verif Require Import Spec.Cochain Spec.PolarSpace Spec.SeqSpec Spec.FormSpec Spec.GeomSpec Spec.SeqRSpec Spec.CalculusSpec Spec.SmoothSpec Spec.FluxSpec Spec.TopologySpec Spec.SegSpec.
From Verif Require Import Proof.RField Proof.MCRing Proof.IndexLemmas Proof.Incidence Proof.SeqFacts Proof.BSplinePoly
  Proof.SplineLink Proof.SplineProps Proof.SplineInt Proof.SplineSmooth Proof.SplineSeg Proof.FormEvalProofs Proof.GeometryProofs Proof.SeqRProofs Proof.SeqDeriv Proof.SeqCalculus Proof.SeqSmooth Proof.SeqFlux.
Set Implicit Arguments.
Unset Strict Implicit.
Unset Printing Implicit Defensive.
Import Order.TTheory GRing.Theory Num.Theory.
Local Open Scope ring_scope.

(** ** intervals *)
Section Pure.
Local Open Scope R_scope.
Lemma sub_ex (f : R -> R) v a b : is_RInt f 0 1 v -> sub01 a b -> ex_RInt f a b.
Proof.
intros H [H0 [H1 H2]]; assert (E : ex_RInt f 0 1) by (exists v; exact H).
apply (ex_RInt_Chasles_2 f 0 a b); [lra|].
apply (ex_RInt_Chasles_1 f 0 b 1); [lra | exact E].
Qed.
Lemma seg_unique (f : R -> R) a b v w : is_RInt f a b v -> is_RInt f a b w -> v = w.
Proof. by move=> H1 H2; rewrite -(is_RInt_unique _ _ _ _ H1) (is_RInt_unique _ _ _ _ H2). Qed.
Lemma seg_ext (f g : R -> R) a b v : a <= b -> (forall x, a < x < b -> f x = g x) -> is_RInt g a b v -> is_RInt f a b v.
Proof.
move=> Hab H; apply: is_RInt_ext => x; rewrite Rmin_left // Rmax_right // => Hx.
by rewrite H.
Qed.
End Pure.
Lemma rect_unique f p0 p1 q0 q1 v w : Rle q0 q1 -> int2_on f p0 p1 q0 q1 v -> int2_on f p0 p1 q0 q1 w -> v = w.
Proof.
move=> Hq [g [Hg Iv]] [h [Hh Iw]]; apply: (seg_unique Iv); apply: (seg_ext Hq _ Iw) => x Hx.
exact: seg_unique (Hg x Hx) (Hh x Hx).
Qed.
Lemma box_unique f p0 p1 q0 q1 s0 s1 v w : Rle q0 q1 -> Rle s0 s1 ->
  int3_on f p0 p1 q0 q1 s0 s1 v -> int3_on f p0 p1 q0 q1 s0 s1 w -> v = w.
Proof.
move=> Hq Hs [g [Hg Iv]] [h [Hh Iw]]; apply: (seg_unique Iv); apply: (seg_ext Hs _ Iw) => x Hx.
exact: rect_unique Hq (Hg x Hx) (Hh x Hx).
Qed.

(** ** one direction: I holds the integrals over [a,b] of the derivative basis d *)
Definition weights n (d : spline) a b (I : nat -> R) : Prop := forall i, (i < n)%N -> is_RInt (fun x => evaluate_deriv d x i) a b (I i).
Definition seg_open n (l d : spline) : Prop := forall a b, sub01 a b -> exists I, weights n.-1 d a b I /\
  forall c : nat -> R, \sum_(i < n.-1) (c i.+1 - c i) * I i = \sum_(i < n) c i * evaluate l b i - \sum_(i < n) c i * evaluate l a i.
Definition seg_per n (l d : spline) : Prop := forall a b, sub01 a b -> exists I, weights n d a b I /\
  forall c : nat -> R, \sum_(i < n) (c (i.+1 %% n)%N - c i) * I i = \sum_(i < n) c i * evaluate l b i - \sum_(i < n) c i * evaluate l a i.

Lemma weights_ex n d a b : unit_int n (evaluate_deriv d) -> sub01 a b -> weights n d a b (fun i => RInt (fun x => evaluate_deriv d x i) a b).
Proof. by move=> H Hab i Hi; apply: RInt_correct; apply: sub_ex (H i Hi) Hab. Qed.
Lemma weights_sum n d a b I (e : nat -> R) : weights n d a b I ->
  is_RInt (fun x => \sum_(i < n) e i * evaluate_deriv d x i) a b (\sum_(i < n) e i * I i).
Proof.
move=> H; apply: (@sum_int n (fun i x => e i * evaluate_deriv d x i) a b (fun i => e i * I i)) => i Hi.
by have := is_RInt_scal _ _ _ (e i) _ (H i Hi).
Qed.
Lemma c1_sum n (c : nat -> R) (f : nat -> R -> R) x y : (forall i, (i < n)%N -> c1_on (f i) x y) ->
  c1_on (fun t => \sum_(i < n) c i * f i t) x y.
Proof.
elim: n => [|n IH] H; first by apply: (c1_ext _ (fun _ => R0)) (c1_zero x y) => t _; rewrite big_ord0.
apply: (c1_ext _ (fun t => Rplus (\sum_(i < n) c i * f i t) (Rmult (c n) (f n t)))); first by move=> t _; rewrite big_ord_recr.
by apply: c1_plus; [apply: IH => i Hi; apply: H; apply: ltnW | apply: c1_scal; apply: H].
Qed.
Lemma clamped_seg n p l d : (1 <= p)%N -> (p < n)%N -> Rle (INR (n - p)) 99900 ->
  new_spline n p Clamped = Some l -> new_deriv l = Some d -> seg_open n l d.
Proof.
move=> Hp Hn HN El Ed a b Hab.
have U : unit_int n.-1 (evaluate_deriv d) by move=> i Hi; apply: (@clamped_deriv_int n p l d i) => //; lia.
have W := weights_ex U Hab; eexists; split; first exact: W.
move=> c; have Wc := weights_sum (e := fun i => c i.+1 - c i) W.
apply: (@seg_unique (fun x => \sum_(i < n.-1) (c i.+1 - c i) * evaluate_deriv d x i) a b) Wc _.
have T0 : tclamped n p (p + 0) = R0 by rewrite addn0 tclamped_lo //; lia.
have T1 : tclamped n p (p + (n - p)) = R1 by rewrite tclamped_hi //; lia.
case: Hab => H0 [H1 H2].
apply: (@cells_int (fun e => tclamped n p (p + e)) (fun t => \sum_(i < n) c i * evaluate l t i) _ (n - p)) => //.
- by move=> e He; apply: SplineDeriv.tclamped_lt; lia.
- by move=> e He; apply: (@c1_sum n c (fun i t => evaluate l t i)) => i Hi; apply: (@clamped_c1 n p l i e) => //; lia.
- move=> e u He Hu; apply: (clamped_dir Hp Hn HN El Ed).
  by apply: (@clamped_cell_off n p e u) => //; lia.
- by rewrite T0.
- by rewrite T1.
Qed.
Lemma periodic_seg n p l d : (1 <= p)%N -> (p < n)%N -> Rle (INR n) 49000 ->
  new_spline n p Periodic = Some l -> new_deriv l = Some d -> seg_per n l d.
Proof.
move=> Hp Hn HN El Ed a b Hab.
have U : unit_int n (evaluate_deriv d) by move=> i Hi; apply: (@periodic_deriv_int n p l d i) => //; lia.
have W := weights_ex U Hab; eexists; split; first exact: W.
move=> c; have Wc := weights_sum (e := fun i => c (i.+1 %% n)%N - c i) W.
apply: (@seg_unique (fun x => \sum_(i < n) (c (i.+1 %% n)%N - c i) * evaluate_deriv d x i) a b) Wc _.
have T0 : tperiodic n p (p + 0) = R0 by rewrite addn0 t_p //; lia.
have T1 : tperiodic n p (p + n) = R1 by rewrite addnC t_np //; lia.
have Mon i j : (i <= j)%N -> Rle (tperiodic n p i) (tperiodic n p j).
  move=> /subnK <-; elim: (j - i)%N => [|k IH]; first by rewrite add0n; apply: Rle_refl.
  by apply: Rle_trans IH _; rewrite addSn; apply: Rlt_le; apply: tperiodic_lt; lia.
case: Hab => H0 [H1 H2].
apply: (@cells_int (fun e => tperiodic n p (p + e)) (fun t => \sum_(i < n) c i * evaluate l t i) _ n) => //.
- by move=> e He; rewrite addnS; apply: tperiodic_lt; lia.
- by move=> e He; apply: (@c1_sum n c (fun i t => evaluate l t i)) => i Hi; rewrite addnS; apply: (@periodic_c1 n p l i (p + e)) => //; lia.
- move=> e u He Hu.
  have M1 := Mon (p + 0)%N (p + e)%N ltac:(lia); have M2 := Mon (p + e.+1)%N (p + n)%N ltac:(lia).
  apply: (periodic_dir Hp Hn HN El Ed).
    by rewrite T0 in M1; rewrite T1 in M2; case: Hu => ? ?; split; lra.
  by apply: (@periodic_cell_off n p e u) => //; lia.
- by rewrite T0.
- by rewrite T1.
Qed.
Lemma constant_seg l d : sty l = Constant -> sty d = Constant -> seg_per 1 l d.
Proof.
move=> El Ed a b Hab; exists (fun _ => Rminus b a); split.
  move=> i _; apply: (is_RInt_ext (fun _ => R1)); first by move=> x _; rewrite /evaluate_deriv Ed.
  by have := is_RInt_const a b R1; rewrite /scal /= /mult /= Rmult_1_r.
by move=> c; rewrite !big_ord1 modnn subrr mul0r /evaluate El subrr.
Qed.

Record seg_splines (ns ps : triple) (types : stype * stype * stype) (l0 l1 l2 d0 d1 d2 : spline) : Prop := SegSplines {
  ss_form : forall k, DifferentialForm k ns ps types = Some (DForm k l0 l1 l2 d0 d1 d2);
  ss_r : seg_open ns.1.1 l0 d0;
  ss_t : seg_per ns.1.2 l1 d1;
  ss_z : seg_per ns.2 l2 d2 }.
Lemma resolved_seg ns ps q types : resolved ns ps q types -> exists l0 l1 l2 d0 d1 d2, seg_splines ns ps types l0 l1 l2 d0 d1 d2.
Proof.
case: ns => [[n0 n1] n2]; case: ps => [[p0 p1] p2]; case: types => [[t0 t1] t2] Hr.
have [l0 [l1 [l2 [d0 [d1 [d2 [HD [/andP [A0 B0] N0 E0 F0] [/andP [A1 B1] N1 E1 F1] Hz]]]]]]] := resolved_splines Hr.
exists l0, l1, l2, d0, d1, d2; split=> //=.
- exact: (clamped_seg A0 B0 N0 E0 F0).
- exact: (periodic_seg A1 B1 N1 E1 F1).
- case: Hz => [[E /andP [A B] N [El Ed]]|[E -> Ep [El Ed]]]; first exact: (periodic_seg A B N El Ed).
  exact: constant_seg.
Qed.

(** ** three directions *)
Section Sums.
Variables (N M P : nat).
Implicit Type u : nat -> nat -> nat -> R.
Notation S3 u A B C := (\sum_(i < N) \sum_(j < M) \sum_(l < P) u i j l * (A i * B j * C l)).
Lemma along_r u d a b I (B C : nat -> R) : weights N d a b I ->
  is_RInt (fun x => S3 u (evaluate_deriv d x) B C) a b (S3 u I B C).
Proof.
move=> H; rewrite sum3_as_r.
apply: is_RInt_ext (weights_sum (e := fun i => \sum_(j < M) \sum_(l < P) u i j l * (B j * C l)) H) => x _.
by rewrite (sum3_as_r N M P u (evaluate_deriv d x) B C).
Qed.
Lemma along_t u (A : nat -> R) d a b I (C : nat -> R) : weights M d a b I ->
  is_RInt (fun x => S3 u A (evaluate_deriv d x) C) a b (S3 u A I C).
Proof.
move=> H; rewrite sum3_as_t.
apply: is_RInt_ext (weights_sum (e := fun j => \sum_(i < N) \sum_(l < P) u i j l * (A i * C l)) H) => x _.
by rewrite (sum3_as_t N M P u A (evaluate_deriv d x) C).
Qed.
Lemma along_z u (A B : nat -> R) d a b I : weights P d a b I ->
  is_RInt (fun x => S3 u A B (evaluate_deriv d x)) a b (S3 u A B I).
Proof.
move=> H; rewrite sum3_as_z.
apply: is_RInt_ext (weights_sum (e := fun l => \sum_(i < N) \sum_(j < M) u i j l * (A i * B j)) H) => x _.
by rewrite (sum3_as_z N M P u A B (evaluate_deriv d x)).
Qed.
End Sums.
Section Ends.
Variables (n0 n1 n2 : nat).
Implicit Type u : nat -> nat -> nat -> R.
Notation S3 N M P u A B C := (\sum_(i < N) \sum_(j < M) \sum_(l < P) u i j l * (A i * B j * C l)).
Lemma ends_r M P u (I X Y B C : nat -> R) :
  (forall c : nat -> R, \sum_(i < n0.-1) (c i.+1 - c i) * I i = \sum_(i < n0) c i * Y i - \sum_(i < n0) c i * X i) ->
  S3 n0.-1 M P (dr_ u) I B C = S3 n0 M P u Y B C - S3 n0 M P u X B C.
Proof.
move=> H; rewrite !sum3_as_r -(H (fun i => \sum_(j < M) \sum_(l < P) u i j l * (B j * C l))).
apply: eq_bigr => i _; congr (_ * _); rewrite -sumrB; apply: eq_bigr => j _; rewrite -sumrB; apply: eq_bigr => l _.
by rewrite -mulrBl.
Qed.
Lemma ends_t N P u (I X Y A C : nat -> R) :
  (forall c : nat -> R, \sum_(j < n1) (c (j.+1 %% n1)%N - c j) * I j = \sum_(j < n1) c j * Y j - \sum_(j < n1) c j * X j) ->
  S3 N n1 P (dt_ n1 u) A I C = S3 N n1 P u A Y C - S3 N n1 P u A X C.
Proof.
move=> H; rewrite !sum3_as_t -(H (fun j => \sum_(i < N) \sum_(l < P) u i j l * (A i * C l))).
apply: eq_bigr => j _; congr (_ * _); rewrite -sumrB; apply: eq_bigr => i _; rewrite -sumrB; apply: eq_bigr => l _.
by rewrite -mulrBl.
Qed.
Lemma ends_z N M u (I X Y A B : nat -> R) :
  (forall c : nat -> R, \sum_(l < n2) (c (l.+1 %% n2)%N - c l) * I l = \sum_(l < n2) c l * Y l - \sum_(l < n2) c l * X l) ->
  S3 N M n2 (dz_ n2 u) A B I = S3 N M n2 u A B Y - S3 N M n2 u A B X.
Proof.
move=> H; rewrite !sum3_as_z -(H (fun l => \sum_(i < N) \sum_(j < M) u i j l * (A i * B j))).
apply: eq_bigr => l _; congr (_ * _); rewrite -sumrB; apply: eq_bigr => i _; rewrite -sumrB; apply: eq_bigr => j _.
by rewrite -mulrBl.
Qed.
End Ends.
Arguments along_r : clear implicits.
Arguments along_t : clear implicits.
Arguments along_z : clear implicits.
Section Rects.
Variables (N M P : nat) (u : nat -> nat -> nat -> R) (d0 d1 d2 : spline) (r0 r1 t0 t1 z0 z1 : R) (Ir It Iz : nat -> R).
Hypotheses (Wr : weights N d0 r0 r1 Ir) (Wt : weights M d1 t0 t1 It) (Wz : weights P d2 z0 z1 Iz).
Notation S3 A B C := (\sum_(i < N) \sum_(j < M) \sum_(l < P) u i j l * (A i * B j * C l)).
Notation D0 := (evaluate_deriv d0). Notation D1 := (evaluate_deriv d1). Notation D2 := (evaluate_deriv d2).
Lemma rect_rt (C : nat -> R) : int2_on (fun r t => S3 (D0 r) (D1 t) C) r0 r1 t0 t1 (S3 Ir It C).
Proof.
exists (fun t => S3 Ir (D1 t) C); split=> [t _|]; first exact: (along_r N M P u d0 r0 r1 Ir (D1 t) C Wr).
exact: (along_t N M P u Ir d1 t0 t1 It C Wt).
Qed.
Lemma rect_tz (A : nat -> R) : int2_on (fun t z => S3 A (D1 t) (D2 z)) t0 t1 z0 z1 (S3 A It Iz).
Proof.
exists (fun z => S3 A It (D2 z)); split=> [z _|]; first exact: (along_t N M P u A d1 t0 t1 It (D2 z) Wt).
exact: (along_z N M P u A It d2 z0 z1 Iz Wz).
Qed.
Lemma rect_zr (B : nat -> R) : int2_on (fun z r => S3 (D0 r) B (D2 z)) z0 z1 r0 r1 (S3 Ir B Iz).
Proof.
exists (fun r => S3 (D0 r) B Iz); split=> [r _|]; first exact: (along_z N M P u (D0 r) B d2 z0 z1 Iz Wz).
exact: (along_r N M P u d0 r0 r1 Ir B Iz Wr).
Qed.
Lemma box_rtz : int3_on (fun r t z => S3 (D0 r) (D1 t) (D2 z)) r0 r1 t0 t1 z0 z1 (S3 Ir It Iz).
Proof.
exists (fun z => S3 Ir It (D2 z)); split=> [z _|]; first exact: (rect_rt (D2 z)).
exact: (along_z N M P u Ir It d2 z0 z1 Iz Wz).
Qed.
End Rects.
Lemma seg_ext' (f g : R -> R) a b v : (forall x, f x = g x) -> is_RInt g a b v -> is_RInt f a b v.
Proof. by move=> H; apply: is_RInt_ext => x _; rewrite H. Qed.
Lemma rect_ext f g p0 p1 q0 q1 v : (forall p q, f p q = g p q) -> int2_on g p0 p1 q0 q1 v -> int2_on f p0 p1 q0 q1 v.
Proof. by move=> H [h [H1 H2]]; exists h; split=> // s Hs; apply: seg_ext' (H1 s Hs) => x; rewrite H. Qed.
Lemma box_ext f g p0 p1 q0 q1 s0 s1 v : (forall p q s, f p q s = g p q s) -> int3_on g p0 p1 q0 q1 s0 s1 v -> int3_on f p0 p1 q0 q1 s0 s1 v.
Proof. by move=> H [h [H1 H2]]; exists h; split=> // s Hs; apply: rect_ext (H1 s Hs) => p q; rewrite H. Qed.
