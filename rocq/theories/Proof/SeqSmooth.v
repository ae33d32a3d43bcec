(** Discrete forms: derivatives at every interior point and continuity. *)
From Coq Require Import Reals Lra.
From Coquelicot Require Import Coquelicot.
From mathcomp Require Import all_ssreflect all_algebra zify.
From Verif Require Import Model.RBase Model.Spline Model.Quad Model.Forms Model.DeRham Model.FormEval Model.Geometry Model.SeqR.
From Verif Require Import Spec.Cochain Spec.PolarSpace Spec.SeqSpec Spec.FormSpec Spec.GeomSpec Spec.SeqRSpec Spec.CalculusSpec Spec.SmoothSpec.
From Verif Require Import Proof.RField Proof.MCRing Proof.IndexLemmas Proof.Incidence Proof.SeqFacts Proof.DeRhamAlg
  Proof.SplineSmooth Proof.SplineCont Proof.FormEvalProofs Proof.GeometryProofs Proof.SeqRProofs Proof.SeqDeriv Proof.SeqCalculus.
Set Implicit Arguments.
Unset Strict Implicit.
Unset Printing Implicit Defensive.
Import Order.TTheory GRing.Theory Num.Theory.
Local Open Scope ring_scope.

(** the six splines of a resolved sequence *)
Definition zeta_splines (n p : nat) (t : stype) (l d : spline) : Prop :=
  [/\ t = Periodic, (1 <= p)%N && (p < n)%N, Rle (INR n) 49000 & new_spline n p Periodic = Some l /\ new_deriv l = Some d]
  \/ [/\ t = Constant, n = 1%N, p = 0%N & sty l = Constant /\ sty d = Constant].
Lemma resolved_splines n0 n1 n2 p0 p1 p2 q t0 t1 t2 : resolved (n0, n1, n2) (p0, p1, p2) q (t0, t1, t2) ->
  exists l0 l1 l2 d0 d1 d2, [/\ forall k, DifferentialForm k (n0, n1, n2) (p0, p1, p2) (t0, t1, t2) = Some (DForm k l0 l1 l2 d0 d1 d2),
    [/\ (1 <= p0)%N && (p0 < n0)%N, Rle (INR (n0 - p0)) 99900, new_spline n0 p0 Clamped = Some l0 & new_deriv l0 = Some d0],
    [/\ (1 <= p1)%N && (p1 < n1)%N, Rle (INR n1) 49000, new_spline n1 p1 Periodic = Some l1 & new_deriv l1 = Some d1]
  & zeta_splines n2 p2 t2 l2 d2].
Proof.
case=> -[-> ->] /and5P [H1 H2 H3 H4 /andP [H5 H6]] [HN0 HN1] Hz.
rewrite !gauss_orderE in H3 H6.
have [d0 [X0 [W0 [Ed0 Sd0 Eq0 G0]]]] := clamped_good H1 H2 H3 HN0.
have [d1 [X1 [W1 [Ed1 Sd1 Eq1 G1]]]] := periodic_good H4 H5 H6 HN1.
pose l2 := mkSpline n2 p2 t2 (init_knots n2 p2 t2).
have [P2 [d2 [Ed2 D2]]] : (p2 < n2)%N /\ exists d, new_deriv l2 = Some d /\ zeta_splines n2 p2 t2 l2 d.
  rewrite /l2; case: Hz => [[E [/and3P [A B C] D]]|[E [E1 E2]]].
  - rewrite !gauss_orderE in C; split=> //.
    have [d [X [W [Ed _ _ _]]]] := periodic_good A B C D.
    rewrite E; exists d; split=> //; left; split=> //; first by rewrite A B.
    by rewrite new_spline_ok.
  - rewrite E E1 E2; split=> //; exists (mkSpline 1 0 Constant (init_knots 1 0 Constant)); split; first exact: const_deriv.
    by right.
exists (mkSpline n0 p0 Clamped (init_knots n0 p0 Clamped)), (mkSpline n1 p1 Periodic (init_knots n1 p1 Periodic)), l2, d0, d1, d2.
split=> //.
- by move=> k; rewrite /DifferentialForm !new_spline_ok // Ed0 Ed1 -/l2 Ed2.
- by rewrite H1 H2; split=> //; rewrite new_spline_ok.
- by rewrite H4 H5; split=> //; rewrite new_spline_ok.
Qed.

(** *** derivatives *)
Lemma clamped_dir_all n p l d x : (1 <= p)%N -> (p < n)%N -> Rle (INR (n - p)) 99900 ->
  new_spline n p Clamped = Some l -> new_deriv l = Some d -> Rlt 0 x /\ Rlt x 1 ->
  (forall k : nat, Rmult x (INR (n - p)) <> INR k) \/ (2 <= p)%N -> dir_open n l d x.
Proof.
move=> Hp Hn HN El Ed Hx Hk a.
case: n Hn HN El Hk => [//|n] Hn HN El Hk.
rewrite -(parts_open n a (fun i => evaluate_deriv d x i)).
apply: (@sum_derive n.+1 (fun i t => a i * evaluate l t i) x
  (fun i => a i * ((if (0 < i)%N then evaluate_deriv d x i.-1 else 0) - (if (i < n)%N then evaluate_deriv d x i else 0)))) => i Hi.
apply: scal_derive.
have Hk' : (forall k : nat, Rmult x (INR (n.+1 - p)) <> INR k) \/ (2 <= p)%coq_nat.
  by case: Hk => [H|H]; [left | right; apply/ssrnat.leP].
have := @clamped_derivative_all n.+1 p l d x i (elimT ssrnat.leP Hp) (elimT ssrnat.ltP Hn) HN El Ed Hx Hk' (elimT ssrnat.ltP Hi).
case: Nat.eqb_spec => [->|Hi0]; case: Nat.eqb_spec => [Hin|Hin].
all: rewrite ?ltnn.
- by have -> : (0 < n)%N = false by lia.
- by have -> : (0 < n)%N by lia.
- have -> : (0 < i)%N by lia. have -> : (i < n)%N = false by lia.
  by have -> : Nat.sub i 1 = i.-1 by lia.
- have -> : (0 < i)%N by lia. have -> : (i < n)%N by lia.
  by have -> : Nat.sub i 1 = i.-1 by lia.
Qed.
Lemma periodic_dir_all n p l d x : (1 <= p)%N -> (p < n)%N -> Rle (INR n) 49000 ->
  new_spline n p Periodic = Some l -> new_deriv l = Some d -> Rlt 0 x /\ Rlt x 1 ->
  (forall k : nat, Rmult x (INR n) <> INR k) \/ (2 <= p)%N -> dir_per n l d x.
Proof.
move=> Hp Hn HN El Ed Hx Hk a.
rewrite -(parts_per n a (fun i => evaluate_deriv d x i)).
apply: (@sum_derive n (fun i t => a i * evaluate l t i) x
  (fun i => a i * ((if (0 < i)%N then evaluate_deriv d x i.-1 else evaluate_deriv d x n.-1) - evaluate_deriv d x i))) => i Hi.
apply: scal_derive.
have Hk' : (forall k : nat, Rmult x (INR n) <> INR k) \/ (2 <= p)%coq_nat.
  by case: Hk => [H|H]; [left | right; apply/ssrnat.leP].
have := @periodic_derivative_all n p l d x i (elimT ssrnat.leP Hp) (or_introl (elimT ssrnat.ltP Hn)) HN El Ed Hx Hk' (elimT ssrnat.ltP Hi).
congr (is_derive _ _ (Rminus _ _)).
case: ifP => H0; congr (evaluate_deriv _ _ _).
- have -> : (Nat.sub (Nat.add i n) 1) = Nat.add i.-1 (Nat.mul 1 n) by lia.
  by rewrite Nat.mod_add; [apply: Nat.mod_small; lia | lia].
- have -> : i = 0%N by lia.
  by rewrite Nat.mod_small; lia.
Qed.

Lemma smooth_dirs ns ps q types x0 x1 x2 : resolved ns ps q types -> smooth_point ns ps types.2 (x0, x1, x2) ->
  exists l0 l1 l2 d0 d1 d2, [/\ forall k, DifferentialForm k ns ps types = Some (DForm k l0 l1 l2 d0 d1 d2),
    dir_open ns.1.1 l0 d0 x0, dir_per ns.1.2 l1 d1 x1 & dir_per ns.2 l2 d2 x2].
Proof.
case: ns => [[n0 n1] n2]; case: ps => [[p0 p1] p2]; case: types => [[t0 t1] t2].
move=> Hr [Hx0 Hx1 Hx2 [K0 K1 K2]].
have [l0 [l1 [l2 [d0 [d1 [d2 [HD [/andP [A0 B0] N0 E0 F0] [/andP [A1 B1] N1 E1 F1] Hz]]]]]]] := resolved_splines Hr.
exists l0, l1, l2, d0, d1, d2; split=> //.
- exact: (clamped_dir_all A0 B0 N0 E0 F0 Hx0 K0).
- exact: (periodic_dir_all A1 B1 N1 E1 F1 Hx1 K1).
- case: Hz => [[E /andP [A B] N [El Ed]]|[E E1' E2 [El Ed]]].
  + exact: (periodic_dir_all A B N El Ed Hx2 (K2 E)).
  + by rewrite /= E1'; apply: constant_dir.
Qed.

(** *** continuity *)
Lemma cont3_big D0 D1 D2 n (F : nat -> point -> R) : (forall i, (i < n)%N -> cont3_on D0 D1 D2 (F i)) ->
  cont3_on D0 D1 D2 (fun x => \sum_(i < n) F i x).
Proof.
elim: n => [|n IH] H.
  by apply: (@cont3_ext _ _ _ (fun _ => R0)); [move=> *; rewrite big_ord0 | exact: cont3_0].
apply: (@cont3_ext _ _ _ (fun x => Rplus (\sum_(i < n) F i x) (F n x))).
  by move=> *; rewrite big_ord_recr.
by apply: cont3_plus; [apply: IH => i Hi; apply: H; apply: ltnW | apply: H].
Qed.
Lemma cont_big D n (F : nat -> R -> R) : (forall i, (i < n)%N -> cont_on D (F i)) -> cont_on D (fun x => \sum_(i < n) F i x).
Proof.
elim: n => [|n IH] H.
  by apply: (@cont_on_ext _ (fun _ => R0)); [move=> *; rewrite big_ord0 | exact: cont_on_const].
apply: (@cont_on_ext _ (fun x => Rplus (\sum_(i < n) F i x) (F n x))).
  by move=> *; rewrite big_ord_recr.
by apply: cont_on_plus; [apply: IH => i Hi; apply: H; apply: ltnW | apply: H].
Qed.
Lemma cont3_sum3 D0 D1 D2 a b d (u : nat -> nat -> nat -> R) (A B C : R -> nat -> R) :
  (forall i, (i < a)%N -> cont_on D0 (fun x => A x i)) -> (forall i, (i < b)%N -> cont_on D1 (fun x => B x i)) ->
  (forall i, (i < d)%N -> cont_on D2 (fun x => C x i)) ->
  cont3_on D0 D1 D2 (fun x => let: (x0, x1, x2) := x in \sum_(i < a) \sum_(j < b) \sum_(l < d) u i j l * (A x0 i * B x1 j * C x2 l)).
Proof.
move=> HA HB HC.
apply: (@cont3_ext _ _ _ (fun x => \sum_(i < a) \sum_(j < b) \sum_(l < d)
   (fun y : point => let '(y0, y1, y2) := y in Rmult (Rmult (Rmult (u i j l) (A y0 i)) (B y1 j)) (C y2 l)) x)).
  move=> x0 x1 x2; apply: eq_bigr => i _; apply: eq_bigr => j _; apply: eq_bigr => l _.
  by rewrite !RmultE !mulrA.
apply: (@cont3_big _ _ _ a (fun i x => \sum_(j < b) \sum_(l < d)
   (fun y : point => let '(y0, y1, y2) := y in Rmult (Rmult (Rmult (u i j l) (A y0 i)) (B y1 j)) (C y2 l)) x)) => i Hi.
apply: (@cont3_big _ _ _ b (fun j x => \sum_(l < d)
   (fun y : point => let '(y0, y1, y2) := y in Rmult (Rmult (Rmult (u i j l) (A y0 i)) (B y1 j)) (C y2 l)) x)) => j Hj.
apply: (@cont3_big _ _ _ d (fun l (y : point) => let '(y0, y1, y2) := y in Rmult (Rmult (Rmult (u i j l) (A y0 i)) (B y1 j)) (C y2 l))) => l Hl.
apply: (@cont3_prod _ _ _ (fun x => Rmult (u i j l) (A x i)) (fun x => B x j) (fun x => C x l)).
- by apply: cont_on_scal; apply: HA.
- exact: HB.
- exact: HC.
Qed.
Lemma cont_sum3 D a b d (u : nat -> nat -> nat -> R) (G : nat -> nat -> nat -> R -> R) :
  (forall i j l, (i < a)%N -> (j < b)%N -> (l < d)%N -> cont_on D (G i j l)) ->
  cont_on D (fun t => \sum_(i < a) \sum_(j < b) \sum_(l < d) u i j l * G i j l t).
Proof.
move=> H.
apply: (@cont_big _ a (fun i t => \sum_(j < b) \sum_(l < d) u i j l * G i j l t)) => i Hi.
apply: (@cont_big _ b (fun j t => \sum_(l < d) u i j l * G i j l t)) => j Hj.
apply: (@cont_big _ d (fun l t => u i j l * G i j l t)) => l Hl.
by apply: cont_on_scal; apply: H.
Qed.

Lemma cont_const_spline D l i : sty l = Constant -> cont_on D (fun x => evaluate l x i).
Proof. by move=> E; rewrite /evaluate E; apply: cont_on_const. Qed.
Lemma cont_const_deriv D d i : sty d = Constant -> cont_on D (fun x => evaluate_deriv d x i).
Proof. by move=> E; rewrite /evaluate_deriv E; apply: cont_on_const. Qed.

(** univariate factors: number of functions, splines, derivative splines *)
Definition fac_cont (D : R -> Prop) (n : nat) (A : R -> nat -> R) : Prop := forall i, (i < n)%N -> cont_on D (fun x => A x i).
Lemma r_cont n p l : (1 <= p)%N && (p < n)%N -> Rle (INR (n - p)) 99900 -> new_spline n p Clamped = Some l -> fac_cont closed01 n (evaluate l).
Proof. by move=> /andP [A B] N E i Hi; apply: (@clamped_cont n p l i) => //; lia. Qed.
Lemma r_dcont n p l d : (2 <= p)%N -> (p < n)%N -> Rle (INR (n - p)) 99900 -> new_spline n p Clamped = Some l -> new_deriv l = Some d ->
  fac_cont halfopen01 n.-1 (evaluate_deriv d).
Proof. by move=> A B N E F i Hi; apply: (@clamped_deriv_cont n p l d i) => //; lia. Qed.
Lemma t_cont n p l : (1 <= p)%N && (p < n)%N -> Rle (INR n) 49000 -> new_spline n p Periodic = Some l -> fac_cont closed01 n (evaluate l).
Proof. by move=> /andP [A B] N E i Hi; apply: (@periodic_cont n p l i) => //; lia. Qed.
Lemma t_dcont n p l d : (2 <= p)%N -> (p < n)%N -> Rle (INR n) 49000 -> new_spline n p Periodic = Some l -> new_deriv l = Some d ->
  fac_cont closed01 n (evaluate_deriv d).
Proof. by move=> A B N E F i Hi; apply: (@periodic_deriv_cont n p l d i) => //; lia. Qed.
Lemma z_cont n p t l d : zeta_splines n p t l d -> fac_cont closed01 n (evaluate l).
Proof.
case=> [[_ A N [E _]]|[_ _ _ [E _]] i _]; [exact: t_cont A N E | exact: cont_const_spline].
Qed.
Lemma z_dcont n p t l d : zeta_splines n p t l d -> t = Constant \/ (2 <= p)%N -> fac_cont closed01 n (evaluate_deriv d).
Proof.
case=> [[E /andP [A B] N [El Ed]] [F|F]|[_ _ _ [_ E]] _ i _].
- by rewrite E in F.
- exact: t_dcont F B N El Ed.
- exact: cont_const_deriv.
Qed.
