(** Property theorems C67: smoothness of splines and of discrete fields, also on knot planes. *)
From Coq Require Import Reals Lra String.
From Coquelicot Require Import Coquelicot.
From mathcomp Require Import all_ssreflect all_algebra zify.
From Verif Require Import Model.RBase Model.Spline Model.SplineCtor Model.Quad Model.Forms Model.DeRham Model.FormEval Model.Geometry Model.SeqR.
From Verif Require Import Spec.BSpline Spec.Cochain Spec.PolarSpace Spec.SeqSpec Spec.FormSpec Spec.GeomSpec Spec.SeqRSpec Spec.CalculusSpec Spec.SmoothSpec.
From Verif Require Import Proof.RField Proof.SplineProps Proof.SplineDeriv Proof.SplineCtorProofs Proof.SplineSmooth Proof.SplineCont Proof.FormEvalProofs Proof.SeqRProofs Proof.SeqDeriv Proof.SeqCalculus Proof.SeqSmooth
  Props.SequenceR.
Set Implicit Arguments.
Unset Strict Implicit.
Unset Printing Implicit Defensive.
Import Order.TTheory GRing.Theory Num.Theory.
Local Open Scope ring_scope.

(** ** splines of degree >= 1 are continuous on [0,1] *)
Theorem C67_clamped_continuous : forall (n p : nat) (s : spline) (i : nat),
  SplineBasis n p "clamped" None = Ok s -> (1 <= p)%coq_nat -> (p < n)%coq_nat -> Rle (INR (n - p)) 99900 -> (i < n)%coq_nat ->
  cont_on closed01 (fun x => evaluate s x i).
Proof.
move=> n p s i Hs Hp Hn HN Hi; have [_ [_ [Et H]]] := ctor_attrs _ _ _ _ Hs.
have E : sty s = Clamped by symmetry; apply: some_inj.
by rewrite E in H; apply: (@clamped_cont n p).
Qed.
Theorem C67_periodic_continuous : forall (n p : nat) (s : spline) (i : nat),
  SplineBasis n p "periodic" None = Ok s -> (1 <= p)%coq_nat -> (p < n)%coq_nat -> Rle (INR n) 49000 -> (i < n)%coq_nat ->
  cont_on closed01 (fun x => evaluate s x i) /\ evaluate s 0 i = evaluate s 1 i.
Proof.
move=> n p s i Hs Hp Hn HN Hi; have [_ [_ [Et H]]] := ctor_attrs _ _ _ _ Hs.
have E : sty s = Periodic by symmetry; apply: some_inj.
rewrite E in H; split; first by apply: (@periodic_cont n p) => //; lia.
have [-> _] := new_spline_inv _ _ _ _ H; by apply: periodic_closed => //; lia.
Qed.

(** ** splines of degree >= 2 are continuously differentiable: the identity of C03 at every
    interior point, knots included, and its right-hand side is continuous *)
Theorem C67_clamped_C1 : forall (n p : nat) (s d : spline),
  (2 <= p)%coq_nat -> (p < n)%coq_nat -> Rle (INR (n - p)) 99900 ->
  new_spline n p Clamped = Some s -> new_deriv s = Some d ->
  (forall x i, Rlt 0 x /\ Rlt x 1 -> (i < n)%coq_nat ->
     is_derive (fun y => evaluate s y i) x
      (Rminus (if Nat.eqb i 0 then R0 else evaluate_deriv d x (Nat.sub i 1))
              (if Nat.eqb i (Nat.sub n 1) then R0 else evaluate_deriv d x i))) /\
  (forall i, (i < n - 1)%coq_nat -> cont_on halfopen01 (fun x => evaluate_deriv d x i)).
Proof.
move=> n p s d Hp Hn HN Es Ed; split.
- by move=> x i Hx Hi; apply: (@clamped_derivative_all n p s d x i) => //; [lia | right].
- by move=> i Hi; apply: (@clamped_deriv_cont n p s d i).
Qed.
Theorem C67_periodic_C1 : forall (n p : nat) (s d : spline),
  (2 <= p)%coq_nat -> (p < n)%coq_nat -> Rle (INR n) 49000 ->
  new_spline n p Periodic = Some s -> new_deriv s = Some d ->
  (forall x i, Rlt 0 x /\ Rlt x 1 -> (i < n)%coq_nat ->
     is_derive (fun y => evaluate s y i) x
      (Rminus (evaluate_deriv d x (Nat.modulo (Nat.sub (Nat.add i n) 1) n)) (evaluate_deriv d x i))) /\
  (forall i, (i < n)%coq_nat -> cont_on closed01 (fun x => evaluate_deriv d x i)).
Proof.
move=> n p s d Hp Hn HN Es Ed; split.
- by move=> x i Hx Hi; apply: (@periodic_derivative_all n p s d x i) => //; [lia | left | right].
- by move=> i Hi; apply: (@periodic_deriv_cont n p s d i).
Qed.

Lemma cshape_dx n0 n1 n2 k c a b d : k <> KV -> (c < comps k)%N -> cshape (Shape n0 n1 n2 true false false) k c = (a, b, d) ->
  [/\ a = if has_dx k c 0 then n0.-1 else n0, b = n1 & d = n2].
Proof.
by case: k c => [] [|[|[|c]]] // HV _; rewrite /cshape /= /dr /dt /dz /= ?subn1 ?subn0 => -[<- <- <-].
Qed.

Section Seq.
Variables (ns ps : triple) (q : nat) (types : stype * stype * stype) (DFx : point -> mat3 R_realFieldType)
  (polar dirichlet : bool).
Hypothesis Hs : supported ns ps q types polar dirichlet.
Hypothesis Hreg : regular_map DFx (seq_points ns ps q types).
Variable S : drseq R_realFieldType.
Hypothesis HS : new_sequence ns ps q types DFx polar dirichlet = Some S.
Notation field := (discrete_form ns ps types).

Lemma supported_resolved : resolved ns ps q types.
Proof. by move: Hs; case: ns => [[n0 n1] n2] []. Qed.

(** ** the strong operators are the gradient, curl and divergence at every interior point of
    the cube, on knot planes of directions of degree >= 2 as well *)
Theorem C67_gradient : forall x (y : 'cV_(rk S K0)), smooth_point ns ps types.2 x ->
  is_grad (field y 0) x (fun a => field (strong_grad S *m y) a x).
Proof.
case=> [[x0 x1] x2] y Hx; have [l0 [l1 [l2 [d0 [d1 [d2 [HD D0 D1 D2]]]]]]] := smooth_dirs supported_resolved Hx.
exact: (grad_str Hs Hreg HS HD D0 D1 D2).
Qed.
Theorem C67_curl : forall x (y : 'cV_(rk S K1)), smooth_point ns ps types.2 x ->
  is_curl (fun c => field y c) x (fun a => field (strong_curl S *m y) a x).
Proof.
case=> [[x0 x1] x2] y Hx; have [l0 [l1 [l2 [d0 [d1 [d2 [HD D0 D1 D2]]]]]]] := smooth_dirs supported_resolved Hx.
exact: (curl_str Hs Hreg HS HD D0 D1 D2).
Qed.
Theorem C67_divergence : forall x (y : 'cV_(rk S K2)), smooth_point ns ps types.2 x ->
  is_div (fun c => field y c) x (field (strong_div S *m y) 0 x).
Proof.
case=> [[x0 x1] x2] y Hx; have [l0 [l1 [l2 [d0 [d1 [d2 [HD D0 D1 D2]]]]]]] := smooth_dirs supported_resolved Hx.
exact: (div_str Hs Hreg HS HD D0 D1 D2).
Qed.

(** ** conformity, for all degrees >= 1: along every line in a direction in which component c
    is not a derivative spline, it is continuous up to the boundary.  (0-forms: all directions;
    1-forms: tangential components; 2-forms: normal components.) *)
Theorem C67_conforming : forall k (y : 'cV_(rk S k)) c a x, k <> KV -> (c < comps k)%N -> (a < 3)%N ->
  ~~ has_dx k c a -> cont_on closed01 (fun t => field y c (upd a x t)).
Proof.
move=> k y c a [[x0 x1] x2] HV Hc Ha Hdx.
move: Hs Hreg HS y; case: ns ps types => [[n0 n1] n2] [[p0 p1] p2] [[t0 t1] t2] Hs' Hreg' HS' y.
have Hr : resolved (n0, n1, n2) (p0, p1, p2) q (t0, t1, t2) by case: Hs'.
have [l0 [l1 [l2 [d0 [d1 [d2 [HD [A0 N0 E0 F0] [A1 N1 E1 F1] Hz]]]]]]] := resolved_splines Hr.
have Fr := r_cont A0 N0 E0; have Ft := t_cont A1 N1 E1; have Fz := z_cont Hz.
case: a Ha Hdx => [|[|[|//]]] _ Hdx.
- apply: cont_on_ext; first by move=> t _; rewrite /upd /= (form_str Hs' Hreg' HS' HD) //.
  case Ecs : (cshape _ _ _) => [[a b] d].
  apply: (@cont_sum3 _ a b d (coefs S k y c) (fun i j l t => factor (DForm k l0 l1 l2 d0 d1 d2) c 0 t i * factor (DForm k l0 l1 l2 d0 d1 d2) c 1 x1 j * factor (DForm k l0 l1 l2 d0 d1 d2) c 2 x2 l)) => i j l Hi Hj Hl.
  have Ea : a = n0 by move: Ecs Hdx Hc; clear; case: k c => [] [|[|[|c]]] //= [].
  apply: (@cont_on_ext _ (fun t => Rmult (factor (DForm k l0 l1 l2 d0 d1 d2) c 1 x1 j * factor (DForm k l0 l1 l2 d0 d1 d2) c 2 x2 l) (evaluate l0 t i))).
    by move=> t _; rewrite RmultE mulrC mulrA; congr (_ * _ * _); rewrite /factor /= (negbTE Hdx).
  by apply: cont_on_scal; apply: Fr; rewrite -Ea.
- apply: cont_on_ext; first by move=> t _; rewrite /upd /= (form_str Hs' Hreg' HS' HD) //.
  case Ecs : (cshape _ _ _) => [[a b] d].
  apply: (@cont_sum3 _ a b d (coefs S k y c) (fun i j l t => factor (DForm k l0 l1 l2 d0 d1 d2) c 0 x0 i * factor (DForm k l0 l1 l2 d0 d1 d2) c 1 t j * factor (DForm k l0 l1 l2 d0 d1 d2) c 2 x2 l)) => i j l Hi Hj Hl.
  have Eb : b = n1 by move: Ecs Hdx Hc; clear; case: k c => [] [|[|[|c]]] //= [].
  apply: (@cont_on_ext _ (fun t => Rmult (factor (DForm k l0 l1 l2 d0 d1 d2) c 0 x0 i * factor (DForm k l0 l1 l2 d0 d1 d2) c 2 x2 l) (evaluate l1 t j))).
    by move=> t _; rewrite RmultE mulrAC; congr (_ * _ * _); rewrite /factor /= (negbTE Hdx).
  by apply: cont_on_scal; apply: Ft; rewrite -Eb.
- apply: cont_on_ext; first by move=> t _; rewrite /upd /= (form_str Hs' Hreg' HS' HD) //.
  case Ecs : (cshape _ _ _) => [[a b] d].
  apply: (@cont_sum3 _ a b d (coefs S k y c) (fun i j l t => factor (DForm k l0 l1 l2 d0 d1 d2) c 0 x0 i * factor (DForm k l0 l1 l2 d0 d1 d2) c 1 x1 j * factor (DForm k l0 l1 l2 d0 d1 d2) c 2 t l)) => i j l Hi Hj Hl.
  have Ed : d = n2 by move: Ecs Hdx Hc; clear; case: k c => [] [|[|[|c]]] //= [].
  apply: (@cont_on_ext _ (fun t => Rmult (factor (DForm k l0 l1 l2 d0 d1 d2) c 0 x0 i * factor (DForm k l0 l1 l2 d0 d1 d2) c 1 x1 j) (evaluate l2 t l))).
    by move=> t _; rewrite RmultE; congr (_ * _); rewrite /factor /= (negbTE Hdx).
  by apply: cont_on_scal; apply: Fz; rewrite -Ed.
Qed.

(** ** joint continuity: component c is continuous on the closed cube if the degree is at least 2
    in every direction in which it is a derivative spline (excluding the face r = 1 where the radial
    derivative splines are wrong, C07); in particular 0-forms always are *)
Theorem C67_continuous : forall k (y : 'cV_(rk S k)) c, k <> KV -> (c < comps k)%N ->
  (has_dx k c 0 -> (2 <= ps.1.1)%N) -> (has_dx k c 1 -> (2 <= ps.1.2)%N) ->
  (has_dx k c 2 -> types.2 = Constant \/ (2 <= ps.2)%N) ->
  cont3_on (if has_dx k c 0 then halfopen01 else closed01) closed01 closed01 (field y c).
Proof.
move=> k y c HV Hc.
move: Hs Hreg HS y; case: ns ps types => [[n0 n1] n2] [[p0 p1] p2] [[t0 t1] t2] Hs' Hreg' HS' y /= H0 H1 H2.
have Hr : resolved (n0, n1, n2) (p0, p1, p2) q (t0, t1, t2) by case: Hs'.
have [l0 [l1 [l2 [d0 [d1 [d2 [HD [A0 N0 E0 F0] [A1 N1 E1 F1] Hz]]]]]]] := resolved_splines Hr.
case Ecs : (cshape (Shape n0 n1 n2 true false false) k c) => [[a b] d].
apply: (@cont3_ext _ _ _ (fun x : point => let: (x0, x1, x2) := x in \sum_(i < a) \sum_(j < b) \sum_(l < d)
    coefs S k y c i j l * (factor (DForm k l0 l1 l2 d0 d1 d2) c 0 x0 i * factor (DForm k l0 l1 l2 d0 d1 d2) c 1 x1 j * factor (DForm k l0 l1 l2 d0 d1 d2) c 2 x2 l))).
  by move=> z0 z1 z2; rewrite (form_str Hs' Hreg' HS' HD) // Ecs.
have [Ea Eb Ed] := cshape_dx HV Hc Ecs.
have C0 : fac_cont (if has_dx k c 0 then halfopen01 else closed01) a (fun x => factor (DForm k l0 l1 l2 d0 d1 d2) c 0 x).
  rewrite Ea /factor [f_k _]/=; case: (has_dx k c 0) H0 => H0 i Hi; last exact: (r_cont A0 N0 E0).
  by have/andP [_ B0] := A0; apply: (r_dcont (H0 isT) B0 N0 E0 F0).
have C1 : fac_cont closed01 b (fun x => factor (DForm k l0 l1 l2 d0 d1 d2) c 1 x).
  rewrite Eb /factor [f_k _]/=; case: (has_dx k c 1) H1 => H1 i Hi; last exact: (t_cont A1 N1 E1).
  by have/andP [_ B1] := A1; apply: (t_dcont (H1 isT) B1 N1 E1 F1).
have C2 : fac_cont closed01 d (fun x => factor (DForm k l0 l1 l2 d0 d1 d2) c 2 x).
  rewrite Ed /factor [f_k _]/=; case: (has_dx k c 2) H2 => H2 i Hi; last exact: (z_cont Hz).
  by apply: (z_dcont Hz (H2 isT)).
exact: (@cont3_sum3 _ _ _ a b d (coefs S k y c) _ _ _ C0 C1 C2).
Qed.
End Seq.
Print Assumptions C67_clamped_continuous.
Print Assumptions C67_periodic_continuous.
Print Assumptions C67_clamped_C1.
Print Assumptions C67_periodic_C1.
Print Assumptions C67_gradient.
Print Assumptions C67_curl.
Print Assumptions C67_divergence.
Print Assumptions C67_conforming.
Print Assumptions C67_continuous.

(** degree 1 is not enough: every interior hat function has a kink at its centre *)
Theorem C67_degree_one_sharp : forall (n i : nat) (s : spline),
  (0 < i)%coq_nat -> (i < n - 1)%coq_nat -> Rle (INR (n - 1)) 99900 -> SplineBasis n 1 "clamped" None = Ok s ->
  forall l : R, ~ is_derive (fun y => evaluate s y i) (Rdiv (INR i) (INR (n - 1))) l.
Proof.
move=> n [|i] s H0 Hi HN Hs l; first by lia.
have [_ [_ [Et H]]] := ctor_attrs _ _ _ _ Hs.
have E : sty s = Clamped by symmetry; apply: some_inj.
by rewrite E in H; apply: (@hat_kink n s i).
Qed.
Print Assumptions C67_degree_one_sharp.

(** a polar Dirichlet sequence of degrees (3,3,-) and one of degrees (3,2,2) meet the hypotheses;
    (3/5, 1/4, 1/2) lies on knot planes of the second in all three directions *)
Example C67_nonvacuous :
  [/\ supported (8, 8, 1)%N (3, 3, 0)%N 4 (Clamped, Periodic, Constant) true true,
      supported (8, 8, 6)%N (3, 2, 2)%N 5 (Clamped, Periodic, Periodic) false false,
      forall pts, regular_map (fun _ => id33) pts,
      smooth_point (8, 8, 6)%N (3, 2, 2)%N Periodic (Rdiv 3 5, Rdiv 1 4, Rdiv 1 2)
        /\ ~ off_knots (8, 8, 6)%N (3, 2, 2)%N Periodic (Rdiv 3 5, Rdiv 1 4, Rdiv 1 2)
    & (exists s d, new_spline 8 3 Clamped = Some s /\ new_deriv s = Some d)
      /\ (exists s d, new_spline 8 2 Periodic = Some s /\ new_deriv s = Some d)].
Proof.
have [H1 H2 H3 _ _] := SequenceR_nonvacuous; split=> //.
- split.
  + by split; try lra; split=> *; right.
  + case=> _ _ _ [/(_ 3%N) H _ _]; apply: H.
    have -> : INR (8 - 3) = IZR 5 by rewrite /=; lra.
    by rewrite /=; field.
- by split; do 2 eexists; split; reflexivity.
Qed.
