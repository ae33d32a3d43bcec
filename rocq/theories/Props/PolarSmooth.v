(** Property theorems (C21, real coefficients): which spline 0-forms the polar extraction of
    get_xi keeps near the magnetic axis. *)
From Coq Require Import Reals Lra.
From mathcomp Require Import all_ssreflect all_algebra.
From Verif Require Import Model.RBase Model.Forms Model.SeqR.
From Verif Require Import Spec.Cochain Spec.PolarSpace.
From Verif Require Import Proof.RField Proof.Complex Proof.MassSPD Proof.SeqRProofs Props.DeRham.
Set Implicit Arguments.
Unset Strict Implicit.
Unset Printing Implicit Defensive.
Import GRing.Theory.
Local Open Scope R_scope.

(** the coefficients of get_xi are convex weights *)
Theorem C21_convex_weights : forall nt p i j, (p < 3)%N ->
  (0 <= get_xi nt p i j <= 1).
Proof.
move=> nt p i j Hp.
have H3 := sqrt_sqrt 3 ltac:(lra); have Hs := sqrt_lt_R0 3 ltac:(lra).
case: i => [|i]; first by rewrite /get_xi; lra.
rewrite /get_xi.
have Hc := COS_bound (theta_j nt j); have H1 := sin2_cos2 (theta_j nt j).
move: (cos (theta_j nt j)) (sin (theta_j nt j)) Hc H1 => c s Hc; rewrite /Rsqr => H1; rewrite /xiM; move: (sqrt 3) H3 Hs => r H3 Hs.
have A : forall e, (e * e = 1 -> -2 <= e * r * s - c <= 2).
  move=> e He.
  have : ((e * r * s - c) * (e * r * s - c) <= 4).
    have := Rle_0_sqr (s + e * r * c); rewrite /Rsqr => Hq.
    have -> : (4 = (s + e * r * c) * (s + e * r * c) + (e * r * s - c) * (e * r * s - c)).
      have -> : ((s + e * r * c) * (s + e * r * c) + (e * r * s - c) * (e * r * s - c)
               = (s * s + c * c) * (1 + (e * e) * (r * r))) by ring.
      by rewrite H1 He H3; lra.
    by lra.
  by move=> Hq; split; nra.
have A1 : -2 <= r * s - c <= 2 by have := A 1 (Rmult_1_l 1); rewrite Rmult_1_l.
have A2 : -2 <= - r * s - c <= 2 by have := A (-1) ltac:(ring); lra.
case: p Hp => [|[|[|p]]] // _; first by lra.
- have -> : 1 / 3 + (- (1 / 6) * c + r / 6 * s) = 1 / 3 + (r * s - c) / 6 by field.
  lra.
- have -> : 1 / 3 + (- (1 / 6) * c + - (r / 6) * s) = 1 / 3 + (- r * s - c) / 6 by field.
  lra.
Qed.
Print Assumptions C21_convex_weights.

Section Modes.
Variables (nr nt nz : nat) (o : bool).
Notation s := (Shape nr nt nz true false false).

(** a spline 0-form is in the extracted space iff its coefficients on the innermost ring
    (the axis) are one value a per zeta and those of the next ring are a plus a first
    harmonic of the angles 2 pi j / nt (so that the form has a well-defined gradient at the
    axis) and, with a Dirichlet condition, those of the last ring vanish *)
Theorem C21_axis_first_harmonic : (2 + o <= nr)%N ->
  forall v : 'rV[R_realFieldType]_(fdim s K0),
  (v <= polar_matrix (get_xi nt : nat -> nat -> nat -> R_realFieldType) s o K0)%MS
  <-> exists a b c : nat -> R, forall j l, (j < nt)%N -> (l < nz)%N ->
      [/\ vec_cochain v 0%N 0%N j l = a l,
          vec_cochain v 0%N 1%N j l
            = (a l + b l * cos (2 * PI * INR j / INR nt) + c l * sin (2 * PI * INR j / INR nt))
        & o -> vec_cochain v 0%N nr.-1 j l = 0].
Proof.
move=> Hnr v; have H3 := sqrt_sqrt 3 ltac:(lra); have Hs := sqrt_lt_R0 3 ltac:(lra).
have Eth : forall j, theta_j nt j = (2 * PI * INR j / INR nt) by move=> j; rewrite /theta_j /Rdiv; ring.
have := @C20_row_space _ (get_xi nt : nat -> nat -> nat -> R_realFieldType) nr nt nz o K0 ltac:(by []) Hnr v.
move=> [H1 H2]; split.
- move=> /H1 [ga H].
  exists (fun l => (ga 0%N l + ga 1%N l + ga 2%N l) / 3), (fun l => ga 0%N l / 3 - ga 1%N l / 6 - ga 2%N l / 6),
    (fun l => sqrt 3 / 6 * (ga 1%N l - ga 2%N l)) => j l Hj Hl.
  have [Hr He] := H j l Hj Hl; split=> //.
  + by rewrite (Hr 0%N) // sum3O /get_xi -!RplusE -!RmultE /=; lra.
  + by rewrite (Hr 1%N) // sum3O /get_xi -!Eth /xiM -!RplusE -!RmultE /=; lra.
- move=> [a [b [c H]]]; apply: H2.
  exists (fun p l => match p with O => a l + 2 * b l | S O => a l - b l + sqrt 3 * c l | _ => a l - b l - sqrt 3 * c l end) => j l Hj Hl.
  have [Ha Hb He] := H j l Hj Hl; split=> // - [|[|i]] // _.
  + by rewrite Ha sum3O /get_xi -!RplusE -!RmultE /=; lra.
  + rewrite Hb sum3O /get_xi -!Eth /xiM -!RplusE -!RmultE /=.
    move: (cos _) (sin _) (sqrt 3) H3 Hs => co si r H3 Hs.
    have -> : (a l + b l * co + c l * si = a l + b l * co + (r * r) / 3 * (c l * si)) by rewrite H3; field.
    by lazymatch goal with |- @eq _ ?x ?y => change (@eq R x y) end; field.
Qed.
End Modes.
Print Assumptions C21_axis_first_harmonic.

(** a form with a genuine first harmonic is kept (nt = 4, coefficients cos on the second ring) *)
Example C21_first_harmonic_nonvacuous : (2 + false <= 3)%N /\ (cos (2 * PI * INR 2 / INR 4) = -1).
Proof.
split=> //; have -> : (2 * PI * INR 2 / INR 4 = PI) by simpl; field.
exact: cos_PI.
Qed.
