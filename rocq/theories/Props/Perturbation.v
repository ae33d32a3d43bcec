(** Property theorems C84: the island perturbation of the driver scripts. *)
From Coq Require Import Reals Lra ZArith.
From mathcomp Require Import all_ssreflect all_algebra zify.
From Verif Require Import Model.RBase Model.Spline Model.Quad Model.Forms Model.DeRham Model.FormEval Model.Geometry Model.SeqR Model.Relaxation Model.Scripts Model.Perturbation.
From Verif Require Import Spec.SeqRSpec Proof.RField Proof.GeometryProofs Proof.SeqRProofs Proof.SeqCalculus Props.SequenceR Props.Scripts.
Set Implicit Arguments.
Unset Strict Implicit.
Unset Printing Implicit Defensive.
Import Order.TTheory GRing.Theory Num.Theory.

Section Pure.
Local Open Scope R_scope.
Lemma sin_int (k : Z) : sin (IZR k * PI) = 0.
Proof. by apply: sin_eq_0_1; exists k. Qed.
Lemma sin_per (k : Z) t : sin (2 * PI * (t + 1) * IZR k) = sin (2 * PI * t * IZR k).
Proof.
have -> : 2 * PI * (t + 1) * IZR k = 2 * PI * t * IZR k + IZR (2 * k) * PI by rewrite mult_IZR; ring.
rewrite sin_plus sin_int.
have -> : cos (IZR (2 * k) * PI) = 1.
  have -> : IZR (2 * k) * PI = 2 * (IZR k * PI) by rewrite mult_IZR; ring.
  by rewrite cos_2a_sin sin_int; ring.
ring.
Qed.
Lemma half_int (k : Z) : sin (2 * PI * (1 / 2) * IZR k) = 0.
Proof.
have -> : 2 * PI * (1 / 2) * IZR k = IZR k * PI by field.
exact: sin_int.
Qed.
Lemma zero_int (k : Z) : sin (2 * PI * 0 * IZR k) = 0.
Proof. by rewrite Rmult_0_r Rmult_0_l sin_0. Qed.
Definition zhalf : R := 1 / 2.
Lemma gauss1 : (ufl 0 + 1) / 2 = zhalf.
Proof. by rewrite /ufl /zhalf; field. Qed.
(** the amplitude of the perturbation at (r, t, z), written out *)
Definition amplitude (loc width : R) (m n : Z) (r t z : R) : R :=
  exp (- (r - loc) ^ 2 / (2 * width ^ 2)) * sin (2 * PI * t * IZR m) * sin (2 * PI * z * IZR n).
Lemma amp_per loc width m n r t z : amplitude loc width m n r (t + 1) z = amplitude loc width m n r t z
  /\ amplitude loc width m n r t (z + 1) = amplitude loc width m n r t z.
Proof. by rewrite /amplitude !sin_per. Qed.
Lemma amp0 loc width m n r t z : m = Z0 \/ n = Z0 -> amplitude loc width m n r t z = 0.
Proof. by rewrite /amplitude; case=> ->; rewrite Rmult_0_r sin_0; ring. Qed.
Lemma amp_quarter loc width r : amplitude loc width 1 1 r (1 / 4) (1 / 4) > 0.
Proof.
have E : 2 * PI * (1 / 4) * 1 = PI / 2 by field.
rewrite /amplitude E sin_PI2 !Rmult_1_r; exact: exp_pos.
Qed.
Lemma amp_half loc width m n r t z : z = zhalf \/ z = 0 -> amplitude loc width m n r t z = 0.
Proof. by rewrite /amplitude; case=> ->; rewrite ?half_int ?zero_int; ring. Qed.
Lemma dB_amp loc width m n DFx r t z k :
  island_dB loc width (IZR m) (IZR n) DFx (r, t, z) k = amplitude loc width m n r t z * DFx (r, t, z) k 0%nat.
Proof. by []. Qed.
End Pure.

Local Open Scope ring_scope.
Lemma mesh_z (A : Type) (xs ys : list A) (c : A) x : List.In x (meshgrid3 xs ys [:: c]) -> snd x = c.
Proof. by case/List.in_flat_map => y [_ /List.in_flat_map [x' [_ /= [<-|//]]]]. Qed.
Lemma form_last k ns ps t0 t1 f : DifferentialForm k ns ps (t0, t1, Constant) = Some f -> sty (f_L2 f) = Constant.
Proof.
case: ns => [[n0 n1] n2]; case: ps => [[p0 p1] p2]; rewrite /DifferentialForm.
case: (new_spline n0 p0 t0) => // l0; case: (new_spline n1 p1 t1) => // l1.
case E: (new_spline n2 p2 Constant) => [l2|] //.
case: (new_deriv l0) => // d0; case: (new_deriv l1) => // d1; case: (new_deriv l2) => // d2 [<-] /=.
by move: E; rewrite /new_spline; repeat (case: ifP => // _); case=> <-.
Qed.
Lemma points_half ns ps q t0 t1 x : List.In x (seq_points ns ps q (t0, t1, Constant)) -> snd x = zhalf.
Proof.
rewrite /seq_points; case Ef: (DifferentialForm _ _ _ _) => [f|] //.
rewrite /QuadratureRule {3}/select_quadrature (form_last Ef).
case: (select_quadrature (f_L0 f) q) => // [[xx wx]]; case: (select_quadrature (f_L1 f) q) => // [[xy wy]].
move=> H; rewrite (mesh_z H); exact: gauss1.
Qed.
Section Axi.
Variables (loc width : R) (m n : Z) (DFx : point -> mat3 R_realFieldType).
Notation dB := (island_dB loc width (IZR m) (IZR n) DFx).
Lemma dB_zero (x : point) k : snd x = zhalf \/ snd x = R0 -> dB x k = R0.
Proof. by case: x => [[r t] z] H; rewrite dB_amp amp_half //; exact: Rmult_0_l. Qed.
Lemma dB_at ns ps q t0 t1 j k : dB (List.nth j (seq_points ns ps q (t0, t1, Constant)) (R0, R0, R0)) k = R0.
Proof.
apply: dB_zero; case: (ssrnat.leqP (length (seq_points ns ps q (t0, t1, Constant))) j) => H.
  by right; rewrite List.nth_overflow //; apply/ssrnat.leP.
by left; apply: points_half; apply: List.nth_In; apply/ssrnat.ltP.
Qed.
End Axi.

(** on every sequence that is constant in zeta (n_zeta = 1: all tokamak presets) the perturbation is zero at every
    quadrature point, so its projection is the zero vector and the scripts divide it by its norm 0 *)
Theorem C84_axisymmetric_refuted : forall ns ps q t0 t1 DFx polar dirichlet S,
  new_sequence ns ps q (t0, t1, Constant) DFx polar dirichlet = Some S ->
  forall (loc width : R) (m n : Z) pinv,
  let pts := seq_points ns ps q (t0, t1, Constant) in
  let xj j := List.nth j pts (R0, R0, R0) in
  let dB := island_dB loc width (IZR m) (IZR n) DFx in
  let dB_hat := projected_field (S := S) pinv (fun j => DFx (xj j)) (fun j => dB (xj j)) in
  [/\ forall x k, List.In x pts -> dB x k = R0, dB_hat = 0 & norm_2 (S := S) (sqrt : R -> R) dB_hat = 0].
Proof.
move=> ns ps q t0 t1 DFx polar dirichlet S HS loc width m n pinv pts xj dB dB_hat.
have E0 : dB_hat = 0.
  rewrite /dB_hat /projected_field /Projector2.
  have -> : twoform_projection S (fun j => DFx (xj j)) (fun j => dB (xj j)) = 0.
    apply/matrixP => i l; rewrite !mxE big1 // => j _; rewrite big1 // => k _.
    rewrite /mulv3 big1 ?mul0r ?mulr0 // => a _.
    by rewrite [dB _ _](dB_at loc width m n DFx ns ps q t0 t1 j a) mulr0.
  by rewrite /solve !mulmx0.
split=> //.
  by move=> x k Hx; apply: dB_zero; left; apply: points_half Hx.
by rewrite /norm_2 E0 mulmx0 mxE; exact: sqrt_0.
Qed.
Print Assumptions C84_axisymmetric_refuted.

(** with integer mode numbers the perturbation amplitude is single-valued on the torus; a zero mode number makes it vanish
    everywhere; and it has only a radial 2-form component (on a regular map) *)
Theorem C84_radial : forall (loc width : R) (m n : Z) (DFx : point -> mat3 R_realFieldType) (r t z : R),
  let a := amplitude loc width m n in
  [/\ a r (Rplus t R1) z = a r t z /\ a r t (Rplus z R1) = a r t z,
      (m = Z0 \/ n = Z0) -> forall k, island_dB loc width (IZR m) (IZR n) DFx (r, t, z) k = R0
    & (10%:R ^+ 10)^-1 <= `|det33 (DFx (r, t, z))| -> forall k, (k < 3)%N ->
      pullback K2 (DFx (r, t, z)) (island_dB loc width (IZR m) (IZR n) DFx (r, t, z)) k
      = (k == 0%N)%:R * (a r t z * det33 (DFx (r, t, z)))].
Proof.
move=> loc width m n DFx r t z a; split.
- exact: amp_per.
- by move=> H k; rewrite dB_amp amp0 //; exact: Rmult_0_l.
- move=> Hd k Hk; rewrite /pullback /mulv3.
  have -> : \sum_(j < 3) inv33 (DFx (r, t, z)) k j * island_dB loc width (IZR m) (IZR n) DFx (r, t, z) j
          = a r t z * \sum_(j < 3) inv33 (DFx (r, t, z)) k j * DFx (r, t, z) j 0%N.
    by rewrite mulr_sumr; apply: eq_bigr => j _; rewrite dB_amp [RHS]mulrCA.
  by rewrite (@inv33_left _ _ Hd k 0%N Hk isT) [a r t z * _]mulrC mulrA.
Qed.
Print Assumptions C84_radial.

(** the assumptions of the refutation are met by a supported axisymmetric sequence; off the plane zeta = 1/2 the
    perturbation does not vanish *)
Example C84_nonvacuous : exists S : drseq R_realFieldType,
  [/\ new_sequence (8, 8, 1)%N (3, 3, 0)%N 4 (Clamped, Periodic, Constant) (fun _ => id33) true true = Some S,
      (0 < rk S K2)%N
    & forall loc width r, Rlt (IZR 0) (amplitude loc width 1 1 r (Rdiv 1 4) (Rdiv 1 4))].
Proof.
have [H1 _ H3 _ _] := SequenceR_nonvacuous.
have [S HS] := C26_constructor_total H1 (H3 _); exists S; split=> //.
- have [f [Q [-> _ [Hf Ef] _ _]]] := seq_summary H1 (H3 _) HS.
  by rewrite /DeRhamSequence /= Ef.
- by move=> *; apply: amp_quarter.
Qed.
