(** Property theorems C35-C37: the coordinate maps of mrx/mappings.py.
    [jacobian_det F x d] (Spec/MapSpec.v): F has its nine partial derivatives at x and the
    determinant of their matrix is d. *)
From Coq Require Import Reals Lra.
From Coquelicot Require Import Coquelicot.
From mathcomp Require Import all_ssreflect all_algebra.
From Verif Require Import Model.RBase Model.Spline Model.Quad Model.Forms Model.DeRham Model.FormEval Model.Geometry Model.SeqR Model.Maps.
From Verif Require Import Spec.SeqRSpec Spec.CalculusSpec Spec.MapSpec.
From Verif Require Import Proof.RField Proof.MapProofs Proof.JacProofs Proof.MapSeq.
Set Implicit Arguments.
Unset Strict Implicit.
Unset Printing Implicit Defensive.
Local Open Scope R_scope.

Ltac pos := repeat first [assumption | lra | apply: Rmult_lt_0_compat].

(** ** C35 Jacobian determinants *)
Theorem C35_toroid_jacobian : forall epsilon kappa R0 r t z : R,
  jacobian_det (toroid_map epsilon kappa R0) (r, t, z)
    (4 * PI ^ 2 * epsilon ^ 2 * kappa * r * (R0 + epsilon * r * cos (2 * PI * t))).
Proof.
move=> e k R0 r t z.
have := @toroidal_jac (fun r t z => R0 + e * r * cos (2 * PI * t)) (fun r t z => e * k * r * sin (2 * PI * t)) (2 * PI) r t z
  (e * cos (2 * PI * t)) (- (2 * PI * e * r * sin (2 * PI * t))) 0 (e * k * sin (2 * PI * t)) (2 * PI * e * k * r * cos (2 * PI * t)) 0.
case; try by auto_derive=> //; ring.
move=> HE HU; split.
  by move: HE => [DF HD]; exists DF; apply: is_jacobian_ext HD => -[[a b] c].
move=> DF HD; rewrite (HU DF); last by apply: is_jacobian_ext HD => -[[a b] c].
have := sin2_cos2 (2 * PI * t); rewrite /Rsqr; move: (sin _) (cos _) => s c E.
by transitivity (4 * PI ^ 2 * e ^ 2 * k * r * (R0 + e * r * c) * (s * s + c * c)); [ring | rewrite E; ring].
Qed.
Theorem C35_polar_jacobian : forall r t z : R, jacobian_det polar_map (r, t, z) (2 * PI * r).
Proof.
move=> r t z; apply: jacdet_intro.
  apply: (@jacobian9 _ r t z (cos (2 * PI * t), 0, sin (2 * PI * t)) (- (2 * PI * r * sin (2 * PI * t)), 0, 2 * PI * r * cos (2 * PI * t)) (0, - 1, 0));
  by split; rewrite /=; auto_derive=> //; ring.
rewrite det33_R /=; have := sin2_cos2 (2 * PI * t); rewrite /Rsqr; move: (sin _) (cos _) => s c E.
by transitivity (2 * PI * r * (s * s + c * c)); [ring | rewrite E; ring].
Qed.
Theorem C35_cylinder_jacobian : forall a h r t z : R,
  jacobian_det (cylinder_map a h) (r, t, z) (2 * PI * a ^ 2 * h * r).
Proof.
move=> a h r t z; apply: jacdet_intro.
  apply: (@jacobian9 _ r t z (a * cos (2 * PI * t), a * sin (2 * PI * t), 0) (- (2 * PI * a * r * sin (2 * PI * t)), 2 * PI * a * r * cos (2 * PI * t), 0) (0, 0, h));
  by split; rewrite /=; auto_derive=> //; ring.
rewrite det33_R /=; have := sin2_cos2 (2 * PI * t); rewrite /Rsqr; move: (sin _) (cos _) => s c E.
by transitivity (2 * PI * a ^ 2 * h * r * (s * s + c * c)); [ring | rewrite E; ring].
Qed.
(** any differentiable radius function *)
Theorem C35_drumshape_jacobian : forall (a : R -> R) (r t z : R), ex_derive a t ->
  jacobian_det (drumshape_map a) (r, t, z) (2 * PI * a t ^ 2 * r).
Proof.
move=> a r t z [da Ha]; apply: jacdet_intro.
  apply: (@jacobian9 _ r t z (a t * cos (2 * PI * t), 0, a t * sin (2 * PI * t))
    (da * r * cos (2 * PI * t) - 2 * PI * a t * r * sin (2 * PI * t), 0, da * r * sin (2 * PI * t) + 2 * PI * a t * r * cos (2 * PI * t)) (0, - 1, 0));
  split; rewrite /=; (auto_derive; [by try (exists da) | by rewrite ?(is_derive_unique (fun x => a x) t da Ha); ring]).
rewrite det33_R /=; have := sin2_cos2 (2 * PI * t); rewrite /Rsqr; move: (sin _) (cos _) => s c E.
by transitivity (2 * PI * a t ^ 2 * r * (s * s + c * c)); [ring | rewrite E; ring].
Qed.
Theorem C35_drumshape_modified_jacobian : forall (a : R -> R) (R0 r t z : R), ex_derive a t ->
  jacobian_det (drumshape_map_modified a R0) (r, t, z) (4 * PI ^ 2 * a t ^ 2 * r * (R0 + a t * r * cos (2 * PI * t))).
Proof.
move=> a R0 r t z [da Ha].
have := @toroidal_jac (fun r t z => 1 * (R0 + a t * r * cos (2 * PI * t))) (fun r t z => 1 * a t * r * sin (2 * PI * t)) (2 * PI) r t z
  (a t * cos (2 * PI * t)) (da * r * cos (2 * PI * t) - 2 * PI * a t * r * sin (2 * PI * t)) 0
  (a t * sin (2 * PI * t)) (da * r * sin (2 * PI * t) + 2 * PI * a t * r * cos (2 * PI * t)) 0.
case; try by (auto_derive; [by try (exists da) | by rewrite ?(is_derive_unique (fun x => a x) t da Ha); ring]).
move=> HE HU; split.
  by move: HE => [DF HD]; exists DF; apply: is_jacobian_ext HD => -[[? b] c].
move=> DF HD; rewrite (HU DF); last by apply: is_jacobian_ext HD => -[[? b] c].
have := sin2_cos2 (2 * PI * t); rewrite /Rsqr; move: (sin _) (cos _) => s c E.
by transitivity (4 * PI ^ 2 * a t ^ 2 * r * (R0 + a t * r * c) * (s * s + c * c)); [ring | rewrite E; ring].
Qed.
(** the rotating ellipse: semi-axes 1 +- (1 - kappa) cos (2 pi zeta), and one of nfp field periods *)
Lemma rot_nu1 kappa nfp z : 0 < nfp -> rotating_nu kappa nfp (z / nfp) = 1 + (1 - kappa) * cos (2 * PI * z).
Proof. by move=> H; rewrite /rotating_nu; have -> : 2 * PI * (z / nfp) * nfp = 2 * PI * z by field; lra. Qed.
Lemma rot_nu2 kappa nfp z : 0 < nfp -> rotating_nu kappa nfp (z / nfp + 1 / 2 / nfp) = 1 - (1 - kappa) * cos (2 * PI * z).
Proof.
move=> H; rewrite /rotating_nu; have -> : 2 * PI * (z / nfp + 1 / 2 / nfp) * nfp = 2 * PI * z + PI by field; lra.
rewrite neg_cos; ring.
Qed.
Lemma rotating_E eps kappa nfp F r t z : rotating_ellipse_map eps kappa nfp = Some F ->
  F (r, t, z) = ((1 + eps * (1 + (1 - kappa) * cos (2 * PI * z)) * r * cos (2 * PI * t)) * cos (2 * PI / nfp * z),
     - (1 + eps * (1 + (1 - kappa) * cos (2 * PI * z)) * r * cos (2 * PI * t)) * sin (2 * PI / nfp * z),
     eps * r * (1 - (1 - kappa) * cos (2 * PI * z)) * sin (2 * PI * t)).
Proof.
rewrite /rotating_ellipse_map; case: Rle_dec => // Hn; case: Rle_dec => // He [<-].
rewrite /rotating_ellipse_F; case: Rlt_dec => [Hn'|]; last by lra.
rewrite rot_nu1 // rot_nu2 //; have -> : 2 * PI * (z / nfp) = 2 * PI / nfp * z by field; lra.
by [].
Qed.
Theorem C35_rotating_ellipse_raises : forall eps kappa nfp : R,
  rotating_ellipse_map eps kappa nfp = None <-> nfp <= 0 \/ eps <= 0.
Proof.
move=> eps kappa nfp; rewrite /rotating_ellipse_map.
case: Rle_dec => H; first by split; [left | done].
by case: Rle_dec => H'; split; [right | done | discriminate | case; lra].
Qed.
Theorem C35_rotating_ellipse_jacobian : forall (eps kappa nfp : R) F (r t z : R),
  rotating_ellipse_map eps kappa nfp = Some F ->
  jacobian_det F (r, t, z)
    (4 * PI ^ 2 / nfp * eps ^ 2 * (1 - (1 - kappa) ^ 2 * cos (2 * PI * z) ^ 2) * r
     * (1 + eps * (1 + (1 - kappa) * cos (2 * PI * z)) * r * cos (2 * PI * t))).
Proof.
move=> eps kappa nfp F r t z HF.
have [Hn He] : 0 < nfp /\ 0 < eps.
  by move: HF; rewrite /rotating_ellipse_map; case: Rle_dec => // ?; case: Rle_dec => // ? _; lra.
pose m z := 1 + (1 - kappa) * cos (2 * PI * z). pose m' z := 1 - (1 - kappa) * cos (2 * PI * z).
have := @toroidal_jac (fun r t z => 1 + eps * (1 + (1 - kappa) * cos (2 * PI * z)) * r * cos (2 * PI * t))
  (fun r t z => eps * r * (1 - (1 - kappa) * cos (2 * PI * z)) * sin (2 * PI * t)) (2 * PI / nfp) r t z
  (eps * m z * cos (2 * PI * t)) (- (2 * PI * eps * m z * r * sin (2 * PI * t))) (- (2 * PI * eps * (1 - kappa) * sin (2 * PI * z) * r * cos (2 * PI * t)))
  (eps * m' z * sin (2 * PI * t)) (2 * PI * eps * m' z * r * cos (2 * PI * t)) (2 * PI * eps * (1 - kappa) * sin (2 * PI * z) * r * sin (2 * PI * t)).
case; try by rewrite /m /m'; auto_derive=> //; ring.
move=> HE HU; split.
  by move: HE => [DF HD]; exists DF; apply: is_jacobian_ext HD => -[[? b] c]; rewrite (rotating_E _ _ _ HF).
move=> DF HD; rewrite (HU DF); last by apply: is_jacobian_ext HD => -[[? b] c]; rewrite (rotating_E _ _ _ HF).
rewrite /m /m'; have := sin2_cos2 (2 * PI * t); rewrite /Rsqr; move: (sin (2 * PI * t)) (cos (2 * PI * t)) (cos (2 * PI * z)) => s c y E.
transitivity (4 * PI ^ 2 / nfp * eps ^ 2 * (1 - (1 - kappa) ^ 2 * y ^ 2) * r * (1 + eps * (1 + (1 - kappa) * y) * r * c) * (s * s + c * c)).
  by field; lra.
by rewrite E; ring.
Qed.

(** cerfon_map in closed form: the arctan2 / sqrt detour cancels (epsilon enters by its absolute value) *)
Theorem C35_cerfon_closed_form : forall epsilon kappa alpha R0 r t z : R,
  let g := 2 * PI * t + alpha * sin (2 * PI * t) in
  cerfon_map epsilon kappa alpha R0 (r, t, z) =
    ((R0 + Rabs epsilon * r * cos g) * cos (2 * PI * z), - (R0 + Rabs epsilon * r * cos g) * sin (2 * PI * z),
     Rabs epsilon * kappa * r * sin (2 * PI * t)).
Proof.
move=> e k al R0 r t z g; rewrite /cerfon_map.
have [C S] := arctan2_polar (k * sin (2 * PI * t)) (cos g).
have Ea : cerfon_a_from_t e k al t = Rabs e * sqrt (cos g ^ 2 + (k * sin (2 * PI * t)) ^ 2).
  rewrite /cerfon_a_from_t /cerfon_x_t /cerfon_y_t -/g -sqrt_Rsqr_abs -sqrt_mult; last by nra.
    by congr sqrt; rewrite /Rsqr; ring.
  exact: Rle_0_sqr.
have [Ec Es] : cos (cerfon_s_from_t k al t) = cos (arctan2 (k * sin (2 * PI * t)) (cos g))
    /\ sin (cerfon_s_from_t k al t) = sin (arctan2 (k * sin (2 * PI * t)) (cos g)).
  rewrite /cerfon_s_from_t /cerfon__s_from_t -/g; case: Rlt_dec => // _.
  have -> : 2 * PI = 2 * PI * IZR 1 by ring.
  by rewrite cos_period_IZR sin_period_IZR Rmult_1_r.
have A : cerfon_a_from_t e k al t * r * cos (cerfon_s_from_t k al t) = Rabs e * r * cos g.
  rewrite Ec Ea -[in RHS]C; ring.
have B : cerfon_a_from_t e k al t * r * sin (cerfon_s_from_t k al t) = Rabs e * k * r * sin (2 * PI * t).
  rewrite Es Ea.
  have -> : Rabs e * k * r * sin (2 * PI * t) = Rabs e * r * (k * sin (2 * PI * t)) by ring.
  rewrite -[in RHS]S; ring.
by rewrite A B.
Qed.
Theorem C35_cerfon_jacobian : forall epsilon kappa alpha R0 r t z : R, 0 <= epsilon ->
  let s := 2 * PI * t in let g := s + alpha * sin s in
  jacobian_det (cerfon_map epsilon kappa alpha R0) (r, t, z)
    (4 * PI ^ 2 * epsilon ^ 2 * kappa * r * (R0 + epsilon * r * cos g)
     * (cos (alpha * sin s) + alpha * sin s * cos s * sin g)).
Proof.
move=> e k al R0 r t z He s g.
have := @toroidal_jac (fun r t z => R0 + e * r * cos (2 * PI * t + al * sin (2 * PI * t))) (fun r t z => e * k * r * sin (2 * PI * t)) (2 * PI) r t z
  (e * cos g) (- (e * r * (2 * PI * (1 + al * cos s)) * sin g)) 0 (e * k * sin s) (2 * PI * e * k * r * cos s) 0.
case; try by rewrite /g /s; auto_derive=> //; ring.
move=> HE HU.
have X y : (let '(r0, t0, z0) := y in
     ((R0 + e * r0 * cos (2 * PI * t0 + al * sin (2 * PI * t0))) * cos (2 * PI * z0),
      - (R0 + e * r0 * cos (2 * PI * t0 + al * sin (2 * PI * t0))) * sin (2 * PI * z0), e * k * r0 * sin (2 * PI * t0)))
   = cerfon_map e k al R0 y.
  by case: y => [[a b] c]; rewrite C35_cerfon_closed_form (Rabs_pos_eq _ He).
split.
  by move: HE => [DF HD]; exists DF; apply: is_jacobian_ext HD.
move=> DF HD; rewrite (HU DF); last by apply: is_jacobian_ext HD => y; rewrite X.
have E2 : al * sin s = g - s by rewrite /g; ring.
transitivity (4 * PI ^ 2 * e ^ 2 * k * r * (R0 + e * r * cos g) * (cos g * cos s + sin g * sin s + al * sin s * cos s * sin g)); last first.
  by rewrite -cos_minus E2.
rewrite -/s -/g; move: (sin g) (cos g) (sin s) (cos s) => sg cg ss cs; ring.
Qed.

(** ** C35 orientation: the determinant is positive off the polar axis under these parameter conditions *)
Theorem C35_orientation : forall r t z : R, 0 < r <= 1 ->
  [/\ exists d, jacobian_det polar_map (r, t, z) d /\ 0 < d,
      forall a h, a <> 0 -> 0 < h -> exists d, jacobian_det (cylinder_map a h) (r, t, z) d /\ 0 < d,
      forall epsilon kappa R0, 0 < epsilon < R0 -> 0 < kappa ->
        exists d, jacobian_det (toroid_map epsilon kappa R0) (r, t, z) d /\ 0 < d
    & [/\ forall a, ex_derive a t -> a t <> 0 -> exists d, jacobian_det (drumshape_map a) (r, t, z) d /\ 0 < d,
          forall a R0, ex_derive a t -> 0 < Rabs (a t) < R0 ->
            exists d, jacobian_det (drumshape_map_modified a R0) (r, t, z) d /\ 0 < d,
          forall eps kappa nfp F, rotating_ellipse_map eps kappa nfp = Some F ->
            Rabs (1 - kappa) < 1 -> eps * (1 + Rabs (1 - kappa)) < 1 -> exists d, jacobian_det F (r, t, z) d /\ 0 < d
        & forall epsilon kappa alpha R0, 0 < epsilon < R0 -> 0 < kappa -> Rabs alpha < PI / 2 ->
            exists d, jacobian_det (cerfon_map epsilon kappa alpha R0) (r, t, z) d /\ 0 < d]].
Proof.
move=> r t z Hr; have HP := PI_RGT_0.
have Hb a : - 1 <= cos a <= 1 by apply: COS_bound.
have HR R0 e a : Rabs e < R0 -> 0 < R0 + e * r * cos a.
  move=> He; have : Rabs (e * r * cos a) <= Rabs e.
    rewrite !Rabs_mult (Rabs_pos_eq r); last by lra.
    have : 0 <= Rabs (cos a) <= 1 by split; [exact: Rabs_pos | apply/Rabs_le; move: (Hb a); lra].
    have : 0 <= Rabs e by apply: Rabs_pos.
    move: (Rabs e) (Rabs (cos a)) => u v Hu Hv.
    have H1 : 0 <= u * r <= u by nra.
    by nra.
  move=> /Rabs_le_between; lra.
have sq x : x <> 0 -> 0 < x ^ 2 by move=> Hx; rewrite /= Rmult_1_r; exact: (Rsqr_pos_lt x Hx).
have HP2 := sq _ (Rgt_not_eq _ _ HP).
split.
- by exists (2 * PI * r); split; [exact: C35_polar_jacobian | nra].
- move=> a h Ha Hh; eexists; split; first exact: C35_cylinder_jacobian.
  by have H2 := sq _ Ha; pos.
- move=> e k R0 He Hk; eexists; split; first exact: C35_toroid_jacobian.
  have H2 : 0 < e ^ 2 by apply: sq; lra.
  have H3 := HR R0 e (2 * PI * t); rewrite Rabs_pos_eq in H3; last by lra.
  by have H4 := H3 (proj2 He); pos.
split.
- move=> a Hd Ha; eexists; split; first exact: C35_drumshape_jacobian.
  by have H2 := sq _ Ha; pos.
- move=> a R0 Hd Ha; eexists; split; first exact: C35_drumshape_modified_jacobian.
  have H2 : 0 < a t ^ 2 by apply: sq => E; move: Ha; rewrite E Rabs_R0; lra.
  have H3 := HR R0 (a t) (2 * PI * t).
  by have H4 := H3 (proj2 Ha); pos.
- move=> eps kappa nfp F HF Hk He.
  have [Hn He'] : 0 < nfp /\ 0 < eps.
    by move: HF; rewrite /rotating_ellipse_map; case: Rle_dec => // ?; case: Rle_dec => // ? _; lra.
  eexists; split; first exact: (C35_rotating_ellipse_jacobian _ _ _ HF).
  have Hc : Rabs ((1 - kappa) * cos (2 * PI * z)) <= Rabs (1 - kappa).
    rewrite Rabs_mult; have : 0 <= Rabs (cos (2 * PI * z)) <= 1 by split; [exact: Rabs_pos | apply/Rabs_le; move: (Hb (2 * PI * z)); lra].
    have : 0 <= Rabs (1 - kappa) by apply: Rabs_pos.
    by nra.
  have Hm : 0 < 1 - (1 - kappa) ^ 2 * cos (2 * PI * z) ^ 2.
    move: Hc; have -> : (1 - kappa) ^ 2 * cos (2 * PI * z) ^ 2 = ((1 - kappa) * cos (2 * PI * z)) ^ 2 by ring.
    move: ((1 - kappa) * _) => u Hu; have : Rabs u < 1 by lra.
    move=> /Rabs_lt_between; nra.
  have H3 := HR 1 (eps * (1 + (1 - kappa) * cos (2 * PI * z))) (2 * PI * t).
  have H4 : Rabs (eps * (1 + (1 - kappa) * cos (2 * PI * z))) < 1.
    rewrite Rabs_mult (Rabs_pos_eq eps); last by lra.
    have := Rabs_triang 1 ((1 - kappa) * cos (2 * PI * z)); rewrite Rabs_R1; nra.
  have Hi : 0 < / nfp by apply: Rinv_0_lt_compat.
  have H5 := sq _ (Rgt_not_eq _ _ He').
  by have H6 := H3 H4; rewrite /Rdiv; pos.
- move=> e k al R0 He Hk Hal; eexists; split; first by apply: C35_cerfon_jacobian; lra.
  have H2 : 0 < e ^ 2 by apply: sq; lra.
  have H3 := HR R0 e (2 * PI * t + al * sin (2 * PI * t)); rewrite Rabs_pos_eq in H3; last by lra.
  apply: Rmult_lt_0_compat; first by have H4 := H3 (proj2 He); pos.
  set s := 2 * PI * t; set u := al * sin s.
  have Hs : Rabs (sin s) <= 1 by apply/Rabs_le; have := SIN_bound s; lra.
  have Hu : Rabs u < PI / 2.
    rewrite /u Rabs_mult; have := Rabs_pos al; have := Rabs_pos (sin s); nra.
  have Hu' : - (PI / 2) < u < PI / 2 by apply/Rabs_lt_between.
  have Cu : 0 < cos u by apply: cos_gt_0; lra.
  have Su : 0 <= u * sin u.
    case: (Rle_lt_dec 0 u) => H0.
      by apply: Rmult_le_pos => //; apply: sin_ge_0; lra.
    have : 0 <= (- u) * sin (- u) by apply: Rmult_le_pos; [lra | apply: sin_ge_0; lra].
    rewrite sin_neg; lra.
  rewrite sin_plus -/u.
  have -> : cos u + u * cos s * (sin s * cos u + cos s * sin u)
    = cos u * (1 + u * sin s * cos s) + (u * sin u) * (cos s * cos s) by ring.
  have Hq : 0 < 1 + u * sin s * cos s.
    have -> : u * sin s * cos s = al * (sin s * sin s * cos s) by rewrite /u; ring.
    have Hsc : Rabs (sin s * sin s * cos s) <= 4 / 10.
      have E := sin2_cos2 s; rewrite /Rsqr in E; have := Hb s => Hbs.
      have -> : sin s * sin s = 1 - cos s * cos s by lra.
      move: (cos s) Hbs => c Hbs; apply/Rabs_le.
      have H1 : 0 <= (c - 577 / 1000) * (c - 577 / 1000) * (c + 1154 / 1000) by apply: Rmult_le_pos; [exact: Rle_0_sqr | lra].
      have H0 : 0 <= (c + 577 / 1000) * (c + 577 / 1000) * (1154 / 1000 - c) by apply: Rmult_le_pos; [exact: Rle_0_sqr | lra].
      by split; nra.
    have HPb := PI_bounds.
    have : Rabs (al * (sin s * sin s * cos s)) < 1.
      rewrite Rabs_mult; have := Rabs_pos al; have := Rabs_pos (sin s * sin s * cos s); nra.
    by move=> /Rabs_lt_between; lra.
  have : 0 <= (u * sin u) * (cos s * cos s) by apply: Rmult_le_pos => //; nra.
  have : 0 < cos u * (1 + u * sin s * cos s) by apply: Rmult_lt_0_compat.
  lra.
Qed.
Print Assumptions C35_orientation.

(** ** C35 periodicity and the polar axis *)
Lemma cos1 a : cos (2 * PI * (a + 1)) = cos (2 * PI * a).
Proof. by rewrite -(cos_period_IZR (2 * PI * a) 1); congr cos; ring. Qed.
Lemma sin1 a : sin (2 * PI * (a + 1)) = sin (2 * PI * a).
Proof. by rewrite -(sin_period_IZR (2 * PI * a) 1); congr sin; ring. Qed.
Theorem C35_periodicity :
  [/\ periodic_theta polar_map /\ polar_axis polar_map,
      forall a h, periodic_theta (cylinder_map a h) /\ polar_axis (cylinder_map a h),
      forall epsilon kappa R0, let F := toroid_map epsilon kappa R0 in periodic_theta F /\ periodic_zeta F /\ polar_axis F
    & [/\ forall epsilon kappa alpha R0, let F := cerfon_map epsilon kappa alpha R0 in periodic_theta F /\ periodic_zeta F /\ polar_axis F,
          forall a, (forall t, a (t + 1) = a t) -> periodic_theta (drumshape_map a) /\ polar_axis (drumshape_map a),
          forall a R0, (forall t, a (t + 1) = a t) ->
            let F := drumshape_map_modified a R0 in periodic_theta F /\ periodic_zeta F /\ polar_axis F
        & forall eps kappa nfp F, rotating_ellipse_map eps kappa nfp = Some F ->
            [/\ periodic_theta F, polar_axis F & forall r t z, F (r, t, z + 1) = rotz (2 * PI / nfp) (F (r, t, z))]]].
Proof.
split; first by split; [move=> r t z | move=> t t' z]; rewrite /polar_map ?cos1 ?sin1 ?Rmult_0_l.
- by move=> a h; split; [move=> r t z | move=> t t' z]; rewrite /cylinder_map ?cos1 ?sin1 ?Rmult_0_r ?Rmult_0_l.
- by move=> e k R0 F; split; [|split]; [move=> r t z | move=> r t z | move=> t t' z]; rewrite /F /toroid_map ?cos1 ?sin1 ?Rmult_0_r ?Rmult_0_l.
split.
- move=> e k al R0 F; split; [|split]; [move=> r t z | move=> r t z | move=> t t' z]; rewrite /F !C35_cerfon_closed_form /= ?cos1 ?sin1 ?Rmult_0_r ?Rmult_0_l //.
  have -> : 2 * PI * (t + 1) + al * sin (2 * PI * t) = 2 * PI * t + al * sin (2 * PI * t) + 2 * PI * IZR 1 by ring.
  by rewrite cos_period_IZR.
- by move=> a Ha; split; [move=> r t z | move=> t t' z]; rewrite /drumshape_map ?Ha ?cos1 ?sin1 ?Rmult_0_r ?Rmult_0_l.
- by move=> a R0 Ha F; split; [|split]; [move=> r t z | move=> r t z | move=> t t' z]; rewrite /F /drumshape_map_modified ?Ha ?cos1 ?sin1 ?Rmult_0_r ?Rmult_0_l.
- move=> eps kappa nfp F HF; split.
  + by move=> r t z; rewrite !(rotating_E _ _ _ HF) cos1 sin1.
  + by move=> t t' z; rewrite !(rotating_E _ _ _ HF) !Rmult_0_r !Rmult_0_l.
  + move=> r t z; rewrite !(rotating_E _ _ _ HF) /rotz cos1.
    have -> : 2 * PI / nfp * (z + 1) = 2 * PI / nfp * z + 2 * PI / nfp by ring.
    rewrite cos_plus sin_plus; congr (_, _, _); ring.
Qed.
(** nfp field periods of the rotating ellipse close up *)
Theorem C35_rotating_ellipse_closes : forall (eps kappa : R) (nfp : nat) F (r t z : R),
  rotating_ellipse_map eps kappa (INR nfp) = Some F -> F (r, t, z + INR nfp) = F (r, t, z).
Proof.
move=> eps kappa nfp F r t z HF.
have Hn : 0 < INR nfp by move: HF; rewrite /rotating_ellipse_map; case: Rle_dec => // ?; lra.
rewrite !(rotating_E _ _ _ HF).
have -> : 2 * PI * (z + INR nfp) = 2 * PI * z + 2 * INR nfp * PI by ring.
rewrite cos_period; have -> : 2 * PI / INR nfp * (z + INR nfp) = 2 * PI / INR nfp * z + 2 * PI * IZR 1 by field; lra.
by rewrite cos_period_IZR sin_period_IZR.
Qed.
(** coincidences between the factories *)
Theorem C35_coincidences :
  [/\ forall epsilon kappa R0 x, 0 <= epsilon -> cerfon_map epsilon kappa 0 R0 x = toroid_map epsilon kappa R0 x,
      forall epsilon R0 x, drumshape_map_modified (fun _ => epsilon) R0 x = toroid_map epsilon 1 R0 x
    & forall x, drumshape_map (fun _ => 1) x = polar_map x].
Proof.
split.
- move=> e k R0 [[r t] z] He; rewrite C35_cerfon_closed_form /toroid_map (Rabs_pos_eq _ He).
  by rewrite Rmult_0_l Rplus_0_r.
- move=> e R0 [[r t] z]; rewrite /drumshape_map_modified /toroid_map; congr (_, _, _); ring.
- move=> [[r t] z]; rewrite /drumshape_map /polar_map; congr (_, _, _); ring.
Qed.

(** ** C35 the helical map *)
Section Helical.
Variables h kappa alpha nfp : R.
Let X := helical_X h kappa alpha nfp.
Let A := kappa * h.
Let w := 2 * PI * nfp.
Let psi z := w * z + alpha.
Let rho z := 1 + A * cos (psi z).
Let dX z : point := (- A * w * sin (psi z) * sin (2 * PI * z) + 2 * PI * rho z * cos (2 * PI * z),
   - A * w * sin (psi z) * cos (2 * PI * z) - 2 * PI * rho z * sin (2 * PI * z), A * w * cos (psi z)).
Let ddX z : point :=
  (- (A * w ^ 2 * cos (psi z) + 4 * PI ^ 2 * rho z) * sin (2 * PI * z) - 4 * PI * A * w * sin (psi z) * cos (2 * PI * z),
   - (A * w ^ 2 * cos (psi z) + 4 * PI ^ 2 * rho z) * cos (2 * PI * z) + 4 * PI * A * w * sin (psi z) * sin (2 * PI * z),
   - (A * w ^ 2 * sin (psi z))).
Lemma hel_dX z : [/\ is_derive (fun t => comp3 0 (X t)) z (comp3 0 (dX z)),
  is_derive (fun t => comp3 1 (X t)) z (comp3 1 (dX z)) & is_derive (fun t => comp3 2 (X t)) z (comp3 2 (dX z))].
Proof. by split; rewrite /X /dX /rho /psi /A /w /helical_X /helical_rho /=; auto_derive=> //; ring. Qed.
Lemma hel_ddX z : [/\ is_derive (fun t => comp3 0 (dX t)) z (comp3 0 (ddX z)),
  is_derive (fun t => comp3 1 (dX t)) z (comp3 1 (ddX z)) & is_derive (fun t => comp3 2 (dX t)) z (comp3 2 (ddX z))].
Proof. by split; rewrite /ddX /dX /rho /psi /=; auto_derive=> //; ring. Qed.
Lemma hel_derive z : derive3 X z = dX z.
Proof. by have [H1 H2 H3] := hel_dX z; rewrite /derive3 (is_derive_unique _ _ _ H1) (is_derive_unique _ _ _ H2) (is_derive_unique _ _ _ H3); case: (dX z) => [[? ?] ?]. Qed.
Lemma hel_derive2 z : derive3 (derive3 X) z = ddX z.
Proof.
have [H1 H2 H3] := hel_ddX z; rewrite {1}/derive3.
rewrite (Derive_ext _ (fun t => comp3 0 (dX t))); last by move=> t; rewrite hel_derive.
rewrite (Derive_ext (fun t => comp3 1 _) (fun t => comp3 1 (dX t))); last by move=> t; rewrite hel_derive.
rewrite (Derive_ext (fun t => comp3 2 _) (fun t => comp3 2 (dX t))); last by move=> t; rewrite hel_derive.
by rewrite (is_derive_unique _ _ _ H1) (is_derive_unique _ _ _ H2) (is_derive_unique _ _ _ H3); case: (ddX z) => [[? ?] ?].
Qed.
Lemma hel_dot z : dot (dX z) (ddX z) = - (4 * PI ^ 2 * rho z * (A * w * sin (psi z))).
Proof.
rewrite /dot /dX /ddX; have := sin2_cos2 (2 * PI * z); rewrite /Rsqr; move: (rho z) (sin (2 * PI * z)) (cos (2 * PI * z)) => rh s c E.
move: (cos (psi z)) (sin (psi z)) => C S.
transitivity ((A * w * S * (A * w ^ 2 * C + 4 * PI ^ 2 * rh) - 8 * PI ^ 2 * rh * A * w * S) * (s * s + c * c) - A ^ 2 * w ^ 3 * C * S); first by ring.
rewrite E; ring.
Qed.
End Helical.

Lemma norm3_pos v : dot v v <> 0 -> 0 < norm3 v.
Proof.
case: v => [[a b] c]; rewrite /dot /norm3 => H; apply: sqrt_lt_R0.
have : a * a + b * b + c * c = a ^ 2 + b ^ 2 + c ^ 2 by ring.
have := Rle_0_sqr a; have := Rle_0_sqr b; have := Rle_0_sqr c; rewrite /Rsqr; lra.
Qed.
Lemma norm3_sq v : norm3 v * norm3 v = dot v v.
Proof. case: v => [[a b] c]; rewrite /dot /norm3 sqrt_sqrt; [ring|]. have := pow2_ge_0 a; have := pow2_ge_0 b; have := pow2_ge_0 c; lra. Qed.
Lemma normalize3_unit v : dot v v <> 0 -> dot (normalize3 v) (normalize3 v) = 1.
Proof.
move=> H; have Hp := norm3_pos H; have E := norm3_sq v; move: Hp E; case: v H => [[a b] c] H Hp E.
rewrite /normalize3 /dot; move: (norm3 _) Hp E => N Hp E; rewrite /dot in E.
transitivity ((a * a + b * b + c * c) / (N * N)); first by field; lra.
rewrite E; field; rewrite -E; nra.
Qed.
Lemma norm3_1 v : dot v v = 1 -> norm3 v = 1.
Proof.
move=> H; have E := norm3_sq v; rewrite H in E.
have Hp : 0 < norm3 v by apply: norm3_pos; rewrite H; exact: R1_neq_R0.
nra.
Qed.
Lemma normalize3_idem v : dot v v <> 0 -> normalize3 (normalize3 v) = normalize3 v.
Proof.
move=> /normalize3_unit /norm3_1; move: (normalize3 v) => u Hu; case: u Hu => [[a b] c] Hu.
rewrite /normalize3 Hu; congr (_, _, _); field.
Qed.
Lemma dot0 v : dot v v = 0 -> v = (0, 0, 0).
Proof. case: v => [[a b] c]; rewrite /dot => H; congr (_, _, _); nra. Qed.

(** what holds: where the second derivative of the axis does not vanish, the frame is
    unit, unit, orthogonal to both, and the map stays within distance epsilon r of the axis X(zeta) *)
Theorem C35_helical_tube : forall epsilon h kappa alpha nfp r t z : R,
  let X := helical_X h kappa alpha nfp in
  derive3 X z <> (0, 0, 0) -> derive3 (derive3 X) z <> (0, 0, 0) ->
  let: (tau, nu1, nu2) := helical_frame h kappa alpha nfp z in
  [/\ dot tau tau = 1, dot nu1 nu1 = 1, dot nu2 tau = 0 /\ dot nu2 nu1 = 0
    & norm3 (add3 (helical_map epsilon h kappa alpha nfp (r, t, z)) (scale3 (- 1) (X z))) <= Rabs (epsilon * r)].
Proof.
move=> e h k al n r t z X H1 H2.
rewrite /helical_map /helical_frame -/X.
have D1 : dot (derive3 X z) (derive3 X z) <> 0 by move=> /dot0.
have D2 : dot (derive3 (derive3 X) z) (derive3 (derive3 X) z) <> 0 by move=> /dot0.
rewrite normalize3_idem //.
have T1 := normalize3_unit D1; have N1 := normalize3_unit D2.
move: (normalize3 (derive3 X z)) (normalize3 (derive3 (derive3 X) z)) T1 N1 => [[a b] c] [[u v] w] T1 N1.
rewrite /dot /= in T1, N1 *.
split=> //; first by split; ring.
move: (X z) => [[x0 x1] x2]; rewrite /add3 /scale3 /norm3 -sqrt_Rsqr_abs; apply: sqrt_le_1_alt; rewrite /Rsqr.
have := sin2_cos2 (2 * PI * t); rewrite /Rsqr; move: (sin _) (cos _) => s co E.
have Hn : (b * w - c * v) * (b * w - c * v) + (c * u - a * w) * (c * u - a * w) + (a * v - b * u) * (a * v - b * u)
   = 1 - (a * u + b * v + c * w) * (a * u + b * v + c * w).
  transitivity ((a * a + b * b + c * c) * (u * u + v * v + w * w) - (a * u + b * v + c * w) * (a * u + b * v + c * w)); first by ring.
  by rewrite T1 N1; ring.
have := Rle_0_sqr (e * r * s * (a * u + b * v + c * w)); rewrite /Rsqr => Hsq.
have -> : e * r * (e * r) = (e * r * co) * (e * r * co) * (u * u + v * v + w * w) + (e * r * s) * (e * r * s) by rewrite N1; transitivity (e * r * (e * r) * (s * s + co * co)); [rewrite E; ring | ring].
move: Hn Hsq; set d := a * u + b * v + c * w => Hn Hsq.
have -> : (e * r * s) * (e * r * s) = (e * r * s) * (e * r * s) * ((b * w - c * v) * (b * w - c * v) + (c * u - a * w) * (c * u - a * w) + (a * v - b * u) * (a * v - b * u)) + e * r * s * d * (e * r * s * d) by rewrite Hn; ring.
apply: (Rle_trans _ ((e * r * co) * (e * r * co) * (u * u + v * v + w * w) + (e * r * s) * (e * r * s) * ((b * w - c * v) * (b * w - c * v) + (c * u - a * w) * (c * u - a * w) + (a * v - b * u) * (a * v - b * u)))); last by lra.
right; ring.
Qed.
(** refuted: "Get the Frenet frame of the helix ... First normal vector".  nu1 is the normalised
    second derivative, not the derivative of the tangent, and it is not normal to the tangent
    (nor nu2 a unit vector) wherever sin(2 pi nfp zeta + alpha) does not vanish. *)
Theorem C35_helical_frame_refuted : forall h kappa alpha nfp z : R,
  kappa * h * nfp <> 0 -> 1 + kappa * h * cos (2 * PI * nfp * z + alpha) <> 0 -> sin (2 * PI * nfp * z + alpha) <> 0 ->
  let: (tau, nu1, nu2) := helical_frame h kappa alpha nfp z in
  dot tau nu1 <> 0 /\ dot nu2 nu2 < 1.
Proof.
move=> h k al n z Ha Hr Hs; rewrite /helical_frame; set X := helical_X h k al n.
have HP := PI_RGT_0.
have Hd : dot (derive3 X z) (derive3 (derive3 X) z) <> 0.
  rewrite hel_derive hel_derive2 hel_dot; apply: Ropp_neq_0_compat.
  have Hpi : PI <> 0 by lra.
  repeat (apply: Rmult_integral_contrapositive_currified) => //; try lra; by move=> H; apply: Ha; rewrite H; ring.
have H1 : dot (derive3 X z) (derive3 X z) <> 0.
  by move=> /dot0 E; apply: Hd; rewrite E; case: (derive3 _ z) => [[a b] c]; rewrite /dot; ring.
have H2 : dot (derive3 (derive3 X) z) (derive3 (derive3 X) z) <> 0.
  by move=> /dot0 E; apply: Hd; rewrite E; case: (derive3 X z) => [[a b] c]; rewrite /dot; ring.
rewrite normalize3_idem //.
have T1 := normalize3_unit H1; have N1 := normalize3_unit H2.
have Hd' : dot (normalize3 (derive3 X z)) (normalize3 (derive3 (derive3 X) z)) <> 0.
  have P1 := norm3_pos H1; have P2 := norm3_pos H2.
  move: Hd P1 P2; case: (derive3 X z) => [[a b] c]; case: (derive3 (derive3 X) z) => [[u v] w].
  rewrite /normalize3; move: (norm3 (a, b, c)) (norm3 (u, v, w)) => N M; rewrite /dot => Hd P1 P2 E; apply: Hd.
  transitivity (N * M * (a / N * (u / M) + b / N * (v / M) + c / N * (w / M))); first by field; lra.
  by rewrite E; ring.
split=> //.
move: (normalize3 (derive3 X z)) (normalize3 (derive3 (derive3 X) z)) T1 N1 Hd' => [[a b] c] [[u v] w].
rewrite /dot /= => T1 N1 Hd'.
have -> : (b * w - c * v) * (b * w - c * v) + (c * u - a * w) * (c * u - a * w) + (a * v - b * u) * (a * v - b * u)
   = 1 - (a * u + b * v + c * w) * (a * u + b * v + c * w).
  transitivity ((a * a + b * b + c * c) * (u * u + v * v + w * w) - (a * u + b * v + c * w) * (a * u + b * v + c * w)); first by ring.
  by rewrite T1 N1; ring.
have := Rsqr_pos_lt _ Hd'; rewrite /Rsqr; lra.
Qed.
(** and it is undefined (0/0) at the inflection points that occur for kappa h = 1/(1 + nfp^2) *)
Theorem C35_helical_inflection : forall h kappa nfp : R, nfp <> 0 -> kappa * h = / (1 + nfp ^ 2) ->
  derive3 (derive3 (helical_X h kappa 0 nfp)) (1 / (2 * nfp)) = (0, 0, 0).
Proof.
move=> h k n Hn Hk; rewrite hel_derive2.
have -> : 2 * PI * n * (1 / (2 * n)) + 0 = PI by field.
rewrite sin_PI cos_PI Hk.
have Hp : 0 < 1 + n ^ 2 by have := pow2_ge_0 n; lra.
by congr (_, _, _); field; lra.
Qed.
(** periodicity (integer nfp), and the axis *)
Theorem C35_helical_periodicity : forall epsilon h kappa alpha : R, forall nfp : Z,
  let F := helical_map epsilon h kappa alpha (IZR nfp) in
  [/\ periodic_theta F, periodic_zeta F & forall t z,
     F (0, t, z) = helical_X h kappa alpha (IZR nfp) z].
Proof.
move=> e h k al n F.
have E z : helical_frame h k al (IZR n) (z + 1) = helical_frame h k al (IZR n) z /\ helical_X h k al (IZR n) (z + 1) = helical_X h k al (IZR n) z.
  have Ep : 2 * PI * IZR n * (z + 1) + al = 2 * PI * IZR n * z + al + 2 * PI * IZR n by ring.
  rewrite /helical_frame !hel_derive !hel_derive2 /helical_X /helical_rho.
  by rewrite Ep !cos_period_IZR !sin_period_IZR cos1 sin1.
split.
- by move=> r t z; rewrite /F /helical_map cos1 sin1.
- by move=> r t z; rewrite /F /helical_map; have [-> ->] := E z.
- move=> t z; rewrite /F /helical_map; case: (helical_frame _ _ _ _ _) => [[tau [[a b] c]] [[u v] w]].
  case: (helical_X _ _ _ _ _) => [[x y] z']; rewrite /add3 /scale3; congr (_, _, _); ring.
Qed.

(** ** C36 approx_inverse_map inverts the circular torus *)
Theorem C36_left_inverse : forall eps R0 r t z : R, 0 < eps -> 0 < r -> eps * r < R0 ->
  approx_inverse_map eps R0 (toroid_map eps 1 R0 (r, t, z)) = (r, mod1 t, mod1 z).
Proof.
move=> eps R0 r t z He Hr HR; rewrite /toroid_map /approx_inverse_map.
set Rr := R0 + eps * r * cos (2 * PI * t).
have Hp : 0 < Rr.
  have := COS_bound (2 * PI * t); have : 0 < eps * r by apply: Rmult_lt_0_compat.
  rewrite /Rr; move: (cos _) (eps * r) HR => c er HR ? ?; nra.
have E1 : (Rr * cos (2 * PI * z)) ^ 2 + (- Rr * sin (2 * PI * z)) ^ 2 = Rr * Rr.
  have := sin2_cos2 (2 * PI * z); rewrite /Rsqr; move: (sin _) (cos _) => s c E.
  by transitivity (Rr * Rr * (s * s + c * c)); [ring | rewrite E; ring].
have E2 : ((Rr - R0) / eps) ^ 2 + (eps * 1 * r * sin (2 * PI * t) / eps) ^ 2 = r * r.
  rewrite /Rr; have := sin2_cos2 (2 * PI * t); rewrite /Rsqr; move: (sin _) (cos _) => s c E.
  transitivity (r * r * (s * s + c * c)); last by rewrite E; ring.
  by field; lra.
rewrite E1 (sqrt_square Rr); last by lra.
rewrite E2 (sqrt_square r); last by lra.
congr (_, _, _).
- have -> : eps * 1 * r * sin (2 * PI * t) / (eps * r) = 1 * sin (2 * PI * t) by field; lra.
  have -> : (Rr - R0) / (eps * r) = 1 * cos (2 * PI * t) by rewrite /Rr; field; lra.
  by apply: arctan2_mod1; lra.
- have -> : - (- Rr * sin (2 * PI * z)) = Rr * sin (2 * PI * z) by ring.
  exact: arctan2_mod1.
Qed.
(** and is a right inverse: every physical point off the axis circle is reached *)
Theorem C36_right_inverse : forall (eps R0 X Y Z : R), 0 < eps -> (sqrt (X ^ 2 + Y ^ 2) <> R0 \/ Z <> 0) ->
  toroid_map eps 1 R0 (approx_inverse_map eps R0 (X, Y, Z)) = (X, Y, Z) /\
  let: (r, t, z) := approx_inverse_map eps R0 (X, Y, Z) in [/\ 0 < r, 0 <= t < 1 & 0 <= z < 1].
Proof.
move=> eps R0 X Y Z He Hax; rewrite /approx_inverse_map.
have HP := PI_RGT_0.
set Rr := sqrt (X ^ 2 + Y ^ 2) in Hax *.
set r := sqrt _.
have Hr : 0 < r.
  apply: sqrt_lt_R0.
  have H1 := pow2_ge_0 ((Rr - R0) / eps); have H2 := pow2_ge_0 (Z / eps).
  have Hi : / eps <> 0 by apply: Rinv_neq_0_compat; lra.
  have sq x : x <> 0 -> 0 < x ^ 2 by move=> Hx; rewrite /= Rmult_1_r; exact: (Rsqr_pos_lt x Hx).
  case: Hax => Hx.
    have : 0 < ((Rr - R0) / eps) ^ 2 by apply: sq; apply: Rmult_integral_contrapositive_currified => //; lra.
    lra.
  have : 0 < (Z / eps) ^ 2 by apply: sq; apply: Rmult_integral_contrapositive_currified.
  lra.
have per a : cos (2 * PI * mod1 (a / (2 * PI))) = cos a /\ sin (2 * PI * mod1 (a / (2 * PI))) = sin a.
  rewrite /mod1; have -> : 2 * PI * (a / (2 * PI) - IZR (Int_part (a / (2 * PI)))) = a + 2 * PI * IZR (- Int_part (a / (2 * PI))).
    by rewrite opp_IZR; field; lra.
  by rewrite cos_period_IZR sin_period_IZR.
split; last by split=> //; exact: mod1_range.
rewrite /toroid_map.
have [-> ->] := per (arctan2 (- Y) X); have [-> ->] := per (arctan2 (Z / (eps * r)) ((Rr - R0) / (eps * r))).
have [C1 S1] := arctan2_polar (- Y) X; have [C2 S2] := arctan2_polar (Z / (eps * r)) ((Rr - R0) / (eps * r)).
have ER : sqrt (X ^ 2 + (- Y) ^ 2) = Rr by rewrite /Rr; congr sqrt; ring.
have Er : sqrt (((Rr - R0) / (eps * r)) ^ 2 + (Z / (eps * r)) ^ 2) = 1.
  have Hrr : ((Rr - R0) / eps) ^ 2 + (Z / eps) ^ 2 = r * r.
    rewrite /r sqrt_sqrt //; have H1 := pow2_ge_0 ((Rr - R0) / eps); have H2 := pow2_ge_0 (Z / eps); lra.
  rewrite -sqrt_1; congr sqrt.
  transitivity ((((Rr - R0) / eps) ^ 2 + (Z / eps) ^ 2) / (r * r)); first by field; lra.
  by rewrite Hrr; field; lra.
rewrite ER in C1 S1; rewrite Er !Rmult_1_l in C2 S2.
rewrite C2 S2.
have -> : R0 + eps * r * ((Rr - R0) / (eps * r)) = Rr by field; lra.
congr (_, _, _).
- exact: C1.
- by transitivity (- (Rr * sin (arctan2 (- Y) X))); [ring | rewrite S1; ring].
- by field; lra.
Qed.
(** so the torus map is injective up to the periods, for every elongation *)
Theorem C36_toroid_injective : forall (epsilon kappa R0 r t z r' t' z' : R),
  0 < epsilon -> kappa <> 0 -> 0 < r -> 0 < r' -> epsilon * r < R0 -> epsilon * r' < R0 ->
  toroid_map epsilon kappa R0 (r, t, z) = toroid_map epsilon kappa R0 (r', t', z') ->
  same_logical (r, t, z) (r', t', z').
Proof.
move=> e k R0 r t z r' t' z' He Hk Hr Hr' H1 H2 E.
have E1 : toroid_map e 1 R0 (r, t, z) = toroid_map e 1 R0 (r', t', z').
  move: E; rewrite /toroid_map => -[-> -> E3]; congr (_, _, _).
  apply: (Rmult_eq_reg_r k) => //; rewrite (_ : e * 1 * r * sin (2 * PI * t) * k = e * k * r * sin (2 * PI * t)); last by ring.
  by rewrite E3; ring.
have := C36_left_inverse t z He Hr H1; rewrite E1 C36_left_inverse // => -[-> Et Ez].
by split=> //; split; apply: mod1_eq.
Qed.
Print Assumptions C36_toroid_injective.

(** ** C37 the GVEC map: interpolate_map_from_GVEC collocates the data given at toroidal angle
    zeta at logical coordinate nfp zeta / (2 pi), but the map turns that point only by zeta / 2 *)
Theorem C37_gvec_map_turns_half : forall (X1 X2 : point -> R) (nfp rho theta zeta : R), nfp <> 0 ->
  let x := gvec_logical_point nfp (rho, theta, zeta) in
  gvec_stellarator_map X1 X2 nfp x = rotz (zeta / 2) (X1 x, 0, X2 x).
Proof.
move=> X1 X2 nfp rho th ze Hn x; rewrite /gvec_stellarator_map /x /gvec_logical_point /rotz.
have HP := PI_RGT_0.
have -> : PI / nfp * (ze / (2 * PI) * nfp) = ze / 2 by field; lra.
congr (_, _, _); ring.
Qed.
(** consecutive field periods do not join: the image at zeta = 1 is not the image at zeta = 0
    turned by 2 pi / nfp, and nfp periods cover half a torus *)
Theorem C37_gvec_field_period_refuted : forall (X1 X2 : point -> R) (nfp : nat) (r t : R), (1 <= nfp)%N ->
  (forall r t z, X1 (r, t, z + 1) = X1 (r, t, z) /\ X2 (r, t, z + 1) = X2 (r, t, z)) ->
  X1 (r, t, 0) <> 0 ->
  let F := gvec_stellarator_map X1 X2 (INR nfp) in
  F (r, t, 1) = rotz (PI / INR nfp) (F (r, t, 0)) /\ F (r, t, 1) <> rotz (2 * PI / INR nfp) (F (r, t, 0)) /\
  F (r, t, INR nfp) = rotz PI (F (r, t, 0)) /\ F (r, t, INR nfp) <> F (r, t, 0).
Proof.
move=> X1 X2 nfp r t Hn Hper Hx F; have HP := PI_RGT_0.
have Hn1 : 1 <= INR nfp by apply: (le_INR 1); apply/ssrnat.leP.
have perN m : X1 (r, t, INR m) = X1 (r, t, 0) /\ X2 (r, t, INR m) = X2 (r, t, 0).
  by elim: m => // m [<- <-]; rewrite S_INR; apply: Hper.
have [E1 E2] : X1 (r, t, 1) = X1 (r, t, 0) /\ X2 (r, t, 1) = X2 (r, t, 0) by have := perN 1%N.
have [E3 E4] := perN nfp.
rewrite /F /gvec_stellarator_map /rotz E1 E2 E3 E4 Rmult_1_r Rmult_0_r cos_0 sin_0.
have -> : PI / INR nfp * INR nfp = PI by field; lra.
rewrite cos_PI sin_PI; move: (X1 (r, t, 0)) (X2 (r, t, 0)) Hx => a b Ha.
split; first by congr (_, _, _); ring.
split.
  move=> [Ec Es].
  have Ec' : cos (PI / INR nfp) = cos (2 * PI / INR nfp) by apply: (Rmult_eq_reg_l a) => //; rewrite Ec; ring.
  have Es' : sin (PI / INR nfp) = sin (2 * PI / INR nfp) by apply: (Rmult_eq_reg_l a) => //; lra.
  have Hi : 0 < / INR nfp <= 1.
    by split; [apply: Rinv_0_lt_compat; lra | rewrite -Rinv_1; apply: Rinv_le_contravar; lra].
  have := cos_minus (2 * PI / INR nfp) (PI / INR nfp); rewrite -Ec' -Es'.
  have -> : 2 * PI / INR nfp - PI / INR nfp = PI * / INR nfp by field; lra.
  have := sin2_cos2 (PI / INR nfp); rewrite /Rsqr => H0 H.
  have C1 : cos (PI * / INR nfp) = 1 by lra.
  have : cos (PI * / INR nfp) < cos 0 by apply: cos_decreasing_1; nra.
  by rewrite C1 cos_0; lra.
split; first by congr (_, _, _); ring.
move=> H; apply: Ha; have := f_equal (comp3 0) H; rewrite /=; lra.
Qed.
Print Assumptions C37_gvec_field_period_refuted.

(** ** C35 the maps in a sequence: with the Jacobian of these maps, the hypothesis [regular_map] of
    the theorems of Props/SequenceR.v holds for every sequence that is not absurdly fine *)
Lemma regular_intro F (c : R) (n0 n1 n2 p0 p1 p2 q : nat) types (DFx : point -> mat3 R_realFieldType) :
  resolved (n0, n1, n2) (p0, p1, p2) q types -> (forall x, is_jacobian F x (DFx x)) -> 0 < c ->
  (forall r t z, 0 < r < 1 -> exists d, jacobian_det F (r, t, z) d /\ c * r <= d) ->
  80 * INR (n0 - p0) <= 10 ^ 5 * c ->
  regular_map DFx (seq_points (n0, n1, n2) (p0, p1, p2) q types).
Proof.
move=> Hs HJ Hc Hd Hn [[r t] z] Hx.
have [L U] := seq_points_radial Hs Hx; rewrite /= in L U.
have HN : 0 < INR (n0 - p0).
  case: types Hs {HJ Hd Hx} => [[t0 t1] t2] [[_ _] /and3P [_ Hn0 _] _ _].
  by apply: lt_0_INR; apply/ssrnat.ltP; rewrite ssrnat.subn_gt0.
have Hr : 0 < r by apply: Rlt_le_trans L; apply: Rinv_0_lt_compat; lra.
have [d [[_ Hu] Hd']] := Hd r t z (conj Hr U).
rewrite (Hu _ (HJ _)); apply: Rle_trans Hd'.
apply: (Rle_trans _ (c * / (80 * INR (n0 - p0)))); last by apply: Rmult_le_compat_l; lra.
apply: (Rmult_le_reg_l (10 ^ 5)); first by lra.
rewrite Rinv_r; last by lra.
rewrite -Rmult_assoc; apply: (Rmult_le_reg_r (80 * INR (n0 - p0))); first by lra.
by rewrite Rmult_assoc Rinv_l; lra.
Qed.
Theorem C35_regular_sequences : forall (n0 n1 n2 p0 p1 p2 q : nat) types (DFx : point -> mat3 R_realFieldType),
  resolved (n0, n1, n2) (p0, p1, p2) q types ->
  let pts := seq_points (n0, n1, n2) (p0, p1, p2) q types in let N := INR (n0 - p0) in
  [/\ (forall x, is_jacobian polar_map x (DFx x)) -> N <= 7000 -> regular_map DFx pts,
      forall a h, 0 < h -> (forall x, is_jacobian (cylinder_map a h) x (DFx x)) -> N <= 7000 * (a ^ 2 * h) -> regular_map DFx pts,
      forall epsilon kappa R0, 0 < epsilon < R0 -> 0 < kappa ->
        (forall x, is_jacobian (toroid_map epsilon kappa R0) x (DFx x)) ->
        N <= 45000 * (epsilon ^ 2 * kappa * (R0 - epsilon)) -> regular_map DFx pts
    & forall eps kappa nfp F, rotating_ellipse_map eps kappa nfp = Some F -> Rabs (1 - kappa) < 1 -> eps * (1 + Rabs (1 - kappa)) < 1 ->
        (forall x, is_jacobian F x (DFx x)) ->
        N <= 45000 * (eps ^ 2 / nfp * (1 - (1 - kappa) ^ 2) * (1 - eps * (1 + Rabs (1 - kappa)))) -> regular_map DFx pts].
Proof.
move=> n0 n1 n2 p0 p1 p2 q types DFx Hs pts N.
have [HP HP4] := PI_bounds.
have HN : 0 < N.
  rewrite /N; case: types Hs @pts => [[t0 t1] t2] [[_ _] /and3P [_ Hn0 _] _ _] pts.
  by apply: lt_0_INR; apply/ssrnat.ltP; rewrite ssrnat.subn_gt0.
have HP2 : 9 <= PI ^ 2 by nra.
have Hb a : - 1 <= cos a <= 1 by apply: COS_bound.
split.
- move=> HJ HNN; apply: (@regular_intro polar_map (2 * PI)) => //; try lra.
    by move=> r t z Hr; eexists; split; [exact: C35_polar_jacobian | lra].
  by rewrite -/N; lra.
- move=> a h Hh HJ HNN.
  have Hah : 0 < a ^ 2 * h by lra.
  apply: (@regular_intro (cylinder_map a h) (2 * PI * (a ^ 2 * h))) => //; try nra.
    by move=> r t z Hr; eexists; split; [exact: C35_cylinder_jacobian | right; ring].
  by rewrite -/N; nra.
- move=> e k R0 He Hk HJ HNN.
  have H2 : 0 < e ^ 2 * k * (R0 - e) by lra.
  have H3 : 0 < e ^ 2 * k by apply: Rmult_lt_0_compat => //; nra.
  apply: (@regular_intro (toroid_map e k R0) (4 * PI ^ 2 * (e ^ 2 * k * (R0 - e)))) => //; try nra.
    move=> r t z Hr; eexists; split; first exact: C35_toroid_jacobian.
    have Hc : R0 - e <= R0 + e * r * cos (2 * PI * t).
      move: (Hb (2 * PI * t)); move: (cos _) => c Hc.
      have : 0 < e * r < e by nra.
      move: (e * r) => er ?; nra.
    have -> : 4 * PI ^ 2 * e ^ 2 * k * r * (R0 + e * r * cos (2 * PI * t)) = (4 * PI ^ 2 * (e ^ 2 * k) * r) * (R0 + e * r * cos (2 * PI * t)) by ring.
    have -> : 4 * PI ^ 2 * (e ^ 2 * k * (R0 - e)) * r = (4 * PI ^ 2 * (e ^ 2 * k) * r) * (R0 - e) by ring.
    by apply: Rmult_le_compat_l => //; left; pos.
  by rewrite -/N; nra.
- move=> eps kappa nfp F HF Hk He HJ HNN.
  have [Hn He'] : 0 < nfp /\ 0 < eps.
    by move: HF; rewrite /rotating_ellipse_map; case: Rle_dec => // ?; case: Rle_dec => // ? _; lra.
  have Hi : 0 < / nfp by apply: Rinv_0_lt_compat.
  set B := Rabs (1 - kappa) in Hk He HNN.
  have HB : 0 <= B by apply: Rabs_pos.
  have EB : (1 - kappa) ^ 2 = B ^ 2 by rewrite /B pow2_abs.
  have H1 : 0 < 1 - (1 - kappa) ^ 2 by rewrite EB; nra.
  set c0 := eps ^ 2 / nfp * (1 - (1 - kappa) ^ 2).
  have Hc0 : 0 < c0 by have He2 : 0 < eps ^ 2 := pow_lt _ 2 He'; rewrite /c0 /Rdiv; pos.
  have HNN' : N <= 45000 * (c0 * (1 - eps * (1 + B))) by exact: HNN.
  apply: (@regular_intro F (4 * PI ^ 2 * (c0 * (1 - eps * (1 + B))))) => //.
  + by have Hcc : 0 < c0 * (1 - eps * (1 + B)); [apply: Rmult_lt_0_compat; lra | nra].
  + move=> r t z Hr; eexists; split; first exact: (C35_rotating_ellipse_jacobian _ _ _ HF).
    set y := cos (2 * PI * z); set x := cos (2 * PI * t).
    have Hy : - 1 <= y <= 1 := Hb _; have Hx : - 1 <= x <= 1 := Hb _.
    have HBy : Rabs ((1 - kappa) * y) <= B.
      rewrite Rabs_mult -/B; have : Rabs y <= 1 by apply/Rabs_le; lra.
      by have := Rabs_pos y; nra.
    have Hm : 1 - (1 - kappa) ^ 2 <= 1 - (1 - kappa) ^ 2 * y ^ 2.
      have : y ^ 2 <= 1 by nra.
      have := pow2_ge_0 (1 - kappa); nra.
    have Hv : 1 - eps * (1 + B) <= 1 + eps * (1 + (1 - kappa) * y) * r * x.
      move: HBy => /Rabs_le_between; move: ((1 - kappa) * y) => u Hu.
      have H2 : 0 <= eps * (1 + u) <= eps * (1 + B) by nra.
      move: (eps * (1 + u)) (eps * (1 + B)) H2 He => v V H2 HV.
      have H3 : 0 <= v * r <= V by nra.
      move: (v * r) H3 => vr H3; nra.
    rewrite -/y.
    have -> : 4 * PI ^ 2 / nfp * eps ^ 2 * (1 - (1 - kappa) ^ 2 * y ^ 2) * r * (1 + eps * (1 + (1 - kappa) * y) * r * x)
      = (4 * PI ^ 2 * (eps ^ 2 / nfp) * r) * ((1 - (1 - kappa) ^ 2 * y ^ 2) * (1 + eps * (1 + (1 - kappa) * y) * r * x)) by rewrite /Rdiv; ring.
    have -> : 4 * PI ^ 2 * (c0 * (1 - eps * (1 + B))) * r = (4 * PI ^ 2 * (eps ^ 2 / nfp) * r) * ((1 - (1 - kappa) ^ 2) * (1 - eps * (1 + B))) by rewrite /c0; ring.
    apply: Rmult_le_compat_l.
      have He2 : 0 < eps ^ 2 by nra.
      by left; rewrite /Rdiv; pos.
    by apply: Rmult_le_compat; lra.
  + rewrite -/N; have : 0 < c0 * (1 - eps * (1 + B)) by apply: Rmult_lt_0_compat; lra.
    move: (c0 * _) HNN' => v HNN' Hv; nra.
Qed.
Print Assumptions C35_regular_sequences.
