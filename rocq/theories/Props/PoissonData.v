(** C64: the manufactured solutions of the Poisson tutorials and tests. *)
From Coq Require Import Reals Lra.
From Coquelicot Require Import Coquelicot.
From mathcomp Require Import all_ssreflect.
From Verif Require Import Model.RBase Model.FormEval Model.Maps Model.Poisson.
From Verif Require Import Spec.CalculusSpec Spec.LaplaceSpec Proof.LaplaceProofs.
Local Open Scope R_scope.

Definition radius (x : point) : R := let '(r, _, _) := x in r.
(** u is the expression in logical coordinates of a function U on the physical domain, and f that of
    minus its Laplacian, at all logical points of the domain *)
Definition poisson_pair (F : point -> point) (dom : point -> Prop) (u f : point -> R) : Prop :=
  exists U : point -> R, forall x, dom x -> U (F x) = u x /\ is_laplacian U (F x) (- f x).

Lemma cs1 a : cos a * cos a + sin a * sin a = 1.
Proof. by have := sin2_cos2 a; rewrite /Rsqr; lra. Qed.
Lemma rho_of r a : 0 < r -> sqrt (r * cos a * (r * cos a) + r * sin a * (r * sin a)) = r.
Proof.
move=> H; have -> : r * cos a * (r * cos a) + r * sin a * (r * sin a) = r * r.
  by transitivity (r * r * (cos a * cos a + sin a * sin a)); [ring | rewrite cs1; ring].
by apply: sqrt_square; lra.
Qed.
Lemma pos_of r a : 0 < r -> 0 < r * cos a * (r * cos a) + r * sin a * (r * sin a).
Proof.
move=> H; have -> : r * cos a * (r * cos a) + r * sin a * (r * sin a) = r * r.
  by transitivity (r * r * (cos a * cos a + sin a * sin a)); [ring | rewrite cs1; ring].
by apply: Rmult_lt_0_compat.
Qed.

(** a function of the radius in the disc *)
Lemma polar_pair (g g' g2 : R -> R) u f : (forall s, 0 < s -> is_derive g s (g' s)) -> (forall s, 0 < s -> is_derive g' s (g2 s)) ->
  (forall x, u x = g (radius x)) -> (forall s t z, 0 < s -> - f (s, t, z) = g2 s + g' s / s) ->
  poisson_pair polar_map (fun x => 0 < radius x) u f.
Proof.
move=> Hg Hg' Hu Hf; exists (fun p => let '(X, _, Z) := p in g (sqrt (X * X + Z * Z))) => [[[r t] z]] /= Hr; rewrite ?/tube /= in Hr.
set a := 2 * PI * t; split; first by rewrite Hu rho_of.
have E := rho_of r a Hr; have P := pos_of r a Hr.
have E' : sqrt (r * sin a * (r * sin a) + r * cos a * (r * cos a)) = r by rewrite Rplus_comm.
have P' : 0 < r * sin a * (r * sin a) + r * cos a * (r * cos a) by rewrite Rplus_comm.
eexists; eexists; eexists; split; [|split; [|split]].
- by apply: (derive2_radial g g' (g2 r) (r * cos a) (r * sin a * (r * sin a))) => //; rewrite E; apply: Hg'.
- exact: derive2_const.
- apply: derive2_ext (derive2_radial g g' (g2 r) (r * sin a) (r * cos a * (r * cos a)) P' Hg _); first by move=> s /=; rewrite Rplus_comm.
  by rewrite E'; apply: Hg'.
- rewrite Hf // E E'.
  transitivity (g2 r * (cos a * cos a + sin a * sin a) + g' r / r * (2 - (cos a * cos a + sin a * sin a))); last by field; lra.
  by rewrite cs1; ring.
Qed.
(** polar_poisson.py *)
Theorem C64_polar_data : poisson_pair polar_map (fun x => 0 < radius x) polar_u polar_f /\ forall t z, polar_u (1, t, z) = 0.
Proof.
split; last by move=> t z; rewrite /polar_u ln_1; field.
apply: (polar_pair (fun s => s ^ 3 * (3 * ln s - 2) / 27 + 2 / 27) (fun s => s ^ 2 * (3 * ln s - 1) / 9) (fun s => s * (6 * ln s + 1) / 9)).
- by move=> s Hs; auto_derive => //; field; lra.
- by move=> s Hs; auto_derive => //; field; lra.
- by case=> [[r t] z].
- by move=> s t z Hs /=; field; lra.
Qed.
(** mixed_polar_poisson.py: the code solves the stated problem, the formula of its docstring does not
    vanish on the boundary *)
Theorem C64_mixed_data : poisson_pair polar_map (fun x => 0 < radius x) mixed_u mixed_f /\ forall t z, mixed_u (1, t, z) = 0.
Proof.
split; last by move=> t z; rewrite /mixed_u; field.
apply: (polar_pair (fun s => - 1 * (s ^ 4 / 16 - s ^ 3 / 12 + 1 / 48)) (fun s => - s ^ 3 / 4 + s ^ 2 / 4) (fun s => - 3 * s ^ 2 / 4 + s / 2)).
- by move=> s Hs; auto_derive => //; field; lra.
- by move=> s Hs; auto_derive => //; field; lra.
- by case=> [[r t] z].
- by move=> s t z Hs /=; field; lra.
Qed.
Theorem C64_mixed_docstring_refuted : forall t z, mixed_u_doc (1, t, z) = 1 / 24.
Proof. by move=> t z; rewrite /mixed_u_doc; field. Qed.

(** *** toroid_poisson.py *)
Lemma derive2_poly_z (k e2 c Z : R) : e2 <> 0 ->
  let s z := (c + z * z) / e2 in
  is_derive2 (fun z => k * (s z - s z * s z)) Z (k * (2 / e2 * (1 - 2 * s Z) - 8 * (Z * Z) / (e2 * e2))).
Proof.
move=> He s; exists (fun z => k * (2 * z / e2 * (1 - 2 * s z))); rewrite /s; split.
  by apply: filter_forall => z; auto_derive => //; field.
by auto_derive => //; field.
Qed.
Theorem C64_toroid_data : forall eps, 0 < eps ->
  poisson_pair (toroid_map eps 1 1) (fun x => 0 <= radius x /\ eps * radius x < 1) toroid_u (toroid_f eps) /\
  forall t z, toroid_u (1, t, z) = 0.
Proof.
move=> eps He; split; last by move=> t z; rewrite /toroid_u; ring.
pose s (Z R : R) := ((R - 1) * (R - 1) + Z * Z) / (eps * eps).
pose h Z R := (s Z R - s Z R * s Z R) / R.
pose k1 Z R := (1 - 2 * s Z R) * (2 * (R - 1) / (eps * eps)).
pose k2 Z R := 2 / (eps * eps) * (1 - 2 * s Z R) - 8 * ((R - 1) * (R - 1)) / (eps * eps * (eps * eps)).
pose h1 Z R := k1 Z R / R - (s Z R - s Z R * s Z R) / (R * R).
pose h2 Z R := k2 Z R / R - 2 * k1 Z R / (R * R) + 2 * (s Z R - s Z R * s Z R) / (R * R * R).
have Hee : eps <> 0 by lra.
have D1 Z R : 0 < R -> is_derive (h Z) R (h1 Z R).
  by move=> HR; rewrite /h /h1 /k1 /s; auto_derive; [lra | field; lra].
have D2 Z R : 0 < R -> is_derive (h1 Z) R (h2 Z R).
  move=> HR; have H2 : R * R <> 0 by apply: Rmult_integral_contrapositive; lra.
  by rewrite /h1 /h2 /k1 /k2 /s; auto_derive; [split=> //; lra | field; lra].
exists (fun p => let '(X, Y, Z) := p in X * h Z (sqrt (X * X + Y * Y))) => [[[r t] z]] /= [Hr0 Hr1].
set a := 2 * PI * t; set b := 2 * PI * z.
set R := 1 + eps * r * cos a; set Z := eps * 1 * r * sin a.
have HR : 0 < R.
  have [C1 C2] := COS_bound a; have P0 : 0 <= eps * r by apply: Rmult_le_pos; lra.
  rewrite /R; suff : - (eps * r) <= eps * r * cos a by lra.
  by have := Rmult_le_compat_l _ _ _ P0 C1; lra.
have E : sqrt (R * cos b * (R * cos b) + - R * sin b * (- R * sin b)) = R.
  by rewrite -[RHS](rho_of R b HR); f_equal; ring.
have P : 0 < R * cos b * (R * cos b) + - R * sin b * (- R * sin b).
  by apply: Rlt_le_trans (pos_of R b HR) _; right; ring.
have E' : sqrt (- R * sin b * (- R * sin b) + R * cos b * (R * cos b)) = R by rewrite Rplus_comm.
have P' : 0 < - R * sin b * (- R * sin b) + R * cos b * (R * cos b) by rewrite Rplus_comm.
have Es : s Z R = r * r.
  transitivity (r * r * (cos a * cos a + sin a * sin a)); last by rewrite cs1; ring.
  by rewrite /s /Z /R; field.
split; first by rewrite E /h Es; field; lra.
eexists; eexists; eexists; split; [|split; [|split]].
- by apply: (derive2_radial_x (h Z) (h1 Z) (h2 Z R) (R * cos b) (- R * sin b * (- R * sin b)) P (D1 Z)); rewrite E; apply: D2.
- apply: derive2_ext (derive2_scal (R * cos b) _ _ _ (derive2_radial (h Z) (h1 Z) (h2 Z R) (- R * sin b) (R * cos b * (R * cos b)) P' (D1 Z) _)).
    by move=> y /=; rewrite Rplus_comm.
  by rewrite E'; apply: D2.
- apply: derive2_ext (derive2_poly_z (cos b) (eps * eps) ((R - 1) * (R - 1)) Z _).
    by move=> y /=; rewrite E /h /s; field; lra.
  by apply: Rmult_integral_contrapositive.
- rewrite E E'.
  transitivity (cos b * (4 / (eps * eps) * (1 - 2 * s Z R) - 8 * s Z R / (eps * eps) + k1 Z R / R - (s Z R - s Z R * s Z R) / (R * R))).
    rewrite /k1 Es; have -> : R - 1 = eps * r * cos a by rewrite /R; ring.
    by field; lra.
  have e1 : (sin b) ^ 2 = 1 - (cos b) ^ 2 by rewrite -(cs1 b); ring.
  rewrite -/(s Z R) /h2 /h1 /k2; move: (k1 Z R) => K1.
  have -> : Z * Z = s Z R * (eps * eps) - (R - 1) * (R - 1) by rewrite /s; field.
  move: (s Z R) => S.
  by field_simplify; try lra; rewrite e1; field; lra.
Qed.

(** *** test_cylinder_vector_poisson.py *)
(** polar coordinates cover the plane *)
Lemma polar_coords X Y : 0 < X * X + Y * Y -> exists r t, 0 < r /\ X = r * cos (2 * PI * t) /\ Y = r * sin (2 * PI * t).
Proof.
move=> H; set r := sqrt (X * X + Y * Y).
have Hr : 0 < r by apply: sqrt_lt_R0.
have Er : r * r = X * X + Y * Y by apply: sqrt_def; lra.
have Hp := PI_RGT_0.
have Hc : -1 <= X / r <= 1.
  have B : X * X <= r * r by have := Rle_0_sqr Y; rewrite /Rsqr; lra.
  have [B1 B2] : - r <= X /\ X <= r by split; nra.
  split; [apply: (Rmult_le_reg_r r) => //|apply: (Rmult_le_reg_r r) => //]; field_simplify; lra.
have Es : sqrt (1 - (X / r)²) = Rabs (Y / r).
  rewrite -sqrt_Rsqr_abs; f_equal; rewrite /Rsqr; apply: (Rmult_eq_reg_r (r * r)); last by nra.
  by field_simplify; nra.
case: (Rle_lt_dec 0 Y) => HY.
- exists r, (acos (X / r) / (2 * PI)); have -> : 2 * PI * (acos (X / r) / (2 * PI)) = acos (X / r) by field; lra.
  split=> //; rewrite cos_acos // sin_acos // Es Rabs_right; first by split; field; lra.
  by apply: Rle_ge; apply: Rmult_le_pos => //; apply: Rlt_le; apply: Rinv_0_lt_compat.
- exists r, (- acos (X / r) / (2 * PI)); have -> : 2 * PI * (- acos (X / r) / (2 * PI)) = - acos (X / r) by field; lra.
  split=> //; rewrite cos_neg sin_neg cos_acos // sin_acos // Es Rabs_left; first by split; field; lra.
  by have := Rinv_0_lt_compat _ Hr; rewrite /Rdiv; nra.
Qed.
Lemma derive2_cos k Z : is_derive2 (fun z => k * cos (2 * PI * z)) Z (- (4 * PI ^ 2) * (k * cos (2 * PI * Z))).
Proof.
exists (fun z => - k * (2 * PI) * sin (2 * PI * z)); split.
  by apply: filter_forall => z; auto_derive => //; ring.
by auto_derive => //; ring.
Qed.
Definition tube (x : point) : Prop := 0 < radius x.
Section Tube.
Variables (g g' g2 : R -> R).
Hypothesis Hg : forall s, 0 < s -> is_derive g s (g' s).
Hypothesis Hg' : forall s, 0 < s -> is_derive g' s (g2 s).
Variables (r t z : R).
Hypothesis Hr : 0 < r.
Let a := 2 * PI * t. Let w := cos (2 * PI * z).
Let X := r * cos a. Let Y := r * sin a.
Let E : sqrt (X * X + Y * Y) = r := rho_of r a Hr.
Let E' : sqrt (Y * Y + X * X) = r. Proof. by rewrite Rplus_comm. Qed.
Let P : 0 < X * X + Y * Y := pos_of r a Hr.
Let P' : 0 < Y * Y + X * X. Proof. by rewrite Rplus_comm. Qed.
Lemma lap_tube : is_laplacian (fun p => let '(X, Y, Z) := p in g (sqrt (X * X + Y * Y)) * cos (2 * PI * Z)) (X, Y, z)
  ((g2 r + g' r / r - 4 * PI ^ 2 * g r) * w).
Proof.
eexists; eexists; eexists; split; [|split; [|split]].
- apply: derive2_ext (derive2_scal w _ _ _ (derive2_radial g g' (g2 r) X (Y * Y) P Hg _)); first by move=> y /=; rewrite /w; ring.
  by rewrite E; apply: Hg'.
- apply: derive2_ext (derive2_scal w _ _ _ (derive2_radial g g' (g2 r) Y (X * X) P' Hg _)); first by move=> y /=; rewrite /w [_ + y * y]Rplus_comm; ring.
  by rewrite E'; apply: Hg'.
- exact: derive2_cos.
- rewrite E E' -/w /X /Y; have e1 : (sin a) ^ 2 = 1 - (cos a) ^ 2 by rewrite -(cs1 a); ring.
  by field_simplify; try lra; rewrite e1; field; lra.
Qed.
Lemma lap_tube_x : is_laplacian (fun p => let '(X, Y, Z) := p in X * g (sqrt (X * X + Y * Y)) * cos (2 * PI * Z)) (X, Y, z)
  (X * (g2 r + 3 * g' r / r - 4 * PI ^ 2 * g r) * w).
Proof.
eexists; eexists; eexists; split; [|split; [|split]].
- apply: derive2_ext (derive2_scal w _ _ _ (derive2_radial_x g g' (g2 r) X (Y * Y) P Hg _)); first by move=> y /=; rewrite /w; ring.
  by rewrite E; apply: Hg'.
- apply: derive2_ext (derive2_scal (X * w) _ _ _ (derive2_radial g g' (g2 r) Y (X * X) P' Hg _)); first by move=> y /=; rewrite /w [_ + y * y]Rplus_comm; ring.
  by rewrite E'; apply: Hg'.
- exact: derive2_cos.
- rewrite E E' -/w /X /Y; have e1 : (sin a) ^ 2 = 1 - (cos a) ^ 2 by rewrite -(cs1 a); ring.
  by field_simplify; try lra; rewrite e1; field; lra.
Qed.
Lemma lap_tube_y : is_laplacian (fun p => let '(X, Y, Z) := p in - Y * g (sqrt (X * X + Y * Y)) * cos (2 * PI * Z)) (X, Y, z)
  (- Y * (g2 r + 3 * g' r / r - 4 * PI ^ 2 * g r) * w).
Proof.
eexists; eexists; eexists; split; [|split; [|split]].
- apply: derive2_ext (derive2_scal (- Y * w) _ _ _ (derive2_radial g g' (g2 r) X (Y * Y) P Hg _)); first by move=> y /=; rewrite /w; ring.
  by rewrite E; apply: Hg'.
- apply: derive2_ext (derive2_scal (- w) _ _ _ (derive2_radial_x g g' (g2 r) Y (X * X) P' Hg _)); first by move=> y /=; rewrite /w [_ + y * y]Rplus_comm; ring.
  by rewrite E'; apply: Hg'.
- exact: derive2_cos.
- rewrite E E' -/w /X /Y; have e1 : (cos a) ^ 2 = 1 - (sin a) ^ 2 by rewrite -(cs1 a); ring.
  by field_simplify; try lra; rewrite e1; field; lra.
Qed.
End Tube.
(** u_theta and f_theta are a Poisson pair as the azimuthal components (-sin, cos, 0) u_theta ... *)
Theorem C64_vector_data :
  poisson_pair (cylinder_map 1 1) tube (fun x => let '(_, t, _) := x in - sin (2 * PI * t) * vector_u x)
     (fun x => let '(_, t, _) := x in - sin (2 * PI * t) * vector_f x) /\
  poisson_pair (cylinder_map 1 1) tube (fun x => let '(_, t, _) := x in cos (2 * PI * t) * vector_u x)
     (fun x => let '(_, t, _) := x in cos (2 * PI * t) * vector_f x).
Proof.
pose g s := s * (1 - s) ^ 2; pose g' s := (1 - s) ^ 2 - 2 * s * (1 - s); pose g2 s := - 4 * (1 - s) + 2 * s.
have D1 s : 0 < s -> is_derive g s (g' s) by move=> Hs; rewrite /g /g'; auto_derive => //; ring.
have D2 s : 0 < s -> is_derive g' s (g2 s) by move=> Hs; rewrite /g' /g2; auto_derive => //; ring.
split.
- exists (fun p => let '(X, Y, Z) := p in - Y * g (sqrt (X * X + Y * Y)) * cos (2 * PI * Z)) => [[[r t] z]] /= Hr; rewrite ?/tube /= in Hr.
  have -> : (1 * (1 * r * cos (2 * PI * t)), 1 * (1 * r * sin (2 * PI * t)), 1 * 1 * z) = (r * cos (2 * PI * t), r * sin (2 * PI * t), z) by rewrite !Rmult_1_l.
  split; first by rewrite !Rmult_1_l rho_of // /g; ring.
  have := lap_tube_y g g' g2 D1 D2 r t z Hr.
  set L := (X in is_laplacian _ _ X -> _); move=> H; suff <- : L = - (- sin (2 * PI * t) * ((r * (r * 1) * ((1 - r) * ((1 - r) * 1)) * 4 * (PI * (PI * 1)) - (3 - 16 * r + 15 * (r * (r * 1)))) * cos (2 * PI * z))) by exact: H.
  by rewrite /L /g /g' /g2; field; lra.
- exists (fun p => let '(X, Y, Z) := p in X * g (sqrt (X * X + Y * Y)) * cos (2 * PI * Z)) => [[[r t] z]] /= Hr; rewrite ?/tube /= in Hr.
  have -> : (1 * (1 * r * cos (2 * PI * t)), 1 * (1 * r * sin (2 * PI * t)), 1 * 1 * z) = (r * cos (2 * PI * t), r * sin (2 * PI * t), z) by rewrite !Rmult_1_l.
  split; first by rewrite !Rmult_1_l rho_of // /g; ring.
  have := lap_tube_x g g' g2 D1 D2 r t z Hr.
  set L := (X in is_laplacian _ _ X -> _); move=> H; suff <- : L = - (cos (2 * PI * t) * ((r * (r * 1) * ((1 - r) * ((1 - r) * 1)) * 4 * (PI * (PI * 1)) - (3 - 16 * r + 15 * (r * (r * 1)))) * cos (2 * PI * z))) by exact: H.
  by rewrite /L /g /g' /g2; field; lra.
Qed.
(** ... but the test hands (0, u_theta, 0) and (0, f_theta, 0) to the projector, which takes Cartesian
    components, and these are not a Poisson pair *)
Theorem C64_vector_refuted : ~ poisson_pair (cylinder_map 1 1) tube vector_u vector_f.
Proof.
move=> [U HU].
pose g s := s ^ 2 * (1 - s) ^ 2; pose g' s := 2 * s * (1 - s) ^ 2 - 2 * s ^ 2 * (1 - s); pose g2 s := 2 - 12 * s + 12 * s ^ 2.
have D1 s : 0 < s -> is_derive g s (g' s) by move=> Hs; rewrite /g /g'; auto_derive => //; ring.
have D2 s : 0 < s -> is_derive g' s (g2 s) by move=> Hs; rewrite /g' /g2; auto_derive => //; ring.
pose V := fun p : point => let '(X, Y, Z) := p in g (sqrt (X * X + Y * Y)) * cos (2 * PI * Z).
have EF r t z : cylinder_map 1 1 (r, t, z) = (r * cos (2 * PI * t), r * sin (2 * PI * t), z).
  by rewrite /cylinder_map !Rmult_1_l.
have EU X Y Z : 0 < X * X + Y * Y -> U (X, Y, Z) = V (X, Y, Z).
  move=> /polar_coords [r [t [Hr [-> ->]]]]; rewrite -EF (proj1 (HU (r, t, Z) Hr)) EF /V rho_of //.
have Hh : 0 < / 2 by lra.
have := lap_tube g g' g2 D1 D2 (/ 2) 0 0 Hh; have := proj2 (HU (/ 2, 0, 0) Hh); rewrite EF -/V.
rewrite !Rmult_0_r cos_0 sin_0 !Rmult_1_r !Rmult_0_r.
have H0 : 0 < / 2 * / 2 + 0 * 0 by lra.
move=> [l0 [l1 [l2 [A0 [A1 [A2 EL]]]]]] LV.
have LU : is_laplacian V (/ 2, 0, 0) (- vector_f (/ 2, 0, 0)).
  exists l0, l1, l2; split; [|split; [|split]] => //.
  - move: A0 => [d [B1 B2]]; exists d; split=> //=.
    apply: filter_imp (filter_and _ _ B1 (locally_locally _ _ (near_pos _ _ H0))) => x [C1 C2].
    by apply: is_derive_ext_loc C1; apply: filter_imp C2 => y Hy; rewrite /= EU.
  - have H0' : 0 < 0 * 0 + / 2 * / 2 by lra.
    move: A1 => [d [B1 B2]]; exists d; split=> //=.
    apply: filter_imp (filter_and _ _ B1 (locally_locally _ _ (near_pos _ _ H0'))) => x [C1 C2].
    by apply: is_derive_ext_loc C1; apply: filter_imp C2 => y Hy; rewrite /= EU // Rplus_comm.
  - move: A2 => [d [B1 B2]]; exists d; split=> //=.
    by apply: filter_imp B1 => x; apply: is_derive_ext => y; rewrite /= EU.
have := laplacian_unique _ _ _ _ LV LU.
rewrite /vector_f /g /g' /g2 Rmult_0_r cos_0; lra.
Qed.

(** *** test_z_pinch.py: the field is in equilibrium with the pressure: curl B x B = grad p *)
Theorem C64_zpinch_data : exists (B : nat -> point -> R) (p : point -> R),
  (forall x, (B 0%N (zpinch_F x), B 1%N (zpinch_F x), B 2%N (zpinch_F x)) = zpinch_B x /\ p (zpinch_F x) = zpinch_p x) /\
  forall y, exists J, is_curl B y J /\ is_div B y 0 /\
    is_grad p y (fun a => match a with 0%N => J 1%N * B 2%N y - J 2%N * B 1%N y
                                  | 1%N => J 2%N * B 0%N y - J 0%N * B 2%N y | _ => J 0%N * B 1%N y - J 1%N * B 0%N y end).
Proof.
pose s (y : point) := let '(X, Y, _) := y in X * X + Y * Y.
exists (fun c y => let '(X, Y, _) := y in match c with 0%N => - Y * (2 - s y) | 1%N => X * (2 - s y) | _ => 0 end),
  (fun y => 1 / 3 * (5 - 2 * s y) * ((1 - s y) * (1 - s y))).
split.
  case=> [[r t] z]; rewrite /zpinch_F /zpinch_B /zpinch_p /s.
  have -> : r * cos (2 * PI * t) * (r * cos (2 * PI * t)) + r * sin (2 * PI * t) * (r * sin (2 * PI * t)) = r * r.
    by transitivity (r * r * (cos (2 * PI * t) * cos (2 * PI * t) + sin (2 * PI * t) * sin (2 * PI * t))); [ring | rewrite cs1; ring].
  by split; [congr (_, _, _); field | field].
case=> [[X Y] Z]; pose b := X * X + Y * Y.
exists (fun a => match a with 2%N => 4 - 4 * b | _ => 0 end); split; [|split].
- exists 0, 0, 0, 0, (2 - b - 2 * X * X), (- (2 - b) + 2 * Y * Y).
  by rewrite /is_partial /b /s /=; split; split; first [ring | auto_derive => //; ring].
- exists (- Y * (- 2 * X)), (X * (- 2 * Y)), 0.
  by rewrite /is_partial /b /s /=; split; first [ring | auto_derive => //; ring].
- by case=> [|[|[|a]]] //= _; rewrite /is_partial /b /s /=; auto_derive => //; field.
Qed.
Print Assumptions C64_polar_data.
Print Assumptions C64_mixed_data.
Print Assumptions C64_mixed_docstring_refuted.
Print Assumptions C64_toroid_data.
Print Assumptions C64_vector_data.
Print Assumptions C64_vector_refuted.
Print Assumptions C64_zpinch_data.
