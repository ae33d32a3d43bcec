(** Theorems about the initial fields of scripts/config_scripts/iter_islands.py and stell.py. *)
From Coq Require Import Reals Lra Psatz.
From Coquelicot Require Import Coquelicot.
From Verif Require Import Model.RBase Model.Forms Model.FormEval Model.Maps Model.SolovevField.
From Verif Require Import Spec.CavitySpec Spec.HopfSpec Spec.EquilibriumSpec Proof.MapProofs Props.Maps.
Local Open Scope R_scope.

Lemma r2_sqrt x y : sqrt (x ^ 2 + y ^ 2) ^ 2 = x ^ 2 + y ^ 2.
Proof. rewrite <- Rsqr_pow2; apply Rsqr_sqrt; nra. Qed.
Lemma off_pos x y : x <> 0 \/ y <> 0 -> 0 < x ^ 2 + y ^ 2.
Proof. intros [h|h]; pose proof (Rsqr_pos_lt _ h) as Q; unfold Rsqr in Q; nra. Qed.
(** the field in Cartesian coordinates *)
Lemma iter_cart kappa tau x y z : x <> 0 \/ y <> 0 ->
  iter_field kappa tau x y z = (z * x - tau * y / (x ^ 2 + y ^ 2), z * y + tau * x / (x ^ 2 + y ^ 2),
    - (kappa ^ 2 / 2 * (x ^ 2 + y ^ 2 - 1) + z ^ 2)).
Proof.
intros h; pose proof (off_pos _ _ h) as P; pose proof (sqrt_lt_R0 _ P) as Q.
destruct (arctan2_polar y x) as [C S]; pose proof (r2_sqrt x y) as E.
unfold iter_field; cbv zeta; rewrite E.
set (r := sqrt (x ^ 2 + y ^ 2)) in *; set (phi := arctan2 y x) in *.
rewrite <- E.
f_equal; [f_equal|].
- rewrite <- C at 1; rewrite <- S at 1; field; lra.
- rewrite <- C at 1; rewrite <- S at 1; field; lra.
- rewrite E; ring.
Qed.
Lemma stell_iter tau x y z : stell_field tau x y z = iter_field 1 tau x y z.
Proof. unfold stell_field, iter_field; cbv zeta; f_equal; f_equal; field. Qed.
Lemma near_x x y : x <> 0 \/ y <> 0 -> locally x (fun t => t <> 0 \/ y <> 0).
Proof.
intros [h|h].
- assert (P : 0 < Rabs x) by now apply Rabs_pos_lt.
  exists (mkposreal _ P); intros t b; left; intros ->.
  unfold ball in b; simpl in b; unfold AbsRing_ball, abs, minus, plus, opp in b; simpl in b.
  rewrite Rplus_0_l, Rabs_Ropp in b; lra.
- apply filter_forall; auto.
Qed.
Lemma near_y x y : x <> 0 \/ y <> 0 -> locally y (fun t => x <> 0 \/ t <> 0).
Proof.
intros h; assert (h' : y <> 0 \/ x <> 0) by tauto.
generalize (near_x y x h'); apply filter_imp; tauto.
Qed.
(** transfer of the derivatives from the closed form *)
Lemma iter_dx kappa tau x y z (pr : R * R * R -> R) l : x <> 0 \/ y <> 0 ->
  is_derive (fun t => pr (z * t - tau * y / (t ^ 2 + y ^ 2), z * y + tau * t / (t ^ 2 + y ^ 2),
    - (kappa ^ 2 / 2 * (t ^ 2 + y ^ 2 - 1) + z ^ 2))) x l -> is_derive (fun t => pr (iter_field kappa tau t y z)) x l.
Proof.
intros h; apply is_derive_ext_loc; generalize (near_x _ _ h); apply filter_imp; intros t ht; now rewrite iter_cart.
Qed.
Lemma iter_dy kappa tau x y z (pr : R * R * R -> R) l : x <> 0 \/ y <> 0 ->
  is_derive (fun t => pr (z * x - tau * t / (x ^ 2 + t ^ 2), z * t + tau * x / (x ^ 2 + t ^ 2),
    - (kappa ^ 2 / 2 * (x ^ 2 + t ^ 2 - 1) + z ^ 2))) y l -> is_derive (fun t => pr (iter_field kappa tau x t z)) y l.
Proof.
intros h; apply is_derive_ext_loc; generalize (near_y _ _ h); apply filter_imp; intros t ht; now rewrite iter_cart.
Qed.
Lemma iter_dz kappa tau x y z (pr : R * R * R -> R) l : x <> 0 \/ y <> 0 ->
  is_derive (fun t => pr (t * x - tau * y / (x ^ 2 + y ^ 2), t * y + tau * x / (x ^ 2 + y ^ 2),
    - (kappa ^ 2 / 2 * (x ^ 2 + y ^ 2 - 1) + t ^ 2))) z l -> is_derive (fun t => pr (iter_field kappa tau x y t)) z l.
Proof. intros h; apply is_derive_ext; intros t; now rewrite iter_cart. Qed.

(** the field is the documented one at the image point *)
Theorem C83_formula : forall F kappa tau p x y z, F p = (x, y, z) -> x <> 0 \/ y <> 0 ->
  iter_B F kappa tau p = (z * x - tau * y / (x ^ 2 + y ^ 2), z * y + tau * x / (x ^ 2 + y ^ 2),
    - (kappa ^ 2 / 2 * (x ^ 2 + y ^ 2 - 1) + z ^ 2)) /\
  stell_B F tau p = (z * x - tau * y / (x ^ 2 + y ^ 2), z * y + tau * x / (x ^ 2 + y ^ 2),
    - (1 / 2 * (x ^ 2 + y ^ 2 - 1) + z ^ 2)).
Proof.
intros F kappa tau p x y z E h; unfold iter_B, stell_B; rewrite E, stell_iter, !iter_cart by exact h.
split; [reflexivity|]. f_equal; field.
Qed.
Print Assumptions C83_formula.

Ltac dd := cbn [fst snd]; auto_derive; [repeat split; simpl in *; lra | field; lra].
(** off the z-axis both fields are exact equilibria: div B = 0 and J x B = grad p with p = - (1 + kappa^2) psi *)
Theorem C83_equilibrium : forall kappa tau x y z : R, x <> 0 \/ y <> 0 ->
  equilibrium_at (fieldof (iter_field kappa tau)) (fun x y z => - (1 + kappa ^ 2) * solovev_psi kappa x y z) x y z.
Proof.
intros kappa tau x y z h; pose proof (off_pos _ _ h) as P; split.
- exists (z + 2 * tau * x * y / (x ^ 2 + y ^ 2) ^ 2), (z - 2 * tau * x * y / (x ^ 2 + y ^ 2) ^ 2), (- 2 * z).
  cbn [cx cy cz fieldof]; split; [|split; [|split]].
  + apply (iter_dx kappa tau x y z (fun v => fst (fst v))); [exact h|]; dd.
  + apply (iter_dy kappa tau x y z (fun v => snd (fst v))); [exact h|]; dd.
  + apply (iter_dz kappa tau x y z snd); [exact h|]; dd.
  + field; lra.
- exists (- (1 + kappa ^ 2) * y, (1 + kappa ^ 2) * x, 0); split.
  + exists (- kappa ^ 2 * y), y, x, (- kappa ^ 2 * x), (tau * (y ^ 2 - x ^ 2) / (x ^ 2 + y ^ 2) ^ 2), (tau * (y ^ 2 - x ^ 2) / (x ^ 2 + y ^ 2) ^ 2).
    cbn [cx cy cz fieldof]; split; [|split; [|split; [|split; [|split; [|split]]]]].
    * apply (iter_dy kappa tau x y z snd); [exact h|]; dd.
    * apply (iter_dz kappa tau x y z (fun v => snd (fst v))); [exact h|]; dd.
    * apply (iter_dz kappa tau x y z (fun v => fst (fst v))); [exact h|]; dd.
    * apply (iter_dx kappa tau x y z snd); [exact h|]; dd.
    * apply (iter_dx kappa tau x y z (fun v => snd (fst v))); [exact h|]; dd.
    * apply (iter_dy kappa tau x y z (fun v => fst (fst v))); [exact h|]; dd.
    * apply f_equal2; [apply f_equal2|]; ring.
  + cbn [cx cy cz fieldof]; rewrite iter_cart by exact h; cbn [cross fst snd]; unfold solovev_psi.
    exists (- (1 + kappa ^ 2) * (kappa ^ 2 / 2 * (x ^ 2 + y ^ 2 - 1) * x + x * z ^ 2)),
      (- (1 + kappa ^ 2) * (kappa ^ 2 / 2 * (x ^ 2 + y ^ 2 - 1) * y + y * z ^ 2)),
      (- (1 + kappa ^ 2) * ((x ^ 2 + y ^ 2) * z)).
    split; [|split; [|split]].
    * auto_derive; try exact I; field.
    * auto_derive; try exact I; field.
    * auto_derive; try exact I; field.
    * apply f_equal2; [apply f_equal2|]; field; lra.
Qed.
Print Assumptions C83_equilibrium.
(** the field of stell.py is the case kappa = 1 *)
Theorem C83_stell : forall tau x y z : R, x <> 0 \/ y <> 0 ->
  equilibrium_at (fieldof (stell_field tau)) (fun x y z => - 2 * solovev_psi 1 x y z) x y z.
Proof.
intros tau x y z h; destruct (C83_equilibrium 1 tau x y z h) as [[a [b [c [h1 [h2 [h3 h4]]]]]] [J [C G]]]; split.
- exists a, b, c; cbn [fieldof cx cy cz] in *; split; [|split; [|split; [|exact h4]]].
  + revert h1; apply is_derive_ext; intros t; now rewrite stell_iter.
  + revert h2; apply is_derive_ext; intros t; now rewrite stell_iter.
  + revert h3; apply is_derive_ext; intros t; now rewrite stell_iter.
- exists J; split.
  + destruct C as [a1 [a2 [a3 [a4 [a5 [a6 [d1 [d2 [d3 [d4 [d5 [d6 d7]]]]]]]]]]]].
    exists a1, a2, a3, a4, a5, a6; cbn [fieldof cx cy cz] in *.
    split; [|split; [|split; [|split; [|split; [|split; [|exact d7]]]]]].
    * revert d1; apply is_derive_ext; intros t; now rewrite stell_iter.
    * revert d2; apply is_derive_ext; intros t; now rewrite stell_iter.
    * revert d3; apply is_derive_ext; intros t; now rewrite stell_iter.
    * revert d4; apply is_derive_ext; intros t; now rewrite stell_iter.
    * revert d5; apply is_derive_ext; intros t; now rewrite stell_iter.
    * revert d6; apply is_derive_ext; intros t; now rewrite stell_iter.
  + cbn [fieldof cx cy cz] in *; rewrite stell_iter.
    destruct G as [g1 [g2 [g3 [e1 [e2 [e3 e4]]]]]]; exists g1, g2, g3; split; [|split; [|split; [|exact e4]]].
    * revert e1; apply is_derive_ext; intros t; f_equal; ring.
    * revert e2; apply is_derive_ext; intros t; f_equal; ring.
    * revert e3; apply is_derive_ext; intros t; f_equal; ring.
Qed.
Print Assumptions C83_stell.

Ltac der h := match type of h with is_derive ?f ?t ?l =>
  replace (Derive (fun x => f x) t) with l by (symmetry; exact (is_derive_unique _ _ _ h)) end.
(** field lines off the axis stay on a surface psi = const, at bounded distance from the unit circle, and go round the axis
    with the constant areal velocity tau *)
Theorem C83_surfaces : forall kappa tau gx gy gz, field_line (fieldof (iter_field kappa tau)) gx gy gz ->
  (forall t, gx t <> 0 \/ gy t <> 0) ->
  (forall t, solovev_psi kappa (gx t) (gy t) (gz t) = solovev_psi kappa (gx 0) (gy 0) (gz 0)) /\
  (forall t, kappa ^ 2 * (gx t ^ 2 + gy t ^ 2 - 1) ^ 2 <= 8 * solovev_psi kappa (gx 0) (gy 0) (gz 0)) /\
  (forall t, exists vx vy, is_derive gx t vx /\ is_derive gy t vy /\ gx t * vy - gy t * vx = tau).
Proof.
intros kappa tau gx gy gz L off.
assert (D : forall t, is_derive gx t (gz t * gx t - tau * gy t / (gx t ^ 2 + gy t ^ 2)) /\
  is_derive gy t (gz t * gy t + tau * gx t / (gx t ^ 2 + gy t ^ 2)) /\
  is_derive gz t (- (kappa ^ 2 / 2 * (gx t ^ 2 + gy t ^ 2 - 1) + gz t ^ 2))).
{ intros t; pose proof (L t) as H; cbn [fieldof cx cy cz] in H; rewrite iter_cart in H by apply off; exact H. }
assert (K : forall t, solovev_psi kappa (gx t) (gy t) (gz t) = solovev_psi kappa (gx 0) (gy 0) (gz 0)).
{ intros t.
  assert (Z : forall u, is_derive (fun t => solovev_psi kappa (gx t) (gy t) (gz t)) u 0).
  { intros u; destruct (D u) as [h1 [h2 h3]]; pose proof (off_pos _ _ (off u)) as P; unfold solovev_psi.
    auto_derive; [repeat split; eexists; eassumption|].
    der h1; der h2; der h3; field; lra. }
  destruct (MVT_gen (fun t => solovev_psi kappa (gx t) (gy t) (gz t)) t 0 (fun _ => 0)) as [x [_ E]].
  - intros; apply Z.
  - intros x _; apply continuity_pt_filterlim, (ex_derive_continuous (fun t => solovev_psi kappa (gx t) (gy t) (gz t))); exists 0; apply Z.
  - lra. }
split; [exact K|split].
- intros t; rewrite <- (K t); unfold solovev_psi.
  assert (0 <= (gx t ^ 2 + gy t ^ 2) * gz t ^ 2).
  { apply Rmult_le_pos; [pose proof (pow2_ge_0 (gx t)); pose proof (pow2_ge_0 (gy t)); lra|apply pow2_ge_0]. }
  lra.
- intros t; destruct (D t) as [h1 [h2 _]]; eexists; eexists; split; [exact h1|split; [exact h2|]].
  pose proof (off_pos _ _ (off t)); field; lra.
Qed.
Print Assumptions C83_surfaces.

(** the only closed line without poloidal field is the unit circle in the midplane: the magnetic axis *)
Theorem C83_magnetic_axis : forall kappa tau x y z : R, kappa <> 0 -> x <> 0 \/ y <> 0 ->
  let '(bx, by_, bz) := iter_field kappa tau x y z in
  (x * bx + y * by_ = 0 /\ bz = 0 <-> x ^ 2 + y ^ 2 = 1 /\ z = 0) /\
  (solovev_psi kappa x y z = 0 <-> x ^ 2 + y ^ 2 = 1 /\ z = 0).
Proof.
intros kappa tau x y z hk h; rewrite iter_cart by exact h; pose proof (off_pos _ _ h) as P.
assert (K : 0 < kappa ^ 2) by (pose proof (Rsqr_pos_lt _ hk) as Q; unfold Rsqr in Q; nra).
assert (E : x * (z * x - tau * y / (x ^ 2 + y ^ 2)) + y * (z * y + tau * x / (x ^ 2 + y ^ 2)) = z * (x ^ 2 + y ^ 2)) by (field; lra).
rewrite E; split; split.
- intros [h1 h2]; assert (z = 0) by (destruct (Rmult_integral _ _ h1); lra); subst z; split; [|reflexivity].
  assert (h3 : kappa ^ 2 / 2 * (x ^ 2 + y ^ 2 - 1) = 0) by lra.
  destruct (Rmult_integral _ _ h3); lra.
- intros [-> ->]; split; ring.
- unfold solovev_psi; intros H.
  assert (A : 0 <= kappa ^ 2 / 8 * (x ^ 2 + y ^ 2 - 1) ^ 2) by (apply Rmult_le_pos; [lra|apply pow2_ge_0]).
  assert (B : 0 <= (x ^ 2 + y ^ 2) * z ^ 2) by (apply Rmult_le_pos; [lra|apply pow2_ge_0]).
  assert (A' : kappa ^ 2 / 8 * (x ^ 2 + y ^ 2 - 1) ^ 2 = 0) by lra.
  assert (B' : (x ^ 2 + y ^ 2) * z ^ 2 = 0) by lra.
  split.
  + destruct (Rmult_integral _ _ A') as [c|c]; [lra|].
    rewrite <- Rsqr_pow2 in c; apply Rsqr_0_uniq in c; lra.
  + destruct (Rmult_integral _ _ B') as [c|c]; [lra|].
    rewrite <- Rsqr_pow2 in c; now apply Rsqr_0_uniq in c.
- intros [H ->]; unfold solovev_psi; rewrite H; field.
Qed.
Print Assumptions C83_magnetic_axis.

(** at the magnetic axis the toroidal rotation rate is tau and the poloidal motion linearises to dx' = dz, dz' = - kappa^2 dx
    (frequency kappa): the safety factor there, tau / kappa, is q_star (1 + kappa^2) / (1 + kappa) *)
Theorem C83_axis_rotation : forall kappa tau q_star : R, 0 < kappa ->
  iter_field kappa tau 1 0 0 = (0, tau, 0) /\
  is_derive (fun t => fst (fst (iter_field kappa tau t 0 0))) 1 0 /\
  is_derive (fun t => fst (fst (iter_field kappa tau 1 0 t))) 0 1 /\
  is_derive (fun t => snd (iter_field kappa tau t 0 0)) 1 (- kappa ^ 2) /\
  is_derive (fun t => snd (iter_field kappa tau 1 0 t)) 0 0 /\
  iter_tau q_star kappa / kappa = q_star * (1 + kappa ^ 2) / (1 + kappa).
Proof.
intros kappa tau q hk; assert (h : 1 <> 0 \/ 0 <> 0) by (left; lra).
split; [|split; [|split; [|split; [|split]]]].
- rewrite iter_cart by exact h; apply f_equal2; [apply f_equal2|]; field.
- apply (iter_dx kappa tau 1 0 0 (fun v => fst (fst v))); [exact h|]; dd.
- apply (iter_dz kappa tau 1 0 0 (fun v => fst (fst v))); [exact h|]; dd.
- apply (iter_dx kappa tau 1 0 0 snd); [exact h|]; dd.
- apply (iter_dz kappa tau 1 0 0 snd); [exact h|]; dd.
- unfold iter_tau; field; lra.
Qed.
Print Assumptions C83_axis_rotation.

(** but the boundary of the cerfon map is no flux surface, for any parameters: the outboard and the inboard midplane
    points of the boundary have different psi *)
Theorem C83_boundary_refuted : forall eps kappa alpha : R, 0 < eps -> kappa <> 0 ->
  let '(x0, y0, z0) := cerfon_map eps kappa alpha 1 (1, 0, 0) in
  let '(x1, y1, z1) := cerfon_map eps kappa alpha 1 (1, 1 / 2, 0) in
  solovev_psi kappa x1 y1 z1 < solovev_psi kappa x0 y0 z0.
Proof.
intros e k al he hk; rewrite !C35_cerfon_closed_form.
replace (2 * PI * 0) with 0 by ring; replace (2 * PI * (1 / 2)) with PI by field.
rewrite sin_0, sin_PI, !Rmult_0_r, !Rplus_0_r, cos_0, cos_PI, (Rabs_pos_eq e) by lra.
assert (K : 0 < k ^ 2) by (pose proof (Rsqr_pos_lt _ hk) as Q; unfold Rsqr in Q; nra).
unfold solovev_psi.
assert (E : k ^ 2 / 8 * (((1 + e * 1 * 1) * 1) ^ 2 + (- (1 + e * 1 * 1) * 0) ^ 2 - 1) ^ 2 - k ^ 2 / 8 * (((1 + e * 1 * -1) * 1) ^ 2 + (- (1 + e * 1 * -1) * 0) ^ 2 - 1) ^ 2 = k ^ 2 * e ^ 3) by field.
assert (0 < k ^ 2 * e ^ 3) by (apply Rmult_lt_0_compat; [exact K|apply pow_lt, he]).
simpl in *; nra.
Qed.
Print Assumptions C83_boundary_refuted.

(** so the field crosses the wall: somewhere on the boundary curve in the plane y = 0 its poloidal part is not tangential *)
Theorem C83_crosses_wall_refuted : forall eps kappa alpha tau : R, 0 < eps < 1 -> kappa <> 0 ->
  exists t Tx Tz,
    is_derive (fun u => fst (fst (cerfon_map eps kappa alpha 1 (1, u, 0)))) t Tx /\
    is_derive (fun u => snd (cerfon_map eps kappa alpha 1 (1, u, 0))) t Tz /\
    snd (fst (cerfon_map eps kappa alpha 1 (1, t, 0))) = 0 /\
    let '(bx, _, bz) := iter_B (cerfon_map eps kappa alpha 1) kappa tau (1, t, 0) in bx * Tz - bz * Tx <> 0.
Proof.
intros e k al tau he hk.
pose (g := fun u => 2 * PI * u + al * sin (2 * PI * u)).
pose (Rf := fun u => 1 + e * cos (g u)); pose (Zf := fun u => e * k * sin (2 * PI * u)).
assert (F : forall u, cerfon_map e k al 1 (1, u, 0) = (Rf u, 0, Zf u)).
{ intros u; rewrite C35_cerfon_closed_form; fold (g u); rewrite Rmult_0_r, cos_0, sin_0, Rabs_pos_eq by lra; unfold Rf, Zf.
  apply f_equal2; [apply f_equal2|]; ring. }
pose (DR := fun u => - e * sin (g u) * (2 * PI + al * (2 * PI * cos (2 * PI * u)))).
pose (DZ := fun u => e * k * (2 * PI * cos (2 * PI * u))).
assert (hR : forall u, is_derive Rf u (DR u)) by (intros u; unfold Rf, DR, g; auto_derive; [exact I|ring]).
assert (hZ : forall u, is_derive Zf u (DZ u)) by (intros u; unfold Zf, DZ; auto_derive; [exact I|ring]).
pose (f := fun u => solovev_psi k (Rf u) 0 (Zf u)).
pose (f' := fun u => Rf u * (Zf u * Rf u * DZ u + (k ^ 2 / 2 * (Rf u ^ 2 - 1) + Zf u ^ 2) * DR u)).
assert (hf : forall u, is_derive f u (f' u)).
{ intros u; pose proof (hR u) as h1; pose proof (hZ u) as h2; unfold f, f', solovev_psi.
  auto_derive; [repeat split; eexists; eassumption|]; der h1; der h2; field. }
destruct (MVT_gen f 0 (1 / 2) f') as [c [_ E]].
{ intros; apply hf. }
{ intros x _; apply continuity_pt_filterlim, (ex_derive_continuous f); eexists; apply hf. }
assert (NZ : f' c <> 0).
{ intros z; rewrite z in E; pose proof (C83_boundary_refuted e k al (proj1 he) hk) as B.
  rewrite !F in B; fold (f 0) in B; fold (f (1 / 2)) in B; lra. }
exists c, (DR c), (DZ c); split; [|split; [|split]].
- apply (is_derive_ext Rf); [intros u; now rewrite F|apply hR].
- apply (is_derive_ext Zf); [intros u; now rewrite F|apply hZ].
- now rewrite F.
- unfold iter_B; rewrite F.
  assert (P : 0 < Rf c) by (unfold Rf; pose proof (COS_bound (g c)); nra).
  rewrite iter_cart by (left; lra).
  intros z; apply NZ; unfold f'.
  replace (Zf c * Rf c * DZ c + (k ^ 2 / 2 * (Rf c ^ 2 - 1) + Zf c ^ 2) * DR c) with 0; [ring|].
  rewrite <- z; field; nra.
Qed.
Print Assumptions C83_crosses_wall_refuted.

Example C83_nonvacuous : exists gx gy gz, field_line (fieldof (iter_field 2 3)) gx gy gz /\ forall t, gx t <> 0 \/ gy t <> 0.
Proof.
exists (fun t => cos (3 * t)), (fun t => sin (3 * t)), (fun _ => 0).
assert (O : forall t, cos (3 * t) <> 0 \/ sin (3 * t) <> 0).
{ intros t; destruct (Req_dec (cos (3 * t)) 0) as [e|]; [right; intros f|left; assumption].
  pose proof (sin2_cos2 (3 * t)) as S; unfold Rsqr in S; rewrite e, f in S; lra. }
split; [|exact O].
intros t; cbn [fieldof cx cy cz]; rewrite iter_cart by apply O; cbn [fst snd].
assert (S : cos (3 * t) ^ 2 + sin (3 * t) ^ 2 = 1) by (pose proof (sin2_cos2 (3 * t)) as S; unfold Rsqr in S; simpl; lra).
rewrite S; split; [|split].
- auto_derive; [exact I|field].
- auto_derive; [exact I|field].
- replace (- (2 ^ 2 / 2 * (1 - 1) + 0 ^ 2)) with 0 by field; apply (is_derive_const 0 t).
Qed.
