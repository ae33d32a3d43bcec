(** Theorems about the initial field of scripts/config_scripts/hopf.py. *)
From Coq Require Import Reals Lra Lia Psatz ZArith.
From Coquelicot Require Import Coquelicot.
From Verif Require Import Model.Hopf Spec.CavitySpec Spec.HopfSpec.
Local Open Scope R_scope.

Lemma den_pos x y z : 1 <= den x y z.
Proof. unfold den; nra. Qed.
Lemma den_ne x y z : den x y z <> 0.
Proof. pose proof (den_pos x y z); lra. Qed.
(** the prefactor as a constant over the cube of the denominator *)
Definition c0 (s w1 w2 : R) : R := 4 * sqrt s / (PI * sqrt (w1 ^ 2 + w2 ^ 2)).
Lemma pref_eq s w1 w2 x y z : prefactor s w1 w2 x y z = c0 s w1 w2 * / (den x y z) ^ 3.
Proof.
unfold prefactor, c0, den, Rdiv; cbv zeta.
rewrite !Rinv_mult; ring.
Qed.

(** the map is affine with constant positive Jacobian determinant 1280 and maps the cube onto the box *)
Theorem C82_map :
  (forall x0 x1 x2 d0 d1 d2, hopf_F (x0 + d0, x1 + d1, x2 + d2) =
     let '(y0, y1, y2) := hopf_F (x0, x1, x2) in (y0 + 8 * d0, y1 + 8 * d1, y2 + 20 * d2)) /\
  forall y0 y1 y2,
    (-4 <= y0 <= 4 /\ -4 <= y1 <= 4 /\ -10 <= y2 <= 10) <->
    exists! x : R * R * R, (0 <= fst (fst x) <= 1 /\ 0 <= snd (fst x) <= 1 /\ 0 <= snd x <= 1) /\ hopf_F x = (y0, y1, y2).
Proof.
split.
- intros; unfold hopf_F; f_equal; [f_equal|]; ring.
- intros y0 y1 y2; split.
  + intros H; exists ((y0 + 4) / 8, (y1 + 4) / 8, (y2 + 10) / 20); split.
    * simpl; split; [lra|]. f_equal; [f_equal|]; field.
    * intros [[a b] c] [_ E]; simpl in E; injection E as E1 E2 E3; f_equal; [f_equal|]; lra.
  + intros [[[a b] c] [[H E] _]]; simpl in H, E; injection E as E1 E2 E3; lra.
Qed.
Print Assumptions C82_map.

(** the function that is projected returns the documented field at the image point *)
Theorem C82_formula : forall s w1 w2 x y z : R,
  let K := 4 * sqrt s / (PI * (1 + x ^ 2 + y ^ 2 + z ^ 2) ^ 3 * sqrt (w1 ^ 2 + w2 ^ 2)) in
  hopf_B s w1 w2 ((x + 4) / 8, (y + 4) / 8, (z + 10) / 20) =
    (K * (2 * w2 * y - 2 * w1 * x * z), K * (- 2 * w2 * x - 2 * w1 * y * z), K * (w1 * (x ^ 2 + y ^ 2 - z ^ 2 - 1))) /\
  hopf_B s w1 w2 ((x + 4) / 8, (y + 4) / 8, (z + 10) / 20) = hopf_field s w1 w2 x y z.
Proof.
intros s w1 w2 x y z K.
assert (E : hopf_B s w1 w2 ((x + 4) / 8, (y + 4) / 8, (z + 10) / 20) = hopf_field s w1 w2 x y z).
{ unfold hopf_B, hopf_F.
  replace ((x + 4) / 8 * 8 - 4) with x by field; replace ((y + 4) / 8 * 8 - 4) with y by field.
  replace ((z + 10) / 20 * 20 - 10) with z by field; reflexivity. }
split; [rewrite E|exact E].
assert (P : prefactor s w1 w2 x y z = K) by (unfold prefactor, K; now rewrite <- !Rplus_assoc).
unfold hopf_field; cbn [hopf_array]; now rewrite P.
Qed.
Print Assumptions C82_formula.

Ltac nz x y z := pose proof (den_pos x y z); unfold den in *; simpl in *;
  repeat (apply Rmult_integral_contrapositive_currified || split); try exact I; try lra.
(** the field is solenoidal everywhere in space, for all winding numbers and scales *)
Theorem C82_solenoidal : forall s w1 w2 : R, solenoidal (fieldof (hopf_field s w1 w2)).
Proof.
intros s w1 w2.
pose (c := c0 s w1 w2).
exists (fun x y z => c * (- 2 * w1 * z / den x y z ^ 3 - 6 * x * (2 * w2 * y - 2 * w1 * x * z) / den x y z ^ 4)),
  (fun x y z => c * (- 2 * w1 * z / den x y z ^ 3 - 6 * y * (- 2 * w2 * x - 2 * w1 * y * z) / den x y z ^ 4)),
  (fun x y z => c * (- 2 * w1 * z / den x y z ^ 3 - 6 * z * (w1 * (x ^ 2 + y ^ 2 - z ^ 2 - 1)) / den x y z ^ 4)).
split; [|split; [|split]].
- intros x y z; cbn [cx fieldof hopf_field hopf_array fst snd].
  apply (is_derive_ext (fun t => c * / den t y z ^ 3 * (2 * w2 * y - 2 * w1 * t * z))).
  { intros t; now rewrite pref_eq. }
  unfold den; pose proof (den_ne x y z) as N; unfold den in N; auto_derive; [nz x y z|field; exact N].
- intros x y z; cbn [cy fieldof hopf_field hopf_array fst snd].
  apply (is_derive_ext (fun t => c * / den x t z ^ 3 * (- 2 * w2 * x - 2 * w1 * t * z))).
  { intros t; now rewrite pref_eq. }
  unfold den; pose proof (den_ne x y z) as N; unfold den in N; auto_derive; [nz x y z|field; exact N].
- intros x y z; cbn [cz fieldof hopf_field hopf_array fst snd].
  apply (is_derive_ext (fun t => c * / den x y t ^ 3 * (w1 * (x ^ 2 + y ^ 2 - t ^ 2 - 1)))).
  { intros t; now rewrite pref_eq. }
  unfold den; pose proof (den_ne x y z) as N; unfold den in N; auto_derive; [nz x y z|field; exact N].
- intros x y z; pose proof (den_ne x y z) as N.
  replace 0 with (c * (6 * w1 * z * ((1 + (x ^ 2 + y ^ 2 + z ^ 2)) - den x y z) / den x y z ^ 4)) by (unfold den; unfold Rdiv; ring).
  field; exact N.
Qed.
Print Assumptions C82_solenoidal.

(** the strength of the field, and its zeros: there are none exactly when both winding numbers are nonzero *)
Theorem C82_strength : forall s w1 w2 : R, 0 < s -> (w1 <> 0 \/ w2 <> 0) ->
  (forall x y z, norm2 (hopf_field s w1 w2 x y z) =
     16 * s / (PI ^ 2 * den x y z ^ 6 * (w1 ^ 2 + w2 ^ 2)) *
     (w1 ^ 2 * (den x y z ^ 2 - 4 * (x ^ 2 + y ^ 2)) + w2 ^ 2 * (4 * (x ^ 2 + y ^ 2)))) /\
  ((forall x y z, hopf_field s w1 w2 x y z <> (0, 0, 0)) <-> w1 <> 0 /\ w2 <> 0).
Proof.
intros s w1 w2 hs hw.
assert (W : 0 < w1 ^ 2 + w2 ^ 2) by (destruct hw as [h|h]; pose proof (Rsqr_pos_lt _ h) as Q; unfold Rsqr in Q; nra).
assert (E : forall x y z, norm2 (hopf_field s w1 w2 x y z) =
     16 * s / (PI ^ 2 * den x y z ^ 6 * (w1 ^ 2 + w2 ^ 2)) *
     (w1 ^ 2 * (den x y z ^ 2 - 4 * (x ^ 2 + y ^ 2)) + w2 ^ 2 * (4 * (x ^ 2 + y ^ 2)))).
{ intros x y z; pose proof (den_ne x y z) as N; pose proof PI_neq0 as P.
  unfold norm2, hopf_field; cbn [hopf_array fst snd]; rewrite pref_eq; unfold c0.
  pose proof (sqrt_sqrt s (Rlt_le _ _ hs)) as A; pose proof (sqrt_sqrt _ (Rlt_le _ _ W)) as B.
  pose proof (sqrt_lt_R0 _ W) as C.
  set (q := sqrt (w1 ^ 2 + w2 ^ 2)) in *; set (r := sqrt s) in *.
  rewrite <- B, <- A.
  transitivity (16 * (r * r) / (PI ^ 2 * den x y z ^ 6 * (q * q)) *
    ((2 * w2 * y - 2 * w1 * x * z) ^ 2 + (- 2 * w2 * x - 2 * w1 * y * z) ^ 2 + (w1 * (x ^ 2 + y ^ 2 - z ^ 2 - 1)) ^ 2)).
  - field; repeat split; try assumption; lra.
  - f_equal; unfold den; ring. }
split; [exact E|].
assert (Z : forall x y z, hopf_field s w1 w2 x y z = (0, 0, 0) <->
   w1 ^ 2 * (den x y z ^ 2 - 4 * (x ^ 2 + y ^ 2)) + w2 ^ 2 * (4 * (x ^ 2 + y ^ 2)) = 0).
{ intros x y z; pose proof (E x y z) as Ex.
  assert (K : 0 < 16 * s / (PI ^ 2 * den x y z ^ 6 * (w1 ^ 2 + w2 ^ 2))).
  { pose proof (den_pos x y z); pose proof PI_RGT_0.
    apply Rdiv_lt_0_compat; [lra|]; apply Rmult_lt_0_compat; [apply Rmult_lt_0_compat; apply pow_lt; lra|lra]. }
  split.
  - intros H; rewrite H in Ex; unfold norm2 in Ex; simpl fst in Ex; simpl snd in Ex.
    assert (G : 16 * s / (PI ^ 2 * den x y z ^ 6 * (w1 ^ 2 + w2 ^ 2)) *
     (w1 ^ 2 * (den x y z ^ 2 - 4 * (x ^ 2 + y ^ 2)) + w2 ^ 2 * (4 * (x ^ 2 + y ^ 2))) = 0) by (rewrite <- Ex; ring).
    destruct (Rmult_integral _ _ G) as [G1|G1]; [lra|exact G1].
  - intros H; rewrite H, Rmult_0_r in Ex; unfold norm2 in Ex.
    destruct (hopf_field s w1 w2 x y z) as [[a b] d]; cbn [fst snd] in Ex.
    assert (a = 0 /\ b = 0 /\ d = 0) as [-> [-> ->]]; [|reflexivity].
    repeat split; nra. }
split.
- intros H; split; intros ->.
  + apply (H 0 0 0); apply Z; ring.
  + apply (H 1 0 0); apply Z; unfold den; ring.
- intros [h1 h2] x y z H; apply Z in H.
  pose proof (Rsqr_pos_lt _ h1) as Q1; pose proof (Rsqr_pos_lt _ h2) as Q2; unfold Rsqr in Q1, Q2.
  set (u := x ^ 2 + y ^ 2) in *.
  assert (U0 : 0 <= u) by (unfold u; nra).
  assert (D : den x y z ^ 2 - 4 * u = (u - 1) ^ 2 + 2 * (1 + u) * z ^ 2 + z ^ 4) by (unfold den, u; ring).
  assert (D0 : 0 <= (u - 1) ^ 2) by apply pow2_ge_0.
  assert (D1 : 0 <= 2 * (1 + u) * z ^ 2) by (apply Rmult_le_pos; [lra|apply pow2_ge_0]).
  assert (D2 : 0 <= z ^ 4) by (replace (z ^ 4) with ((z ^ 2) ^ 2) by ring; apply pow2_ge_0).
  assert (T1 : 0 <= w1 ^ 2 * (den x y z ^ 2 - 4 * u)) by (apply Rmult_le_pos; [apply pow2_ge_0|lra]).
  assert (T2 : 0 <= w2 ^ 2 * (4 * u)) by (apply Rmult_le_pos; [apply pow2_ge_0|lra]).
  assert (U1 : u = 0).
  { assert (H0 : w2 ^ 2 * (4 * u) = 0) by lra; destruct (Rmult_integral _ _ H0) as [h|h]; [simpl in h; lra|lra]. }
  assert (H1 : w1 ^ 2 * (den x y z ^ 2 - 4 * u) = 0) by lra.
  destruct (Rmult_integral _ _ H1) as [h|h]; [simpl in h; lra|].
  rewrite U1 in D, D0, D1; rewrite U1 in h; lra.
Qed.
Print Assumptions C82_strength.

(* ------------------------------------------------------------- field lines *)
Ltac der h := match type of h with is_derive ?f ?t ?l =>
  replace (Derive (fun x => f x) t) with l by (symmetry; exact (is_derive_unique _ _ _ h)) end.
Section Lines.
Variables (s w1 w2 : R) (gx gy gz : R -> R).
Hypothesis L : field_line (fieldof (hopf_field s w1 w2)) gx gy gz.
Let c t := prefactor s w1 w2 (gx t) (gy t) (gz t).
Let D t := den (gx t) (gy t) (gz t).
Let X t := SX (gx t) (gy t) (gz t).
Let Y t := SY (gx t) (gy t) (gz t).
Let U t := SU (gx t) (gy t) (gz t).
Let V t := SW (gx t) (gy t) (gz t).
Lemma Lx t : is_derive gx t (c t * (2 * w2 * gy t - 2 * w1 * gx t * gz t)).
Proof. exact (proj1 (L t)). Qed.
Lemma Ly t : is_derive gy t (c t * (- 2 * w2 * gx t - 2 * w1 * gy t * gz t)).
Proof. exact (proj1 (proj2 (L t))). Qed.
Lemma Lz t : is_derive gz t (c t * (w1 * (gx t ^ 2 + gy t ^ 2 - gz t ^ 2 - 1))).
Proof. exact (proj2 (proj2 (L t))). Qed.
Lemma D_der t : is_derive D t (- 2 * w1 * c t * gz t * D t).
Proof.
unfold D, den; pose proof (Lx t) as hx; pose proof (Ly t) as hy; pose proof (Lz t) as hz.
auto_derive.
- repeat split; eexists; eassumption.
- der hx; der hy; der hz; ring.
Qed.
Lemma quot_der (f : R -> R) f' t : is_derive f t f' ->
  is_derive (fun t => f t / D t) t ((f' + 2 * w1 * c t * gz t * f t) / D t).
Proof.
intros h; pose proof (D_der t) as d; pose proof (den_ne (gx t) (gy t) (gz t)) as N; fold (D t) in N.
auto_derive.
- repeat split; try (eexists; eassumption); exact N.
- der h; der d; field; exact N.
Qed.
Lemma X_der t : is_derive X t (2 * w2 * c t * Y t).
Proof.
pose proof (den_ne (gx t) (gy t) (gz t)) as N; fold (D t) in N.
replace (2 * w2 * c t * Y t) with ((2 * (c t * (2 * w2 * gy t - 2 * w1 * gx t * gz t)) + 2 * w1 * c t * gz t * (2 * gx t)) / D t)
  by (unfold Y, SY; fold (D t); field; exact N).
apply (quot_der (fun t => 2 * gx t)); apply (is_derive_scal gx t 2), Lx.
Qed.
Lemma Y_der t : is_derive Y t (- (2 * w2 * c t * X t)).
Proof.
pose proof (den_ne (gx t) (gy t) (gz t)) as N; fold (D t) in N.
replace (- (2 * w2 * c t * X t)) with ((2 * (c t * (- 2 * w2 * gx t - 2 * w1 * gy t * gz t)) + 2 * w1 * c t * gz t * (2 * gy t)) / D t)
  by (unfold X, SX; fold (D t); field; exact N).
apply (quot_der (fun t => 2 * gy t)); apply (is_derive_scal gy t 2), Ly.
Qed.
Lemma U_der t : is_derive U t (2 * w1 * c t * V t).
Proof.
pose proof (den_ne (gx t) (gy t) (gz t)) as N; fold (D t) in N.
replace (2 * w1 * c t * V t) with ((2 * (c t * (w1 * (gx t ^ 2 + gy t ^ 2 - gz t ^ 2 - 1))) + 2 * w1 * c t * gz t * (2 * gz t)) / D t).
- apply (quot_der (fun t => 2 * gz t)); apply (is_derive_scal gz t 2), Lz.
- unfold V, SW; fold (D t).
  replace (D t - 2) with (gx t ^ 2 + gy t ^ 2 + gz t ^ 2 - 1) by (unfold D, den; ring); field; exact N.
Qed.
Lemma V_der t : is_derive V t (- (2 * w1 * c t * U t)).
Proof.
pose proof (den_ne (gx t) (gy t) (gz t)) as N; fold (D t) in N.
replace (- (2 * w1 * c t * U t)) with ((- 2 * w1 * c t * gz t * D t + 2 * w1 * c t * gz t * (D t - 2)) / D t)
  by (unfold U, SU; fold (D t); field; exact N).
apply (quot_der (fun t => D t - 2)).
pose proof (D_der t) as d; auto_derive; [eexists; exact d|der d; ring].
Qed.
Lemma const_der (f : R -> R) : (forall t, is_derive f t 0) -> forall a b, f a = f b.
Proof.
intros h a b.
destruct (MVT_gen f a b (fun _ => 0)) as [x [_ E]].
- intros; apply h.
- intros x _; apply continuity_pt_filterlim, (ex_derive_continuous f); exists 0; apply h.
- lra.
Qed.
(** a pair of functions with a' = w c b, b' = - w c a turns with the angle w tau if tau' = c *)
Lemma turn (a b tau : R -> R) w : (forall t, is_derive a t (w * c t * b t)) ->
  (forall t, is_derive b t (- (w * c t * a t))) -> (forall t, is_derive tau t (c t)) ->
  forall t0 t, turned (w * (tau t - tau t0)) (a t0) (b t0) (a t) (b t).
Proof.
intros ha hb ht t0 t.
assert (P : forall u, cos (w * (tau u - tau t0)) * a u - sin (w * (tau u - tau t0)) * b u = a t0).
{ intros u.
  rewrite (const_der (fun v => cos (w * (tau v - tau t0)) * a v - sin (w * (tau v - tau t0)) * b v)) with (b := t0).
  - rewrite Rminus_eq_0, Rmult_0_r, cos_0, sin_0; ring.
  - intros v; pose proof (ha v) as h1; pose proof (hb v) as h2; pose proof (ht v) as h3.
    auto_derive; [repeat split; eexists; eassumption|].
    der h1; der h2; der h3; unfold Rminus; ring. }
assert (Q : forall u, sin (w * (tau u - tau t0)) * a u + cos (w * (tau u - tau t0)) * b u = b t0).
{ intros u.
  rewrite (const_der (fun v => sin (w * (tau v - tau t0)) * a v + cos (w * (tau v - tau t0)) * b v)) with (b := t0).
  - rewrite Rminus_eq_0, Rmult_0_r, cos_0, sin_0; ring.
  - intros v; pose proof (ha v) as h1; pose proof (hb v) as h2; pose proof (ht v) as h3.
    auto_derive; [repeat split; eexists; eassumption|].
    der h1; der h2; der h3; unfold Rminus; ring. }
specialize (P t); specialize (Q t).
pose proof (sin2_cos2 (w * (tau t - tau t0))) as S; unfold Rsqr in S.
split; rewrite <- P, <- Q.
- transitivity ((sin (w * (tau t - tau t0)) * sin (w * (tau t - tau t0)) + cos (w * (tau t - tau t0)) * cos (w * (tau t - tau t0))) * a t); [rewrite S|]; ring.
- transitivity ((sin (w * (tau t - tau t0)) * sin (w * (tau t - tau t0)) + cos (w * (tau t - tau t0)) * cos (w * (tau t - tau t0))) * b t); [rewrite S|]; ring.
Qed.
Lemma c_cont t : continuous c t.
Proof.
apply (ex_derive_continuous c).
apply (ex_derive_ext (fun t => c0 s w1 w2 * / D t ^ 3)).
{ intros u; unfold c; now rewrite pref_eq. }
pose proof (D_der t) as d; pose proof (den_ne (gx t) (gy t) (gz t)) as N; fold (D t) in N.
auto_derive; split; [eexists; exact d|split; [|exact I]].
repeat apply Rmult_integral_contrapositive_currified; try exact N; lra.
Qed.
Lemma tau_exists : exists tau : R -> R, forall t, is_derive tau t (c t).
Proof.
exists (fun t => RInt c 0 t); intros t.
apply (is_derive_RInt c (fun t => RInt c 0 t) 0 t).
- apply filter_forall; intros u; apply (RInt_correct c 0 u), (ex_RInt_continuous c); intros; apply c_cont.
- apply c_cont.
Qed.
End Lines.

(** along every field line the two complex phases turn uniformly, at rates 2 w2 and 2 w1 with respect to one common clock *)
Theorem C82_windings : forall s w1 w2 gx gy gz, field_line (fieldof (hopf_field s w1 w2)) gx gy gz ->
  exists tau : R -> R,
    (forall t, is_derive tau t (prefactor s w1 w2 (gx t) (gy t) (gz t))) /\
    forall t0 t,
      turned (2 * w2 * (tau t - tau t0)) (SX (gx t0) (gy t0) (gz t0)) (SY (gx t0) (gy t0) (gz t0))
                                        (SX (gx t) (gy t) (gz t)) (SY (gx t) (gy t) (gz t)) /\
      turned (2 * w1 * (tau t - tau t0)) (SU (gx t0) (gy t0) (gz t0)) (SW (gx t0) (gy t0) (gz t0))
                                        (SU (gx t) (gy t) (gz t)) (SW (gx t) (gy t) (gz t)).
Proof.
intros s w1 w2 gx gy gz L.
destruct (tau_exists s w1 w2 gx gy gz L) as [tau ht]; exists tau; split; [exact ht|].
intros t0 t; split.
- apply (turn s w1 w2 gx gy gz (fun t => SX (gx t) (gy t) (gz t)) (fun t => SY (gx t) (gy t) (gz t)) tau); [| |exact ht].
  + exact (X_der s w1 w2 gx gy gz L).
  + exact (Y_der s w1 w2 gx gy gz L).
- apply (turn s w1 w2 gx gy gz (fun t => SU (gx t) (gy t) (gz t)) (fun t => SW (gx t) (gy t) (gz t)) tau); [| |exact ht].
  + exact (U_der s w1 w2 gx gy gz L).
  + exact (V_der s w1 w2 gx gy gz L).
Qed.
Print Assumptions C82_windings.

Lemma turned_norm th a0 b0 a b : turned th a0 b0 a b -> a ^ 2 + b ^ 2 = a0 ^ 2 + b0 ^ 2.
Proof.
intros [-> ->]; pose proof (sin2_cos2 th) as S; unfold Rsqr in S.
transitivity ((sin th * sin th + cos th * cos th) * (a0 ^ 2 + b0 ^ 2)); [ring|rewrite S; ring].
Qed.
Lemma full_turn (k : Z) : cos (2 * IZR k * PI) = 1 /\ sin (2 * IZR k * PI) = 0.
Proof.
assert (N : forall n : nat, cos (2 * INR n * PI) = 1 /\ sin (2 * INR n * PI) = 0).
{ intros n; split.
  - replace (2 * INR n * PI) with (0 + 2 * INR n * PI) by ring; rewrite cos_period; apply cos_0.
  - replace (2 * INR n * PI) with (0 + 2 * INR n * PI) by ring; rewrite sin_period; apply sin_0. }
destruct (Z_le_gt_dec 0 k) as [h|h].
- destruct (IZN k h) as [n ->]; rewrite <- INR_IZR_INZ; apply N.
- destruct (IZN (- k)) as [n hn]; [lia|].
  replace k with (- Z.of_nat n)%Z by lia.
  rewrite opp_IZR, <- INR_IZR_INZ.
  replace (2 * - INR n * PI) with (- (2 * INR n * PI)) by ring.
  rewrite cos_neg, sin_neg; destruct (N n) as [-> ->]; split; ring.
Qed.
Lemma turned_full k a0 b0 a b : turned (2 * IZR k * PI) a0 b0 a b -> a = a0 /\ b = b0.
Proof. intros [-> ->]; destruct (full_turn k) as [-> ->]; split; ring. Qed.
Lemma stereo_inj x y z x' y' z' : SX x y z = SX x' y' z' -> SY x y z = SY x' y' z' -> SU x y z = SU x' y' z' ->
  SW x y z = SW x' y' z' -> x = x' /\ y = y' /\ z = z'.
Proof.
unfold SX, SY, SU, SW; pose proof (den_ne x y z) as N; pose proof (den_ne x' y' z') as N'.
intros hx hy hz hw.
assert (E : den x y z = den x' y' z').
{ assert (I : / den x y z = / den x' y' z').
  { replace (/ den x y z) with ((1 - (den x y z - 2) / den x y z) / 2) by (field; exact N).
    rewrite hw; field; exact N'. }
  rewrite <- (Rinv_inv (den x y z)), I, Rinv_inv; reflexivity. }
rewrite E in hx, hy, hz.
repeat split.
- replace x with (2 * x / den x' y' z' * den x' y' z' / 2) by (field; exact N'); rewrite hx; field; exact N'.
- replace y with (2 * y / den x' y' z' * den x' y' z' / 2) by (field; exact N'); rewrite hy; field; exact N'.
- replace z with (2 * z / den x' y' z' * den x' y' z' / 2) by (field; exact N'); rewrite hz; field; exact N'.
Qed.
Lemma den_bound d x y z : SX x y z ^ 2 + SY x y z ^ 2 = d -> d * den x y z <= 4.
Proof.
intros <-; unfold SX, SY; pose proof (den_pos x y z) as P; pose proof (den_ne x y z) as N.
replace (((2 * x / den x y z) ^ 2 + (2 * y / den x y z) ^ 2) * den x y z) with (4 * ((x ^ 2 + y ^ 2) / den x y z)) by (field; exact N).
assert (H : (x ^ 2 + y ^ 2) / den x y z <= 1); [|lra].
apply (Rmult_le_reg_r (den x y z)); [lra|].
replace ((x ^ 2 + y ^ 2) / den x y z * den x y z) with (x ^ 2 + y ^ 2) by (field; exact N).
unfold den; pose proof (pow2_ge_0 z); lra.
Qed.
Lemma c0_pos s w1 w2 : 0 < s -> (w1 <> 0 \/ w2 <> 0) -> 0 < c0 s w1 w2.
Proof.
intros hs hw.
assert (W : 0 < w1 ^ 2 + w2 ^ 2) by (destruct hw as [h|h]; pose proof (Rsqr_pos_lt _ h) as Q; unfold Rsqr in Q; nra).
unfold c0; apply Rdiv_lt_0_compat.
- pose proof (sqrt_lt_R0 _ hs); lra.
- apply Rmult_lt_0_compat; [apply PI_RGT_0|apply sqrt_lt_R0, W].
Qed.

(** for integer winding numbers every field line off the z-axis is closed: it returns to each of its points *)
Theorem C82_closed : forall (s : R) (k1 k2 : Z) gx gy gz, 0 < s -> (k1 <> 0 \/ k2 <> 0)%Z ->
  field_line (fieldof (hopf_field s (IZR k1) (IZR k2))) gx gy gz -> (gx 0 <> 0 \/ gy 0 <> 0) ->
  forall t, exists t', t < t' /\ gx t' = gx t /\ gy t' = gy t /\ gz t' = gz t.
Proof.
intros s k1 k2 gx gy gz hs hk L ho t.
assert (C0 : 0 < c0 s (IZR k1) (IZR k2)).
{ apply c0_pos; [exact hs|]; destruct hk as [h|h]; [left|right]; now apply not_0_IZR. }
destruct (C82_windings _ _ _ _ _ _ L) as [tau [ht T]].
set (d := SX (gx 0) (gy 0) (gz 0) ^ 2 + SY (gx 0) (gy 0) (gz 0) ^ 2).
assert (D0 : 0 < d).
{ unfold d, SX, SY; pose proof (den_pos (gx 0) (gy 0) (gz 0)) as P; pose proof (den_ne (gx 0) (gy 0) (gz 0)) as N.
  replace ((2 * gx 0 / den (gx 0) (gy 0) (gz 0)) ^ 2 + (2 * gy 0 / den (gx 0) (gy 0) (gz 0)) ^ 2)
    with (4 * (gx 0 * gx 0 + gy 0 * gy 0) / den (gx 0) (gy 0) (gz 0) ^ 2) by (field; exact N).
  apply Rdiv_lt_0_compat; [|apply pow_lt; lra].
  destruct ho as [h|h]; pose proof (Rsqr_pos_lt _ h) as Q; unfold Rsqr in Q;
    [pose proof (Rle_0_sqr (gy 0)) as Q'|pose proof (Rle_0_sqr (gx 0)) as Q']; unfold Rsqr in Q'; lra. }
assert (DB : forall u, d * den (gx u) (gy u) (gz u) <= 4).
{ intros u; apply den_bound; destruct (T 0 u) as [T1 _]; exact (turned_norm _ _ _ _ _ T1). }
set (m := c0 s (IZR k1) (IZR k2) * (d / 4) ^ 3).
assert (M : 0 < m) by (unfold m; apply Rmult_lt_0_compat; [exact C0|apply pow_lt; lra]).
assert (CB : forall u, m <= prefactor s (IZR k1) (IZR k2) (gx u) (gy u) (gz u)).
{ intros u; rewrite pref_eq; unfold m; apply Rmult_le_compat_l; [lra|].
  rewrite <- pow_inv; apply pow_incr; split; [lra|].
  pose proof (den_pos (gx u) (gy u) (gz u)) as P; pose proof (DB u) as B.
  apply (Rmult_le_reg_r (den (gx u) (gy u) (gz u))); [lra|].
  rewrite Rinv_l; [lra|apply den_ne]. }
pose proof PI_RGT_0 as HP.
assert (TC : continuity tau).
{ intros u; apply continuity_pt_filterlim, (ex_derive_continuous tau); eexists; apply ht. }
assert (HM : 0 < PI / m) by (apply Rdiv_lt_0_compat; assumption).
assert (G : PI <= tau (t + PI / m) - tau t).
{ destruct (MVT_gen tau t (t + PI / m) (fun u => prefactor s (IZR k1) (IZR k2) (gx u) (gy u) (gz u))) as [x [_ E]].
  - intros; apply ht.
  - intros; apply TC.
  - rewrite E; pose proof (CB x) as B.
    replace PI with (m * (PI / m)) at 1 by (field; lra).
    replace (t + PI / m - t) with (PI / m) by ring.
    apply Rmult_le_compat_r; lra. }
destruct (IVT_gen tau t (t + PI / m) (tau t + PI) TC) as [t' [B E]].
{ rewrite Rmin_left, Rmax_right by lra; lra. }
rewrite Rmin_left, Rmax_right in B by lra.
exists t'; split.
- destruct (Req_dec t' t) as [e|ne]; [rewrite e in E; lra|lra].
- destruct (T t t') as [T1 T2].
  rewrite E in T1, T2.
  replace (tau t + PI - tau t) with PI in T1, T2 by ring.
  apply turned_full in T1; apply turned_full in T2.
  apply stereo_inj; [apply T1|apply T1|apply T2|apply T2].
Qed.
Print Assumptions C82_closed.

(** on the axis the field lines are straight and never return *)
Theorem C82_axis : forall (s w1 w2 : R) gx gy gz, 0 < s -> w1 <> 0 ->
  field_line (fieldof (hopf_field s w1 w2)) gx gy gz -> gx 0 = 0 -> gy 0 = 0 ->
  forall t t', t < t' -> (gx t = 0 /\ gy t = 0) /\ w1 * gz t' < w1 * gz t.
Proof.
intros s w1 w2 gx gy gz hs hw L h1 h2 t t' lt.
assert (C0 : 0 < c0 s w1 w2) by (apply c0_pos; auto).
destruct (C82_windings _ _ _ _ _ _ L) as [tau [ht T]].
assert (A : forall u, gx u = 0 /\ gy u = 0).
{ intros u; destruct (T 0 u) as [[E1 E2] _].
  unfold SX, SY in E1, E2; rewrite h1, h2 in E1, E2; pose proof (den_ne (gx u) (gy u) (gz u)) as N.
  split.
  - replace (gx u) with (2 * gx u / den (gx u) (gy u) (gz u) * den (gx u) (gy u) (gz u) / 2) at 1 by (field; exact N).
    rewrite E1; unfold Rdiv; ring.
  - replace (gy u) with (2 * gy u / den (gx u) (gy u) (gz u) * den (gx u) (gy u) (gz u) / 2) at 1 by (field; exact N).
    rewrite E2; unfold Rdiv; ring. }
split; [apply A|].
assert (Q : 0 < w1 * w1) by (pose proof (Rsqr_pos_lt _ hw) as Q; exact Q).
destruct (MVT_gen gz t t' (fun u => prefactor s w1 w2 (gx u) (gy u) (gz u) * (w1 * (gx u ^ 2 + gy u ^ 2 - gz u ^ 2 - 1)))) as [x [_ E]].
- intros x _; apply (proj2 (proj2 (L x))).
- intros x _; apply continuity_pt_filterlim, (ex_derive_continuous gz); eexists; apply (proj2 (proj2 (L x))).
- destruct (A x) as [-> ->] in E.
  assert (P : 0 < prefactor s w1 w2 0 0 (gz x)).
  { rewrite pref_eq; apply Rmult_lt_0_compat; [exact C0|]; apply Rinv_0_lt_compat, pow_lt; pose proof (den_pos 0 0 (gz x)); lra. }
  assert (F : w1 * (gz t' - gz t) = - (prefactor s w1 w2 0 0 (gz x) * (w1 * w1) * (1 + gz x ^ 2) * (t' - t))) by (rewrite E; ring).
  assert (0 < prefactor s w1 w2 0 0 (gz x) * (w1 * w1) * (1 + gz x ^ 2) * (t' - t)).
  { pose proof (pow2_ge_0 (gz x)); apply Rmult_lt_0_compat; [apply Rmult_lt_0_compat; [apply Rmult_lt_0_compat; assumption|lra]|lra]. }
  lra.
Qed.
Print Assumptions C82_axis.

(** the unit circle in the plane z = 0 is a field line off the axis, for the default configuration s = 1, windings 3, 2 *)
Example C82_nonvacuous : exists gx gy gz, field_line (fieldof (hopf_field 1 3 2)) gx gy gz /\ gx 0 <> 0.
Proof.
pose (k := 4 * (c0 1 3 2 / 8)).
exists (fun t => cos (k * t)), (fun t => - sin (k * t)), (fun _ => 0).
assert (D : forall t, den (cos (k * t)) (- sin (k * t)) 0 = 2).
{ intros t; unfold den; pose proof (sin2_cos2 (k * t)) as S; unfold Rsqr in S.
  replace (1 + (cos (k * t) ^ 2 + (- sin (k * t)) ^ 2 + 0 ^ 2)) with (1 + (sin (k * t) * sin (k * t) + cos (k * t) * cos (k * t))) by ring.
  rewrite S; ring. }
split.
- intros t; cbn [fieldof cx cy cz hopf_field hopf_array fst snd]; rewrite pref_eq, D.
  split; [|split].
  + auto_derive; [exact I|unfold k; field].
  + auto_derive; [exact I|unfold k; field].
  + replace (c0 1 3 2 * / 2 ^ 3 * (3 * (cos (k * t) ^ 2 + (- sin (k * t)) ^ 2 - 0 ^ 2 - 1))) with 0.
    * apply (is_derive_const 0 t).
    * pose proof (sin2_cos2 (k * t)) as S; unfold Rsqr in S.
      replace (cos (k * t) ^ 2 + (- sin (k * t)) ^ 2 - 0 ^ 2 - 1) with ((sin (k * t) * sin (k * t) + cos (k * t) * cos (k * t)) - 1) by ring.
      rewrite S; ring.
- rewrite Rmult_0_r, cos_0; lra.
Qed.
