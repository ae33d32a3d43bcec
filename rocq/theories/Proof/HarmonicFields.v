(** The exact fields of the Helmholtz and hollow-toroid tests in logical coordinates. *)
From Coq Require Import Reals Lra.
From Coquelicot Require Import Coquelicot.
From mathcomp Require Import all_ssreflect all_algebra.
From Verif Require Import Model.RBase Model.Forms Model.FormEval Model.Geometry Model.Maps Model.HarmonicTests.
From Verif Require Import Spec.CalculusSpec Spec.MapSpec Spec.HarmonicSpec Proof.RField Proof.MapProofs Proof.JacProofs Proof.FieldLineProofs.
Set Implicit Arguments.
Unset Strict Implicit.
Unset Printing Implicit Defensive.
Local Open Scope R_scope.

(** matrix of a toroidal map: columns *)
Definition tor_mx (c s w R Rr Rt Rz Zr Zt Zz : R) : mat3 R_realFieldType :=
  fun k a => coord k (if a == 0%N then (Rr * c, - Rr * s, Zr) else if a == 1%N then (Rt * c, - Rt * s, Zt)
    else (Rz * c - w * R * s, - Rz * s - w * R * c, Zz)).
Lemma toroidal_mx (Rf Zf : R -> R -> R -> R) w r t z (Rr Rt Rz Zr Zt Zz : R) :
  is_derive (fun s => Rf s t z) r Rr -> is_derive (fun s => Rf r s z) t Rt -> is_derive (fun s => Rf r t s) z Rz ->
  is_derive (fun s => Zf s t z) r Zr -> is_derive (fun s => Zf r s z) t Zt -> is_derive (fun s => Zf r t s) z Zz ->
  is_jacobian (fun x => let: (r, t, z) := x in (Rf r t z * cos (w * z), - Rf r t z * sin (w * z), Zf r t z))
    (r, t, z) (tor_mx (cos (w * z)) (sin (w * z)) w (Rf r t z) Rr Rt Rz Zr Zt Zz).
Proof.
move=> H1 H2 H3 H4 H5 H6.
  apply: (@jacobian9 _ r t z (Rr * cos (w * z), - Rr * sin (w * z), Zr) (Rt * cos (w * z), - Rt * sin (w * z), Zt)
    (Rz * cos (w * z) - w * Rf r t z * sin (w * z), - Rz * sin (w * z) - w * Rf r t z * cos (w * z), Zz)) => /=.
  - split=> //.
    + by auto_derive; [by exists Rr | rewrite (is_derive_unique _ _ _ H1); ring].
    + by auto_derive; [by exists Rr | rewrite (is_derive_unique _ _ _ H1); ring].
  - split=> //.
    + by auto_derive; [by exists Rt | rewrite (is_derive_unique _ _ _ H2); ring].
    + by auto_derive; [by exists Rt | rewrite (is_derive_unique _ _ _ H2); ring].
  - split=> //.
    + by auto_derive; [by exists Rz | rewrite (is_derive_unique (fun s => Rf r t s) z Rz H3); ring].
    + by auto_derive; [by exists Rz | rewrite (is_derive_unique (fun s => Rf r t s) z Rz H3); ring].
Qed.
Lemma sum3R (f : nat -> R) : (\sum_(i < 3) (f i : R_realFieldType))%R = f 0%N + f 1%N + f 2%N :> R.
Proof. by rewrite !big_ord_recl big_ord0 /= GRing.addr0 /bump /= !addn0 GRing.addrA. Qed.
Lemma tor_det c s w R Rr Rt Rz Zr Zt Zz : s * s + c * c = 1 ->
  det33 (tor_mx c s w R Rr Rt Rz Zr Zt Zz) = w * R * (Rr * Zt - Rt * Zr) :> Reals.Rdefinitions.R.
Proof.
move=> E; rewrite det33_R /tor_mx /=.
have -> : w * R * (Rr * Zt - Rt * Zr) = w * R * (Rr * Zt - Rt * Zr) * (s * s + c * c) by rewrite E; ring.
ring.
Qed.
Lemma divE (x y : R) : y <> 0 -> (x / y)%R = x / y :> R.
Proof. by move=> H; rewrite RdivE //; apply/eqP. Qed.
Lemma forms_intro F x DF (B : point) (a b : nat -> R) : is_jacobian F x DF -> det33 DF <> 0 :> R ->
  (forall k, (k < 3)%N -> DF 0%N k * coord 0 B + DF 1%N k * coord 1 B + DF 2%N k * coord 2 B = a k) ->
  (forall k, (k < 3)%N -> DF k 0%N * b 0%N + DF k 1%N * b 1%N + DF k 2%N * b 2%N = coord k B * det33 DF) ->
  forms_at F x B a b.
Proof.
move=> HJ Hd Ha Hb; exists DF; split=> // k Hk; split.
- by rewrite -Ha // /= /mulv3 (sum3R (fun m => DF m k * coord m B)).
- rewrite /pushforward divE //.
  have -> : mulv3 DF b k = coord k B * det33 DF :> R by rewrite -Hb // /mulv3 (sum3R (fun m => DF k m * b m)).
  by field.
Qed.
Lemma forms_pullback F x (B : point) (a b a' : nat -> R) DF : forms_at F x B a b -> is_jacobian F x DF ->
  (forall k, (k < 3)%N -> DF 0%N k * coord 0 B + DF 1%N k * coord 1 B + DF 2%N k * coord 2 B = a' k) ->
  forall k, (k < 3)%N -> a k = a' k.
Proof.
move=> [DF' [HJ _ H]] HJ' Ha k Hk; rewrite -(proj1 (H k Hk)) -Ha // /= /mulv3 (sum3R (fun m => DF' m k * coord m B)).
by have U := is_jacobian_unique HJ' HJ; rewrite -!U.
Qed.
Lemma forms_pushforward F x (B : point) (a b b' : nat -> R) DF : forms_at F x B a b -> is_jacobian F x DF ->
  (forall k, (k < 3)%N -> DF k 0%N * b' 0%N + DF k 1%N * b' 1%N + DF k 2%N * b' 2%N = coord k B * det33 DF) ->
  forall k, (k < 3)%N -> b k = b' k.
Proof.
move=> [DF' [HJ Hd H]] HJ' Hb; have U := is_jacobian_unique HJ' HJ.
have Ed : det33 DF = det33 DF' :> R by rewrite !det33_R !U.
have E k : (k < 3)%N -> DF' k 0%N * (b 0%N - b' 0%N) + DF' k 1%N * (b 1%N - b' 1%N) + DF' k 2%N * (b 2%N - b' 2%N) = 0.
  move=> Hk; have := Hb k Hk; have := proj2 (H k Hk); rewrite /pushforward divE // /mulv3 (sum3R (fun m => DF' k m * b m)) => E1.
  rewrite !U // Ed -E1 => E2.
  have : DF' k 0%N * b' 0%N + DF' k 1%N * b' 1%N + DF' k 2%N * b' 2%N = DF' k 0%N * b 0%N + DF' k 1%N * b 1%N + DF' k 2%N * b 2%N by rewrite E2; field.
  lra.
have E0 := E 0%N isT; have E1 := E 1%N isT; have E2 := E 2%N isT; rewrite det33_R in Hd.
move: (DF' 0%N 0%N) (DF' 0%N 1%N) (DF' 0%N 2%N) (DF' 1%N 0%N) (DF' 1%N 1%N) (DF' 1%N 2%N) (DF' 2%N 0%N) (DF' 2%N 1%N) (DF' 2%N 2%N) E0 E1 E2 Hd.
move=> m00 m01 m02 m10 m11 m12 m20 m21 m22 E0 E1 E2 Hd.
case=> [|[|[|//]]] _; apply: Rminus_diag_uniq; apply: (Rmult_eq_reg_l _ _ _ _ Hd); rewrite Rmult_0_r.
all: move: (b 0%N - b' 0%N) (b 1%N - b' 1%N) (b 2%N - b' 2%N) E0 E1 E2 => u v w E0 E1 E2.
- transitivity ((m00 * u + m01 * v + m02 * w) * (m11 * m22 - m12 * m21) + (m10 * u + m11 * v + m12 * w) * (m21 * m02 - m22 * m01) + (m20 * u + m21 * v + m22 * w) * (m01 * m12 - m02 * m11)); [ring | rewrite E0 E1 E2; ring].
- transitivity ((m00 * u + m01 * v + m02 * w) * (m12 * m20 - m10 * m22) + (m10 * u + m11 * v + m12 * w) * (m22 * m00 - m20 * m02) + (m20 * u + m21 * v + m22 * w) * (m02 * m10 - m00 * m12)); [ring | rewrite E0 E1 E2; ring].
- transitivity ((m00 * u + m01 * v + m02 * w) * (m10 * m21 - m11 * m20) + (m10 * u + m11 * v + m12 * w) * (m20 * m01 - m21 * m00) + (m20 * u + m21 * v + m22 * w) * (m00 * m11 - m01 * m10)); [ring | rewrite E0 E1 E2; ring].
Qed.
Lemma arctan2_dir rho s c : 0 < rho -> s * s + c * c = 1 -> cos (arctan2 (- rho * s) (rho * c)) = c /\ sin (arctan2 (- rho * s) (rho * c)) = - s.
Proof.
move=> Hr E; have [C S] := arctan2_polar (- rho * s) (rho * c).
have Eq : sqrt ((rho * c) ^ 2 + (- rho * s) ^ 2) = rho.
  have -> : (rho * c) ^ 2 + (- rho * s) ^ 2 = rho ^ 2 * (s * s + c * c) by ring.
  by rewrite E Rmult_1_r; apply: sqrt_pow2; lra.
rewrite Eq in C, S; split; apply: (Rmult_eq_reg_l rho); lra.
Qed.

Section Helm.
Variables eps kappa nfp : R.
Variable F : point -> point.
Hypothesis HF : rotating_ellipse_map eps kappa nfp = Some F.
Definition nuR z := 1 + (1 - kappa) * cos (2 * PI * z).
Definition nuZ z := 1 - (1 - kappa) * cos (2 * PI * z).
Definition RA r t z := 1 + eps * nuR z * r * cos (2 * PI * t).
Definition RT r t := 1 + r * eps * cos (2 * PI * t).
Let w := 2 * PI / nfp.
Lemma helm_pos : 0 < nfp /\ 0 < eps.
Proof. by move: HF; rewrite /rotating_ellipse_map; case: Rle_dec => // ?; case: Rle_dec => // ? _; lra. Qed.
Lemma helm_F r t z : F (r, t, z) = (RA r t z * cos (w * z), - RA r t z * sin (w * z), eps * r * nuZ z * sin (2 * PI * t)).
Proof.
have [Hn He] := helm_pos; move: HF; rewrite /rotating_ellipse_map; case: Rle_dec => // Hn1; case: Rle_dec => // He1 [<-].
rewrite /rotating_ellipse_F; case: Rlt_dec => [Hn'|]; last by lra.
have -> : rotating_nu kappa nfp (z / nfp) = nuR z.
  by rewrite /rotating_nu /nuR; have -> : 2 * PI * (z / nfp) * nfp = 2 * PI * z by field; lra.
have -> : rotating_nu kappa nfp (z / nfp + 1 / 2 / nfp) = nuZ z.
  rewrite /rotating_nu /nuZ; have -> : 2 * PI * (z / nfp + 1 / 2 / nfp) * nfp = 2 * PI * z + PI by field; lra.
  by rewrite neg_cos; ring.
by have -> : 2 * PI * (z / nfp) = w * z by rewrite /w; field; lra.
Qed.
Definition helm_mx r t z : mat3 R_realFieldType :=
  tor_mx (cos (w * z)) (sin (w * z)) w (RA r t z) (eps * nuR z * cos (2 * PI * t)) (- (2 * PI * eps * nuR z * r * sin (2 * PI * t)))
    (- (eps * (1 - kappa) * 2 * PI * sin (2 * PI * z) * r * cos (2 * PI * t)))
    (eps * nuZ z * sin (2 * PI * t)) (2 * PI * eps * r * nuZ z * cos (2 * PI * t))
    (eps * r * ((1 - kappa) * 2 * PI * sin (2 * PI * z)) * sin (2 * PI * t)).
Lemma helm_jac r t z : is_jacobian F (r, t, z) (helm_mx r t z).
Proof.
have H : is_jacobian (fun x => let: (r, t, z) := x in (RA r t z * cos (w * z), - RA r t z * sin (w * z), eps * r * nuZ z * sin (2 * PI * t))) (r, t, z) (helm_mx r t z).
  apply: (@toroidal_mx RA (fun r t z => eps * r * nuZ z * sin (2 * PI * t)) w); rewrite /RA /nuR /nuZ; by auto_derive=> //; ring.
by apply: is_jacobian_ext H => -[[a b] c]; rewrite helm_F.
Qed.
Lemma helm_B r t z : 0 < RA r t z -> helmholtz_B eps F (r, t, z) = (- sin (w * z) / RT r t, - cos (w * z) / RT r t, 0 / RT r t).
Proof.
move=> H; rewrite /helmholtz_B helm_F.
have [-> ->] : cos (arctan2 (- RA r t z * sin (w * z)) (RA r t z * cos (w * z))) = cos (w * z) /\
  sin (arctan2 (- RA r t z * sin (w * z)) (RA r t z * cos (w * z))) = - sin (w * z); last by [].
by apply: arctan2_dir => //; have := sin2_cos2 (w * z); rewrite /Rsqr.
Qed.
Definition helm_one r t z (k : nat) : R := if k == 2%N then w * RA r t z / RT r t else 0.
Lemma helm_pull r t z : 0 < RA r t z -> RT r t <> 0 -> let B := helmholtz_B eps F (r, t, z) in
  forall k, (k < 3)%N -> helm_mx r t z 0%N k * coord 0 B + helm_mx r t z 1%N k * coord 1 B + helm_mx r t z 2%N k * coord 2 B = helm_one r t z k.
Proof.
move=> H1 H2 B; rewrite /B {B} helm_B //; have := sin2_cos2 (w * z); rewrite /Rsqr /helm_mx /tor_mx /helm_one.
move: (sin (w * z)) (cos (w * z)) (RA r t z) (RT r t) H1 H2 => s c A T H1 H2 E.
case=> [|[|[|//]]] _ /=; try by field.
transitivity (w * A / T * (s * s + c * c)); [by field | by rewrite E; ring].
Qed.
End Helm.
Section Helm1.
Variables eps nfp : R.
Variable F : point -> point.
Hypothesis HF : rotating_ellipse_map eps 1 nfp = Some F.
Hypothesis He1 : eps < 1.
Lemma RA1 r t z : RA eps 1 r t z = RT eps r t.
Proof. by rewrite /RA /RT /nuR; ring. Qed.
Lemma RT_pos r t : 0 <= r <= 1 -> 0 < eps -> 0 < RT eps r t.
Proof.
move=> Hr He; rewrite /RT; have := COS_bound (2 * PI * t); move: (cos _) => c Hc.
have H1 : 0 <= r * eps <= eps by nra.
have H2 : 0 <= r * eps * (c + 1) by apply: Rmult_le_pos; lra.
lra.
Qed.
Definition helm_two r t (k : nat) : R := if k == 2%N then 2 * PI * eps ^ 2 * r / RT eps r t else 0.
Lemma helm_forms r t z : 0 < r <= 1 -> forms_at F (r, t, z) (helmholtz_B eps F (r, t, z)) (fun k => if k == 2%N then 2 * PI / nfp else 0) (helm_two r t).
Proof.
move=> Hr; have [Hn He] := helm_pos HF.
have HT : 0 < RT eps r t by apply: RT_pos; lra.
have HA : 0 < RA eps 1 r t z by rewrite RA1.
have Ep := PI_RGT_0.
have Ed : det33 (helm_mx eps 1 nfp r t z) = 4 * PI ^ 2 / nfp * eps ^ 2 * r * RT eps r t :> R.
  rewrite /helm_mx tor_det; last by have := sin2_cos2 (2 * PI / nfp * z); rewrite /Rsqr.
  rewrite RA1 /nuR /nuZ; have := sin2_cos2 (2 * PI * t); rewrite /Rsqr; move: (sin (2 * PI * t)) (cos (2 * PI * t)) => s c E.
  transitivity (4 * PI ^ 2 / nfp * eps ^ 2 * r * RT eps r t * (s * s + c * c)); [by field; lra | by rewrite E; ring].
have Pd : 0 < 4 * PI ^ 2 / nfp * eps ^ 2 * r * RT eps r t.
  have H1 : 0 < 4 * PI ^ 2 / nfp by apply: Rdiv_lt_0_compat => //; nra.
  have H2 : 0 < eps ^ 2 by nra.
  by apply: Rmult_lt_0_compat => //; apply: Rmult_lt_0_compat; last lra; apply: Rmult_lt_0_compat.
apply: (forms_intro (helm_jac HF r t z)); first by rewrite Ed; lra.
  move=> k Hk; rewrite (helm_pull HF HA _ Hk) /helm_one; last lra.
  by case: eqP => // _; rewrite RA1; field; lra.
rewrite Ed (helm_B HF HA) /helm_two /helm_mx RA1 /tor_mx.
case=> [|[|[|//]]] _ /=; rewrite /nuR /nuZ; field; lra.
Qed.
End Helm1.

Section Hollow.
Variables mu Ip It e : R.
Hypothesis He : 0 < e < 1.
Definition hd r := e * (r + 1) / 2.
Definition hR r t := 1 + hd r * cos (2 * PI * t).
Definition hol_mx r t z : mat3 R_realFieldType :=
  tor_mx (cos (2 * PI * z)) (sin (2 * PI * z)) (2 * PI) (hR r t) (e / 2 * cos (2 * PI * t)) (- (2 * PI * hd r * sin (2 * PI * t))) 0
    (e / 2 * sin (2 * PI * t)) (2 * PI * hd r * cos (2 * PI * t)) 0.
Lemma hol_jac r t z : is_jacobian (hollow_F e) (r, t, z) (hol_mx r t z).
Proof.
have H : is_jacobian (fun x => let: (r, t, z) := x in (hR r t * cos (2 * PI * z), - hR r t * sin (2 * PI * z), hd r * sin (2 * PI * t))) (r, t, z) (hol_mx r t z).
  apply: (@toroidal_mx (fun r t _ => hR r t) (fun r t _ => hd r * sin (2 * PI * t)) (2 * PI)); rewrite /hR /hd; by auto_derive=> //; field.
by apply: is_jacobian_ext H => -[[a b] c].
Qed.
Lemma hd_pos r : 0 <= r <= 1 -> 0 < hd r < 1.
Proof. by move=> Hr; rewrite /hd; nra. Qed.
Lemma hR_pos r t : 0 <= r <= 1 -> 0 < hR r t.
Proof.
move=> Hr; have Hd := hd_pos Hr; rewrite /hR; have := COS_bound (2 * PI * t); move: (cos _) => c Hc.
have H2 : 0 <= hd r * (c + 1) by apply: Rmult_le_pos; lra.
lra.
Qed.
Definition hol_one (k : nat) : R := if k == 1%N then mu * Ip else if k == 2%N then mu * It else 0.
Definition hol_two r t (k : nat) : R :=
  if k == 1%N then mu * Ip * e * hR r t / (2 * hd r) else if k == 2%N then mu * It * e * hd r / (2 * hR r t) else 0.
Lemma hol_det r t z : det33 (hol_mx r t z) = 2 * PI ^ 2 * e * hd r * hR r t :> R.
Proof.
rewrite /hol_mx tor_det; last by have := sin2_cos2 (2 * PI * z); rewrite /Rsqr.
have := sin2_cos2 (2 * PI * t); rewrite /Rsqr; move: (sin (2 * PI * t)) (cos (2 * PI * t)) => s c E.
transitivity (2 * PI ^ 2 * e * hd r * hR r t * (s * s + c * c)); [by field | by rewrite E; ring].
Qed.
Lemma hol_pull r t z : 0 <= r <= 1 -> forall k, (k < 3)%N -> let B := hollow_B mu Ip It e (r, t, z) in
  hol_mx r t z 0%N k * coord 0 B + hol_mx r t z 1%N k * coord 1 B + hol_mx r t z 2%N k * coord 2 B = hol_one k.
Proof.
move=> Hr; have Hd := hd_pos Hr; have HR := hR_pos t Hr; have Ep := PI_RGT_0.
rewrite /hollow_B -/(hd r) -/(hR r t) /hol_mx /tor_mx /hol_one.
have := sin2_cos2 (2 * PI * z); have := sin2_cos2 (2 * PI * t); rewrite /Rsqr.
move: (sin (2 * PI * z)) (cos (2 * PI * z)) (sin (2 * PI * t)) (cos (2 * PI * t)) (hR r t) (hd r) Hd HR => sz cz st ct A D Hd HA Et Ez.
case=> [|[|[|//]]] _ /=.
- transitivity (e / 2 * mu * Ip / (2 * PI * D) * st * ct * (1 - (sz * sz + cz * cz))); [by field; lra | by rewrite Ez; ring].
- transitivity (mu * Ip * (st * st * (sz * sz + cz * cz) + ct * ct)); [by field; lra | by rewrite Ez Rmult_1_r Et; ring].
- transitivity (mu * It * (sz * sz + cz * cz)); [by field; lra | by rewrite Ez; ring].
Qed.
Lemma hol_push r t z : 0 <= r <= 1 -> forall k, (k < 3)%N -> let B := hollow_B mu Ip It e (r, t, z) in
  hol_mx r t z k 0%N * hol_two r t 0 + hol_mx r t z k 1%N * hol_two r t 1 + hol_mx r t z k 2%N * hol_two r t 2 = coord k B * det33 (hol_mx r t z).
Proof.
move=> Hr k Hk B; rewrite hol_det /B {B}; have Hd := hd_pos Hr; have HR := hR_pos t Hr; have Ep := PI_RGT_0.
rewrite /hollow_B -/(hd r) -/(hR r t) /hol_mx /tor_mx /hol_two.
move: k Hk (sin (2 * PI * z)) (cos (2 * PI * z)) (sin (2 * PI * t)) (cos (2 * PI * t)) (hR r t) (hd r) Hd HR => k Hk sz cz st ct A D Hd HA.
by case: k Hk => [|[|[|//]]] _ /=; field; lra.
Qed.
Lemma hol_forms r t z : 0 <= r <= 1 -> forms_at (hollow_F e) (r, t, z) (hollow_B mu Ip It e (r, t, z)) hol_one (hol_two r t).
Proof.
move=> Hr; apply: (forms_intro (hol_jac r t z)).
- rewrite hol_det; have Hd := hd_pos Hr; have HR := hR_pos t Hr; have Ep := PI_RGT_0.
  have : 0 < 2 * PI ^ 2 * e * hd r * hR r t.
    apply: Rmult_lt_0_compat => //; apply: Rmult_lt_0_compat; last lra; apply: Rmult_lt_0_compat; last lra; nra.
  lra.
- by move=> k Hk; apply: hol_pull.
- by move=> k Hk; apply: hol_push.
Qed.
Lemma hol_dt r t : 0 <= r <= 1 -> is_derive (fun s => hol_two r s 1) t (- (PI * e * mu * Ip * sin (2 * PI * t))).
Proof.
move=> Hr; have Hd := hd_pos Hr; rewrite /hol_two /= /hR; move: (hd r) Hd => D Hd.
auto_derive; [lra | field; lra].
Qed.
End Hollow.
