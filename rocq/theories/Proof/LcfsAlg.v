(** The level set of lcfs_fit: when it is a closed curve around (R0, 0). *)
From Coq Require Import Reals Lra Lia Psatz.
From Coquelicot Require Import Coquelicot.
From Verif Require Import Spec.LcfsSpec.
Local Open Scope R_scope.

Section S.
Variables R0 k0 aR : R.
Hypothesis HR : 0 < R0.
Hypothesis Hk : k0 <> 0.
Hypothesis Ha : 0 < aR.
Let c0 := (R0 + aR) ^ 2 - R0 ^ 2.
Let L := k0 ^ 2 / 4 * c0 ^ 2.
Let K := k0 ^ 2 / 4.
Lemma K_pos : 0 < K. Proof. unfold K. assert (0 < k0 ^ 2) by (apply pow2_gt_0; exact Hk). lra. Qed.
Lemma c0_pos : 0 < c0. Proof. unfold c0. nra. Qed.
Lemma L_pos : 0 < L. Proof. unfold L. fold K. apply Rmult_lt_0_compat; [exact K_pos | apply pow_lt; exact c0_pos]. Qed.

Definition g (c s a : R) : R := K * ((R0 + a * c) ^ 2 - R0 ^ 2) ^ 2 + (R0 + a * c) ^ 2 * (a * s) ^ 2 - L.
Lemma g_cont c s : continuity (g c s).
Proof. unfold g. intro x. apply derivable_continuous_pt. apply ex_derive_Reals_0. auto_derive. exact I. Qed.

Lemma g_root c s a1 : 0 < a1 -> 0 < g c s a1 -> exists a, 0 < a < a1 /\ g c s a = 0.
Proof.
  intros H1 H2. assert (G0 : g c s 0 < 0) by (unfold g; pose proof L_pos; replace (R0 + 0 * c) with R0 by ring; nra).
  destruct (IVT (g c s) 0 a1 (g_cont c s) H1 G0 H2) as [a [[A B] E]]. exists a. split; [|exact E].
  split.
  - destruct (Rle_lt_or_eq_dec _ _ A) as [X|X]; [exact X|]. rewrite <- X in E. lra.
  - destruct (Rle_lt_or_eq_dec _ _ B) as [X|X]; [exact X|]. rewrite X in E. lra.
Qed.

(** outward rays always meet the surface *)
Lemma ray_out c s : c ^ 2 + s ^ 2 = 1 -> 0 <= c -> exists a, 0 < a /\ g c s a = 0.
Proof.
  intros H1 Hc. pose proof c0_pos as C0. pose proof L_pos as LP. pose proof K_pos as KP.
  assert (R2 : 0 < R0 ^ 2) by (apply pow_lt; exact HR).
  pose (a1 := 1 + 2 * c0 + 2 * L / R0 ^ 2).
  assert (Q : 0 < 2 * L / R0 ^ 2) by (apply Rdiv_lt_0_compat; lra).
  assert (A1 : 1 < a1) by (unfold a1; lra).
  assert (A2 : a1 < a1 ^ 2) by nra.
  destruct (g_root c s a1) as [a [Hb E]]; [lra| |exists a; split; [lra | exact E]].
  unfold g. destruct (Rle_dec (1 / 2) (c ^ 2)) as [Hc2|Hc2].
  - assert (X : c0 < (R0 + a1 * c) ^ 2 - R0 ^ 2).
    { replace ((R0 + a1 * c) ^ 2 - R0 ^ 2) with (2 * (R0 * (a1 * c)) + a1 ^ 2 * c ^ 2) by ring.
      assert (0 <= R0 * (a1 * c)) by (apply Rmult_le_pos; [lra | apply Rmult_le_pos; lra]).
      assert (a1 ^ 2 * (1 / 2) <= a1 ^ 2 * c ^ 2) by (apply Rmult_le_compat_l; nra).
      assert (2 * c0 < a1) by (unfold a1; lra). lra. }
    assert (Y : L < K * ((R0 + a1 * c) ^ 2 - R0 ^ 2) ^ 2).
    { unfold L. fold K. apply Rmult_lt_compat_l; [exact KP|]. nra. }
    assert (Z : 0 <= (R0 + a1 * c) ^ 2 * (a1 * s) ^ 2) by (apply Rmult_le_pos; apply pow2_ge_0). lra.
  - assert (S2 : 1 / 2 <= s ^ 2) by lra.
    assert (X : R0 ^ 2 <= (R0 + a1 * c) ^ 2) by (apply pow_incr; split; [lra|]; assert (0 <= a1 * c) by (apply Rmult_le_pos; lra); lra).
    assert (Y : a1 / 2 < (a1 * s) ^ 2) by (replace ((a1 * s) ^ 2) with (a1 ^ 2 * s ^ 2) by ring; assert (a1 ^ 2 * (1 / 2) <= a1 ^ 2 * s ^ 2) by (apply Rmult_le_compat_l; nra); lra).
    assert (Z : L < R0 ^ 2 * (a1 / 2)).
    { assert (2 * L / R0 ^ 2 < a1) by (unfold a1; lra).
      assert (E : R0 ^ 2 * (2 * L / R0 ^ 2 / 2) = L) by (field; lra).
      rewrite <- E at 1. apply Rmult_lt_compat_l; lra. }
    assert (W : R0 ^ 2 * (a1 / 2) <= (R0 + a1 * c) ^ 2 * (a1 * s) ^ 2) by (apply Rmult_le_compat; lra).
    assert (V : 0 <= K * ((R0 + a1 * c) ^ 2 - R0 ^ 2) ^ 2) by (apply Rmult_le_pos; [lra | apply pow2_ge_0]). lra.
Qed.
(** inward rays do before they reach the symmetry axis, if the surface crosses the midplane there *)
Lemma ray_in c s : (R0 + aR) ^ 2 < 2 * R0 ^ 2 -> c < 0 -> exists a, 0 < a /\ 0 < R0 + a * c /\ g c s a = 0.
Proof.
  intros Hcl Hc. pose proof c0_pos as C0. pose proof K_pos as KP.
  pose (a1 := R0 / - c). assert (A1 : 0 < a1) by (apply Rdiv_lt_0_compat; lra).
  assert (E : R0 + a1 * c = 0) by (unfold a1; field; lra).
  destruct (g_root c s a1 A1) as [a [Hb G]].
  - unfold g. rewrite E. unfold L. fold K. replace (K * (0 ^ 2 - R0 ^ 2) ^ 2 + 0 ^ 2 * (a1 * s) ^ 2 - K * c0 ^ 2) with (K * ((R0 ^ 2) ^ 2 - c0 ^ 2)) by ring.
    apply Rmult_lt_0_compat; [exact KP|]. assert (c0 < R0 ^ 2) by (unfold c0; lra). nra.
  - exists a. split; [lra|]. split; [|exact G].
    assert (a1 * c < a * c) by nra. lra.
Qed.

Lemma on_surface_g c s a : on_surface R0 k0 aR (R0 + a * c) (a * s) <-> g c s a = 0.
Proof. unfold on_surface, g, L, K, c0. split; intros; lra. Qed.

Lemma inboard a : 0 < a < R0 -> on_surface R0 k0 aR (R0 - a) 0 -> (R0 + aR) ^ 2 < 2 * R0 ^ 2.
Proof.
  intros H. unfold on_surface. fold K c0. intros E. pose proof c0_pos as C0. pose proof K_pos as KP.
  assert (E2 : (R0 ^ 2 - (R0 - a) ^ 2) ^ 2 = c0 ^ 2) by (apply (Rmult_eq_reg_l K); [|lra]; rewrite <- E; ring).
  assert (P : 0 < R0 ^ 2 - (R0 - a) ^ 2) by nra.
  assert (E3 : R0 ^ 2 - (R0 - a) ^ 2 = c0) by nra.
  assert (0 < (R0 - a) ^ 2) by (apply pow_lt; lra). unfold c0 in E3. lra.
Qed.

(** otherwise the level set runs off to infinity along the symmetry axis *)
Lemma unbounded M : 2 * R0 ^ 2 < (R0 + aR) ^ 2 -> exists Rr Z, 0 < Rr < R0 /\ M < Z /\ on_surface R0 k0 aR Rr Z.
Proof.
  intros Hcl. pose proof K_pos as KP.
  assert (D : R0 ^ 2 < c0) by (unfold c0; lra).
  assert (R2 : 0 < R0 ^ 2) by (apply pow_lt; exact HR).
  pose (m := K * (c0 ^ 2 - (R0 ^ 2) ^ 2)).
  assert (MP : 0 < m) by (apply Rmult_lt_0_compat; [exact KP | nra]).
  pose (N := Rabs M + 1). assert (NP : 1 <= N) by (unfold N; pose proof (Rabs_pos M); lra).
  assert (SM : 0 < sqrt m) by (apply sqrt_lt_R0; exact MP).
  pose (Rr := Rmin (R0 / 2) (sqrt m / N)).
  assert (P1 : 0 < sqrt m / N) by (apply Rdiv_lt_0_compat; lra).
  assert (RP : 0 < Rr) by (unfold Rr; apply Rmin_glb_lt; lra).
  assert (RU : Rr <= R0 / 2) by apply Rmin_l.
  assert (RV : Rr <= sqrt m / N) by apply Rmin_r.
  pose (W := K * (c0 ^ 2 - (Rr ^ 2 - R0 ^ 2) ^ 2)).
  assert (WM : m < W).
  { unfold W, m. apply Rmult_lt_compat_l; [exact KP|]. assert (0 < Rr ^ 2) by (apply pow_lt; exact RP).
    assert (Rr ^ 2 < R0 ^ 2) by nra. nra. }
  assert (SW : sqrt m < sqrt W) by (apply sqrt_lt_1; lra).
  exists Rr, (sqrt W / Rr). split; [lra|]. split.
  - assert (N <= sqrt m / Rr).
    { apply (Rmult_le_reg_r Rr); [exact RP|]. unfold Rdiv at 1. rewrite Rmult_assoc, Rinv_l by lra. rewrite Rmult_1_r.
      apply (Rmult_le_compat_r N) in RV; [|lra]. unfold Rdiv in RV. rewrite Rmult_assoc, Rinv_l in RV by lra. lra. }
    assert (sqrt m / Rr < sqrt W / Rr) by (apply Rmult_lt_compat_r; [apply Rinv_0_lt_compat; exact RP | exact SW]).
    pose proof (Rle_abs M). unfold N in *. lra.
  - unfold on_surface. fold K c0.
    replace (Rr ^ 2 * (sqrt W / Rr) ^ 2) with (sqrt W * sqrt W) by (field; lra).
    rewrite sqrt_sqrt by lra. unfold W. ring.
Qed.

(** how far the surface is from the fitted curve near the inner midplane if it is not closed *)
Lemma gap c s a : 0 <= a <= R0 -> c <= 0 -> c ^ 2 + s ^ 2 = 1 ->
  K * (c0 ^ 2 - (R0 ^ 2) ^ 2) - (R0 ^ 2) ^ 2 * s ^ 2 <= - g c s a.
Proof.
  intros HA Hc H1. unfold g, L. fold K. pose proof K_pos as KP.
  assert (Hc1 : -1 <= c) by nra.
  assert (B1 : 0 <= R0 + a * c <= R0) by nra.
  assert (B2 : 0 <= (R0 + a * c) ^ 2 <= R0 ^ 2) by nra.
  assert (B3 : ((R0 + a * c) ^ 2 - R0 ^ 2) ^ 2 <= (R0 ^ 2) ^ 2) by nra.
  assert (B4 : (R0 + a * c) ^ 2 * (a * s) ^ 2 <= R0 ^ 2 * (R0 ^ 2 * s ^ 2)).
  { replace ((a * s) ^ 2) with (a ^ 2 * s ^ 2) by ring. apply Rmult_le_compat; try lra.
    - apply Rmult_le_pos; apply pow2_ge_0.
    - apply Rmult_le_compat_r; [apply pow2_ge_0 | apply pow_incr; exact HA]. }
  assert (K * ((R0 + a * c) ^ 2 - R0 ^ 2) ^ 2 <= K * (R0 ^ 2) ^ 2) by (apply Rmult_le_compat_l; lra). lra.
Qed.
End S.
