(** Auxiliary facts for the coordinate maps. *)
From Coq Require Import Reals Lra Lia ZArith.
From Coquelicot Require Import Coquelicot.
From Verif Require Import Model.Maps.
Local Open Scope R_scope.

Lemma atan_cos_pos y x : 0 < x -> cos (atan (y / x)) = x / sqrt (x ^ 2 + y ^ 2).
Proof.
  intros Hx. rewrite cos_atan. unfold Rsqr.
  assert (Hs : 0 < x ^ 2 + y ^ 2) by nra.
  assert (E : sqrt (x ^ 2 + y ^ 2) = x * sqrt (1 + y / x * (y / x))).
  { rewrite <- (sqrt_square x) at 2 by lra. assert (0 <= y / x * (y / x)) by nra.
    rewrite <- sqrt_mult by nra. f_equal. field. lra. }
  rewrite E. assert (0 < sqrt (1 + y / x * (y / x))).
  { apply sqrt_lt_R0. assert (0 <= y / x * (y / x)) by nra. lra. }
  field. lra.
Qed.
Lemma atan_sin_pos y x : 0 < x -> sin (atan (y / x)) = y / sqrt (x ^ 2 + y ^ 2).
Proof.
  intros Hx. assert (C := atan_cos_pos y x Hx).
  assert (Hs : 0 < sqrt (x ^ 2 + y ^ 2)) by (apply sqrt_lt_R0; nra).
  assert (T : tan (atan (y / x)) = y / x) by apply tan_atan.
  unfold tan in T. rewrite C in T.
  assert (E : sin (atan (y / x)) = y / x * (x / sqrt (x ^ 2 + y ^ 2))).
  { apply (f_equal (fun u => u * (x / sqrt (x ^ 2 + y ^ 2)))) in T. rewrite <- T. generalize (sin (atan (y / x))). intros u. field. split; lra. }
  rewrite E. field. lra.
Qed.
Lemma arctan2_polar y x :
  sqrt (x ^ 2 + y ^ 2) * cos (arctan2 y x) = x /\ sqrt (x ^ 2 + y ^ 2) * sin (arctan2 y x) = y.
Proof.
  unfold arctan2. destruct (Rlt_dec 0 x) as [Hx|Hx].
  - assert (Hs : 0 < sqrt (x ^ 2 + y ^ 2)) by (apply sqrt_lt_R0; nra).
    rewrite atan_cos_pos, atan_sin_pos by assumption. split; field; lra.
  - destruct (Rlt_dec x 0) as [Hx'|Hx'].
    + assert (E : y / x = (- y) / (- x)) by (field; lra).
      assert (Hs : 0 < sqrt (x ^ 2 + y ^ 2)) by (apply sqrt_lt_R0; nra).
      assert (C := atan_cos_pos (- y) (- x) ltac:(lra)). assert (S := atan_sin_pos (- y) (- x) ltac:(lra)).
      rewrite <- E in C, S. replace ((- x) ^ 2 + (- y) ^ 2) with (x ^ 2 + y ^ 2) in C, S by ring.
      destruct (Rle_dec 0 y).
      * rewrite neg_cos, neg_sin, C, S. split; field; lra.
      * replace (atan (y / x) - PI) with (- (PI - atan (y / x))) by ring.
        rewrite cos_neg, sin_neg. rewrite Rtrigo_facts.cos_pi_minus, Rtrigo_facts.sin_pi_minus, C, S. split; field; lra.
    + assert (x = 0) by lra; subst x.
      replace (0 ^ 2 + y ^ 2) with (y * y) by ring.
      destruct (Rlt_dec 0 y).
      * rewrite cos_PI2, sin_PI2, sqrt_square by lra. lra.
      * destruct (Rlt_dec y 0).
        -- rewrite cos_neg, sin_neg, cos_PI2, sin_PI2. replace (y * y) with ((- y) * (- y)) by ring.
           rewrite sqrt_square by lra. lra.
        -- assert (y = 0) by lra; subst. rewrite Rmult_0_l, sqrt_0. lra.
Qed.

Lemma angle_unique a b : cos a = cos b -> sin a = sin b -> exists k : Z, a = b + 2 * PI * IZR k.
Proof.
  intros Hc Hs.
  assert (E : cos (a - b) = 1).
  { rewrite cos_minus, Hc, Hs. assert (H := sin2_cos2 b). unfold Rsqr in H. lra. }
  assert (S0 : sin ((a - b) / 2) = 0).
  { assert (H := cos_2a_sin ((a - b) / 2)). replace (2 * ((a - b) / 2)) with (a - b) in H by field. nra. }
  destruct (sin_eq_0_0 _ S0) as [k Hk]. exists k. lra.
Qed.

Lemma mod1_shift x (k : Z) : mod1 (x + IZR k) = mod1 x.
Proof.
  unfold mod1. assert (H1 := base_Int_part x). assert (H2 := base_Int_part (x + IZR k)).
  assert (E : Int_part (x + IZR k) = (Int_part x + k)%Z).
  { assert (A : IZR (Int_part (x + IZR k)) < IZR (Int_part x + k) + 1) by (rewrite plus_IZR; lra).
    assert (B : IZR (Int_part x + k) < IZR (Int_part (x + IZR k)) + 1) by (rewrite plus_IZR; lra).
    rewrite <- plus_IZR in A, B. apply lt_IZR in A. apply lt_IZR in B. lia. }
  rewrite E, plus_IZR. ring.
Qed.
Lemma mod1_eq x y : mod1 x = mod1 y -> exists k : Z, x = y + IZR k.
Proof. unfold mod1. intros H. exists (Int_part x - Int_part y)%Z. rewrite minus_IZR. lra. Qed.
Lemma mod1_range x : 0 <= mod1 x < 1.
Proof. unfold mod1. assert (H := base_Int_part x). lra. Qed.
Lemma arctan2_mod1 a t : 0 < a -> mod1 (arctan2 (a * sin (2 * PI * t)) (a * cos (2 * PI * t)) / (2 * PI)) = mod1 t.
Proof.
  intros Ha. destruct (arctan2_polar (a * sin (2 * PI * t)) (a * cos (2 * PI * t))) as [C S].
  assert (E : sqrt ((a * cos (2 * PI * t)) ^ 2 + (a * sin (2 * PI * t)) ^ 2) = a).
  { replace ((a * cos (2 * PI * t)) ^ 2 + (a * sin (2 * PI * t)) ^ 2) with (a * a).
    - apply sqrt_square. lra.
    - assert (H := sin2_cos2 (2 * PI * t)). unfold Rsqr in H. nra. }
  rewrite E in C, S. apply Rmult_eq_reg_l in C; [|lra]. apply Rmult_eq_reg_l in S; [|lra].
  destruct (angle_unique _ _ C S) as [k Hk]. rewrite Hk.
  assert (HP := PI_RGT_0).
  replace ((2 * PI * t + 2 * PI * IZR k) / (2 * PI)) with (t + IZR k) by (field; lra).
  apply mod1_shift.
Qed.

Lemma cos_period_IZR a (k : Z) : cos (a + 2 * PI * IZR k) = cos a.
Proof.
  destruct (Z_le_dec 0 k) as [H|H].
  - rewrite <- (Z2Nat.id k H), <- INR_IZR_INZ. replace (2 * PI * INR (Z.to_nat k)) with (2 * INR (Z.to_nat k) * PI) by ring.
    apply cos_period.
  - assert (Hk : (0 <= - k)%Z) by lia. rewrite <- (cos_period _ (Z.to_nat (- k))).
    f_equal. rewrite INR_IZR_INZ, Z2Nat.id by lia. rewrite opp_IZR. ring.
Qed.
Lemma sin_period_IZR a (k : Z) : sin (a + 2 * PI * IZR k) = sin a.
Proof. rewrite <- !cos_shift. rewrite <- (cos_period_IZR (PI / 2 - a) (- k)). f_equal. rewrite opp_IZR. ring. Qed.
Lemma PI_bounds : 3 < PI < 32 / 10.
Proof.
  assert (H1 := PI2_3_2). split; [lra|].
  destruct (PI_ineq 12) as [_ H]. unfold tg_alt, PI_tg in H. cbn in H. lra.
Qed.
