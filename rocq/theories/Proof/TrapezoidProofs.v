(** Trapezoidal rule and the order cap. *)
From Coq Require Import Reals Lra Lia List ZArith Arith Bool.
From Verif Require Import Model.RBase Model.Spline Model.Quad Spec.BSpline Spec.QuadSpec Proof.QuadProofs.
Import ListNotations.
Local Open Scope R_scope.

Lemma lsum_seq f n : lsum (map f (seq 0 n)) = rsum n f.
Proof.
  induction n as [|n IH]; [reflexivity|]. rewrite seq_S, map_app, lsum_app, IH. unfold lsum. simpl. lra.
Qed.
Lemma rsum_ext n f g : (forall i, (i < n)%nat -> f i = g i) -> rsum n f = rsum n g.
Proof. induction n as [|n IH]; intros H; [reflexivity|]. simpl. rewrite IH, H by (intros; try apply H; lia). reflexivity. Qed.
Lemma rsum_scal c n f : rsum n (fun i => c * f i) = c * rsum n f.
Proof. induction n; simpl; [ring|]. rewrite IHn. ring. Qed.
Lemma rsum_tele n (f : nat -> R) : rsum n (fun i => f (S i) - f i) = f n - f 0%nat.
Proof. induction n; simpl; [ring|]. rewrite IHn. ring. Qed.
Lemma rsum_const n c : rsum n (fun _ => c) = INR n * c.
Proof. induction n; [simpl; ring|]. rewrite S_INR. simpl rsum. rewrite IHn. ring. Qed.

Section Trap.
Variable N : nat.
Hypothesis HN : (1 <= N)%nat.
Lemma N0 : INR N <> 0. Proof. apply not_0_INR. lia. Qed.

Lemma trap_qsum f : f 0 = f 1 -> qsum (trapezoidal_quad (S N)) f = / INR N * rsum N (fun i => f (INR i / INR N)).
Proof.
  intros Hf. unfold trapezoidal_quad. destruct (S N =? 1)%nat eqn:E; [apply Nat.eqb_eq in E; lia|].
  unfold qsum. cbn [fst snd]. unfold linspace01. rewrite combine_map, map_map, lsum_seq. cbn [fst snd].
  replace (S N - 1)%nat with N by lia. simpl rsum.
  rewrite Nat.eqb_refl, orb_true_r. replace (INR N / INR N) with 1 by (field; apply N0). rewrite <- Hf.
  destruct N as [|M]; [lia|]. clear HN E.
  assert (A : forall K, (K <= S M)%nat -> rsum K (fun x => (if (x =? 0)%nat || (x =? S M)%nat then 1 / INR (S M) / 2 else 1 / INR (S M)) * f (INR x / INR (S M)))
     = / INR (S M) * rsum K (fun x => f (INR x / INR (S M))) - (if (K =? 0)%nat then 0 else / INR (S M) / 2 * f 0)).
  { assert (P : INR (S M) <> 0) by (apply not_0_INR; lia).
    induction K as [|K IH]; intros HK; [simpl; ring|]. cbn [rsum]. rewrite IH by lia.
    replace (K =? S M)%nat with false by (symmetry; apply Nat.eqb_neq; lia). rewrite orb_false_r.
    destruct K as [|K]; [|simpl (_ =? 0)%nat; unfold Rdiv; ring].
    simpl (_ =? 0)%nat. cbv iota. replace (INR 0 / INR (S M)) with 0 by (simpl; unfold Rdiv; ring). unfold Rdiv. cbn [rsum].  field. exact P. }
  rewrite A by lia. cbn [Nat.eqb]. unfold Rdiv. ring.
Qed.

Lemma trap_one : qsum (trapezoidal_quad (S N)) (fun _ => 1) = 1.
Proof. rewrite trap_qsum by reflexivity. rewrite rsum_const. field. apply N0. Qed.

Section Mode.
Variable k : nat.
Let th := PI * INR k / INR N.
Lemma ang i : 2 * PI * INR k * (INR i / INR N) = 2 * INR i * th.
Proof. unfold th. field. apply N0. Qed.
Lemma cos_sum : 2 * sin th * rsum N (fun i => cos (2 * INR i * th)) = 0.
Proof.
  rewrite <- rsum_scal.
  rewrite (rsum_ext N _ (fun i => sin ((2 * INR (S i) - 1) * th) - sin ((2 * INR i - 1) * th))).
  2: { intros i _. replace ((2 * INR (S i) - 1) * th) with (2 * INR i * th + th) by (rewrite S_INR; ring).
       replace ((2 * INR i - 1) * th) with (2 * INR i * th - th) by ring. rewrite sin_plus, sin_minus. ring. }
  rewrite (rsum_tele N (fun i => sin ((2 * INR i - 1) * th))). simpl (INR 0).
  replace ((2 * INR N - 1) * th) with (- th + 2 * INR k * PI) by (unfold th; field; apply N0).
  rewrite sin_period. replace ((2 * 0 - 1) * th) with (- th) by ring. ring.
Qed.
Lemma sin_sum0 : 2 * sin th * rsum N (fun i => sin (2 * INR i * th)) = 0.
Proof.
  rewrite <- rsum_scal.
  rewrite (rsum_ext N _ (fun i => - cos ((2 * INR (S i) - 1) * th) - - cos ((2 * INR i - 1) * th))).
  2: { intros i _. replace ((2 * INR (S i) - 1) * th) with (2 * INR i * th + th) by (rewrite S_INR; ring).
       replace ((2 * INR i - 1) * th) with (2 * INR i * th - th) by ring. rewrite cos_plus, cos_minus. ring. }
  rewrite (rsum_tele N (fun i => - cos ((2 * INR i - 1) * th))). simpl (INR 0).
  replace ((2 * INR N - 1) * th) with (- th + 2 * INR k * PI) by (unfold th; field; apply N0).
  rewrite cos_period. replace ((2 * 0 - 1) * th) with (- th) by ring. ring.
Qed.
Lemma sin_th_0 : sin th = 0 -> Nat.divide N k.
Proof.
  intros H. apply sin_eq_0_0 in H. destruct H as [z Hz]. unfold th in Hz.
  assert (E : INR k = IZR z * INR N).
  { apply (Rmult_eq_reg_l PI); [|apply PI_neq0]. apply (Rmult_eq_reg_r (/ INR N)); [|apply Rinv_neq_0_compat, N0].
    replace (PI * (IZR z * INR N) * / INR N) with (IZR z * PI) by (field; apply N0). exact Hz. }
  rewrite !INR_IZR_INZ, <- mult_IZR in E. apply eq_IZR in E.
  exists (Z.to_nat z). apply Nat2Z.inj. rewrite Nat2Z.inj_mul, Z2Nat.id; [exact E|]. nia.
Qed.
Lemma f01 (g : R -> R) : (forall x, g (x + 2 * INR k * PI) = g x) ->
  g (2 * PI * INR k * 0) = g (2 * PI * INR k * 1).
Proof. intros H. rewrite <- (H (2 * PI * INR k * 0)). f_equal. ring. Qed.
Lemma trap_cos0 : ~ Nat.divide N k -> qsum (trapezoidal_quad (S N)) (fun x => cos (2 * PI * INR k * x)) = 0.
Proof.
  intros H. rewrite trap_qsum by (apply (f01 cos); intros; apply cos_period).
  rewrite (rsum_ext N _ (fun i => cos (2 * INR i * th))) by (intros; rewrite ang; reflexivity).
  pose proof cos_sum as C. apply Rmult_integral in C. destruct C as [C|C]; [|rewrite C; ring].
  exfalso. apply H, sin_th_0. lra.
Qed.
Lemma th_div : Nat.divide N k -> exists q, th = INR q * PI.
Proof. intros [q Hq]. exists q. unfold th. rewrite Hq, mult_INR. field. apply N0. Qed.
Lemma trap_sin : qsum (trapezoidal_quad (S N)) (fun x => sin (2 * PI * INR k * x)) = 0.
Proof.
  rewrite trap_qsum by (apply (f01 sin); intros; apply sin_period).
  rewrite (rsum_ext N _ (fun i => sin (2 * INR i * th))) by (intros; rewrite ang; reflexivity).
  pose proof sin_sum0 as C. apply Rmult_integral in C. destruct C as [C|C]; [|rewrite C; ring].
  destruct (th_div (sin_th_0 ltac:(lra))) as [q Hq].
  rewrite (rsum_ext N _ (fun _ => 0)).
  2: { intros i _. rewrite Hq. replace (2 * INR i * (INR q * PI)) with (0 + 2 * INR (i * q) * PI) by (rewrite mult_INR; ring).
       rewrite sin_period. apply sin_0. }
  rewrite rsum_const. ring.
Qed.
Lemma trap_cos1 : Nat.divide N k -> qsum (trapezoidal_quad (S N)) (fun x => cos (2 * PI * INR k * x)) = 1.
Proof.
  intros H. rewrite trap_qsum by (apply (f01 cos); intros; apply cos_period).
  rewrite (rsum_ext N _ (fun _ => 1)).
  2: { intros i _. rewrite ang. destruct (th_div H) as [q ->].
       replace (2 * INR i * (INR q * PI)) with (0 + 2 * INR (i * q) * PI) by (rewrite mult_INR; ring).
       rewrite cos_period. apply cos_0. }
  rewrite rsum_const. field. apply N0.
Qed.
End Mode.
End Trap.

(** *** order cap *)
Lemma cap p : (10 < p)%nat \/ p = 0%nat -> nodes_and_weights p = nodes_and_weights 10.
Proof. intros [H| ->]; [|reflexivity]. do 11 (destruct p; [lia|]). reflexivity. Qed.
Lemma cap_degree20 : Rabs (qsum (nodes_and_weights 10) (fun x => x ^ 20) - 2 / 21) > / 10 ^ 7.
Proof.
  pose proof (moment_R gauss_10_nodes gauss_10_weights 20) as E. unfold rmoment in E.
  change (map ufl gauss_10_nodes, map ufl gauss_10_weights) with (nodes_and_weights 10) in E. rewrite E.
  assert (A : (moment gauss_10_nodes gauss_10_weights 20 * 21 * 10 ^ 7 <? 2 * 10 ^ 7 * 10 ^ (16 * 21) - 21 * 10 ^ (16 * 21))%Z = true)
    by (vm_compute; reflexivity).
  apply Z.ltb_lt in A. apply IZR_lt in A.
  generalize dependent (moment gauss_10_nodes gauss_10_weights 20). intros M _ A.
  rewrite minus_IZR, !mult_IZR in A.
  replace (IZR (10 ^ (16 * 21))) with ((10 ^ 16) ^ 21) in A.
  2: { rewrite Z.pow_mul_r by lia. change 21%Z with (Z.of_nat 21) at 1. rewrite <- pow_IZR. f_equal. symmetry. apply IZR_1016. }
  assert (Hu : 0 < (10 ^ 16) ^ 21) by (apply pow_lt, u16). revert Hu A. generalize ((10 ^ 16) ^ 21). intros u Hu A.
  replace (IZR (10 ^ 7)) with (10 ^ 7) in A by (simpl; lra).
  assert (H7 : 0 < 10 ^ 7) by (apply pow_lt; lra). revert H7 A. generalize (10 ^ 7). intros t Ht A.
  assert (B : IZR M / u < 2 / 21 - / t).
  { apply (Rmult_lt_reg_r u); [exact Hu|]. unfold Rdiv at 1. rewrite Rmult_assoc, Rinv_l, Rmult_1_r by lra.
    apply (Rmult_lt_reg_r (21 * t)); [nra|].
    replace ((2 / 21 - / t) * u * (21 * t)) with (2 * t * u - 21 * u) by (field; lra). lra. }
  pose proof (Rinv_0_lt_compat t Ht).
  rewrite Rabs_left by lra. lra.
Qed.
