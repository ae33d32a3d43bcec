(** Field lines: the last clamped basis function, confinement by a tangential field, unwrapped angles. *)
From Coq Require Import Reals Lra Lia Arith ZArith List Bool.
From Coquelicot Require Import Coquelicot.
From Verif Require Import Model.RBase Model.Spline Spec.BSpline Model.FormEval Model.Maps Model.FieldLines.
From Verif Require Import Proof.BSplineLemmas Proof.SplineLink Proof.SplineProps Proof.SplineDeriv Proof.SplineIBP Proof.SplineSmooth Proof.SplineCont Proof.MapProofs.
Import ListNotations.
Local Open Scope R_scope.

(** *** all but the last clamped basis function vanish linearly at 1 *)
Lemma lip_at (f df : R -> R) a : a <= 1 -> (forall x, is_derive f x (df x)) -> (forall x, continuous df x) -> f 1 = 0 ->
  exists K, 0 <= K /\ forall x, a <= x <= 1 -> Rabs (f x) <= K * (1 - x).
Proof.
  intros Ha Hd Hc H1.
  destruct (continuity_ab_maj (fun x => Rabs (df x)) a 1 Ha) as [M [HM _]].
  { intros c _. apply continuity_pt_filterlim. apply (continuous_comp df Rabs); [apply Hc | apply continuous_Rabs]. }
  exists (Rabs (df M)). split; [apply Rabs_pos|]. intros x Hx.
  destruct (Req_dec x 1) as [->|Hne]; [rewrite H1, Rabs_R0; lra|].
  destruct (MVT_gen f x 1 df) as [c [Hc1 Hc2]].
  - intros y _. apply Hd.
  - intros y _. apply continuity_pt_filterlim. apply (ex_derive_continuous f). eexists; apply Hd.
  - rewrite Rmin_left, Rmax_right in Hc1 by lra. rewrite H1 in Hc2.
    replace (f x) with (- (df c * (1 - x))) by lra. rewrite Rabs_Ropp, Rabs_mult, (Rabs_pos_eq (1 - x)) by lra.
    apply Rmult_le_compat_r; [lra|]. apply HM. lra.
Qed.
Lemma clamped_edge n p i : (1 <= p)%nat -> (p < n)%nat -> INR (n - p) <= 99900 -> (i < n - 1)%nat ->
  exists K, 0 <= K /\ forall x, 0 <= x <= 1 ->
    Rabs (evaluate (mkSpline n p Clamped (init_knots n p Clamped)) x i) <= K * (1 - x).
Proof.
  intros Hp1 Hp HN Hi. set (t := tclamped n p).
  assert (Ht : nondecreasing t) by (apply separated_nondec, tclamped_separated; assumption).
  assert (T1 : t n = 1) by (apply tclamped_hi; lia).
  assert (Hlt : t (n - 1)%nat < 1). { rewrite <- T1. replace n with (S (n - 1)) at 2 by lia. apply tclamped_lt; lia. }
  destruct p as [|q]; [lia|].
  destruct (lip_at (bv t (n - 1) (S q) i) (dbv t (n - 1) q i) (t (n - 1)%nat)) as [K [HK0 HK]].
  - lra.
  - intros x. apply bv_derive; exact Ht.
  - intros x. apply dbv_cont; exact Ht.
  - unfold t. change (@zero R_AbelianGroup) with 0. assert (W := bv_clamped_right n (S q) i Hp1 Hp HN ltac:(lia)). etransitivity; [exact W|].
    replace (i =? n - 1)%nat with false by (symmetry; apply Nat.eqb_neq; lia). reflexivity.
  - set (h := 1 - t (n - 1)%nat). assert (Hh : 0 < h) by (unfold h; lra).
    assert (Hih : 0 < / h) by (apply Rinv_0_lt_compat; exact Hh).
    exists (K + / h). split; [lra|]. intros x Hx.
    rewrite Rabs_pos_eq by (apply clamped_nonneg; (assumption || lia)).
    destruct (Req_dec x 1) as [->|Hne].
    { rewrite ev_clamped_one by (assumption || lia).
      replace (i =? n - 1)%nat with false by (symmetry; apply Nat.eqb_neq; lia). lra. }
    destruct (Rlt_dec x (t (n - 1)%nat)) as [L|L].
    + apply Rle_trans with 1; [apply clamped_le1; (assumption || lia)|].
      assert (1 <= / h * (1 - x)).
      { apply Rmult_le_reg_l with h; [exact Hh|]. rewrite <- Rmult_assoc, Rinv_r by lra. unfold h; lra. }
      assert (0 <= K * (1 - x)) by (apply Rmult_le_pos; lra). lra.
    + rewrite ev_clamped by (assumption || lia). fold t.
      rewrite (Bspl_bv t Ht (n - 1)).
      2:{ replace (S (n - 1)) with n by lia. rewrite T1. lra. }
      assert (A := HK x ltac:(lra)). assert (0 <= / h * (1 - x)) by (apply Rmult_le_pos; lra).
      assert (B := Rle_abs (bv t (n - 1) (S q) i x)). lra.
Qed.

(** *** a first time *)
Lemma stays_below (r : R -> R) T : 0 <= T -> (forall s, 0 <= s <= T -> continuous r s) -> r 0 < 1 ->
  (forall t1, 0 < t1 <= T -> (forall s, 0 <= s < t1 -> r s < 1) -> r t1 < 1) ->
  forall t, 0 <= t <= T -> r t < 1.
Proof.
  intros HT Hc H0 Hstep.
  set (E := fun t => 0 <= t <= T /\ forall s, 0 <= s <= t -> r s < 1).
  destruct (completeness E) as [t1 [Hub Hlub]].
  - exists T. intros x [Hx _]. lra.
  - exists 0. split; [lra|]. intros s Hs. replace s with 0 by lra. exact H0.
  - assert (Ht0 : 0 <= t1). { apply Hub. split; [lra|]. intros s Hs. replace s with 0 by lra. exact H0. }
    assert (HtT : t1 <= T). { apply Hlub. intros x [Hx _]. lra. }
    assert (Hb : forall s, 0 <= s < t1 -> r s < 1).
    { intros s Hs. apply Rnot_le_lt. intros Hge. assert (t1 <= s); [|lra]. apply Hlub. intros x [Hx Hx2].
      apply Rnot_lt_le. intros Hlt. assert (Q := Hx2 s ltac:(lra)). lra. }
    assert (H1 : r t1 < 1).
    { destruct (Req_dec t1 0) as [->|Hne]; [exact H0|]. apply Hstep; [lra | exact Hb]. }
    assert (Hfin : t1 = T).
    { destruct (Rle_lt_or_eq_dec t1 T HtT) as [Hlt|He]; [exfalso|exact He].
      assert (C := Hc t1 ltac:(lra)). apply continuity_pt_filterlim in C.
      destruct (C (1 - r t1) ltac:(lra)) as [d [Hd Hd2]].
      set (u := Rmin (t1 + d / 2) T).
      assert (Hu : t1 < u) by (unfold u; apply Rmin_glb_lt; lra).
      assert (Hu1 : u <= t1 + d / 2) by apply Rmin_l. assert (Hu2 : u <= T) by apply Rmin_r.
      assert (Q : E u); [|assert (W := Hub u Q); lra].
      split; [lra|]. intros s Hs. destruct (Rlt_le_dec s t1) as [L|L]; [apply Hb; lra|].
      destruct (Req_dec s t1) as [->|Hn]; [exact H1|].
      assert (Z := Hd2 s). simpl in Z. unfold R_dist in Z.
      assert (Z' : Rabs (r s - r t1) < 1 - r t1).
      { apply Z. split; [split; [exact I | lra]|]. apply Rabs_def1; lra. }
      apply Rabs_def2 in Z'. lra. }
    intros t Ht. destruct (Req_dec t t1) as [->|Hn]; [exact H1 | apply Hb; lra].
Qed.
Lemma exp_monotone (g dg : R -> R) K a b : a <= b ->
  (forall s, a <= s <= b -> is_derive g s (dg s)) ->
  (forall s, a < s < b -> 0 <= dg s + K * g s) -> g a * exp (K * a) <= g b * exp (K * b).
Proof.
  intros Hab Hd Hs. destruct (Req_dec a b) as [->|Hne]; [lra|].
  destruct (MVT_cor2 (fun s => g s * exp (K * s)) (fun s => (dg s + K * g s) * exp (K * s)) a b ltac:(lra)) as [c [Hc2 Hc1]].
  - intros s Hs'. apply is_derive_Reals. assert (D := Hd s ltac:(lra)).
    auto_derive; [eexists; exact D|]. replace (Derive (fun x => g x) s) with (dg s) by (symmetry; exact (is_derive_unique g s _ D)). ring.
  - assert (0 <= (dg c + K * g c) * exp (K * c) * (b - a)); [|lra].
    apply Rmult_le_pos; [apply Rmult_le_pos; [apply Hs; lra | left; apply exp_pos] | lra].
Qed.

(** *** a trajectory cannot reach 1 if its speed there is at most K (1 - r) *)
Lemma confined (r dr : R -> R) K rho T : 0 <= T -> rho < 1 ->
  (forall s, 0 <= s <= T -> is_derive r s (dr s)) -> r 0 < 1 ->
  (forall s, 0 <= s <= T -> rho <= r s < 1 -> dr s <= K * (1 - r s)) ->
  forall t, 0 <= t <= T -> r t < 1.
Proof.
  intros HT Hrho Hd H0 Hb.
  assert (Hc : forall s, 0 <= s <= T -> continuous r s).
  { intros s Hs. apply (ex_derive_continuous r). eexists; apply Hd; exact Hs. }
  apply stays_below; try assumption. intros t1 Ht1 Hlt. apply Rnot_le_lt. intros Hge.
  assert (C := Hc t1 ltac:(lra)). apply continuity_pt_filterlim in C.
  destruct (C (1 - rho) ltac:(lra)) as [d [Hd1 Hd2]]. simpl in Hd2. unfold R_dist in Hd2.
  set (t0 := Rmax 0 (t1 - d / 2)).
  assert (A1 : 0 <= t0) by apply Rmax_l. assert (A2 : t1 - d / 2 <= t0) by apply Rmax_r.
  assert (A3 : t0 < t1) by (unfold t0; apply Rmax_lub_lt; lra).
  assert (Q := exp_monotone (fun s => 1 - r s) (fun s => - dr s) K t0 t1 ltac:(lra)).
  assert (Q' : (1 - r t0) * exp (K * t0) <= (1 - r t1) * exp (K * t1)).
  { apply Q.
    - intros s Hs. assert (D := Hd s ltac:(lra)). auto_derive; [eexists; exact D|]. replace (Derive (fun x => r x) s) with (dr s) by (symmetry; exact (is_derive_unique r s _ D)). ring.
    - intros s Hs. assert (B := Hb s ltac:(lra)). assert (L := Hlt s ltac:(lra)).
      assert (Rabs (r s - r t1) < 1 - rho).
      { apply Hd2. split; [split; [exact I | lra]|]. apply Rabs_def1; lra. }
      apply Rabs_def2 in H. assert (B' := B ltac:(lra)). lra. }
  assert (L := Hlt t0 ltac:(lra)).
  assert (0 < (1 - r t0) * exp (K * t0)) by (apply Rmult_lt_0_compat; [lra | apply exp_pos]).
  assert ((1 - r t1) * exp (K * t1) <= 0); [|lra].
  assert (0 <= (r t1 - 1) * exp (K * t1)); [|lra]. apply Rmult_le_pos; [lra | left; apply exp_pos].
Qed.
Lemma confined_rate (r dr : R -> R) K rho T : 0 <= T ->
  (forall s, 0 <= s <= T -> is_derive r s (dr s)) ->
  (forall s, 0 <= s <= T -> rho <= r s < 1) ->
  (forall s, 0 <= s <= T -> rho <= r s < 1 -> dr s <= K * (1 - r s)) ->
  forall t, 0 <= t <= T -> (1 - r 0) * exp (- (K * t)) <= 1 - r t.
Proof.
  intros HT Hd Hr Hb t Ht.
  assert (Q' : (1 - r 0) * exp (K * 0) <= (1 - r t) * exp (K * t)).
  { apply (exp_monotone (fun s => 1 - r s) (fun s => - dr s)); [lra | |].
    - intros s Hs. assert (D := Hd s ltac:(lra)). auto_derive; [eexists; exact D|]. replace (Derive (fun x => r x) s) with (dr s) by (symmetry; exact (is_derive_unique r s _ D)). ring.
    - intros s Hs. assert (B := Hb s ltac:(lra) (Hr s ltac:(lra))). lra. }
  rewrite Rmult_0_r, exp_0 in Q'. rewrite exp_Ropp.
  assert (P := exp_pos (K * t)).
  apply Rmult_le_reg_r with (exp (K * t)); [exact P|]. rewrite Rmult_assoc, Rinv_l by lra. lra.
Qed.

(** *** unwrap *)
Lemma rmod_spec x y : 0 < y -> (exists k : Z, rmod x y = x + IZR k * y) /\ 0 <= rmod x y < y.
Proof.
  intros Hy. unfold rmod. split.
  - exists (- Int_part (x / y))%Z. rewrite opp_IZR. ring.
  - assert (H := base_Int_part (x / y)). destruct H as [H1 H2]. assert (E : x = y * (x / y)) by (field; lra).
    set (w := x / y) in *.
    split.
    + assert (0 <= y * (w - IZR (Int_part w))) by (apply Rmult_le_pos; lra). lra.
    + assert (0 < y * (1 - (w - IZR (Int_part w)))) by (apply Rmult_lt_0_compat; lra). lra.
Qed.
Lemma two_pi_unique a b (k : Z) : a = b + IZR k * (2 * PI) -> - (2 * PI) < a - b < 2 * PI -> a = b.
Proof.
  intros E H. assert (P := PI_RGT_0).
  assert (k = 0)%Z; [|subst k; lra].
  assert (L1 : IZR k < 1). { apply Rmult_lt_reg_r with (2 * PI); lra. }
  assert (L2 : -1 < IZR k). { apply Rmult_lt_reg_r with (2 * PI); lra. }
  apply lt_IZR in L1. apply lt_IZR in L2. lia.
Qed.
Lemma correct_spec dd : (exists k : Z, unwrap_correct dd = IZR k * (2 * PI)) /\ - PI <= dd + unwrap_correct dd <= PI.
Proof.
  assert (P := PI_RGT_0). unfold unwrap_correct. destruct (rmod_spec (dd + PI) (2 * PI)) as [[k E] B]; [lra|].
  destruct (Rlt_le_dec (Rabs dd) PI) as [L|L].
  - rewrite (Rltb_true _ _ L). apply Rabs_def2 in L. split; [exists 0%Z; ring | lra].
  - rewrite (Rltb_false _ _ L).
    destruct (Req_dec (rmod (dd + PI) (2 * PI) - PI) (- PI)) as [Eq|Eq].
    + rewrite Eq, Reqb_refl. destruct (Rlt_le_dec 0 dd) as [Q|Q]; [rewrite (Rltb_true _ _ Q) | rewrite (Rltb_false _ _ Q)]; cbn [andb].
      * split; [exists (k + 1)%Z; rewrite plus_IZR; lra | lra].
      * split; [exists k; lra | lra].
    + rewrite (Reqb_neq _ _ Eq). cbn [andb]. split; [exists k; lra | lra].
Qed.
(** a step smaller than pi is recovered from any step congruent to it *)
Lemma correct_exact dd s (k : Z) : dd = s + IZR k * (2 * PI) -> Rabs s < PI -> dd + unwrap_correct dd = s.
Proof.
  intros E Hs. apply Rabs_def2 in Hs. destruct (correct_spec dd) as [[j Ej] B]. assert (P := PI_RGT_0).
  apply (two_pi_unique _ _ (k + j)); [rewrite plus_IZR; lra | lra].
Qed.

Fixpoint step_ok (P : R -> R -> Prop) (a0 : R) (l : list R) : Prop :=
  match l with [] => True | a :: l' => P a0 a /\ step_ok P a l' end.
Lemma unwrap_from acc p0 p (a0 : R) a (k0 : Z) : p0 + acc = a0 - IZR k0 * (2 * PI) ->
  length p = length a -> (exists k : Z, p0 = a0 + IZR k * (2 * PI)) ->
  (forall i, (i < length a)%nat -> exists k : Z, nth i p 0 = nth i a 0 + IZR k * (2 * PI)) ->
  step_ok (fun x y => Rabs (y - x) < PI) a0 a ->
  map (fun ab => fst ab + snd ab) (combine p (cumsum acc (map unwrap_correct (diffs p0 p))))
  = map (fun x => x - IZR k0 * (2 * PI)) a.
Proof.
  revert acc p0 p a0. induction a as [|a1 a IH]; intros acc p0 p a0 E L E0 Hk Hst.
  - destruct p; [reflexivity | discriminate].
  - destruct p as [|p1 p]; [discriminate|]. destruct Hst as [Hs1 Hst].
    cbn [diffs map cumsum combine fst snd].
    destruct E0 as [j0 E0]. assert (Hk0 := Hk 0%nat ltac:(simpl; lia)). simpl in Hk0. destruct Hk0 as [j1 E1].
    assert (Q : p1 - p0 + unwrap_correct (p1 - p0) = a1 - a0).
    { apply (correct_exact _ _ (j1 - j0)); [rewrite minus_IZR; lra | exact Hs1]. }
    f_equal; [lra|].
    apply (IH _ _ _ a1).
    + lra.
    + simpl in L. lia.
    + exists j1. exact E1.
    + intros i Hi. exact (Hk (S i) ltac:(simpl; lia)).
    + exact Hst.
Qed.
Lemma unwrap_general acc p0 p : (exists k : Z, acc = IZR k * (2 * PI)) ->
  let u := map (fun ab => fst ab + snd ab) (combine p (cumsum acc (map unwrap_correct (diffs p0 p)))) in
  length u = length p /\
  (forall i, (i < length p)%nat -> exists k : Z, nth i u 0 = nth i p 0 + IZR k * (2 * PI)) /\
  step_ok (fun x y => Rabs (y - x) <= PI) (p0 + acc) u.
Proof.
  revert acc p0. induction p as [|p1 p IH]; intros acc p0 [k Hk].
  - cbn. repeat split. intros i Hi. lia.
  - cbn [diffs map cumsum combine fst snd].
    destruct (correct_spec (p1 - p0)) as [[j Ej] B].
    destruct (IH (acc + unwrap_correct (p1 - p0)) p1) as [L [M N]].
    { exists (k + j)%Z. rewrite plus_IZR. lra. }
    cbv zeta. split; [cbn [length]; rewrite L; reflexivity|]. split.
    + intros [|i] Hi; cbn [nth].
      * exists (k + j)%Z. rewrite plus_IZR. lra.
      * apply M. simpl in Hi. lia.
    + cbn [step_ok]. split; [|exact N]. apply Rabs_le. lra.
Qed.
Lemma hd_unwrap p : hd 0 (unwrap p) = hd 0 p.
Proof. destruct p; reflexivity. Qed.
Lemma arctan2_angle rho a : 0 < rho -> exists k : Z, arctan2 (rho * sin a) (rho * cos a) = a + IZR k * (2 * PI).
Proof.
  intros Hr. destruct (arctan2_polar (rho * sin a) (rho * cos a)) as [C S].
  assert (E : sqrt ((rho * cos a) ^ 2 + (rho * sin a) ^ 2) = rho).
  { replace ((rho * cos a) ^ 2 + (rho * sin a) ^ 2) with (rho ^ 2 * ((sin a)² + (cos a)²)) by (unfold Rsqr; ring).
    rewrite sin2_cos2, Rmult_1_r. apply sqrt_pow2. lra. }
  rewrite E in C, S.
  destruct (angle_unique (arctan2 (rho * sin a) (rho * cos a)) a) as [k Hk].
  - apply Rmult_eq_reg_l with rho; lra.
  - apply Rmult_eq_reg_l with rho; lra.
  - exists k. lra.
Qed.
