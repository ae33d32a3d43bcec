(** Proofs of C03, C06, C07. *)
From Coq Require Import Reals Lra Lia Arith List Bool ZArith.
From Coquelicot Require Import Coquelicot.
From Verif Require Import Model.RBase Model.Spline Spec.BSpline Proof.BSplineLemmas Proof.SplineLink Proof.SplineProps.
Import ListNotations.
Local Open Scope R_scope.

Lemma some_inj {A} (a b : A) : Some a = Some b -> a = b.
Proof. congruence. Qed.

Lemma tclamped_lt n p j k : (p < n)%nat -> (j < k)%nat -> (j < n)%nat -> (p < k)%nat ->
  tclamped n p j < tclamped n p k.
Proof.
  intros Hp Hjk Hj Hk. assert (HN0 : 0 < INR (n - p)) by (apply lt_0_INR; lia).
  assert (Hin : / INR (n - p) > 0) by (apply Rinv_0_lt_compat; exact HN0).
  assert (A : tclamped n p j = INR (j - p) / INR (n - p)).
  { destruct (Nat.le_gt_cases p j); [apply tclamped_mid; lia|].
    rewrite tclamped_lo by lia. replace (j - p)%nat with O by lia. simpl. lra. }
  assert (B : tclamped n p k = INR (Nat.min k n - p) / INR (n - p)).
  { destruct (Nat.le_gt_cases k n); [rewrite Nat.min_l by lia; apply tclamped_mid; lia|].
    rewrite Nat.min_r by lia. rewrite tclamped_hi by lia. field. lra. }
  rewrite A, B. apply Rmult_lt_compat_r; [exact Hin|]. apply lt_INR. lia.
Qed.

Lemma tclamped_nonknot n p x : (p < n)%nat -> (forall k, x * INR (n - p) <> INR k) ->
  forall j, x <> tclamped n p j.
Proof.
  intros Hp Hx j E. assert (HN0 : 0 < INR (n - p)) by (apply lt_0_INR; lia).
  destruct (Nat.le_gt_cases j p) as [H|H].
  - rewrite tclamped_lo in E by exact H. apply (Hx O). subst. simpl. lra.
  - destruct (Nat.le_gt_cases n j) as [H2|H2].
    + rewrite tclamped_hi in E by lia. apply (Hx (n - p)%nat). subst. lra.
    + rewrite tclamped_mid in E by lia. apply (Hx (j - p)%nat). subst. field. lra.
Qed.

Lemma new_deriv_clamped n p : (1 <= p)%nat -> (p < n)%nat ->
  new_deriv (mkSpline n p Clamped (init_knots n p Clamped))
  = Some (mkSpline (n - 1) (p - 1) Clamped (init_knots n p Clamped)).
Proof.
  intros H1 H2. unfold new_deriv, deriv_n, deriv_p, deriv_T. cbn [sty sp sn sT].
  destruct p as [|q]; [lia|].
  replace (n - 1 <=? S q - 1)%nat with false by (symmetry; apply Nat.leb_gt; lia).
  reflexivity.
Qed.

Lemma ev_deriv_clamped n p x i : (1 <= p)%nat -> (p < n)%nat -> INR (n - p) <= 99900 -> x <> 1 ->
  (i < n - 1)%nat ->
  evaluate_deriv (mkSpline (n - 1) (p - 1) Clamped (init_knots n p Clamped)) x i
  = INR p * (inv0 (tclamped n p (i + 1 + p) - tclamped n p (i + 1)) * Bspl (tclamped n p) (p - 1) (i + 1) x).
Proof.
  intros H1 H2 HN Hx Hi. unfold evaluate_deriv. cbn [sty sn sp sT].
  assert (E : (i <? n - 1)%nat = true) by (apply Nat.ltb_lt; exact Hi). rewrite E.
  unfold evaluate. cbn [sty sn sT]. rewrite last_clamped by exact H2.
  rewrite (Reqb_neq x 1 Hx), andb_false_r.
  rewrite (evaluate_raw_Bspl _ (tclamped n p)); cbn [sT sp].
  - rewrite !(gather_knots _ (tclamped n p)) by
      (apply clamped_knots; exact H2) || (rewrite clamped_length by lia; lia).
    replace (p - 1 + 1)%nat with p by lia.
    replace (i + (p - 1) + 2)%nat with (i + 1 + p)%nat by lia.
    rewrite inv0_nz.
    + field. assert (L := tclamped_lt n p (i + 1) (i + 1 + p)). lra || idtac.
      specialize (L H2 ltac:(lia) ltac:(lia) ltac:(lia)). lra.
    + assert (L := tclamped_lt n p (i + 1) (i + 1 + p)).
      specialize (L H2 ltac:(lia) ltac:(lia) ltac:(lia)). lra.
  - apply tclamped_separated; assumption.
  - apply clamped_knots; assumption.
  - rewrite clamped_length by lia. lia.
Qed.

Lemma clamped_derivative_gen n p s d x i :
  (1 <= p)%nat -> (p < n)%nat -> INR (n - p) <= 99900 ->
  new_spline n p Clamped = Some s -> new_deriv s = Some d ->
  x <> 1 -> is_derive (Bspl (tclamped n p) (S (p - 1)) i) x (dBspl (tclamped n p) (p - 1) i x) -> (i < n)%nat ->
  is_derive (fun y => evaluate s y i) x
    ((if (i =? 0)%nat then 0 else evaluate_deriv d x (i - 1))
     - (if (i =? n - 1)%nat then 0 else evaluate_deriv d x i)).
Proof.
  intros H1 H2 HN Hs Hd Hx1 Hx Hi.
  apply new_spline_inv in Hs. destruct Hs as [-> _].
  rewrite new_deriv_clamped in Hd by assumption. apply some_inj in Hd; subst d.
  assert (Hnd : nondecreasing (tclamped n p)) by (apply separated_nondec, tclamped_separated; assumption).
  apply (is_derive_ext_loc (Bspl (tclamped n p) p i)).
  { assert (Hpos : 0 < Rabs (x - 1)) by (apply Rabs_pos_lt; lra).
    exists (mkposreal _ Hpos). intros y Hy.
    change (Rabs (y - x) < Rabs (x - 1)) in Hy.
    symmetry. apply ev_clamped; try assumption.
    intros ->. rewrite Rabs_minus_sym in Hy. lra. }
  replace p with (S (p - 1)) at 2 by lia.
  match goal with |- is_derive _ _ ?v => replace v with (dBspl (tclamped n p) (p - 1) i x) end.
  { exact Hx. }
  unfold dBspl. replace (S (p - 1)) with p by lia.
  rewrite Rmult_minus_distr_l. f_equal.
  - destruct (Nat.eqb_spec i 0) as [->|Hi0].
    + rewrite !tclamped_lo by lia. replace (0 - 0) with 0 by ring. rewrite inv0_0. ring.
    + rewrite ev_deriv_clamped by (assumption || lia).
      replace (i - 1 + 1 + p)%nat with (i + p)%nat by lia.
      replace (i - 1 + 1)%nat with i by lia. reflexivity.
  - destruct (Nat.eqb_spec i (n - 1)) as [->|Hin].
    + rewrite !tclamped_hi by lia. replace (1 - 1) with 0 by ring. rewrite inv0_0. ring.
    + rewrite ev_deriv_clamped by (assumption || lia).
      replace (i + 1 + p)%nat with (i + p + 1)%nat by lia.
      replace (i + 1)%nat with (S i) by lia. reflexivity.
Qed.

Lemma clamped_derivative n p s d x i :
  (1 <= p)%nat -> (p < n)%nat -> INR (n - p) <= 99900 ->
  new_spline n p Clamped = Some s -> new_deriv s = Some d ->
  (forall k, x * INR (n - p) <> INR k) -> (i < n)%nat ->
  is_derive (fun y => evaluate s y i) x
    ((if (i =? 0)%nat then 0 else evaluate_deriv d x (i - 1))
     - (if (i =? n - 1)%nat then 0 else evaluate_deriv d x i)).
Proof.
  intros H1 H2 HN Hs Hd Hx Hi. apply (clamped_derivative_gen n p s d x i); try assumption.
  - intros ->. apply (Hx (n - p)%nat). lra.
  - apply Bspl_derive; [apply separated_nondec, tclamped_separated; assumption | apply tclamped_nonknot; assumption].
Qed.

(** *** periodic *)
Lemma new_deriv_periodic n p : (1 <= p)%nat -> (p < n)%nat \/ (n = 1 /\ p = 1)%nat ->
  new_deriv (mkSpline n p Periodic (init_knots n p Periodic))
  = Some (mkSpline n (p - 1) Periodic (removelast (tl (init_knots n p Periodic)))).
Proof.
  intros H1 H2. unfold new_deriv, deriv_n, deriv_p, deriv_T. cbn [sty sp sn sT].
  destruct p as [|q]; [lia|].
  replace (n <=? S q - 1)%nat with false by (symmetry; apply Nat.leb_gt; lia).
  reflexivity.
Qed.

Lemma nth_removelast (l : list R) j d : (j < length l - 1)%nat -> nth j (removelast l) d = nth j l d.
Proof.
  revert j; induction l as [|a l IH]; intros j Hj; [simpl in Hj; lia|].
  destruct l as [|b l]; [simpl in Hj; lia|].
  change (removelast (a :: b :: l)) with (a :: removelast (b :: l)).
  destruct j as [|j]; [reflexivity|].
  change (nth j (removelast (b :: l)) d = nth j (b :: l) d).
  apply IH. simpl in *. lia.
Qed.

Lemma removelast_length (l : list R) : length (removelast l) = (length l - 1)%nat.
Proof.
  induction l as [|a l IH]; [reflexivity|].
  destruct l as [|b l]; [reflexivity|].
  change (removelast (a :: b :: l)) with (a :: removelast (b :: l)).
  cbn [length] in *. rewrite IH. lia.
Qed.

Lemma nth_tl (l : list R) j d : nth j (tl l) d = nth (S j) l d.
Proof. destruct l as [|a l]; [destruct j; reflexivity | reflexivity]. Qed.
Lemma tl_length (l : list R) : length (tl l) = (length l - 1)%nat.
Proof. destruct l; simpl; lia. Qed.

Lemma trimmed_length n p : (p <= n)%nat -> (1 <= p)%nat ->
  length (removelast (tl (init_knots n p Periodic))) = (n + 2 * (p - 1) + 1)%nat.
Proof. intros H H1. rewrite removelast_length, tl_length, periodic_length by exact H. lia. Qed.

Lemma trimmed_knots n p : (0 < n)%nat -> (p <= n)%nat -> (1 <= p)%nat ->
  knots_of (removelast (tl (init_knots n p Periodic))) (tperiodic n (p - 1)).
Proof.
  intros Hn Hp Hp1 j Hj. rewrite trimmed_length in Hj by assumption.
  rewrite nth_removelast by (rewrite tl_length, periodic_length; lia).
  rewrite nth_tl, (periodic_knots n p) by (rewrite ?periodic_length; lia).
  unfold tperiodic. rewrite S_INR, minus_INR by lia. simpl. f_equal. ring.
Qed.

Lemma tperiodic_pred n p j : (1 <= p)%nat -> tperiodic n (p - 1) j = tperiodic n p (j + 1).
Proof.
  intros H. unfold tperiodic. rewrite minus_INR, plus_INR by lia. simpl. f_equal. ring.
Qed.

Lemma ev_deriv_periodic n p x j : (1 <= p)%nat -> (p < n)%nat \/ (n = 1 /\ p = 1)%nat -> INR n <= 49000 ->
  (j < n)%nat ->
  evaluate_deriv (mkSpline n (p - 1) Periodic (removelast (tl (init_knots n p Periodic)))) x j
  = INR n * (if (j <? p - 1)%nat
             then Bspl (tperiodic n p) (p - 1) (j + 1) x + Bspl (tperiodic n p) (p - 1) (n + j + 1) x
             else Bspl (tperiodic n p) (p - 1) (j + 1) x).
Proof.
  intros H1 H2 HN Hj.
  assert (HN0 : 0 < INR n) by (apply lt_0_INR; lia).
  assert (HP0 : 0 < INR p) by (apply lt_0_INR; lia).
  unfold evaluate_deriv. cbn [sty sn sp sT].
  replace ((j + n) mod n)%nat with j
    by (replace (j + n)%nat with (j + 1 * n)%nat by lia; rewrite Nat.mod_add, Nat.mod_small by lia; reflexivity).
  rewrite !(gather_knots _ (tperiodic n (p - 1))) by
      (apply trimmed_knots; lia) || (rewrite trimmed_length by lia; lia).
  assert (Eraw : forall k, (k < n + (p - 1))%nat ->
     evaluate_raw (mkSpline n (p - 1) Periodic (removelast (tl (init_knots n p Periodic)))) x k
     = Bspl (tperiodic n p) (p - 1) (k + 1) x).
  { intros k Hk.
    rewrite (evaluate_raw_Bspl _ (tperiodic_tr n (p - 1))); cbn [sT sp].
    - rewrite <- (Bspl_reindex (tperiodic n p) 1).
      apply Bspl_local. intros i Hi. unfold tperiodic_tr. rewrite Nat.min_l by lia.
      apply tperiodic_pred; exact H1.
    - apply tperiodic_tr_separated; lia || assumption.
    - intros i Hi. rewrite (trimmed_knots n p ltac:(lia) ltac:(lia) ltac:(lia) i Hi).
      rewrite trimmed_length in Hi by lia.
      unfold tperiodic_tr. rewrite Nat.min_l by lia. reflexivity.
    - rewrite trimmed_length by lia. lia. }
  replace (tperiodic n (p - 1) (j + (p - 1) + 1) - tperiodic n (p - 1) j) with (INR p / INR n).
  2:{ unfold tperiodic. rewrite !plus_INR, !minus_INR by lia. simpl. field. lra. }
  replace (p - 1 + 1)%nat with p by lia.
  unfold evaluate. cbn [sty sn sp].
  destruct (Nat.ltb_spec j (p - 1)); rewrite !Eraw by lia; field; lra.
Qed.

Lemma periodic_derivative_gen n p s d x i :
  (1 <= p)%nat -> (p < n)%nat \/ (n = 1 /\ p = 1)%nat -> INR n <= 49000 ->
  new_spline n p Periodic = Some s -> new_deriv s = Some d ->
  0 < x < 1 -> (forall j, is_derive (Bspl (tperiodic n p) (S (p - 1)) j) x (dBspl (tperiodic n p) (p - 1) j x)) -> (i < n)%nat ->
  is_derive (fun y => evaluate s y i) x
    (evaluate_deriv d x ((i + n - 1) mod n) - evaluate_deriv d x i).
Proof.
  intros H1 H2 HN Hs Hd Hx01 Hx Hi.
  assert (HN0 : 0 < INR n) by (apply lt_0_INR; lia).
  assert (Hn : (0 < n)%nat) by lia. assert (Hpn : (p <= n)%nat) by lia.
  apply new_spline_inv in Hs. destruct Hs as [-> _].
  rewrite new_deriv_periodic in Hd by assumption. apply some_inj in Hd; subst d.
  set (t := tperiodic n p).
  assert (Hnd : nondecreasing t) by (apply tperiodic_nondec; exact Hn).
  assert (Dj : forall j, is_derive (Bspl t p j) x
     (INR n * (Bspl t (p - 1) j x - Bspl t (p - 1) (S j) x))).
  { intros j. replace p with (S (p - 1)) at 1 by lia.
    replace (INR n * (Bspl t (p - 1) j x - Bspl t (p - 1) (S j) x)) with (dBspl t (p - 1) j x).
    { apply Hx. }
    unfold dBspl. replace (S (p - 1)) with p by lia.
    assert (HP0 : 0 < INR p) by (apply lt_0_INR; lia).
    assert (G : forall a b, (b = a + p)%nat -> t b - t a = INR p / INR n).
    { intros a b ->. unfold t, tperiodic. rewrite plus_INR. field. lra. }
    rewrite (G j (j + p)%nat), (G (S j) (j + p + 1)%nat) by lia.
    assert (Hpn0 : INR p / INR n <> 0) by (apply Rgt_not_eq, Rdiv_lt_0_compat; lra).
    rewrite !inv0_nz by exact Hpn0. field. lra. }
  assert (Z0 : Bspl t (p - 1) 0 x = 0).
  { apply (Bspl_support t Hnd). right. replace (0 + (p - 1) + 1)%nat with p by lia.
    unfold t. rewrite t_p by assumption. lra. }
  assert (Z1 : Bspl t (p - 1) (n + p) x = 0).
  { apply (Bspl_support t Hnd). left. unfold t. rewrite t_np by assumption. lra. }
  apply (is_derive_ext (fun y => if (i <? p)%nat then Bspl t p i y + Bspl t p (n + i) y else Bspl t p i y)).
  { intros y. symmetry. apply ev_periodic; assumption. }
  rewrite !ev_deriv_periodic by (assumption || lia || (apply Nat.mod_upper_bound; lia)).
  fold t.
  assert (Em : (i = 0 /\ (i + n - 1) mod n = n - 1)%nat \/ (0 < i /\ (i + n - 1) mod n = i - 1)%nat).
  { destruct i as [|k].
    - left. split; [reflexivity|]. apply Nat.mod_small. lia.
    - right. split; [lia|]. replace (S k + n - 1)%nat with (k + 1 * n)%nat by lia.
      rewrite Nat.mod_add, Nat.mod_small by lia. lia. }
  rewrite <- Rmult_minus_distr_l.
  destruct Em as [[-> ->]|[Hi0 ->]].
  - (* i = 0 *)
    replace (0 <? p)%nat with true by (symmetry; apply Nat.ltb_lt; lia).
    replace (n - 1 <? p - 1)%nat with false by (symmetry; apply Nat.ltb_ge; lia).
    match goal with |- is_derive _ _ ?v => replace v with
      (INR n * (Bspl t (p - 1) 0 x - Bspl t (p - 1) 1 x)
       + INR n * (Bspl t (p - 1) (n + 0) x - Bspl t (p - 1) (S (n + 0)) x)) end.
    { apply @is_derive_plus; apply Dj. }
    rewrite Z0. replace (n - 1 + 1)%nat with n by lia. replace (n + 0)%nat with n by lia.
    replace (0 + 1)%nat with 1%nat by lia. replace (n + 1)%nat with (S n) by lia.
    destruct (Nat.ltb_spec 0 (p - 1)) as [Hq|Hq]; [ring|].
    replace (S n) with (n + p)%nat by lia. rewrite Z1. ring.
  - replace (i - 1 + 1)%nat with i by lia. replace (n + (i - 1) + 1)%nat with (n + i)%nat by lia.
    replace (i + 1)%nat with (S i) by lia. replace (n + i + 1)%nat with (S (n + i)) by lia.
    destruct (Nat.ltb_spec i p) as [Hip|Hip].
    + replace (i - 1 <? p - 1)%nat with true by (symmetry; apply Nat.ltb_lt; lia).
      match goal with |- is_derive _ _ ?v => replace v with
        (INR n * (Bspl t (p - 1) i x - Bspl t (p - 1) (S i) x)
         + INR n * (Bspl t (p - 1) (n + i) x - Bspl t (p - 1) (S (n + i)) x)) end.
      { apply @is_derive_plus; apply Dj. }
      destruct (Nat.ltb_spec i (p - 1)) as [Hq|Hq]; [ring|].
      replace (S (n + i)) with (n + p)%nat by lia. rewrite Z1. ring.
    + replace (i - 1 <? p - 1)%nat with false by (symmetry; apply Nat.ltb_ge; lia).
      replace (i <? p - 1)%nat with false by (symmetry; apply Nat.ltb_ge; lia).
      apply Dj.
Qed.

Lemma tperiodic_nonknot n p x : (0 < n)%nat -> 0 < x -> (forall k, x * INR n <> INR k) -> forall j, x <> tperiodic n p j.
Proof.
  intros Hn Hx0 Hx j E. assert (HN0 : 0 < INR n) by (apply lt_0_INR; lia). unfold tperiodic in E.
  assert (E2 : x * INR n = INR j - INR p) by (rewrite E; field; lra).
  assert (Hpos : 0 < x * INR n) by (apply Rmult_lt_0_compat; lra).
  assert (Hjp : (p <= j)%nat) by (apply INR_le; lra).
  apply (Hx (j - p)%nat). rewrite minus_INR by exact Hjp. exact E2.
Qed.

Lemma periodic_derivative n p s d x i :
  (1 <= p)%nat -> (p < n)%nat \/ (n = 1 /\ p = 1)%nat -> INR n <= 49000 ->
  new_spline n p Periodic = Some s -> new_deriv s = Some d ->
  0 < x < 1 -> (forall k, x * INR n <> INR k) -> (i < n)%nat ->
  is_derive (fun y => evaluate s y i) x
    (evaluate_deriv d x ((i + n - 1) mod n) - evaluate_deriv d x i).
Proof.
  intros H1 H2 HN Hs Hd Hx01 Hx Hi. apply (periodic_derivative_gen n p s d x i); try assumption.
  intros j. apply Bspl_derive; [apply tperiodic_nondec; lia | apply tperiodic_nonknot; lia || lra || assumption].
Qed.

(** *** C07 : the clamped derivative spline at x = 1 *)
Lemma Bspl_last n p x : (p < n)%nat -> INR (n - p) <= 99900 ->
  tclamped n p (n - 1) <= x < 1 -> forall q, (q <= p)%nat ->
  Bspl (tclamped n p) q (n - 1) x = (INR (n - p) * (x - tclamped n p (n - 1))) ^ q.
Proof.
  intros Hp HN Hx q. set (t := tclamped n p) in *.
  assert (HN0 : 0 < INR (n - p)) by (apply lt_0_INR; lia).
  assert (Hnd : nondecreasing t) by (apply separated_nondec, tclamped_separated; assumption).
  assert (H1 : t n = 1) by (apply tclamped_hi; lia).
  assert (Hgap : 1 - t (n - 1)%nat = / INR (n - p)).
  { unfold t. rewrite tclamped_mid by lia.
    replace (n - 1 - p)%nat with (n - p - 1)%nat by lia.
    rewrite (minus_INR (n - p) 1) by lia. simpl. field. lra. }
  induction q as [|q IH]; intros Hq.
  - simpl. replace (S (n - 1)) with n by lia. unfold chi. rewrite H1.
    destruct (Rle_dec (t (n - 1)%nat) x), (Rlt_dec x 1); lra.
  - cbn [Bspl]. rewrite IH by lia. replace (S (n - 1)) with n by lia.
    rewrite (Bspl_degenerate t Hnd q n x).
    2:{ unfold t. rewrite !tclamped_hi by lia. reflexivity. }
    replace (t (n - 1 + S q)%nat) with 1 by (unfold t; rewrite tclamped_hi by lia; reflexivity).
    rewrite Hgap. rewrite inv0_nz by (apply Rgt_not_eq, Rinv_0_lt_compat; exact HN0).
    rewrite Rinv_inv. simpl. ring.
Qed.

Lemma deriv_at_one n p s d :
  (1 <= p)%nat -> (p < n)%nat -> INR (n - p) <= 99900 ->
  new_spline n p Clamped = Some s -> new_deriv s = Some d ->
  evaluate_deriv d 1 (n - 2) = 0
  /\ filterlim (fun x => evaluate_deriv d x (n - 2)) (at_left 1) (locally (INR p * INR (n - p))).
Proof.
  intros H1 H2 HN Hs Hd.
  apply new_spline_inv in Hs. destruct Hs as [-> _].
  rewrite new_deriv_clamped in Hd by assumption. apply some_inj in Hd; subst d.
  assert (HN0 : 0 < INR (n - p)) by (apply lt_0_INR; lia).
  assert (Hnd : nondecreasing (tclamped n p)) by (apply separated_nondec, tclamped_separated; assumption).
  set (t := tclamped n p) in *.
  assert (Hgap : 1 - t (n - 1)%nat = / INR (n - p)).
  { unfold t. rewrite tclamped_mid by lia.
    replace (n - 1 - p)%nat with (n - p - 1)%nat by lia.
    rewrite (minus_INR (n - p) 1) by lia. simpl. field. lra. }
  assert (Hgp : 0 < / INR (n - p)) by (apply Rinv_0_lt_compat; exact HN0).
  split.
  - unfold evaluate_deriv. cbn [sty sn sp sT].
    replace (n - 2 <? n - 1)%nat with true by (symmetry; apply Nat.ltb_lt; lia).
    unfold evaluate. cbn [sty sn sT].
    replace (n - 2 + 1 =? n - 1 - 1)%nat with false by (symmetry; apply Nat.eqb_neq; lia).
    rewrite andb_false_l.
    rewrite (evaluate_raw_Bspl _ t); cbn [sT sp].
    + rewrite (Bspl_support t Hnd); [unfold Rdiv; ring|]. right.
      unfold t. rewrite tclamped_hi by lia. lra.
    + apply tclamped_separated; assumption.
    + apply clamped_knots; assumption.
    + rewrite clamped_length by lia. lia.
  - apply (filterlim_ext_loc (fun x => INR p * INR (n - p) * (INR (n - p) * (x - t (n - 1)%nat)) ^ (p - 1))).
    + exists (mkposreal _ Hgp). intros x Hb Hx.
      change (Rabs (x - 1) < / INR (n - p)) in Hb.
      assert (Hb2 : t (n - 1)%nat <= x < 1).
      { rewrite Rabs_left in Hb by lra. lra. }
      rewrite ev_deriv_clamped by (lra || lia || assumption).
      replace (n - 2 + 1)%nat with (n - 1)%nat by lia.
      fold t. unfold t at 3. rewrite (Bspl_last n p x H2 HN Hb2) by lia. fold t.
      replace (t (n - 1 + p)%nat) with 1 by (unfold t; rewrite tclamped_hi by lia; reflexivity).
      rewrite Hgap, inv0_nz, Rinv_inv by lra. ring.
    + assert (C : continuous (fun x => INR p * INR (n - p) * (INR (n - p) * (x - t (n - 1)%nat)) ^ (p - 1)) 1).
      { apply (ex_derive_continuous (fun x => INR p * INR (n - p) * (INR (n - p) * (x - t (n - 1)%nat)) ^ (p - 1))).
        auto_derive. exact I. }
      unfold continuous in C. rewrite Hgap in C. rewrite Rinv_r in C by lra.
      rewrite pow1, Rmult_1_r in C.
      intros P HP. unfold filtermap, at_left, within.
      generalize (C P HP). unfold filtermap. apply filter_imp. intros y Hy _. exact Hy.
Qed.

Lemma deriv_at_one_wrong n p s d :
  (1 <= p)%nat -> (p < n)%nat -> (3 <= n)%nat -> INR (n - p) <= 99900 ->
  new_spline n p Clamped = Some s -> new_deriv s = Some d ->
  0 < evaluate_deriv d 1 (n - 3).
Proof.
  intros H1 H2 H3 HN Hs Hd.
  apply new_spline_inv in Hs. destruct Hs as [-> _].
  rewrite new_deriv_clamped in Hd by assumption. apply some_inj in Hd; subst d.
  unfold evaluate_deriv. cbn [sty sn sp sT].
  replace (n - 3 <? n - 1)%nat with true by (symmetry; apply Nat.ltb_lt; lia).
  unfold evaluate. cbn [sty sn sT].
  replace (n - 3 + 1 =? n - 1 - 1)%nat with true by (symmetry; apply Nat.eqb_eq; lia).
  rewrite last_clamped by exact H2. rewrite Reqb_refl. cbn [andb].
  rewrite !(gather_knots _ (tclamped n p)) by
      (apply clamped_knots; exact H2) || (rewrite clamped_length by lia; lia).
  apply Rdiv_lt_0_compat.
  - rewrite Rmult_1_l. apply lt_0_INR. lia.
  - assert (L := tclamped_lt n p (n - 3 + 1) (n - 3 + (p - 1) + 2) H2 ltac:(lia) ltac:(lia) ltac:(lia)). lra.
Qed.

(** *** C06 : too many splines *)
Lemma p_spline_zero (t : nat -> R) x :
  (forall j, const_spline x [t j; t (S j)] = 0) ->
  forall p i, p_spline x (map t (seq i (p + 2))) p = 0.
Proof.
  intros H p; induction p as [|p IH]; intros i.
  - apply (H i).
  - cbn [p_spline]. replace (S p + 2)%nat with (S (p + 2)) by lia.
    rewrite removelast_map_seq, tl_map_seq, !IH. ring.
Qed.

Lemma large_n_zero n p s x i :
  new_spline n p Clamped = Some s -> (p < n)%nat -> 200000 <= INR (n - p) ->
  (i < n)%nat -> 6 / 10 <= x < 1 -> evaluate s x i = 0.
Proof.
  intros Hs H2 HN Hi Hx.
  apply new_spline_inv in Hs. destruct Hs as [-> _].
  unfold evaluate. cbn [sty sn sT]. rewrite last_clamped by exact H2.
  rewrite (Reqb_neq x 1) by lra. rewrite andb_false_r.
  unfold evaluate_raw. cbn [sT sp].
  rewrite (dynamic_slice_knots _ (tclamped n p)) by
    (apply clamped_knots; exact H2) || (rewrite clamped_length by lia; lia).
  rewrite p_spline_zero; [destruct (_ && _); reflexivity|].
  intros j. unfold const_spline. cbn [nth].
  destruct (isclose _ _) eqn:E; [reflexivity|].
  unfold Rleb, Rltb. destruct (Rle_dec (tclamped n p j) x) as [Hl|]; [|reflexivity].
  destruct (Rlt_dec x (tclamped n p (S j))) as [Hr|]; [|reflexivity].
  exfalso.
  assert (Hjp : (p <= j)%nat).
  { destruct (Nat.le_gt_cases p j) as [|Hlt]; [assumption|]. rewrite tclamped_lo in Hr by lia. lra. }
  assert (Hjn : (j < n)%nat).
  { destruct (Nat.lt_ge_cases j n) as [|Hlt]; [assumption|]. rewrite tclamped_hi in Hl by lia. lra. }
  unfold isclose, Rleb in E. destruct (Rle_dec _ _) as [|Hn] in E; [discriminate|]. apply Hn.
  assert (G : tclamped n p (S j) - tclamped n p j = / INR (n - p)).
  { rewrite !tclamped_mid by lia. replace (S j - p)%nat with (S (j - p)) by lia. rewrite S_INR. field. lra. }
  assert (Hi1 : / INR (n - p) <= / 200000) by (apply Rinv_le_contravar; lra).
  assert (Hi2 : 0 < / INR (n - p)) by (apply Rinv_0_lt_compat; lra).
  rewrite (Rabs_left (tclamped n p j - _)) by lra.
  rewrite (Rabs_pos_eq (tclamped n p (S j))) by lra. lra.
Qed.
