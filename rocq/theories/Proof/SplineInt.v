(** Integrals over [0,1]: every derivative spline has integral one. *)
From Coq Require Import Reals Lra Lia Arith List Bool ZArith.
From Coquelicot Require Import Coquelicot.
From Verif Require Import Model.RBase Model.Spline Spec.BSpline Proof.BSplineLemmas Proof.SplineLink Proof.SplineProps
  Proof.SplineDeriv Proof.SplineIBP Proof.SplineSmooth Proof.SplineCont.
Import ListNotations.
Local Open Scope R_scope.

(** the fundamental theorem on consecutive cells *)
Lemma FTC_pieces (a : nat -> R) (g : R -> R) (G G' : nat -> R -> R) N :
  (forall e, (e <= N)%nat -> a e < a (S e)) ->
  (forall e x, is_derive (G e) x (G' e x)) -> (forall e x, continuous (G' e) x) ->
  (forall e x, (e <= N)%nat -> a e < x < a (S e) -> g x = G' e x) ->
  (forall e, (e < N)%nat -> G e (a (S e)) = G (S e) (a (S e))) ->
  is_RInt g (a 0%nat) (a (S N)) (G N (a (S N)) - G 0%nat (a 0%nat)).
Proof.
  assert (C : forall e, a e < a (S e) -> (forall x, is_derive (G e) x (G' e x)) -> (forall x, continuous (G' e) x) ->
     (forall x, a e < x < a (S e) -> g x = G' e x) -> is_RInt g (a e) (a (S e)) (G e (a (S e)) - G e (a e))).
  { intros e He HG HC Hg. apply (is_RInt_ext (G' e)).
    - intros x Hx. rewrite Rmin_left, Rmax_right in Hx by lra. symmetry. apply Hg. exact Hx.
    - apply (is_RInt_derive (G e)); intros; [apply HG | apply HC]. }
  intros Ha HG HC Hg. induction N as [|N IH]; intros HM.
  - apply C; [apply Ha; lia | apply HG | apply HC |]. intros x Hx. apply Hg; [lia | exact Hx].
  - replace (G (S N) (a (S (S N))) - G 0%nat (a 0%nat))
      with (plus (G N (a (S N)) - G 0%nat (a 0%nat)) (G (S N) (a (S (S N))) - G (S N) (a (S N)))).
    2:{ unfold plus; simpl. rewrite (HM N) by lia. ring. }
    apply (is_RInt_Chasles g _ (a (S N))).
    + apply IH; intros; [apply Ha; lia | apply Hg; [lia | assumption] | apply HM; lia].
    + apply C; [apply Ha; lia | apply HG | apply HC |]. intros x Hx. apply Hg; [lia | exact Hx].
Qed.

Section Run.
Variable t : nat -> R.
Hypothesis Ht : nondecreasing t.
Notation bv := (bv t).
Notation ck q k := (inv0 (t (k + S q)%nat - t k)).

Lemma dbv_sum m q i x : rsum (S i) (fun j => dbv t m q j x)
  = INR (S q) * (ck q 0%nat * bv m q 0 x - ck q (S i) * bv m q (S i) x).
Proof.
  induction i as [|i IH].
  - cbn [rsum]. unfold dbv. replace (0 + S q + 1)%nat with (1 + S q)%nat by lia. ring.
  - change (rsum (S (S i)) ?f) with (rsum (S i) f + f (S i)). cbv beta. rewrite IH. unfold dbv.
    replace (S i + S q + 1)%nat with (S (S i) + S q)%nat by lia. ring.
Qed.
Lemma sum_derive_bv m q i x : is_derive (fun y => - rsum (S i) (fun j => bv m (S q) j y)) x (- rsum (S i) (fun j => dbv t m q j x)).
Proof.
  apply (is_derive_opp (fun y => rsum (S i) (fun j => bv m (S q) j y))).
  induction (S i) as [|k IH].
  - cbn [rsum]. apply (is_derive_const (V := R_NormedModule) 0 x).
  - cbn [rsum]. apply @is_derive_plus; [exact IH | apply bv_derive; exact Ht].
Qed.

Lemma run_int m0 N q i : (forall e, (e <= N)%nat -> t (m0 + e)%nat < t (m0 + S e)%nat) ->
  (forall e x, (e <= N)%nat -> ck q 0%nat * bv (m0 + e) q 0 x = 0) ->
  is_RInt (fun x => INR (S q) * (ck q (S i) * Bspl t q (S i) x)) (t m0) (t (m0 + S N)%nat)
    (rsum (S i) (fun j => bv m0 (S q) j (t m0)) - rsum (S i) (fun j => bv (m0 + N) (S q) j (t (m0 + S N)%nat))).
Proof.
  intros Hm H0.
  pose (G := fun e y => - rsum (S i) (fun j => bv (m0 + e) (S q) j y)).
  pose (G' := fun e y => - (INR (S q) * (ck q 0%nat * bv (m0 + e) q 0 y - ck q (S i) * bv (m0 + e) q (S i) y))).
  assert (F := FTC_pieces (fun e => t (m0 + e)%nat) (fun x => INR (S q) * (ck q (S i) * Bspl t q (S i) x)) G G' N).
  cbv beta in F. rewrite Nat.add_0_r in F.
  match goal with |- is_RInt _ _ _ ?v => replace v with (G N (t (m0 + S N)%nat) - G 0%nat (t m0)) end.
  2:{ unfold G. rewrite Nat.add_0_r. ring. }
  apply F; clear F.
  - intros e He. apply Hm. lia.
  - intros e x. unfold G'. rewrite <- (dbv_sum (m0 + e) q i x). apply sum_derive_bv.
  - intros e x. unfold G'. apply (continuous_opp (fun x => INR (S q) * (ck q 0%nat * bv (m0 + e) q 0 x - ck q (S i) * bv (m0 + e) q (S i) x))).
    apply (continuous_scal_r (INR (S q)) (fun x => ck q 0%nat * bv (m0 + e) q 0 x - ck q (S i) * bv (m0 + e) q (S i) x) x).
    apply (continuous_minus (fun x => ck q 0%nat * bv (m0 + e) q 0 x) (fun x => ck q (S i) * bv (m0 + e) q (S i) x) x).
    + apply (continuous_scal_r (ck q 0%nat) (bv (m0 + e) q 0) x), bv_cont, Ht.
    + apply (continuous_scal_r (ck q (S i)) (bv (m0 + e) q (S i)) x), bv_cont, Ht.
  - intros e x He Hx. unfold G'. rewrite H0 by exact He.
    rewrite (Bspl_bv t Ht (m0 + e)) by (replace (S (m0 + e)) with (m0 + S e)%nat by lia; lra). ring.
  - intros e He. unfold G. f_equal. apply rsum_ext. intros j Hj.
    replace (m0 + S e)%nat with (S (m0 + e)) by lia. apply bv_match.
    + replace (S (m0 + e)) with (m0 + S e)%nat by lia. apply Hm. lia.
    + replace (S (m0 + e)) with (m0 + S e)%nat by lia. replace (S (m0 + S e)) with (m0 + S (S e))%nat by lia. apply Hm. lia.
Qed.
End Run.

Lemma clamped_deriv_int n p s d i : (1 <= p)%nat -> (p < n)%nat -> INR (n - p) <= 99900 ->
  new_spline n p Clamped = Some s -> new_deriv s = Some d -> (i < n - 1)%nat ->
  is_RInt (fun x => evaluate_deriv d x i) 0 1 1.
Proof.
  intros Hp1 Hp HN Hs Hd Hi. destruct (new_spline_inv _ _ _ _ Hs) as [-> _].
  rewrite new_deriv_clamped in Hd by (assumption || lia). apply some_inj in Hd; subst d.
  set (t := tclamped n p).
  assert (Ht : nondecreasing t) by (apply separated_nondec, tclamped_separated; assumption).
  assert (T0 : t p = 0) by (apply tclamped_lo; lia). assert (T1 : t n = 1) by (apply tclamped_hi; lia).
  destruct p as [|q]; [lia|].
  pose proof (run_int t Ht (S q) (n - S q - 1) q i) as F.
  replace (S q + S (n - S q - 1))%nat with n in F by lia. replace (S q + (n - S q - 1))%nat with (n - 1)%nat in F by lia.
  rewrite T0, T1 in F.
  match type of F with _ -> _ -> is_RInt _ _ _ ?v => replace v with 1 in F end.
  - apply (is_RInt_ext (fun x => INR (S q) * (inv0 (t (S i + S q)%nat - t (S i)) * Bspl t q (S i) x))).
    + intros x Hx. rewrite Rmin_left, Rmax_right in Hx by lra.
      rewrite ev_deriv_clamped by (assumption || lia || lra). fold t.
      replace (S q - 1)%nat with q by lia. replace (i + 1)%nat with (S i) by lia. reflexivity.
    + apply F.
      * intros e He. apply tclamped_lt; lia.
      * intros e x He. unfold t. rewrite (tclamped_lo n (S q) (0 + S q)), (tclamped_lo n (S q) 0) by lia.
        replace (0 - 0) with 0 by ring. rewrite inv0_0. ring.
  - rewrite (rsum_single (S i) (fun j => bv t (S q) (S q) j 0) 0); [|lia|].
    2:{ intros j Hj Hj0. assert (Z : bv t (S q) (S q) j (t (S q)) = 0); [|rewrite T0 in Z; exact Z].
        apply bv_left; [|lia]. intros k Hk1 Hk2. unfold t. rewrite !tclamped_lo by lia. reflexivity. }
    rewrite <- (Bspl_bv t Ht (S q) (S q) 0 0).
    2:{ split; [lra|]. rewrite <- T0. apply tclamped_lt; lia. }
    assert (Y : Bspl t (S q) 0 (t (0 + S q)%nat) = 1).
    { apply Bspl_full_mult; [exact Ht | unfold t; rewrite !tclamped_lo by lia; reflexivity | apply tclamped_lt; lia]. }
    rewrite Nat.add_0_l, T0 in Y. rewrite Y.
    rewrite rsum_zero; [ring|]. intros j Hj. unfold t. rewrite bv_clamped_right by (assumption || lia).
    replace (j =? n - 1)%nat with false by (symmetry; apply Nat.eqb_neq; lia). reflexivity.
Qed.

Lemma periodic_raw_int n p k : (1 <= p)%nat -> (p <= n)%nat -> INR n <= 49000 -> (k < n + p - 1)%nat ->
  is_RInt (fun x => INR n * Bspl (tperiodic n p) (p - 1) (k + 1) x) 0 1
   (rsum (S k) (fun j => bv (tperiodic n p) p p j 0) - (if (k <? n)%nat then 0 else rsum (S (k - n)) (fun j => bv (tperiodic n p) p p j 0))).
Proof.
  intros Hp1 Hpn HN Hk. set (t := tperiodic n p).
  assert (HN0 : 0 < INR n) by (apply lt_0_INR; lia). assert (HP0 : 0 < INR p) by (apply lt_0_INR; lia).
  assert (Ht : nondecreasing t) by (apply tperiodic_nondec; lia).
  assert (T0 : t p = 0) by (unfold t; apply t_p; lia || assumption).
  assert (T1 : t (n + p)%nat = 1) by (unfold t; apply t_np; lia || assumption).
  assert (TS : forall i, t (i + n)%nat = t i + 1) by (intros i; unfold t, tperiodic; rewrite plus_INR; field; lra).
  pose proof (run_int t Ht p (n - 1) (p - 1) k) as F.
  replace (p + S (n - 1))%nat with (n + p)%nat in F by lia. replace (p + (n - 1))%nat with (n + p - 1)%nat in F by lia.
  replace (S (p - 1)) with p in F by lia. rewrite T0, T1 in F.
  match type of F with _ -> _ -> is_RInt _ _ _ (?a - ?b) =>
    replace b with (if (k <? n)%nat then 0 else rsum (S (k - n)) (fun j => bv t p p j 0)) in F end.
  - apply (is_RInt_ext (fun x => INR p * (inv0 (t (S k + p)%nat - t (S k)) * Bspl t (p - 1) (S k) x))).
    + intros x _. replace (t (S k + p)%nat - t (S k)) with (INR p / INR n) by (unfold t, tperiodic; rewrite plus_INR; field; lra).
      rewrite inv0_nz by (apply Rgt_not_eq, Rdiv_lt_0_compat; lra). replace (k + 1)%nat with (S k) by lia.
      change (INR p * (/ (INR p / INR n) * Bspl t (p - 1) (S k) x) = INR n * Bspl t (p - 1) (S k) x). field. lra.
    + apply F.
      * intros e He. replace (p + S e)%nat with (S (p + e)) by lia. apply tperiodic_lt. lia.
      * intros e x He. rewrite bv_out by lia. ring.
  - assert (E : forall j, bv t (n + p - 1) p j 1 = if (j <? n)%nat then 0 else bv t p p (j - n) 0).
    { intros j. destruct p as [|q]; [lia|]. rewrite <- T1. replace (n + S q)%nat with (S (n + S q - 1)) at 2 by lia.
      rewrite bv_match by (apply tperiodic_lt; lia). replace (S (n + S q - 1)) with (S q + n)%nat by lia.
      destruct (Nat.ltb_spec j n) as [Hj|Hj]; [apply bv_out; lia|].
      replace j with (j - n + n)%nat at 1 by lia. rewrite TS. rewrite (bv_shift t n 1 TS). rewrite T0. reflexivity. }
    rewrite (rsum_ext (S k) _ _ (fun j _ => E j)).
    destruct (Nat.ltb_spec k n) as [Hkn|Hkn].
    + rewrite rsum_zero; [reflexivity|]. intros j Hj. replace (j <? n)%nat with true by (symmetry; apply Nat.ltb_lt; lia). reflexivity.
    + replace (S k) with (n + S (k - n))%nat by lia. rewrite rsum_split, (rsum_zero n).
      2:{ intros j Hj. replace (j <? n)%nat with true by (symmetry; apply Nat.ltb_lt; lia). reflexivity. }
      rewrite Rplus_0_l. apply rsum_ext. intros j Hj. replace (n + j <? n)%nat with false by (symmetry; apply Nat.ltb_ge; lia).
      f_equal. lia.
Qed.
Lemma periodic_bv_sum n p k : (1 <= p)%nat -> (p <= n)%nat -> INR n <= 49000 -> (p <= S k)%nat ->
  rsum (S k) (fun j => bv (tperiodic n p) p p j 0) = 1.
Proof.
  intros Hp1 Hpn HN Hk. set (t := tperiodic n p).
  assert (Ht : nondecreasing t) by (apply tperiodic_nondec; lia).
  assert (T0 : t p = 0) by (unfold t; apply t_p; lia || assumption).
  assert (T1 : 0 < t (S p)) by (rewrite <- T0; apply tperiodic_lt; lia).
  assert (Z : forall j, (p <= j)%nat -> bv t p p j 0 = 0).
  { intros j Hj. destruct (Nat.eq_dec j p) as [->|Hne]; [|apply bv_out; lia].
    destruct p as [|q]; [lia|]. assert (Y := bv_left_knot t (S q) q). rewrite T0 in Y. exact Y. }
  pose proof (Bspl_pou t Ht p (S p) 0 ltac:(lra)) as P.
  rewrite (rsum_ext (S p) _ (fun j => bv t p p j 0)) in P.
  2:{ intros j Hj. apply Bspl_bv; [exact Ht | lra]. }
  cbn [rsum] in P. rewrite (Z p) in P by lia.
  replace (S k) with (p + (S k - p))%nat by lia. rewrite rsum_split.
  rewrite (rsum_zero (S k - p)) by (intros; apply Z; lia). lra.
Qed.
Lemma periodic_deriv_int n p s d i : (1 <= p)%nat -> (p < n)%nat -> INR n <= 49000 ->
  new_spline n p Periodic = Some s -> new_deriv s = Some d -> (i < n)%nat ->
  is_RInt (fun x => evaluate_deriv d x i) 0 1 1.
Proof.
  intros Hp1 Hp HN Hs Hd Hi. destruct (new_spline_inv _ _ _ _ Hs) as [-> _].
  rewrite new_deriv_periodic in Hd by (lia || (left; assumption)). apply some_inj in Hd; subst d.
  destruct (Nat.ltb_spec i (p - 1)) as [Hip|Hip].
  - apply (is_RInt_ext (fun x => INR n * Bspl (tperiodic n p) (p - 1) (i + 1) x + INR n * Bspl (tperiodic n p) (p - 1) (n + i + 1) x)).
    { intros x _. rewrite ev_deriv_periodic by (assumption || lia).
      replace (i <? p - 1)%nat with true by (symmetry; apply Nat.ltb_lt; lia). symmetry. apply Rmult_plus_distr_l. }
    pose proof (periodic_raw_int n p i Hp1 ltac:(lia) HN ltac:(lia)) as F1.
    pose proof (periodic_raw_int n p (n + i) Hp1 ltac:(lia) HN ltac:(lia)) as F2.
    replace (i <? n)%nat with true in F1 by (symmetry; apply Nat.ltb_lt; lia).
    replace (n + i <? n)%nat with false in F2 by (symmetry; apply Nat.ltb_ge; lia).
    rewrite (periodic_bv_sum n p (n + i)) in F2 by (assumption || lia). replace (n + i - n)%nat with i in F2 by lia.
    pose proof (is_RInt_plus _ _ _ _ _ _ F1 F2) as F.
    match type of F with is_RInt _ _ _ ?v => replace v with 1 in F end; [exact F | unfold plus; simpl; ring].
  - apply (is_RInt_ext (fun x => INR n * Bspl (tperiodic n p) (p - 1) (i + 1) x)).
    { intros x _. rewrite ev_deriv_periodic by (assumption || lia).
      replace (i <? p - 1)%nat with false by (symmetry; apply Nat.ltb_ge; lia). reflexivity. }
    pose proof (periodic_raw_int n p i Hp1 ltac:(lia) HN ltac:(lia)) as F1.
    replace (i <? n)%nat with true in F1 by (symmetry; apply Nat.ltb_lt; lia).
    rewrite (periodic_bv_sum n p i) in F1 by (assumption || lia).
    match type of F1 with is_RInt _ _ _ ?v => replace v with 1 in F1 by ring end. exact F1.
Qed.
