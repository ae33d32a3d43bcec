(** The periodic derivative splines sum to the number of splines. *)
From Coq Require Import Reals Lra Lia List PeanoNat.
From Verif Require Import Model.RBase Model.Spline Proof.BSplineLemmas Proof.SplineLink Proof.SplineProps Proof.SplineDeriv Spec.BSpline.
Local Open Scope R_scope.

Lemma periodic_deriv_sum n p x : (1 <= p)%nat -> (p < n)%nat -> INR n <= 49000 -> 0 <= x < 1 ->
  rsum n (fun j => evaluate_deriv (mkSpline n (p - 1) Periodic (removelast (tl (init_knots n p Periodic)))) x j) = INR n.
Proof.
  intros H1 H2 HN Hx.
  rewrite (rsum_ext n _ (fun j => INR n * (Bspl (tperiodic n p) (p - 1) (j + 1) x
     + (if (j <? p - 1)%nat then Bspl (tperiodic n p) (p - 1) (n + j + 1) x else 0)))).
  2:{ intros i Hi. rewrite ev_deriv_periodic by (assumption || lia). f_equal. destruct (i <? p - 1)%nat; lra. }
  rewrite rsum_scal, rsum_plus.
  assert (Hn : (0 < n)%nat) by lia.
  assert (Hnd := tperiodic_nondec n p Hn).
  assert (E : rsum (S (n + (p - 1))) (fun i => Bspl (tperiodic n p) (p - 1) i x) = 1).
  { apply (Bspl_pou _ Hnd). split.
    - apply Rle_trans with (tperiodic n p p); [apply nondecreasing_le; [exact Hnd | lia] |].
      rewrite t_p by (assumption || lia). lra.
    - replace (S (n + (p - 1))) with (n + p)%nat by lia. rewrite t_np by (assumption || lia). lra. }
  replace (rsum n _ + rsum n _) with 1; [ring|].
  rewrite <- E. change (S (n + (p - 1))) with (1 + (n + (p - 1)))%nat. rewrite rsum_split. cbn [rsum].
  rewrite (Bspl_support _ Hnd (p - 1) 0 x) by (right; replace (0 + (p - 1) + 1)%nat with p by lia; rewrite t_p by (assumption || lia); lra).
  rewrite rsum_split, !Rplus_0_l. f_equal.
  - apply rsum_ext. intros i Hi. f_equal. lia.
  - replace n with ((p - 1) + (n - (p - 1)))%nat at 1 by lia. rewrite rsum_split.
    rewrite (rsum_zero (n - (p - 1))).
    + rewrite Rplus_0_r. apply rsum_ext. intros i Hi.
      apply Nat.ltb_lt in Hi. rewrite Hi. f_equal. lia.
    + intros i Hi. destruct (Nat.ltb_spec (p - 1 + i) (p - 1)); [lia | reflexivity].
Qed.
