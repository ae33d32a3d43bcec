(** Proofs of the spline properties C01-C07. *)
From Coq Require Import Reals Lra Lia Arith List Bool ZArith.
From Coquelicot Require Import Coquelicot.
From Verif Require Import Model.RBase Model.Spline Spec.BSpline Proof.BSplineLemmas Proof.SplineLink.
Import ListNotations.
Local Open Scope R_scope.

Lemma new_spline_inv n p ty s : new_spline n p ty = Some s ->
  s = mkSpline n p ty (init_knots n p ty) /\ ((p < n)%nat \/ p = 1%nat).
Proof.
  unfold new_spline. destruct ((n <=? p)%nat && negb (p =? 1)%nat) eqn:E; [discriminate|].
  intros H; inversion H; subst. split; [reflexivity|].
  apply andb_false_iff in E. destruct E as [E|E].
  - apply Nat.leb_gt in E. left; exact E.
  - apply negb_false_iff, Nat.eqb_eq in E. right; exact E.
Qed.

Lemma last_nth_R (l : list R) d : last l d = nth (length l - 1) l d.
Proof.
  induction l as [|a l IH]; [reflexivity|].
  destruct l as [|b l]; [reflexivity|].
  change (last (a :: b :: l) d) with (last (b :: l) d). rewrite IH.
  simpl. rewrite Nat.sub_0_r. reflexivity.
Qed.

Lemma last_clamped n p : (p < n)%nat -> last (init_knots n p Clamped) 0 = 1.
Proof.
  intros H. rewrite last_nth_R.
  rewrite (clamped_knots n p H) by (rewrite clamped_length; lia).
  rewrite clamped_length by lia. apply tclamped_hi; lia.
Qed.

Lemma cell_exists (N : nat) (y : R) : 0 <= y < INR N -> exists m, (m < N)%nat /\ INR m <= y < INR m + 1.
Proof.
  induction N as [|N IH]; intros [H0 H1]; [simpl in H1; lra|].
  destruct (Rlt_dec y (INR N)) as [H|H].
  - destruct (IH (conj H0 H)) as [m [Hm1 Hm2]]. exists m. split; [lia | exact Hm2].
  - exists N. split; [lia|]. rewrite S_INR in H1. lra.
Qed.

Section Clamped.
Variables n p : nat.
Hypothesis Hp : (p < n)%nat.
Hypothesis HN : INR (n - p) <= 99900.
Let s := mkSpline n p Clamped (init_knots n p Clamped).
Let t := tclamped n p.

Lemma t_nd : nondecreasing t.
Proof. apply separated_nondec, tclamped_separated; assumption. Qed.

Lemma ev_clamped x i : (i < n)%nat -> x <> 1 -> evaluate s x i = Bspl t p i x.
Proof.
  intros Hi Hx. unfold evaluate, s. cbn [sty sn sT].
  rewrite last_clamped by exact Hp. rewrite (Reqb_neq x 1 Hx), andb_false_r.
  apply evaluate_raw_clamped; assumption.
Qed.

Lemma Bspl_clamped_out x i : (i < n)%nat -> x < 0 \/ 1 <= x -> Bspl t p i x = 0.
Proof.
  intros Hi Hx. apply (Bspl_support t t_nd).
  assert (t 0%nat <= t i) by (apply nondecreasing_le; [apply t_nd | lia]).
  assert (t (i + p + 1)%nat <= t (n + p)%nat) by (apply nondecreasing_le; [apply t_nd | lia]).
  unfold t in *. rewrite tclamped_lo in * by lia. rewrite (tclamped_hi n p (n + p)) in * by lia. lra.
Qed.

Lemma ev_clamped_one i : (i < n)%nat -> evaluate s 1 i = if (i =? n - 1)%nat then 1 else 0.
Proof.
  intros Hi. unfold evaluate, s. cbn [sty sn sT].
  rewrite last_clamped by exact Hp. rewrite Reqb_refl, andb_true_r.
  destruct (i =? n - 1)%nat; [reflexivity|].
  rewrite evaluate_raw_clamped by assumption. apply Bspl_clamped_out; [assumption | lra].
Qed.

Lemma clamped_pou x : 0 <= x <= 1 -> rsum n (fun i => evaluate s x i) = 1.
Proof.
  intros Hx. destruct (Req_dec x 1) as [->|Hne].
  - rewrite (rsum_ext n _ (fun i => if (i =? n - 1)%nat then 1 else 0))
      by (intros i Hi; apply ev_clamped_one; exact Hi).
    rewrite (rsum_single n _ (n - 1)).
    + rewrite Nat.eqb_refl. reflexivity.
    + lia.
    + intros i Hi Hk. apply Nat.eqb_neq in Hk. rewrite Hk. reflexivity.
  - rewrite (rsum_ext n _ (fun i => Bspl t p i x)) by (intros i Hi; apply ev_clamped; assumption).
    apply (Bspl_pou t t_nd). unfold t. rewrite tclamped_lo, tclamped_hi by lia. lra.
Qed.

Lemma clamped_nonneg x i : (i < n)%nat -> 0 <= evaluate s x i.
Proof.
  intros Hi. destruct (Req_dec x 1) as [->|Hne].
  - rewrite ev_clamped_one by exact Hi. destruct (i =? n - 1)%nat; lra.
  - rewrite ev_clamped by assumption. apply (Bspl_nonneg t t_nd).
Qed.

Lemma clamped_le1 x i : (i < n)%nat -> evaluate s x i <= 1.
Proof.
  intros Hi.
  destruct (Rlt_dec x 0) as [H0|H0]; [|destruct (Rlt_dec 1 x) as [H1|H1]].
  - rewrite ev_clamped, Bspl_clamped_out by (lra || assumption). lra.
  - rewrite ev_clamped, Bspl_clamped_out by (lra || assumption). lra.
  - rewrite <- (clamped_pou x) by lra.
    apply (rsum_ge_term n (fun i => evaluate s x i) i Hi). intros j Hj. apply clamped_nonneg; exact Hj.
Qed.

Lemma clamped_support x i : (i < n)%nat -> evaluate s x i <> 0 ->
  0 <= x <= 1 /\ INR i - INR p <= x * INR (n - p) <= INR i + 1.
Proof.
  intros Hi Hne.
  assert (HN0 : 0 < INR (n - p)) by (apply lt_0_INR; lia).
  destruct (Req_dec x 1) as [->|Hx1].
  { rewrite ev_clamped_one in Hne by exact Hi.
    destruct (Nat.eqb_spec i (n - 1)) as [->|]; [|lra].
    rewrite !minus_INR by lia. simpl INR.
    assert (INR p + 1 <= INR n) by (rewrite <- S_INR; apply le_INR; lia).
    assert (0 <= INR p) by apply pos_INR. split; lra. }
  rewrite ev_clamped in Hne by assumption.
  assert (Hin : 0 <= x < 1).
  { destruct (Rlt_dec x 0); [exfalso; apply Hne, Bspl_clamped_out; [exact Hi | lra]|].
    destruct (Rle_dec 1 x); [exfalso; apply Hne, Bspl_clamped_out; [exact Hi | lra]|]. lra. }
  split; [lra|].
  assert (Hlo : t i <= x). { apply Rnot_lt_le. intros H; apply Hne, (Bspl_support t t_nd); lra. }
  assert (Hhi : x < t (i + p + 1)%nat). { apply Rnot_le_lt. intros H; apply Hne, (Bspl_support t t_nd); lra. }
  assert (Hxs : 0 <= x * INR (n - p) < INR (n - p)).
  { split; [apply Rmult_le_pos; lra|]. rewrite <- (Rmult_1_l (INR (n - p))) at 2.
    apply Rmult_lt_compat_r; lra. }
  split.
  - destruct (Nat.le_gt_cases i p) as [Hip|Hip].
    + assert (INR i <= INR p) by (apply le_INR; exact Hip). lra.
    + unfold t in Hlo. rewrite tclamped_mid in Hlo by lia.
      rewrite minus_INR in Hlo by lia.
      apply (Rmult_le_compat_r (INR (n - p))) in Hlo; [|lra].
      unfold Rdiv in Hlo. rewrite Rmult_assoc, Rinv_l in Hlo by lra. lra.
  - destruct (Nat.le_gt_cases n (i + p + 1)) as [Hn|Hn].
    + rewrite minus_INR in Hxs |- * by lia.
      assert (INR n <= INR (i + p + 1)) by (apply le_INR; exact Hn).
      rewrite !plus_INR in H. simpl in H. lra.
    + unfold t in Hhi. rewrite tclamped_mid in Hhi by lia.
      replace (i + p + 1 - p)%nat with (S i) in Hhi by lia. rewrite S_INR in Hhi.
      apply (Rmult_lt_compat_r (INR (n - p))) in Hhi; [|lra].
      unfold Rdiv in Hhi. rewrite Rmult_assoc, Rinv_l in Hhi by lra. lra.
Qed.

(** at most p+1 consecutive splines are non-zero *)
Lemma clamped_active x : 0 <= x <= 1 -> exists m, (m + p < n)%nat /\
  forall i, (i < n)%nat -> evaluate s x i <> 0 -> (m <= i <= m + p)%nat.
Proof.
  intros Hx. assert (HN0 : 0 < INR (n - p)) by (apply lt_0_INR; lia).
  destruct (Req_dec x 1) as [->|Hx1].
  { exists (n - 1 - p)%nat. split; [lia|]. intros i Hi Hne.
    rewrite ev_clamped_one in Hne by exact Hi.
    destruct (Nat.eqb_spec i (n - 1)); [lia | lra]. }
  destruct (cell_exists (n - p) (x * INR (n - p))) as [m [Hm1 Hm2]].
  { split; [apply Rmult_le_pos; lra|]. rewrite <- (Rmult_1_l (INR (n - p))) at 2.
    apply Rmult_lt_compat_r; lra. }
  exists m. split; [lia|]. intros i Hi Hne.
  rewrite ev_clamped in Hne by assumption.
  assert (Hxm : t (m + p)%nat <= x).
  { unfold t. rewrite tclamped_mid by lia. replace (m + p - p)%nat with m by lia.
    apply (Rmult_le_reg_r (INR (n - p))); [lra|]. unfold Rdiv.
    rewrite Rmult_assoc, Rinv_l by lra. lra. }
  assert (Hxm2 : x < t (m + p + 1)%nat).
  { unfold t. rewrite tclamped_mid by lia. replace (m + p + 1 - p)%nat with (S m) by lia.
    rewrite S_INR.
    apply (Rmult_lt_reg_r (INR (n - p))); [lra|]. unfold Rdiv.
    rewrite Rmult_assoc, Rinv_l by lra. lra. }
  split.
  - destruct (Nat.le_gt_cases m i) as [|H]; [assumption|]. exfalso. apply Hne.
    apply (Bspl_support t t_nd). right. apply Rle_trans with (2 := Hxm).
    apply nondecreasing_le; [apply t_nd | lia].
  - destruct (Nat.le_gt_cases i (m + p)) as [|H]; [assumption|]. exfalso. apply Hne.
    apply (Bspl_support t t_nd). left. apply Rlt_le_trans with (1 := Hxm2).
    apply nondecreasing_le; [apply t_nd | lia].
Qed.

Lemma clamped_left i : (i < n)%nat -> evaluate s 0 i = if (i =? 0)%nat then 1 else 0.
Proof.
  intros Hi. rewrite ev_clamped by (lra || assumption).
  assert (Ht0 : forall j, (j <= p)%nat -> t j = 0) by (intros j Hj; apply tclamped_lo; exact Hj).
  assert (Ht1 : 0 < t (p + 1)%nat).
  { unfold t. rewrite tclamped_mid by lia. replace (p + 1 - p)%nat with 1%nat by lia.
    apply Rdiv_lt_0_compat; [simpl; lra | apply lt_0_INR; lia]. }
  assert (HB0 : Bspl t p 0 0 = 1).
  { pose proof (Bspl_full_mult t t_nd p 0) as F. change (0 + p)%nat with p in F.
    rewrite !Ht0 in F by lia. apply F; [reflexivity | exact Ht1]. }
  destruct (Nat.eqb_spec i 0) as [->|Hi0]; [exact HB0|].
  assert (P := clamped_pou 0 ltac:(lra)).
  assert (G : evaluate s 0 0 + evaluate s 0 i <= 1).
  { rewrite <- P. clear P.
    assert (K : forall m, (i < m)%nat -> (m <= n)%nat ->
      evaluate s 0 0 + evaluate s 0 i <= rsum m (fun j => evaluate s 0 j)).
    { induction m as [|m IH]; intros H1 H2; [lia|]. cbn [rsum].
      destruct (Nat.eq_dec i m) as [->|Hne].
      - assert (evaluate s 0 0 <= rsum m (fun j => evaluate s 0 j)).
        { apply (rsum_ge_term m (fun j => evaluate s 0 j) 0); [lia|].
          intros j Hj; apply clamped_nonneg; lia. }
        lra.
      - assert (0 <= evaluate s 0 m) by (apply clamped_nonneg; lia).
        specialize (IH ltac:(lia) ltac:(lia)). lra. }
    apply K; lia. }
  rewrite !ev_clamped in G by (lra || lia). rewrite HB0 in G.
  assert (0 <= Bspl t p i 0) by apply (Bspl_nonneg t t_nd). lra.
Qed.
End Clamped.

(** *** Periodic *)
Section Periodic.
Variables n p : nat.
Hypothesis Hn : (0 < n)%nat.
Hypothesis Hp : (p <= n)%nat.
Hypothesis HN : INR n <= 49000.
Let s := mkSpline n p Periodic (init_knots n p Periodic).
Let t := tperiodic n p.

Lemma tp_nd : nondecreasing t.
Proof. apply tperiodic_nondec; exact Hn. Qed.

Lemma ev_periodic x i : (i < n)%nat ->
  evaluate s x i = if (i <? p)%nat then Bspl t p i x + Bspl t p (n + i) x else Bspl t p i x.
Proof.
  intros Hi. unfold evaluate, s. cbn [sty sn sp].
  destruct (Nat.ltb_spec i p); rewrite ?evaluate_raw_periodic by (assumption || lia); reflexivity.
Qed.

Lemma periodic_sum x : rsum n (fun i => evaluate s x i) = rsum (n + p) (fun i => Bspl t p i x).
Proof.
  rewrite (rsum_ext n _ (fun i => Bspl t p i x + (if (i <? p)%nat then Bspl t p (n + i) x else 0))).
  - rewrite rsum_plus, rsum_split. f_equal.
    replace n with (p + (n - p))%nat at 1 by lia. rewrite rsum_split.
    rewrite (rsum_zero (n - p)).
    + rewrite Rplus_0_r. apply rsum_ext. intros i Hi.
      apply Nat.ltb_lt in Hi. rewrite Hi. reflexivity.
    + intros i Hi. destruct (Nat.ltb_spec (p + i) p); [lia | reflexivity].
  - intros i Hi. rewrite ev_periodic by exact Hi. destruct (i <? p)%nat; lra.
Qed.

Lemma t_p : t p = 0.
Proof. unfold t, tperiodic. unfold Rdiv. lra. Qed.
Lemma t_np : t (n + p)%nat = 1.
Proof.
  unfold t, tperiodic. rewrite plus_INR. field.
  assert (0 < INR n) by (apply lt_0_INR; lia). lra.
Qed.
Lemma t_step j : t j < t (S j).
Proof.
  assert (S := tperiodic_step n p j Hn). fold t in S.
  assert (0 < / INR n) by (apply Rinv_0_lt_compat, lt_0_INR; lia). lra.
Qed.

Lemma periodic_pou x : 0 <= x < 1 \/ ((1 <= p)%nat /\ x = 1) -> rsum n (fun i => evaluate s x i) = 1.
Proof.
  intros Hx. rewrite periodic_sum. destruct Hx as [Hx|[Hp1 ->]].
  - apply (Bspl_pou t tp_nd). rewrite t_p, t_np. exact Hx.
  - assert (E : rsum (S (n + p)) (fun i => Bspl t p i 1) = 1).
    { apply (Bspl_pou t tp_nd). rewrite t_p. split; [lra|].
      rewrite <- t_np. apply t_step. }
    cbn [rsum] in E.
    replace (Bspl t p (n + p) 1) with 0 in E; [lra|].
    symmetry. assert (L := Bspl_left_zero t tp_nd (p - 1) (n + p) (t_step _)).
    rewrite t_np in L. replace (S (p - 1)) with p in L by lia. exact L.
Qed.

Lemma periodic_nonneg x i : (i < n)%nat -> 0 <= evaluate s x i.
Proof.
  intros Hi. rewrite ev_periodic by exact Hi.
  assert (0 <= Bspl t p i x) by apply (Bspl_nonneg t tp_nd).
  assert (0 <= Bspl t p (n + i) x) by apply (Bspl_nonneg t tp_nd).
  destruct (i <? p)%nat; lra.
Qed.

Lemma periodic_le1 x i : (i < n)%nat -> 0 <= x < 1 -> evaluate s x i <= 1.
Proof.
  intros Hi Hx. rewrite <- (periodic_pou x) by (left; exact Hx).
  apply (rsum_ge_term n (fun i => evaluate s x i) i Hi). intros j Hj. apply periodic_nonneg; exact Hj.
Qed.

Lemma periodic_active x : 0 <= x < 1 -> exists m, (m < n)%nat /\ INR m <= x * INR n < INR m + 1 /\
  forall i, (i < n)%nat -> evaluate s x i <> 0 -> exists k, (k <= p)%nat /\ i = ((m + k) mod n)%nat.
Proof.
  intros Hx. assert (HN0 : 0 < INR n) by (apply lt_0_INR; lia).
  destruct (cell_exists n (x * INR n)) as [m [Hm1 Hm2]].
  { split; [apply Rmult_le_pos; lra|]. rewrite <- (Rmult_1_l (INR n)) at 2.
    apply Rmult_lt_compat_r; lra. }
  exists m. split; [exact Hm1|]. split; [exact Hm2|].
  assert (Key : forall j, Bspl t p j x <> 0 -> (m <= j <= m + p)%nat).
  { intros j Hne.
    assert (Hlo : t j <= x). { apply Rnot_lt_le. intros H; apply Hne, (Bspl_support t tp_nd); lra. }
    assert (Hhi : x < t (j + p + 1)%nat). { apply Rnot_le_lt. intros H; apply Hne, (Bspl_support t tp_nd); lra. }
    unfold t, tperiodic in Hlo, Hhi. rewrite !plus_INR in Hhi. simpl INR in Hhi.
    apply (Rmult_le_compat_r (INR n)) in Hlo; [|lra].
    apply (Rmult_lt_compat_r (INR n)) in Hhi; [|lra].
    unfold Rdiv in Hlo, Hhi. rewrite Rmult_assoc, Rinv_l in Hlo by lra.
    rewrite Rmult_assoc, Rinv_l in Hhi by lra.
    split.
    - assert (m < j + 1)%nat; [apply INR_lt; rewrite plus_INR; simpl; lra | lia].
    - assert (j < m + p + 1)%nat; [apply INR_lt; rewrite !plus_INR; simpl; lra | lia]. }
  intros i Hi Hne. rewrite ev_periodic in Hne by exact Hi.
  destruct (Req_EM_T (Bspl t p i x) 0) as [E|E].
  - destruct (Nat.ltb_spec i p); [|contradiction].
    assert (E2 : Bspl t p (n + i) x <> 0) by lra. apply Key in E2.
    exists (n + i - m)%nat. split; [lia|].
    replace (m + (n + i - m))%nat with (i + 1 * n)%nat by lia.
    rewrite Nat.mod_add, Nat.mod_small by lia. reflexivity.
  - apply Key in E. exists (i - m)%nat. split; [lia|].
    replace (m + (i - m))%nat with i by lia. rewrite Nat.mod_small by lia. reflexivity.
Qed.

Lemma periodic_closed i : (1 <= p)%nat -> (i < n)%nat -> evaluate s 0 i = evaluate s 1 i.
Proof.
  intros Hp1 Hi. assert (HN0 : 0 < INR n) by (apply lt_0_INR; lia).
  rewrite !ev_periodic by exact Hi.
  assert (Z1 : Bspl t p i 1 = 0).
  { apply (Bspl_support t tp_nd). right. rewrite <- t_np.
    apply nondecreasing_le; [apply tp_nd | lia]. }
  assert (Z2 : forall j, (p <= j)%nat -> Bspl t p j 0 = 0).
  { intros j Hj.
    destruct (Nat.eq_dec j p) as [->|Hne].
    - assert (L := Bspl_left_zero t tp_nd (p - 1) p (t_step _)).
      rewrite t_p in L. replace (S (p - 1)) with p in L by lia. exact L.
    - apply (Bspl_support t tp_nd). left. rewrite <- t_p.
      apply Rlt_le_trans with (1 := t_step p). apply nondecreasing_le; [apply tp_nd | lia]. }
  destruct (Nat.ltb_spec i p) as [Hip|Hip].
  - rewrite Z1, (Z2 (n + i)%nat) by lia.
    replace (n + i)%nat with (i + n)%nat by lia.
    replace 1 with (0 + 1) at 1 by ring.
    rewrite (Bspl_shift t n 1); [lra|]. intros j. apply tperiodic_shift; exact Hn.
  - rewrite Z1, Z2 by lia. reflexivity.
Qed.
End Periodic.
