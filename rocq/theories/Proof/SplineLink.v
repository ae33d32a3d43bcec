(** The code's spline evaluation (Model/Spline.v) agrees with textbook B-splines. *)
From Coq Require Import Reals Lra Lia Arith List Bool.
From Verif Require Import Model.RBase Model.Spline Spec.BSpline Proof.BSplineLemmas.
Import ListNotations.
Local Open Scope R_scope.

Lemma Rleb_true x y : x <= y -> Rleb x y = true.
Proof. unfold Rleb; destruct (Rle_dec x y); intros; [reflexivity | lra]. Qed.
Lemma Rleb_false x y : y < x -> Rleb x y = false.
Proof. unfold Rleb; destruct (Rle_dec x y); intros; [lra | reflexivity]. Qed.
Lemma Rltb_true x y : x < y -> Rltb x y = true.
Proof. unfold Rltb; destruct (Rlt_dec x y); intros; [reflexivity | lra]. Qed.
Lemma Rltb_false x y : y <= x -> Rltb x y = false.
Proof. unfold Rltb; destruct (Rlt_dec x y); intros; [lra | reflexivity]. Qed.
Lemma Reqb_refl x : Reqb x x = true.
Proof. unfold Reqb; destruct (Req_EM_T x x); [reflexivity | lra]. Qed.
Lemma Reqb_neq x y : x <> y -> Reqb x y = false.
Proof. unfold Reqb; destruct (Req_EM_T x y); intros; [contradiction | reflexivity]. Qed.

(** Consecutive knots are equal or further apart than the isclose tolerance. *)
Definition separated (t : nat -> R) : Prop :=
  forall j, t j = t (S j) \/ / 10 ^ 8 + / 10 ^ 5 * Rabs (t (S j)) < t (S j) - t j.

Lemma separated_nondec t : separated t -> nondecreasing t.
Proof.
  intros H j; destruct (H j) as [E|L]; [lra|].
  assert (0 <= Rabs (t (S j))) by apply Rabs_pos. lra.
Qed.

Lemma isclose_refl a : isclose a a = true.
Proof.
  unfold isclose. apply Rleb_true.
  replace (a - a) with 0 by ring. rewrite Rabs_R0.
  assert (0 <= Rabs a) by apply Rabs_pos. lra.
Qed.

Lemma isclose_sep t j : separated t -> t j <> t (S j) -> isclose (t j) (t (S j)) = false.
Proof.
  intros H Hne. destruct (H j) as [E|L]; [contradiction|].
  unfold isclose. apply Rleb_false.
  assert (0 <= Rabs (t (S j))) by apply Rabs_pos.
  rewrite (Rabs_left (t j - t (S j))); lra.
Qed.

Lemma sep_gap t : separated t -> forall m i, t i <> t (i + m)%nat -> / 10 ^ 8 < t (i + m)%nat - t i.
Proof.
  intros Hs m; induction m as [|m IH]; intros i Hne.
  - rewrite Nat.add_0_r in Hne; contradiction.
  - assert (Hnd := separated_nondec t Hs).
    replace (i + S m)%nat with (S (i + m)) in * by lia.
    assert (A : t i <= t (i + m)%nat) by (apply nondecreasing_le; [exact Hnd | lia]).
    destruct (Hs (i + m)%nat) as [E|L].
    + rewrite <- E. apply IH. rewrite E. exact Hne.
    + assert (0 <= Rabs (t (S (i + m)))) by apply Rabs_pos. lra.
Qed.

Lemma safe_divide_sep t i m x : separated t ->
  safe_divide x (t (i + m)%nat - t i) = x * inv0 (t (i + m)%nat - t i).
Proof.
  intros Hs. unfold safe_divide.
  destruct (Req_EM_T (t (i + m)%nat - t i) 0) as [E|E].
  - rewrite E, isclose_refl, inv0_0. ring.
  - assert (G := sep_gap t Hs m i ltac:(lra)).
    rewrite inv0_nz by exact E.
    replace (isclose (t (i + m)%nat - t i) 0) with false; [reflexivity|].
    symmetry. unfold isclose. apply Rleb_false.
    rewrite Rabs_R0, Rminus_0_r, Rabs_pos_eq; lra.
Qed.

Lemma nth_map_seq (t : nat -> R) i m k : (k < m)%nat -> nth k (map t (seq i m)) 0 = t (i + k)%nat.
Proof.
  intros H. rewrite (nth_indep _ 0 (t O)) by (rewrite map_length, seq_length; exact H).
  rewrite map_nth, seq_nth by exact H. reflexivity.
Qed.

Lemma tl_map_seq (t : nat -> R) i m : tl (map t (seq i (S m))) = map t (seq (S i) m).
Proof. reflexivity. Qed.

Lemma removelast_map_seq (t : nat -> R) i m : removelast (map t (seq i (S m))) = map t (seq i m).
Proof. rewrite seq_S, map_app. simpl. apply removelast_last. Qed.

Lemma p_spline_Bspl t : separated t -> forall p i x,
  p_spline x (map t (seq i (p + 2))) p = Bspl t p i x.
Proof.
  intros Hs p; induction p as [|p IH]; intros i x.
  - cbn [p_spline Bspl]. unfold const_spline. rewrite !nth_map_seq by lia.
    replace (i + 0)%nat with i by lia. replace (i + 1)%nat with (S i) by lia.
    unfold chi. destruct (Req_EM_T (t i) (t (S i))) as [E|E].
    + rewrite <- E, isclose_refl.
      destruct (Rle_dec (t i) x), (Rlt_dec x (t i)); lra.
    + rewrite (isclose_sep t i Hs E). unfold Rleb, Rltb.
      destruct (Rle_dec (t i) x), (Rlt_dec x (t (S i))); reflexivity.
  - cbn [p_spline Bspl].
    replace (S p + 2)%nat with (S (p + 2)) by lia.
    rewrite removelast_map_seq, tl_map_seq, !IH.
    rewrite !nth_map_seq by lia.
    replace (i + 0)%nat with i by lia. replace (i + 1)%nat with (S i) by lia.
    rewrite (safe_divide_sep t i (S p) _ Hs).
    replace (i + (S p + 1))%nat with (S i + S p)%nat by lia.
    rewrite (safe_divide_sep t (S i) (S p) _ Hs).
    replace (S i + S p)%nat with (i + S p + 1)%nat by lia.
    ring.
Qed.

(** A knot list T is the beginning of the knot sequence t. *)
Definition knots_of (T : list R) (t : nat -> R) : Prop :=
  forall j, (j < length T)%nat -> nth j T 0 = t j.

Lemma gather_knots T t j : knots_of T t -> (j < length T)%nat -> gather T j = t j.
Proof.
  intros H Hj. unfold gather. rewrite Nat.min_l by lia. apply H; exact Hj.
Qed.

Lemma list_eq_nth (l1 l2 : list R) : length l1 = length l2 ->
  (forall k, (k < length l1)%nat -> nth k l1 0 = nth k l2 0) -> l1 = l2.
Proof. intros H1 H2; apply (nth_ext l1 l2 0 0 H1 H2). Qed.

Lemma nth_firstn_lt (l : list R) m k : (k < m)%nat -> nth k (firstn m l) 0 = nth k l 0.
Proof.
  revert m k; induction l as [|a l IH]; intros [|m] [|k] H; simpl; try lia; try reflexivity.
  apply IH; lia.
Qed.

Lemma nth_skipn_add (l : list R) m k : nth k (skipn m l) 0 = nth (m + k) l 0.
Proof.
  revert l; induction m as [|m IH]; intros l; [reflexivity|].
  destruct l as [|a l]; [destruct k; reflexivity|]. simpl. apply IH.
Qed.

Lemma dynamic_slice_knots T t i m : knots_of T t -> (i + m <= length T)%nat ->
  dynamic_slice T i m = map t (seq i m).
Proof.
  intros H Hle. unfold dynamic_slice. rewrite Nat.min_l by lia.
  apply list_eq_nth.
  - rewrite firstn_length, skipn_length, map_length, seq_length. lia.
  - intros k Hk. rewrite firstn_length, skipn_length in Hk.
    rewrite nth_firstn_lt by lia. rewrite nth_skipn_add, nth_map_seq by lia.
    apply H. lia.
Qed.

Lemma evaluate_raw_Bspl s t x i :
  separated t -> knots_of (sT s) t -> (i + sp s + 2 <= length (sT s))%nat ->
  evaluate_raw s x i = Bspl t (sp s) i x.
Proof.
  intros Hs Hk Hi. unfold evaluate_raw.
  assert (Hnd := separated_nondec t Hs).
  rewrite (dynamic_slice_knots _ t i (sp s + 2) Hk) by lia.
  rewrite (p_spline_Bspl t Hs).
  rewrite !(gather_knots _ t) by (assumption || lia).
  unfold Rleb.
  destruct (Rle_dec (t i) x) as [H1|H1], (Rle_dec x (t (i + sp s + 1)%nat)) as [H2|H2];
    simpl; try reflexivity; symmetry; apply (Bspl_support t Hnd); lra.
Qed.

(** *** Default knots *)
Definition tclamped (n p j : nat) : R :=
  if (j <=? p)%nat then 0 else if (n <=? j)%nat then 1 else INR (j - p) / INR (n - p).

Definition tperiodic (n p j : nat) : R := (INR j - INR p) / INR n.

Lemma linspace01_length m : length (linspace01 m) = m.
Proof. unfold linspace01. rewrite map_length, seq_length. reflexivity. Qed.

Lemma linspace01_nth m k : (k < m)%nat -> nth k (linspace01 m) 0 = INR k / INR (m - 1).
Proof.
  intros H. unfold linspace01.
  rewrite (nth_map_seq (fun k => INR k / INR (m - 1)) 0 m k H). reflexivity.
Qed.

Lemma nth_repeat_lt (a : R) m k : (k < m)%nat -> nth k (repeat a m) 0 = a.
Proof. revert k; induction m as [|m IH]; intros [|k] H; simpl; try lia; [reflexivity|apply IH; lia]. Qed.

Lemma clamped_length n p : (p <= n)%nat -> length (init_knots n p Clamped) = (n + p + 1)%nat.
Proof.
  intros H. simpl. rewrite !app_length, !repeat_length, linspace01_length. lia.
Qed.

Lemma clamped_knots n p : (p < n)%nat -> knots_of (init_knots n p Clamped) (tclamped n p).
Proof.
  intros Hp j Hj. rewrite clamped_length in Hj by lia. simpl.
  assert (HN : 0 < INR (n - p)) by (apply lt_0_INR; lia).
  unfold tclamped.
  destruct (Nat.leb_spec j p) as [H1|H1].
  - destruct (Nat.eq_dec j p) as [->|Hne].
    + rewrite app_nth2 by (rewrite repeat_length; lia). rewrite repeat_length, Nat.sub_diag.
      rewrite app_nth1 by (rewrite linspace01_length; lia).
      rewrite linspace01_nth by lia. simpl. lra.
    + rewrite app_nth1 by (rewrite repeat_length; lia). apply nth_repeat_lt. lia.
  - rewrite app_nth2 by (rewrite repeat_length; lia). rewrite repeat_length.
    destruct (Nat.leb_spec n j) as [H2|H2].
    + destruct (Nat.eq_dec j n) as [->|Hne].
      * rewrite app_nth1 by (rewrite linspace01_length; lia).
        rewrite linspace01_nth by lia. replace (n - p + 1 - 1)%nat with (n - p)%nat by lia.
        field. lra.
      * rewrite app_nth2 by (rewrite linspace01_length; lia). rewrite linspace01_length.
        apply nth_repeat_lt. lia.
    + rewrite app_nth1 by (rewrite linspace01_length; lia).
      rewrite linspace01_nth by lia. replace (n - p + 1 - 1)%nat with (n - p)%nat by lia.
      reflexivity.
Qed.

Lemma tclamped_mid n p j : (p < n)%nat -> (p <= j <= n)%nat -> tclamped n p j = INR (j - p) / INR (n - p).
Proof.
  intros Hp Hj. assert (HN : 0 < INR (n - p)) by (apply lt_0_INR; lia).
  unfold tclamped. destruct (Nat.leb_spec j p).
  - replace (j - p)%nat with O by lia. simpl. lra.
  - destruct (Nat.leb_spec n j); [|reflexivity].
    replace j with n by lia. field. lra.
Qed.

Lemma tclamped_lo n p j : (j <= p)%nat -> tclamped n p j = 0.
Proof. intros H. unfold tclamped. destruct (Nat.leb_spec j p); [reflexivity | lia]. Qed.
Lemma tclamped_hi n p j : (p < n)%nat -> (n <= j)%nat -> tclamped n p j = 1.
Proof.
  intros H1 H2. unfold tclamped.
  destruct (Nat.leb_spec j p); [lia|]. destruct (Nat.leb_spec n j); [reflexivity | lia].
Qed.

(** n - p <= 99900 keeps the clamped knots apart *)
Lemma tclamped_separated n p : (p < n)%nat -> INR (n - p) <= 99900 -> separated (tclamped n p).
Proof.
  intros Hp HN j.
  assert (H0 : 0 < INR (n - p)) by (apply lt_0_INR; lia).
  destruct (Nat.lt_ge_cases j p) as [H1|H1].
  - left. rewrite !tclamped_lo by lia. reflexivity.
  - destruct (Nat.le_gt_cases n j) as [H2|H2].
    + left. rewrite !tclamped_hi by lia. reflexivity.
    + right. rewrite !tclamped_mid by lia.
      replace (S j - p)%nat with (S (j - p)) by lia. rewrite S_INR.
      replace ((INR (j - p) + 1) / INR (n - p) - INR (j - p) / INR (n - p)) with (/ INR (n - p))
        by (field; lra).
      assert (Hle : INR (j - p) + 1 <= INR (n - p)).
      { rewrite <- S_INR. apply le_INR. lia. }
      assert (Hge : 0 <= INR (j - p)) by apply pos_INR.
      rewrite Rabs_pos_eq by (apply Rmult_le_pos; [lra | left; apply Rinv_0_lt_compat; lra]).
      assert (Hq : (INR (j - p) + 1) / INR (n - p) <= 1).
      { apply (Rmult_le_reg_r (INR (n - p))); [lra|]. unfold Rdiv.
        rewrite Rmult_assoc, Rinv_l by lra. lra. }
      assert (Hi : / 99900 <= / INR (n - p)) by (apply Rinv_le_contravar; lra).
      lra.
Qed.

Lemma periodic_length n p : (p <= n)%nat -> length (init_knots n p Periodic) = (n + 2 * p + 1)%nat.
Proof.
  intros H. unfold init_knots.
  rewrite !app_length, !map_length, !firstn_length, !skipn_length, !linspace01_length. lia.
Qed.

Lemma periodic_knots n p : (0 < n)%nat -> (p <= n)%nat -> knots_of (init_knots n p Periodic) (tperiodic n p).
Proof.
  intros Hn Hp j Hj. rewrite periodic_length in Hj by lia. unfold init_knots.
  assert (HN : 0 < INR n) by (apply lt_0_INR; lia).
  assert (HL : forall f l k, (k < length l)%nat -> nth k (map f l) 0 = f (nth k l 0) ).
  { intros f l k Hk. rewrite (nth_indep _ 0 (f 0)) by (rewrite map_length; exact Hk). apply map_nth. }
  unfold tperiodic.
  destruct (Nat.lt_ge_cases j p) as [H1|H1].
  - rewrite app_nth1 by (rewrite map_length, firstn_length, skipn_length, linspace01_length; lia).
    rewrite HL by (rewrite firstn_length, skipn_length, linspace01_length; lia).
    rewrite nth_firstn_lt by lia. rewrite nth_skipn_add, linspace01_nth by lia.
    replace (n + 1 - 1)%nat with n by lia.
    rewrite plus_INR, minus_INR by lia. field. lra.
  - rewrite app_nth2 by (rewrite map_length, firstn_length, skipn_length, linspace01_length; lia).
    rewrite map_length, firstn_length, skipn_length, linspace01_length.
    replace (Nat.min p (n + 1 - (n - p))) with p by lia.
    destruct (Nat.le_gt_cases j (n + p)) as [H2|H2].
    + rewrite app_nth1 by (rewrite linspace01_length; lia).
      rewrite linspace01_nth by lia. replace (n + 1 - 1)%nat with n by lia.
      rewrite minus_INR by lia. reflexivity.
    + rewrite app_nth2 by (rewrite linspace01_length; lia). rewrite linspace01_length.
      rewrite HL by (rewrite firstn_length, skipn_length, linspace01_length; lia).
      rewrite nth_firstn_lt by lia. rewrite nth_skipn_add, linspace01_nth by lia.
      replace (n + 1 - 1)%nat with n by lia.
      replace (1 + (j - p - (n + 1)))%nat with (j - p - n)%nat by lia.
      rewrite !minus_INR by lia. field. lra.
Qed.

Lemma tperiodic_step n p j : (0 < n)%nat -> tperiodic n p (S j) - tperiodic n p j = / INR n.
Proof.
  intros Hn. assert (HN : 0 < INR n) by (apply lt_0_INR; lia).
  unfold tperiodic. rewrite S_INR. field. lra.
Qed.

Lemma tperiodic_nondec n p : (0 < n)%nat -> nondecreasing (tperiodic n p).
Proof.
  intros Hn j. assert (S := tperiodic_step n p j Hn).
  assert (0 < / INR n) by (apply Rinv_0_lt_compat, lt_0_INR; lia). lra.
Qed.

Lemma tperiodic_shift n p i : (0 < n)%nat -> tperiodic n p (i + n) = tperiodic n p i + 1.
Proof.
  intros Hn. assert (HN : 0 < INR n) by (apply lt_0_INR; lia).
  unfold tperiodic. rewrite plus_INR. field. lra.
Qed.

(** For periodic splines only the knots up to index n+2p matter: they are <= 2.
    Separation is needed on that range only, so we use a truncated sequence. *)
Definition tperiodic_tr (n p j : nat) : R := tperiodic n p (Nat.min j (n + 2 * p)).

Lemma tperiodic_tr_separated n p : (0 < n)%nat -> (p <= n)%nat -> INR n <= 49000 ->
  separated (tperiodic_tr n p).
Proof.
  intros Hn Hp HN j. assert (H0 : 0 < INR n) by (apply lt_0_INR; lia).
  unfold tperiodic_tr.
  destruct (Nat.lt_ge_cases j (n + 2 * p)) as [H1|H1].
  - right. rewrite !Nat.min_l by lia. rewrite tperiodic_step by lia.
    assert (Hi : / 49000 <= / INR n) by (apply Rinv_le_contravar; lra).
    assert (Hb : Rabs (tperiodic n p (S j)) <= 2).
    { unfold tperiodic. apply Rabs_le.
      assert (A1 : 0 <= INR (S j)) by apply pos_INR.
      assert (A2 : INR (S j) <= INR n + 2 * INR p).
      { replace (INR n + 2 * INR p) with (INR (n + 2 * p)).
        - apply le_INR; lia.
        - rewrite plus_INR, mult_INR. simpl. lra. }
      assert (A3 : INR p <= INR n) by (apply le_INR; lia).
      assert (A4 : 0 <= INR p) by apply pos_INR.
      split; apply (Rmult_le_reg_r (INR n)); try lra;
      unfold Rdiv; rewrite Rmult_assoc, Rinv_l by lra; lra. }
    lra.
  - left. rewrite !Nat.min_r by lia. reflexivity.
Qed.

Lemma Bspl_local t1 t2 p i x : (forall j, (i <= j <= i + p + 1)%nat -> t1 j = t2 j) ->
  Bspl t1 p i x = Bspl t2 p i x.
Proof.
  revert i; induction p as [|p IH]; intros i H; simpl.
  - rewrite !H by lia. reflexivity.
  - rewrite !H by lia. rewrite (IH i), (IH (S i)); [reflexivity | |]; intros j Hj; apply H; lia.
Qed.

Lemma evaluate_raw_clamped n p x i :
  (p < n)%nat -> INR (n - p) <= 99900 -> (i < n)%nat ->
  evaluate_raw (mkSpline n p Clamped (init_knots n p Clamped)) x i = Bspl (tclamped n p) p i x.
Proof.
  intros Hp HN Hi. apply evaluate_raw_Bspl.
  - apply tclamped_separated; assumption.
  - apply clamped_knots; assumption.
  - cbn [sT sp]. rewrite clamped_length by lia. lia.
Qed.

Lemma evaluate_raw_periodic n p x i :
  (0 < n)%nat -> (p <= n)%nat -> INR n <= 49000 -> (i < n + p)%nat ->
  evaluate_raw (mkSpline n p Periodic (init_knots n p Periodic)) x i = Bspl (tperiodic n p) p i x.
Proof.
  intros Hn Hp HN Hi.
  rewrite (evaluate_raw_Bspl _ (tperiodic_tr n p)).
  - apply Bspl_local. intros j Hj. unfold tperiodic_tr. cbn [sp] in Hj. rewrite Nat.min_l by lia. reflexivity.
  - apply tperiodic_tr_separated; assumption.
  - intros j Hj. cbn [sT] in *. rewrite (periodic_knots n p Hn Hp j Hj).
    rewrite periodic_length in Hj by lia.
    unfold tperiodic_tr. rewrite Nat.min_l by lia. reflexivity.
  - cbn [sT sp]. rewrite periodic_length by lia. lia.
Qed.
