(** Quasi-interpolation with the univariate bases: partition of unity, sign and support. *)
From Coq Require Import Reals Lra Lia Arith ZArith List.
From Verif Require Import Model.RBase Model.Spline Spec.BSpline.
From Verif Require Import Proof.BSplineLemmas Proof.SplineLink Proof.SplineProps Proof.SplineDeriv Proof.SplineInt.
Local Open Scope R_scope.

Record quasi (n : nat) (ev om node : nat -> R) (per : bool) (h x : R) : Prop := Quasi {
  q_sum : rsum n (fun i => om i * ev i) = 1;
  q_pos : forall i, (i < n)%nat -> 0 <= om i * ev i;
  q_near : forall i, (i < n)%nat -> ev i <> 0 ->
    exists t : Z, (per = false -> t = 0%Z) /\ Rabs (x - (node i + IZR t)) <= h;
  q_node : per = false -> forall i, (i < n)%nat -> 0 <= node i <= 1 }.

Definition cnode (n p i : nat) : R := if (i =? n - 1)%nat then 1 else INR (i - p) / INR (n - p).

Lemma clamped_quasi n p x : (1 <= p)%nat -> (p < n)%nat -> INR (n - p) <= 99900 -> 0 <= x <= 1 ->
  quasi n (evaluate (mkSpline n p Clamped (init_knots n p Clamped)) x) (fun _ => 1) (cnode n p) false (INR (p + 1) / INR (n - p)) x.
Proof.
  intros H1 Hp HN Hx.
  assert (HN0 : 0 < INR (n - p)) by (apply lt_0_INR; lia).
  assert (Hi0 : 0 < / INR (n - p)) by (apply Rinv_0_lt_compat; exact HN0).
  split.
  - rewrite (rsum_ext n _ (fun i => evaluate (mkSpline n p Clamped (init_knots n p Clamped)) x i)) by (intros; ring).
    apply clamped_pou; assumption.
  - intros i Hi. rewrite Rmult_1_l. apply clamped_nonneg; assumption.
  - intros i Hi Hne. exists 0%Z. split; [reflexivity|].
    destruct (clamped_support n p Hp HN x i Hi Hne) as [_ [A B]].
    unfold cnode. destruct (Nat.eqb_spec i (n - 1)) as [->|Hn1].
    + rewrite minus_INR in A by lia. rewrite minus_INR in A, HN0, Hi0 |- * by lia. simpl (INR 1) in A.
      rewrite plus_INR. simpl (INR 1). rewrite Rplus_0_r.
      apply Rabs_le. split; [|apply Rle_trans with 0; [lra|]; apply Rmult_le_pos; [|lra]; assert (0 <= INR p) by apply pos_INR; lra].
      apply Rmult_le_reg_r with (INR n - INR p); [exact HN0|].
      replace (- ((INR p + 1) / (INR n - INR p)) * (INR n - INR p)) with (- (INR p + 1)) by (field; lra).
      assert (0 <= INR p) by apply pos_INR. lra.
    + rewrite Rplus_0_r, plus_INR. simpl (INR 1).
      assert (C : Rabs (x * INR (n - p) - INR (i - p)) <= INR p + 1).
      { destruct (Nat.le_gt_cases p i) as [L|L].
        - rewrite (minus_INR i p) by lia. assert (0 <= INR p) by apply pos_INR. apply Rabs_le. lra.
        - replace (i - p)%nat with 0%nat by lia. simpl INR.
          assert (INR i + 1 <= INR p) by (rewrite <- S_INR; apply le_INR; lia).
          assert (0 <= x * INR (n - p)) by (apply Rmult_le_pos; lra). apply Rabs_le. lra. }
      replace (x - INR (i - p) / INR (n - p)) with ((x * INR (n - p) - INR (i - p)) / INR (n - p)) by (field; lra).
      unfold Rdiv. rewrite Rabs_mult, (Rabs_pos_eq (/ INR (n - p))) by lra.
      apply Rmult_le_compat_r; lra.
  - intros _ i Hi. unfold cnode. destruct (Nat.eqb_spec i (n - 1)); [lra|]. split.
    + apply Rmult_le_pos; [apply pos_INR | lra].
    + apply Rmult_le_reg_r with (INR (n - p)); [exact HN0|].
      replace (INR (i - p) / INR (n - p) * INR (n - p)) with (INR (i - p)) by (field; lra).
      rewrite Rmult_1_l. apply le_INR. lia.
Qed.
Lemma cnode_in n p i : (1 <= p)%nat -> (2 < n)%nat -> (i < 2)%nat -> cnode n p i = 0.
Proof.
  intros H1 H2 Hi. unfold cnode. destruct (Nat.eqb_spec i (n - 1)); [lia|].
  replace (i - p)%nat with 0%nat by lia. simpl. unfold Rdiv. ring.
Qed.
Lemma cnode_0 n p : (1 < n)%nat -> cnode n p 0 = 0.
Proof. intros H. unfold cnode. destruct (Nat.eqb_spec 0 (n - 1)); [lia|]. simpl. unfold Rdiv. ring. Qed.
Lemma cnode_out n p : cnode n p (n - 1) = 1.
Proof. unfold cnode. rewrite Nat.eqb_refl. reflexivity. Qed.

Definition pnode (n i : nat) : R := INR i / INR n.
Lemma periodic_near n p x (ev : nat -> R) : (0 < n)%nat ->
  (exists m, (m < n)%nat /\ INR m <= x * INR n < INR m + 1 /\
    forall i, (i < n)%nat -> ev i <> 0 -> exists k, (k <= p)%nat /\ i = ((m + k) mod n)%nat) ->
  forall i, (i < n)%nat -> ev i <> 0 ->
    exists t : Z, (true = false -> t = 0%Z) /\ Rabs (x - (pnode n i + IZR t)) <= INR (p + 1) / INR n.
Proof.
  intros Hn [m [Hm [Hx H]]] i Hi Hne.
  assert (HN0 : 0 < INR n) by (apply lt_0_INR; lia).
  assert (Hi0 : 0 < / INR n) by (apply Rinv_0_lt_compat; exact HN0).
  destruct (H i Hi Hne) as [k [Hk ->]].
  exists (Z.of_nat ((m + k) / n)). split; [discriminate|].
  assert (E : INR (m + k) = INR n * INR ((m + k) / n) + INR ((m + k) mod n)).
  { rewrite <- mult_INR, <- plus_INR. f_equal. apply Nat.div_mod. lia. }
  rewrite <- INR_IZR_INZ. unfold pnode.
  replace (x - (INR ((m + k) mod n) / INR n + INR ((m + k) / n))) with ((x * INR n - INR (m + k)) / INR n) by (rewrite E; field; lra).
  unfold Rdiv. rewrite Rabs_mult, (Rabs_pos_eq (/ INR n)) by lra.
  apply Rmult_le_compat_r; [lra|]. rewrite !plus_INR. simpl (INR 1).
  assert (INR k <= INR p) by (apply le_INR; lia). assert (0 <= INR k) by apply pos_INR.
  apply Rabs_le. lra.
Qed.
Lemma periodic_quasi n p x : (0 < n)%nat -> (p <= n)%nat -> INR n <= 49000 -> 0 <= x < 1 ->
  quasi n (evaluate (mkSpline n p Periodic (init_knots n p Periodic)) x) (fun _ => 1) (pnode n) true (INR (p + 1) / INR n) x.
Proof.
  intros Hn Hp HN Hx. split.
  - rewrite (rsum_ext n _ (fun i => evaluate (mkSpline n p Periodic (init_knots n p Periodic)) x i)) by (intros; ring).
    apply periodic_pou; try assumption. left; exact Hx.
  - intros i Hi. rewrite Rmult_1_l. apply periodic_nonneg; assumption.
  - apply periodic_near; [exact Hn|]. apply periodic_active; assumption.
  - discriminate.
Qed.

Lemma Bspl_ext t t' : (forall j, t j = t' j) -> forall p i x, Bspl t p i x = Bspl t' p i x.
Proof.
  intros H p. induction p as [|p IH]; intros i x; cbn [Bspl]; [unfold chi; rewrite !H; reflexivity|].
  rewrite !IH, !H. reflexivity.
Qed.
Lemma Bspl_offset t m : forall p i x, Bspl t p (i + m) x = Bspl (fun j => t (j + m)%nat) p i x.
Proof.
  intros p. induction p as [|p IH]; intros i x; cbn [Bspl]; [unfold chi; reflexivity|].
  rewrite <- !IH. change (S (i + m)) with (S i + m)%nat.
  replace (i + m + S p)%nat with (i + S p + m)%nat by lia. replace (i + S p + m + 1)%nat with (i + S p + 1 + m)%nat by lia.
  reflexivity.
Qed.
Lemma deriv_periodic_lower n p x j : (1 <= p)%nat -> (p < n)%nat -> INR n <= 49000 -> (j < n)%nat ->
  evaluate_deriv (mkSpline n (p - 1) Periodic (removelast (tl (init_knots n p Periodic)))) x j
  = INR n * evaluate (mkSpline n (p - 1) Periodic (init_knots n (p - 1) Periodic)) x j.
Proof.
  intros H1 H2 HN Hj. rewrite ev_deriv_periodic by (assumption || (left; assumption)). f_equal.
  rewrite ev_periodic by (assumption || lia).
  assert (E : forall i, Bspl (tperiodic n p) (p - 1) (i + 1) x = Bspl (tperiodic n (p - 1)) (p - 1) i x).
  { intros i. rewrite Bspl_offset. apply Bspl_ext. intros k. unfold tperiodic.
    rewrite plus_INR, minus_INR by lia. simpl (INR 1). f_equal. ring. }
  rewrite !E. reflexivity.
Qed.
Lemma periodic_deriv_quasi n p d x : (1 <= p)%nat -> (p < n)%nat -> INR n <= 49000 -> 0 <= x < 1 ->
  d = mkSpline n (p - 1) Periodic (removelast (tl (init_knots n p Periodic))) ->
  quasi n (evaluate_deriv d x) (fun _ => / INR n) (pnode n) true (INR (p + 1) / INR n) x.
Proof.
  intros H1 H2 HN Hx ->.
  assert (HN0 : 0 < INR n) by (apply lt_0_INR; lia).
  destruct (periodic_quasi n (p - 1) x) as [A B C _]; try assumption; try lia.
  assert (E : forall i, (i < n)%nat -> / INR n * evaluate_deriv (mkSpline n (p - 1) Periodic (removelast (tl (init_knots n p Periodic)))) x i
     = 1 * evaluate (mkSpline n (p - 1) Periodic (init_knots n (p - 1) Periodic)) x i).
  { intros i Hi. rewrite deriv_periodic_lower by assumption. field. lra. }
  split.
  - rewrite (rsum_ext n _ _ E). exact A.
  - intros i Hi. rewrite (E i Hi). apply B; exact Hi.
  - intros i Hi Hne. destruct (C i Hi) as [t [T1 T2]].
    + intros Z. apply Hne. rewrite deriv_periodic_lower, Z by assumption. ring.
    + exists t. split; [exact T1|]. apply Rle_trans with (1 := T2). unfold Rdiv.
      apply Rmult_le_compat_r; [left; apply Rinv_0_lt_compat; exact HN0|]. apply le_INR. lia.
  - discriminate.
Qed.

Definition dnode (n p i : nat) : R := tclamped n p (i + 1).
Definition dweight (n p i : nat) : R := (tclamped n p (i + 1 + p) - tclamped n p (i + 1)) / INR p.
Lemma tclamped_range n p j : (p < n)%nat -> 0 <= tclamped n p j <= 1.
Proof.
  intros H. unfold tclamped. destruct (Nat.leb_spec j p); [lra|]. destruct (Nat.leb_spec n j); [lra|].
  assert (HN0 : 0 < INR (n - p)) by (apply lt_0_INR; lia).
  assert (Hi0 : 0 < / INR (n - p)) by (apply Rinv_0_lt_compat; exact HN0).
  split; [apply Rmult_le_pos; [apply pos_INR | lra]|].
  apply Rmult_le_reg_r with (INR (n - p)); [exact HN0|].
  replace (INR (j - p) / INR (n - p) * INR (n - p)) with (INR (j - p)) by (field; lra).
  rewrite Rmult_1_l. apply le_INR. lia.
Qed.
Lemma tclamped_gap n p j : (1 <= p)%nat -> (p < n)%nat -> (j < n)%nat -> (0 < j)%nat ->
  0 < tclamped n p (j + p) - tclamped n p j <= INR p / INR (n - p).
Proof.
  intros Hp1 H Hj H0.
  assert (HN0 : 0 < INR (n - p)) by (apply lt_0_INR; lia).
  assert (Hi0 : 0 < / INR (n - p)) by (apply Rinv_0_lt_compat; exact HN0).
  unfold tclamped. destruct (Nat.leb_spec (j + p) p); [lia|].
  assert (A : forall a b : nat, (a <= b)%nat -> INR a / INR (n - p) <= INR b / INR (n - p)).
  { intros a b Hab. unfold Rdiv. apply Rmult_le_compat_r; [lra|]. apply le_INR; exact Hab. }
  assert (B : forall a b : nat, (a < b)%nat -> INR a / INR (n - p) < INR b / INR (n - p)).
  { intros a b Hab. unfold Rdiv. apply Rmult_lt_compat_r; [lra|]. apply lt_INR; exact Hab. }
  assert (O : INR (n - p) / INR (n - p) = 1) by (field; lra).
  assert (Z : INR 0 / INR (n - p) = 0) by (simpl; unfold Rdiv; ring).
  destruct (Nat.leb_spec n (j + p)); destruct (Nat.leb_spec j p); try (destruct (Nat.leb_spec n j); [lia|]).
  - rewrite Rminus_0_r. split; [lra|]. rewrite <- O. apply A. lia.
  - split.
    + assert (Q := B (j - p)%nat (n - p)%nat). rewrite O in Q. assert (INR (j - p) / INR (n - p) < 1) by (apply Q; lia). lra.
    + assert (Q := A (n - p)%nat (j - p + p)%nat). rewrite O, plus_INR in Q. unfold Rdiv in Q. rewrite Rmult_plus_distr_r in Q.
      assert (1 <= INR (j - p) * / INR (n - p) + INR p * / INR (n - p)) by (apply Q; lia). unfold Rdiv. lra.
  - rewrite Rminus_0_r. replace (j + p - p)%nat with j by lia. split; [rewrite <- Z; apply B; lia | apply A; lia].
  - replace (j + p - p)%nat with j by lia. split.
    + assert (Q : INR (j - p) / INR (n - p) < INR j / INR (n - p)) by (apply B; lia). lra.
    + rewrite (minus_INR j p) by lia. unfold Rdiv. rewrite Rmult_minus_distr_r. lra.
Qed.
Lemma clamped_deriv_quasi n p d x : (1 <= p)%nat -> (p < n)%nat -> INR (n - p) <= 99900 -> 0 <= x < 1 ->
  d = mkSpline (n - 1) (p - 1) Clamped (init_knots n p Clamped) ->
  quasi (n - 1) (evaluate_deriv d x) (dweight n p) (dnode n p) false (INR (p + 1) / INR (n - p)) x.
Proof.
  intros H1 H2 HN Hx ->.
  assert (HP : 0 < INR p) by (apply lt_0_INR; lia).
  assert (Hnd := t_nd n p H2 HN).
  assert (E : forall i, (i < n - 1)%nat -> dweight n p i * evaluate_deriv (mkSpline (n - 1) (p - 1) Clamped (init_knots n p Clamped)) x i
     = Bspl (tclamped n p) (p - 1) (S i) x).
  { intros i Hi. rewrite ev_deriv_clamped by (assumption || lra). unfold dweight.
    assert (G := tclamped_gap n p (i + 1) H1 H2 ltac:(lia) ltac:(lia)).
    rewrite inv0_nz by lra. replace (S i) with (i + 1)%nat by lia. field. lra. }
  assert (Lo : forall j, (j <= p)%nat -> tclamped n p j = 0) by (intros j Hj; unfold tclamped; destruct (Nat.leb_spec j p); [reflexivity | lia]).
  assert (Hi1 : tclamped n p n = 1) by (unfold tclamped; destruct (Nat.leb_spec n p); [lia|]; destruct (Nat.leb_spec n n); [reflexivity | lia]).
  split.
  - rewrite (rsum_ext _ _ _ E). assert (P := Bspl_pou _ Hnd (p - 1) n x).
    rewrite Lo, Hi1 in P by lia. specialize (P Hx).
    replace n with (S (n - 1)) in P at 1 by lia.
    assert (Z : Bspl (tclamped n p) (p - 1) 0 x = 0).
    { apply (Bspl_support _ Hnd). right. rewrite Lo by lia. lra. }
    rewrite (rsum_shift (n - 1) (fun i => Bspl (tclamped n p) (p - 1) i x)), Z. cbn [rsum] in P. lra.
  - intros i Hi. rewrite (E i Hi). apply (Bspl_nonneg _ Hnd).
  - intros i Hi Hne. exists 0%Z. split; [reflexivity|].
    assert (Hb : Bspl (tclamped n p) (p - 1) (S i) x <> 0).
    { intros Z. apply Hne. rewrite ev_deriv_clamped by (assumption || lra). replace (i + 1)%nat with (S i) by lia. rewrite Z. ring. }
    assert (A : tclamped n p (i + 1) <= x).
    { apply Rnot_lt_le. intros L. apply Hb, (Bspl_support _ Hnd). left. replace (S i) with (i + 1)%nat by lia. exact L. }
    assert (B : x < tclamped n p (i + 1 + p)).
    { apply Rnot_le_lt. intros L. apply Hb, (Bspl_support _ Hnd). right. replace (S i + (p - 1) + 1)%nat with (i + 1 + p)%nat by lia. exact L. }
    assert (G := tclamped_gap n p (i + 1) H1 H2 ltac:(lia) ltac:(lia)).
    unfold dnode. rewrite Rplus_0_r. apply Rabs_le.
    assert (INR p / INR (n - p) <= INR (p + 1) / INR (n - p)).
    { unfold Rdiv. apply Rmult_le_compat_r; [left; apply Rinv_0_lt_compat, lt_0_INR; lia | apply le_INR; lia]. }
    lra.
  - intros _ i Hi. apply tclamped_range; exact H2.
Qed.
Lemma dnode_0 n p : (1 <= p)%nat -> dnode n p 0 = 0.
Proof. intros H. unfold dnode, tclamped. destruct (Nat.leb_spec (0 + 1) p); [reflexivity | lia]. Qed.

Lemma constant_quasi (ev : nat -> R) x : ev 0%nat = 1 -> 0 <= x <= 1 ->
  quasi 1 ev (fun _ => 1) (pnode 1) true (INR (0 + 1) / INR 1) x.
Proof.
  intros E Hx. split.
  - cbn [rsum]. rewrite E. ring.
  - intros i Hi. replace i with 0%nat by lia. rewrite E. lra.
  - intros i Hi _. exists 0%Z. split; [reflexivity|]. replace i with 0%nat by lia. unfold pnode. simpl.
    apply Rabs_le. lra.
  - discriminate.
Qed.
