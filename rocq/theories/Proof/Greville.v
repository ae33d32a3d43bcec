(** Quasi-interpolation at the Greville abscissae: the nodes for which differences of nodes are the
    weights of the derivative basis, so that differentiating the quasi-interpolant of a function gives a
    quasi-interpolant of its derivative. *)
From Coq Require Import Reals Lra Lia Arith ZArith List.
From Verif Require Import Model.RBase Model.Spline Spec.BSpline.
From Verif Require Import Proof.BSplineLemmas Proof.SplineLink Proof.SplineProps Proof.SplineDeriv Proof.SplineInt Proof.ApproxSplines.
Local Open Scope R_scope.

(** every point of [lo i, hi i] is (up to a period) within h of x if ev i <> 0 *)
Record quasi2 (n : nat) (ev om lo hi : nat -> R) (per : bool) (h x : R) : Prop := Quasi2 {
  q2_sum : rsum n (fun i => om i * ev i) = 1;
  q2_pos : forall i, (i < n)%nat -> 0 <= om i * ev i;
  q2_near : forall i, (i < n)%nat -> ev i <> 0 ->
    exists t : Z, (per = false -> t = 0%Z) /\ forall y, lo i <= y <= hi i -> Rabs (x - (y + IZR t)) <= h;
  q2_node : per = false -> forall i, (i < n)%nat -> 0 <= lo i /\ hi i <= 1 }.

Section Clamped.
Variables n p : nat.
Hypotheses (H1 : (1 <= p)%nat) (Hp : (p < n)%nat) (HN : INR (n - p) <= 99900).
Notation t := (tclamped n p).
Definition gnode (i : nat) : R := rsum p (fun k => t (i + 1 + k)) / INR p.

Lemma INRp : 0 < INR p. Proof. apply lt_0_INR. lia. Qed.
Lemma INRN : 0 < INR (n - p). Proof. apply lt_0_INR. lia. Qed.
Lemma gnode_step i : gnode (i + 1) - gnode i = dweight n p i.
Proof.
  unfold gnode, dweight. assert (P := INRp).
  rewrite (rsum_ext p (fun k => t (i + 1 + 1 + k)) (fun k => (fun m => t (i + 1 + m)) (S k))).
  - rewrite (rsum_shift p (fun m => t (i + 1 + m))). rewrite Nat.add_0_r. field. lra.
  - intros k _. f_equal. lia.
Qed.
Lemma t_mono j k : (j <= k)%nat -> t j <= t k.
Proof.
  intros H. apply nondecreasing_le; [exact (t_nd n p Hp HN) | exact H].
Qed.
Lemma mean_bounds m f a b : (forall k, (k < m)%nat -> a <= f k <= b) -> INR m * a <= rsum m f <= INR m * b.
Proof.
  intros H. induction m as [|m IH]; [simpl; lra|]. rewrite S_INR. cbn [rsum].
  assert (A := IH (fun k Hk => H k ltac:(lia))). assert (B := H m ltac:(lia)). lra.
Qed.
Lemma gnode_bounds i : t (i + 1) <= gnode i <= t (i + p).
Proof.
  unfold gnode. assert (P := INRp).
  destruct (mean_bounds p (fun k => t (i + 1 + k)) (t (i + 1)) (t (i + p))) as [A B].
  - intros k Hk. split; apply t_mono; lia.
  - split.
    + apply Rmult_le_reg_l with (INR p); [exact P|].
      replace (INR p * (rsum p (fun k => t (i + 1 + k)) / INR p)) with (rsum p (fun k => t (i + 1 + k))) by (field; lra). exact A.
    + apply Rmult_le_reg_l with (INR p); [exact P|].
      replace (INR p * (rsum p (fun k => t (i + 1 + k)) / INR p)) with (rsum p (fun k => t (i + 1 + k))) by (field; lra). exact B.
Qed.
Lemma gnode_le i : gnode i <= gnode (i + 1).
Proof. assert (A := gnode_bounds i). assert (B := gnode_bounds (i + 1)). unfold gnode in *. 
  assert (S := gnode_step i). unfold gnode in S. unfold dweight in S. assert (P := INRp).
  assert (0 <= (t (i + 1 + p) - t (i + 1)) / INR p).
  { apply Rmult_le_pos; [|left; apply Rinv_0_lt_compat; exact P]. assert (t (i + 1) <= t (i + 1 + p)) by (apply t_mono; lia). lra. }
  lra.
Qed.
Lemma gnode_range i : 0 <= gnode i <= 1.
Proof.
  assert (A := gnode_bounds i). assert (B := tclamped_range n p (i + 1) Hp). assert (C := tclamped_range n p (i + p) Hp). lra.
Qed.
Lemma gnode_0 : gnode 0 = 0.
Proof.
  assert (A := gnode_bounds 0). revert A. unfold tclamped at 1 2.
  destruct (Nat.leb_spec (0 + 1) p); [|lia]. destruct (Nat.leb_spec (0 + p) p); [|lia]. lra.
Qed.
Lemma gnode_1 i : (n <= i + 1)%nat -> gnode i = 1.
Proof.
  intros Hi. assert (A := gnode_bounds i). assert (B := gnode_range i). revert A. unfold tclamped at 1.
  destruct (Nat.leb_spec (i + 1) p); [lia|]. destruct (Nat.leb_spec n (i + 1)); [|lia]. lra.
Qed.
(** the knots are the clamped multiples of the element width *)
Lemma t_clamp j : t j = Rmax 0 (Rmin 1 ((INR j - INR p) / INR (n - p))).
Proof.
  assert (P := INRN). unfold tclamped.
  assert (Hi0 : 0 < / INR (n - p)) by (apply Rinv_0_lt_compat; exact P).
  destruct (Nat.leb_spec j p) as [L|L].
  - assert (INR j <= INR p) by (apply le_INR; lia).
    assert ((INR j - INR p) / INR (n - p) <= 0).
    { unfold Rdiv. apply Rmult_le_reg_r with (INR (n - p)); [exact P|]. rewrite Rmult_assoc, Rinv_l by lra. lra. }
    rewrite Rmax_left; [reflexivity|]. apply Rle_trans with (2 := H0). apply Rmin_r.
  - assert (E : (INR j - INR p) / INR (n - p) = INR (j - p) / INR (n - p)) by (rewrite (minus_INR j p) by lia; reflexivity).
    rewrite E. assert (O : INR (n - p) / INR (n - p) = 1) by (field; lra).
    assert (0 <= INR (j - p) / INR (n - p)) by (apply Rmult_le_pos; [apply pos_INR | lra]).
    destruct (Nat.leb_spec n j) as [M|M].
    + rewrite Rmin_left. { rewrite Rmax_right; lra. }
      rewrite <- O. unfold Rdiv. apply Rmult_le_compat_r; [lra|]. apply le_INR. lia.
    + rewrite Rmin_right. { rewrite Rmax_right; lra. }
      rewrite <- O. unfold Rdiv. apply Rmult_le_compat_r; [lra|]. apply le_INR. lia.
Qed.
Lemma t_lip j k : (j <= k)%nat -> t k - t j <= INR (k - j) / INR (n - p).
Proof.
  intros Hjk. rewrite !t_clamp. rewrite (minus_INR k j) by exact Hjk.
  assert (Hi0 : 0 < / INR (n - p)) by (apply Rinv_0_lt_compat, INRN).
  assert (E : (INR k - INR p) / INR (n - p) = (INR j - INR p) / INR (n - p) + (INR k - INR j) / INR (n - p)) by (unfold Rdiv; ring).
  assert (0 <= (INR k - INR j) / INR (n - p)).
  { apply Rmult_le_pos; [|lra]. assert (INR j <= INR k) by (apply le_INR; exact Hjk). lra. }
  rewrite E. revert H. generalize ((INR k - INR j) / INR (n - p)) ((INR j - INR p) / INR (n - p)). intros d y Hd.
  unfold Rmax, Rmin. repeat destruct (Rle_dec _ _); lra.
Qed.

Lemma greville_quasi x : 0 <= x <= 1 ->
  quasi2 n (evaluate (mkSpline n p Clamped (init_knots n p Clamped)) x) (fun _ => 1) gnode gnode false (INR (p + 1) / INR (n - p)) x.
Proof.
  intros Hx. destruct (clamped_quasi n p x H1 Hp HN Hx) as [A B _ _].
  assert (P := INRN). assert (Hi0 : 0 < / INR (n - p)) by (apply Rinv_0_lt_compat; exact P).
  split; try assumption.
  - intros i Hi Hne. exists 0%Z. split; [reflexivity|]. intros y Hy. replace y with (gnode i) by lra. clear y Hy.
    rewrite Rplus_0_r.
    destruct (clamped_support n p Hp HN x i Hi Hne) as [_ [C D]].
    assert (G := gnode_bounds i).
    assert (L := t_lip i (i + p + 1) ltac:(lia)). replace (i + p + 1 - i)%nat with (p + 1)%nat in L by lia.
    assert (M1 := t_mono i (i + 1) ltac:(lia)). assert (M2 := t_mono (i + p) (i + p + 1) ltac:(lia)).
    assert (Xl : t i <= x).
    { rewrite t_clamp. apply Rmax_lub; [lra|]. apply Rle_trans with (1 := Rmin_r _ _).
      apply Rmult_le_reg_r with (INR (n - p)); [exact P|]. unfold Rdiv. rewrite Rmult_assoc, Rinv_l by lra. lra. }
    assert (Xr : x <= t (i + p + 1)).
    { rewrite t_clamp. apply Rle_trans with (2 := Rmax_r _ _). apply Rmin_glb; [lra|].
      apply Rmult_le_reg_r with (INR (n - p)); [exact P|]. unfold Rdiv. rewrite Rmult_assoc, Rinv_l by lra.
      rewrite !plus_INR. simpl (INR 1). lra. }
    apply Rabs_le. lra.
  - intros _ i _. assert (G := gnode_range i). lra.
Qed.
Lemma greville_deriv_quasi d x : 0 <= x < 1 -> d = mkSpline (n - 1) (p - 1) Clamped (init_knots n p Clamped) ->
  quasi2 (n - 1) (evaluate_deriv d x) (dweight n p) gnode (fun i => gnode (i + 1)) false (INR (p + 1) / INR (n - p)) x.
Proof.
  intros Hx ->. destruct (clamped_deriv_quasi n p _ x H1 Hp HN Hx eq_refl) as [A B _ _].
  assert (Hnd := t_nd n p Hp HN).
  split; try assumption.
  - intros i Hi Hne. exists 0%Z. split; [reflexivity|]. intros y Hy.
    assert (Hb : Bspl (tclamped n p) (p - 1) (S i) x <> 0).
    { intros Z. apply Hne. rewrite ev_deriv_clamped by (assumption || lra). replace (i + 1)%nat with (S i) by lia. rewrite Z. ring. }
    assert (L : tclamped n p (i + 1) <= x).
    { apply Rnot_lt_le. intros L. apply Hb, (Bspl_support _ Hnd). left. replace (S i) with (i + 1)%nat by lia. exact L. }
    assert (U : x < tclamped n p (i + 1 + p)).
    { apply Rnot_le_lt. intros U. apply Hb, (Bspl_support _ Hnd). right. replace (S i + (p - 1) + 1)%nat with (i + 1 + p)%nat by lia. exact U. }
    assert (G := tclamped_gap n p (i + 1) H1 Hp ltac:(lia) ltac:(lia)).
    assert (G1 := gnode_bounds i). assert (G2 := gnode_bounds (i + 1)).
    rewrite Rplus_0_r. apply Rabs_le.
    assert (INR p / INR (n - p) <= INR (p + 1) / INR (n - p)).
    { unfold Rdiv. apply Rmult_le_compat_r; [left; apply Rinv_0_lt_compat, lt_0_INR; lia | apply le_INR; lia]. }
    lra.
  - intros _ i _. assert (G := gnode_range i). assert (G' := gnode_range (i + 1)). lra.
Qed.
End Clamped.

(** periodic direction: nodes i/n, intervals [i/n, (i+1)/n] for the derivative basis *)
Lemma greville_periodic n p x : (0 < n)%nat -> (p <= n)%nat -> INR n <= 49000 -> 0 <= x < 1 ->
  quasi2 n (evaluate (mkSpline n p Periodic (init_knots n p Periodic)) x) (fun _ => 1) (pnode n) (pnode n) true (INR (p + 1) / INR n) x.
Proof.
  intros Hn Hp HN Hx. destruct (periodic_quasi n p x Hn Hp HN Hx) as [A B C _]. split; try assumption.
  - intros i Hi Hne. destruct (C i Hi Hne) as [t [T1 T2]]. exists t. split; [exact T1|]. intros y Hy. replace y with (pnode n i) by lra. exact T2.
  - discriminate.
Qed.
Lemma pnode_step n i : (0 < n)%nat -> pnode n (i + 1) = pnode n i + / INR n.
Proof. intros Hn. assert (0 < INR n) by (apply lt_0_INR; lia). unfold pnode. rewrite plus_INR. simpl (INR 1). field. lra. Qed.
Lemma greville_periodic_deriv n p d x : (1 <= p)%nat -> (p < n)%nat -> INR n <= 49000 -> 0 <= x < 1 ->
  d = mkSpline n (p - 1) Periodic (removelast (tl (init_knots n p Periodic))) ->
  quasi2 n (evaluate_deriv d x) (fun _ => / INR n) (pnode n) (fun i => pnode n (i + 1)) true (INR (p + 1) / INR n) x.
Proof.
  intros H1 H2 HN Hx ->.
  assert (HN0 : 0 < INR n) by (apply lt_0_INR; lia).
  assert (Hi0 : 0 < / INR n) by (apply Rinv_0_lt_compat; exact HN0).
  destruct (periodic_deriv_quasi n p _ x H1 H2 HN Hx eq_refl) as [A B _ _].
  destruct (periodic_quasi n (p - 1) x) as [_ _ C _]; try assumption; try lia.
  split; try assumption.
  - intros i Hi Hne. destruct (C i Hi) as [t [T1 T2]].
    + intros Z. apply Hne. rewrite deriv_periodic_lower, Z by assumption. ring.
    + exists t. split; [exact T1|]. intros y Hy. rewrite pnode_step in Hy by lia.
      replace (p - 1 + 1)%nat with p in T2 by lia. rewrite plus_INR. simpl (INR 1).
      replace ((INR p + 1) / INR n) with (INR p / INR n + / INR n) by (field; lra).
      replace (x - (y + IZR t)) with ((x - (pnode n i + IZR t)) - (y - pnode n i)) by ring.
      apply Rle_trans with (1 := Rabs_triang _ _). rewrite Rabs_Ropp.
      apply Rplus_le_compat; [exact T2|]. apply Rabs_le. lra.
  - discriminate.
Qed.
(** constant direction: one node, the whole period as interval *)
Lemma greville_constant (ev : nat -> R) x (b : bool) : ev 0%nat = 1 -> 0 <= x <= 1 ->
  quasi2 1 ev (fun _ => if b then / INR 1 else 1) (pnode 1) (fun i => if b then pnode 1 (i + 1) else pnode 1 i) true (INR (0 + 1) / INR 1) x.
Proof.
  intros E Hx. split.
  - cbn [rsum]. rewrite E. destruct b; simpl; try rewrite Rinv_1; ring.
  - intros i Hi. replace i with 0%nat by lia. rewrite E. destruct b; simpl; try rewrite Rinv_1; lra.
  - intros i Hi _. exists 0%Z. split; [reflexivity|]. replace i with 0%nat by lia. intros y Hy.
    revert Hy. unfold pnode. simpl. intros Hy. destruct b; apply Rabs_le; lra.
  - discriminate.
Qed.
