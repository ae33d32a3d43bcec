(** Linear independence of B-splines on a mesh cell, and at p+1 points of it. *)
From Coq Require Import Reals Lra Lia Arith List.
From Coquelicot Require Import Coquelicot.
From Verif Require Import Spec.BSpline Proof.BSplineLemmas.
Local Open Scope R_scope.

Lemma is_derive_rsum N (f : nat -> R -> R) (d : nat -> R) x :
  (forall i, (i < N)%nat -> is_derive (f i) x (d i)) ->
  is_derive (fun y => rsum N (fun i => f i y)) x (rsum N d).
Proof.
  induction N as [|N IH]; intros H; cbn [rsum].
  - apply (is_derive_const (K := R_AbsRing) (V := R_NormedModule) 0 x).
  - apply (is_derive_plus (K := R_AbsRing) (V := R_NormedModule) (fun y => rsum N (fun i => f i y)) (f N)).
    + apply IH. intros i Hi. apply H. lia.
    + apply H. lia.
Qed.

Lemma by_parts N (a g : nat -> R) :
  rsum N (fun i => a i * (g i - g (S i)))
  = rsum N (fun i => (match i with O => a O | S j => a i - a j end) * g i)
    - (match N with O => 0 | S j => a j end) * g N.
Proof.
  induction N as [|N IH]; cbn [rsum]; [ring|].
  rewrite IH. destruct N as [|N]; ring.
Qed.

Section Cell.
Variable t : nat -> R.
Hypothesis Ht : nondecreasing t.
Variable m N : nat.
Hypothesis Hm : t m < t (S m).
Hypothesis HN : (m < N)%nat.

Lemma cell_off x : t m < x < t (S m) -> forall j, x <> t j.
Proof.
  intros Hx j. destruct (Nat.le_gt_cases j m) as [L|G].
  - assert (t j <= t m) by (apply nondecreasing_le; assumption). lra.
  - assert (t (S m) <= t j) by (apply nondecreasing_le; [assumption | lia]). lra.
Qed.
Lemma cell_inactive p i x : t m < x < t (S m) -> (i + p < m)%nat \/ (m < i)%nat -> Bspl t p i x = 0.
Proof.
  intros Hx [H|H]; apply (Bspl_support t Ht).
  - right. assert (t (i + p + 1)%nat <= t m) by (apply nondecreasing_le; [assumption | lia]). lra.
  - left. assert (t (S m) <= t i) by (apply nondecreasing_le; [assumption | lia]). lra.
Qed.

Lemma local_indep : forall p (a : nat -> R), (p <= m)%nat ->
  (forall x, t m < x < t (S m) -> rsum N (fun i => a i * Bspl t p i x) = 0) ->
  forall i, (m - p <= i <= m)%nat -> a i = 0.
Proof.
  induction p as [|q IH]; intros a Hp Hf i Hi.
  - assert (i = m) as -> by lia.
    set (x := (t m + t (S m)) / 2). assert (Hx : t m < x < t (S m)) by (unfold x; lra).
    specialize (Hf x Hx). rewrite (rsum_single N _ m HN) in Hf.
    + cbn [Bspl] in Hf. unfold chi in Hf. destruct (Rle_dec (t m) x); [|lra]. destruct (Rlt_dec x (t (S m))); lra.
    + intros j Hj Hne. rewrite (cell_inactive 0 j x Hx) by lia. ring.
  - set (w j := inv0 (t (j + S q)%nat - t j)).
    set (b j := (match j with O => a O | S k => a j - a k end) * w j).
    assert (Hb : forall j, (m - q <= j <= m)%nat -> b j = 0).
    { apply IH; [lia|]. intros x Hx.
      assert (D : is_derive (fun y => rsum N (fun i => a i * Bspl t (S q) i y)) x (rsum N (fun i => a i * dBspl t q i x))).
      { apply is_derive_rsum. intros j Hj.
        evar_last. { apply (is_derive_scal (Bspl t (S q) j) x (a j)). apply Bspl_derive; [exact Ht | apply cell_off; exact Hx]. }
        reflexivity. }
      assert (Z : is_derive (fun y => rsum N (fun i => a i * Bspl t (S q) i y)) x 0).
      { apply (is_derive_ext_loc (fun _ => 0)); [|apply (is_derive_const (K := R_AbsRing) (V := R_NormedModule) 0 x)].
        assert (P : 0 < Rmin (x - t m) (t (S m) - x)) by (apply Rmin_glb_lt; lra).
        exists (mkposreal _ P). intros y Hy. symmetry. apply Hf.
        assert (A : Rabs (y - x) < Rmin (x - t m) (t (S m) - x)) by exact Hy.
        pose proof (Rmin_l (x - t m) (t (S m) - x)). pose proof (Rmin_r (x - t m) (t (S m) - x)).
        apply Rabs_def2 in A. lra. }
      assert (E : rsum N (fun i => a i * dBspl t q i x) = 0).
      { rewrite <- (is_derive_unique _ _ _ D). apply is_derive_unique. exact Z. }
      rewrite (rsum_ext N _ (fun i => INR (S q) * (a i * (w i * Bspl t q i x - w (S i) * Bspl t q (S i) x)))) in E.
      2:{ intros j Hj. unfold dBspl, w. replace (S j + S q)%nat with (j + S q + 1)%nat by lia. ring. }
      rewrite rsum_scal in E.
      assert (Q : INR (S q) <> 0) by (apply not_0_INR; lia).
      apply Rmult_integral in E. destruct E as [E|E]; [contradiction|].
      rewrite (by_parts N a (fun j => w j * Bspl t q j x)) in E.
      rewrite (cell_inactive q N x Hx) in E by lia.
      unfold b. rewrite (rsum_ext N _ (fun j => (match j with O => a O | S k => a j - a k end) * (w j * Bspl t q j x))) by (intros; ring).
      lra. }
    assert (Wp : forall j, (m - q <= j <= m)%nat -> w j <> 0).
    { intros j Hj. unfold w. assert (t j <= t m) by (apply nondecreasing_le; [assumption | lia]).
      assert (t (S m) <= t (j + S q)%nat) by (apply nondecreasing_le; [assumption | lia]).
      rewrite inv0_nz by lra. apply Rinv_neq_0_compat. lra. }
    assert (Ea : forall k, (k <= S q)%nat -> a (m - k)%nat = a m).
    { induction k as [|k IHk]; intros Hk; [f_equal; lia|]. rewrite <- IHk by lia.
      assert (B := Hb (m - k)%nat ltac:(lia)). unfold b in B. apply Rmult_integral in B.
      destruct B as [B|B]; [|exfalso; revert B; apply Wp; lia].
      destruct (m - k)%nat as [|j] eqn:Ej; [lia|]. replace (m - S k)%nat with j by lia. lra. }
    assert (Eall : forall j, (m - S q <= j <= m)%nat -> a j = a m).
    { intros j Hj. rewrite <- (Ea (m - j)%nat) by lia. f_equal. lia. }
    rewrite (Eall i Hi).
    set (x := (t m + t (S m)) / 2). assert (Hx : t m < x < t (S m)) by (unfold x; lra).
    specialize (Hf x Hx).
    rewrite (rsum_ext N _ (fun j => a m * Bspl t (S q) j x)) in Hf.
    2:{ intros j Hj. destruct (Nat.lt_ge_cases j (m - S q)) as [L|L].
        - rewrite (cell_inactive (S q) j x Hx) by lia. ring.
        - destruct (Nat.lt_ge_cases m j) as [L2|L2]; [rewrite (cell_inactive (S q) j x Hx) by lia; ring|].
          rewrite (Eall j) by lia. reflexivity. }
    rewrite rsum_scal, (Bspl_pou t Ht) in Hf; [lra|].
    assert (t (S q) <= t m) by (apply nondecreasing_le; assumption).
    assert (t (S m) <= t N) by (apply nondecreasing_le; [assumption | lia]). lra.
Qed.
End Cell.
