(** Smoothness of B-splines at simple knots: continuity for degree >= 1, continuous
    differentiability for degree >= 2; the derivative identities of Proof/SplineDeriv.v
    at every interior point. *)
From Coq Require Import Reals Lra Lia Arith List Bool ZArith.
From Coquelicot Require Import Coquelicot.
From Verif Require Import Model.RBase Model.Spline Spec.BSpline Proof.BSplineLemmas Proof.SplineLink Proof.SplineProps
  Proof.SplineDeriv Proof.SplineIBP.
Import ListNotations.
Local Open Scope R_scope.

(** *** gluing *)
Lemma derive_glue (f f1 f2 : R -> R) x l eps : 0 < eps -> f1 x = f2 x -> is_derive f1 x l -> is_derive f2 x l ->
  (forall y, x - eps < y < x -> f y = f1 y) -> (forall y, x <= y < x + eps -> f y = f2 y) -> is_derive f x l.
Proof.
  intros He E D1 D2 H1 H2. apply is_derive_Reals. apply is_derive_Reals in D1. apply is_derive_Reals in D2.
  intros e Hp. destruct (D1 e Hp) as [a1 Ha1]. destruct (D2 e Hp) as [a2 Ha2].
  assert (Hm : 0 < Rmin eps (Rmin a1 a2)) by (repeat apply Rmin_glb_lt; [exact He | apply cond_pos | apply cond_pos]).
  exists (mkposreal _ Hm). intros h Hh Hd. cbn [pos] in Hd.
  pose proof (Rmin_l eps (Rmin a1 a2)). pose proof (Rmin_r eps (Rmin a1 a2)).
  pose proof (Rmin_l a1 a2). pose proof (Rmin_r a1 a2).
  rewrite (H2 x) by lra. pose proof (Rabs_def2 _ _ Hd) as Hd2.
  destruct (Rlt_le_dec h 0).
  - rewrite (H1 (x + h)) by lra. rewrite <- E. apply Ha1; lra.
  - rewrite (H2 (x + h)) by lra. apply Ha2; lra.
Qed.
Lemma cont_glue (f f1 f2 : R -> R) x eps : 0 < eps -> f1 x = f2 x -> continuous f1 x -> continuous f2 x ->
  (forall y, x - eps < y < x -> f y = f1 y) -> (forall y, x <= y < x + eps -> f y = f2 y) -> continuous f x.
Proof.
  intros He E D1 D2 H1 H2. apply continuity_pt_filterlim. apply continuity_pt_filterlim in D1. apply continuity_pt_filterlim in D2.
  intros e Hp. destruct (D1 e Hp) as [a1 [Hp1 Ha1]]. destruct (D2 e Hp) as [a2 [Hp2 Ha2]].
  exists (Rmin eps (Rmin a1 a2)). split; [repeat apply Rmin_glb_lt; assumption|].
  intros y [Hy Hd]. simpl in *. unfold R_dist in *.
  pose proof (Rmin_l eps (Rmin a1 a2)). pose proof (Rmin_r eps (Rmin a1 a2)).
  pose proof (Rmin_l a1 a2). pose proof (Rmin_r a1 a2).
  rewrite (H2 x) by lra. pose proof (Rabs_def2 _ _ Hd) as Hd2.
  destruct (Rlt_le_dec y x).
  - rewrite (H1 y) by lra. rewrite <- E. apply Ha1. split; [exact Hy | lra].
  - rewrite (H2 y) by lra. apply Ha2. split; [exact Hy | lra].
Qed.

(** *** the polynomial pieces *)
Section Pieces.
Variable t : nat -> R.
Hypothesis Ht : nondecreasing t.
Notation bv := (bv t).

Definition dbv (m q i : nat) (x : R) : R :=
  INR (S q) * (inv0 (t (i + S q)%nat - t i) * bv m q i x - inv0 (t (i + S q + 1)%nat - t (S i)) * bv m q (S i) x).

Lemma dbv_key m q i x :
  (x - t i) * inv0 (t (i + S (S q))%nat - t i) * dbv m q i x
  + (t (i + S (S q) + 1)%nat - x) * inv0 (t (i + S (S q) + 1)%nat - t (S i)) * dbv m q (S i) x
  = INR (S q) * (inv0 (t (i + S (S q))%nat - t i) * bv m (S q) i x
             - inv0 (t (i + S (S q) + 1)%nat - t (S i)) * bv m (S q) (S i) x).
Proof.
  unfold dbv. cbn [SplineIBP.bv].
  replace (S i + S q)%nat with (i + S (S q))%nat by lia.
  replace (i + S q + 1)%nat with (i + S (S q))%nat by lia.
  set (A := bv m q i x). set (B := bv m q (S i) x). set (C := bv m q (S (S i)) x).
  set (a := t i). set (b := t (S i)). set (b2 := t (S (S i))). set (c := t (i + S q)%nat).
  set (d := t (i + S (S q))%nat). set (e := t (i + S (S q) + 1)%nat).
  assert (Hab : a <= b) by apply Ht.
  assert (Hbd : b <= d) by (apply nondecreasing_le; [exact Ht | lia]).
  assert (Hde : d <= e) by (apply nondecreasing_le; [exact Ht | lia]).
  assert (K : (inv0 (d - a) * (d - a) - 1) * inv0 (d - b) = 0
           /\ (inv0 (e - b) * (e - b) - 1) * inv0 (d - b) = 0).
  { destruct (Req_EM_T (d - b) 0) as [E|E].
    - rewrite E, inv0_0. split; ring.
    - rewrite (inv0_nz (d - a)), (inv0_nz (e - b)) by lra. split; field; lra. }
  destruct K as [K1 K2].
  set (beta := inv0 (d - b)) in *. set (delta := inv0 (d - a)) in *.
  set (eps := inv0 (e - b)) in *. set (n := INR (S q)).
  assert (K3 : delta * d * beta = beta + delta * a * beta) by lra.
  assert (K4 : eps * e * beta = beta + eps * b * beta) by lra.
  generalize (inv0 (c - a)) as al. generalize (inv0 (e - b2)) as ga. intros ga al.
  transitivity (n * ((x - a) * delta * al * A - (e - x) * eps * ga * C
     + B * (eps * e * beta - x * beta * eps - x * beta * delta + a * beta * delta)));
    [ring | rewrite K4].
  transitivity (n * ((x - a) * delta * al * A - (e - x) * eps * ga * C
     + B * (delta * d * beta - x * beta * eps - x * beta * delta + eps * b * beta)));
    [rewrite K3; ring | ring].
Qed.

Lemma bv_derive m q i x : is_derive (bv m (S q) i) x (dbv m q i x).
Proof.
  revert i. induction q as [|q IH]; intros i.
  - unfold dbv. cbn [SplineIBP.bv].
    generalize (inv0 (t (i + 1)%nat - t i)) (inv0 (t (i + 1 + 1)%nat - t (S i))). intros c1 c2.
    generalize (if (i =? m)%nat then 1 else 0) (if (S i =? m)%nat then 1 else 0). intros k1 k2.
    generalize (t i) (t (i + 1 + 1)%nat). intros a b. simpl INR.
    auto_derive; [exact I | ring].
  - pose proof (IH i) as D1. pose proof (IH (S i)) as D2.
    pose proof (dbv_key m q i x) as Key.
    set (f1 := bv m (S q) i) in *. set (f2 := bv m (S q) (S i)) in *.
    set (e1 := dbv m q i x) in *. set (e2 := dbv m q (S i) x) in *.
    apply (is_derive_ext (fun y =>
      (y - t i) * inv0 (t (i + S (S q))%nat - t i) * f1 y
    + (t (i + S (S q) + 1)%nat - y) * inv0 (t (i + S (S q) + 1)%nat - t (S i)) * f2 y)).
    { intros y. reflexivity. }
    unfold dbv.
    replace (INR (S (S q))) with (INR (S q) + 1) by (rewrite (S_INR (S q)); ring).
    fold f1 f2.
    rewrite Rmult_plus_distr_r, <- Key.
    set (c1 := inv0 (t (i + S (S q))%nat - t i)). set (c2 := inv0 (t (i + S (S q) + 1)%nat - t (S i))).
    set (a := t i). set (b := t (i + S (S q) + 1)%nat).
    clearbody e1 e2 f1 f2 c1 c2 a b.
    auto_derive; [repeat split; eexists; eassumption|].
    replace (Derive (fun x : R => f1 x) x) with e1 by (symmetry; apply is_derive_unique; exact D1).
    replace (Derive (fun x : R => f2 x) x) with e2 by (symmetry; apply is_derive_unique; exact D2).
    ring.
Qed.
Lemma bv_cont m q i x : continuous (bv m q i) x.
Proof.
  destruct q as [|q].
  - cbn [SplineIBP.bv]. apply continuous_const.
  - apply (ex_derive_continuous (bv m (S q) i)). eexists. apply bv_derive.
Qed.
Lemma dbv_cont m q i x : continuous (dbv m q i) x.
Proof.
  unfold dbv. apply (continuous_scal_r (INR (S q)) (fun x => inv0 (t (i + S q)%nat - t i) * bv m q i x - inv0 (t (i + S q + 1)%nat - t (S i)) * bv m q (S i) x) x).
  apply (continuous_minus (fun x => inv0 (t (i + S q)%nat - t i) * bv m q i x) (fun x => inv0 (t (i + S q + 1)%nat - t (S i)) * bv m q (S i) x) x).
  - apply (continuous_scal_r (inv0 (t (i + S q)%nat - t i)) (bv m q i) x), bv_cont.
  - apply (continuous_scal_r (inv0 (t (i + S q + 1)%nat - t (S i))) (bv m q (S i)) x), bv_cont.
Qed.

Lemma dBspl_dbv m q i x : t m <= x < t (S m) -> dBspl t q i x = dbv m q i x.
Proof. intros H. unfold dBspl, dbv. rewrite !(Bspl_bv t Ht m) by exact H. reflexivity. Qed.

(** at a simple knot *)
Section Knot.
Variable m : nat.
Hypothesis H1 : t m < t (S m).
Hypothesis H2 : t (S m) < t (S (S m)).
Let eps := Rmin (t (S m) - t m) (t (S (S m)) - t (S m)).
Lemma eps_pos : 0 < eps. Proof. apply Rmin_glb_lt; lra. Qed.
Lemma eps1 : eps <= t (S m) - t m. Proof. apply Rmin_l. Qed.
Lemma eps2 : eps <= t (S (S m)) - t (S m). Proof. apply Rmin_r. Qed.

Lemma Bspl_cont_knot q i : continuous (Bspl t (S q) i) (t (S m)).
Proof.
  apply (cont_glue _ (bv m (S q) i) (bv (S m) (S q) i) _ eps eps_pos).
  - apply bv_match; assumption.
  - apply bv_cont.
  - apply bv_cont.
  - intros y Hy. pose proof eps1. apply Bspl_bv; [exact Ht | lra].
  - intros y Hy. pose proof eps2. apply Bspl_bv; [exact Ht | lra].
Qed.
Lemma Bspl_derive_knot q i : is_derive (Bspl t (S (S q)) i) (t (S m)) (dBspl t (S q) i (t (S m))).
Proof.
  rewrite (dBspl_dbv (S m)) by lra.
  apply (derive_glue _ (bv m (S (S q)) i) (bv (S m) (S (S q)) i) _ _ eps eps_pos).
  - apply bv_match; assumption.
  - replace (dbv (S m) (S q) i (t (S m))) with (dbv m (S q) i (t (S m))).
    + apply bv_derive.
    + unfold dbv. rewrite !bv_match by assumption. reflexivity.
  - apply bv_derive.
  - intros y Hy. pose proof eps1. apply Bspl_bv; [exact Ht | lra].
  - intros y Hy. pose proof eps2. apply Bspl_bv; [exact Ht | lra].
Qed.
End Knot.

(** a point that is not a knot, or a simple knot of a spline of sufficient degree *)
Definition smooth_at (r q : nat) (x : R) : Prop :=
  (forall j, x <> t j) \/ ((r <= q)%nat /\ exists m, x = t (S m) /\ t m < t (S m) /\ t (S m) < t (S (S m))).
Lemma Bspl_smooth q i x : smooth_at 1 q x -> is_derive (Bspl t (S q) i) x (dBspl t q i x).
Proof.
  intros [H|[Hq [m [-> [A B]]]]]; [apply Bspl_derive; assumption|].
  destruct q as [|q]; [lia|]. apply Bspl_derive_knot; assumption.
Qed.
Lemma Bspl_cont_at q i x : smooth_at 0 q x -> continuous (Bspl t (S q) i) x.
Proof.
  intros [H|[Hq [m [-> [A B]]]]]; [|apply Bspl_cont_knot; assumption].
  apply (ex_derive_continuous (Bspl t (S q) i)). eexists. apply Bspl_derive; assumption.
Qed.
End Pieces.

Lemma knot_dec x N : 0 <= x -> {k | x * INR N = INR k} + {forall k, x * INR N <> INR k}.
Proof.
  intros Hx. assert (H0 : 0 <= x * INR N) by (apply Rmult_le_pos; [exact Hx | apply pos_INR]).
  destruct (nfloor_ex _ H0) as [k Hk].
  destruct (Req_EM_T (x * INR N) (INR k)) as [E|E]; [left; exists k; exact E|right].
  intros j Hj. rewrite Hj in Hk, E. destruct Hk as [A B].
  assert (C : (k <= j)%nat) by (apply INR_le; exact A).
  assert (D : (j < S k)%nat) by (apply INR_lt; rewrite S_INR; exact B).
  apply E. f_equal. lia.
Qed.

Lemma tclamped_smooth n p r q x : (p < n)%nat -> 0 < x < 1 -> (forall k, x * INR (n - p) <> INR k) \/ (r <= q)%nat ->
  smooth_at (tclamped n p) r q x.
Proof.
  intros Hp Hx Hor. assert (HN0 : 0 < INR (n - p)) by (apply lt_0_INR; lia).
  destruct (knot_dec x (n - p) ltac:(lra)) as [[k Hk]|Hk]; [|left; apply tclamped_nonknot; assumption].
  destruct Hor as [H|Hq]; [destruct (H k Hk)|]. right. split; [exact Hq|].
  assert (K0 : (0 < k)%nat) by (apply INR_lt; simpl; rewrite <- Hk; apply Rmult_lt_0_compat; lra).
  assert (K1 : (k < n - p)%nat).
  { apply INR_lt. rewrite <- Hk. rewrite <- (Rmult_1_l (INR (n - p))) at 2. apply Rmult_lt_compat_r; lra. }
  exists (p + k - 1)%nat. replace (S (p + k - 1)) with (p + k)%nat by lia. split; [|split].
  - rewrite tclamped_mid by lia. replace (p + k - p)%nat with k by lia. rewrite <- Hk. field. lra.
  - apply tclamped_lt; lia.
  - apply tclamped_lt; lia.
Qed.
Lemma tperiodic_lt n p j : (0 < n)%nat -> tperiodic n p j < tperiodic n p (S j).
Proof.
  intros Hn. assert (HN0 : 0 < INR n) by (apply lt_0_INR; lia). unfold tperiodic. rewrite S_INR.
  apply Rmult_lt_compat_r; [apply Rinv_0_lt_compat; exact HN0 | lra].
Qed.
Lemma tperiodic_smooth n p r q x : (0 < n)%nat -> 0 < x < 1 -> (forall k, x * INR n <> INR k) \/ (r <= q)%nat ->
  smooth_at (tperiodic n p) r q x.
Proof.
  intros Hn Hx Hor. assert (HN0 : 0 < INR n) by (apply lt_0_INR; lia).
  destruct (knot_dec x n ltac:(lra)) as [[k Hk]|Hk]; [|left; apply tperiodic_nonknot; assumption || lra].
  destruct Hor as [H|Hq]; [destruct (H k Hk)|]. right. split; [exact Hq|].
  assert (K0 : (0 < k)%nat) by (apply INR_lt; simpl; rewrite <- Hk; apply Rmult_lt_0_compat; lra).
  exists (p + k - 1)%nat. replace (S (p + k - 1)) with (p + k)%nat by lia. split; [|split].
  - unfold tperiodic. rewrite plus_INR. replace (INR p + INR k - INR p) with (INR k) by ring. rewrite <- Hk. field. lra.
  - replace (p + k)%nat with (S (p + k - 1)) at 2 by lia. apply tperiodic_lt. exact Hn.
  - apply tperiodic_lt. exact Hn.
Qed.

(** *** the derivative identities at every interior point *)
Lemma clamped_derivative_all n p s d x i :
  (1 <= p)%nat -> (p < n)%nat -> INR (n - p) <= 99900 ->
  new_spline n p Clamped = Some s -> new_deriv s = Some d ->
  0 < x < 1 -> (forall k, x * INR (n - p) <> INR k) \/ (2 <= p)%nat -> (i < n)%nat ->
  is_derive (fun y => evaluate s y i) x
    ((if (i =? 0)%nat then 0 else evaluate_deriv d x (i - 1))
     - (if (i =? n - 1)%nat then 0 else evaluate_deriv d x i)).
Proof.
  intros H1 H2 HN Hs Hd Hx Ho Hi. apply (clamped_derivative_gen n p s d x i); try assumption; [lra|].
  apply Bspl_smooth; [apply separated_nondec, tclamped_separated; assumption|].
  apply tclamped_smooth; [exact H2 | exact Hx | destruct Ho; [left; assumption | right; lia]].
Qed.
Lemma periodic_derivative_all n p s d x i :
  (1 <= p)%nat -> (p < n)%nat \/ (n = 1 /\ p = 1)%nat -> INR n <= 49000 ->
  new_spline n p Periodic = Some s -> new_deriv s = Some d ->
  0 < x < 1 -> (forall k, x * INR n <> INR k) \/ (2 <= p)%nat -> (i < n)%nat ->
  is_derive (fun y => evaluate s y i) x
    (evaluate_deriv d x ((i + n - 1) mod n) - evaluate_deriv d x i).
Proof.
  intros H1 H2 HN Hs Hd Hx Ho Hi. apply (periodic_derivative_gen n p s d x i); try assumption.
  intros j. apply Bspl_smooth; [apply tperiodic_nondec; lia|].
  apply tperiodic_smooth; [lia | exact Hx | destruct Ho; [left; assumption | right; lia]].
Qed.
