(** The fundamental theorem on every sub-interval of [0,1]: splines are continuously differentiable on the
    closed cells between consecutive knots and continuous across the knots. *)
From Coq Require Import Reals Lra Lia Arith List Bool ZArith.
From Coquelicot Require Import Coquelicot.
From Verif Require Import Model.RBase Model.Spline Spec.BSpline Proof.BSplineLemmas Proof.SplineLink Proof.SplineProps
  Proof.SplineDeriv Proof.SplineIBP Proof.SplineSmooth Proof.SplineCont.
Local Open Scope R_scope.

(** F agrees on the closed interval [c,d] with a continuously differentiable function *)
Definition c1_on (F : R -> R) (c d : R) : Prop := exists G G' : R -> R,
  (forall x, is_derive G x (G' x)) /\ (forall x, continuous G' x) /\ (forall x, c <= x <= d -> F x = G x).
Lemma c1_zero c d : c1_on (fun _ => 0) c d.
Proof.
  exists (fun _ => 0), (fun _ => 0). split; [|split].
  - intros x. apply (is_derive_const (V := R_NormedModule) 0 x).
  - intros x. apply continuous_const.
  - reflexivity.
Qed.
Lemma c1_plus F1 F2 c d : c1_on F1 c d -> c1_on F2 c d -> c1_on (fun x => F1 x + F2 x) c d.
Proof.
  intros (G1 & D1 & A1 & B1 & C1) (G2 & D2 & A2 & B2 & C2).
  exists (fun x => G1 x + G2 x), (fun x => D1 x + D2 x). split; [|split].
  - intros x. apply @is_derive_plus; [apply A1 | apply A2].
  - intros x. apply (continuous_plus D1 D2 x); [apply B1 | apply B2].
  - intros x Hx. rewrite C1, C2 by exact Hx. reflexivity.
Qed.
Lemma c1_scal a F c d : c1_on F c d -> c1_on (fun x => a * F x) c d.
Proof.
  intros (G & D & A & B & C). exists (fun x => a * G x), (fun x => a * D x). split; [|split].
  - intros x. apply is_derive_scal, A.
  - intros x. apply (continuous_scal_r a D x), B.
  - intros x Hx. rewrite C by exact Hx. reflexivity.
Qed.
Lemma c1_ext F F' c d : (forall x, c <= x <= d -> F x = F' x) -> c1_on F' c d -> c1_on F c d.
Proof.
  intros E (G & D & A & B & C). exists G, D. split; [exact A|]. split; [exact B|].
  intros x Hx. rewrite E by exact Hx. apply C, Hx.
Qed.

(** one cell *)
Lemma cell_int F g c d x y : c1_on F c d -> (forall u, c < u < d -> is_derive F u (g u)) ->
  c <= x -> x <= y -> y <= d -> is_RInt g x y (F y - F x).
Proof.
  intros (G & D & A & B & C) HD Hx Hxy Hy. rewrite !C by lra.
  apply (is_RInt_ext D).
  - intros u Hu. rewrite Rmin_left, Rmax_right in Hu by lra.
    assert (H1 : is_derive G u (g u)).
    { apply (is_derive_ext_loc F); [|apply HD; lra].
      assert (E : 0 < Rmin (u - c) (d - u)) by (apply Rmin_glb_lt; lra).
      exists (mkposreal _ E). intros v Hv. apply C.
      pose proof (Rmin_l (u - c) (d - u)). pose proof (Rmin_r (u - c) (d - u)).
      assert (Hv' : Rabs (v - u) < Rmin (u - c) (d - u)) by exact Hv. apply Rabs_def2 in Hv'. lra. }
    rewrite <- (is_derive_unique _ _ _ H1). symmetry. apply is_derive_unique, A.
  - apply (is_RInt_derive G); intros; [apply A | apply B].
Qed.

(** consecutive cells *)
Lemma cells_int (a : nat -> R) F g N : (forall e, (e < N)%nat -> a e < a (S e)) ->
  (forall e, (e < N)%nat -> c1_on F (a e) (a (S e))) ->
  (forall e u, (e < N)%nat -> a e < u < a (S e) -> is_derive F u (g u)) ->
  forall x y, a 0%nat <= x -> x <= y -> y <= a N -> is_RInt g x y (F y - F x).
Proof.
  intros Ha HC HD.
  assert (K : forall x, a 0%nat <= x -> x <= a N -> is_RInt g (a 0%nat) x (F x - F (a 0%nat))).
  { induction N as [|N IH]; intros x H0 Hx.
    - assert (E : x = a 0%nat) by lra. rewrite E. rewrite Rminus_eq_0. apply (is_RInt_point g (a 0%nat)).
    - assert (IH' : forall x, a 0%nat <= x -> x <= a N -> is_RInt g (a 0%nat) x (F x - F (a 0%nat))).
      { apply IH; intros; [apply Ha | apply HC | apply (HD e)]; lia || assumption. }
      destruct (Rle_dec x (a N)) as [Hl|Hl]; [apply IH'; assumption|].
      assert (M : a 0%nat <= a N).
      { clear - Ha. assert (Q : forall k, (k <= N)%nat -> a 0%nat <= a k).
        { induction k as [|k IHk]; intros Hk; [lra|]. specialize (IHk ltac:(lia)). specialize (Ha k ltac:(lia)). lra. }
        apply Q. lia. }
      replace (F x - F (a 0%nat)) with (plus (F (a N) - F (a 0%nat)) (F x - F (a N))) by (unfold plus; simpl; ring).
      apply (is_RInt_Chasles g _ (a N)); [apply IH'; lra|].
      apply (cell_int F g (a N) (a (S N))); try lra; [apply HC; lia|]. intros u Hu. apply (HD N); [lia | exact Hu]. }
  intros x y H0 Hxy Hy.
  replace (F y - F x) with (plus (opp (F x - F (a 0%nat))) (F y - F (a 0%nat))) by (unfold plus, opp; simpl; ring).
  apply (is_RInt_Chasles g _ (a 0%nat)); [apply (is_RInt_swap g x (a 0%nat) (F x - F (a 0%nat))); apply K; lra | apply K; lra].
Qed.

(** B-splines are piecewise continuously differentiable *)
Lemma bv_c1 t m q i c d : nondecreasing t -> c1_on (bv t m (S q) i) c d.
Proof.
  intros Ht. exists (bv t m (S q) i), (dbv t m q i). split; [|split; [|reflexivity]].
  - intros x. apply bv_derive, Ht.
  - intros x. apply dbv_cont, Ht.
Qed.
Lemma clamped_c1 n p s i e : (1 <= p)%nat -> (p < n)%nat -> INR (n - p) <= 99900 ->
  new_spline n p Clamped = Some s -> (i < n)%nat -> (e < n - p)%nat ->
  c1_on (fun x => evaluate s x i) (tclamped n p (p + e)) (tclamped n p (p + S e)).
Proof.
  intros Hp1 Hp HN Hs Hi He. destruct (new_spline_inv _ _ _ _ Hs) as [-> _].
  set (t := tclamped n p).
  assert (Ht : nondecreasing t) by (apply separated_nondec, tclamped_separated; assumption).
  destruct p as [|q]; [lia|].
  apply (c1_ext _ (bv t (S q + e) (S q) i)); [|apply bv_c1, Ht].
  intros x Hx.
  replace (S q + S e)%nat with (S (S q + e)) in Hx by lia.
  assert (L1 : t (S q + e)%nat < t (S (S q + e))) by (apply tclamped_lt; lia).
  destruct (Req_EM_T x (t (S (S q + e)))) as [->|Hn].
  - destruct (Nat.eq_dec (S e) (n - S q)) as [El|El].
    + replace (S (S q + e)) with n by lia. assert (T1 : t n = 1) by (apply tclamped_hi; lia). rewrite T1.
      rewrite ev_clamped_one by assumption. replace (S q + e)%nat with (n - 1)%nat by lia.
      symmetry. apply bv_clamped_right; assumption.
    + assert (L2 : t (S (S q + e)) < t (S (S (S q + e)))) by (apply tclamped_lt; lia).
      assert (T1 : t n = 1) by (apply tclamped_hi; lia).
      assert (L3 : t (S (S q + e)) < 1) by (rewrite <- T1; apply tclamped_lt; lia).
      rewrite ev_clamped by (assumption || lra). fold t.
      rewrite (Bspl_bv t Ht (S (S q + e))) by lra. symmetry. apply bv_match; assumption.
  - assert (T1 : t (S (S q + e)) <= 1).
    { assert (T1 : t n = 1) by (apply tclamped_hi; lia). rewrite <- T1.
      destruct (Nat.eq_dec (S (S q + e)) n) as [->|Hne]; [lra|]. left. apply tclamped_lt; lia. }
    rewrite ev_clamped by (assumption || lra). fold t. apply (Bspl_bv t Ht). lra.
Qed.
Lemma tper_c1 n p q i m : (0 < n)%nat -> c1_on (Bspl (tperiodic n p) (S q) i) (tperiodic n p m) (tperiodic n p (S m)).
Proof.
  intros Hn. set (t := tperiodic n p). assert (Ht : nondecreasing t) by (apply tperiodic_nondec; exact Hn).
  assert (L : forall k, t k < t (S k)) by (intros; apply tperiodic_lt; exact Hn).
  apply (c1_ext _ (bv t m (S q) i)); [|apply bv_c1, Ht].
  intros x Hx. destruct (Req_EM_T x (t (S m))) as [->|Hne].
  - rewrite (Bspl_bv t Ht (S m)) by (split; [lra | apply L]). symmetry. apply bv_match; apply L.
  - apply (Bspl_bv t Ht). lra.
Qed.
Lemma periodic_c1 n p s i m : (1 <= p)%nat -> (p <= n)%nat -> INR n <= 49000 ->
  new_spline n p Periodic = Some s -> (i < n)%nat ->
  c1_on (fun x => evaluate s x i) (tperiodic n p m) (tperiodic n p (S m)).
Proof.
  intros Hp1 Hp HN Hs Hi. destruct (new_spline_inv _ _ _ _ Hs) as [-> _].
  apply (c1_ext _ (fun x => if (i <? p)%nat then Bspl (tperiodic n p) p i x + Bspl (tperiodic n p) p (n + i) x else Bspl (tperiodic n p) p i x)).
  { intros x _. apply ev_periodic; assumption || lia. }
  destruct p as [|q]; [lia|]. destruct (i <? S q)%nat.
  - apply c1_plus; apply tper_c1; lia.
  - apply tper_c1; lia.
Qed.
(** the interior of a cell contains no knot *)
Lemma clamped_cell_off n p e u : (p < n)%nat -> (e < n - p)%nat -> tclamped n p (p + e) < u < tclamped n p (p + S e) ->
  forall k, u * INR (n - p) <> INR k.
Proof.
  intros Hp He Hu k Hk. assert (HN0 : 0 < INR (n - p)) by (apply lt_0_INR; lia).
  assert (E : u = INR k / INR (n - p)) by (rewrite <- Hk; field; lra).
  assert (T : forall j, (j <= n - p)%nat -> tclamped n p (p + j) = INR j / INR (n - p)).
  { intros j Hj. destruct (Nat.eq_dec j (n - p)) as [->|Hne].
    - rewrite tclamped_hi by lia. field. lra.
    - rewrite tclamped_mid by lia. replace (p + j - p)%nat with j by lia. reflexivity. }
  rewrite !T in Hu by lia. rewrite E in Hu. unfold Rdiv in Hu. destruct Hu as [H1 H2].
  apply Rmult_lt_reg_r in H1; [|apply Rinv_0_lt_compat; exact HN0].
  apply Rmult_lt_reg_r in H2; [|apply Rinv_0_lt_compat; exact HN0].
  apply INR_lt in H1. apply INR_lt in H2. lia.
Qed.
Lemma periodic_cell_off n p e u : (0 < n)%nat -> (p <= n)%nat -> tperiodic n p (p + e) < u < tperiodic n p (p + S e) ->
  forall k, u * INR n <> INR k.
Proof.
  intros Hn Hp Hu k Hk. assert (HN0 : 0 < INR n) by (apply lt_0_INR; lia).
  assert (E : u = INR k / INR n) by (rewrite <- Hk; field; lra).
  assert (T : forall j, tperiodic n p (p + j) = INR j / INR n).
  { intros j. unfold tperiodic. rewrite plus_INR. f_equal. ring. }
  rewrite !T in Hu by lia. rewrite E in Hu. unfold Rdiv in Hu. destruct Hu as [H1 H2].
  apply Rmult_lt_reg_r in H1; [|apply Rinv_0_lt_compat; exact HN0].
  apply Rmult_lt_reg_r in H2; [|apply Rinv_0_lt_compat; exact HN0].
  apply INR_lt in H1. apply INR_lt in H2. lia.
Qed.
