(** Property theorems C01-C08 (SplineBasis, DerivativeSpline). *)
From Coq Require Import Reals Lra Lia Arith List Bool ZArith String.
From Coquelicot Require Import Coquelicot.
From Verif Require Import Model.RBase Model.Spline Model.SplineCtor Spec.BSpline.
From Verif Require Import Proof.BSplineLemmas Proof.SplineLink Proof.SplineProps Proof.SplineDeriv Proof.SplineCtorProofs.
Import ListNotations.
Local Open Scope R_scope.

(** ** C01 Partition of unity *)
Theorem C01_clamped_partition_of_unity :
  forall (n p : nat) (s : spline) (x : R),
    SplineBasis n p "clamped" None = Ok s ->
    (p < n)%nat -> INR (n - p) <= 99900 ->
    0 <= x <= 1 ->
    rsum n (fun i => evaluate s x i) = 1.
Proof.
  intros n p s x Hs Hp HN Hx. destruct (ctor_attrs _ _ _ _ Hs) as (_ & _ & Et & H).
  assert (E : sty s = Clamped) by (symmetry; apply some_inj; exact Et). rewrite E in H.
  destruct (new_spline_inv _ _ _ _ H) as [-> _].
  exact (clamped_pou n p Hp HN x Hx).
Qed.
Print Assumptions C01_clamped_partition_of_unity.

Theorem C01_periodic_partition_of_unity :
  forall (n p : nat) (s : spline) (x : R),
    SplineBasis n p "periodic" None = Ok s ->
    (1 <= n)%nat -> INR n <= 49000 ->
    0 <= x < 1 \/ ((1 <= p)%nat /\ x = 1) ->
    rsum n (fun i => evaluate s x i) = 1.
Proof.
  intros n p s x Hs Hn HN Hx. destruct (ctor_attrs _ _ _ _ Hs) as (_ & _ & Et & H).
  assert (E : sty s = Periodic) by (symmetry; apply some_inj; exact Et). rewrite E in H.
  destruct (new_spline_inv _ _ _ _ H) as [-> Hp].
  exact (periodic_pou n p Hn ltac:(lia) HN x Hx).
Qed.
Print Assumptions C01_periodic_partition_of_unity.

(** the hypotheses are met, e.g. cubic splines with 8 functions *)
Example C01_nonvacuous : (exists s, SplineBasis 8 3 "clamped" None = Ok s)
  /\ (exists s, SplineBasis 8 3 "periodic" None = Ok s)
  /\ INR (8 - 3) <= 99900 /\ INR 8 <= 49000.
Proof. repeat split; try (eexists; reflexivity); simpl; lra. Qed.

(** ** C02 Positivity, upper bound, local support *)
Theorem C02_clamped_bounds_and_support :
  forall (n p : nat) (s : spline) (x : R) (i : nat),
    SplineBasis n p "clamped" None = Ok s ->
    (p < n)%nat -> INR (n - p) <= 99900 -> (i < n)%nat ->
    0 <= evaluate s x i <= 1 /\
    (evaluate s x i <> 0 ->
       0 <= x <= 1 /\ INR i - INR p <= x * INR (n - p) <= INR i + 1).
Proof.
  intros n p s x i Hs Hp HN Hi. destruct (ctor_attrs _ _ _ _ Hs) as (_ & _ & Et & H).
  assert (E : sty s = Clamped) by (symmetry; apply some_inj; exact Et). rewrite E in H.
  destruct (new_spline_inv _ _ _ _ H) as [-> _].
  exact (conj (conj (clamped_nonneg n p Hp HN x i Hi) (clamped_le1 n p Hp HN x i Hi))
              (clamped_support n p Hp HN x i Hi)).
Qed.
Print Assumptions C02_clamped_bounds_and_support.

Theorem C02_clamped_at_most_p_plus_1_active :
  forall (n p : nat) (s : spline) (x : R),
    SplineBasis n p "clamped" None = Ok s ->
    (p < n)%nat -> INR (n - p) <= 99900 -> 0 <= x <= 1 ->
    exists m, (m + p < n)%nat /\
      forall i, (i < n)%nat -> evaluate s x i <> 0 -> (m <= i <= m + p)%nat.
Proof.
  intros n p s x Hs Hp HN Hx. destruct (ctor_attrs _ _ _ _ Hs) as (_ & _ & Et & H).
  assert (E : sty s = Clamped) by (symmetry; apply some_inj; exact Et). rewrite E in H.
  destruct (new_spline_inv _ _ _ _ H) as [-> _].
  exact (clamped_active n p Hp HN x Hx).
Qed.
Print Assumptions C02_clamped_at_most_p_plus_1_active.

(** x lies in cell m of the periodic grid and the active splines are m, ..., m+p (mod n) *)
Theorem C02_periodic_bounds_and_support :
  forall (n p : nat) (s : spline) (x : R),
    SplineBasis n p "periodic" None = Ok s ->
    (1 <= n)%nat -> INR n <= 49000 -> 0 <= x < 1 ->
    (forall i, (i < n)%nat -> 0 <= evaluate s x i <= 1) /\
    exists m, (m < n)%nat /\ INR m <= x * INR n < INR m + 1 /\
      forall i, (i < n)%nat -> evaluate s x i <> 0 ->
        exists k, (k <= p)%nat /\ i = ((m + k) mod n)%nat.
Proof.
  intros n p s x Hs Hn HN Hx. destruct (ctor_attrs _ _ _ _ Hs) as (_ & _ & Et & H).
  assert (E : sty s = Periodic) by (symmetry; apply some_inj; exact Et). rewrite E in H.
  destruct (new_spline_inv _ _ _ _ H) as [-> Hp].
  exact (conj (fun i Hi => conj (periodic_nonneg n p Hn ltac:(lia) HN x i Hi)
                                (periodic_le1 n p Hn ltac:(lia) HN x i Hi Hx))
              (periodic_active n p Hn ltac:(lia) HN x Hx)).
Qed.
Print Assumptions C02_periodic_bounds_and_support.

(** ** C03 Derivatives are exactly represented by DerivativeSpline
    (x is any point that is not a knot). *)
Theorem C03_clamped_derivative_exact :
  forall (n p : nat) (s d : spline) (x : R) (i : nat),
    (1 <= p)%nat -> (p < n)%nat -> INR (n - p) <= 99900 ->
    new_spline n p Clamped = Some s -> new_deriv s = Some d ->
    (forall k : nat, x * INR (n - p) <> INR k) -> (i < n)%nat ->
    is_derive (fun y => evaluate s y i) x
      ((if (i =? 0)%nat then 0 else evaluate_deriv d x (i - 1))
       - (if (i =? n - 1)%nat then 0 else evaluate_deriv d x i)).
Proof. exact clamped_derivative. Qed.
Print Assumptions C03_clamped_derivative_exact.

Theorem C03_periodic_derivative_exact :
  forall (n p : nat) (s d : spline) (x : R) (i : nat),
    (1 <= p)%nat -> (p < n)%nat \/ (n = 1 /\ p = 1)%nat -> INR n <= 49000 ->
    new_spline n p Periodic = Some s -> new_deriv s = Some d ->
    0 < x < 1 -> (forall k : nat, x * INR n <> INR k) -> (i < n)%nat ->
    is_derive (fun y => evaluate s y i) x
      (evaluate_deriv d x ((i + n - 1) mod n) - evaluate_deriv d x i).
Proof. exact periodic_derivative. Qed.
Print Assumptions C03_periodic_derivative_exact.

Example C03_nonvacuous :
  (exists s d, new_spline 8 3 Clamped = Some s /\ new_deriv s = Some d) /\
  (exists s d, new_spline 8 3 Periodic = Some s /\ new_deriv s = Some d) /\
  (forall k : nat, (3 / 10) * INR (8 - 3) <> INR k).
Proof.
  split; [|split]; try (do 2 eexists; split; reflexivity).
  intros k H. simpl in H.
  destruct k as [|[|k]]; [simpl in H; lra | simpl in H; lra |].
  rewrite !S_INR in H. assert (0 <= INR k) by apply pos_INR. lra.
Qed.

(** ** C04 End-point interpolation of clamped splines *)
Theorem C04_clamped_endpoints :
  forall (n p : nat) (s : spline) (i : nat),
    SplineBasis n p "clamped" None = Ok s ->
    (p < n)%nat -> INR (n - p) <= 99900 -> (i < n)%nat ->
    evaluate s 0 i = (if (i =? 0)%nat then 1 else 0) /\
    evaluate s 1 i = (if (i =? n - 1)%nat then 1 else 0).
Proof.
  intros n p s i Hs Hp HN Hi. destruct (ctor_attrs _ _ _ _ Hs) as (_ & _ & Et & H).
  assert (E : sty s = Clamped) by (symmetry; apply some_inj; exact Et). rewrite E in H.
  destruct (new_spline_inv _ _ _ _ H) as [-> _].
  exact (conj (clamped_left n p Hp HN i Hi) (ev_clamped_one n p Hp HN i Hi)).
Qed.
Print Assumptions C04_clamped_endpoints.

(** ** C05 Periodic closure *)
Theorem C05_periodic_closure :
  forall (n p : nat) (s : spline) (i : nat),
    SplineBasis n p "periodic" None = Ok s ->
    (1 <= p)%nat -> INR n <= 49000 -> (i < n)%nat ->
    evaluate s 0 i = evaluate s 1 i.
Proof.
  intros n p s i Hs Hp1 HN Hi. destruct (ctor_attrs _ _ _ _ Hs) as (_ & _ & Et & H).
  assert (E : sty s = Periodic) by (symmetry; apply some_inj; exact Et). rewrite E in H.
  destruct (new_spline_inv _ _ _ _ H) as [-> Hp].
  exact (periodic_closed n p ltac:(lia) ltac:(lia) HN i Hp1 Hi).
Qed.
Print Assumptions C05_periodic_closure.

(** ** C06 The size bound of C01 cannot be dropped: beyond 200000 cells all
    splines vanish identically on [0.6, 1). *)
Theorem C06_partition_of_unity_large_n_refuted :
  forall (n p : nat), (p < n)%nat -> 200000 <= INR (n - p) ->
  exists s, SplineBasis n p "clamped" None = Ok s /\
    forall x, 6 / 10 <= x < 1 ->
      (forall i, (i < n)%nat -> evaluate s x i = 0) /\
      rsum n (fun i => evaluate s x i) = 0.
Proof.
  intros n p Hp HN.
  assert (Hs : exists s, SplineBasis n p "clamped" None = Ok s).
  { apply ctor_ok_iff. split; [simpl; tauto | left; exact Hp]. }
  destruct Hs as [s Hs]. exists s. split; [exact Hs|]. intros x Hx.
  destruct (ctor_attrs _ _ _ _ Hs) as (_ & _ & Et & H).
  assert (E : sty s = Clamped) by (symmetry; apply some_inj; exact Et). rewrite E in H.
  split.
  - intros i Hi. exact (large_n_zero n p s x i H Hp HN Hi Hx).
  - apply rsum_zero. intros i Hi. exact (large_n_zero n p s x i H Hp HN Hi Hx).
Qed.
Print Assumptions C06_partition_of_unity_large_n_refuted.

Example C06_nonvacuous : let n := Z.to_nat 300000 in (3 < n)%nat /\ 200000 <= INR (n - 3).
Proof.
  intros n. assert (Hn : (3 < n)%nat) by (unfold n; lia). split; [exact Hn|].
  rewrite minus_INR by lia. unfold n. rewrite INR_IZR_INZ, Z2Nat.id by lia. simpl. lra.
Qed.

(** ** C07 The last derivative spline at x = 1 is 0 although its limit from the
    left is p (n-p); its neighbour is positive instead. *)
Theorem C07_derivative_at_right_end_refuted :
  forall (n p : nat) (s d : spline),
    (1 <= p)%nat -> (p < n)%nat -> INR (n - p) <= 99900 ->
    new_spline n p Clamped = Some s -> new_deriv s = Some d ->
    evaluate_deriv d 1 (n - 2) = 0
    /\ filterlim (fun x => evaluate_deriv d x (n - 2)) (at_left 1) (locally (INR p * INR (n - p)))
    /\ INR p * INR (n - p) <> 0
    /\ ((3 <= n)%nat -> 0 < evaluate_deriv d 1 (n - 3)).
Proof.
  intros n p s d H1 H2 HN Hs Hd.
  destruct (deriv_at_one n p s d H1 H2 HN Hs Hd) as [A B].
  split; [exact A|]. split; [exact B|]. split.
  - apply Rgt_not_eq, Rmult_lt_0_compat; apply lt_0_INR; lia.
  - intros H3. exact (deriv_at_one_wrong n p s d H1 H2 H3 HN Hs Hd).
Qed.
Print Assumptions C07_derivative_at_right_end_refuted.

(** ** C08 Constructor validation *)
Theorem C08_spline_constructor :
  forall (n p : nat) (ty : string),
    (exists s, SplineBasis n p ty None = Ok s) <->
    In ty ["clamped"; "periodic"; "constant"; "fourier"]%string /\ (p < n \/ p = 1)%nat.
Proof. exact ctor_ok_iff. Qed.
Print Assumptions C08_spline_constructor.

Theorem C08_tensor_constructor :
  forall (bases : list spline) (n : nat),
    TensorBasis_n bases = Ok n <-> exists a b c, bases = [a; b; c] /\ n = (sn a * sn b * sn c)%nat.
Proof. exact tensor_ok_iff. Qed.
Print Assumptions C08_tensor_constructor.

(** The escape p = 1 accepts the degenerate clamped basis n = p = 1, which is
    not a partition of unity (C01 needs p < n). *)
Theorem C08_degenerate_clamped_refuted :
  exists s, SplineBasis 1 1 "clamped" None = Ok s /\
    forall x, 0 <= x < 1 -> rsum 1 (fun i => evaluate s x i) = 1 - x.
Proof.
  eexists. split; [reflexivity|]. intros x Hx. cbn [rsum].
  rewrite (n1p1_value x _ eq_refl Hx). ring.
Qed.
Print Assumptions C08_degenerate_clamped_refuted.
