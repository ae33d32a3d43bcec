(** Facts about textbook B-splines (Spec/BSpline.v). *)
From Coq Require Import Reals Lra Lia Arith.
From Coquelicot Require Import Coquelicot.
From Verif Require Import Spec.BSpline.
Local Open Scope R_scope.

Lemma inv0_0 : inv0 0 = 0.
Proof. unfold inv0; destruct (Req_EM_T 0 0); [reflexivity | lra]. Qed.

Lemma inv0_nz y : y <> 0 -> inv0 y = / y.
Proof. unfold inv0; destruct (Req_EM_T y 0); intros; [contradiction | reflexivity]. Qed.

Lemma inv0_nonneg y : 0 <= y -> 0 <= inv0 y.
Proof.
  unfold inv0; intros H; destruct (Req_EM_T y 0); [lra|].
  left; apply Rinv_0_lt_compat; lra.
Qed.

Lemma inv0_r y : y <> 0 -> y * inv0 y = 1.
Proof. intros H; rewrite inv0_nz by exact H; field; exact H. Qed.

Lemma nondecreasing_le t : nondecreasing t -> forall i j, (i <= j)%nat -> t i <= t j.
Proof.
  intros Ht i j Hij; induction Hij as [|m Hm IH]; [lra|].
  generalize (Ht m); lra.
Qed.

Lemma rsum_ext n f g : (forall i, (i < n)%nat -> f i = g i) -> rsum n f = rsum n g.
Proof.
  induction n as [|n IH]; intros H; simpl; [reflexivity|].
  rewrite IH, H; [reflexivity | lia | intros i Hi; apply H; lia].
Qed.

Lemma rsum_plus n f g : rsum n (fun i => f i + g i) = rsum n f + rsum n g.
Proof. induction n as [|n IH]; simpl; [lra | rewrite IH; lra]. Qed.

Lemma rsum_scal n c f : rsum n (fun i => c * f i) = c * rsum n f.
Proof. induction n as [|n IH]; simpl; [lra | rewrite IH; lra]. Qed.

Lemma rsum_zero n f : (forall i, (i < n)%nat -> f i = 0) -> rsum n f = 0.
Proof.
  intros H; rewrite (rsum_ext n f (fun _ => 0) H).
  clear; induction n as [|n IH]; simpl; lra.
Qed.

Lemma rsum_single n f k : (k < n)%nat ->
  (forall i, (i < n)%nat -> i <> k -> f i = 0) -> rsum n f = f k.
Proof.
  induction n as [|n IH]; intros Hk H; [lia|].
  simpl. destruct (Nat.eq_dec k n) as [->|Hne].
  - rewrite rsum_zero; [lra|]. intros i Hi; apply H; lia.
  - rewrite IH, (H n); [lra | lia | lia | lia | intros i Hi Hik; apply H; lia].
Qed.

Lemma rsum_nonneg n f : (forall i, (i < n)%nat -> 0 <= f i) -> 0 <= rsum n f.
Proof.
  induction n as [|n IH]; intros H; simpl; [lra|].
  assert (0 <= rsum n f) by (apply IH; intros i Hi; apply H; lia).
  generalize (H n ltac:(lia)); lra.
Qed.

Lemma rsum_ge_term n f k : (k < n)%nat ->
  (forall i, (i < n)%nat -> 0 <= f i) -> f k <= rsum n f.
Proof.
  induction n as [|n IH]; intros Hk H; [lia|]. simpl.
  destruct (Nat.eq_dec k n) as [->|Hne].
  - assert (0 <= rsum n f) by (apply rsum_nonneg; intros i Hi; apply H; lia). lra.
  - assert (f k <= rsum n f) by (apply IH; [lia | intros i Hi; apply H; lia]).
    generalize (H n ltac:(lia)); lra.
Qed.

Lemma rsum_split n m f : rsum (n + m) f = rsum n f + rsum m (fun i => f (n + i)%nat).
Proof.
  induction m as [|m IH]; simpl.
  - rewrite Nat.add_0_r; lra.
  - rewrite Nat.add_succ_r; simpl; rewrite IH; lra.
Qed.

(** Support: Bspl t p i vanishes outside [t_i, t_{i+p+1}). *)
Lemma Bspl_support t : nondecreasing t -> forall p i x,
  x < t i \/ t (i + p + 1)%nat <= x -> Bspl t p i x = 0.
Proof.
  intros Ht p; induction p as [|p IH]; intros i x Hx; simpl.
  - unfold chi. replace (i + 0 + 1)%nat with (S i) in Hx by lia.
    destruct (Rle_dec (t i) x), (Rlt_dec x (t (S i))); lra.
  - rewrite !IH; [lra| |].
    + destruct Hx as [Hx|Hx]; [left; generalize (Ht i); lra | right].
      replace (S i + p + 1)%nat with (i + S p + 1)%nat by lia; exact Hx.
    + destruct Hx as [Hx|Hx]; [left; exact Hx | right].
      apply Rle_trans with (2 := Hx).
      apply nondecreasing_le; [exact Ht | lia].
Qed.

Lemma Bspl_degenerate t : nondecreasing t -> forall p i x,
  t i = t (i + p + 1)%nat -> Bspl t p i x = 0.
Proof.
  intros Ht p i x H; apply Bspl_support; [exact Ht|].
  destruct (Rlt_dec x (t i)); [left; lra | right; lra].
Qed.

Lemma Bspl_nonneg t : nondecreasing t -> forall p i x, 0 <= Bspl t p i x.
Proof.
  intros Ht p; induction p as [|p IH]; intros i x; simpl.
  - unfold chi; destruct (Rle_dec (t i) x), (Rlt_dec x (t (S i))); lra.
  - assert (H1 : t i <= t (i + S p)%nat) by (apply nondecreasing_le; [exact Ht | lia]).
    assert (H2 : t (S i) <= t (i + S p + 1)%nat) by (apply nondecreasing_le; [exact Ht | lia]).
    apply Rplus_le_le_0_compat.
    + destruct (Rlt_dec x (t i)) as [Hl|Hl].
      * rewrite (Bspl_support t Ht p i x) by (left; exact Hl). lra.
      * apply Rmult_le_pos; [|apply IH].
        apply Rmult_le_pos; [lra | apply inv0_nonneg; lra].
    + destruct (Rle_dec (t (i + S p + 1)%nat) x) as [Hl|Hl].
      * rewrite (Bspl_support t Ht p (S i) x); [lra|].
        right. replace (S i + p + 1)%nat with (i + S p + 1)%nat by lia. exact Hl.
      * apply Rmult_le_pos; [|apply IH].
        apply Rmult_le_pos; [lra | apply inv0_nonneg; lra].
Qed.

(** Partition of unity on [t_p, t_N). *)
Lemma telescope n (w B : nat -> R) :
  rsum n (fun i => w i * B i + (1 - w (S i)) * B (S i))
  = w O * B O - w n * B n + rsum n (fun i => B (S i)).
Proof. induction n as [|n IH]; simpl; [lra | rewrite IH; lra]. Qed.

Lemma rsum_shift n f : rsum n (fun i => f (S i)) = rsum n f - f O + f n.
Proof. induction n as [|n IH]; simpl; [lra | rewrite IH; lra]. Qed.

Lemma Bspl_rec_w t : nondecreasing t -> forall p i x,
  let w j := (x - t j) * inv0 (t (j + S p)%nat - t j) in
  Bspl t (S p) i x = w i * Bspl t p i x + (1 - w (S i)) * Bspl t p (S i) x.
Proof.
  intros Ht p i x w. cbn [Bspl]. f_equal.
  unfold w. replace (S i + S p)%nat with (i + S p + 1)%nat by lia.
  destruct (Req_EM_T (t (i + S p + 1)%nat - t (S i)) 0) as [E|E].
  - rewrite (Bspl_degenerate t Ht p (S i) x); [lra|].
    replace (S i + p + 1)%nat with (i + S p + 1)%nat by lia. lra.
  - rewrite !inv0_nz by exact E. f_equal. field. exact E.
Qed.

Lemma Bspl_pou t : nondecreasing t -> forall p N x,
  t p <= x < t N -> rsum N (fun i => Bspl t p i x) = 1.
Proof.
  intros Ht p; induction p as [|p IH]; intros N x [Hlo Hhi].
  - induction N as [|N IHN]; [lra|]. cbn [rsum].
    destruct (Rlt_dec x (t N)) as [Hl|Hl].
    + rewrite IHN by exact Hl. cbn [Bspl]. unfold chi.
      destruct (Rle_dec (t N) x); lra.
    + rewrite rsum_zero.
      * cbn [Bspl]. unfold chi. destruct (Rle_dec (t N) x), (Rlt_dec x (t (S N))); lra.
      * intros i Hi. apply (Bspl_support t Ht 0 i x). right.
        assert (t (i + 0 + 1)%nat <= t N) by (apply nondecreasing_le; [exact Ht | lia]).
        lra.
  - rewrite (rsum_ext N _ (fun i =>
       (x - t i) * inv0 (t (i + S p)%nat - t i) * Bspl t p i x
       + (1 - (x - t (S i)) * inv0 (t (S i + S p)%nat - t (S i))) * Bspl t p (S i) x))
      by (intros i Hi; apply (Bspl_rec_w t Ht)).
    rewrite (telescope N (fun i => (x - t i) * inv0 (t (i + S p)%nat - t i))
                         (fun i => Bspl t p i x)).
    cbn beta.
    rewrite (rsum_shift N (fun i => Bspl t p i x)).
    rewrite (Bspl_support t Ht p 0 x), (Bspl_support t Ht p N x).
    + rewrite IH; [lra|]. split; [|exact Hhi].
      generalize (Ht p); lra.
    + left; exact Hhi.
    + right. replace (0 + p + 1)%nat with (S p) by lia. exact Hlo.
Qed.

(** Translation invariance. *)
Lemma Bspl_shift t m c : (forall i, t (i + m)%nat = t i + c) ->
  forall p i x, Bspl t p (i + m) (x + c) = Bspl t p i x.
Proof.
  intros Hs p; induction p as [|p IH]; intros i x; simpl.
  - unfold chi. change (S (i + m)) with (S i + m)%nat. rewrite !Hs.
    destruct (Rle_dec (t i) x), (Rle_dec (t i + c) (x + c)); try lra.
    destruct (Rlt_dec x (t (S i))), (Rlt_dec (x + c) (t (S i) + c)); lra.
  - change (S (i + m)) with (S i + m)%nat. rewrite !IH.
    replace (i + m + S p)%nat with (i + S p + m)%nat by lia.
    replace (i + S p + m + 1)%nat with (i + S p + 1 + m)%nat by lia.
    rewrite !Hs.
    replace (x + c - (t i + c)) with (x - t i) by ring.
    replace (t (i + S p)%nat + c - (t i + c)) with (t (i + S p)%nat - t i) by ring.
    replace (t (i + S p + 1)%nat + c - (x + c)) with (t (i + S p + 1)%nat - x) by ring.
    replace (t (i + S p + 1)%nat + c - (t (S i) + c)) with (t (i + S p + 1)%nat - t (S i)) by ring.
    reflexivity.
Qed.

Lemma Bspl_reindex t m : forall p i x,
  Bspl (fun j => t (j + m)%nat) p i x = Bspl t p (i + m) x.
Proof.
  intros p; induction p as [|p IH]; intros i x; simpl; [reflexivity|].
  rewrite !IH. simpl.
  replace (i + S p + m)%nat with (i + m + S p)%nat by lia.
  replace (i + S p + 1 + m)%nat with (i + m + S p + 1)%nat by lia.
  reflexivity.
Qed.

(** Vanishing at the left end of the support for degree >= 1. *)
Lemma Bspl_left_zero t : nondecreasing t -> forall p i,
  t i < t (S i) -> Bspl t (S p) i (t i) = 0.
Proof.
  intros Ht p i Hi. cbn [Bspl].
  rewrite (Bspl_support t Ht p (S i)) by (left; exact Hi). lra.
Qed.

(** Value 1 at a knot of multiplicity p on the left: t_{i} = ... = t_{i+p} < t_{i+p+1} *)
Lemma Bspl_full_mult t : nondecreasing t -> forall p i,
  t i = t (i + p)%nat -> t (i + p)%nat < t (i + p + 1)%nat -> Bspl t p i (t (i + p)%nat) = 1.
Proof.
  intros Ht p; induction p as [|p IH]; intros i H1 H2.
  - simpl. rewrite Nat.add_0_r in *. replace (S i) with (i + 1)%nat by lia.
    unfold chi; destruct (Rle_dec (t i) (t i)), (Rlt_dec (t i) (t (i + 1)%nat)); lra.
  - cbn [Bspl].
    assert (A : t i <= t (S i)) by apply Ht.
    assert (B : t (S i) <= t (i + S p)%nat) by (apply nondecreasing_le; [exact Ht | lia]).
    pose proof (IH (S i)) as IH1.
    replace (S i + p)%nat with (i + S p)%nat in IH1 by lia.
    rewrite IH1 by lra.
    replace (t (S i)) with (t (i + S p)%nat) by lra.
    rewrite <- H1 at 1.
    assert (N : t (i + S p + 1)%nat - t (i + S p)%nat <> 0) by lra.
    rewrite (inv0_nz (t (i + S p + 1)%nat - t (i + S p)%nat)) by exact N.
    replace (t i - t i) with 0 by ring.
    field. exact N.
Qed.

(** Derivative of B-splines away from the knots. *)
Lemma is_derive_chi a b x : x <> a -> x <> b -> is_derive (chi a b) x 0.
Proof.
  intros Ha Hb.
  apply (is_derive_ext_loc (fun _ => chi a b x)); [|apply is_derive_Reals; apply derivable_pt_lim_const].
  assert (Hd : 0 < Rmin (Rabs (x - a)) (Rabs (x - b))).
  { apply Rmin_glb_lt; apply Rabs_pos_lt; lra. }
  exists (mkposreal _ Hd). intros y Hy.
  change (Rabs (y - x) < Rmin (Rabs (x - a)) (Rabs (x - b))) in Hy.
  assert (H1 : Rabs (y - x) < Rabs (x - a)) by (eapply Rlt_le_trans; [exact Hy | apply Rmin_l]).
  assert (H2 : Rabs (y - x) < Rabs (x - b)) by (eapply Rlt_le_trans; [exact Hy | apply Rmin_r]).
  unfold Rabs in H1, H2.
  unfold chi.
  destruct (Rcase_abs (y - x)), (Rcase_abs (x - a)), (Rcase_abs (x - b));
  destruct (Rle_dec a x), (Rle_dec a y); try lra;
  destruct (Rlt_dec x b), (Rlt_dec y b); lra.
Qed.

(** Formal derivative of degree-(q+1) splines. *)
Definition dBspl (t : nat -> R) (q i : nat) (x : R) : R :=
  INR (S q) * (inv0 (t (i + S q)%nat - t i) * Bspl t q i x
             - inv0 (t (i + S q + 1)%nat - t (S i)) * Bspl t q (S i) x).

Lemma dBspl_key t : nondecreasing t -> forall q i x,
  (x - t i) * inv0 (t (i + S (S q))%nat - t i) * dBspl t q i x
  + (t (i + S (S q) + 1)%nat - x) * inv0 (t (i + S (S q) + 1)%nat - t (S i)) * dBspl t q (S i) x
  = INR (S q) * (inv0 (t (i + S (S q))%nat - t i) * Bspl t (S q) i x
             - inv0 (t (i + S (S q) + 1)%nat - t (S i)) * Bspl t (S q) (S i) x).
Proof.
  intros Ht q i x. unfold dBspl. cbn [Bspl].
  replace (S i + S q)%nat with (i + S (S q))%nat by lia.
  replace (i + S q + 1)%nat with (i + S (S q))%nat by lia.
  set (A := Bspl t q i x). set (B := Bspl t q (S i) x). set (C := Bspl t q (S (S i)) x).
  set (a := t i). set (b := t (S i)). set (b2 := t (S (S i))). set (c := t (i + S q)%nat).
  set (d := t (i + S (S q))%nat). set (e := t (i + S (S q) + 1)%nat).
  assert (Hab : a <= b) by apply Ht.
  assert (Hbd : b <= d) by (apply nondecreasing_le; [exact Ht | lia]).
  assert (Hde : d <= e) by (apply nondecreasing_le; [exact Ht | lia]).
  assert (K : (inv0 (d - a) * (d - a) - 1) * inv0 (d - b) = 0
           /\ (inv0 (e - b) * (e - b) - 1) * inv0 (d - b) = 0).
  { destruct (Req_EM_T (d - b) 0) as [E|E].
    - rewrite E, inv0_0. split; ring.
    - rewrite (inv0_nz (d - a)), (inv0_nz (e - b)) by lra. split; field; lra. }
  destruct K as [K1 K2].
  set (beta := inv0 (d - b)) in *. set (delta := inv0 (d - a)) in *.
  set (eps := inv0 (e - b)) in *. set (n := INR (S q)).
  assert (K3 : delta * d * beta = beta + delta * a * beta) by lra.
  assert (K4 : eps * e * beta = beta + eps * b * beta) by lra.
  generalize (inv0 (c - a)) as al. generalize (inv0 (e - b2)) as ga. intros ga al.
  transitivity (n * ((x - a) * delta * al * A - (e - x) * eps * ga * C
     + B * (eps * e * beta - x * beta * eps - x * beta * delta + a * beta * delta)));
    [ring | rewrite K4].
  transitivity (n * ((x - a) * delta * al * A - (e - x) * eps * ga * C
     + B * (delta * d * beta - x * beta * eps - x * beta * delta + eps * b * beta)));
    [rewrite K3; ring | ring].
Qed.

Lemma Bspl_derive t : nondecreasing t -> forall q i x,
  (forall j, x <> t j) ->
  is_derive (Bspl t (S q) i) x (dBspl t q i x).
Proof.
  intros Ht q; induction q as [|q IH]; intros i x Hx.
  - apply (is_derive_ext (fun y =>
      (y - t i) * (inv0 (t (i + 1)%nat - t i) * chi (t i) (t (S i)) y)
    + (t (i + 1 + 1)%nat - y) * (inv0 (t (i + 1 + 1)%nat - t (S i)) * chi (t (S i)) (t (S (S i))) y))).
    { intros y. simpl. ring. }
    assert (D1 := is_derive_chi (t i) (t (S i)) x (Hx _) (Hx _)).
    assert (D2 := is_derive_chi (t (S i)) (t (S (S i))) x (Hx _) (Hx _)).
    unfold dBspl; simpl Bspl; simpl INR.
    set (f1 := chi (t i) (t (S i))) in *. set (f2 := chi (t (S i)) (t (S (S i)))) in *.
    set (c1 := inv0 (t (i + 1)%nat - t i)). set (c2 := inv0 (t (i + 1 + 1)%nat - t (S i))).
    set (a := t i). set (b := t (i + 1 + 1)%nat).
    clearbody f1 f2 c1 c2 a b.
    auto_derive; [repeat split; eexists; eassumption|].
    replace (Derive (fun x : R => f1 x) x) with 0 by (symmetry; apply is_derive_unique; exact D1).
    replace (Derive (fun x : R => f2 x) x) with 0 by (symmetry; apply is_derive_unique; exact D2).
    ring.
  - pose proof (IH i x Hx) as D1. pose proof (IH (S i) x Hx) as D2.
    set (f1 := Bspl t (S q) i) in *. set (f2 := Bspl t (S q) (S i)) in *.
    set (e1 := dBspl t q i x) in *. set (e2 := dBspl t q (S i) x) in *.
    pose proof (dBspl_key t Ht q i x) as Key. fold e1 e2 in Key.
    apply (is_derive_ext (fun y =>
      (y - t i) * inv0 (t (i + S (S q))%nat - t i) * f1 y
    + (t (i + S (S q) + 1)%nat - y) * inv0 (t (i + S (S q) + 1)%nat - t (S i)) * f2 y)).
    { intros y. reflexivity. }
    unfold dBspl.
    replace (INR (S (S q))) with (INR (S q) + 1) by (rewrite (S_INR (S q)); ring).
    rewrite Rmult_plus_distr_r, <- Key.
    change (Bspl t (S q) i x) with (f1 x). change (Bspl t (S q) (S i) x) with (f2 x).
    set (c1 := inv0 (t (i + S (S q))%nat - t i)). set (c2 := inv0 (t (i + S (S q) + 1)%nat - t (S i))).
    set (a := t i). set (b := t (i + S (S q) + 1)%nat).
    clearbody e1 e2 f1 f2 c1 c2 a b.
    auto_derive; [repeat split; eexists; eassumption|].
    replace (Derive (fun x : R => f1 x) x) with e1 by (symmetry; apply is_derive_unique; exact D1).
    replace (Derive (fun x : R => f2 x) x) with e2 by (symmetry; apply is_derive_unique; exact D2).
    ring.
Qed.
