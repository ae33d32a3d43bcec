(** Continuity of the splines of the code on [0,1] (derivative splines: on [0,1)). *)
From Coq Require Import Reals Lra Lia Arith List Bool ZArith.
From Coquelicot Require Import Coquelicot.
From Verif Require Import Model.RBase Model.Spline Model.FormEval Spec.BSpline Spec.SmoothSpec Proof.BSplineLemmas Proof.SplineLink Proof.SplineProps
  Proof.SplineDeriv Proof.SplineIBP Proof.SplineSmooth.
Import ListNotations.
Local Open Scope R_scope.

Lemma cont_eps (f : R -> R) x : continuous f x -> forall eps, 0 < eps -> exists delta, 0 < delta /\
  forall y, Rabs (y - x) < delta -> Rabs (f y - f x) < eps.
Proof.
  intros H eps He. apply continuity_pt_filterlim in H. destruct (H eps He) as [d [Hd H2]].
  exists d. split; [exact Hd|]. intros y Hy. destruct (Req_dec x y) as [<-|Hn].
  - replace (f x - f x) with 0 by ring. rewrite Rabs_R0. exact He.
  - apply (H2 y). split; [split; [exact I | exact Hn] | exact Hy].
Qed.
(** local agreement with a continuous function *)
Lemma cont_on_loc (D : R -> Prop) (f : R -> R) : (forall x, D x -> exists g r, 0 < r /\ continuous g x /\
   f x = g x /\ forall y, D y -> Rabs (y - x) < r -> f y = g y) -> cont_on D f.
Proof.
  intros H x Hx eps He. destruct (H x Hx) as [g [r [Hr [Hg [Ex Ey]]]]].
  destruct (cont_eps g x Hg eps He) as [d [Hd Hc]].
  exists (Rmin d r). split; [apply Rmin_glb_lt; assumption|].
  intros y Hy Hyx. pose proof (Rmin_l d r). pose proof (Rmin_r d r).
  rewrite Ex, (Ey y Hy ltac:(lra)). apply Hc. lra.
Qed.
Lemma cont_on_ext (D : R -> Prop) (f g : R -> R) : (forall x, D x -> f x = g x) -> cont_on D f -> cont_on D g.
Proof.
  intros E H x Hx eps He. destruct (H x Hx eps He) as [d [Hd Hc]]. exists d. split; [exact Hd|].
  intros y Hy Hyx. rewrite <- !E by assumption. apply Hc; assumption.
Qed.
Lemma cont_on_sub (D D' : R -> Prop) f : (forall x, D' x -> D x) -> cont_on D f -> cont_on D' f.
Proof.
  intros E H x Hx eps He. destruct (H x (E x Hx) eps He) as [d [Hd Hc]]. exists d. split; [exact Hd|].
  intros y Hy Hyx. apply Hc; [apply E|]; assumption.
Qed.
Lemma cont_on_const D c : cont_on D (fun _ => c).
Proof.
  intros x Hx eps He. exists 1. split; [lra|]. intros. replace (c - c) with 0 by ring. rewrite Rabs_R0. exact He.
Qed.
Lemma cont_on_plus D f g : cont_on D f -> cont_on D g -> cont_on D (fun x => f x + g x).
Proof.
  intros Hf Hg x Hx eps He. destruct (Hf x Hx (eps / 2) ltac:(lra)) as [d [Hd Hc]].
  destruct (Hg x Hx (eps / 2) ltac:(lra)) as [e [He2 Hc2]].
  exists (Rmin d e). split; [apply Rmin_glb_lt; assumption|].
  intros y Hy Hyx. pose proof (Rmin_l d e). pose proof (Rmin_r d e).
  specialize (Hc y Hy ltac:(lra)). specialize (Hc2 y Hy ltac:(lra)).
  replace (f y + g y - (f x + g x)) with ((f y - f x) + (g y - g x)) by ring.
  eapply Rle_lt_trans; [apply Rabs_triang | lra].
Qed.
Lemma cont_on_scal D c f : cont_on D f -> cont_on D (fun x => c * f x).
Proof.
  intros Hf x Hx eps He. assert (Hc0 : 0 < Rabs c + 1) by (pose proof (Rabs_pos c); lra).
  destruct (Hf x Hx (eps / (Rabs c + 1))) as [d [Hd Hc]]; [apply Rdiv_lt_0_compat; assumption|].
  exists d. split; [exact Hd|]. intros y Hy Hyx. specialize (Hc y Hy Hyx).
  rewrite <- Rmult_minus_distr_l, Rabs_mult.
  apply Rle_lt_trans with ((Rabs c + 1) * Rabs (f y - f x)).
  - apply Rmult_le_compat_r; [apply Rabs_pos | lra].
  - apply Rmult_lt_reg_r with (/ (Rabs c + 1)); [apply Rinv_0_lt_compat; lra|].
    replace ((Rabs c + 1) * Rabs (f y - f x) * / (Rabs c + 1)) with (Rabs (f y - f x)) by (field; lra).
    exact Hc.
Qed.

Lemma tclamped_cont n p q i : (p < n)%nat -> INR (n - p) <= 99900 -> cont_on halfopen01 (Bspl (tclamped n p) (S q) i).
Proof.
  intros Hp HN. assert (Ht : nondecreasing (tclamped n p)) by (apply separated_nondec, tclamped_separated; assumption).
  apply cont_on_loc. intros x [H0 H1]. destruct (Req_EM_T x 0) as [->|Hx0].
  - assert (T0 : tclamped n p p = 0) by (apply tclamped_lo; lia).
    assert (T1 : 0 < tclamped n p (S p)) by (rewrite <- T0; apply tclamped_lt; lia).
    exists (bv (tclamped n p) p (S q) i), (tclamped n p (S p)). split; [exact T1|]. split; [apply bv_cont; exact Ht|].
    split; [apply Bspl_bv; [exact Ht | lra]|].
    intros y [Hy0 _] Hy. apply Bspl_bv; [exact Ht|]. apply Rabs_def2 in Hy. lra.
  - exists (Bspl (tclamped n p) (S q) i), 1. split; [lra|]. split; [|split; reflexivity].
    apply Bspl_cont_at; [exact Ht|]. apply tclamped_smooth; [exact Hp | lra | right; lia].
Qed.
Lemma tperiodic_smooth_closed n p q x : (0 < n)%nat -> (1 <= p)%nat -> 0 <= x -> smooth_at (tperiodic n p) 0 q x.
Proof.
  intros Hn Hp Hx. assert (HN0 : 0 < INR n) by (apply lt_0_INR; lia).
  destruct (knot_dec x n Hx) as [[k Hk]|Hk].
  - right. split; [lia|]. exists (p + k - 1)%nat. replace (S (p + k - 1)) with (p + k)%nat by lia. split; [|split].
    + unfold tperiodic. rewrite plus_INR. replace (INR p + INR k - INR p) with (INR k) by ring. rewrite <- Hk. field. lra.
    + replace (p + k)%nat with (S (p + k - 1)) at 2 by lia. apply tperiodic_lt. exact Hn.
    + apply tperiodic_lt. exact Hn.
  - left. intros j E. unfold tperiodic in E. assert (E2 : x * INR n = INR j - INR p) by (rewrite E; field; lra).
    assert (Hpos : 0 <= x * INR n) by (apply Rmult_le_pos; lra).
    assert (Hjp : (p <= j)%nat) by (apply INR_le; lra).
    apply (Hk (j - p)%nat). rewrite minus_INR by exact Hjp. exact E2.
Qed.
Lemma tperiodic_cont n p q i : (0 < n)%nat -> (1 <= p)%nat -> cont_on closed01 (Bspl (tperiodic n p) (S q) i).
Proof.
  intros Hn Hp. apply cont_on_loc. intros x [H0 H1].
  exists (Bspl (tperiodic n p) (S q) i), 1. split; [lra|]. split; [|split; reflexivity].
  apply Bspl_cont_at; [apply tperiodic_nondec; exact Hn|]. apply tperiodic_smooth_closed; assumption.
Qed.

Lemma bv_last n p x : (p < n)%nat -> INR (n - p) <= 99900 -> forall q, (q <= p)%nat ->
  bv (tclamped n p) (n - 1) q (n - 1) x = (INR (n - p) * (x - tclamped n p (n - 1))) ^ q.
Proof.
  intros Hp HN q. set (t := tclamped n p) in *.
  assert (HN0 : 0 < INR (n - p)) by (apply lt_0_INR; lia).
  assert (Hgap : 1 - t (n - 1)%nat = / INR (n - p)).
  { unfold t. rewrite tclamped_mid by lia. replace (n - 1 - p)%nat with (n - p - 1)%nat by lia.
    rewrite (minus_INR (n - p) 1) by lia. simpl. field. lra. }
  induction q as [|q IH]; intros Hq.
  - cbn [bv]. rewrite Nat.eqb_refl. reflexivity.
  - cbn [bv]. rewrite IH by lia. rewrite (bv_out t (n - 1) q (S (n - 1))) by lia.
    replace (t (n - 1 + S q)%nat) with 1 by (unfold t; rewrite tclamped_hi by lia; reflexivity).
    rewrite Hgap. rewrite inv0_nz by (apply Rgt_not_eq, Rinv_0_lt_compat; exact HN0).
    rewrite Rinv_inv. simpl. ring.
Qed.
Lemma bv_clamped_right n p i : (1 <= p)%nat -> (p < n)%nat -> INR (n - p) <= 99900 -> (i < n)%nat ->
  bv (tclamped n p) (n - 1) p i 1 = if (i =? n - 1)%nat then 1 else 0.
Proof.
  intros Hp1 Hp HN Hi. assert (HN0 : 0 < INR (n - p)) by (apply lt_0_INR; lia).
  destruct (Nat.eqb_spec i (n - 1)) as [->|Hne].
  - rewrite bv_last by (assumption || lia). rewrite tclamped_mid by lia.
    replace (n - 1 - p)%nat with (n - p - 1)%nat by lia. rewrite (minus_INR (n - p) 1) by lia.
    replace (INR (n - p) * (1 - (INR (n - p) - INR 1) / INR (n - p))) with 1 by (simpl; field; lra). apply pow1.
  - replace 1 with (tclamped n p (S (n - 1))) by (apply tclamped_hi; lia).
    apply bv_right; [|lia]. intros k Hk. rewrite !tclamped_hi by lia. reflexivity.
Qed.

Lemma clamped_cont n p s i : (1 <= p)%nat -> (p < n)%nat -> INR (n - p) <= 99900 ->
  new_spline n p Clamped = Some s -> (i < n)%nat -> cont_on closed01 (fun x => evaluate s x i).
Proof.
  intros Hp1 Hp HN Hs Hi. destruct (new_spline_inv _ _ _ _ Hs) as [-> _].
  assert (Ht : nondecreasing (tclamped n p)) by (apply separated_nondec, tclamped_separated; assumption).
  intros x Hx. destruct (Req_EM_T x 1) as [->|Hx1].
  - intros eps He. set (t := tclamped n p).
    assert (T1 : t n = 1) by (apply tclamped_hi; lia).
    assert (T0 : t (n - 1)%nat < 1) by (rewrite <- T1; apply tclamped_lt; lia).
    destruct (cont_eps (bv t (n - 1) p i) 1 (bv_cont t Ht _ _ _ _) eps He) as [d [Hd Hc]].
    exists (Rmin d (1 - t (n - 1)%nat)). split; [apply Rmin_glb_lt; lra|].
    intros y Hy Hyd. pose proof (Rmin_l d (1 - t (n - 1)%nat)). pose proof (Rmin_r d (1 - t (n - 1)%nat)).
    rewrite ev_clamped_one by assumption. rewrite <- (bv_clamped_right n p i) by assumption. fold t.
    destruct (Req_EM_T y 1) as [->|Hy1].
    + rewrite ev_clamped_one by assumption. rewrite <- (bv_clamped_right n p i) by assumption. fold t. apply Hc. lra.
    + rewrite ev_clamped by assumption. fold t. unfold closed01 in Hy. pose proof (Rabs_def2 _ _ Hyd).
      rewrite (Bspl_bv t Ht (n - 1)) by (replace (S (n - 1)) with n by lia; rewrite T1; lra). apply Hc. lra.
  - unfold closed01 in Hx. destruct p as [|q]; [lia|].
    intros eps He. destruct (tclamped_cont n (S q) q i Hp HN x ltac:(unfold halfopen01; lra) eps He) as [d [Hd Hc]].
    exists (Rmin d (1 - x)). split; [apply Rmin_glb_lt; lra|].
    intros y Hy Hyd. pose proof (Rmin_l d (1 - x)). pose proof (Rmin_r d (1 - x)). pose proof (Rabs_def2 _ _ Hyd).
    unfold closed01 in Hy. rewrite !ev_clamped by (assumption || lra). apply Hc; [unfold halfopen01; lra | lra].
Qed.
Lemma periodic_cont n p s i : (1 <= p)%nat -> (p <= n)%nat -> INR n <= 49000 ->
  new_spline n p Periodic = Some s -> (i < n)%nat -> cont_on closed01 (fun x => evaluate s x i).
Proof.
  intros Hp1 Hp HN Hs Hi. destruct (new_spline_inv _ _ _ _ Hs) as [-> _].
  apply (cont_on_ext closed01 (fun x => if (i <? p)%nat then Bspl (tperiodic n p) p i x + Bspl (tperiodic n p) p (n + i) x else Bspl (tperiodic n p) p i x)).
  { intros x _. symmetry. apply ev_periodic; assumption || lia. }
  destruct p as [|q]; [lia|]. destruct (i <? S q)%nat.
  - apply cont_on_plus; apply tperiodic_cont; lia.
  - apply tperiodic_cont; lia.
Qed.
Lemma clamped_deriv_cont n p s d i : (2 <= p)%nat -> (p < n)%nat -> INR (n - p) <= 99900 ->
  new_spline n p Clamped = Some s -> new_deriv s = Some d -> (i < n - 1)%nat -> cont_on halfopen01 (fun x => evaluate_deriv d x i).
Proof.
  intros Hp1 Hp HN Hs Hd Hi. destruct (new_spline_inv _ _ _ _ Hs) as [-> _].
  rewrite new_deriv_clamped in Hd by (assumption || lia). apply some_inj in Hd; subst d.
  eapply cont_on_ext.
  { intros x Hx. symmetry. apply ev_deriv_clamped; try assumption; [lia | unfold halfopen01 in Hx; lra]. }
  apply cont_on_scal, cont_on_scal. replace (p - 1)%nat with (S (p - 2)) by lia. apply tclamped_cont; assumption.
Qed.
Lemma periodic_deriv_cont n p s d i : (2 <= p)%nat -> (p < n)%nat -> INR n <= 49000 ->
  new_spline n p Periodic = Some s -> new_deriv s = Some d -> (i < n)%nat -> cont_on closed01 (fun x => evaluate_deriv d x i).
Proof.
  intros Hp1 Hp HN Hs Hd Hi. destruct (new_spline_inv _ _ _ _ Hs) as [-> _].
  rewrite new_deriv_periodic in Hd by (lia || (left; assumption)). apply some_inj in Hd; subst d.
  eapply cont_on_ext.
  { intros x Hx. symmetry. apply ev_deriv_periodic; try assumption; [lia | left; assumption]. }
  apply cont_on_scal. replace (p - 1)%nat with (S (p - 2)) by lia. destruct (i <? S (p - 2))%nat.
  - apply cont_on_plus; apply tperiodic_cont; lia.
  - apply tperiodic_cont; lia.
Qed.

(** products of functions of the three coordinates *)
Lemma cont3_prod D0 D1 D2 f g h : cont_on D0 f -> cont_on D1 g -> cont_on D2 h ->
  cont3_on D0 D1 D2 (fun x => let '(x0, x1, x2) := x in f x0 * g x1 * h x2).
Proof.
  intros Hf Hg Hh x0 x1 x2 H0 H1 H2 eps He.
  set (A := Rabs (f x0)). set (B := Rabs (g x1)). set (C := Rabs (h x2)).
  assert (PA : 0 <= A) by apply Rabs_pos. assert (PB : 0 <= B) by apply Rabs_pos. assert (PC : 0 <= C) by apply Rabs_pos.
  set (K := (A + 1) * (B + 1) + (A + 1) * (C + 1) + (B + 1) * (C + 1)).
  assert (K0 : 0 < K) by (unfold K; nra).
  set (e := Rmin 1 (eps / (2 * K))).
  assert (E0 : 0 < e) by (apply Rmin_glb_lt; [lra | apply Rdiv_lt_0_compat; lra]).
  assert (E1 : e <= 1) by apply Rmin_l. assert (E2 : e <= eps / (2 * K)) by apply Rmin_r.
  assert (E3 : e * K <= eps / 2).
  { replace (eps / 2) with (eps / (2 * K) * K) by (field; lra). apply Rmult_le_compat_r; lra. }
  destruct (Hf x0 H0 e E0) as [d0 [P0 C0]]. destruct (Hg x1 H1 e E0) as [d1 [P1 C1]]. destruct (Hh x2 H2 e E0) as [d2 [P2 C2]].
  exists (Rmin d0 (Rmin d1 d2)). split; [repeat apply Rmin_glb_lt; assumption|].
  pose proof (Rmin_l d0 (Rmin d1 d2)). pose proof (Rmin_r d0 (Rmin d1 d2)). pose proof (Rmin_l d1 d2). pose proof (Rmin_r d1 d2).
  intros y0 y1 y2 I0 I1 I2 L0 L1 L2.
  specialize (C0 y0 I0 ltac:(lra)). specialize (C1 y1 I1 ltac:(lra)). specialize (C2 y2 I2 ltac:(lra)).
  set (u := f y0 - f x0) in *. set (v := g y1 - g x1) in *. set (w := h y2 - h x2) in *.
  replace (f y0 * g y1 * h y2 - f x0 * g x1 * h x2)
    with (u * (g y1 * h y2) + f x0 * v * h y2 + f x0 * g x1 * w) by (unfold u, v, w; ring).
  assert (G1 : Rabs (g y1) <= B + 1).
  { replace (g y1) with (g x1 + v) by (unfold v; ring). eapply Rle_trans; [apply Rabs_triang|]. fold B. lra. }
  assert (G2 : Rabs (h y2) <= C + 1).
  { replace (h y2) with (h x2 + w) by (unfold w; ring). eapply Rle_trans; [apply Rabs_triang|]. fold C. lra. }
  pose proof (Rabs_pos u). pose proof (Rabs_pos v). pose proof (Rabs_pos w). pose proof (Rabs_pos (g y1)). pose proof (Rabs_pos (h y2)).
  eapply Rle_lt_trans; [apply Rabs_triang|]. eapply Rle_lt_trans; [apply Rplus_le_compat_r, Rabs_triang|].
  rewrite !Rabs_mult. fold A B.
  assert (Z1 : Rabs u * (Rabs (g y1) * Rabs (h y2)) <= e * ((B + 1) * (C + 1))).
  { apply Rmult_le_compat; [lra | apply Rmult_le_pos; lra | lra | apply Rmult_le_compat; lra]. }
  assert (Z2 : A * Rabs v * Rabs (h y2) <= e * ((A + 1) * (C + 1))).
  { replace (A * Rabs v * Rabs (h y2)) with (Rabs v * (A * Rabs (h y2))) by ring.
    apply Rmult_le_compat; [lra | apply Rmult_le_pos; lra | lra | apply Rmult_le_compat; lra]. }
  assert (Z3 : A * B * Rabs w <= e * ((A + 1) * (B + 1))).
  { replace (A * B * Rabs w) with (Rabs w * (A * B)) by ring.
    apply Rmult_le_compat; [lra | apply Rmult_le_pos; lra | lra | apply Rmult_le_compat; lra]. }
  unfold K in E3. lra.
Qed.
Lemma cont3_plus D0 D1 D2 f g : cont3_on D0 D1 D2 f -> cont3_on D0 D1 D2 g -> cont3_on D0 D1 D2 (fun x => f x + g x).
Proof.
  intros Hf Hg x0 x1 x2 H0 H1 H2 eps He.
  destruct (Hf x0 x1 x2 H0 H1 H2 (eps / 2) ltac:(lra)) as [d [Hd Hc]].
  destruct (Hg x0 x1 x2 H0 H1 H2 (eps / 2) ltac:(lra)) as [e [He2 Hc2]].
  exists (Rmin d e). split; [apply Rmin_glb_lt; assumption|].
  intros y0 y1 y2 I0 I1 I2 L0 L1 L2. pose proof (Rmin_l d e). pose proof (Rmin_r d e).
  specialize (Hc y0 y1 y2 I0 I1 I2 ltac:(lra) ltac:(lra) ltac:(lra)).
  specialize (Hc2 y0 y1 y2 I0 I1 I2 ltac:(lra) ltac:(lra) ltac:(lra)).
  replace (f (y0, y1, y2) + g (y0, y1, y2) - (f (x0, x1, x2) + g (x0, x1, x2)))
    with ((f (y0, y1, y2) - f (x0, x1, x2)) + (g (y0, y1, y2) - g (x0, x1, x2))) by ring.
  eapply Rle_lt_trans; [apply Rabs_triang | lra].
Qed.
Lemma cont3_0 D0 D1 D2 : cont3_on D0 D1 D2 (fun _ => 0).
Proof.
  intros x0 x1 x2 _ _ _ eps He. exists 1. split; [lra|]. intros. replace (0 - 0) with 0 by ring. rewrite Rabs_R0. exact He.
Qed.
Lemma cont3_ext D0 D1 D2 f g : (forall x0 x1 x2, f (x0, x1, x2) = g (x0, x1, x2)) -> cont3_on D0 D1 D2 f -> cont3_on D0 D1 D2 g.
Proof.
  intros E H x0 x1 x2 H0 H1 H2 eps He. destruct (H x0 x1 x2 H0 H1 H2 eps He) as [d [Hd Hc]].
  exists d. split; [exact Hd|]. intros. rewrite <- !E. apply Hc; assumption.
Qed.

(** degree 1: kinks *)
Lemma kink (f : R -> R) x a b eps : 0 < eps -> a <> b ->
  (forall y, x - eps < y <= x -> f y = f x + a * (y - x)) -> (forall y, x <= y < x + eps -> f y = f x + b * (y - x)) ->
  forall l, ~ is_derive f x l.
Proof.
  intros He Hab H1 H2 l Hl. apply is_derive_Reals in Hl.
  assert (G : forall c, (exists s, (s = 1 \/ s = -1) /\ forall h, 0 < h < eps -> f (x + s * h) = f x + c * (s * h)) -> c = l).
  { intros c [s [Hs Hc]]. destruct (Req_dec c l) as [E|E]; [exact E|exfalso].
    assert (Hp : 0 < Rabs (c - l)) by (apply Rabs_pos_lt; lra).
    destruct (Hl _ Hp) as [d Hd]. set (h := Rmin (eps / 2) (d / 2)).
    pose proof (cond_pos d) as Pd.
    assert (Hh : 0 < h) by (apply Rmin_glb_lt; lra).
    assert (h <= eps / 2) by apply Rmin_l. assert (h <= d / 2) by apply Rmin_r.
    assert (Hsh : s * h <> 0) by (destruct Hs as [-> | ->]; lra).
    specialize (Hd (s * h) Hsh). rewrite Hc in Hd by lra.
    replace ((f x + c * (s * h) - f x) / (s * h) - l) with (c - l) in Hd by (field; destruct Hs as [-> | ->]; lra).
    apply (Rlt_irrefl (Rabs (c - l))), Hd. rewrite Rabs_mult, (Rabs_pos_eq h) by lra.
    destruct Hs as [-> | ->]; [rewrite Rabs_R1 | rewrite (Rabs_left (-1)) by lra]; lra. }
  apply Hab. rewrite (G a), (G b); [reflexivity | |].
  - exists 1. split; [left; reflexivity|]. intros h Hh. rewrite H2 by lra. ring.
  - exists (-1). split; [right; reflexivity|]. intros h Hh. rewrite H1 by lra. ring.
Qed.
Lemma hat_kink n s i : (S i < n - 1)%nat -> INR (n - 1) <= 99900 -> new_spline n 1 Clamped = Some s ->
  forall l, ~ is_derive (fun y => evaluate s y (S i)) (INR (S i) / INR (n - 1)) l.
Proof.
  intros Hi HN Hs. destruct (new_spline_inv _ _ _ _ Hs) as [-> _]. clear Hs.
  set (t := tclamped n 1).
  assert (HN0 : 0 < INR (n - 1)) by (apply lt_0_INR; lia).
  assert (Ht : nondecreasing t) by (apply separated_nondec, tclamped_separated; assumption || lia).
  assert (A : t (S i) < t (S (S i))) by (apply tclamped_lt; lia).
  assert (B : t (S (S i)) < t (S (S (S i)))) by (apply tclamped_lt; lia).
  assert (C : t (S (S (S i))) <= 1).
  { replace 1 with (t n) by (apply tclamped_hi; lia). apply nondecreasing_le; [exact Ht | lia]. }
  replace (INR (S i) / INR (n - 1)) with (t (S (S i))).
  2:{ unfold t. rewrite tclamped_mid by lia. replace (S (S i) - 1)%nat with (S i) by lia. reflexivity. }
  set (x := t (S (S i))) in *.
  assert (L : forall y, t (S i) <= y < x -> evaluate (mkSpline n 1 Clamped (init_knots n 1 Clamped)) y (S i) = (y - t (S i)) / (x - t (S i))).
  { intros y Hy. rewrite ev_clamped by (lia || assumption || lra). fold t. rewrite (Bspl_bv t Ht (S i)) by exact Hy.
    cbn [bv]. rewrite Nat.eqb_refl. replace (S (S i) =? S i)%nat with false by (symmetry; apply Nat.eqb_neq; lia).
    replace (S i + 1)%nat with (S (S i)) by lia. fold x. rewrite inv0_nz by lra. field. lra. }
  assert (Rt : forall y, x <= y < t (S (S (S i))) -> evaluate (mkSpline n 1 Clamped (init_knots n 1 Clamped)) y (S i) = (t (S (S (S i))) - y) / (t (S (S (S i))) - x)).
  { intros y Hy. rewrite ev_clamped by (lia || assumption || lra). fold t. rewrite (Bspl_bv t Ht (S (S i))) by exact Hy.
    cbn [bv]. rewrite Nat.eqb_refl. replace (S i =? S (S i))%nat with false by (symmetry; apply Nat.eqb_neq; lia).
    replace (S i + 1 + 1)%nat with (S (S (S i))) by lia. fold x. rewrite (inv0_nz (t (S (S (S i))) - x)) by lra. field. lra. }
  assert (E : 0 < Rmin (x - t (S i)) (t (S (S (S i))) - x)) by (apply Rmin_glb_lt; lra).
  assert (P1 : 0 < / (x - t (S i))) by (apply Rinv_0_lt_compat; lra).
  assert (P2 : 0 < / (t (S (S (S i))) - x)) by (apply Rinv_0_lt_compat; lra).
  apply (kink _ x (/ (x - t (S i))) (- / (t (S (S (S i))) - x)) _ E); [lra | |].
  - intros y Hy. pose proof (Rmin_l (x - t (S i)) (t (S (S (S i))) - x)). rewrite (Rt x) by lra.
    destruct (Req_EM_T y x) as [->|Hne]; [rewrite (Rt x) by lra; ring|]. rewrite L by lra. field. lra.
  - intros y Hy. pose proof (Rmin_r (x - t (S i)) (t (S (S (S i))) - x)). rewrite !Rt by lra. field. lra.
Qed.
