(** Property theorems C74: field line tracing and the rotational transform. *)
From Coq Require Import Reals Lra Lia Arith ZArith List Bool.
From Coquelicot Require Import Coquelicot.
From Verif Require Import Model.RBase Model.FormEval Model.Maps Model.FieldLines Spec.FieldLineSpec.
From Verif Require Import Proof.SplineLink Proof.MapProofs Proof.FieldLineProofs.
Import ListNotations.
Local Open Scope R_scope.

Notation scaled c v := (c * fst (fst v), c * snd (fst v), c * snd v).
Lemma norm3_pos v : v <> (0, 0, 0) -> 0 < norm3 v.
Proof.
  destruct v as [[a b] c]. intros H. unfold norm3. apply sqrt_lt_R0.
  destruct (Req_dec a 0) as [->|A]; [destruct (Req_dec b 0) as [->|B]; [destruct (Req_dec c 0) as [->|C]|]|].
  - exfalso; apply H; reflexivity.
  - assert (Q := pow2_gt_0 c C). nra.
  - assert (Q := pow2_gt_0 b B). nra.
  - assert (Q := pow2_gt_0 a A). nra.
Qed.
Lemma norm3_scale s v : norm3 (scaled s v) = Rabs s * norm3 v.
Proof.
  destruct v as [[a b] c]. unfold norm3. cbn [fst snd]. rewrite <- sqrt_Rsqr_abs.
  rewrite <- sqrt_mult_alt by apply Rle_0_sqr. f_equal. unfold Rsqr. ring.
Qed.
Lemma phys_lengthE A v : norm3 (mat_vec A v) = phys_length A v.
Proof. destruct v as [[a b] c]. unfold norm3, mat_vec, phys_length. reflexivity. Qed.
Lemma phys_length_nz A v : phys_length A v <> 0 -> mat_vec A v <> (0, 0, 0).
Proof.
  rewrite <- phys_lengthE. intros H E. apply H. rewrite E. unfold norm3.
  replace (0 ^ 2 + 0 ^ 2 + 0 ^ 2) with 0 by ring. apply sqrt_0.
Qed.
Lemma mat_vec_scale A s v : mat_vec A (scaled s v) = scaled s (mat_vec A v).
Proof. destruct v as [[a b] c]. cbn. f_equal; [f_equal|]; ring. Qed.
Lemma vector_fieldE rmin B DF x : vector_field rmin B DF x =
  scaled (/ norm3 (mat_vec (DF (eval_point rmin x)) (B (eval_point rmin x)))) (B (eval_point rmin x)).
Proof.
  unfold vector_field. cbv zeta. destruct (B (eval_point rmin x)) as [[a b] c]. cbn [fst snd]. unfold Rdiv.
  f_equal; [f_equal|]; apply Rmult_comm.
Qed.

(** ** the right-hand side is the field, rescaled to unit physical speed *)
Theorem C74_unit_speed : forall rmin B_h DF x, let y := eval_point rmin x in
  phys_length (DF y) (B_h y) <> 0 ->
  phys_length (DF y) (vector_field rmin B_h DF x) = 1 /\
  exists s, 0 < s /\ vector_field rmin B_h DF x = scaled s (B_h y).
Proof.
  intros rmin B DF x y H. apply phys_length_nz in H. rewrite vector_fieldE, <- phys_lengthE. fold y. assert (P := norm3_pos _ H). split.
  - rewrite mat_vec_scale, norm3_scale, Rabs_pos_eq by (left; apply Rinv_0_lt_compat; exact P). field. lra.
  - exists (/ norm3 (mat_vec (DF y) (B y))). split; [apply Rinv_0_lt_compat; exact P | reflexivity].
Qed.
(** the field lines do not depend on the strength of the field, and are reversed with its sign *)
Theorem C74_direction_only : forall rmin B_h DF x (c : R), c <> 0 ->
  vector_field rmin (fun y => scaled c (B_h y)) DF x = scaled (c / Rabs c) (vector_field rmin B_h DF x).
Proof.
  intros rmin B DF x c Hc. rewrite !vector_fieldE. rewrite mat_vec_scale, norm3_scale.
  assert (P : 0 < Rabs c) by (apply Rabs_pos_lt; exact Hc).
  rewrite Rinv_mult. cbn [fst snd]. f_equal; [f_equal|]; unfold Rdiv; ring.
Qed.

(** ** where the field is evaluated *)
Lemma mod1_id r : 0 <= r < 1 -> mod1 r = r.
Proof.
  intros H. unfold mod1. assert (Q := base_Int_part r). assert (Int_part r = 0)%Z; [|rewrite H0; lra].
  assert (L1 : IZR (Int_part r) < 1) by lra. assert (L2 : -1 < IZR (Int_part r)) by lra.
  apply lt_IZR in L1. apply lt_IZR in L2. lia.
Qed.
Theorem C74_evaluation : forall r t z,
  (0 <= r < 1 -> eval_point None (r, t, z) = (r, mod1 t, mod1 z)) /\
  (forall m, 0 <= m -> 0 <= r < 1 -> m <= 1 -> eval_point (Some m) (r, t, z) = (Rmax r m, mod1 t, mod1 z)).
Proof.
  intros r t z. split.
  - intros H. unfold eval_point, wrap1. rewrite mod1_id by lra. reflexivity.
  - intros m Hm H Hm1. unfold eval_point, wrap1, clip. rewrite mod1_id by lra.
    rewrite Rmin_left; [reflexivity | apply Rmax_lub; lra].
Qed.
(** theta and zeta are periodic *)
Theorem C74_periodic : forall rmin B_h DF r t z (j k : Z),
  vector_field rmin B_h DF (r, t + IZR j, z + IZR k) = vector_field rmin B_h DF (r, t, z).
Proof. intros. unfold vector_field, eval_point, wrap1. rewrite !mod1_shift. reflexivity. Qed.
(** the reduced trajectory is the same curve in space, as long as it stays in 0 <= r < 1 *)
Theorem C74_plotted : forall (F : point -> point) r t z,
  (forall r t z (j k : Z), F (r, t + IZR j, z + IZR k) = F (r, t, z)) -> 0 <= r < 1 ->
  F (wrap1 (r, t, z)) = F (r, t, z).
Proof.
  intros F r t z HF Hr. unfold wrap1. rewrite mod1_id by exact Hr. unfold mod1.
  rewrite <- (HF r t z (- Int_part t)%Z (- Int_part z)%Z). rewrite !opp_IZR. reflexivity.
Qed.
(** the radial coordinate is reduced as well: on the wall the field is evaluated on the axis (or at the
    clipping radius), and just inside the axis (r < 0) it is evaluated at the wall *)
Theorem C74_radial_wrap_refuted :
  (forall t z, eval_point None (1, t, z) = (0, mod1 t, mod1 z)) /\
  (forall m t z, 0 <= m <= 1 -> eval_point (Some m) (1, t, z) = (m, mod1 t, mod1 z)) /\
  (forall r t z, -1 <= r < 0 -> eval_point None (r, t, z) = (1 + r, mod1 t, mod1 z)) /\
  (exists (B_h : point -> point) (DF : point -> nat -> nat -> R),
     (forall r t z, B_h (r, t, z) = (0, 0, 1 - 2 * r)) /\
     (forall r t z, 1 / 2 < r < 1 -> vector_field None B_h DF (r, t, z) = (0, 0, -1)) /\
     (forall t z, vector_field None B_h DF (1, t, z) = (0, 0, 1))).
Proof.
  assert (M1 : mod1 1 = 0).
  { replace 1 with (0 + IZR 1) by lra. rewrite mod1_shift. apply mod1_id. lra. }
  assert (E1 : forall t z, eval_point None (1, t, z) = (0, mod1 t, mod1 z)).
  { intros t z. unfold eval_point, wrap1. rewrite M1. reflexivity. }
  split; [exact E1|]. split; [|split].
  - intros m t z Hm. unfold eval_point, wrap1, clip. rewrite M1, Rmax_right, Rmin_left by lra. reflexivity.
  - intros r t z Hr. unfold eval_point, wrap1. replace (mod1 r) with (1 + r); [reflexivity|].
    replace r with (1 + r + IZR (-1)) at 2 by lra. rewrite mod1_shift, mod1_id by lra. reflexivity.
  - exists (fun x => (0, 0, 1 - 2 * fst (fst x))), (fun _ i j => if Nat.eqb i j then 1 else 0).
    assert (V : forall r t z, eval_point None (r, t, z) = (mod1 r, mod1 t, mod1 z)) by reflexivity.
    split; [reflexivity|]. split.
    + intros r t z Hr. rewrite vector_fieldE, V, mod1_id by lra. cbn.
      replace ((1 * 0 + 0 * 0 + 0 * (1 - 2 * r)) * ((1 * 0 + 0 * 0 + 0 * (1 - 2 * r)) * 1) +
        (0 * 0 + 1 * 0 + 0 * (1 - 2 * r)) * ((0 * 0 + 1 * 0 + 0 * (1 - 2 * r)) * 1) +
        (0 * 0 + 0 * 0 + 1 * (1 - 2 * r)) * ((0 * 0 + 0 * 0 + 1 * (1 - 2 * r)) * 1)) with ((2 * r - 1) * (2 * r - 1)) by ring.
      rewrite sqrt_square by lra. f_equal; [f_equal; ring | field; lra].
    + intros t z. rewrite vector_fieldE, E1. cbn.
      match goal with |- context [sqrt ?u] => replace u with 1 by ring end.
      rewrite sqrt_1. f_equal; [f_equal; ring | field].
Qed.

(** ** confinement: if the radial component vanishes linearly at the wall and the field does not vanish
    there, then an exact field line that starts inside never reaches the wall; while it is near the wall its
    distance decays at most exponentially *)
Theorem C74_confined : forall B_h DF (L c rho T : R) Xr Xt Xz,
  0 <= T -> 0 <= rho < 1 -> 0 < c -> 0 <= L ->
  (forall r t z, rho <= r < 1 -> 0 <= t < 1 -> 0 <= z < 1 ->
     Rabs (comp3 0 (B_h (r, t, z))) <= L * (1 - r) /\ c <= phys_length (DF (r, t, z)) (B_h (r, t, z))) ->
  solves (vector_field None B_h DF) T Xr Xt Xz -> Xr 0 < 1 ->
  (forall s, 0 <= s <= T -> Xr s < 1) /\
  ((forall s, 0 <= s <= T -> rho <= Xr s) ->
   forall s, 0 <= s <= T -> (1 - Xr 0) * exp (- (L / c * s)) <= 1 - Xr s).
Proof.
  intros B DF L c rho T Xr Xt Xz HT Hrho Hc HL Hb Hsol H0.
  set (dr := fun s => comp3 0 (vector_field None B DF (Xr s, Xt s, Xz s))).
  assert (Hd : forall s, 0 <= s <= T -> is_derive Xr s (dr s)).
  { intros s Hs. destruct (Hsol s Hs) as [a [b [d [E [D _]]]]]. unfold dr. rewrite E. exact D. }
  assert (Hs : forall s, 0 <= s <= T -> rho <= Xr s < 1 -> dr s <= L / c * (1 - Xr s)).
  { intros s Hs Hr. unfold dr. rewrite vector_fieldE.
    destruct (C74_evaluation (Xr s) (Xt s) (Xz s)) as [-> _]; [|lra].
    destruct (Hb (Xr s) (mod1 (Xt s)) (mod1 (Xz s)) Hr (mod1_range _) (mod1_range _)) as [B1 B2]. rewrite <- phys_lengthE in B2.
    destruct (B (Xr s, mod1 (Xt s), mod1 (Xz s))) as [[a b] d]. cbn [comp3 fst snd] in *.
    set (n := norm3 (mat_vec (DF (Xr s, mod1 (Xt s), mod1 (Xz s))) (a, b, d))) in *.
    assert (I : / n <= / c) by (apply Rinv_le_contravar; lra).
    assert (I0 : 0 < / n) by (apply Rinv_0_lt_compat; lra).
    assert (A := Rle_abs a). assert (0 <= Rabs a) by apply Rabs_pos.
    apply Rle_trans with (/ n * Rabs a); [apply Rmult_le_compat_l; lra|].
    apply Rle_trans with (/ c * (L * (1 - Xr s))); [apply Rmult_le_compat; lra|].
    right. unfold Rdiv. ring. }
  assert (Hin : forall s, 0 <= s <= T -> Xr s < 1) by (apply (confined Xr dr (L / c) rho T); (assumption || lra)).
  split; [exact Hin|]. intros Hlow. apply (confined_rate Xr dr (L / c) rho T); try assumption.
  intros s Hs'. split; [apply Hlow; exact Hs' | apply Hin; exact Hs'].
Qed.

(** ** the section: the event function vanishes exactly on the plane through the z axis with angle 2 pi tau *)
Theorem C74_crossing : forall (F : point -> point) tau y x1 x2 x3, F y = (x1, x2, x3) -> (x1, x2) <> (0, 0) ->
  (cond_fn F tau y = 0 <-> x1 * sin (2 * PI * tau) = x2 * cos (2 * PI * tau)).
Proof.
  intros F tau y x1 x2 x3 E Hne. unfold cond_fn. rewrite E. cbn [comp3].
  assert (P := PI_RGT_0). destruct (arctan2_polar x2 x1) as [C S]. set (a := arctan2 x2 x1) in *.
  set (rho := sqrt (x1 ^ 2 + x2 ^ 2)) in *.
  assert (Hrho : 0 < rho).
  { apply sqrt_lt_R0. destruct (Req_dec x1 0) as [->|A]; [destruct (Req_dec x2 0) as [->|A]|].
    - exfalso; apply Hne; reflexivity.
    - assert (Q := pow2_gt_0 x2 A). nra.
    - assert (Q := pow2_gt_0 x1 A). nra. }
  replace (2 * PI * ((a / PI + 1) / 2 - tau)) with ((a - 2 * PI * tau) + PI) by (field; lra).
  rewrite neg_sin, sin_minus, <- C, <- S. split; intros H.
  - transitivity (rho * (cos a * sin (2 * PI * tau))); [ring|].
    transitivity (rho * (sin a * cos (2 * PI * tau))); [f_equal; lra | ring].
  - assert (cos a * sin (2 * PI * tau) = sin a * cos (2 * PI * tau)); [|lra].
    apply Rmult_eq_reg_l with rho; [|lra]. rewrite <- !Rmult_assoc. exact H.
Qed.
(** for the target 1/4 of the scripts it is the plane x = 0, drawn on both sides of the axis with signed R *)
Theorem C74_section : forall (F : point -> point) y x1 x2 x3, F y = (x1, x2, x3) -> (x1, x2) <> (0, 0) ->
  (cond_fn F (1 / 4) y = 0 <-> x1 = 0) /\
  (x1 = 0 -> F_cyl_signed (F y) = (x2, (if Rlt_dec 0 x2 then PI / 2 else - (PI / 2)), x3)).
Proof.
  intros F y x1 x2 x3 E Hne. assert (P := PI_RGT_0). split.
  - rewrite (C74_crossing F (1 / 4) y x1 x2 x3 E Hne).
    replace (2 * PI * (1 / 4)) with (PI / 2) by field. rewrite sin_PI2, cos_PI2. split; lra.
  - intros ->. rewrite E. unfold F_cyl_signed, arctan2.
    assert (small : 0 < / 10 ^ 16 < 1).
    { split; [apply Rinv_0_lt_compat; lra|]. rewrite <- Rinv_1. apply Rinv_lt_contravar; lra. }
    assert (P2 := PI2_1). assert (cs : 0 < cos (/ 10 ^ 16)) by (apply cos_gt_0; lra).
    assert (x2 <> 0) by (intros ->; apply Hne; reflexivity).
    destruct (Rlt_dec 0 0) as [A|_]; [lra|]. replace (0 ^ 2 + x2 ^ 2) with (x2 * x2) by ring.
    destruct (Rlt_dec 0 x2) as [A|A].
    + rewrite Rplus_comm, sin_plus, sin_PI2, cos_PI2. unfold rsign. rewrite Rltb_true by lra. rewrite sqrt_square by lra.
      f_equal. f_equal. ring.
    + destruct (Rlt_dec x2 0) as [B|B]; [|lra]. rewrite Rplus_comm, sin_plus, sin_neg, cos_neg, sin_PI2, cos_PI2.
      unfold rsign. rewrite Rltb_false, Rltb_true by lra.
      replace (x2 * x2) with ((- x2) * (- x2)) by ring. rewrite sqrt_square by lra. f_equal. f_equal. ring.
Qed.
(** the restart point lies 1e-3 of physical length (to first order) along the field line *)
Theorem C74_restart : forall rmin B_h DF y, let x := eval_point rmin y in
  phys_length (DF x) (B_h x) <> 0 ->
  let '(a, b, c) := restart rmin B_h DF y in let '(r, t, z) := y in
  phys_length (DF x) (a - r, b - t, c - z) = / 10 ^ 3.
Proof.
  intros rmin B DF [[r t] z] x H. destruct (C74_unit_speed rmin B DF (r, t, z) H) as [U _]. fold x in U.
  unfold restart. destruct (vector_field rmin B DF (r, t, z)) as [[a b] c].
  replace (r + / 10 ^ 3 * a - r, t + / 10 ^ 3 * b - t, z + / 10 ^ 3 * c - z) with (scaled (/ 10 ^ 3) (a, b, c))
    by (cbn; f_equal; [f_equal|]; ring).
  rewrite <- phys_lengthE in U. rewrite <- phys_lengthE, mat_vec_scale, norm3_scale, U, Rabs_pos_eq; [ring | left; apply Rinv_0_lt_compat; lra].
Qed.

(** ** unwrapped angles *)
Lemma small_step_ok a0 a : small_steps (a0 :: a) -> step_ok (fun x y => Rabs (y - x) < PI) a0 a.
Proof.
  revert a0. induction a as [|a1 a IH]; intros a0 H; [exact I|]. split.
  - exact (H 0%nat ltac:(simpl; lia)).
  - apply IH. intros i Hi. exact (H (S i) ltac:(simpl in *; lia)).
Qed.
(** any list: each entry keeps its direction and no step exceeds half a turn *)
Theorem C74_unwrap : forall p, length (unwrap p) = length p /\ hd 0 (unwrap p) = hd 0 p /\
  (forall i, (i < length p)%nat -> congruent (nth i (unwrap p) 0) (nth i p 0)) /\
  (forall i, (S i < length p)%nat -> Rabs (nth (S i) (unwrap p) 0 - nth i (unwrap p) 0) <= PI).
Proof.
  intros [|p0 p]; [cbn; repeat split; intros; lia|].
  destruct (unwrap_general 0 p0 p) as [L [M N]]; [exists 0%Z; ring|].
  unfold unwrap. set (u := map _ _) in *. split; [cbn [length]; rewrite L; reflexivity|]. split; [reflexivity|]. split.
  - intros [|i] Hi; cbn [nth]; [exists 0%Z; ring | apply M; simpl in Hi; lia].
  - rewrite Rplus_0_r in N. cbn [length]. rewrite <- L. clear L M. clearbody u. revert p0 N.
    induction u as [|u1 u IH]; intros p0 N i Hi; [simpl in Hi; lia|]. destruct N as [N1 N].
    destruct i as [|i]; [exact N1|]. apply (IH u1 N i). simpl in *. lia.
Qed.
(** samples of a true angle with steps below half a turn, given modulo full turns, are recovered exactly *)
Theorem C74_unwrap_exact : forall p a, Forall2 congruent p a -> small_steps a ->
  exists k : Z, unwrap p = map (fun x => x + IZR k * (2 * PI)) a.
Proof.
  intros p a H Hst. destruct H as [|p0 a0 p a [k0 E0] H]; [exists 0%Z; reflexivity|].
  exists k0. unfold unwrap. cbn [map]. f_equal; [exact E0|].
  assert (Q : length p = length a /\ forall i, (i < length a)%nat -> exists k : Z, nth i p 0 = nth i a 0 + IZR k * (2 * PI)).
  { clear Hst E0. induction H as [|p1 a1 p a HC H [IL IH]]; [split; [reflexivity | simpl; intros; lia]|].
    split; [simpl; lia|]. intros [|i] Hi; [exact HC | apply IH; simpl in Hi; lia]. }
  destruct Q as [L N].
  rewrite (unwrap_from 0 p0 p a0 a (- k0)); [| |exact L| |exact N|].
  - apply map_ext. intros x. rewrite opp_IZR. ring.
  - rewrite opp_IZR. lra.
  - exists k0. exact E0.
  - apply small_step_ok. exact Hst.
Qed.
Lemma last_map (f : R -> R) l d : l <> [] -> last (map f l) d = f (last l d).
Proof.
  induction l as [|x l IH]; [congruence|]. intros _. destruct l as [|y l]; [reflexivity|].
  change (last (map f (y :: l)) d = f (last (y :: l) d)). apply IH. congruence.
Qed.
Theorem C74_total_turns : forall p a, a <> [] -> Forall2 congruent p a -> small_steps a ->
  total_turns p = swept a / (2 * PI).
Proof.
  intros p a Hne H Hst. destruct (C74_unwrap_exact p a H Hst) as [k E]. unfold total_turns, swept. rewrite E.
  rewrite last_map by exact Hne. destruct a as [|a0 a]; [congruence|]. cbn [hd map]. f_equal. ring.
Qed.
Lemma seen_congruent cx cy pts angles : seen_under cx cy pts angles ->
  Forall2 congruent (map (fun xy => arctan2 (snd xy - cy) (fst xy - cx)) pts) angles.
Proof.
  induction 1 as [|xy a pts angles [rho [Hr [H1 H2]]] _ IH]; [constructor|]. cbn [map]. constructor; [|exact IH].
  rewrite H1, H2. apply arctan2_angle. exact Hr.
Qed.
(** turns about a centre, for samples seen under true angles with steps below half a turn *)
Theorem C74_poloidal : forall pts angles cx cy, angles <> [] -> seen_under cx cy pts angles -> small_steps angles ->
  poloidal_unwrapped pts cx cy = swept angles / (2 * PI).
Proof. intros pts angles cx cy Hne H Hst. apply C74_total_turns; try assumption. apply seen_congruent. exact H. Qed.
(** fewer than two samples per turn: a uniform rotation by s between half a turn and a full turn per sample
    is counted as a rotation by s - 2 pi, i.e. in the opposite direction *)
Theorem C74_alias_refuted : forall rho a0 s (N : nat), 0 < rho -> PI < s < 2 * PI ->
  poloidal_unwrapped (map (fun k => (rho * cos (a0 + INR k * s), rho * sin (a0 + INR k * s))) (seq 0 (S N))) 0 0
  = INR N * (s - 2 * PI) / (2 * PI).
Proof.
  intros rho a0 s N Hr Hs. assert (P := PI_RGT_0).
  set (ang := map (fun k => a0 + INR k * (s - 2 * PI)) (seq 0 (S N))).
  rewrite (C74_poloidal _ ang).
  - f_equal. unfold swept, ang. rewrite seq_S, map_app. cbn [Nat.add map]. rewrite last_last.
    assert (H : hd 0 (map (fun k => a0 + INR k * (s - 2 * PI)) (seq 0 N) ++ [a0 + INR N * (s - 2 * PI)]) = a0).
    { destruct N as [|N]; cbn; ring. }
    rewrite H. ring.
  - unfold ang. cbn. congruence.
  - unfold seen_under, ang. generalize (seq 0 (S N)). intros l. induction l as [|k l IH]; constructor; [|exact IH].
    exists rho. split; [exact Hr|]. cbn [fst snd].
    replace (a0 + INR k * (s - 2 * PI)) with (a0 + INR k * s + 2 * IZR (- Z.of_nat k) * PI).
    2:{ rewrite opp_IZR, <- INR_IZR_INZ. ring. }
    assert (C : forall x (j : Z), cos (x + 2 * IZR j * PI) = cos x /\ sin (x + 2 * IZR j * PI) = sin x).
    { intros x j. destruct (Z_le_gt_dec 0 j) as [Hj|Hj].
      - rewrite <- (Z2Nat.id j Hj), <- INR_IZR_INZ. split; [apply cos_period | apply sin_period].
      - assert (E : IZR j = - INR (Z.to_nat (- j))) by (rewrite INR_IZR_INZ, Z2Nat.id, opp_IZR by lia; ring).
        rewrite E. split.
        + rewrite <- (cos_period (x + 2 * - INR (Z.to_nat (- j)) * PI) (Z.to_nat (- j))). f_equal. ring.
        + rewrite <- (sin_period (x + 2 * - INR (Z.to_nat (- j)) * PI) (Z.to_nat (- j))). f_equal. ring. }
    destruct (C (a0 + INR k * s) (- Z.of_nat k)%Z) as [-> ->]. split; ring.
  - unfold ang. intros i Hi. rewrite map_length, seq_length in Hi.
    assert (Q : forall j, (j < S N)%nat -> nth j (map (fun k => a0 + INR k * (s - 2 * PI)) (seq 0 (S N))) 0 = a0 + INR j * (s - 2 * PI)).
    { intros j Hj. rewrite (nth_indep _ _ (a0 + INR 0 * (s - 2 * PI))) by (rewrite map_length, seq_length; exact Hj).
      rewrite (map_nth (fun k => a0 + INR k * (s - 2 * PI))). rewrite seq_nth by exact Hj. reflexivity. }
    rewrite !Q by lia. rewrite S_INR.
    replace (a0 + (INR i + 1) * (s - 2 * PI) - (a0 + INR i * (s - 2 * PI))) with (s - 2 * PI) by ring.
    apply Rabs_def1; lra.
Qed.

(** ** the rotational transform of a trajectory given by its true cylindrical coordinates (R, phi, z):
    poloidal turns about the mean position over toroidal turns *)
Definition cartesian (c : R * R * R) : point := let '(R, phi, z) := c in (R * cos phi, R * sin phi, z).
Theorem C74_iota : forall (cyl : list (R * R * R)) (thetas : list R) Rm Zm, cyl <> [] ->
  (forall R phi z, In (R, phi, z) cyl -> 0 < R /\ sin (/ 10 ^ 16 + phi) <> 0) ->
  is_mean Rm (map (fun c => fst (fst c)) cyl) -> is_mean Zm (map (fun c => snd c) cyl) ->
  seen_under Rm Zm (map (fun c => (fst (fst c), snd c)) cyl) thetas -> small_steps thetas ->
  small_steps (map (fun c => snd (fst c)) cyl) ->
  let phis := map (fun c => snd (fst c)) cyl in
  swept phis <> 0 ->
  get_iota (map F_cyl_signed (map cartesian cyl))
  = (Rabs (swept thetas / swept phis), swept thetas / (2 * PI), swept phis / (2 * PI)).
Proof.
  intros cyl thetas Rm Zm Hne Hpos HR HZ Hth Hst1 Hst2 phis Hn. assert (P := PI_RGT_0).
  set (c := map F_cyl_signed (map cartesian cyl)).
  assert (Ms : forall m l, l <> [] -> is_mean m l -> mean l = m).
  { intros m l Hl Hm. unfold mean. unfold is_mean in Hm.
    assert (E : fold_right Rplus 0 (map (fun x => x - m) l) = fold_right Rplus 0 l - INR (length l) * m).
    { clear Hl Hm. induction l as [|x l IH]; [cbn; ring|]. cbn [map fold_right length]. rewrite IH, S_INR. ring. }
    rewrite E in Hm. assert (0 < INR (length l)) by (apply lt_0_INR; destruct l; [congruence | simpl; lia]).
    apply Rmult_eq_reg_r with (INR (length l)); [|lra]. unfold Rdiv. rewrite Rmult_assoc, Rinv_l by lra. lra. }
  assert (Pt : forall R phi z, 0 < R -> sin (/ 10 ^ 16 + phi) <> 0 ->
    exists k : Z, let v := F_cyl_signed (cartesian (R, phi, z)) in
      Rabs (comp3 0 v) = R /\ comp3 1 v = phi + IZR k * (2 * PI) /\ comp3 2 v = z).
  { intros R phi z HR0 Hs. destruct (arctan2_angle R phi HR0) as [k Hk]. exists k.
    cbn [cartesian F_cyl_signed comp3]. split; [|split; [exact Hk | reflexivity]].
    replace ((R * cos phi) ^ 2 + (R * sin phi) ^ 2) with (R ^ 2 * ((sin phi)² + (cos phi)²)) by (unfold Rsqr; ring).
    rewrite sin2_cos2, Rmult_1_r, sqrt_pow2 by lra. rewrite Hk.
    assert (Hne2 : sin (/ 10 ^ 16 + (phi + IZR k * (2 * PI))) <> 0).
    { assert (E : sin (/ 10 ^ 16 + (phi + IZR k * (2 * PI))) = sin (/ 10 ^ 16 + phi)).
      { replace (/ 10 ^ 16 + (phi + IZR k * (2 * PI))) with ((/ 10 ^ 16 + phi) + 2 * IZR k * PI) by ring.
        destruct (Z_le_gt_dec 0 k) as [Hj|Hj].
        - rewrite <- (Z2Nat.id k Hj), <- INR_IZR_INZ. apply sin_period.
        - assert (E : IZR k = - INR (Z.to_nat (- k))) by (rewrite INR_IZR_INZ, Z2Nat.id, opp_IZR by lia; ring).
          rewrite E. rewrite <- (sin_period (/ 10 ^ 16 + phi + 2 * - INR (Z.to_nat (- k)) * PI) (Z.to_nat (- k))).
          f_equal. ring. }
      rewrite E. exact Hs. }
    unfold rsign. destruct (Rtotal_order (sin (/ 10 ^ 16 + (phi + IZR k * (2 * PI)))) 0) as [L|[L|L]].
    - rewrite Rltb_false, Rltb_true by lra. replace (R * -1) with (- R) by ring. rewrite Rabs_Ropp, Rabs_pos_eq; lra.
    - contradiction.
    - rewrite Rltb_true by lra. rewrite Rmult_1_r, Rabs_pos_eq; lra. }
  assert (E0 : map (fun p => Rabs (comp3 0 p)) c = map (fun c => fst (fst c)) cyl).
  { unfold c. rewrite !map_map. apply map_ext_in. intros [[R phi] z] Hi. destruct (Hpos R phi z Hi) as [A B].
    destruct (Pt R phi z A B) as [k [Q _]]. exact Q. }
  assert (E2 : map (fun p => comp3 2 p) c = map (fun c => snd c) cyl).
  { unfold c. rewrite !map_map. apply map_ext_in. intros [[R phi] z] Hi. reflexivity. }
  assert (E02 : map (fun p => (Rabs (comp3 0 p), comp3 2 p)) c = map (fun c => (fst (fst c), snd c)) cyl).
  { unfold c. rewrite !map_map. apply map_ext_in. intros [[R phi] z] Hi. destruct (Hpos R phi z Hi) as [A B].
    destruct (Pt R phi z A B) as [k Q]. cbv zeta in Q. destruct Q as [Q _]. rewrite Q. reflexivity. }
  assert (C1 : Forall2 congruent (map (fun p => comp3 1 p) c) phis).
  { unfold c, phis. clear - Hpos Pt. induction cyl as [|[[R phi] z] l IH]; [constructor|]. cbn [map]. constructor.
    - destruct (Hpos R phi z (or_introl eq_refl)) as [A B]. destruct (Pt R phi z A B) as [k Q]. cbv zeta in Q. exists k. apply Q.
    - apply IH. intros R' phi' z' Hi. apply (Hpos R' phi' z'). right. exact Hi. }
  assert (N : toroidal_unwrapped (map (fun p => comp3 1 p) c) = swept phis / (2 * PI)).
  { apply C74_total_turns; [unfold phis; destruct cyl; [congruence | discriminate] | exact C1 | exact Hst2]. }
  assert (M : poloidal_unwrapped (map (fun p => (Rabs (comp3 0 p), comp3 2 p)) c)
    (mean (map (fun p => Rabs (comp3 0 p)) c)) (mean (map (fun p => comp3 2 p) c)) = swept thetas / (2 * PI)).
  { rewrite E0, E2, E02. rewrite (Ms Rm), (Ms Zm); try assumption; try (destruct cyl; [congruence | discriminate]).
    apply C74_poloidal; try assumption. intros ->. destruct cyl; [congruence|]. inversion Hth. }
  unfold get_iota. cbv zeta. rewrite N, M.
  replace (swept thetas / (2 * PI) / (swept phis / (2 * PI))) with (swept thetas / swept phis); [reflexivity|].
  field. split; [lra | exact Hn].
Qed.

(** ** the hypotheses are met *)
Example C74_nonvacuous :
  (* a uniform vertical field, and a field with a radial component that vanishes at the wall *)
  (exists (B_h : point -> point) (DF : point -> nat -> nat -> R) Xr Xt Xz,
     (forall r t z, 0 <= r < 1 -> 0 <= t < 1 -> 0 <= z < 1 ->
        Rabs (comp3 0 (B_h (r, t, z))) <= 0 * (1 - r) /\ 1 <= phys_length (DF (r, t, z)) (B_h (r, t, z))) /\
     solves (vector_field None B_h DF) 3 Xr Xt Xz /\ Xr 0 < 1 /\ Xz 3 = 3) /\
  (* a trajectory with three quarters of a poloidal turn while phi advances by 3/2: iota = pi *)
  (let cyl := [(3, 1, 0); (2, 3 / 2, 1); (1, 2, 0); (2, 5 / 2, -1)] in
   get_iota (map F_cyl_signed (map cartesian cyl)) = (PI, 3 / 4, 3 / 4 / PI)).
Proof.
  assert (P := PI_RGT_0).
  split.
  - exists (fun _ => (0, 0, 1)), (fun _ i j => if Nat.eqb i j then 1 else 0), (fun _ => 1 / 2), (fun _ => 0), (fun s => s).
    assert (N1 : norm3 (mat_vec (fun i j => if Nat.eqb i j then 1 else 0) (0, 0, 1)) = 1).
    { cbn. match goal with |- sqrt ?u = _ => replace u with 1 by ring end. apply sqrt_1. }
    split; [|split; [|split]].
    + intros r t z _ _ _. rewrite <- phys_lengthE, N1. cbn [comp3]. rewrite Rabs_R0. lra.
    + intros s _. exists 0, 0, 1. split; [|split; [|split]].
      * rewrite vector_fieldE. rewrite N1. cbn. f_equal; [f_equal; ring | field].
      * auto_derive; [exact I | ring].
      * auto_derive; [exact I | ring].
      * auto_derive; [exact I | ring].
    + lra.
    + reflexivity.
  - cbv zeta. set (cyl := [_; _; _; _]).
    assert (C3 : cos (3 * PI / 2) = 0 /\ sin (3 * PI / 2) = -1).
    { replace (3 * PI / 2) with (3 * (PI / 2)) by field. split; [apply cos_3PI2 | apply sin_3PI2]. }
    destruct C3 as [C3 S3]. assert (P2 := PI2_3_2).
    assert (small : 0 < / 10 ^ 16 < 1 / 10).
    { split; [apply Rinv_0_lt_compat; lra|]. unfold Rdiv. rewrite Rmult_1_l. apply Rinv_lt_contravar; lra. }
    rewrite (C74_iota cyl [0; PI / 2; PI; 3 * PI / 2] 2 0).
    + unfold swept, cyl. cbn [map last hd fst snd].
      replace ((3 * PI / 2 - 0) / (5 / 2 - 1)) with PI by field. rewrite Rabs_pos_eq by lra.
      f_equal; [f_equal|]; field; lra.
    + discriminate.
    + intros R phi z [E|[E|[E|[E|[]]]]]; inversion E; split; try lra; apply Rgt_not_eq, sin_gt_0; lra.
    + unfold is_mean. cbn. lra.
    + unfold is_mean. cbn. lra.
    + repeat constructor; exists 1; unfold polar_at; cbn [fst snd];
      rewrite ?cos_0, ?sin_0, ?cos_PI2, ?sin_PI2, ?cos_PI, ?sin_PI, ?C3, ?S3; repeat split; lra.
    + intros i Hi. destruct i as [|[|[|i]]]; cbn in *; try lia; apply Rabs_def1; lra.
    + intros i Hi. destruct i as [|[|[|i]]]; cbn in *; try lia; apply Rabs_def1; lra.
    + unfold swept. cbn. lra.
Qed.

Print Assumptions C74_unit_speed.
Print Assumptions C74_direction_only.
Print Assumptions C74_evaluation.
Print Assumptions C74_periodic.
Print Assumptions C74_plotted.
Print Assumptions C74_radial_wrap_refuted.
Print Assumptions C74_confined.
Print Assumptions C74_crossing.
Print Assumptions C74_section.
Print Assumptions C74_restart.
Print Assumptions C74_unwrap.
Print Assumptions C74_unwrap_exact.
Print Assumptions C74_total_turns.
Print Assumptions C74_poloidal.
Print Assumptions C74_alias_refuted.
Print Assumptions C74_iota.
