(** Property theorems C53-C55 and C57: plane intersections and sampling grids of mrx/plotting.py. *)
From Coq Require Import Reals List ZArith Bool Sorted Lra Lia Psatz FunctionalExtensionality.
From Verif Require Import Model.RBase Model.Forms Model.FormEval Model.Quad Model.Maps Model.Plotting Spec.PlotSpec Proof.QuadProofs Proof.MapProofs.
Import ListNotations.
Local Open Scope R_scope.

Lemma Rltb_true x y : Rltb x y = true <-> x < y.
Proof. unfold Rltb. destruct (Rlt_dec x y); split; intros; try lra; discriminate. Qed.
Lemma Rltb_false x y : Rltb x y = false <-> y <= x.
Proof. unfold Rltb. destruct (Rlt_dec x y); split; intros; try lra; try discriminate; reflexivity. Qed.
Lemma Rleb_true x y : Rleb x y = true <-> x <= y.
Proof. unfold Rleb. destruct (Rle_dec x y); split; intros; try lra; discriminate. Qed.
Lemma Rleb_false x y : Rleb x y = false <-> y < x.
Proof. unfold Rleb. destruct (Rle_dec x y); split; intros; try lra; try discriminate; reflexivity. Qed.
Lemma Reqb_true x y : Reqb x y = true <-> x = y.
Proof. unfold Reqb. destruct (Req_EM_T x y); split; intros; try assumption; try reflexivity; try discriminate; contradiction. Qed.
Lemma Reqb_false x y : Reqb x y = false <-> x <> y.
Proof. unfold Reqb. destruct (Req_EM_T x y); split; intros; try assumption; try reflexivity; try discriminate; contradiction. Qed.

Lemma denom_side p n a b : dot3p n (sub3 b a) = side p n b - side p n a.
Proof. destruct p as [[? ?] ?], n as [[? ?] ?], a as [[? ?] ?], b as [[? ?] ?]. unfold dot3p, sub3, add3, scale3, side. ring. Qed.
Lemma num_side p n a : dot3p n (sub3 p a) = - side p n a.
Proof. destruct p as [[? ?] ?], n as [[? ?] ?], a as [[? ?] ?]. unfold dot3p, sub3, add3, scale3, side. ring. Qed.
Definition hit (p n a b : point) : point := add3 a (scale3 (- side p n a / (side p n b - side p n a)) (sub3 b a)).
Lemma segment_hit_eq p n a b : segment_hit p n a b =
  if Rltb (Rabs (side p n b - side p n a)) (/ 10 ^ 12) then []
  else if Rleb (side p n a * side p n b) 0 then [hit p n a b] else [].
Proof.
  unfold segment_hit. rewrite (denom_side p), num_side. fold (hit p n a b).
  destruct (Rltb _ _) eqn:E; [reflexivity|]. apply Rltb_false in E.
  assert (Hd : side p n b - side p n a <> 0).
  { intros H0. rewrite H0, Rabs_R0 in E. assert (0 < / 10 ^ 12) by (apply Rinv_0_lt_compat; lra). lra. }
  set (u := side p n a) in *. set (v := side p n b) in *.
  assert (Ht : forall c, c <= - u / (v - u) <-> (c * (v - u) ^ 2 <= - u * (v - u))).
  { intros c. assert (Hp : 0 < (v - u) ^ 2) by (simpl; rewrite Rmult_1_r; apply (Rsqr_pos_lt _ Hd)).
    replace (- u * (v - u)) with (- u / (v - u) * (v - u) ^ 2) by (field; exact Hd).
    split; intros Hc; [apply Rmult_le_compat_r; lra | apply Rmult_le_reg_r in Hc; lra]. }
  assert (Ht1 : - u / (v - u) <= 1 <-> - u * (v - u) <= 1 * (v - u) ^ 2).
  { assert (Hp : 0 < (v - u) ^ 2) by (simpl; rewrite Rmult_1_r; apply (Rsqr_pos_lt _ Hd)).
    replace (- u * (v - u)) with (- u / (v - u) * (v - u) ^ 2) by (field; exact Hd).
    split; intros Hc; [apply Rmult_le_compat_r; lra | apply Rmult_le_reg_r in Hc; lra]. }
  destruct (Rleb 0 _) eqn:E0; destruct (Rleb _ 1) eqn:E1; destruct (Rleb (u * v) 0) eqn:E2; cbn [andb]; try reflexivity;
    exfalso; rewrite ?Rleb_true, ?Rleb_false in *.
  - apply Ht in E0. apply Ht1 in E1.
    assert (A : 0 <= u * (u - v)) by nra. assert (B : 0 <= v * (v - u)) by nra.
    assert (C := Rmult_le_pos _ _ A B). assert (D : 0 < (v - u) * (v - u)) by (apply (Rsqr_pos_lt _ Hd)). nra.
  - assert (~ (- u / (v - u) <= 1)) by lra. apply H. apply Ht1. nra.
  - assert (~ (0 <= - u / (v - u))) by lra. apply H. apply Ht. nra.
  - assert (~ (0 <= - u / (v - u))) by lra. apply H. apply Ht. nra.
Qed.
Lemma hit_plane p n a b : side p n b - side p n a <> 0 -> side p n (hit p n a b) = 0.
Proof.
  intros H. unfold hit.
  assert (E : forall t, side p n (add3 a (scale3 t (sub3 b a))) = side p n a + t * (side p n b - side p n a)).
  { intros t. destruct p as [[? ?] ?], n as [[? ?] ?], a as [[? ?] ?], b as [[? ?] ?]. unfold sub3, add3, scale3, side. ring. }
  rewrite E. field. exact H.
Qed.
Lemma hit_segment p n a b : side p n b - side p n a <> 0 -> side p n a * side p n b <= 0 -> on_segment a b (hit p n a b).
Proof.
  intros Hd H. exists (- side p n a / (side p n b - side p n a)). set (u := side p n a) in *. set (v := side p n b) in *.
  split.
  - assert (Hp : 0 < (v - u) ^ 2) by (simpl; rewrite Rmult_1_r; apply (Rsqr_pos_lt _ Hd)).
    replace (- u / (v - u)) with (- u * (v - u) * / (v - u) ^ 2) by (field; exact Hd).
    assert (Hi := Rinv_0_lt_compat _ Hp).
    split; [apply Rmult_le_pos; nra|].
    apply (Rmult_le_reg_r ((v - u) ^ 2)); [assumption|]. rewrite Rmult_assoc, Rinv_l by lra. nra.
  - unfold hit. fold u v. destruct a as [[? ?] ?], b as [[? ?] ?]. unfold sub3, add3, scale3. (f_equal; [f_equal|]; ring).
Qed.
Lemma tol_pos : 0 < / 10 ^ 12. Proof. apply Rinv_0_lt_compat. lra. Qed.

(** ** C53 trajectory_plane_intersections_list *)
(** every returned point lies on the plane and on a segment of the trajectory *)
Theorem C53_sound : forall (trajectory : list point) (p n x : point),
  In x (trajectory_plane_intersections_list trajectory p n) ->
  side p n x = 0 /\ exists i, (S i < length trajectory)%nat /\ on_segment (vertex trajectory i) (vertex trajectory (S i)) x.
Proof.
  induction trajectory as [|a [|b r] IH]; cbn [trajectory_plane_intersections_list]; intros p n x Hx; try contradiction.
  apply in_app_or in Hx. destruct Hx as [Hx|Hx].
  - rewrite segment_hit_eq in Hx. destruct (Rltb _ _) eqn:E; [contradiction|].
    apply Rltb_false in E. assert (Hd : side p n b - side p n a <> 0).
    { intros H. rewrite H, Rabs_R0 in E. assert (T := tol_pos). lra. }
    destruct (Rleb _ _) eqn:E2; [|contradiction]. apply Rleb_true in E2. destruct Hx as [<-|[]].
    split; [apply hit_plane; exact Hd|]. exists 0%nat. split; [simpl; lia|]. apply hit_segment; assumption.
  - destruct (IH p n x Hx) as [H1 [i [Hi Hs]]]. split; [exact H1|]. exists (S i). split; [simpl in *; lia | exact Hs].
Qed.
(** every segment that meets the plane and moves by at least 1e-12 across it contributes a point *)
Theorem C53_complete : forall (trajectory : list point) (p n : point) (i : nat), (S i < length trajectory)%nat ->
  let s j := side p n (vertex trajectory j) in
  s i * s (S i) <= 0 -> / 10 ^ 12 <= Rabs (s (S i) - s i) ->
  exists x, In x (trajectory_plane_intersections_list trajectory p n) /\ side p n x = 0 /\
    on_segment (vertex trajectory i) (vertex trajectory (S i)) x.
Proof.
  induction trajectory as [|a [|b r] IH]; intros p n i Hi s Hs Hd; cbn [length] in Hi; try lia.
  destruct i as [|i].
  - cbn [trajectory_plane_intersections_list]. exists (hit p n a b). unfold s, vertex in *. cbn [nth] in *.
    assert (H0 : side p n b - side p n a <> 0) by (intros H; rewrite H, Rabs_R0 in Hd; assert (T := tol_pos); lra).
    split; [|split; [apply hit_plane; exact H0 | apply hit_segment; assumption]].
    apply in_or_app. left. rewrite segment_hit_eq.
    replace (Rltb _ _) with false by (symmetry; apply Rltb_false; exact Hd).
    replace (Rleb _ _) with true by (symmetry; apply Rleb_true; exact Hs). left. reflexivity.
  - destruct (IH p n i ltac:(cbn [length] in *; lia) Hs Hd) as [x [Hx H]]. exists x. split; [|exact H].
    change (In x (segment_hit p n a b ++ trajectory_plane_intersections_list (b :: r) p n)). apply in_or_app. right. exact Hx.
Qed.
(** exactly one point per sign change, if no vertex lies on the plane *)
Theorem C53_exactly_once : forall (trajectory : list point) (p n : point),
  (forall i, (i < length trajectory)%nat -> side p n (vertex trajectory i) <> 0) ->
  (forall i, (S i < length trajectory)%nat -> side p n (vertex trajectory i) * side p n (vertex trajectory (S i)) < 0 ->
     / 10 ^ 12 <= Rabs (side p n (vertex trajectory (S i)) - side p n (vertex trajectory i))) ->
  length (trajectory_plane_intersections_list trajectory p n) = sign_changes p n trajectory.
Proof.
  induction trajectory as [|a [|b r] IH]; intros p n H0 Hd; try reflexivity.
  change (length (segment_hit p n a b ++ trajectory_plane_intersections_list (b :: r) p n) =
    ((if Rlt_dec (side p n a * side p n b) 0 then 1 else 0) + sign_changes p n (b :: r))%nat).
  rewrite app_length. f_equal.
  - rewrite segment_hit_eq. assert (Ha := H0 0%nat ltac:(cbn [length]; lia)). assert (Hb := H0 1%nat ltac:(cbn [length]; lia)).
    assert (Hd0 := Hd 0%nat ltac:(cbn [length]; lia)). unfold vertex in *. cbn [nth] in *.
    destruct (Rlt_dec (side p n a * side p n b) 0) as [Hn|Hn].
    + replace (Rltb _ _) with false by (symmetry; apply Rltb_false; auto).
      replace (Rleb _ _) with true by (symmetry; apply Rleb_true; lra). reflexivity.
    + destruct (Rltb _ _); [reflexivity|].
      assert (side p n a * side p n b <> 0) by (apply Rmult_integral_contrapositive_currified; assumption).
      replace (Rleb _ _) with false by (symmetry; apply Rleb_false; lra). reflexivity.
  - apply IH.
    + intros i Hi. apply (H0 (S i)). cbn [length] in *. lia.
    + intros i Hi. apply (Hd (S i)). cbn [length] in *. lia.
Qed.
(** refuted without these conditions: a vertex on the plane is reported twice, ... *)
Theorem C53_vertex_twice_refuted : forall (p n a v b : point), side p n v = 0 ->
  / 10 ^ 12 <= Rabs (side p n a) -> / 10 ^ 12 <= Rabs (side p n b) ->
  trajectory_plane_intersections_list [a; v; b] p n = [v; v].
Proof.
  intros p n a v b Hv Ha Hb. cbn [trajectory_plane_intersections_list]. rewrite !segment_hit_eq, app_nil_r, Hv.
  replace (Rltb _ _) with false by (symmetry; apply Rltb_false; rewrite Rminus_0_l, Rabs_Ropp; exact Ha).
  replace (Rleb _ _) with true by (symmetry; apply Rleb_true; lra).
  replace (Rltb _ _) with false by (symmetry; apply Rltb_false; rewrite Rminus_0_r; exact Hb).
  replace (Rleb _ _) with true by (symmetry; apply Rleb_true; lra).
  assert (T := tol_pos).
  assert (Hb0 : side p n b <> 0) by (intros H; rewrite H, Rabs_R0 in Hb; lra).
  assert (Ha0 : side p n a <> 0) by (intros H; rewrite H, Rabs_R0 in Ha; lra).
  cbn [app]. unfold hit. rewrite Hv.
  replace (- side p n a / (0 - side p n a)) with 1 by (field; lra).
  replace (- 0 / (side p n b - 0)) with 0 by (field; lra).
  f_equal; [|f_equal]; destruct a as [[? ?] ?], v as [[? ?] ?], b as [[? ?] ?]; unfold sub3, add3, scale3; (f_equal; [f_equal|]; ring).
Qed.
(** ... and a transversal crossing by less than 1e-12 (for this scaling of the normal) is missed *)
Theorem C53_small_step_refuted : forall (p n a b : point), side p n a < 0 < side p n b -> side p n b - side p n a < / 10 ^ 12 ->
  trajectory_plane_intersections_list [a; b] p n = [].
Proof.
  intros p n a b H Hd. cbn [trajectory_plane_intersections_list]. rewrite segment_hit_eq, app_nil_r.
  replace (Rltb _ _) with true; [reflexivity|]. symmetry. apply Rltb_true. rewrite Rabs_pos_eq; lra.
Qed.
Example C53_instance : trajectory_plane_intersections_list [(0, 0, 0); (2, 0, 0); (2, 4, 0)] (1, 1, 0) (1, 1, 0) = [(2, 0, 0); (2, 0, 0)].
Proof.
  apply (C53_vertex_twice_refuted (1, 1, 0) (1, 1, 0) (0, 0, 0) (2, 0, 0) (2, 4, 0)); unfold side; [ring| |];
    unfold Rabs; destruct Rcase_abs; lra.
Qed.

(** ** C54 trajectory_plane_intersections_jit *)
Lemma jit_diff_ne c x : c <> 0 -> jit_diff c x = x - c.
Proof. intros H. unfold jit_diff. replace (Reqb c 0) with false by (symmetry; apply Reqb_false; exact H). reflexivity. Qed.
(** shapes: one entry per segment *)
Theorem C54_shapes : forall (trajectory : list vecD) c axis,
  let (pts, mask) := trajectory_plane_intersections_jit trajectory c axis in
  length pts = (length trajectory - 1)%nat /\ length mask = (length trajectory - 1)%nat /\
  (forall i, (S i < length trajectory)%nat -> forall d,
     nth i pts None = jit_point c axis (nth i trajectory d) (nth (S i) trajectory d) /\
     nth i mask false = jit_mask c axis (nth i trajectory d) (nth (S i) trajectory d)).
Proof.
  intros l c axis. unfold trajectory_plane_intersections_jit.
  assert (HL : length (segments l) = (length l - 1)%nat).
  { unfold segments. rewrite combine_length. destruct l as [|a l]; [reflexivity|].
    assert (E : length (removelast (a :: l)) = length l).
    { rewrite removelast_firstn_len. cbn [pred length]. rewrite firstn_length. cbn [length]. lia. }
    rewrite E. cbn [tl length]. lia. }
  rewrite !map_length, HL. split; [reflexivity|]. split; [reflexivity|]. intros i Hi d.
  assert (E : nth i (segments l) (d, d) = (nth i l d, nth (S i) l d)).
  { unfold segments. clear HL. revert i Hi. induction l as [|a [|b r] IH]; intros i Hi; cbn [length] in Hi; try lia.
    destruct i as [|i]; [reflexivity|]. 
    change (nth i (combine (removelast (b :: r)) (tl (b :: r))) (d, d) = (nth i (b :: r) d, nth (S i) (b :: r) d)).
    apply IH. cbn [length]. lia. }
  split.
  - rewrite (nth_indep _ None (jit_point c axis (fst (d, d)) (snd (d, d)))) by (rewrite map_length, HL; lia).
    rewrite (map_nth (fun ab => jit_point c axis (fst ab) (snd ab)) (segments l) (d, d) i), E. reflexivity.
  - rewrite (nth_indep _ false (jit_mask c axis (fst (d, d)) (snd (d, d)))) by (rewrite map_length, HL; lia).
    rewrite (map_nth (fun ab => jit_mask c axis (fst ab) (snd ab)) (segments l) (d, d) i), E. reflexivity.
Qed.
(** plane different from 0: a segment is masked exactly if it meets the plane; unmasked rows are NaN; the
    row of a masked segment that is not contained in the plane is its unique point on the plane *)
Theorem C54_plane_nonzero : forall (c : R) (axis : nat) (a b : vecD), c <> 0 ->
  (jit_mask c axis a b = true <-> exists t, 0 <= t <= 1 /\ along a b t axis = c) /\
  (jit_mask c axis a b = false -> jit_point c axis a b = None) /\
  (jit_mask c axis a b = true -> a axis <> b axis -> exists t, jit_point c axis a b = Some (along a b t) /\ 0 <= t <= 1 /\
     along a b t axis = c /\ forall t', 0 <= t' <= 1 -> along a b t' axis = c -> t' = t) /\
  (jit_mask c axis a b = true -> a axis = b axis -> jit_point c axis a b = None).
Proof.
  intros c axis a b Hc. unfold jit_mask, jit_point, jit_mask. rewrite !jit_diff_ne by exact Hc.
  set (x := a axis). set (y := b axis). unfold along. fold x y.
  assert (Hexists : x <> y -> (x - c) * (y - c) <= 0 -> exists t, t = (x - c) / (x - c - (y - c)) /\ 0 <= t <= 1 /\ x + t * (y - x) = c).
  { intros Hxy Hm. exists ((x - c) / (x - c - (y - c))). split; [reflexivity|].
    assert (Hd : x - c - (y - c) <> 0) by lra.
    assert (Hp : 0 < (x - y) ^ 2) by (simpl; rewrite Rmult_1_r; apply (Rsqr_pos_lt (x - y)); lra).
    assert (Hi := Rinv_0_lt_compat _ Hp).
    split; [|field; lra].
    replace ((x - c) / (x - c - (y - c))) with ((x - c) * (x - y) * / (x - y) ^ 2) by (field; lra).
    split; [apply Rmult_le_pos; nra|].
    apply (Rmult_le_reg_r ((x - y) ^ 2)); [assumption|]. rewrite Rmult_assoc, Rinv_l by lra. nra. }
  split; [|split; [|split]].
  - rewrite Rleb_true. split.
    + intros Hm. destruct (Req_dec x y) as [E|E].
      * exists 0. split; [lra|]. rewrite <- E in Hm. assert (x = c) by nra. lra.
      * destruct (Hexists E Hm) as [t [_ [H1 H2]]]. exists t. split; assumption.
    + intros [t [Ht E]]. rewrite <- E. replace (x - (x + t * (y - x))) with (- t * (y - x)) by ring.
      replace (y - (x + t * (y - x))) with ((1 - t) * (y - x)) by ring.
      assert (0 <= t * (1 - t)) by nra. assert (0 <= (y - x) * (y - x)) by apply Rle_0_sqr.
      replace (- t * (y - x) * ((1 - t) * (y - x))) with (- (t * (1 - t) * ((y - x) * (y - x)))) by ring.
      assert (0 <= t * (1 - t) * ((y - x) * (y - x))) by (apply Rmult_le_pos; assumption). lra.
  - intros ->. reflexivity.
  - intros Hm Hxy. rewrite Hm. replace (Reqb _ _) with false by (symmetry; apply Reqb_false; lra).
    apply Rleb_true in Hm. destruct (Hexists Hxy Hm) as [t [-> [H1 H2]]].
    eexists. split; [reflexivity|]. split; [assumption|]. split; [assumption|].
    intros t' _ E. apply (Rmult_eq_reg_r (y - x)); lra.
  - intros Hm Hxy. rewrite Hm. replace (Reqb _ _) with true by (symmetry; apply Reqb_true; lra). reflexivity.
Qed.
(** refuted for the plane 0 ("check for one point very small and another close to one"): as long as
    the coordinate stays inside (0, 1), as after the reduction mod 1, no segment is ever masked *)
Theorem C54_plane_zero_refuted : forall (trajectory : list vecD) (axis : nat),
  (forall x, In x trajectory -> 0 < x axis < 1) ->
  forall m, In m (snd (trajectory_plane_intersections_jit trajectory 0 axis)) -> m = false.
Proof.
  intros l axis Hl m Hm. unfold trajectory_plane_intersections_jit in Hm. cbn [snd] in Hm.
  apply in_map_iff in Hm. destruct Hm as [[a b] [<- Hab]]. cbn [fst snd].
  assert (Ha : In a l /\ In b l).
  { unfold segments in Hab. split.
    - apply in_combine_l in Hab. destruct l as [|c l]; [contradiction|]. rewrite removelast_firstn_len in Hab.
      rewrite <- (firstn_skipn (pred (length (c :: l))) (c :: l)). apply in_or_app. left. exact Hab.
    - apply in_combine_r in Hab. destruct l as [|c l]; [contradiction|]. right. exact Hab. }
  destruct Ha as [Ha Hb]. apply Hl in Ha. apply Hl in Hb.
  unfold jit_mask, jit_diff. replace (Reqb 0 0) with true by (symmetry; apply Reqb_true; reflexivity).
  apply Rleb_false.
  assert (P : forall x, 0 < x < 1 -> 0 < Rmin (Rabs (x - 0)) (Rabs (x - 0 - 1))).
  { intros x Hx. apply Rmin_glb_lt; apply Rabs_pos_lt; lra. }
  apply Rmult_lt_0_compat; apply P; assumption.
Qed.
(** so a field line that winds through the plane zeta = 0 is never seen there *)
Example C54_plane_zero_instance :
  snd (trajectory_plane_intersections_jit [wrapD (fun _ => 9 / 10); wrapD (fun _ => 11 / 10)] 0 2) = [false].
Proof.
  assert (M : forall k, mod1 (9 / 10 + IZR k) = 9 / 10).
  { intros k. rewrite mod1_shift. unfold mod1. assert (H := base_Int_part (9 / 10)).
    assert (Int_part (9 / 10) = 0%Z).
    { assert (A : IZR (Int_part (9 / 10)) < 1) by lra. assert (B : -1 < IZR (Int_part (9 / 10))) by lra.
      apply lt_IZR in A. apply lt_IZR in B. lia. }
    rewrite H0. lra. }
  assert (M' : mod1 (11 / 10) = 1 / 10).
  { unfold mod1. assert (H := base_Int_part (11 / 10)).
    assert (Int_part (11 / 10) = 1%Z).
    { assert (A : IZR (Int_part (11 / 10)) < 2) by lra. assert (B : 0 < IZR (Int_part (11 / 10))) by lra.
      apply lt_IZR in A. apply lt_IZR in B. lia. }
    rewrite H0. lra. }
  assert (M0 := M 0%Z). rewrite Rplus_0_r in M0.
  assert (H := C54_plane_zero_refuted [wrapD (fun _ => 9 / 10); wrapD (fun _ => 11 / 10)] 2).
  unfold trajectory_plane_intersections_jit, segments in *. cbn [snd removelast tl combine map fst] in *.
  f_equal. apply H; [|left; reflexivity].
  intros x [<-|[<-|[]]]; unfold wrapD; rewrite ?M0, ?M'; lra.
Qed.
(** refuted: on the trajectories reduced mod 1 (as poincare_plot does), a step that passes an integer
    but not the plane is masked as an intersection *)
Theorem C54_wrap_spurious_refuted : forall (c : R) (axis : nat) (a b : vecD), c <> 0 ->
  mod1 (a axis) >= c -> mod1 (b axis) <= c -> jit_mask c axis (wrapD a) (wrapD b) = true.
Proof. intros c axis a b Hc Ha Hb. unfold jit_mask, wrapD. rewrite !jit_diff_ne by exact Hc. apply Rleb_true. nra. Qed.
Example C54_wrap_instance : forall axis, let a : vecD := fun _ => 9 / 10 in let b : vecD := fun _ => 11 / 10 in
  jit_mask (1 / 2) axis (wrapD a) (wrapD b) = true /\
  forall t (k : Z), 0 <= t <= 1 -> along a b t axis <> 1 / 2 + IZR k.
Proof.
  intros axis a b. split.
  - assert (M : mod1 (9 / 10) = 9 / 10 /\ mod1 (11 / 10) = 1 / 10).
    { unfold mod1. assert (H := base_Int_part (9 / 10)). assert (H' := base_Int_part (11 / 10)).
      assert (Int_part (9 / 10) = 0%Z).
      { assert (A : IZR (Int_part (9 / 10)) < 1) by lra. assert (B : -1 < IZR (Int_part (9 / 10))) by lra.
        apply lt_IZR in A. apply lt_IZR in B. lia. }
      assert (Int_part (11 / 10) = 1%Z).
      { assert (A : IZR (Int_part (11 / 10)) < 2) by lra. assert (B : 0 < IZR (Int_part (11 / 10))) by lra.
        apply lt_IZR in A. apply lt_IZR in B. lia. }
      rewrite H0, H1. lra. }
    destruct M as [M1 M2]. apply C54_wrap_spurious_refuted; [lra | unfold a; rewrite M1; lra | unfold b; rewrite M2; lra].
  - intros t k Ht E. unfold along, a, b in E.
    assert (A : IZR k < 1) by lra. assert (B : 0 < IZR k) by lra. apply lt_IZR in A. apply lt_IZR in B. lia.
Qed.

(** ** C55 the sampling grids *)
Lemma linspace_length a b n : length (linspace a b n) = n.
Proof. unfold linspace. rewrite map_length, seq_length. reflexivity. Qed.
Lemma mesh_div {A} (d : A) xs ys zs m k : (k < length zs)%nat -> (m < length ys * length xs)%nat ->
  nth (m * length zs + k) (meshgrid3 xs ys zs) (d, d, d) = (nth (m mod length xs) xs d, nth (m / length xs) ys d, nth k zs d).
Proof.
  intros Hk Hm. assert (Hx : length xs <> 0%nat) by (intros H; rewrite H in Hm; lia).
  assert (E := Nat.div_mod m _ Hx). assert (Hr := Nat.mod_upper_bound m _ Hx).
  assert (Hq : (m / length xs < length ys)%nat) by (apply Nat.div_lt_upper_bound; lia).
  rewrite <- (mesh_nth xs ys zs d); try assumption. f_equal. rewrite E at 1. nia.
Qed.
Lemma linspace_nth a b n i d : (i < n)%nat -> nth i (linspace a b n) d = gridpt false a b n i.
Proof.
  intros Hi. unfold linspace, gridpt.
  rewrite (nth_indep _ d (a + INR 0 / INR (n - 1) * (b - a))) by (rewrite map_length, seq_length; exact Hi).
  rewrite (map_nth (fun k => a + INR k / INR (n - 1) * (b - a)) (seq 0 n) 0%nat i), seq_nth by exact Hi. reflexivity.
Qed.
Lemma linspace_inv_nth (v : bool) a b n i d : (i < n)%nat -> nth i (if v then rev (linspace a b n) else linspace a b n) d = gridpt v a b n i.
Proof.
  intros Hi. destruct v; [|apply linspace_nth; exact Hi].
  rewrite rev_nth by (rewrite linspace_length; exact Hi). rewrite linspace_length.
  rewrite linspace_nth by lia. unfold gridpt. replace (n - S i)%nat with (n - 1 - i)%nat by lia. reflexivity.
Qed.
Lemma linspace_inv_length (v : bool) a b n : length (if v then rev (linspace a b n) else linspace a b n) = n.
Proof. destruct v; rewrite ?rev_length; apply linspace_length. Qed.
Lemma nth_mapF {A B} (F : A -> B) l m da db : (m < length l)%nat -> nth m (map F l) db = F (nth m l da).
Proof. intros H. rewrite (nth_indep _ db (F da)) by (rewrite map_length; exact H). apply map_nth. Qed.
(** the general formula: entry (i, j, k) of the returned (nx, ny, nz) arrays *)
Theorem C55_3d_entry : forall F x0 x1 y0 y1 z0 z1 nx ny nz i j k,
  (i < nx)%nat -> (j < ny)%nat -> (k < nz)%nat ->
  snd (get_3d_grids F x0 x1 y0 y1 z0 z1 nx ny nz) i j k =
    F (gridpt false x0 x1 nx ((i * ny + j) mod nx), gridpt false y0 y1 ny ((i * ny + j) / nx), gridpt false z0 z1 nz k).
Proof.
  intros F x0 x1 y0 y1 z0 z1 nx ny nz i j k Hi Hj Hk. unfold get_3d_grids, reshape3, point in *. cbn [snd].
  assert (Hm : (i * ny + j < ny * nx)%nat) by nia.
  assert (Hx : nx <> 0%nat) by lia.
  rewrite (nth_mapF F _ _ (0, 0, 0)) by (rewrite mesh_length, !linspace_length; nia).
  assert (E := @mesh_div R 0 (linspace x0 x1 nx) (linspace y0 y1 ny) (linspace z0 z1 nz) (i * ny + j) k).
  rewrite !linspace_length in E. rewrite E by assumption.
  rewrite !linspace_nth; [reflexivity | exact Hk | apply Nat.div_lt_upper_bound; lia | apply Nat.mod_upper_bound; lia].
Qed.
(** nx = ny: the arrays hold the images of the grid points, with the first two indices swapped *)
Theorem C55_3d_square_transposed : forall F x0 x1 y0 y1 z0 z1 n nz i j k,
  (i < n)%nat -> (j < n)%nat -> (k < nz)%nat ->
  snd (get_3d_grids F x0 x1 y0 y1 z0 z1 n n nz) i j k = F (gridpt false x0 x1 n j, gridpt false y0 y1 n i, gridpt false z0 z1 nz k).
Proof.
  intros. rewrite C55_3d_entry by assumption.
  assert (E1 : ((i * n + j) mod n = j)%nat) by (rewrite Nat.add_comm, Nat.mod_add by lia; apply Nat.mod_small; assumption).
  assert (E2 : ((i * n + j) / n = i)%nat) by (rewrite Nat.div_add_l by lia; rewrite Nat.div_small by assumption; lia).
  rewrite E1, E2. reflexivity.
Qed.
Lemma gridpt_inj lo hi n i j : lo < hi -> (2 <= n)%nat -> gridpt false lo hi n i = gridpt false lo hi n j -> i = j.
Proof.
  intros H Hn E. unfold gridpt in E. assert (Hp : 0 < INR (n - 1)) by (apply lt_0_INR; lia).
  apply INR_eq. assert (E' : INR i / INR (n - 1) * (hi - lo) = INR j / INR (n - 1) * (hi - lo)) by lra.
  apply Rmult_eq_reg_r in E'; [|lra]. unfold Rdiv in E'. apply Rmult_eq_reg_r in E'; [exact E'|].
  apply Rinv_neq_0_compat. lra.
Qed.
(** refuted: entry (i, j, k) is the image of grid point (i, j, k) - never, even for the identity map;
    and for nx <> ny it is not the transposed arrangement either: the array is scrambled *)
Theorem C55_3d_arrangement_refuted : forall x0 x1 y0 y1 z0 z1 nx ny nz,
  x0 < x1 -> y0 < y1 -> (2 <= nx)%nat -> (2 <= ny)%nat -> (1 <= nz)%nat ->
  let Y := snd (get_3d_grids (fun p => p) x0 x1 y0 y1 z0 z1 nx ny nz) in
  let P a b c := (gridpt false x0 x1 nx a, gridpt false y0 y1 ny b, gridpt false z0 z1 nz c) in
  (exists i j k, (i < nx)%nat /\ (j < ny)%nat /\ (k < nz)%nat /\ Y i j k <> P i j k) /\
  (nx <> ny -> exists i j k, (i < nx)%nat /\ (j < ny)%nat /\ (k < nz)%nat /\ Y i j k <> P j i k).
Proof.
  intros x0 x1 y0 y1 z0 z1 nx ny nz Hx Hy Hnx Hny Hnz Y P.
  assert (Inj : forall a b c a' b' c', P a b c = P a' b' c' -> a = a' /\ b = b').
  { intros a b c a' b' c' E. unfold P in E. injection E as E1 E2 _. split; [apply (gridpt_inj x0 x1 nx) | apply (gridpt_inj y0 y1 ny)]; assumption. }
  split.
  - exists 0%nat, 1%nat, 0%nat. repeat split; try lia. unfold Y. rewrite C55_3d_entry by lia. intros E. apply Inj in E.
    destruct E as [E _]. rewrite Nat.mod_small in E by lia. lia.
  - intros Hne. destruct (Nat.lt_trichotomy nx ny) as [H|[H|H]]; [|contradiction|].
    + exists 0%nat, nx, 0%nat. repeat split; try lia. unfold Y. rewrite C55_3d_entry by lia. intros E. apply Inj in E.
      destruct E as [_ E]. cbn [Nat.mul Nat.add] in E. rewrite Nat.div_same in E by lia. lia.
    + exists 1%nat, 0%nat, 0%nat. repeat split; try lia. unfold Y. rewrite C55_3d_entry by lia. intros E. apply Inj in E.
      destruct E as [E _]. rewrite Nat.mod_small in E by lia. lia.
Qed.
(** the two-dimensional cuts: cutting axis 0 or 1 gives the images in the natural order ... *)
Theorem C55_2d_cut0_cut1 : forall F cut nx ny nz t1 t2 t3 x0 x1 y0 y1 z0 z1 ix iy iz,
  let G c := snd (get_2d_grids F cut c nx ny nz t1 t2 t3 x0 x1 y0 y1 z0 z1 ix iy iz) in
  (forall j k, (j < ny)%nat -> (k < nz)%nat ->
     G Cut0 j k = F (cut, gridpt iy (y0 + t2) (y1 - t2) ny j, gridpt iz (z0 + t3) (z1 - t3) nz k)) /\
  (forall i k, (i < nx)%nat -> (k < nz)%nat ->
     G Cut1 i k = F (gridpt ix (x0 + t1) (x1 - t1) nx i, cut, gridpt iz (z0 + t3) (z1 - t3) nz k)).
Proof.
  intros. split; intros a b Ha Hb; unfold G, get_2d_grids, reshape2, point in *; cbn [snd].
  - rewrite (nth_mapF F _ _ (0, 0, 0)) by (rewrite mesh_length, !linspace_inv_length; cbn [length]; nia).
    assert (E := @mesh_nth R [1 * cut] (if iy then rev (linspace (y0 + t2) (y1 - t2) ny) else linspace (y0 + t2) (y1 - t2) ny)
      (if iz then rev (linspace (z0 + t3) (z1 - t3) nz) else linspace (z0 + t3) (z1 - t3) nz) 0 0 a b).
    rewrite !linspace_inv_length in E. cbn [length nth] in E. rewrite Nat.mul_1_r, Nat.add_0_r in E.
    rewrite E by lia. rewrite !linspace_inv_nth by assumption. rewrite Rmult_1_l. reflexivity.
  - rewrite (nth_mapF F _ _ (0, 0, 0)) by (rewrite mesh_length, !linspace_inv_length; cbn [length]; nia).
    assert (E := @mesh_nth R (if ix then rev (linspace (x0 + t1) (x1 - t1) nx) else linspace (x0 + t1) (x1 - t1) nx) [1 * cut]
      (if iz then rev (linspace (z0 + t3) (z1 - t3) nz) else linspace (z0 + t3) (z1 - t3) nz) 0 a 0 b).
    rewrite !linspace_inv_length in E. cbn [length nth Nat.mul Nat.add] in E.
    rewrite E by lia. rewrite !linspace_inv_nth by assumption. rewrite Rmult_1_l. reflexivity.
Qed.
(** ... and cutting axis 2 (the default) reads the flat list in the wrong order unless nx = ny, where it transposes *)
Theorem C55_2d_cut2_entry : forall F cut nx ny nz t1 t2 t3 x0 x1 y0 y1 z0 z1 ix iy iz i j,
  (i < nx)%nat -> (j < ny)%nat ->
  snd (get_2d_grids F cut Cut2 nx ny nz t1 t2 t3 x0 x1 y0 y1 z0 z1 ix iy iz) i j =
    F (gridpt ix (x0 + t1) (x1 - t1) nx ((i * ny + j) mod nx), gridpt iy (y0 + t2) (y1 - t2) ny ((i * ny + j) / nx), cut).
Proof.
  intros F cut nx ny nz t1 t2 t3 x0 x1 y0 y1 z0 z1 ix iy iz i j Hi Hj. unfold get_2d_grids, reshape2, point in *. cbn [snd].
  rewrite (nth_mapF F _ _ (0, 0, 0)) by (rewrite mesh_length, !linspace_inv_length; cbn [length]; nia).
  assert (E := @mesh_div R 0 (if ix then rev (linspace (x0 + t1) (x1 - t1) nx) else linspace (x0 + t1) (x1 - t1) nx)
    (if iy then rev (linspace (y0 + t2) (y1 - t2) ny) else linspace (y0 + t2) (y1 - t2) ny) [1 * cut] (i * ny + j) 0).
  rewrite !linspace_inv_length in E. cbn [length nth] in E. rewrite Nat.mul_1_r, Nat.add_0_r in E.
  rewrite E by nia. rewrite !linspace_inv_nth by (try (apply Nat.div_lt_upper_bound); try (apply Nat.mod_upper_bound); nia).
  rewrite Rmult_1_l. reflexivity.
Qed.
Theorem C55_2d_cut2_square : forall F cut n nz t1 t2 t3 x0 x1 y0 y1 z0 z1 ix iy iz i j,
  (i < n)%nat -> (j < n)%nat ->
  snd (get_2d_grids F cut Cut2 n n nz t1 t2 t3 x0 x1 y0 y1 z0 z1 ix iy iz) i j =
    F (gridpt ix (x0 + t1) (x1 - t1) n j, gridpt iy (y0 + t2) (y1 - t2) n i, cut).
Proof.
  intros. rewrite C55_2d_cut2_entry by assumption.
  assert (E1 : ((i * n + j) mod n = j)%nat) by (rewrite Nat.add_comm, Nat.mod_add by lia; apply Nat.mod_small; assumption).
  assert (E2 : ((i * n + j) / n = i)%nat) by (rewrite Nat.div_add_l by lia; rewrite Nat.div_small by assumption; lia).
  rewrite E1, E2. reflexivity.
Qed.
Theorem C55_2d_cut2_arrangement_refuted : forall cut nx ny nz t1 t2 t3 x0 x1 y0 y1 z0 z1,
  x0 + t1 < x1 - t1 -> y0 + t2 < y1 - t2 -> (2 <= nx)%nat -> (2 <= ny)%nat ->
  let Y := snd (get_2d_grids (fun p => p) cut Cut2 nx ny nz t1 t2 t3 x0 x1 y0 y1 z0 z1 false false false) in
  let P a b := (gridpt false (x0 + t1) (x1 - t1) nx a, gridpt false (y0 + t2) (y1 - t2) ny b, cut) in
  (exists i j, (i < nx)%nat /\ (j < ny)%nat /\ Y i j <> P i j) /\
  (nx <> ny -> exists i j, (i < nx)%nat /\ (j < ny)%nat /\ Y i j <> P j i).
Proof.
  intros cut nx ny nz t1 t2 t3 x0 x1 y0 y1 z0 z1 Hx Hy Hnx Hny Y P.
  assert (Inj : forall a b a' b', P a b = P a' b' -> a = a' /\ b = b').
  { intros a b a' b' E. unfold P in E. injection E as E1 E2. split; [apply (gridpt_inj (x0 + t1) (x1 - t1) nx) | apply (gridpt_inj (y0 + t2) (y1 - t2) ny)]; assumption. }
  split.
  - exists 0%nat, 1%nat. repeat split; try lia. unfold Y. rewrite C55_2d_cut2_entry by lia. intros E. apply Inj in E.
    destruct E as [E _]. rewrite Nat.mod_small in E by lia. lia.
  - intros Hne. destruct (Nat.lt_trichotomy nx ny) as [H|[H|H]]; [|contradiction|].
    + exists 0%nat, nx. repeat split; try lia. unfold Y. rewrite C55_2d_cut2_entry by lia. intros E. apply Inj in E.
      destruct E as [_ E]. cbn [Nat.mul Nat.add] in E. rewrite Nat.div_same in E by lia. lia.
    + exists 1%nat, 0%nat. repeat split; try lia. unfold Y. rewrite C55_2d_cut2_entry by lia. intros E. apply Inj in E.
      destruct E as [E _]. rewrite Nat.mod_small in E by lia. lia.
Qed.
Theorem C55_1d : forall F zeta chi nx tol i, (i < nx)%nat ->
  nth i (snd (get_1d_grids F zeta chi nx tol)) (0, 0, 0) = F (gridpt false tol (1 - tol) nx i, chi, zeta) /\
  length (snd (get_1d_grids F zeta chi nx tol)) = nx.
Proof.
  intros F zeta chi nx tol i Hi. unfold get_1d_grids, point in *. cbn [snd]. rewrite map_length, mesh_length, linspace_length. cbn [length].
  split; [|lia].
  rewrite (nth_mapF F _ _ (0, 0, 0)) by (rewrite mesh_length, linspace_length; cbn [length]; lia).
  assert (E := @mesh_nth R (linspace tol (1 - tol) nx) [1 * chi] [1 * zeta] 0 i 0 0).
  rewrite linspace_length in E. cbn [length nth Nat.mul Nat.add] in E. rewrite Nat.mul_1_r, Nat.add_0_r in E.
  rewrite E by lia. rewrite linspace_nth by exact Hi. rewrite !Rmult_1_l. reflexivity.
Qed.

(** ** C57 intersect_with_plane (deg = 2) *)
Lemma parabola_root_fact y0 y1 y2 t t' : parabola y0 y1 y2 t = 0 -> parabola y0 y1 y2 t' = 0 -> t <> t' ->
  forall u, parabola y0 y1 y2 u = (y0 - 2 * y1 + y2) / 2 * (u - t) * (u - t').
Proof.
  intros H H' Hne u.
  assert (E : parabola y0 y1 y2 u * (t - t') = (y0 - 2 * y1 + y2) / 2 * (u - t) * (u - t') * (t - t') + parabola y0 y1 y2 t * (u - t') - parabola y0 y1 y2 t' * (u - t)).
  { unfold parabola. field. }
  rewrite H, H' in E. apply (Rmult_eq_reg_r (t - t')); [rewrite E; ring | lra].
Qed.
Lemma parabola_0 y0 y1 y2 : parabola y0 y1 y2 0 = y0. Proof. unfold parabola; field. Qed.
Lemma parabola_1 y0 y1 y2 : parabola y0 y1 y2 1 = y1. Proof. unfold parabola; field. Qed.
Lemma parabola_2 y0 y1 y2 : parabola y0 y1 y2 2 = y2. Proof. unfold parabola; field. Qed.
Lemma parabola_cont y0 y1 y2 : continuity (fun t => parabola y0 y1 y2 t).
Proof. unfold parabola. intros x. reg. Qed.
Lemma parabola_ivt y0 y1 y2 a b : a < b -> parabola y0 y1 y2 a * parabola y0 y1 y2 b < 0 ->
  exists t, a < t < b /\ parabola y0 y1 y2 t = 0.
Proof.
  intros Hab Hs.
  destruct (IVT_cor (fun t => parabola y0 y1 y2 t) a b (parabola_cont y0 y1 y2) ltac:(lra) ltac:(lra)) as [t [Ht E]].
  exists t. split; [|exact E]. split.
  - destruct (Req_dec a t) as [<-|H]; [rewrite E in Hs; lra | lra].
  - destruct (Req_dec t b) as [->|H]; [rewrite E in Hs; lra | lra].
Qed.
Lemma parabola_dist n c u0 u1 u2 t : dot3p (parabola (comp3 0 u0) (comp3 0 u1) (comp3 0 u2) t,
   parabola (comp3 1 u0) (comp3 1 u1) (comp3 1 u2) t, parabola (comp3 2 u0) (comp3 2 u1) (comp3 2 u2) t) (normalize3 n) - c
  = parabola (plane_dist n c u0) (plane_dist n c u1) (plane_dist n c u2) t.
Proof.
  unfold plane_dist. destruct (normalize3 n) as [[n0 n1] n2], u0 as [[? ?] ?], u1 as [[? ?] ?], u2 as [[? ?] ?].
  unfold dot3p, comp3, parabola. field.
Qed.
Section Intersect.
Variables (N : nat) (traj : nat -> point) (n : point) (c : R).
Let s i := plane_dist n c (traj i).

(** every row that is not NaN lies on the plane n . x = c |n| (normal assumed non-zero) *)
Theorem C57_plane : forall i pt, norm3 n <> 0 -> interp2 N traj s i pt -> dot3p n pt = c * norm3 n.
Proof.
  intros i pt Hn [H1 [H2 H]]. cbv zeta in H. destruct H as [t [[_ [Ht _]] ->]].
  assert (E := parabola_dist n c (traj (Nat.min (i - 1) (N - 1))) (traj (Nat.min i (N - 1))) (traj (Nat.min (i + 1) (N - 1))) t).
  fold (s (Nat.min (i - 1) (N - 1))) (s (Nat.min i (N - 1))) (s (Nat.min (i + 1) (N - 1))) in E. rewrite Ht in E.
  set (q := (_, _, _)) in *. clearbody q.
  assert (En : dot3p n q = dot3p q (normalize3 n) * norm3 n).
  { destruct n as [[n0 n1] n2], q as [[q0 q1] q2]. unfold normalize3, dot3p in *. field. exact Hn. }
  rewrite En. replace (dot3p q (normalize3 n)) with c by lra. ring.
Qed.
(** that is the documented plane n . x = c if the normal has unit length or the offset is zero, ... *)
Theorem C57_documented_plane : forall i pt, norm3 n <> 0 -> norm3 n = 1 \/ c = 0 -> interp2 N traj s i pt -> dot3p n pt = c.
Proof. intros i pt Hn H Hi. rewrite (C57_plane i pt Hn Hi). destruct H as [-> | ->]; ring. Qed.
(** ... and a different, parallel plane otherwise ("does not need to be normalized" is refuted) *)
Theorem C57_unnormalized_refuted : forall i pt, norm3 n <> 0 -> norm3 n <> 1 -> c <> 0 -> interp2 N traj s i pt -> dot3p n pt <> c.
Proof.
  intros i pt Hn H1 Hc Hi E. rewrite (C57_plane i pt Hn Hi) in E. apply H1. apply (Rmult_eq_reg_l c); [lra | exact Hc].
Qed.
(** an isolated crossing between samples i and i+1 (not in the first segment) is found, between these samples *)
Theorem C57_isolated_crossing : forall i, (1 <= i)%nat -> (S i < N)%nat -> s (i - 1)%nat * s i > 0 -> s i * s (S i) < 0 ->
  s (i - 1)%nat - 2 * s i + s (S i) <> 0 ->
  In i (flip_idxs N s) /\ exists t pt, 1 < t < 2 /\ parabola (s (i - 1)%nat) (s i) (s (S i)) t = 0 /\ interp2 N traj s i pt /\
    pt = (parabola (comp3 0 (traj (i - 1)%nat)) (comp3 0 (traj i)) (comp3 0 (traj (S i))) t,
          parabola (comp3 1 (traj (i - 1)%nat)) (comp3 1 (traj i)) (comp3 1 (traj (S i))) t,
          parabola (comp3 2 (traj (i - 1)%nat)) (comp3 2 (traj i)) (comp3 2 (traj (S i))) t).
Proof.
  intros i H1 HN Hpos Hneg Hlead. split.
  { unfold flip_idxs. apply in_or_app. left. apply filter_In. split; [apply in_seq; lia|].
    unfold flip. apply Rltb_true. exact Hneg. }
  set (y0 := s (i - 1)%nat) in *. set (y1 := s i) in *. set (y2 := s (S i)) in *.
  destruct (parabola_ivt y0 y1 y2 1 2) as [t [Ht E]]; [lra | rewrite parabola_1, parabola_2; exact Hneg |].
  exists t. eexists. split; [exact Ht|]. split; [exact E|]. split; [|reflexivity].
  split; [exact H1|]. split; [lia|]. cbv zeta.
  replace (Nat.min (i - 1) (N - 1)) with (i - 1)%nat by lia. replace (Nat.min i (N - 1)) with i by lia.
  replace (Nat.min (i + 1) (N - 1)) with (S i) by lia. fold y0 y1 y2.
  exists t. split; [|reflexivity]. split; [exact Hlead|]. split; [exact E|]. split; [lra|].
  intros t' E' Ht'. destruct (Rle_dec t t') as [L|L]; [exact L|]. exfalso.
  assert (Fa := parabola_root_fact y0 y1 y2 t t' E E' ltac:(lra)).
  assert (F0 := Fa 0). assert (F1 := Fa 1). assert (F2 := Fa 2). rewrite parabola_0 in F0. rewrite parabola_1 in F1. rewrite parabola_2 in F2.
  set (a := (y0 - 2 * y1 + y2) / 2) in *.
  destruct (Rlt_le_dec t' 1) as [L1|L1].
  - assert (P : y0 * y1 = a * a * (t * t') * ((1 - t) * (1 - t'))) by (rewrite F0, F1; ring).
    assert (0 <= a * a) by apply Rle_0_sqr. assert (0 < t * t') by nra. assert ((1 - t) * (1 - t') < 0) by nra.
    assert (0 <= a * a * (t * t')) by (apply Rmult_le_pos; lra). nra.
  - assert (P : y1 * y2 = a * a * ((1 - t) * (1 - t')) * ((2 - t) * (2 - t'))) by (rewrite F1, F2; ring).
    assert (0 <= a * a) by apply Rle_0_sqr. assert (0 <= (1 - t) * (1 - t')) by nra. assert (0 < (2 - t) * (2 - t')) by nra.
    assert (0 <= a * a * ((1 - t) * (1 - t'))) by (apply Rmult_le_pos; lra). nra.
Qed.
(** refuted: if the previous segment also crosses, segment i has a row, and every row it has repeats
    that earlier crossing (parameter in (0,1), i.e. between samples i-1 and i) *)
Theorem C57_consecutive_crossings_refuted : forall i, (1 <= i)%nat -> (S i < N)%nat ->
  s (i - 1)%nat * s i < 0 -> s i * s (S i) < 0 ->
  (exists pt, interp2 N traj s i pt) /\
  forall pt, interp2 N traj s i pt ->
  exists t, 0 < t < 1 /\
    pt = (parabola (comp3 0 (traj (i - 1)%nat)) (comp3 0 (traj i)) (comp3 0 (traj (S i))) t,
          parabola (comp3 1 (traj (i - 1)%nat)) (comp3 1 (traj i)) (comp3 1 (traj (S i))) t,
          parabola (comp3 2 (traj (i - 1)%nat)) (comp3 2 (traj i)) (comp3 2 (traj (S i))) t).
Proof.
  intros i H1 HN Hm Hp.
  destruct (parabola_ivt (s (i - 1)%nat) (s i) (s (S i)) 0 1) as [u [Hu Eu]]; [lra | rewrite parabola_0, parabola_1; exact Hm |].
  unfold interp2. cbv zeta.
  replace (Nat.min (i - 1) (N - 1)) with (i - 1)%nat by lia. replace (Nat.min i (N - 1)) with i by lia.
  replace (Nat.min (i + 1) (N - 1)) with (S i) by lia. split.
  - destruct (parabola_ivt (s (i - 1)%nat) (s i) (s (S i)) 1 2) as [v [Hv Ev]]; [lra | rewrite parabola_1, parabola_2; exact Hp |].
    eexists. split; [exact H1|]. split; [lia|]. exists u. split; [|reflexivity].
    set (y0 := s (i - 1)%nat) in *. set (y1 := s i) in *. set (y2 := s (S i)) in *.
    assert (Fa := parabola_root_fact y0 y1 y2 u v Eu Ev ltac:(lra)).
    assert (F1 := Fa 1). rewrite parabola_1 in F1.
    assert (Hne : y0 - 2 * y1 + y2 <> 0). { intros Z. rewrite Z in F1. nra. }
    split; [exact Hne|]. split; [exact Eu|]. split; [lra|].
    intros t' Et' Ht'. rewrite Fa in Et'.
    apply Rmult_integral in Et'. destruct Et' as [Et'|Et']; [|lra].
    apply Rmult_integral in Et'. destruct Et' as [Et'|Et']; lra.
  - intros pt [_ [_ [t [[_ [E [Ht Hmin]]] ->]]]]. exists t. split; [|reflexivity].
    assert (t <= u) by (apply Hmin; lra). lra.
Qed.
(** refuted: a crossing in the first segment is listed but its row is NaN *)
Theorem C57_first_segment_refuted : (2 <= N)%nat -> s 0%nat * s 1%nat < 0 ->
  In 0%nat (flip_idxs N s) /\ forall pt, ~ interp2 N traj s 0 pt.
Proof.
  intros HN Hf. split; [|intros pt [H _]; lia].
  unfold flip_idxs. apply in_or_app. left. apply filter_In. split; [apply in_seq; lia|]. unfold flip. apply Rltb_true. exact Hf.
Qed.
(** the returned indices: N of them, the sign changes in increasing order, each exactly once, then N for the rest;
    a row that is not NaN belongs to a sign change *)
Lemma filter_Sorted (f : nat -> bool) l : Sorted.StronglySorted lt l -> Sorted.StronglySorted lt (filter f l).
Proof.
  induction 1 as [|a l H IH Ha]; cbn; [constructor|]. destruct (f a); [|exact IH]. constructor; [exact IH|].
  apply Forall_forall. intros x Hx. apply filter_In in Hx. rewrite Forall_forall in Ha. apply Ha, Hx.
Qed.
Lemma seq_Sorted a m : Sorted.StronglySorted lt (seq a m).
Proof.
  revert a. induction m as [|m IH]; intros a; cbn; constructor; [apply IH|]. apply Forall_forall. intros x Hx. apply in_seq in Hx. lia.
Qed.
Theorem C57_indices : (1 <= N)%nat -> exists l,
  flip_idxs N s = l ++ repeat N (N - length l) /\ length (flip_idxs N s) = N /\ Sorted.StronglySorted lt l /\
  (forall i, In i l <-> (i < N - 1)%nat /\ s i * s (S i) < 0) /\
  forall i pt, In i (flip_idxs N s) -> interp2 N traj s i pt -> In i l.
Proof.
  intros HN. exists (filter (flip s) (seq 0 (N - 1))).
  assert (HL : (length (filter (flip s) (seq 0 (N - 1))) <= N - 1)%nat).
  { rewrite <- (seq_length (N - 1) 0) at 2. generalize (seq 0 (N - 1)). induction l as [|a l IH]; cbn; [lia|]. destruct (flip s a); cbn; lia. }
  split; [reflexivity|]. split; [|split; [|split]].
  - unfold flip_idxs. rewrite app_length, repeat_length. lia.
  - apply filter_Sorted, seq_Sorted.
  - intros i. rewrite filter_In, in_seq. unfold flip. split.
    + intros [H1 H2]. apply Rltb_true in H2. split; [lia | exact H2].
    + intros [H1 H2]. split; [lia | apply Rltb_true; exact H2].
  - intros i pt Hi [_ [Hlt _]]. unfold flip_idxs in Hi. apply in_app_or in Hi. destruct Hi as [Hi|Hi]; [exact Hi|].
    apply repeat_spec in Hi. lia.
Qed.
End Intersect.
(** the trajectory (k, 0, k^2 - 5) crosses the plane z = 0 once, between samples 2 and 3: one row, at x = sqrt 5 *)
Example C57_instance :
  let traj k := (INR k, 0, INR k ^ 2 - 5) in let n := (0, 0, 1) in
  let s k := plane_dist n 0 (traj k) in
  exists pt, interp2 6 traj s 2 pt /\ pt = (sqrt 5, 0, 0).
Proof.
  intros traj n s.
  assert (Hn : norm3 n = 1) by (unfold norm3, n; replace (0 ^ 2 + 0 ^ 2 + 1 ^ 2) with 1 by ring; apply sqrt_1).
  assert (Hs : forall k, s k = INR k ^ 2 - 5).
  { intros k. unfold s, plane_dist, normalize3. unfold n at 1. rewrite Hn. unfold dot3p, traj. field. }
  assert (S5 := sqrt_sqrt 5 ltac:(lra)). assert (P5 := sqrt_pos 5).
  assert (L5 : 2 < sqrt 5) by nra. assert (U5 : sqrt 5 < 3) by nra.
  eexists. split; [|reflexivity]. split; [lia|]. split; [lia|]. cbn [Nat.min Nat.sub Nat.add]. rewrite !Hs.
  replace (INR 3) with 3 by (simpl; ring). replace (INR 2) with 2 by (simpl; ring). replace (INR 1) with 1 by (simpl; ring).
  assert (Q : forall t, parabola (1 ^ 2 - 5) (2 ^ 2 - 5) (3 ^ 2 - 5) t = (t + 1) ^ 2 - 5) by (intros t; unfold parabola; field).
  exists (sqrt 5 - 1). split.
  - split; [lra|]. rewrite Q. split; [nra|]. split; [lra|]. intros t' E Ht'. rewrite Q in E. nra.
  - unfold traj, comp3, parabola. replace (INR 3) with 3 by (simpl; ring). replace (INR 2) with 2 by (simpl; ring). replace (INR 1) with 1 by (simpl; ring).
    set (r := sqrt 5) in *. f_equal; [f_equal|]; nra.
Qed.
Print Assumptions C57_isolated_crossing.
Print Assumptions C57_indices.
Print Assumptions C53_exactly_once.
Print Assumptions C55_2d_cut2_entry.
