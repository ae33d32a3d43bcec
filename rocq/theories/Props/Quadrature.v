(** Property theorems C13-C17 (quadrature). *)
From Coq Require Import Reals Lra Lia List ZArith Arith Bool Permutation.
From Coquelicot Require Import Coquelicot.
From Verif Require Import Model.RBase Model.Spline Model.Quad Spec.BSpline Spec.QuadSpec Proof.QuadProofs Proof.TrapezoidProofs.
Import ListNotations.
Local Open Scope R_scope.

(** ** C13 the 3-d rule is the tensor product of the 1-d rules *)
(** (point, weight) pairs: every combination of three 1-d (node, weight) pairs, once *)
Theorem C13_tensor_points : forall xs ys zs wx wy wz : list R,
  length xs = length wx -> length ys = length wy -> length zs = length wz ->
  Permutation (combine (meshgrid3 xs ys zs) (map prod3 (meshgrid3 wx wy wz)))
    (map (fun t => let '(((x, a), (y, b)), (z, c)) := t in ((x, y, z), a * b * c))
         (list_prod (list_prod (combine xs wx) (combine ys wy)) (combine zs wz))).
Proof.
  intros. rewrite combine_mesh by assumption. exact (Permutation_map pt (mesh_perm _ _ _)).
Qed.
Print Assumptions C13_tensor_points.

Lemma select_lengths s p : forall xs ws, select_quadrature s p = Some (xs, ws) -> length xs = length ws.
Proof.
  intros xs ws. unfold select_quadrature. destruct (sty s); intros E.
  1,2: match type of E with Some ?a = Some ?b => assert (E' : a = b) by congruence end; clear E; rename E' into E; pose proof (comp_lx p (slice_pp (sT s) (sp s))) as A; pose proof (comp_lw p (slice_pp (sT s) (sp s))) as B;
    rewrite E in A, B; cbn [fst snd] in A, B; congruence.
  - injection E as <- <-. reflexivity.
  - unfold trapezoidal_quad in E. destruct (2 * p =? 1)%nat; injection E as <- <-; [reflexivity|].
    unfold linspace01. rewrite !map_length. reflexivity.
Qed.
Definition qsum3 (pts : list (R * R * R)) (ws : list R) (f : R -> R -> R -> R) : R :=
  lsum (map (fun pw => let '((x, y, z), w) := pw in w * f x y z) (combine pts ws)).
(** hence the rule is exact on products as soon as the 1-d rules are *)
Theorem C13_product_rule : forall (sr st sz : spline) (p : nat) (Q : quadrule) (f g h : R -> R),
  QuadratureRule sr st sz p = Some Q ->
  qsum3 (q_x Q) (q_w Q) (fun x y z => f x * g y * h z)
  = qsum (x_x Q, w_x Q) f * qsum (x_y Q, w_y Q) g * qsum (x_z Q, w_z Q) h.
Proof.
  intros sr st sz p Q f g h HQ. unfold QuadratureRule in HQ.
  pose proof (select_lengths sr p) as H1. pose proof (select_lengths st p) as H2. pose proof (select_lengths sz p) as H3.
  destruct (select_quadrature sr p) as [[xx wx]|]; [|discriminate].
  destruct (select_quadrature st p) as [[xy wy]|]; [|discriminate].
  destruct (select_quadrature sz p) as [[xz wz]|]; [|discriminate].
  specialize (H1 _ _ eq_refl). specialize (H2 _ _ eq_refl). specialize (H3 _ _ eq_refl).
  injection HQ as <-. cbn [x_x x_y x_z w_x w_y w_z q_x q_w] in *. unfold qsum3.
  rewrite (lsum_perm _ _ (Permutation_map _ (C13_tensor_points xx xy xz wx wy wz H1 H2 H3))), map_map.
  unfold qsum. cbn [fst snd]. rewrite <- !lsum_prod2. f_equal. apply map_ext.
  intros [[[x a] [y b]] [z c]]. cbn [fst snd]. ring.
Qed.
Print Assumptions C13_product_rule.

(** position of point j: j = (j2 nx + j1) nz + j3 *)
Theorem C13_point_order : forall (sr st sz : spline) (p : nat) (Q : quadrule),
  QuadratureRule sr st sz p = Some Q ->
  forall j1 j2 j3, (j1 < length (x_x Q))%nat -> (j2 < length (x_y Q))%nat -> (j3 < length (x_z Q))%nat ->
  nth ((j2 * length (x_x Q) + j1) * length (x_z Q) + j3) (q_x Q) (0, 0, 0)
  = (nth j1 (x_x Q) 0, nth j2 (x_y Q) 0, nth j3 (x_z Q) 0).
Proof.
  intros sr st sz p Q HQ. unfold QuadratureRule in HQ.
  destruct (select_quadrature sr p) as [[xx wx]|]; [|discriminate].
  destruct (select_quadrature st p) as [[xy wy]|]; [|discriminate].
  destruct (select_quadrature sz p) as [[xz wz]|]; [|discriminate].
  injection HQ as <-. intros. apply mesh_nth; assumption.
Qed.
Print Assumptions C13_point_order.

(** ** C14 composite rules cover the mesh *)
Theorem C14_nodes_in_cells : forall (T : list R) (p : nat), increasing T -> (1 <= p <= 10)%nat ->
  length (fst (composite_quad T p)) = ((length T - 1) * p)%nat /\
  (forall i k, (S i < length T)%nat -> (k < p)%nat ->
     nth i T 0 < nth (i * p + k) (fst (composite_quad T p)) 0 < nth (S i) T 0) /\
  increasing (fst (composite_quad T p)).
Proof.
  intros T p HT Hp. assert (E : order p = p).
  { unfold order. rewrite (proj2 (Nat.leb_le 1 p)), (proj2 (Nat.leb_le p 10)) by lia. reflexivity. }
  split; [rewrite comp_lx, E; reflexivity|]. split; [|apply comp_increasing; exact HT].
  intros i k Hi Hk. pose proof (comp_inside p T i k HT Hi) as H. rewrite E in H. auto.
Qed.
Print Assumptions C14_nodes_in_cells.

Theorem C14_weights : forall (T : list R) (p : nat), increasing T -> (1 <= length T)%nat ->
  length (snd (composite_quad T p)) = length (fst (composite_quad T p)) /\
  (forall w, In w (snd (composite_quad T p)) -> 0 < w) /\
  Rabs (lsum (snd (composite_quad T p)) - (last T 0 - hd 0 T)) <= (last T 0 - hd 0 T) / 2 * / 10 ^ 14.
Proof.
  intros T p HT HL. split; [rewrite comp_lx, comp_lw; reflexivity|].
  split; [intros w; apply comp_pos; exact HT | apply weights_total; assumption].
Qed.
Print Assumptions C14_weights.

(** the mesh used for a spline basis is the uniform mesh of [0,1] with one cell per knot span *)
Lemma linspace_inc m : (2 <= m)%nat -> increasing (linspace01 m) /\ hd 0 (linspace01 m) = 0 /\ last (linspace01 m) 0 = 1.
Proof.
  intros Hm. assert (P : 0 < INR (m - 1)) by (apply lt_0_INR; lia).
  assert (N : forall i, (i < m)%nat -> nth i (linspace01 m) 0 = INR i / INR (m - 1)).
  { intros i Hi. unfold linspace01. rewrite (nth_indep _ _ (INR 0 / INR (m - 1))) by (rewrite map_length, seq_length; exact Hi).
    rewrite (map_nth (fun k => INR k / INR (m - 1))), seq_nth by exact Hi. reflexivity. }
  assert (L : length (linspace01 m) = m) by (unfold linspace01; rewrite map_length, seq_length; reflexivity).
  split; [|split].
  - intros i Hi. rewrite L in Hi. rewrite !N by lia. rewrite S_INR.
    apply Rmult_lt_compat_r; [apply Rinv_0_lt_compat; exact P | lra].
  - pose proof (N 0%nat ltac:(lia)) as E. destruct (linspace01 m) eqn:E2; [simpl in L; lia|]. simpl in E |- *. rewrite E. unfold Rdiv. ring.
  - assert (E : forall l : list R, last l 0 = nth (length l - 1) l 0).
    { induction l as [|a [|b l] IH]; try reflexivity. change (last (a :: b :: l) 0) with (last (b :: l) 0). rewrite IH.
      simpl length. replace (S (S (length l)) - 1)%nat with (S (S (length l) - 1)) by lia. reflexivity. }
    rewrite E, L, N by lia. field. lra.
Qed.

Theorem C14_spline_mesh : forall (n p : nat), (1 <= p)%nat -> (p < n)%nat ->
  slice_pp (init_knots n p Clamped) p = linspace01 (n - p + 1) /\
  slice_pp (init_knots n p Periodic) p = linspace01 (n + 1).
Proof.
  intros n p Hp Hn. unfold slice_pp. destruct (p =? 0)%nat eqn:E; [apply Nat.eqb_eq in E; lia|]. clear E.
  assert (A : forall (a b c : list R), length a = p -> length c = p ->
     firstn (length (a ++ b ++ c) - 2 * p) (skipn p (a ++ b ++ c)) = b).
  { intros a b c Ha Hc. rewrite !app_length. rewrite skipn_app, skipn_all2 by lia. rewrite Ha, Nat.sub_diag. simpl.
    rewrite firstn_app. replace (length c) with p. replace (p + (length b + p) - (p + (p + 0)))%nat with (length b) by lia.
    rewrite firstn_all, Nat.sub_diag. simpl. apply app_nil_r. }
  split; apply A; try apply repeat_length; rewrite map_length, firstn_length, skipn_length;
    unfold linspace01; rewrite map_length, seq_length; lia.
Qed.
Print Assumptions C14_spline_mesh.

(** ... but a degree-0 basis gets no quadrature points at all *)
Theorem C14_degree_zero_refuted : forall (s : spline) (m : nat), sty s = Clamped \/ sty s = Periodic -> sp s = 0%nat ->
  select_quadrature s m = Some ([], []).
Proof. intros s m [H|H] Hp; unfold select_quadrature; rewrite H, Hp; reflexivity. Qed.
Print Assumptions C14_degree_zero_refuted.

(** ** C15 Gauss exactness: degree <= 2p-1 on every mesh of a subinterval of [0,1], up to the
    rounding of the 16-digit tables *)
Theorem C15_gauss_exact : forall (T : list R) (p : nat) (c : list R),
  (1 <= p <= 10)%nat -> (length c <= 2 * p)%nat ->
  increasing T -> (1 <= length T)%nat -> 0 <= hd 0 T -> last T 0 <= 1 ->
  Rabs (qsum (composite_quad T p) (peval c) - RInt (peval c) (hd 0 T) (last T 0)) <= / 10 ^ 14 * norm1 c.
Proof.
  intros T p c Hp Hc HT HL H0 H1. assert (E : order p = p).
  { unfold order. rewrite (proj2 (Nat.leb_le 1 p)), (proj2 (Nat.leb_le p 10)) by lia. reflexivity. }
  eapply Rle_trans; [apply composite_error; try assumption; rewrite E; exact Hc|].
  assert (K : 0 <= / 10 ^ 14 * norm1 c).
  { apply Rmult_le_pos; [left; apply Rinv_0_lt_compat, pow_lt; lra | apply norm1_nonneg]. }
  set (k := / 10 ^ 14 * norm1 c) in *. assert ((last T 0 - hd 0 T) / 2 <= 1) by lra. nra.
Qed.
Print Assumptions C15_gauss_exact.

Example C15_nonvacuous : let T := linspace01 6 in increasing T /\ (1 <= length T)%nat /\ 0 <= hd 0 T /\ last T 0 <= 1.
Proof. simpl. destruct (linspace_inc 6 ltac:(lia)) as [A [B C]]. repeat split; try exact A; try lia; simpl in *; lra. Qed.

(** ** C16 trapezoidal rule with n >= 2 points (n - 1 cells of the circle) *)
Theorem C16_trapezoid : forall n, (2 <= n)%nat ->
  qsum (trapezoidal_quad n) (fun _ => 1) = 1 /\
  forall k : nat,
    qsum (trapezoidal_quad n) (fun x => sin (2 * PI * INR k * x)) = 0 /\
    (~ Nat.divide (n - 1) k -> qsum (trapezoidal_quad n) (fun x => cos (2 * PI * INR k * x)) = 0) /\
    (Nat.divide (n - 1) k -> qsum (trapezoidal_quad n) (fun x => cos (2 * PI * INR k * x)) = 1).
Proof.
  intros n Hn. destruct n as [|N]; [lia|]. replace (S N - 1)%nat with N by lia.
  assert (H : (1 <= N)%nat) by lia.
  split; [exact (trap_one N H)|]. intros k.
  exact (conj (trap_sin N H k) (conj (trap_cos0 N H k) (trap_cos1 N H k))).
Qed.
Print Assumptions C16_trapezoid.
Example C16_nonvacuous : ~ Nat.divide (5 - 1) 6 /\ Nat.divide (5 - 1) 8.
Proof. split; [intros [q Hq]; lia | exists 2%nat; reflexivity]. Qed.

(** ** C17 the order is silently capped at 10; the rule is then not exact for degree 20 <= 2p-1 *)
Theorem C17_order_cap_refuted : forall p, (10 < p)%nat ->
  (forall T, composite_quad T p = composite_quad T 10) /\
  (20 <= 2 * p - 1)%nat /\
  Rabs (qsum (composite_quad [-1; 1] p) (fun x => x ^ 20) - RInt (fun x => x ^ 20) (-1) 1) > / 10 ^ 7 /\
  spectral_quad p = None.
Proof.
  intros p Hp. assert (E : forall T, composite_quad T p = composite_quad T 10).
  { intros T. unfold composite_quad. rewrite (cap p) by (left; exact Hp). reflexivity. }
  split; [exact E|]. split; [lia|]. split.
  - rewrite E, comp_qsum. unfold cells. simpl removelast. simpl tl. cbn [combine map]. unfold lsum. cbn [fold_right fst snd].
    rewrite (qsum_ext _ _ (fun x => x ^ 20)) by (intros x; f_equal; unfold rescale_x; field).
    assert (I : RInt (fun x => x ^ 20) (-1) 1 = 2 / 21).
    { apply is_RInt_unique. pose proof (pint_is [1] (-1) 1 20) as P. simpl pint in P.
      evar_last; [apply (is_RInt_ext (fun x => x ^ 20 * peval [1] x)); [|exact P]|].
      - intros x _. change (x ^ 20 * (1 + x * 0) = x ^ 20). ring.
      - simpl. field. }
    rewrite I. replace ((1 - -1) / 2 * qsum (nodes_and_weights 10) (fun x => x ^ 20) + 0) with (qsum (nodes_and_weights 10) (fun x => x ^ 20)) by field.
    apply cap_degree20.
  - unfold spectral_quad. rewrite (proj2 (Nat.leb_gt p 10)) by exact Hp. rewrite andb_false_r. reflexivity.
Qed.
Print Assumptions C17_order_cap_refuted.
