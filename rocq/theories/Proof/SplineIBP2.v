(** The univariate integration by parts and cross-product bounds for the bases the constructor
    makes: clamped, periodic, constant. *)
From Coq Require Import Reals List Lia Lra Arith Bool.
From Coquelicot Require Import Coquelicot.
From Verif Require Import Model.RBase Model.Spline Model.Quad.
From Verif Require Import Spec.BSpline Spec.QuadSpec.
From Verif Require Import Proof.BSplineLemmas Proof.SplineLink Proof.SplineProps Proof.SplineDeriv Proof.QuadProofs Proof.SplineIBP.
Import ListNotations.
Local Open Scope R_scope.

(** |quadrature of f| from bounds on each cell *)
Lemma tau_le1 : tau <= 1.
Proof.
  unfold tau. rewrite <- Rinv_1. apply Rinv_le_contravar; [lra|]. apply pow_R1_Rle. lra.
Qed.
Lemma qsum_abs r f c : (forall w, In w (snd r) -> 0 <= w) -> (forall x, In x (fst r) -> Rabs (f x) <= c) ->
  Rabs (qsum r f) <= qsum r (fun _ => c).
Proof.
  destruct r as [xs ws]. unfold qsum. cbn [fst snd]. intros Hw Hf.
  assert (G : forall l, (forall xw, In xw l -> In (fst xw) xs /\ In (snd xw) ws) ->
     Rabs (lsum (map (fun xw => snd xw * f (fst xw)) l)) <= lsum (map (fun xw => snd xw * c) l)).
  { induction l as [|[x w] l IH]; intros Hl; [unfold lsum; simpl; rewrite Rabs_R0; lra|].
    unfold lsum in *. simpl. eapply Rle_trans; [apply Rabs_triang|].
    destruct (Hl (x, w) (or_introl eq_refl)) as [A B]. cbn [fst snd] in A, B.
    apply Rplus_le_compat; [|apply IH; intros; apply Hl; right; assumption].
    rewrite Rabs_mult, (Rabs_pos_eq w) by (apply Hw; exact B).
    apply Rmult_le_compat_l; [apply Hw; exact B | apply Hf; exact A]. }
  apply G. intros [x w] H. cbn [fst snd]. split; [eapply in_combine_l | eapply in_combine_r]; exact H.
Qed.
Lemma table_const q c : 0 <= c -> qsum (nodes_and_weights q) (fun _ => c) <= 2 * (1 + tau) * c.
Proof.
  intros Hc. pose proof (table_error q [1] 0 ltac:(pose proof (order_pos q); simpl; lia)) as H.
  fold tau in H. rewrite (qsum_ext _ _ (fun x => c * (x ^ 0 * peval [1] x))) by (intros; simpl; ring).
  rewrite qsum_scal. set (z := qsum _ _) in *.
  assert (Z : z <= 2 * (1 + tau)).
  { apply Rabs_le_between in H. cbn [pint] in H. unfold norm1, lsum in H. simpl in H. rewrite Rabs_R1 in H.
    pose proof tau_pos. lra. }
  nra.
Qed.
Lemma lsum_rsum {A} (f : A -> R) d (l : list A) : lsum (map f l) = rsum (length l) (fun e => f (nth e l d)).
Proof.
  induction l as [|a l IH] using rev_ind; [reflexivity|].
  rewrite map_app, lsum_app, app_length, IH. simpl length. rewrite Nat.add_comm. cbn [Nat.add rsum].
  rewrite app_nth2, Nat.sub_diag by lia. f_equal; [|unfold lsum; simpl; ring].
  apply rsum_ext. intros i Hi. rewrite app_nth1 by lia. reflexivity.
Qed.
Lemma rsum_abs_le n f g : (forall i, (i < n)%nat -> Rabs (f i) <= g i) -> Rabs (rsum n f) <= rsum n g.
Proof.
  induction n as [|n IH]; intros H; cbn [rsum]; [rewrite Rabs_R0; lra|].
  eapply Rle_trans; [apply Rabs_triang|]. apply Rplus_le_compat; [apply IH; intros; apply H; lia | apply H; lia].
Qed.
Lemma rsum_le n f g : (forall i, (i < n)%nat -> f i <= g i) -> rsum n f <= rsum n g.
Proof.
  induction n as [|n IH]; intros H; cbn [rsum]; [lra|].
  apply Rplus_le_compat; [apply IH; intros; apply H; lia | apply H; lia].
Qed.
Lemma comp_bound T q f bnd : increasing T ->
  (forall e, (S e < length T)%nat -> 0 <= bnd e) ->
  (forall e s, (S e < length T)%nat -> In s (fst (nodes_and_weights q)) ->
     Rabs (f (rescale_x (nth e T 0) (nth (S e) T 0) s)) <= bnd e) ->
  Rabs (qsum (composite_quad T q) f) <= rsum (length T - 1) (fun e => (nth (S e) T 0 - nth e T 0) * (1 + tau) * bnd e).
Proof.
  intros HT Hb Hf. rewrite comp_qsum, (lsum_rsum _ (0, 0)), cells_length. apply rsum_abs_le. intros e He.
  rewrite cells_nth by lia. cbn [fst snd]. pose proof (HT e ltac:(lia)) as Hab. set (a := nth e T 0) in *. set (b := nth (S e) T 0) in *.
  rewrite Rabs_mult, Rabs_pos_eq by lra.
  assert (Q : Rabs (qsum (nodes_and_weights q) (fun t => f (rescale_x a b t))) <= 2 * (1 + tau) * bnd e).
  { eapply Rle_trans; [apply (qsum_abs _ _ (bnd e))|apply table_const, Hb; lia].
    - intros w Hw. left. eapply tab_pos. exact Hw.
    - intros x Hx. apply Hf; [lia | exact Hx]. }
  apply Rle_trans with ((b - a) / 2 * (2 * (1 + tau) * bnd e)); [|right; field].
  apply Rmult_le_compat_l; [lra | exact Q].
Qed.

(** the constants *)
Definition epsb (p : nat) : R := 8 * INR (p * (p + 1)) * 4 ^ p * tau.
Definition Xb (p : nat) : R := 4 * INR p ^ 2 + 1.
Lemma pow4 p : 2 ^ p * 2 ^ p = 4 ^ p.
Proof. rewrite <- Rpow_mult_distr. f_equal; lra. Qed.
Lemma epsb_nonneg p : 0 <= epsb p.
Proof.
  unfold epsb. pose proof tau_pos. pose proof (pos_INR (p * (p + 1))). assert (0 < 4 ^ p) by (apply pow_lt; lra).
  apply Rmult_le_pos; [|lra]. apply Rmult_le_pos; [|lra]. lra.
Qed.
Lemma rescale_between a b s : a < b -> -1 < s < 1 -> a < rescale_x a b s < b.
Proof. intros. unfold rescale_x. split; nra. Qed.
Lemma INR_cell_off (N : nat) x k e : 0 < INR N -> INR e / INR N < x < INR (S e) / INR N -> x * INR N <> INR k.
Proof.
  intros HN [H1 H2] E.
  assert (A : INR e < x * INR N) by (apply (Rmult_lt_compat_r (INR N)) in H1; [|exact HN]; unfold Rdiv in H1; rewrite Rmult_assoc, Rinv_l in H1 by lra; lra).
  assert (B : x * INR N < INR (S e)) by (apply (Rmult_lt_compat_r (INR N)) in H2; [|exact HN]; unfold Rdiv in H2; rewrite Rmult_assoc, Rinv_l in H2 by lra; lra).
  rewrite E in A, B. apply INR_lt in A. apply INR_lt in B. lia.
Qed.
Lemma Bspl_le1 t (Ht : nondecreasing t) q N i x : t q <= x < t N -> (i < N)%nat -> Bspl t q i x <= 1.
Proof.
  intros Hx Hi. rewrite <- (Bspl_pou t Ht q N x Hx).
  apply (rsum_ge_term N (fun i => Bspl t q i x) i Hi). intros. apply Bspl_nonneg. exact Ht.
Qed.
Lemma Bspl_cell t (Ht : nondecreasing t) m q i x : (q <= m)%nat -> t m <= x < t (S m) ->
  Bspl t q i x <= if ((i <=? m) && (m <=? i + q))%nat then 1 else 0.
Proof.
  intros Hq Hx. destruct ((i <=? m) && (m <=? i + q))%nat eqn:E.
  - apply (Bspl_le1 t Ht q (S m)); [|apply andb_prop in E; destruct E as [E _]; apply Nat.leb_le in E; lia].
    pose proof (nondecreasing_le t Ht q m Hq). lra.
  - apply andb_false_iff in E. rewrite !Nat.leb_gt in E. right. apply Bspl_support; [exact Ht|].
    destruct E as [E|E]; [left | right].
    + pose proof (nondecreasing_le t Ht (S m) i E). lra.
    + pose proof (nondecreasing_le t Ht (i + q + 1) m ltac:(lia)). lra.
Qed.
Lemma bool_scale (b : bool) c d : (if b then c else 0) * d = if b then c * d else 0.
Proof. destruct b; ring. Qed.

(** *** clamped *)
Section Clamped.
Variables n p q : nat.
Hypotheses (Hp1 : (1 <= p)%nat) (Hp : (p < n)%nat) (HN : INR (n - p) <= 99900) (Hq : (p <= order q)%nat).
Notation t := (tclamped n p).
Notation T := (linspace01 (n - p + 1)).
Notation s := (mkSpline n p Clamped (init_knots n p Clamped)).
Notation d := (mkSpline (n - 1) (p - 1) Clamped (init_knots n p Clamped)).
Notation rule := (composite_quad T q).
Definition cder (i : nat) (x : R) : R :=
  (if (i =? 0)%nat then 0 else evaluate_deriv d x (i - 1)) - (if (i =? n - 1)%nat then 0 else evaluate_deriv d x i).

Let NP : 0 < INR (n - p). Proof. apply lt_0_INR. lia. Qed.
Let Hnd : nondecreasing t. Proof. apply separated_nondec, tclamped_separated; assumption. Qed.
Lemma cT_len : length T = S (n - p). Proof. rewrite linspace01_length. lia. Qed.
Lemma cT_nth e : (e <= n - p)%nat -> nth e T 0 = INR e / INR (n - p).
Proof. intros. rewrite linspace01_nth by lia. f_equal. f_equal. lia. Qed.
Lemma cT_t e : (e <= n - p)%nat -> nth e T 0 = t (p + e)%nat.
Proof. intros. rewrite cT_nth, tclamped_mid by lia. f_equal. f_equal. lia. Qed.
Lemma cT_inc : increasing T.
Proof.
  intros e He. rewrite cT_len in He. rewrite !cT_nth by lia. unfold Rdiv. apply Rmult_lt_compat_r; [apply Rinv_0_lt_compat, NP|].
  apply lt_INR. lia.
Qed.
Lemma c_cell e x : (e < n - p)%nat -> nth e T 0 < x < nth (S e) T 0 ->
  t (p + e)%nat < x < t (S (p + e)) /\ 0 < x < 1 /\ (forall k, x * INR (n - p) <> INR k).
Proof.
  intros He Hx. split; [|split].
  - rewrite cT_t, cT_t in Hx by lia. replace (S (p + e)) with (p + S e)%nat by lia. exact Hx.
  - rewrite cT_t, cT_t in Hx by lia.
    pose proof (nondecreasing_le t Hnd p (p + e) ltac:(lia)) as A. pose proof (nondecreasing_le t Hnd (p + S e) n ltac:(lia)) as B.
    rewrite tclamped_lo in A by lia. rewrite (tclamped_hi n p n) in B by lia. lra.
  - intros k. rewrite !cT_nth in Hx by lia. apply (INR_cell_off (n - p) x k e NP Hx).
Qed.
Lemma c_len q0 : length (fst (composite_quad T q0)) = length (snd (composite_quad T q0)).
Proof. rewrite comp_lx, comp_lw. reflexivity. Qed.

Lemma clamped_ibp i j : (1 <= i)%nat -> (i < n - 1)%nat -> (j < n)%nat ->
  Rabs (qsum rule (fun x => cder i x * evaluate s x j + evaluate s x i * cder j x)) <= epsb p.
Proof.
  intros Hi1 Hi Hj.
  set (P := fun e => pmul (rb t (p + e) p i) (rb t (p + e) p j)).
  set (nb := fun e => if ((i <=? p + e) && (p + e <=? i + p))%nat then 4 ^ p else 0).
  assert (Hcell : forall e, (e < n - p)%nat -> t (p + e)%nat < t (S (p + e))).
  { intros e He. pose proof (cT_inc e ltac:(rewrite cT_len; lia)) as A. rewrite !cT_t in A by lia.
    replace (S (p + e)) with (p + S e)%nat by lia. exact A. }
  pose proof (comp_ibp q T (fun x => evaluate s x i * evaluate s x j)
     (fun x => cder i x * evaluate s x j + evaluate s x i * cder j x) P nb (2 * p) cT_inc ltac:(lia)) as H.
  specialize (H ltac:(intros e _; replace (2 * p)%nat with (p + p)%nat by lia; apply pmul_len; apply rb_length)).
  assert (H2 : forall e, (S e < length T)%nat -> norm1 (P e) <= nb e).
  { intros e He. rewrite cT_len in He. unfold P, nb. eapply Rle_trans; [apply pmul_norm|].
    pose proof (rb_norm t Hnd (p + e) (Hcell e ltac:(lia)) p i) as A.
    pose proof (rb_norm t Hnd (p + e) (Hcell e ltac:(lia)) p j) as B.
    assert (B' : norm1 (rb t (p + e) p j) <= 2 ^ p).
    { assert (0 < 2 ^ p) by (apply pow_lt; lra). destruct (_ && _)%bool in B; lra. }
    eapply Rle_trans; [apply Rmult_le_compat; [apply norm1_nonneg | apply norm1_nonneg | exact A | exact B']|].
    rewrite bool_scale, pow4. lra. }
  specialize (H H2). clear H2.
  assert (Hx : forall e y, (S e < length T)%nat -> -1 < y < 1 ->
     (e < n - p)%nat /\ nth e T 0 < rescale_x (nth e T 0) (nth (S e) T 0) y < nth (S e) T 0).
  { intros e y He Hy. split; [rewrite cT_len in He; lia|]. apply rescale_between; [apply cT_inc; exact He | exact Hy]. }
  assert (H3 : forall e y, (S e < length T)%nat -> -1 < y < 1 ->
     evaluate s (rescale_x (nth e T 0) (nth (S e) T 0) y) i * evaluate s (rescale_x (nth e T 0) (nth (S e) T 0) y) j = peval (P e) y).
  { intros e y He Hy. destruct (Hx e y He Hy) as [He' Hxx].
    destruct (c_cell e _ He' Hxx) as [C1 [C2 C3]]. unfold P. rewrite pmul_eval, !rb_eval, !rb_x.
    rewrite cT_t in C1 |- * by lia. rewrite cT_t in C1 |- * by lia. replace (p + S e)%nat with (S (p + e)) in C1 |- * by lia.
    rewrite <- !(Bspl_bv t Hnd (p + e)) by lra.
    rewrite !(ev_clamped n p Hp HN) by (try lia; rewrite cT_t, cT_t in C2 by lia; replace (p + S e)%nat with (S (p + e)) in C2 by lia; lra).
    reflexivity. }
  specialize (H H3). clear H3.
  assert (H4 : forall e y, (S e < length T)%nat -> In y (fst (nodes_and_weights q)) ->
     is_derive (fun x => evaluate s x i * evaluate s x j) (rescale_x (nth e T 0) (nth (S e) T 0) y)
       (cder i (rescale_x (nth e T 0) (nth (S e) T 0) y) * evaluate s (rescale_x (nth e T 0) (nth (S e) T 0) y) j
        + evaluate s (rescale_x (nth e T 0) (nth (S e) T 0) y) i * cder j (rescale_x (nth e T 0) (nth (S e) T 0) y))).
  { intros e y He Hy. destruct (Hx e y He (tab_in q y Hy)) as [He' Hxx].
    destruct (c_cell e _ He' Hxx) as [C1 [C2 C3]]. set (x := rescale_x _ _ y) in *.
    assert (Hs : new_spline n p Clamped = Some s).
    { unfold new_spline. replace (n <=? p)%nat with false by (symmetry; apply Nat.leb_gt; lia). reflexivity. }
    pose proof (clamped_derivative n p s d x i Hp1 Hp HN Hs (new_deriv_clamped n p Hp1 Hp) C3 ltac:(lia)) as D1.
    pose proof (clamped_derivative n p s d x j Hp1 Hp HN Hs (new_deriv_clamped n p Hp1 Hp) C3 Hj) as D2.
    evar_last; [apply (is_derive_mult (fun x => evaluate s x i) (fun x => evaluate s x j)); [exact D1 | exact D2 | apply Rmult_comm]|].
    unfold plus, mult, cder; simpl. reflexivity. }
  specialize (H H4). clear H4.
  assert (H5 : forall e, (S (S e) < length T)%nat -> peval (P e) 1 = peval (P (S e)) (-1)).
  { intros e He. rewrite cT_len in He. unfold P. rewrite !pmul_eval.
    rewrite !(proj1 (rb_end t (p + e) _ _)), !(proj2 (rb_end t (p + S e) _ _)).
    replace (p + S e)%nat with (S (p + e)) by lia.
    pose proof (Hcell e ltac:(lia)) as Hc1. pose proof (Hcell (S e) ltac:(lia)) as Hc2.
    replace (p + S e)%nat with (S (p + e)) in Hc2 by lia.
    pose proof (fun i => bv_match t (p + e) (p - 1) i Hc1 Hc2) as M. replace (S (p - 1)) with p in M by lia.
    rewrite !M. reflexivity. }
  specialize (H H5). clear H5.
  specialize (H (n - p - 1)%nat ltac:(rewrite cT_len; lia)).
  assert (Z1 : peval (P (n - p - 1)%nat) 1 = 0).
  { unfold P. rewrite pmul_eval. replace (p + (n - p - 1))%nat with (n - 1)%nat by lia.
    rewrite (proj1 (rb_end t (n - 1) p i)), bv_right; [ring| |exact Hi].
    intros k Hk. rewrite !tclamped_hi by lia. reflexivity. }
  assert (Z2 : peval (P 0%nat) (-1) = 0).
  { unfold P. rewrite pmul_eval, Nat.add_0_r, (proj2 (rb_end t p p i)), bv_left; [ring| |lia].
    intros k Hk1 Hk2. rewrite !tclamped_lo by lia. reflexivity. }
  rewrite Z1, Z2 in H. rewrite !Rminus_0_r in H. eapply Rle_trans; [exact H|].
  assert (P4 : 0 <= 4 ^ p) by (apply pow_le; lra).
  pose proof (count_cells p i p (S (n - p - 1)) (4 ^ p) P4) as K. fold nb in K.
  unfold epsb. rewrite !mult_INR. change (INR 2) with 2. pose proof tau_pos. pose proof (pos_INR p). pose proof (pos_INR (p + 1)).
  set (r := rsum _ nb) in *. 
  apply Rle_trans with (tau * (2 * INR p) * (INR (p + 1) * 4 ^ p)).
  - apply Rmult_le_compat_l; [|exact K]. apply Rmult_le_pos; lra.
  - assert (0 <= tau * (2 * INR p) * (INR (p + 1) * 4 ^ p)) by (repeat apply Rmult_le_pos; lra). lra.
Qed.

Lemma clamped_cross i j : (j < n - 1)%nat -> (i < n)%nat ->
  Rabs (qsum rule (fun x => evaluate_deriv d x j * evaluate s x i)) <= Xb p.
Proof.
  intros Hj Hi.
  set (bnd := fun e => if ((j + 1 <=? p + e) && (p + e <=? j + 1 + (p - 1)))%nat then INR p * INR (n - p) else 0).
  assert (PN : 0 <= INR p * INR (n - p)) by (apply Rmult_le_pos; apply pos_INR).
  pose proof (comp_bound T q (fun x => evaluate_deriv d x j * evaluate s x i) bnd cT_inc) as H.
  specialize (H ltac:(intros e _; unfold bnd; destruct (_ && _)%bool; lra)).
  assert (H1 : forall e y, (S e < length T)%nat -> In y (fst (nodes_and_weights q)) ->
     Rabs (evaluate_deriv d (rescale_x (nth e T 0) (nth (S e) T 0) y) j * evaluate s (rescale_x (nth e T 0) (nth (S e) T 0) y) i) <= bnd e).
  { intros e y He Hy. pose proof He as He0. rewrite cT_len in He0.
    destruct (c_cell e (rescale_x (nth e T 0) (nth (S e) T 0) y) ltac:(lia)
       ltac:(apply rescale_between; [apply cT_inc; exact He | apply (tab_in q y Hy)])) as [C1 [C2 C3]].
    set (x := rescale_x _ _ y) in *.
    rewrite (ev_deriv_clamped n p x j Hp1 Hp HN ltac:(lra) Hj).
    pose proof (clamped_nonneg n p Hp HN x i Hi) as N1. pose proof (clamped_le1 n p Hp HN x i Hi) as N2.
    pose proof (Bspl_nonneg t Hnd (p - 1) (j + 1) x) as N3.
    pose proof (Bspl_cell t Hnd (p + e) (p - 1) (j + 1) x ltac:(lia) ltac:(lra)) as N4.
    assert (Dl : / INR (n - p) <= t (j + 1 + p)%nat - t (j + 1)%nat).
    { assert (A : t (j + 1)%nat <= INR (j + 1 - p) / INR (n - p)).
      { destruct (Nat.le_gt_cases (j + 1) p) as [L|L].
        - rewrite tclamped_lo by lia. replace (j + 1 - p)%nat with 0%nat by lia. simpl. lra.
        - rewrite tclamped_mid by lia. lra. }
      assert (B : INR (S (j + 1 - p)) / INR (n - p) <= t (j + 1 + p)%nat).
      { destruct (Nat.le_gt_cases (j + 1 + p) n) as [L|L].
        - rewrite (tclamped_mid n p (j + 1 + p)) by lia. unfold Rdiv. apply Rmult_le_compat_r; [left; apply Rinv_0_lt_compat, NP|]. apply le_INR. lia.
        - rewrite (tclamped_hi n p (j + 1 + p)) by lia. apply Rle_trans with (INR (n - p) / INR (n - p)); [|right; field; lra].
          unfold Rdiv. apply Rmult_le_compat_r; [left; apply Rinv_0_lt_compat, NP|]. apply le_INR. lia. }
      rewrite S_INR in B. unfold Rdiv in *. lra. }
    assert (IP : 0 < / INR (n - p)) by (apply Rinv_0_lt_compat, NP).
    assert (I0 : 0 <= inv0 (t (j + 1 + p)%nat - t (j + 1)%nat) <= INR (n - p)).
    { rewrite inv0_nz by lra. split; [left; apply Rinv_0_lt_compat; lra|]. rewrite <- (Rinv_inv (INR (n - p))).
      apply Rinv_le_contravar; lra. }
    set (iv := inv0 _) in *. set (B := Bspl _ _ _ _) in *. set (L := evaluate s x i) in *.
    pose proof (pos_INR p) as PP.
    assert (U0 : 0 <= INR p * (iv * B)) by (apply Rmult_le_pos; [exact PP|apply Rmult_le_pos; lra]).
    rewrite Rabs_pos_eq by (apply Rmult_le_pos; lra).
    apply Rle_trans with (INR p * (iv * B)).
    { rewrite <- (Rmult_1_r (INR p * (iv * B))) at 2. apply Rmult_le_compat_l; lra. }
    unfold bnd. destruct (_ && _)%bool.
    - apply Rmult_le_compat_l; [lra|]. rewrite <- (Rmult_1_r (INR (n - p))). apply Rmult_le_compat; lra.
    - assert (B = 0) by lra. rewrite H0. lra. }
  specialize (H H1). clear H1.
  eapply Rle_trans; [exact H|]. rewrite cT_len. replace (S (n - p) - 1)%nat with (n - p)%nat by lia.
  rewrite (rsum_ext (n - p) _ (fun e => (/ INR (n - p) * (1 + tau)) * bnd e)).
  2: { intros e He. rewrite !cT_nth by lia. rewrite S_INR. f_equal. f_equal. field. lra. }
  rewrite rsum_scal. pose proof (count_cells (p - 1) (j + 1) p (n - p) _ PN) as K. fold bnd in K.
  replace (p - 1 + 1)%nat with p in K by lia.
  pose proof tau_pos. pose proof tau_le1. assert (IP : 0 < / INR (n - p)) by (apply Rinv_0_lt_compat, NP).
  apply Rle_trans with (/ INR (n - p) * (1 + tau) * (INR p * (INR p * INR (n - p)))).
  { apply Rmult_le_compat_l; [apply Rmult_le_pos; lra | exact K]. }
  replace (/ INR (n - p) * (1 + tau) * (INR p * (INR p * INR (n - p)))) with ((1 + tau) * INR p ^ 2) by (field; lra).
  unfold Xb. pose proof (pow2_ge_0 (INR p)). nra.
Qed.
End Clamped.

(** *** periodic *)
Section Periodic.
Variables n p q : nat.
Hypotheses (Hp1 : (1 <= p)%nat) (Hp : (p < n)%nat) (HN : INR n <= 49000) (Hq : (p <= order q)%nat).
Notation t := (tperiodic n p).
Notation T := (linspace01 (n + 1)).
Notation s := (mkSpline n p Periodic (init_knots n p Periodic)).
Notation d := (mkSpline n (p - 1) Periodic (removelast (tl (init_knots n p Periodic)))).
Notation rule := (composite_quad T q).
Definition pder1 (i : nat) (x : R) : R := evaluate_deriv d x ((i + n - 1) mod n) - evaluate_deriv d x i.

Let NP : 0 < INR n. Proof. apply lt_0_INR. lia. Qed.
Let Hnd : nondecreasing t. Proof. apply tperiodic_nondec. lia. Qed.
Lemma pT_len : length T = S n. Proof. rewrite linspace01_length. lia. Qed.
Lemma pT_nth e : (e <= n)%nat -> nth e T 0 = INR e / INR n.
Proof. intros. rewrite linspace01_nth by lia. f_equal. f_equal. lia. Qed.
Lemma pT_t e : (e <= n)%nat -> nth e T 0 = t (p + e)%nat.
Proof. intros. rewrite pT_nth by lia. unfold tperiodic. f_equal. rewrite plus_INR. ring. Qed.
Lemma pT_inc : increasing T.
Proof.
  intros e He. rewrite pT_len in He. rewrite !pT_nth by lia. unfold Rdiv. apply Rmult_lt_compat_r; [apply Rinv_0_lt_compat, NP|].
  apply lt_INR. lia.
Qed.
Lemma p_lt m : t m < t (S m).
Proof. unfold tperiodic, Rdiv. apply Rmult_lt_compat_r; [apply Rinv_0_lt_compat, NP|]. rewrite S_INR. lra. Qed.
Lemma p_cell e x : (e < n)%nat -> nth e T 0 < x < nth (S e) T 0 ->
  t (p + e)%nat < x < t (S (p + e)) /\ 0 < x < 1 /\ (forall k, x * INR n <> INR k).
Proof.
  intros He Hx. split; [|split].
  - rewrite pT_t, pT_t in Hx by lia. replace (S (p + e)) with (p + S e)%nat by lia. exact Hx.
  - rewrite !pT_nth in Hx by lia.
    assert (0 <= INR e / INR n) by (apply Rmult_le_pos; [apply pos_INR | left; apply Rinv_0_lt_compat, NP]).
    assert (INR (S e) / INR n <= 1).
    { apply Rmult_le_reg_r with (INR n); [exact NP|]. unfold Rdiv. rewrite Rmult_assoc, Rinv_l by lra.
      rewrite Rmult_1_r, Rmult_1_l. apply le_INR. lia. }
    lra.
  - intros k. rewrite !pT_nth in Hx by lia. apply (INR_cell_off n x k e NP Hx).
Qed.
Definition pc (e i : nat) : list R :=
  if (i <? p)%nat then padd (rb t (p + e) p i) (rb t (p + e) p (n + i)) else rb t (p + e) p i.
Definition pval (m i : nat) (x : R) : R :=
  if (i <? p)%nat then bv t m p i x + bv t m p (n + i) x else bv t m p i x.
Lemma pc_ends e i : peval (pc e i) 1 = pval (p + e) i (t (S (p + e))) /\ peval (pc e i) (-1) = pval (p + e) i (t (p + e)%nat).
Proof.
  unfold pc, pval. destruct (i <? p)%nat; rewrite ?padd_eval; rewrite ?(proj1 (rb_end t (p + e) p _)), ?(proj2 (rb_end t (p + e) p _)); split; reflexivity.
Qed.
Lemma pc_length e i : (length (pc e i) <= S p)%nat.
Proof.
  unfold pc. pose proof (rb_length t (p + e) p i). pose proof (rb_length t (p + e) p (n + i)).
  destruct (i <? p)%nat; [rewrite padd_length; lia | assumption].
Qed.
Definition act (i e : nat) (c : R) : R := if ((i <=? p + e) && (p + e <=? i + p))%nat then c else 0.
Lemma pc_norm e i : norm1 (pc e i) <= act i e (2 ^ p) + act (n + i) e (2 ^ p) /\ norm1 (pc e i) <= 2 * 2 ^ p.
Proof.
  pose proof (rb_norm t Hnd (p + e) (p_lt (p + e)) p i) as A. pose proof (rb_norm t Hnd (p + e) (p_lt (p + e)) p (n + i)) as B.
  assert (P2 : 0 < 2 ^ p) by (apply pow_lt; lra). unfold pc, act in *.
  pose proof (padd_norm (rb t (p + e) p i) (rb t (p + e) p (n + i))).
  destruct (i <? p)%nat; destruct ((i <=? p + e) && (p + e <=? i + p))%nat; destruct ((n + i <=? p + e) && (p + e <=? n + i + p))%nat; lra.
Qed.
Lemma pval_wrap i : (i < n)%nat -> pval (p + (n - 1)) i (t (S (p + (n - 1)))) = pval p i (t p).
Proof.
  intros Hi. unfold pval.
  pose proof (fun i => bv_match t (p + (n - 1)) (p - 1) i (p_lt _) (p_lt _)) as M. replace (S (p - 1)) with p in M by lia.
  rewrite !M. replace (S (p + (n - 1))) with (p + n)%nat by lia.
  rewrite (bv_out t (p + n) p i) by lia.
  rewrite (tperiodic_shift n p p) by lia. replace (n + i)%nat with (i + n)%nat by lia.
  rewrite (bv_shift t n 1) by (intros; apply tperiodic_shift; lia).
  rewrite (bv_out t p p (i + n)) by lia.
  destruct (Nat.ltb_spec i p) as [L|L]; [ring|].
  destruct (Nat.eq_dec i p) as [->|Hne]; [|rewrite bv_out by lia; reflexivity].
  pose proof (bv_left_knot t p (p - 1)) as K. replace (S (p - 1)) with p in K by lia. rewrite K. reflexivity.
Qed.
Lemma pc_val e i x : (e < n)%nat -> (i < n)%nat -> t (p + e)%nat <= x < t (S (p + e)) -> evaluate s x i = pval (p + e) i x.
Proof.
  intros He Hi Hx. rewrite (ev_periodic n p) by lia || assumption. unfold pval. rewrite !(Bspl_bv t Hnd (p + e) p) by exact Hx. reflexivity.
Qed.

Lemma periodic_ibp i j : (i < n)%nat -> (j < n)%nat ->
  Rabs (qsum rule (fun x => pder1 i x * evaluate s x j + evaluate s x i * pder1 j x)) <= epsb p.
Proof.
  intros Hi Hj.
  set (P := fun e => pmul (pc e i) (pc e j)).
  set (nb := fun e => (2 * 2 ^ p) * (act i e (2 ^ p) + act (n + i) e (2 ^ p))).
  pose proof (comp_ibp q T (fun x => evaluate s x i * evaluate s x j)
     (fun x => pder1 i x * evaluate s x j + evaluate s x i * pder1 j x) P nb (2 * p) pT_inc ltac:(lia)) as H.
  specialize (H ltac:(intros e _; replace (2 * p)%nat with (p + p)%nat by lia; apply pmul_len; apply pc_length)).
  assert (H2 : forall e, (S e < length T)%nat -> norm1 (P e) <= nb e).
  { intros e He. unfold P, nb. eapply Rle_trans; [apply pmul_norm|]. rewrite Rmult_comm.
    apply Rmult_le_compat; try apply norm1_nonneg; apply pc_norm. }
  specialize (H H2). clear H2.
  assert (Hx : forall e y, (S e < length T)%nat -> -1 < y < 1 ->
     (e < n)%nat /\ nth e T 0 < rescale_x (nth e T 0) (nth (S e) T 0) y < nth (S e) T 0).
  { intros e y He Hy. split; [rewrite pT_len in He; lia|]. apply rescale_between; [apply pT_inc; exact He | exact Hy]. }
  assert (H3 : forall e y, (S e < length T)%nat -> -1 < y < 1 ->
     evaluate s (rescale_x (nth e T 0) (nth (S e) T 0) y) i * evaluate s (rescale_x (nth e T 0) (nth (S e) T 0) y) j = peval (P e) y).
  { intros e y He Hy. destruct (Hx e y He Hy) as [He' Hxx].
    destruct (p_cell e _ He' Hxx) as [C1 [C2 C3]].
    assert (Ec : forall k, (k < n)%nat -> evaluate s (rescale_x (nth e T 0) (nth (S e) T 0) y) k = peval (pc e k) y).
    { intros k Hk. rewrite (pc_val e k _ He' Hk) by lra. unfold pval, pc.
      assert (Er : forall l, peval (rb t (p + e) p l) y = bv t (p + e) p l (rescale_x (nth e T 0) (nth (S e) T 0) y)).
      { intros l. rewrite rb_eval, rb_x, !pT_t by lia. do 2 f_equal; f_equal; lia. }
      destruct (k <? p)%nat; rewrite ?padd_eval, !Er; reflexivity. }
    unfold P. rewrite pmul_eval, !Ec by assumption. reflexivity. }
  specialize (H H3). clear H3.
  assert (H4 : forall e y, (S e < length T)%nat -> In y (fst (nodes_and_weights q)) ->
     is_derive (fun x => evaluate s x i * evaluate s x j) (rescale_x (nth e T 0) (nth (S e) T 0) y)
       (pder1 i (rescale_x (nth e T 0) (nth (S e) T 0) y) * evaluate s (rescale_x (nth e T 0) (nth (S e) T 0) y) j
        + evaluate s (rescale_x (nth e T 0) (nth (S e) T 0) y) i * pder1 j (rescale_x (nth e T 0) (nth (S e) T 0) y))).
  { intros e y He Hy. destruct (Hx e y He (tab_in q y Hy)) as [He' Hxx].
    destruct (p_cell e _ He' Hxx) as [C1 [C2 C3]]. set (x := rescale_x _ _ y) in *.
    assert (Hs : new_spline n p Periodic = Some s).
    { unfold new_spline. replace (n <=? p)%nat with false by (symmetry; apply Nat.leb_gt; lia). reflexivity. }
    pose proof (periodic_derivative n p s d x i Hp1 (or_introl Hp) HN Hs (new_deriv_periodic n p Hp1 (or_introl Hp)) C2 C3 Hi) as D1.
    pose proof (periodic_derivative n p s d x j Hp1 (or_introl Hp) HN Hs (new_deriv_periodic n p Hp1 (or_introl Hp)) C2 C3 Hj) as D2.
    evar_last; [apply (is_derive_mult (fun x => evaluate s x i) (fun x => evaluate s x j)); [exact D1 | exact D2 | apply Rmult_comm]|].
    unfold plus, mult, pder1; simpl. reflexivity. }
  specialize (H H4). clear H4.
  assert (H5 : forall e, (S (S e) < length T)%nat -> peval (P e) 1 = peval (P (S e)) (-1)).
  { intros e He. unfold P. rewrite !pmul_eval, !(proj1 (pc_ends e _)), !(proj2 (pc_ends (S e) _)).
    replace (p + S e)%nat with (S (p + e)) by lia. unfold pval.
    pose proof (fun i => bv_match t (p + e) (p - 1) i (p_lt _) (p_lt _)) as M. replace (S (p - 1)) with p in M by lia.
    rewrite !M. reflexivity. }
  specialize (H H5). clear H5.
  specialize (H (n - 1)%nat ltac:(rewrite pT_len; lia)).
  assert (Z : peval (P (n - 1)%nat) 1 - peval (P 0%nat) (-1) = 0).
  { unfold P. rewrite !pmul_eval, !(proj1 (pc_ends (n - 1) _)), !(proj2 (pc_ends 0 _)), !pval_wrap, !Nat.add_0_r by assumption. ring. }
  rewrite Z, Rminus_0_r in H. eapply Rle_trans; [exact H|].
  assert (P2 : 0 <= 2 ^ p) by (apply pow_le; lra).
  pose proof (count_cells p i p (S (n - 1)) (2 ^ p) P2) as K1. pose proof (count_cells p (n + i) p (S (n - 1)) (2 ^ p) P2) as K2.
  unfold nb. rewrite rsum_scal, rsum_plus. unfold act at 1 2.
  set (r1 := rsum _ _) in *. set (r2 := rsum _ _) in *.
  unfold epsb. rewrite <- pow4, !mult_INR. change (INR 2) with 2. pose proof tau_pos. pose proof (pos_INR p). pose proof (pos_INR (p + 1)).
  apply Rle_trans with (tau * (2 * INR p) * (2 * 2 ^ p * (2 * (INR (p + 1) * 2 ^ p)))); [|right; ring].
  apply Rmult_le_compat_l; [apply Rmult_le_pos; lra|]. apply Rmult_le_compat_l; lra.
Qed.

Lemma periodic_cross i j : (j < n)%nat -> (i < n)%nat ->
  Rabs (qsum rule (fun x => evaluate_deriv d x j * evaluate s x i)) <= Xb p.
Proof.
  intros Hj Hi.
  set (a1 := fun e => if ((j + 1 <=? p + e) && (p + e <=? j + 1 + (p - 1)))%nat then INR n else 0).
  set (a2 := fun e => if ((n + j + 1 <=? p + e) && (p + e <=? n + j + 1 + (p - 1)))%nat then INR n else 0).
  pose proof (comp_bound T q (fun x => evaluate_deriv d x j * evaluate s x i) (fun e => a1 e + a2 e) pT_inc) as H.
  specialize (H ltac:(intros e _; unfold a1, a2; destruct (_ && _)%bool; destruct (_ && _)%bool; lra)).
  assert (H1 : forall e y, (S e < length T)%nat -> In y (fst (nodes_and_weights q)) ->
     Rabs (evaluate_deriv d (rescale_x (nth e T 0) (nth (S e) T 0) y) j * evaluate s (rescale_x (nth e T 0) (nth (S e) T 0) y) i) <= a1 e + a2 e).
  { intros e y He Hy. pose proof He as He0. rewrite pT_len in He0.
    destruct (p_cell e (rescale_x (nth e T 0) (nth (S e) T 0) y) ltac:(lia)
       ltac:(apply rescale_between; [apply pT_inc; exact He | apply (tab_in q y Hy)])) as [C1 [C2 C3]].
    set (x := rescale_x _ _ y) in *.
    rewrite (ev_deriv_periodic n p x j Hp1 (or_introl Hp) HN Hj).
    pose proof (periodic_nonneg n p ltac:(lia) ltac:(lia) HN x i Hi) as N1.
    pose proof (periodic_le1 n p ltac:(lia) ltac:(lia) HN x i Hi ltac:(lra)) as N2.
    pose proof (Bspl_nonneg t Hnd (p - 1) (j + 1) x) as N3.
    pose proof (Bspl_cell t Hnd (p + e) (p - 1) (j + 1) x ltac:(lia) ltac:(lra)) as N4.
    pose proof (Bspl_nonneg t Hnd (p - 1) (n + j + 1) x) as N5.
    pose proof (Bspl_cell t Hnd (p + e) (p - 1) (n + j + 1) x ltac:(lia) ltac:(lra)) as N6.
    set (B1 := Bspl _ _ (j + 1) _) in *. set (B2 := Bspl _ _ (n + j + 1) _) in *. set (L := evaluate s x i) in *.
    assert (U : 0 <= (if (j <? p - 1)%nat then B1 + B2 else B1) <= B1 + B2) by (destruct (j <? p - 1)%nat; lra).
    set (B := if (j <? p - 1)%nat then B1 + B2 else B1) in *.
    assert (U0 : 0 <= INR n * B) by (apply Rmult_le_pos; lra).
    rewrite Rabs_pos_eq by (apply Rmult_le_pos; lra).
    apply Rle_trans with (INR n * B).
    { rewrite <- (Rmult_1_r (INR n * B)) at 2. apply Rmult_le_compat_l; lra. }
    apply Rle_trans with (INR n * (B1 + B2)); [apply Rmult_le_compat_l; lra|].
    rewrite Rmult_plus_distr_l. unfold a1, a2. apply Rplus_le_compat.
    - destruct (_ && _)%bool; [|replace B1 with 0 by lra; lra]. rewrite <- (Rmult_1_r (INR n)) at 2. apply Rmult_le_compat_l; lra.
    - destruct ((n + j + 1 <=? p + e) && _)%bool; [|replace B2 with 0 by lra; lra]. rewrite <- (Rmult_1_r (INR n)) at 2. apply Rmult_le_compat_l; lra. }
  specialize (H H1). clear H1.
  eapply Rle_trans; [exact H|]. rewrite pT_len. replace (S n - 1)%nat with n by lia.
  rewrite (rsum_ext n _ (fun e => (/ INR n * (1 + tau)) * (a1 e + a2 e))).
  2: { intros e He. rewrite !pT_nth by lia. rewrite S_INR. f_equal. f_equal. field. lra. }
  rewrite rsum_scal, rsum_plus.
  pose proof (count_cells (p - 1) (j + 1) p n (INR n) ltac:(lra)) as K1. fold a1 in K1.
  pose proof (count_cells (p - 1) (n + j + 1) p n (INR n) ltac:(lra)) as K2. fold a2 in K2.
  replace (p - 1 + 1)%nat with p in K1, K2 by lia.
  pose proof tau_pos. pose proof tau_le1. assert (IP : 0 < / INR n) by (apply Rinv_0_lt_compat, NP).
  apply Rle_trans with (/ INR n * (1 + tau) * (INR p * INR n + INR p * INR n)).
  { apply Rmult_le_compat_l; [apply Rmult_le_pos; lra | lra]. }
  replace (/ INR n * (1 + tau) * (INR p * INR n + INR p * INR n)) with (2 * (1 + tau) * INR p) by (field; lra).
  unfold Xb. assert (1 <= INR p) by (replace 1 with (INR 1) by reflexivity; apply le_INR; lia). nra.
Qed.
End Periodic.
