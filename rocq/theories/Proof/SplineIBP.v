(** Integration by parts for B-splines under the composite Gauss rules of Model/Quad.v:
    the quadrature of (B_i B_j)' differs from the boundary values by an explicit multiple of
    1e-14 (the accuracy of the tabulated nodes and weights). *)
From Coq Require Import Reals List Lia Lra Arith.
From Coquelicot Require Import Coquelicot.
From Verif Require Import Model.RBase Model.Spline Model.Quad.
From Verif Require Import Spec.BSpline Spec.QuadSpec.
From Verif Require Import Proof.BSplineLemmas Proof.QuadProofs.
Import ListNotations.
Local Open Scope R_scope.

(** *** polynomials as coefficient lists *)
Fixpoint pmul (c d : list R) : list R :=
  match c with [] => [] | a :: c' => padd (pscal a d) (0 :: pmul c' d) end.
Lemma pmul_eval c d x : peval (pmul c d) x = peval c x * peval d x.
Proof.
  induction c as [|a c IH]; simpl; [ring|]. rewrite padd_eval, pscal_eval. simpl. rewrite IH. ring.
Qed.
Lemma pmul_norm c d : norm1 (pmul c d) <= norm1 c * norm1 d.
Proof.
  induction c as [|a c IH]; [unfold norm1 at 1 2, lsum; simpl; lra|]. cbn [pmul]. rewrite norm1_cons.
  eapply Rle_trans; [apply padd_norm|]. rewrite pscal_norm, norm1_cons, Rabs_R0. lra.
Qed.
Lemma pmul_length c d : (length (pmul c d) <= length c + length d - 1)%nat \/ length (pmul c d) = 0%nat \/ (length d = 0%nat /\ length (pmul c d) <= length c)%nat.
Proof.
  induction c as [|a c IH]; [right; left; reflexivity|]. cbn [pmul]. rewrite padd_length. unfold pscal. rewrite map_length. cbn [length]. lia.
Qed.
Lemma pmul_len c d k l : (length c <= S k)%nat -> (length d <= S l)%nat -> (length (pmul c d) <= S (k + l))%nat.
Proof. intros. destruct (pmul_length c d) as [H1|[H1|H1]]; lia. Qed.

(** derivative of a polynomial whose first coefficient is that of x^k *)
Fixpoint pderk (k : nat) (c : list R) : list R :=
  match c with [] => [] | a :: c' => INR k * a :: pderk (S k) c' end.
Definition pder (c : list R) : list R := match c with [] => [] | _ :: c' => pderk 1 c' end.
Lemma pderk_length k c : length (pderk k c) = length c.
Proof. revert k. induction c; intros; simpl; auto. Qed.
Lemma pder_length c : length (pder c) = (length c - 1)%nat.
Proof. destruct c; [reflexivity|]. simpl. rewrite pderk_length. lia. Qed.
Lemma pderk_norm k c : norm1 (pderk k c) <= INR (k + length c - 1) * norm1 c.
Proof.
  revert k. induction c as [|a c IH]; intros k; [unfold norm1, lsum; simpl; lra|].
  cbn [pderk]. rewrite !norm1_cons, Rabs_mult, (Rabs_pos_eq (INR k)) by apply pos_INR.
  specialize (IH (S k)). cbn [length].
  replace (k + S (length c) - 1)%nat with (k + length c)%nat by lia.
  replace (S k + length c - 1)%nat with (k + length c)%nat in IH by lia.
  assert (INR k <= INR (k + length c)) by (apply le_INR; lia).
  pose proof (Rabs_pos a). nra.
Qed.
Lemma pder_norm c k : (length c <= S k)%nat -> norm1 (pder c) <= INR k * norm1 c.
Proof.
  intros Hc. destruct c as [|a c]; [unfold norm1, lsum; simpl; lra|]. cbn [pder]. rewrite norm1_cons.
  pose proof (pderk_norm 1 c) as H. pose proof (Rabs_pos a). pose proof (norm1_nonneg c).
  assert (INR (1 + length c - 1) <= INR k) by (apply le_INR; simpl in Hc |- *; lia).
  assert (0 <= INR k) by apply pos_INR. nra.
Qed.
Lemma peval_pderk k c x : is_derive (fun y => y ^ k * peval c y) x
   (match k with O => peval (pder c) x | S k' => x ^ k' * peval (pderk k c) x end).
Proof.
  revert k. induction c as [|a c IH]; intros k.
  - apply (is_derive_ext (fun _ => 0)); [intros; simpl; ring|].
    evar_last; [apply @is_derive_const|]. unfold zero; simpl. destruct k; simpl; ring.
  - apply (is_derive_ext (fun y => a * y ^ k + y ^ (S k) * peval c y)); [intros; simpl; ring|].
    evar_last; [apply @is_derive_plus; [|apply (IH (S k))]|].
    + evar_last; [apply (is_derive_scal (fun y => y ^ k)); auto_derive; [exact I|reflexivity]|reflexivity].
    + unfold plus; simpl. destruct k as [|k]; simpl; [ring|]. destruct k; simpl; ring.
Qed.
Lemma peval_pder c x : is_derive (peval c) x (peval (pder c) x).
Proof.
  apply (is_derive_ext (fun y => y ^ 0 * peval c y)); [intros; simpl; ring|]. apply (peval_pderk 0).
Qed.
Lemma pint_pderk k c a b : pint k (pderk (S k) c) a b = b ^ (S k) * peval c b - a ^ (S k) * peval c a.
Proof.
  revert k. induction c as [|e c IH]; intros k; [simpl; ring|]. cbn [pderk pint]. rewrite IH. simpl peval.
  assert (INR (S k) <> 0) by (apply not_0_INR; lia). set (n := INR (S k)) in *. simpl pow. field. assumption.
Qed.
Lemma pint_pder c a b : pint 0 (pder c) a b = peval c b - peval c a.
Proof.
  destruct c as [|e c]; [simpl; ring|]. cbn [pder]. rewrite pint_pderk. simpl. ring.
Qed.

(** *** one cell *)
Section Rule.
Variable q : nat.
Notation m := (order q).
Definition tau : R := / 10 ^ 14.
Lemma tau_pos : 0 < tau. Proof. apply Rinv_0_lt_compat, pow_lt. lra. Qed.

Lemma cell_ibp (P : list R) k : (length P <= S k)%nat -> (k <= 2 * m)%nat ->
  Rabs (qsum (nodes_and_weights q) (peval (pder P)) - (peval P 1 - peval P (-1))) <= tau * (INR k * norm1 P).
Proof.
  intros Hk H2. rewrite <- pint_pder.
  rewrite (qsum_ext _ _ (fun x => x ^ 0 * peval (pder P) x)) by (intros; simpl; ring).
  eapply Rle_trans; [apply table_error; rewrite pder_length; lia|].
  apply Rmult_le_compat_l; [left; apply tau_pos|]. apply pder_norm. exact Hk.
Qed.

Lemma qsum_ext_in r f g : (forall x, In x (fst r) -> f x = g x) -> qsum r f = qsum r g.
Proof.
  intros H. unfold qsum. f_equal. apply map_ext_in. intros [x w] Hx. cbn [fst snd].
  rewrite H; [reflexivity|]. apply in_combine_l in Hx. exact Hx.
Qed.

(** a function g with derivative g' that is the polynomial P in the reference coordinate *)
Lemma cell_term (g g' : R -> R) P a b : a < b ->
  (forall s, -1 < s < 1 -> g (rescale_x a b s) = peval P s) ->
  (forall s, -1 < s < 1 -> In s (fst (nodes_and_weights q)) -> is_derive g (rescale_x a b s) (g' (rescale_x a b s))) ->
  (b - a) / 2 * qsum (nodes_and_weights q) (fun s => g' (rescale_x a b s)) = qsum (nodes_and_weights q) (peval (pder P)).
Proof.
  intros Hab Hg Hd. rewrite <- qsum_scal. apply qsum_ext_in. intros s Hs.
  pose proof (tab_in q s Hs) as B.
  assert (D1 : is_derive (fun y => g (rescale_x a b y)) s ((b - a) / 2 * g' (rescale_x a b s))).
  { evar_last; [apply (is_derive_comp g (rescale_x a b)); [apply Hd; assumption|]|].
    - unfold rescale_x. auto_derive; [exact I|reflexivity].
    - unfold scal; simpl; unfold mult; simpl. field. }
  assert (D2 : is_derive (fun y => g (rescale_x a b y)) s (peval (pder P) s)).
  { apply (is_derive_ext_loc (peval P)); [|apply peval_pder].
    assert (Hd0 : 0 < Rmin (1 - s) (s + 1)) by (apply Rmin_glb_lt; lra).
    exists (mkposreal _ Hd0). intros y Hy. symmetry. apply Hg.
    unfold ball in Hy; simpl in Hy; unfold AbsRing_ball, abs, minus, plus, opp in Hy; simpl in Hy.
    pose proof (Rmin_l (1 - s) (s + 1)). pose proof (Rmin_r (1 - s) (s + 1)).
    apply Rabs_lt_between in Hy. lra. }
  rewrite <- (is_derive_unique _ _ _ D1). apply is_derive_unique. exact D2.
Qed.

(** *** all cells *)
Lemma comp_ibp (T : list R) (g g' : R -> R) (P : nat -> list R) (nb : nat -> R) k :
  increasing T -> (k <= 2 * m)%nat ->
  (forall e, (S e < length T)%nat -> (length (P e) <= S k)%nat) ->
  (forall e, (S e < length T)%nat -> norm1 (P e) <= nb e) ->
  (forall e s, (S e < length T)%nat -> -1 < s < 1 -> g (rescale_x (nth e T 0) (nth (S e) T 0) s) = peval (P e) s) ->
  (forall e s, (S e < length T)%nat -> In s (fst (nodes_and_weights q)) ->
     is_derive g (rescale_x (nth e T 0) (nth (S e) T 0) s) (g' (rescale_x (nth e T 0) (nth (S e) T 0) s))) ->
  (forall e, (S (S e) < length T)%nat -> peval (P e) 1 = peval (P (S e)) (-1)) ->
  forall E, length T = S (S E) ->
  Rabs (qsum (composite_quad T q) g' - (peval (P E) 1 - peval (P 0%nat) (-1)))
  <= tau * INR k * rsum (S E) nb.
Proof.
  intros HT Hk HL HN Hg Hd HM E HE. rewrite comp_qsum.
  assert (S1 : lsum (map (fun ab => (snd ab - fst ab) / 2 * qsum (nodes_and_weights q) (fun t => g' (rescale_x (fst ab) (snd ab) t))) (cells T))
     = rsum (S E) (fun e => qsum (nodes_and_weights q) (peval (pder (P e))))).
  { assert (LC : length (cells T) = S E) by (rewrite cells_length, HE; lia).
    assert (G : forall f (l : list (R * R)), lsum (map f l) = rsum (length l) (fun e => f (nth e l (0, 0)))).
    { intros f l. induction l as [|a l IH] using rev_ind; [reflexivity|].
      rewrite map_app, lsum_app, app_length, IH. simpl length. rewrite Nat.add_comm. cbn [Nat.add rsum].
      rewrite app_nth2, Nat.sub_diag by lia. f_equal; [|unfold lsum; simpl; ring].
      apply rsum_ext. intros i Hi. rewrite app_nth1 by lia. reflexivity. }
    rewrite G, LC. apply rsum_ext. intros e He. rewrite cells_nth by lia. cbn [fst snd].
    apply (cell_term g g' (P e)); [apply HT; lia | |].
    - intros s Hs. apply Hg; [lia | exact Hs].
    - intros s _ Hs. apply Hd; [lia | exact Hs]. }
  rewrite S1. clear S1.
  assert (G : forall F, (F <= E)%nat ->
    Rabs (rsum (S F) (fun e => qsum (nodes_and_weights q) (peval (pder (P e)))) - (peval (P F) 1 - peval (P 0%nat) (-1)))
    <= tau * INR k * rsum (S F) nb).
  { induction F as [|F IH]; intros HF.
    - pose proof (cell_ibp (P 0%nat) k (HL 0%nat ltac:(lia)) Hk) as A. pose proof (HN 0%nat ltac:(lia)).
      cbn [rsum]. rewrite !Rplus_0_l. eapply Rle_trans; [exact A|]. rewrite Rmult_assoc.
      apply Rmult_le_compat_l; [left; apply tau_pos|]. apply Rmult_le_compat_l; [apply pos_INR | exact H].
    - specialize (IH ltac:(lia)). pose proof (cell_ibp (P (S F)) k (HL (S F) ltac:(lia)) Hk) as A.
      pose proof (HN (S F) ltac:(lia)) as N. pose proof (HM F ltac:(lia)) as M.
      change (rsum (S (S F)) ?f) with (rsum (S F) f + f (S F)). cbv beta.
      set (s := rsum (S F) (fun e => qsum (nodes_and_weights q) (peval (pder (P e))))) in *.
      set (x := qsum (nodes_and_weights q) (peval (pder (P (S F))))) in *.
      replace (s + x - (peval (P (S F)) 1 - peval (P 0%nat) (-1)))
        with ((s - (peval (P F) 1 - peval (P 0%nat) (-1))) + (x - (peval (P (S F)) 1 - peval (P (S F)) (-1)))) by (rewrite M; ring).
      eapply Rle_trans; [apply Rabs_triang|]. rewrite Rmult_plus_distr_l. apply Rplus_le_compat; [exact IH|].
      eapply Rle_trans; [exact A|]. rewrite Rmult_assoc.
      apply Rmult_le_compat_l; [left; apply tau_pos|]. apply Rmult_le_compat_l; [apply pos_INR | exact N]. }
  apply G. lia.
Qed.
End Rule.

(** *** polynomial pieces of B-splines *)
Section Pieces.
Variable t : nat -> R.
Hypothesis Ht : nondecreasing t.

Fixpoint bv (m q i : nat) (x : R) : R :=
  match q with
  | O => if (i =? m)%nat then 1 else 0
  | S q' => (x - t i) * inv0 (t (i + S q')%nat - t i) * bv m q' i x
         + (t (i + S q' + 1)%nat - x) * inv0 (t (i + S q' + 1)%nat - t (S i)) * bv m q' (S i) x
  end.
Lemma Bspl_bv m q i x : t m <= x < t (S m) -> Bspl t q i x = bv m q i x.
Proof.
  intros Hx. revert i. induction q as [|q IH]; intros i; cbn [Bspl bv]; [|rewrite !IH; reflexivity].
  unfold chi. destruct (Nat.eqb_spec i m) as [->|Hne].
  - destruct (Rle_dec (t m) x); [|lra]. destruct (Rlt_dec x (t (S m))); [reflexivity|lra].
  - destruct (Rle_dec (t i) x) as [H1|H1]; [|reflexivity]. destruct (Rlt_dec x (t (S i))) as [H2|H2]; [|reflexivity].
    exfalso. destruct (Nat.lt_ge_cases i m).
    + pose proof (nondecreasing_le t Ht (S i) m ltac:(lia)). lra.
    + pose proof (nondecreasing_le t Ht (S m) i ltac:(lia)). lra.
Qed.
Lemma bv_out m q i x : (m < i)%nat \/ (i + q < m)%nat -> bv m q i x = 0.
Proof.
  revert i. induction q as [|q IH]; intros i H; cbn [bv].
  - destruct (Nat.eqb_spec i m); [lia|reflexivity].
  - rewrite !IH by lia. ring.
Qed.
Lemma bv_match m q i : t m < t (S m) -> t (S m) < t (S (S m)) -> bv m (S q) i (t (S m)) = bv (S m) (S q) i (t (S m)).
Proof.
  intros H1 H2. revert i. induction q as [|q IH]; intros i; [|cbn [bv] in IH |- *; rewrite !IH; reflexivity].
  cbn [bv]. replace (i + 1 + 1)%nat with (S (S i)) by lia. replace (i + 1)%nat with (S i) by lia.
  destruct (Nat.eqb_spec i m) as [->|N1].
  - replace (S m =? m)%nat with false by (symmetry; apply Nat.eqb_neq; lia).
    rewrite Nat.eqb_refl. replace (m =? S m)%nat with false by (symmetry; apply Nat.eqb_neq; lia).
    rewrite !inv0_nz by lra. field. lra.
  - destruct (Nat.eqb_spec i (S m)) as [->|N2].
    + replace (S (S m) =? m)%nat with false by (symmetry; apply Nat.eqb_neq; lia).
      replace (S (S m) =? S m)%nat with false by (symmetry; apply Nat.eqb_neq; lia). ring.
    + destruct (Nat.eqb_spec (S i) m) as [<-|N3].
      * replace (S i =? S (S i))%nat with false by (symmetry; apply Nat.eqb_neq; lia). ring.
      * replace (S i =? S m)%nat with false by (symmetry; apply Nat.eqb_neq; lia). ring.
Qed.
Lemma bv_right m q i : (forall k, (S m <= k <= m + q)%nat -> t k = t (S m)) -> (i < m)%nat -> bv m q i (t (S m)) = 0.
Proof.
  revert i. induction q as [|q IH]; intros i Hk Hi; cbn [bv].
  - destruct (Nat.eqb_spec i m); [lia|reflexivity].
  - rewrite (IH i) by (try lia; intros; apply Hk; lia).
    destruct (Nat.eq_dec (S i) m) as [E|E].
    + rewrite (Hk (i + S q + 1)%nat) by lia. ring.
    + rewrite (IH (S i)) by (try lia; intros; apply Hk; lia). ring.
Qed.
Lemma bv_left m q i : (forall k, (m < k + q)%nat -> (k <= m)%nat -> t k = t m) -> (m < i + q)%nat -> bv m q i (t m) = 0.
Proof.
  revert i. induction q as [|q IH]; intros i Hk Hi; cbn [bv].
  - destruct (Nat.eqb_spec i m); [lia|reflexivity].
  - rewrite (IH (S i)) by (try lia; intros; apply Hk; lia).
    destruct (Nat.eq_dec (i + q) m) as [E|E].
    + rewrite (Hk i) by lia. ring.
    + rewrite (IH i) by (try lia; intros; apply Hk; lia). ring.
Qed.
Lemma bv_left_knot m q : bv m (S q) m (t m) = 0.
Proof. cbn [bv]. rewrite (bv_out m q (S m)) by lia. ring. Qed.
Lemma bv_shift n c : (forall i, t (i + n)%nat = t i + c) -> forall m q i x, bv (m + n) q (i + n) (x + c) = bv m q i x.
Proof.
  intros Hs m q. induction q as [|q IH]; intros i x; cbn [bv].
  - destruct (Nat.eqb_spec (i + n) (m + n)), (Nat.eqb_spec i m); try lia; reflexivity.
  - change (S (i + n)) with (S i + n)%nat. rewrite !IH.
    replace (i + n + S q)%nat with (i + S q + n)%nat by lia. replace (i + S q + n + 1)%nat with (i + S q + 1 + n)%nat by lia.
    rewrite !Hs. f_equal; f_equal; [f_equal; [ring | f_equal; ring] .. ].
Qed.

(** in the reference coordinate of the cell m *)
Section Ref.
Variable m : nat.
Hypothesis Hm : t m < t (S m).
Let u := (t m + t (S m)) / 2.
Let v := (t (S m) - t m) / 2.
Fixpoint rb (q i : nat) : list R :=
  match q with
  | O => [if (i =? m)%nat then 1 else 0]
  | S q' => padd (pmul [(u - t i) * inv0 (t (i + S q')%nat - t i); v * inv0 (t (i + S q')%nat - t i)] (rb q' i))
                 (pmul [(t (i + S q' + 1)%nat - u) * inv0 (t (i + S q' + 1)%nat - t (S i)); - v * inv0 (t (i + S q' + 1)%nat - t (S i))] (rb q' (S i)))
  end.
Lemma rb_eval q i s : peval (rb q i) s = bv m q i (u + v * s).
Proof.
  revert i. induction q as [|q IH]; intros i; cbn [rb bv]; [simpl; ring|].
  rewrite padd_eval, !pmul_eval, !IH. simpl. ring.
Qed.
Lemma rb_x s : u + v * s = rescale_x (t m) (t (S m)) s.
Proof. unfold rescale_x, u, v. field. Qed.
Lemma rb_end q i : peval (rb q i) 1 = bv m q i (t (S m)) /\ peval (rb q i) (-1) = bv m q i (t m).
Proof. rewrite !rb_eval. split; f_equal; unfold u, v; field. Qed.
Lemma rb_length q i : (length (rb q i) <= S q)%nat.
Proof.
  revert i. induction q as [|q IH]; intros i; [simpl; lia|]. cbn [rb]. rewrite padd_length.
  pose proof (IH i). pose proof (IH (S i)).
  match goal with |- (Nat.max (length (pmul ?a ?b)) (length (pmul ?c ?d)) <= _)%nat =>
    pose proof (pmul_len a b 1 q ltac:(simpl; lia) ltac:(lia)); pose proof (pmul_len c d 1 q ltac:(simpl; lia) ltac:(lia)) end. lia.
Qed.
Lemma rb_norm q i : norm1 (rb q i) <= if ((i <=? m) && (m <=? i + q))%nat%bool then 2 ^ q else 0.
Proof.
  revert i. induction q as [|q IH]; intros i.
  - cbn [rb]. rewrite Nat.add_0_r. unfold norm1, lsum. simpl.
    destruct (Nat.eqb_spec i m) as [->|H]; [rewrite Nat.leb_refl; simpl; rewrite Rabs_R1; lra|].
    rewrite Rabs_R0. destruct (_ && _)%bool; lra.
  - cbn [rb]. eapply Rle_trans; [apply padd_norm|].
    assert (Hu : forall a b, a <= b -> t m <= t (S m)) by (intros; lra).
    assert (A : norm1 (pmul [(u - t i) * inv0 (t (i + S q)%nat - t i); v * inv0 (t (i + S q)%nat - t i)] (rb q i)) <= norm1 (rb q i)).
    { eapply Rle_trans; [apply pmul_norm|]. pose proof (norm1_nonneg (rb q i)) as N0. pose proof (IH i) as I1.
      destruct ((i <=? m) && (m <=? i + q))%nat%bool eqn:Eb.
      - apply andb_prop in Eb. destruct Eb as [E1 E2]. apply Nat.leb_le in E1, E2.
        pose proof (nondecreasing_le t Ht i m E1). pose proof (nondecreasing_le t Ht (S m) (i + S q) ltac:(lia)).
        rewrite !norm1_cons. unfold norm1 at 1, lsum. simpl fold_right. rewrite !Rabs_mult, inv0_nz by lra.
        rewrite (Rabs_pos_eq (u - t i)), (Rabs_pos_eq v) by (unfold u, v; lra).
        rewrite Rabs_pos_eq by (left; apply Rinv_0_lt_compat; lra).
        replace ((u - t i) * / (t (i + S q)%nat - t i) + (v * / (t (i + S q)%nat - t i) + 0)) with ((t (S m) - t i) / (t (i + S q)%nat - t i)) by (unfold u, v; field; lra).
        rewrite <- (Rmult_1_l (norm1 (rb q i))) at 2. apply Rmult_le_compat_r; [exact N0|].
        apply Rmult_le_reg_r with (t (i + S q)%nat - t i); [lra|]. unfold Rdiv. rewrite Rmult_assoc, Rinv_l by lra. lra.
      - assert (Z : norm1 (rb q i) = 0) by lra. rewrite Z. lra. }
    assert (B : norm1 (pmul [(t (i + S q + 1)%nat - u) * inv0 (t (i + S q + 1)%nat - t (S i)); - v * inv0 (t (i + S q + 1)%nat - t (S i))] (rb q (S i))) <= norm1 (rb q (S i))).
    { eapply Rle_trans; [apply pmul_norm|]. pose proof (norm1_nonneg (rb q (S i))) as N0. pose proof (IH (S i)) as I1.
      destruct ((S i <=? m) && (m <=? S i + q))%nat%bool eqn:Eb.
      - apply andb_prop in Eb. destruct Eb as [E1 E2]. apply Nat.leb_le in E1, E2.
        pose proof (nondecreasing_le t Ht (S i) m E1). pose proof (nondecreasing_le t Ht (S m) (i + S q + 1) ltac:(lia)).
        rewrite !norm1_cons. unfold norm1 at 1, lsum. simpl fold_right. rewrite !Rabs_mult, Rabs_Ropp, inv0_nz by lra.
        rewrite (Rabs_pos_eq (t (i + S q + 1)%nat - u)), (Rabs_pos_eq v) by (unfold u, v; lra).
        rewrite Rabs_pos_eq by (left; apply Rinv_0_lt_compat; lra).
        replace ((t (i + S q + 1)%nat - u) * / (t (i + S q + 1)%nat - t (S i)) + (v * / (t (i + S q + 1)%nat - t (S i)) + 0)) with ((t (i + S q + 1)%nat - t m) / (t (i + S q + 1)%nat - t (S i))) by (unfold u, v; field; lra).
        rewrite <- (Rmult_1_l (norm1 (rb q (S i)))) at 2. apply Rmult_le_compat_r; [exact N0|].
        apply Rmult_le_reg_r with (t (i + S q + 1)%nat - t (S i)); [lra|]. unfold Rdiv. rewrite Rmult_assoc, Rinv_l by lra. lra.
      - assert (Z : norm1 (rb q (S i)) = 0) by lra. rewrite Z. lra. }
    pose proof (IH i) as I1. pose proof (IH (S i)) as I2.
    assert (P2 : 0 < 2 ^ q) by (apply pow_lt; lra).
    assert (C1 : norm1 (rb q i) <= 2 ^ q) by (destruct ((i <=? m) && (m <=? i + q))%nat%bool; lra).
    assert (C2 : norm1 (rb q (S i)) <= 2 ^ q) by (destruct ((S i <=? m) && (m <=? S i + q))%nat%bool; lra).
    destruct ((i <=? m) && (m <=? i + S q))%nat%bool eqn:Eb; [simpl pow; lra|].
    assert (Z1 : ((i <=? m) && (m <=? i + q))%nat%bool = false).
    { apply Bool.andb_false_iff in Eb. apply Bool.andb_false_iff. rewrite !Nat.leb_gt in *. lia. }
    assert (Z2 : ((S i <=? m) && (m <=? S i + q))%nat%bool = false).
    { apply Bool.andb_false_iff in Eb. apply Bool.andb_false_iff. rewrite !Nat.leb_gt in *. lia. }
    rewrite Z1 in I1. rewrite Z2 in I2. lra.
Qed.
End Ref.
End Pieces.

(** at most p+1 cells of consecutive indices lie in [i, i+p] *)
Lemma count_cells p i m0 E c : 0 <= c ->
  rsum E (fun e => if ((i <=? m0 + e) && (m0 + e <=? i + p))%nat%bool then c else 0) <= INR (p + 1) * c.
Proof.
  intros Hc.
  assert (G : rsum E (fun e => if ((i <=? m0 + e) && (m0 + e <=? i + p))%nat%bool then c else 0)
     <= INR (Nat.min (p + 1) (m0 + E - i)) * c).
  { induction E as [|E IH]; cbn [rsum]; [apply Rmult_le_pos; [apply pos_INR | exact Hc]|].
    destruct ((i <=? m0 + E) && (m0 + E <=? i + p))%nat%bool eqn:Eb.
    - apply andb_prop in Eb. destruct Eb as [E1 E2]. apply Nat.leb_le in E1, E2.
      replace (Nat.min (p + 1) (m0 + S E - i)) with (S (Nat.min (p + 1) (m0 + E - i))) by lia.
      rewrite S_INR. lra.
    - rewrite Rplus_0_r. eapply Rle_trans; [exact IH|]. apply Rmult_le_compat_r; [exact Hc|]. apply le_INR. lia. }
  eapply Rle_trans; [exact G|]. apply Rmult_le_compat_r; [exact Hc|]. apply le_INR. lia.
Qed.
