(** Proofs about the quadrature model. *)
From Coq Require Import Reals Lra Lia List ZArith Permutation Arith Bool.
From Coquelicot Require Import Coquelicot.
From Verif Require Import Model.RBase Model.Spline Model.Quad Spec.QuadSpec.
Import ListNotations.
Local Open Scope R_scope.

(** *** meshgrid *)
Lemma meshgrid3_map {A B} (f : A -> B) xs ys zs :
  meshgrid3 (map f xs) (map f ys) (map f zs)
  = map (fun t => let '(a, b, c) := t in (f a, f b, f c)) (meshgrid3 xs ys zs).
Proof.
  unfold meshgrid3. rewrite !flat_map_concat_map, !map_map, concat_map, map_map.
  f_equal. apply map_ext. intros y.
  rewrite !flat_map_concat_map, !map_map, concat_map, map_map. f_equal. apply map_ext. intros x.
  rewrite !map_map. reflexivity.
Qed.

Lemma combine_map {A B C} (f : A -> B) (g : A -> C) l : combine (map f l) (map g l) = map (fun a => (f a, g a)) l.
Proof. induction l; simpl; congruence. Qed.
Lemma fst_combine {A B} (l : list A) (m : list B) : length l = length m -> map fst (combine l m) = l.
Proof. revert m; induction l; destruct m; simpl; intros; try discriminate; f_equal; auto. Qed.
Lemma snd_combine {A B} (l : list A) (m : list B) : length l = length m -> map snd (combine l m) = m.
Proof. revert m; induction l; destruct m; simpl; intros; try discriminate; f_equal; auto. Qed.

Definition pt (t : (R * R) * (R * R) * (R * R)) : (R * R * R) * R :=
  let '((x, a), (y, b), (z, c)) := t in ((x, y, z), a * b * c).

Lemma combine_mesh xs ys zs wx wy wz :
  length xs = length wx -> length ys = length wy -> length zs = length wz ->
  combine (meshgrid3 xs ys zs) (map prod3 (meshgrid3 wx wy wz))
  = map pt (meshgrid3 (combine xs wx) (combine ys wy) (combine zs wz)).
Proof.
  intros Hx Hy Hz.
  rewrite <- (fst_combine xs wx Hx) at 1. rewrite <- (fst_combine ys wy Hy) at 1. rewrite <- (fst_combine zs wz Hz) at 1.
  rewrite <- (snd_combine xs wx Hx) at 2. rewrite <- (snd_combine ys wy Hy) at 2. rewrite <- (snd_combine zs wz Hz) at 2.
  rewrite !meshgrid3_map, map_map, combine_map. apply map_ext.
  intros [[[x a] [y b]] [z c]]. reflexivity.
Qed.

Lemma flat_map_swap {A B C} (g : A -> B -> list C) xs ys :
  Permutation (flat_map (fun y => flat_map (fun x => g x y) xs) ys)
              (flat_map (fun x => flat_map (fun y => g x y) ys) xs).
Proof.
  revert xs. induction ys as [|y ys IH]; intros xs; simpl.
  - induction xs; simpl; auto.
  - rewrite IH. clear IH. induction xs as [|x xs IH]; simpl; [constructor|].
    rewrite <- app_assoc. rewrite <- !app_assoc. apply Permutation_app_head.
    rewrite <- IH. rewrite !app_assoc. apply Permutation_app_tail. apply Permutation_app_comm.
Qed.

Lemma list_prod_flat {A B} (l : list A) (m : list B) : list_prod l m = flat_map (fun a => map (fun b => (a, b)) m) l.
Proof. induction l; simpl; congruence. Qed.

Lemma mesh_perm {A} (xs ys zs : list A) : Permutation (meshgrid3 xs ys zs) (list_prod (list_prod xs ys) zs).
Proof.
  unfold meshgrid3. rewrite (flat_map_swap (fun x y => map (fun z => (x, y, z)) zs) xs ys).
  rewrite !list_prod_flat. rewrite flat_map_concat_map, (flat_map_concat_map (fun a => map (fun b => (a, b)) zs)).
  rewrite (flat_map_concat_map (fun a => map (fun b => (a, b)) ys)), concat_map, map_map.
  induction xs as [|x xs IH]; simpl; [constructor|].
  rewrite concat_app. apply Permutation_app; [|exact IH].
  rewrite map_map, flat_map_concat_map. apply Permutation_refl.
Qed.

Lemma lsum_app l m : lsum (l ++ m) = lsum l + lsum m.
Proof. unfold lsum; induction l; simpl; [lra | rewrite IHl; lra]. Qed.
Lemma lsum_perm l m : Permutation l m -> lsum l = lsum m.
Proof. induction 1; unfold lsum in *; simpl; lra. Qed.
Lemma lsum_map_plus {A} (f g : A -> R) l : lsum (map (fun x => f x + g x) l) = lsum (map f l) + lsum (map g l).
Proof. unfold lsum; induction l; simpl; [lra | rewrite IHl; lra]. Qed.
Lemma lsum_map_scal {A} (c : R) (f : A -> R) l : lsum (map (fun x => c * f x) l) = c * lsum (map f l).
Proof. unfold lsum; induction l; simpl; [lra | rewrite IHl; lra]. Qed.
Lemma lsum_prod2 {A B} (f : A -> R) (g : B -> R) l m :
  lsum (map (fun ab => f (fst ab) * g (snd ab)) (list_prod l m)) = lsum (map f l) * lsum (map g m).
Proof.
  induction l as [|a l IH]; [unfold lsum; simpl; lra|].
  simpl list_prod. rewrite map_app, lsum_app, IH, map_map. simpl.
  rewrite (lsum_map_scal (f a) g m). change (lsum (f a :: map f l)) with (f a + lsum (map f l)). ring.
Qed.

(** flattened families of lists of equal length *)
Lemma flat_length {A B} (f : A -> list B) m l : (forall a, length (f a) = m) -> length (flat_map f l) = (length l * m)%nat.
Proof. intros H. induction l; simpl; [reflexivity|]. rewrite app_length, H, IHl. lia. Qed.
Lemma flat_nth {A B} (f : A -> list B) m l (da : A) (db : B) i k :
  (forall a, length (f a) = m) -> (i < length l)%nat -> (k < m)%nat ->
  nth (i * m + k) (flat_map f l) db = nth k (f (nth i l da)) db.
Proof.
  intros H. revert i. induction l as [|a l IH]; intros i Hi Hk; simpl in Hi; [lia|].
  destruct i as [|i]; simpl.
  - rewrite app_nth1; [reflexivity|]. rewrite H. lia.
  - rewrite app_nth2; rewrite H; [|lia].
    replace (m + i * m + k - m)%nat with (i * m + k)%nat by lia. apply IH; lia.
Qed.

Lemma mesh_length {A} (xs ys zs : list A) : length (meshgrid3 xs ys zs) = (length ys * (length xs * length zs))%nat.
Proof.
  unfold meshgrid3. apply flat_length. intros y. apply flat_length. intros x. apply map_length.
Qed.
Lemma mesh_nth {A} (xs ys zs : list A) d j1 j2 j3 :
  (j1 < length xs)%nat -> (j2 < length ys)%nat -> (j3 < length zs)%nat ->
  nth ((j2 * length xs + j1) * length zs + j3) (meshgrid3 xs ys zs) (d, d, d)
  = (nth j1 xs d, nth j2 ys d, nth j3 zs d).
Proof.
  intros H1 H2 H3. unfold meshgrid3.
  replace ((j2 * length xs + j1) * length zs + j3)%nat
    with (j2 * (length xs * length zs) + (j1 * length zs + j3))%nat by ring.
  rewrite (flat_nth _ (length xs * length zs) ys d).
  - rewrite (flat_nth _ (length zs) xs d); auto.
    + rewrite (nth_indep _ _ (nth j1 xs d, nth j2 ys d, d)) by (rewrite map_length; exact H3).
      rewrite (map_nth (fun z => (nth j1 xs d, nth j2 ys d, z))). reflexivity.
    + intros; apply map_length.
  - intros y. apply flat_length. intros; apply map_length.
  - exact H2.
  - apply Nat.lt_le_trans with ((S j1) * length zs)%nat; [lia|]. apply Nat.mul_le_mono_r; lia.
Qed.

(** *** the tables *)
Section Tables.
Local Open Scope Z_scope.
Fixpoint moment (xs ws : list Z) (k : nat) : Z :=
  match xs, ws with x :: xs', w :: ws' => w * x ^ (Z.of_nat k) + moment xs' ws' k | _, _ => 0 end.
(** (k+1) times the integral of t^k over [-1,1] *)
Definition mint (k : nat) : Z := if Nat.even k then 2 else 0.
Fixpoint sortedb (l : list Z) : bool :=
  match l with x :: ((y :: _) as l') => (x <? y) && sortedb l' | _ => true end.
Definition moment_ok xs ws (k : nat) : bool :=
  let u := 10 ^ (16 * Z.of_nat (S k)) in let k1 := Z.of_nat (S k) in
  Z.abs (moment xs ws k * k1 - mint k * u) * 10 ^ 14 <=? u * k1.
Definition tab_ok (m : nat) (r : list Z * list Z) : bool :=
  let (xs, ws) := r in
  (length xs =? m)%nat && (length ws =? m)%nat && sortedb xs
  && forallb (fun x => (- 10 ^ 16 <? x) && (x <? 10 ^ 16)) xs
  && forallb (fun w => 0 <? w) ws
  && forallb (moment_ok xs ws) (seq 0 (2 * m)).
Definition order (p : nat) : nat := if (1 <=? p)%nat && (p <=? 10)%nat then p else 10%nat.
Lemma tabs_ok : forallb (fun m => tab_ok m (nodes_and_weights_Z m)) (seq 1 10) = true.
Proof. vm_compute. reflexivity. Qed.
Lemma tab_all p : tab_ok (order p) (nodes_and_weights_Z p) = true.
Proof.
  assert (H : forall m, (1 <= m <= 10)%nat -> tab_ok m (nodes_and_weights_Z m) = true).
  { intros m Hm. apply (proj1 (forallb_forall _ _) tabs_ok m). apply in_seq. lia. }
  unfold order. destruct (1 <=? p)%nat eqn:E1; simpl.
  - destruct (p <=? 10)%nat eqn:E2.
    + apply Nat.leb_le in E1, E2. apply H. lia.
    + apply Nat.leb_gt in E2. rewrite <- (H 10%nat) by lia.
      do 11 (destruct p; [lia|]). reflexivity.
  - apply Nat.leb_gt in E1. destruct p; [|lia]. apply (H 10%nat). lia.
Qed.
End Tables.

Section TabR.
Variable p : nat.
Notation m := (order p).
Notation xs := (fst (nodes_and_weights p)).
Notation ws := (snd (nodes_and_weights p)).

Lemma tab_split : length (fst (nodes_and_weights_Z p)) = m /\ length (snd (nodes_and_weights_Z p)) = m
  /\ sortedb (fst (nodes_and_weights_Z p)) = true
  /\ (forall x, In x (fst (nodes_and_weights_Z p)) -> (- 10 ^ 16 < x /\ x < 10 ^ 16)%Z)
  /\ (forall w, In w (snd (nodes_and_weights_Z p)) -> (0 < w)%Z)
  /\ (forall k, (k < 2 * m)%nat ->
       moment_ok (fst (nodes_and_weights_Z p)) (snd (nodes_and_weights_Z p)) k = true).
Proof.
  pose proof (tab_all p) as H. unfold tab_ok in H. destruct (nodes_and_weights_Z p) as [xq wq]. cbn [fst snd].
  rewrite !andb_true_iff in H. destruct H as [[[[[H1 H2] H3] H4] H5] H6].
  split; [apply Nat.eqb_eq; exact H1|]. split; [apply Nat.eqb_eq; exact H2|]. split; [exact H3|].
  split; [|split].
  - intros x Hx. rewrite forallb_forall in H4. specialize (H4 x Hx). apply andb_true_iff in H4.
    destruct H4 as [A B]. apply Z.ltb_lt in A, B. split; assumption.
  - intros w Hw. rewrite forallb_forall in H5. apply Z.ltb_lt. auto.
  - intros k Hk. rewrite forallb_forall in H6. apply H6. apply in_seq. lia.
Qed.

Lemma u16 : 0 < 10 ^ 16. Proof. apply pow_lt. lra. Qed.
Lemma IZR_1016 : IZR (10 ^ 16) = 10 ^ 16. Proof. simpl. lra. Qed.
Lemma ufl_lt a b : (a < b)%Z -> ufl a < ufl b.
Proof.
  intros Hab. unfold ufl, Rdiv. apply Rmult_lt_compat_r; [apply Rinv_0_lt_compat, u16|]. apply IZR_lt. exact Hab.
Qed.
Lemma ufl_1 : ufl (10 ^ 16) = 1. Proof. unfold ufl. rewrite IZR_1016. unfold Rdiv; rewrite ?Ropp_mult_distr_l_reverse, ?Rmult_0_l, ?Rinv_r; try reflexivity; apply Rgt_not_eq, u16. Qed.
Lemma ufl_m1 : ufl (- 10 ^ 16) = -1. Proof. unfold ufl. rewrite opp_IZR, IZR_1016. unfold Rdiv; rewrite ?Ropp_mult_distr_l_reverse, ?Rmult_0_l, ?Rinv_r; try reflexivity; apply Rgt_not_eq, u16. Qed.
Lemma ufl_0 : ufl 0 = 0. Proof. unfold ufl. unfold Rdiv; rewrite ?Ropp_mult_distr_l_reverse, ?Rmult_0_l, ?Rinv_r; try reflexivity; apply Rgt_not_eq, u16. Qed.
Lemma tab_lx : length xs = m. Proof. simpl. rewrite map_length. apply tab_split. Qed.
Lemma tab_lw : length ws = m. Proof. simpl. rewrite map_length. apply tab_split. Qed.
Lemma tab_in x : In x xs -> -1 < x < 1.
Proof.
  simpl. intros Hx. apply in_map_iff in Hx. destruct Hx as [q [<- Hq]].
  destruct (proj1 (proj2 (proj2 (proj2 tab_split))) q Hq) as [A B].
  apply ufl_lt in A, B. rewrite ufl_m1 in A. rewrite ufl_1 in B. lra.
Qed.
Lemma tab_pos w : In w ws -> 0 < w.
Proof.
  simpl. intros Hx. apply in_map_iff in Hx. destruct Hx as [q [<- Hq]].
  pose proof (proj1 (proj2 (proj2 (proj2 (proj2 tab_split)))) q Hq) as A.
  apply ufl_lt in A. rewrite ufl_0 in A. exact A.
Qed.
Lemma sortedb_R l : sortedb l = true -> increasing (map ufl l).
Proof.
  intros Hs i. revert l Hs. induction i as [|i IH]; intros [|x [|y l]] Hs Hi; simpl in Hi; try lia.
  - simpl. simpl in Hs. apply andb_true_iff in Hs. destruct Hs as [Hs _]. apply ufl_lt. apply Z.ltb_lt. exact Hs.
  - simpl in Hs. apply andb_true_iff in Hs. destruct Hs as [_ Hs].
    specialize (IH (y :: l) Hs). simpl in IH |- *. apply IH. simpl. lia.
Qed.
Lemma tab_inc : increasing xs.
Proof. apply sortedb_R. apply tab_split. Qed.

Definition rmoment (xl wl : list R) (k : nat) : R := qsum (xl, wl) (fun x => x ^ k).
Definition rmint (k : nat) : R := (1 - (-1) ^ (S k)) / INR (S k).
Lemma pow_m1_even k : (-1) ^ (S k) = if Nat.even k then -1 else 1.
Proof.
  assert (E : forall n, (-1) ^ n = if Nat.even n then 1 else -1).
  { induction n as [|n IH]; [reflexivity|]. rewrite Nat.even_succ, <- Nat.negb_even. simpl pow. rewrite IH.
    destruct (Nat.even n); simpl; lra. }
  rewrite E, Nat.even_succ, <- Nat.negb_even. destruct (Nat.even k); reflexivity.
Qed.
Lemma mint_R k : rmint k = IZR (mint k) / INR (S k).
Proof. unfold mint, rmint. rewrite pow_m1_even. f_equal. destruct (Nat.even k); lra. Qed.
Lemma moment_R l w k : rmoment (map ufl l) (map ufl w) k = IZR (moment l w k) / (10 ^ 16) ^ (S k).
Proof.
  unfold rmoment, qsum, ufl. pose proof u16 as Hu. revert Hu. generalize (10 ^ 16). intros u Hu.
  assert (P : u ^ k <> 0) by (apply pow_nonzero; lra).
  cbn [fst snd]. revert w. induction l as [|x l IH]; intros [|v w]; try (simpl; unfold Rdiv; ring).
  cbn [map combine moment]. unfold lsum in *. cbn [fold_right fst snd].
  rewrite IH, plus_IZR, mult_IZR, <- pow_IZR. unfold Rdiv. rewrite Rpow_mult_distr, pow_inv.
  cbn [pow]. field. split; [exact P | lra].
Qed.
Lemma tab_moment k : (k < 2 * m)%nat -> Rabs (rmoment xs ws k - rmint k) <= / 10 ^ 14.
Proof.
  intros Hk. pose proof (proj2 (proj2 (proj2 (proj2 (proj2 tab_split)))) k Hk) as A.
  unfold nodes_and_weights, fst, snd. unfold moment_ok, fst, snd in A.
  destruct (nodes_and_weights_Z p) as [xq wq]. rewrite moment_R, mint_R.
  set (M := moment xq wq k) in *. apply Z.leb_le in A. apply IZR_le in A.
  rewrite !mult_IZR, abs_IZR, minus_IZR, !mult_IZR in A.
  rewrite <- INR_IZR_INZ in A.
  replace (IZR (10 ^ (16 * Z.of_nat (S k)))) with ((10 ^ 16) ^ S k) in A.
  2: { rewrite Z.pow_mul_r by lia. rewrite <- pow_IZR. f_equal. symmetry. apply IZR_1016. }
  set (u := (10 ^ 16) ^ S k) in *. assert (Hu : 0 < u) by (apply pow_lt, u16).
  assert (Hk1 : 0 < INR (S k)) by (apply lt_0_INR; lia).
  replace (IZR (10 ^ 14)) with (10 ^ 14) in A by (simpl; lra).
  assert (H14 : 0 < 10 ^ 14) by (apply pow_lt; lra).
  replace (IZR M / u - IZR (mint k) / INR (S k)) with ((IZR M * INR (S k) - IZR (mint k) * u) / (u * INR (S k))) by (field; lra).
  unfold Rdiv. rewrite Rabs_mult, (Rabs_pos_eq (/ _)) by (left; apply Rinv_0_lt_compat; nra).
  apply (Rmult_le_reg_r (u * INR (S k))); [nra|]. rewrite Rmult_assoc, Rinv_l by nra. rewrite Rmult_1_r.
  apply (Rmult_le_reg_r (10 ^ 14)); [exact H14|].
  replace (/ 10 ^ 14 * (u * INR (S k)) * 10 ^ 14) with (u * INR (S k)) by (field; lra). exact A.
Qed.
End TabR.

(** *** composite rules *)
Lemma cells_cons a b r : cells (a :: b :: r) = (a, b) :: cells (b :: r).
Proof. reflexivity. Qed.
Lemma cells_length T : length (cells T) = (length T - 1)%nat.
Proof.
  destruct T as [|a T]; [reflexivity|]. revert a. induction T as [|b T IH]; intros a; [reflexivity|].
  rewrite cells_cons. simpl length. rewrite IH. simpl. lia.
Qed.
Lemma cells_nth T i : (S i < length T)%nat -> nth i (cells T) (0, 0) = (nth i T 0, nth (S i) T 0).
Proof.
  destruct T as [|a T]; [simpl; lia|]. revert a i. induction T as [|b T IH]; intros a i Hi; [simpl in Hi; lia|].
  rewrite cells_cons. destruct i as [|i]; [reflexivity|].
  change (nth (S i) ((a, b) :: cells (b :: T)) (0, 0)) with (nth i (cells (b :: T)) (0, 0)).
  rewrite IH; [reflexivity|]. simpl in Hi |- *. lia.
Qed.
Lemma increasing_tl a T : increasing (a :: T) -> increasing T.
Proof. intros H i Hi. apply (H (S i)). simpl. lia. Qed.
Lemma increasing_lt T : increasing T -> forall j i, (i < j)%nat -> (j < length T)%nat -> nth i T 0 < nth j T 0.
Proof.
  intros H. induction j as [|j IH]; intros i Hi Hj; [lia|].
  destruct (Nat.eq_dec i j) as [->|Hne]; [apply H; exact Hj|].
  apply Rlt_trans with (nth j T 0); [apply IH; lia | apply H; exact Hj].
Qed.

Section Composite.
Variable p : nat.
Notation m := (order p).
Notation xs := (fst (nodes_and_weights p)).
Notation ws := (snd (nodes_and_weights p)).

Lemma order_pos : (1 <= m)%nat.
Proof.
  unfold order. destruct (1 <=? p)%nat eqn:E1; simpl; [|lia]. destruct (p <=? 10)%nat; [|lia].
  apply Nat.leb_le in E1. exact E1.
Qed.
Lemma comp_fst T : fst (composite_quad T p) = flat_map (fun ab => map (rescale_x (fst ab) (snd ab)) xs) (cells T).
Proof. reflexivity. Qed.
Lemma comp_snd T : snd (composite_quad T p) = flat_map (fun ab => map (rescale_w (fst ab) (snd ab)) ws) (cells T).
Proof. reflexivity. Qed.
Lemma comp_lx T : length (fst (composite_quad T p)) = ((length T - 1) * m)%nat.
Proof.
  rewrite comp_fst, (flat_length _ m), cells_length; [reflexivity|].
  intros [a b]. rewrite map_length. apply tab_lx.
Qed.
Lemma comp_lw T : length (snd (composite_quad T p)) = ((length T - 1) * m)%nat.
Proof.
  rewrite comp_snd, (flat_length _ m), cells_length; [reflexivity|].
  intros [a b]. rewrite map_length. apply tab_lw.
Qed.
Lemma comp_nth T i k : (S i < length T)%nat -> (k < m)%nat ->
  nth (i * m + k) (fst (composite_quad T p)) 0 = rescale_x (nth i T 0) (nth (S i) T 0) (nth k xs 0).
Proof.
  intros Hi Hk. rewrite comp_fst, (flat_nth _ m _ (0, 0)); auto.
  - rewrite cells_nth by exact Hi. cbn [fst snd].
    rewrite (nth_indep _ _ (rescale_x (nth i T 0) (nth (S i) T 0) 0)) by (rewrite map_length, tab_lx; exact Hk).
    apply map_nth.
  - intros [a b]. rewrite map_length. apply tab_lx.
  - rewrite cells_length. lia.
Qed.
Lemma xs_bd k : (k < m)%nat -> -1 < nth k xs 0 < 1.
Proof. intros Hk. apply tab_in with p, nth_In. rewrite tab_lx. exact Hk. Qed.
Lemma comp_inside T i k : increasing T -> (S i < length T)%nat -> (k < m)%nat ->
  nth i T 0 < nth (i * m + k) (fst (composite_quad T p)) 0 < nth (S i) T 0.
Proof.
  intros HT Hi Hk. rewrite comp_nth by assumption. pose proof (xs_bd k Hk) as B. pose proof (HT i Hi) as L.
  unfold rescale_x. revert B L. generalize (nth k xs 0) (nth i T 0) (nth (S i) T 0). intros x a b. intros. nra.
Qed.
Lemma comp_increasing T : increasing T -> increasing (fst (composite_quad T p)).
Proof.
  intros HT j Hj. rewrite comp_lx in Hj. pose proof order_pos as Hm.
  assert (Ej : j = (j / m * m + j mod m)%nat) by (rewrite Nat.mul_comm; apply Nat.div_mod; lia).
  set (i := (j / m)%nat) in *. set (k := (j mod m)%nat) in *.
  assert (Hk : (k < m)%nat) by (apply Nat.mod_upper_bound; lia).
  assert (Hi : (S i < length T)%nat).
  { assert (i * m < (length T - 1) * m)%nat by lia. apply Nat.mul_lt_mono_pos_r in H; lia. }
  destruct (Nat.eq_dec (S k) m) as [E|E].
  - assert (E2 : S j = (S i * m + 0)%nat) by lia. rewrite E2.
    rewrite Ej at 1. apply Rlt_trans with (nth (S i) T 0); [apply (comp_inside T i k HT Hi Hk)|].
    apply (comp_inside T (S i) 0 HT); [|lia].
    assert (S i * m < (length T - 1) * m)%nat by lia. apply Nat.mul_lt_mono_pos_r in H; lia.
  - assert (E2 : S j = (i * m + S k)%nat) by lia. rewrite E2. rewrite Ej at 1.
    rewrite !comp_nth by (try assumption; lia). pose proof (HT i Hi) as L.
    assert (Lx : nth k xs 0 < nth (S k) xs 0) by (apply tab_inc; rewrite tab_lx; lia).
    unfold rescale_x. revert L Lx. generalize (nth k xs 0) (nth (S k) xs 0) (nth i T 0) (nth (S i) T 0). intros x y a b. intros. nra.
Qed.
Lemma comp_pos T w : increasing T -> In w (snd (composite_quad T p)) -> 0 < w.
Proof.
  intros HT Hw. rewrite comp_snd in Hw. apply in_flat_map in Hw. destruct Hw as [[a b] [Hab Hw]].
  apply in_map_iff in Hw. destruct Hw as [v [<- Hv]]. apply tab_pos in Hv.
  apply (In_nth _ _ (0, 0)) in Hab. destruct Hab as [i [Hi E]]. rewrite cells_length in Hi.
  rewrite cells_nth in E by lia. injection E as <- <-. cbn [fst snd]. pose proof (HT i ltac:(lia)) as L.
  unfold rescale_w. nra.
Qed.

Lemma combine_flat {A B C} (f : A -> list B) (g : A -> list C) l : (forall a, length (f a) = length (g a)) ->
  combine (flat_map f l) (flat_map g l) = flat_map (fun a => combine (f a) (g a)) l.
Proof.
  intros H. induction l as [|a l IH]; [reflexivity|]. simpl. rewrite <- IH.
  specialize (H a). revert H. generalize (f a) (g a). intros u v. revert v.
  induction u as [|x u IHu]; intros [|y v] E; simpl in *; try discriminate; [reflexivity|]. f_equal. apply IHu. lia.
Qed.
Lemma lsum_flat {A} (f : A -> list R) l : lsum (flat_map f l) = lsum (map (fun a => lsum (f a)) l).
Proof. induction l as [|a l IH]; [reflexivity|]. simpl. rewrite lsum_app, IH. reflexivity. Qed.

Lemma map_flat {A B C} (f : B -> C) (g : A -> list B) l : map f (flat_map g l) = flat_map (fun a => map f (g a)) l.
Proof. rewrite !flat_map_concat_map, concat_map, map_map. reflexivity. Qed.
Lemma comp_qsum T f : qsum (composite_quad T p) f
  = lsum (map (fun ab => (snd ab - fst ab) / 2 * qsum (nodes_and_weights p) (fun t => f (rescale_x (fst ab) (snd ab) t))) (cells T)).
Proof.
  unfold qsum at 1. rewrite comp_fst, comp_snd, combine_flat.
  2: { intros a. rewrite !map_length, tab_lx, tab_lw. reflexivity. }
  rewrite map_flat, lsum_flat. f_equal. apply map_ext. intros [a b]. cbn [fst snd]. unfold qsum.
  rewrite <- lsum_map_scal. f_equal.
  generalize xs ws. intros u v. revert v. induction u as [|x u IH]; intros [|w v]; [reflexivity..|].
  cbn [map combine fst snd]. rewrite IH. f_equal. unfold rescale_w. field.
Qed.

(** *** polynomials *)
Fixpoint padd (c d : list R) : list R :=
  match c, d with [], _ => d | _, [] => c | a :: c', b :: d' => (a + b) :: padd c' d' end.
Lemma padd_eval c d x : peval (padd c d) x = peval c x + peval d x.
Proof. revert d. induction c as [|a c IH]; intros [|b d]; simpl; try lra. rewrite IH. ring. Qed.
Lemma norm1_cons a c : norm1 (a :: c) = Rabs a + norm1 c. Proof. reflexivity. Qed.
Lemma padd_norm c d : norm1 (padd c d) <= norm1 c + norm1 d.
Proof.
  revert d. induction c as [|a c IH]; intros [|b d]; simpl padd; try (unfold norm1, lsum; simpl; lra).
  rewrite !norm1_cons. pose proof (Rabs_triang a b). specialize (IH d). lra.
Qed.
Lemma padd_length c d : length (padd c d) = Nat.max (length c) (length d).
Proof. revert d. induction c as [|a c IH]; intros [|b d]; simpl; try reflexivity. rewrite IH. reflexivity. Qed.
Definition pscal (k : R) (c : list R) := map (Rmult k) c.
Lemma pscal_eval k c x : peval (pscal k c) x = k * peval c x.
Proof. unfold pscal. induction c as [|a c IH]; simpl; [ring|]. rewrite IH. ring. Qed.
Lemma pscal_norm k c : norm1 (pscal k c) = Rabs k * norm1 c.
Proof.
  unfold pscal. induction c as [|a c IH]; [unfold norm1, lsum; simpl; ring|].
  cbn [map]. rewrite !norm1_cons, IH, Rabs_mult. ring.
Qed.
(** coefficients of t |-> P (u + v t) *)
Fixpoint pcomp (u v : R) (c : list R) : list R :=
  match c with [] => [] | a :: c' => padd [a] (padd (pscal u (pcomp u v c')) (0 :: pscal v (pcomp u v c'))) end.
Lemma pcomp_eval u v c t : peval (pcomp u v c) t = peval c (u + v * t).
Proof.
  induction c as [|a c IH]; [reflexivity|]. cbn [pcomp]. rewrite !padd_eval. simpl. rewrite !pscal_eval, IH. ring.
Qed.
Lemma norm1_nonneg c : 0 <= norm1 c.
Proof. induction c as [|a c IH]; [unfold norm1, lsum; simpl; lra|]. rewrite norm1_cons. pose proof (Rabs_pos a). lra. Qed.
Lemma pcomp_norm u v c : Rabs u + Rabs v <= 1 -> norm1 (pcomp u v c) <= norm1 c.
Proof.
  intros H. induction c as [|a c IH]; [simpl; apply Rle_refl|]. cbn [pcomp]. rewrite norm1_cons.
  eapply Rle_trans; [apply padd_norm|]. apply Rplus_le_compat; [unfold norm1, lsum; simpl; lra|].
  eapply Rle_trans; [apply padd_norm|]. rewrite norm1_cons, Rabs_R0, !pscal_norm.
  pose proof (norm1_nonneg (pcomp u v c)). pose proof (Rabs_pos u). pose proof (Rabs_pos v). nra.
Qed.
Lemma pcomp_length u v c : (length (pcomp u v c) <= length c)%nat.
Proof.
  induction c as [|a c IH]; [simpl; lia|]. cbn [pcomp]. rewrite padd_length.
  assert (E : length (padd (pscal u (pcomp u v c)) (0 :: pscal v (pcomp u v c))) = S (length (pcomp u v c))).
  { rewrite padd_length. unfold pscal. cbn [length]. rewrite !map_length. lia. }
  rewrite E. simpl. lia.
Qed.

(** integral of a polynomial whose coefficients start at x^k *)
Fixpoint pint (k : nat) (c : list R) (a b : R) : R :=
  match c with [] => 0 | e :: c' => e * ((b ^ S k - a ^ S k) / INR (S k)) + pint (S k) c' a b end.
Lemma pint_is (c : list R) a b : forall k, is_RInt (fun x => x ^ k * peval c x) a b (pint k c a b).
Proof.
  induction c as [|e c IH]; intros k; cbn [pint peval].
  - apply (is_RInt_ext (fun _ => 0)); [intros x _; change (0 = x ^ k * 0); ring|].
    evar_last; [apply @is_RInt_const|]. unfold scal; simpl; unfold mult; simpl. ring.
  - apply (is_RInt_ext (fun x => plus (scal e (x ^ k)) (x ^ S k * peval c x))).
    { intros x _. change (e * x ^ k + x ^ S k * peval c x = x ^ k * (e + x * peval c x)). simpl pow. ring. }
    apply @is_RInt_plus; [|apply IH]. apply @is_RInt_scal.
    replace ((b ^ S k - a ^ S k) / INR (S k)) with (minus (b ^ S k / INR (S k)) (a ^ S k / INR (S k)))
      by (unfold minus, plus, opp; simpl; field; destruct k; [lra|]; pose proof (pos_INR (S k)); lra).
    apply (is_RInt_derive (fun x => x ^ S k / INR (S k)) (fun x => x ^ k)).
    + intros x _. auto_derive; [exact I|]. replace (match k with O => 1 | S _ => INR k + 1 end) with (INR (S k)) by reflexivity.
      replace (Nat.pred (S k)) with k by reflexivity. field. apply not_0_INR. lia.
    + intros x _. apply (@ex_derive_continuous R_AbsRing R_NormedModule (fun y : R => y ^ k) x). auto_derive. exact I.
Qed.

(** error functional of the table on [-1,1] *)
Lemma qsum_plus r f g : qsum r (fun x => f x + g x) = qsum r f + qsum r g.
Proof. unfold qsum. rewrite <- lsum_map_plus. f_equal. apply map_ext. intros. ring. Qed.
Lemma qsum_scal r e f : qsum r (fun x => e * f x) = e * qsum r f.
Proof. unfold qsum. rewrite <- lsum_map_scal. f_equal. apply map_ext. intros. ring. Qed.
Lemma qsum_ext r f g : (forall x, f x = g x) -> qsum r f = qsum r g.
Proof. intros H. unfold qsum. f_equal. apply map_ext. intros. rewrite H. reflexivity. Qed.
Lemma table_error (c : list R) : forall k, (k + length c <= 2 * m)%nat ->
  Rabs (qsum (nodes_and_weights p) (fun x => x ^ k * peval c x) - pint k c (-1) 1) <= / 10 ^ 14 * norm1 c.
Proof.
  induction c as [|e c IH]; intros k Hk; cbn [pint peval].
  - rewrite (qsum_ext _ _ (fun x => 0 * x ^ k)) by (intros; ring). rewrite qsum_scal, Rmult_0_l, Rminus_0_r, Rabs_R0.
    unfold norm1, lsum. simpl. lra.
  - rewrite (qsum_ext _ _ (fun x => e * x ^ k + x ^ S k * peval c x)) by (intros; simpl; ring).
    rewrite qsum_plus, qsum_scal, norm1_cons. cbn [length] in Hk.
    specialize (IH (S k) ltac:(lia)). pose proof (tab_moment p k ltac:(lia)) as M. unfold rmoment, rmint in M.
    change (fst (nodes_and_weights p), snd (nodes_and_weights p)) with (nodes_and_weights p) in M.
    rewrite pow1. set (q := qsum (nodes_and_weights p) (fun x => x ^ k)) in *.
    set (I := (1 - (-1) ^ S k) / INR (S k)) in *.
    set (Q := qsum (nodes_and_weights p) (fun x => x ^ S k * peval c x)) in *. set (J := pint (S k) c (-1) 1) in *.
    replace (e * q + Q - (e * I + J)) with (e * (q - I) + (Q - J)) by ring.
    eapply Rle_trans; [apply Rabs_triang|]. rewrite Rabs_mult.
    pose proof (Rabs_pos e). pose proof (Rmult_le_compat_l _ _ _ H M). lra.
Qed.

Lemma peval_pint0 c a b : RInt (peval c) a b = pint 0 c a b.
Proof.
  apply is_RInt_unique. apply (is_RInt_ext (fun x => x ^ 0 * peval c x)); [intros x _; change (1 * peval c x = peval c x); ring|].
  apply pint_is.
Qed.
Lemma peval_ex c a b : ex_RInt (peval c) a b.
Proof.
  exists (pint 0 c a b). apply (is_RInt_ext (fun x => x ^ 0 * peval c x)); [intros x _; change (1 * peval c x = peval c x); ring|].
  apply pint_is.
Qed.

Lemma cell_error c a b : (length c <= 2 * m)%nat -> 0 <= a -> a < b -> b <= 1 ->
  Rabs ((b - a) / 2 * qsum (nodes_and_weights p) (fun t => peval c (rescale_x a b t)) - RInt (peval c) a b)
  <= (b - a) / 2 * (/ 10 ^ 14 * norm1 c).
Proof.
  intros Hc Ha Hab Hb. set (u := (a + b) / 2). set (v := (b - a) / 2).
  assert (Huv : Rabs u + Rabs v <= 1) by (unfold u, v; rewrite !Rabs_pos_eq by lra; lra).
  rewrite (qsum_ext _ _ (fun t => t ^ 0 * peval (pcomp u v c) t)).
  2: { intros t. rewrite pcomp_eval. simpl. rewrite Rmult_1_l. f_equal. unfold rescale_x, u, v. field. }
  assert (E : RInt (peval c) a b = v * pint 0 (pcomp u v c) (-1) 1).
  { rewrite <- peval_pint0.
    pose proof (RInt_comp_lin (peval c) v u (-1) 1) as L.
    replace (v * -1 + u) with a in L by (unfold u, v; field).
    replace (v * 1 + u) with b in L by (unfold u, v; field).
    rewrite <- (L (peval_ex c a b)). rewrite RInt_scal.
    2: { apply (ex_RInt_ext (peval (pcomp u v c))); [|apply peval_ex].
         intros x _. rewrite pcomp_eval. f_equal. ring. }
    change (scal v (RInt (fun x => peval c (v * x + u)) (-1) 1)) with (v * RInt (fun x => peval c (v * x + u)) (-1) 1).
    f_equal. apply RInt_ext. intros x _. rewrite pcomp_eval. f_equal. ring. }
  rewrite E. rewrite <- Rmult_minus_distr_l, Rabs_mult, (Rabs_pos_eq v) by (unfold v; lra).
  apply Rmult_le_compat_l; [unfold v; lra|].
  eapply Rle_trans; [apply table_error; pose proof (pcomp_length u v c); lia|].
  apply Rmult_le_compat_l; [left; apply Rinv_0_lt_compat, pow_lt; lra|].
  apply pcomp_norm. exact Huv.
Qed.

Lemma last_cons2 (a b : R) r : last (a :: b :: r) 0 = last (b :: r) 0. Proof. reflexivity. Qed.
Lemma last_ge a r : increasing (a :: r) -> a <= last (a :: r) 0.
Proof.
  revert a. induction r as [|b r IH]; intros a H; [simpl; lra|]. rewrite last_cons2.
  pose proof (H 0%nat ltac:(simpl; lia)) as L. simpl in L. specialize (IH b (increasing_tl _ _ H)). lra.
Qed.
Lemma composite_error c T : (length c <= 2 * m)%nat -> increasing T -> (1 <= length T)%nat ->
  0 <= hd 0 T -> last T 0 <= 1 ->
  Rabs (qsum (composite_quad T p) (peval c) - RInt (peval c) (hd 0 T) (last T 0))
  <= (last T 0 - hd 0 T) / 2 * (/ 10 ^ 14 * norm1 c).
Proof.
  intros Hc. rewrite comp_qsum. destruct T as [|a T]; [simpl; lia|]. intros HT _ Ha Hb. cbn [hd] in *.
  revert a HT Ha Hb. induction T as [|b T IH]; intros a HT Ha Hb.
  - simpl last. rewrite RInt_point. change (@zero _) with 0. unfold lsum. simpl. rewrite Rminus_0_r, Rabs_R0. lra.
  - rewrite last_cons2 in *. rewrite cells_cons. cbn [map].
    change (lsum (?x :: ?l)) with (x + lsum l). cbn [fst snd].
    pose proof (HT 0%nat ltac:(simpl; lia)) as L. simpl in L.
    pose proof (last_ge b T (increasing_tl _ _ HT)) as L2.
    specialize (IH b (increasing_tl _ _ HT) ltac:(lra) Hb).
    pose proof (cell_error c a b Hc Ha L ltac:(lra)) as E.
    rewrite <- (RInt_Chasles (peval c) a b (last (b :: T) 0)) by apply peval_ex.
    change (plus (RInt (peval c) a b) (RInt (peval c) b (last (b :: T) 0)))
      with (RInt (peval c) a b + RInt (peval c) b (last (b :: T) 0)).
    match goal with |- Rabs (?X + ?Y - (?I + ?J)) <= _ => replace (X + Y - (I + J)) with ((X - I) + (Y - J)) by ring end.
    eapply Rle_trans; [apply Rabs_triang|].
    set (K := / 10 ^ 14 * norm1 c) in *.
    replace ((last (b :: T) 0 - a) / 2 * K) with ((b - a) / 2 * K + (last (b :: T) 0 - b) / 2 * K) by field.
    apply Rplus_le_compat; assumption.
Qed.

Lemma weights_total T : increasing T -> (1 <= length T)%nat ->
  Rabs (lsum (snd (composite_quad T p)) - (last T 0 - hd 0 T)) <= (last T 0 - hd 0 T) / 2 * / 10 ^ 14.
Proof.
  intros HT HL. rewrite comp_snd, lsum_flat.
  assert (W : Rabs (lsum ws - 2) <= / 10 ^ 14).
  { pose proof (tab_moment p 0 ltac:(pose proof order_pos; lia)) as M. unfold rmoment, rmint, qsum in M. cbn [fst snd] in M.
    replace ((1 - (-1) ^ 1) / INR 1) with 2 in M by (simpl; lra).
    replace (lsum ws) with (lsum (map (fun xw : R * R => snd xw * fst xw ^ 0) (combine xs ws))); [exact M|].
    rewrite <- (snd_combine xs ws) at 2 by (rewrite tab_lx, tab_lw; reflexivity).
    f_equal. apply map_ext. intros. simpl. ring. }
  destruct T as [|a T]; [simpl in HL; lia|]. clear HL. cbn [hd].
  revert a HT. induction T as [|b T IH]; intros a HT.
  - unfold lsum. simpl. replace (0 - (a - a)) with 0 by ring. rewrite Rabs_R0. lra.
  - rewrite last_cons2, cells_cons. cbn [map]. change (lsum (?x :: ?l)) with (x + lsum l). cbn [fst snd].
    specialize (IH b (increasing_tl _ _ HT)). pose proof (HT 0%nat ltac:(simpl; lia)) as L. simpl in L.
    assert (E : lsum (map (rescale_w a b) ws) = (b - a) / 2 * lsum ws).
    { rewrite <- (map_id ws) at 2. rewrite <- lsum_map_scal. f_equal. apply map_ext. intros w. unfold rescale_w. field. }
    rewrite E.
    match goal with |- Rabs (_ + ?Y - _) <= _ => set (y := Y) in * end.
    replace ((b - a) / 2 * lsum ws + y - (last (b :: T) 0 - a))
      with ((b - a) / 2 * (lsum ws - 2) + (y - (last (b :: T) 0 - b))) by field.
    eapply Rle_trans; [apply Rabs_triang|]. rewrite Rabs_mult, (Rabs_pos_eq ((b - a) / 2)) by lra.
    replace ((last (b :: T) 0 - a) / 2 * / 10 ^ 14)
      with ((b - a) / 2 * / 10 ^ 14 + (last (b :: T) 0 - b) / 2 * / 10 ^ 14) by (field; apply Rgt_not_eq, pow_lt; lra).
    apply Rplus_le_compat; [|exact IH]. apply Rmult_le_compat_l; [lra | exact W].
Qed.
End Composite.
