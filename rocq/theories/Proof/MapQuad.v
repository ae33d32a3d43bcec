(** Distance of the radial quadrature points from the polar axis. *)
From Coq Require Import Reals Lra Lia ZArith List.
From Verif Require Import Model.RBase Model.Spline Model.Quad Spec.QuadSpec Proof.QuadProofs Props.Quadrature.
Local Open Scope R_scope.

Definition tab_low (p : nat) : bool := forallb (fun x => Z.leb (- 97400 * 10 ^ 11) x) (fst (nodes_and_weights_Z p)).
Lemma tab_low_all p : tab_low p = true.
Proof. destruct p as [|[|[|[|[|[|[|[|[|[|p]]]]]]]]]]; vm_compute; reflexivity. Qed.
Lemma node_low p x : In x (fst (nodes_and_weights p)) -> - (974 / 1000) <= x.
Proof.
  unfold nodes_and_weights; cbn [fst]. intros H. apply in_map_iff in H. destruct H as [z [<- Hz]].
  assert (H := tab_low_all p). unfold tab_low in H. rewrite forallb_forall in H. apply H in Hz. apply Z.leb_le in Hz.
  apply IZR_le in Hz. unfold ufl.
  assert (E : - (974 / 1000) = IZR (- 97400 * 10 ^ 11) / 10 ^ 16).
  { change (- 97400 * 10 ^ 11)%Z with (-9740000000000000)%Z. lra. }
  rewrite E. apply Rmult_le_compat_r; [left; apply Rinv_0_lt_compat, pow_lt; lra | exact Hz].
Qed.
Lemma comp_low (N p : nat) x : (1 <= N)%nat -> In x (fst (composite_quad (linspace01 (N + 1)) p)) ->
  / (80 * INR N) <= x /\ x < 1.
Proof.
  intros HN Hx. assert (HR : 1 <= INR N) by (apply (le_INR 1); lia).
  assert (HL : length (linspace01 (N + 1)) = (N + 1)%nat) by (unfold linspace01; rewrite map_length, seq_length; reflexivity).
  assert (Hn : forall i, (i <= N)%nat -> nth i (linspace01 (N + 1)) 0 = INR i / INR N).
  { intros i Hi. unfold linspace01. replace (N + 1 - 1)%nat with N by lia.
    rewrite (nth_indep _ 0 (INR 0 / INR N)) by (rewrite map_length, seq_length; lia).
    rewrite (map_nth (fun k => INR k / INR N) (seq 0 (N + 1)) 0%nat i).
    rewrite seq_nth by lia. reflexivity. }
  rewrite comp_fst in Hx. apply in_flat_map in Hx. destruct Hx as [[a b] [Hab Hx]].
  apply in_map_iff in Hx. destruct Hx as [s [<- Hs]]. cbn [fst snd].
  apply (In_nth _ _ (0, 0)) in Hab. destruct Hab as [i [Hi Hab]]. rewrite cells_length, HL in Hi.
  rewrite cells_nth in Hab by (rewrite HL; lia). rewrite !Hn in Hab by lia. assert (Ha : INR i / INR N = a) by congruence. assert (Hb : INR (S i) / INR N = b) by congruence. subst a b.
  assert (L := node_low p s Hs). assert (U := tab_in p s Hs).
  unfold rescale_x. rewrite S_INR.
  replace ((s + 1) / 2 * ((INR i + 1) / INR N - INR i / INR N) + INR i / INR N) with (((s + 1) / 2 + INR i) / INR N) by (field; lra).
  assert (Hi' : 0 <= INR i <= INR N - 1).
  { split; [apply pos_INR|]. assert (INR (S i) <= INR N) by (apply le_INR; lia). rewrite S_INR in H. lra. }
  split.
  - rewrite Rinv_mult. unfold Rdiv. apply Rmult_le_compat_r; [left; apply Rinv_0_lt_compat; lra | lra].
  - apply (Rmult_lt_reg_r (INR N)); [lra|]. unfold Rdiv. rewrite Rmult_assoc, Rinv_l, Rmult_1_r by lra. lra.
Qed.
