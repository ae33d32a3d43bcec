(** Property theorems C85: what the convergence-rate assertion of the GVEC stellarator script establishes. *)
From Coq Require Import Reals Lra Lia List.
From Verif Require Import Model.RateCheck.
Import ListNotations.
Local Open Scope R_scope.

(** positive, strictly increasing resolutions *)
Definition grid (ns : list R) : Prop :=
  Forall (Rlt 0) ns /\ forall i, (S i < length ns)%nat -> nth i ns 0 < nth (S i) ns 0.

Lemma rates_length es ns : length es = length ns -> length (rates es ns) = pred (length ns).
Proof.
  revert ns; induction es as [|e0 es IH]; intros [|n0 ns] H; simpl in *; try easy.
  destruct es as [|e1 es], ns as [|n1 ns]; simpl in H; try easy.
  change (S (length (rates (e1 :: es) (n1 :: ns))) = length (n1 :: ns)).
  rewrite IH by (simpl; lia). reflexivity.
Qed.
Lemma rates_nth es ns i : length es = length ns -> (S i < length ns)%nat ->
  nth i (rates es ns) 0 = - (ln (nth i es 0 / nth (S i) es 0) / ln (nth i ns 0 / nth (S i) ns 0)).
Proof.
  revert ns i; induction es as [|e0 es IH]; intros [|n0 ns] i H Hi; simpl in H, Hi; try lia.
  destruct es as [|e1 es], ns as [|n1 ns]; simpl in H, Hi; try lia.
  destruct i as [|i]; [reflexivity|].
  change (nth i (rates (e1 :: es) (n1 :: ns)) 0 = - (ln (nth i (e1 :: es) 0 / nth (S i) (e1 :: es) 0) / ln (nth i (n1 :: ns) 0 / nth (S i) (n1 :: ns) 0))).
  apply IH; simpl; lia.
Qed.
Lemma pos_nth (l : list R) i : Forall (Rlt 0) l -> (i < length l)%nat -> 0 < nth i l 0.
Proof. intros H Hi; rewrite Forall_forall in H; apply H, nth_In, Hi. Qed.
Lemma ln_div a b : 0 < a -> 0 < b -> ln (a / b) = ln a - ln b.
Proof.
  intros Ha Hb; unfold Rdiv; rewrite ln_mult; [|exact Ha|now apply Rinv_0_lt_compat].
  rewrite ln_Rinv by exact Hb; ring.
Qed.
(** one rate, with logarithms of the single quantities *)
Lemma rate_ln es ns i : length es = length ns -> Forall (Rlt 0) es -> grid ns -> (S i < length ns)%nat ->
  nth i (rates es ns) 0 = (ln (nth i es 0) - ln (nth (S i) es 0)) / (ln (nth (S i) ns 0) - ln (nth i ns 0))
  /\ 0 < ln (nth (S i) ns 0) - ln (nth i ns 0).
Proof.
  intros HL He [Hp Hg] Hi.
  assert (L : ln (nth i ns 0) < ln (nth (S i) ns 0)).
  { apply ln_increasing; [apply pos_nth; [exact Hp|lia]|now apply Hg]. }
  split; [|lra].
  rewrite rates_nth by assumption.
  rewrite !ln_div by (apply pos_nth; try assumption; lia).
  field; split; lra.
Qed.
Lemma mean_const l s : l <> [] -> (forall i, (i < length l)%nat -> nth i l 0 = s) -> mean l = s.
Proof.
  intros Hl H; unfold mean.
  assert (E : fold_right Rplus 0 l = INR (length l) * s).
  { clear Hl; induction l as [|x l IH]; [simpl; ring|].
    change (length (x :: l)) with (S (length l)); rewrite S_INR.
    change (fold_right Rplus 0 (x :: l)) with (x + fold_right Rplus 0 l).
    rewrite IH by (intros i Hi; exact (H (S i) (proj1 (Nat.succ_lt_mono _ _) Hi))).
    rewrite <- (H 0%nat) by (simpl; lia); simpl nth; ring. }
  rewrite E; field; destruct l; [easy|]; apply not_0_INR; simpl; lia.
Qed.
Lemma mean_max l s : l <> [] -> mean l >= s -> exists i, (i < length l)%nat /\ nth i l 0 >= s.
Proof.
  intros Hl; unfold mean; intros H.
  assert (P : 0 < INR (length l)) by (destruct l; [easy|]; apply lt_0_INR; simpl; lia).
  assert (Hs : fold_right Rplus 0 l >= INR (length l) * s).
  { apply Rle_ge; apply (Rmult_le_reg_r (/ INR (length l))); [now apply Rinv_0_lt_compat|].
    replace (INR (length l) * s * / INR (length l)) with s by (field; lra). apply Rge_le; exact H. }
  clear H P; revert Hs; induction l as [|x l IH]; [easy|]; intros Hs.
  destruct (Rle_dec s x) as [Hx|Hx]; [exists 0%nat; split; simpl; [lia|lra]|].
  change (length (x :: l)) with (S (length l)) in *; rewrite S_INR in Hs.
  change (fold_right Rplus 0 (x :: l)) with (x + fold_right Rplus 0 l) in Hs.
  destruct l as [|y l]; [simpl in Hs; lra|].
  destruct IH as [i [Hi Hn]]; [easy|lra|].
  exists (S i); split; [lia|exact Hn].
Qed.
Lemma rates_nonempty es ns : length es = length ns -> (2 <= length ns)%nat -> rates es ns <> [].
Proof.
  intros H H2 E; generalize (rates_length es ns H); rewrite E; simpl; lia.
Qed.

(** errors that follow C n^-s exactly are assigned the rate s, on every grid and for every s *)
Theorem C85_power_law : forall (C s : R) ns, 0 < C -> grid ns -> (2 <= length ns)%nat ->
  let es := map (fun n => C * Rpower n (- s)) ns in
  (forall i, (S i < length ns)%nat -> nth i (rates es ns) 0 = s) /\ mean (rates es ns) = s
  /\ forall p, rate_check p es ns <-> s >= INR p + 1.
Proof.
  intros C s ns HC Hg H2 es.
  assert (HL : length es = length ns) by apply map_length.
  assert (He : Forall (Rlt 0) es).
  { unfold es; rewrite Forall_map; apply Forall_forall; intros x _.
    apply Rmult_lt_0_compat; [exact HC|apply exp_pos]. }
  assert (En : forall i, (i < length ns)%nat -> ln (nth i es 0) = ln C - s * ln (nth i ns 0)).
  { intros i Hi; unfold es; rewrite (nth_indep _ 0 (C * Rpower 0 (- s))) by (rewrite map_length; exact Hi).
    rewrite (map_nth (fun n => C * Rpower n (- s))), ln_mult by (try exact HC; apply exp_pos).
    unfold Rpower; rewrite ln_exp; ring. }
  assert (Er : forall i, (S i < length ns)%nat -> nth i (rates es ns) 0 = s).
  { intros i Hi; destruct (rate_ln es ns i HL He Hg Hi) as [-> Hpos].
    rewrite !En by lia; field; lra. }
  assert (Em : mean (rates es ns) = s).
  { apply mean_const; [now apply rates_nonempty|].
    rewrite rates_length by exact HL; intros i Hi; apply Er; lia. }
  split; [exact Er|split; [exact Em|]]; intros p; unfold rate_check; rewrite Em; tauto.
Qed.
Print Assumptions C85_power_law.

(** what a passed check shows: between some two consecutive resolutions the error fell at least at the order p + 1 *)
Theorem C85_some_step : forall p es ns, length es = length ns -> (2 <= length ns)%nat -> Forall (Rlt 0) es -> grid ns ->
  rate_check p es ns ->
  exists i, (S i < length ns)%nat /\ nth (S i) es 0 <= nth i es 0 * (nth i ns 0 / nth (S i) ns 0) ^ (p + 1).
Proof.
  intros p es ns HL H2 He Hg Hc.
  destruct (mean_max _ _ (rates_nonempty _ _ HL H2) Hc) as [i [Hi Hr]].
  rewrite rates_length in Hi by exact HL.
  assert (Hi' : (S i < length ns)%nat) by lia.
  exists i; split; [exact Hi'|].
  destruct (rate_ln es ns i HL He Hg Hi') as [E Hpos]; rewrite E in Hr; clear E.
  assert (P0 : 0 < nth i es 0) by (apply pos_nth; [exact He|lia]).
  assert (P1 : 0 < nth (S i) es 0) by (apply pos_nth; [exact He|lia]).
  assert (Q0 : 0 < nth i ns 0) by (apply pos_nth; [apply Hg|lia]).
  assert (Q1 : 0 < nth (S i) ns 0) by (apply pos_nth; [apply Hg|lia]).
  assert (Qd : 0 < nth i ns 0 / nth (S i) ns 0) by (apply Rdiv_lt_0_compat; assumption).
  set (L := ln (nth (S i) ns 0) - ln (nth i ns 0)) in *.
  assert (Hr' : (INR p + 1) * L <= ln (nth i es 0) - ln (nth (S i) es 0)).
  { apply Rge_le in Hr; apply (Rmult_le_compat_r L) in Hr; [|lra].
    replace ((ln (nth i es 0) - ln (nth (S i) es 0)) / L * L) with (ln (nth i es 0) - ln (nth (S i) es 0)) in Hr by (field; lra).
    exact Hr. }
  apply Rnot_lt_le; intros Hlt.
  apply ln_increasing in Hlt; [|apply Rmult_lt_0_compat; [exact P0|apply pow_lt, Qd]].
  rewrite ln_mult in Hlt by (try exact P0; apply pow_lt, Qd).
  rewrite <- Rpower_pow in Hlt by exact Qd.
  unfold Rpower in Hlt; rewrite ln_exp, ln_div, plus_INR in Hlt by assumption; simpl INR in Hlt.
  unfold L in Hr'; lra.
Qed.
Print Assumptions C85_some_step.

(** if all consecutive resolutions have the same ratio, the check compares the first and the last error only *)
Lemma sum_tele es ns L : length es = length ns -> Forall (Rlt 0) es -> grid ns -> 0 < L ->
  (forall i, (S i < length ns)%nat -> ln (nth (S i) ns 0) - ln (nth i ns 0) = L) -> ns <> [] ->
  fold_right Rplus 0 (rates es ns) = (ln (nth 0 es 0) - ln (last es 0)) / L
  /\ ln (last ns 0) - ln (nth 0 ns 0) = INR (length (rates es ns)) * L.
Proof.
  revert ns; induction es as [|e0 es IH]; intros [|n0 ns] HL He Hg HLp Hr Hn; try easy.
  destruct es as [|e1 es], ns as [|n1 ns]; simpl in HL; try lia.
  { simpl; split; [field; lra|ring]. }
  assert (Hg' : grid (n1 :: ns)).
  { destruct Hg as [Hp Hg]; split; [now inversion Hp|]; intros i Hi; apply (Hg (S i)); simpl in *; lia. }
  destruct (IH (n1 :: ns)) as [E1 E2]; try easy.
  { simpl in *; lia. }
  { now inversion He. }
  { intros i Hi; apply (Hr (S i)); simpl in *; lia. }
  assert (R0 : nth 0 (rates (e0 :: e1 :: es) (n0 :: n1 :: ns)) 0 = (ln e0 - ln e1) / L).
  { assert (HL' : length (e0 :: e1 :: es) = length (n0 :: n1 :: ns)) by (simpl; lia).
    assert (H1 : (1 < length (n0 :: n1 :: ns))%nat) by (simpl; lia).
    destruct (rate_ln _ _ 0 HL' He Hg H1) as [E _].
    rewrite E; rewrite (Hr 0%nat) by (simpl; lia); reflexivity. }
  change (rates (e0 :: e1 :: es) (n0 :: n1 :: ns)) with (- (ln (e0 / e1) / ln (n0 / n1)) :: rates (e1 :: es) (n1 :: ns)) in *.
  change (last (e0 :: e1 :: es) 0) with (last (e1 :: es) 0); change (last (n0 :: n1 :: ns) 0) with (last (n1 :: ns) 0).
  change (length (?x :: ?l)) with (S (length l)).
  split.
  - change (fold_right Rplus 0 (?x :: ?l)) with (x + fold_right Rplus 0 l); cbn [nth] in R0; rewrite R0.
    change (nth 0 (e1 :: es) 0) with e1 in E1; rewrite E1; simpl nth; field; lra.
  - simpl nth; assert (R1 := Hr 0%nat ltac:(simpl; lia)); simpl nth in R1, E2.
    cbn [length]; rewrite S_INR; lra.
Qed.
Theorem C85_geometric_grid : forall p es ns q, length es = length ns -> (2 <= length ns)%nat -> Forall (Rlt 0) es ->
  grid ns -> (forall i, (S i < length ns)%nat -> nth (S i) ns 0 = q * nth i ns 0) ->
  rate_check p es ns <-> last es 0 <= nth 0 es 0 * (nth 0 ns 0 / last ns 0) ^ (p + 1).
Proof.
  intros p es ns q HL H2 He Hg Hq.
  assert (Hn : ns <> []) by (destruct ns; [simpl in H2; lia|easy]).
  assert (Q0 : 0 < nth 0 ns 0) by (apply pos_nth; [apply Hg|lia]).
  assert (Hq1 : 1 < q).
  { assert (A := proj2 Hg 0%nat ltac:(lia)); rewrite Hq in A by lia.
    apply (Rmult_lt_reg_r (nth 0 ns 0)); lra. }
  assert (HLp : 0 < ln q) by (rewrite <- ln_1; apply ln_increasing; lra).
  assert (Hr : forall i, (S i < length ns)%nat -> ln (nth (S i) ns 0) - ln (nth i ns 0) = ln q).
  { intros i Hi; rewrite Hq by exact Hi; rewrite ln_mult; [ring|lra|apply pos_nth; [apply Hg|lia]]. }
  destruct (sum_tele es ns (ln q) HL He Hg HLp Hr Hn) as [E1 E2].
  assert (Plast : forall l : list R, l <> [] -> Forall (Rlt 0) l -> 0 < last l 0).
  { intros l Hl Hf; rewrite Forall_forall in Hf; apply Hf.
    rewrite (app_removelast_last 0 Hl) at 2; apply in_or_app; right; now left. }
  assert (P0 : 0 < nth 0 es 0) by (apply pos_nth; [exact He|lia]).
  assert (P1 : 0 < last es 0) by (apply Plast; [destruct es; [simpl in HL; lia|easy]|exact He]).
  assert (Q1 : 0 < last ns 0) by (apply Plast; [exact Hn|apply Hg]).
  assert (Qd : 0 < nth 0 ns 0 / last ns 0) by (apply Rdiv_lt_0_compat; assumption).
  unfold rate_check, mean; rewrite E1.
  assert (N : 0 < INR (length (rates es ns))).
  { rewrite rates_length by exact HL; apply lt_0_INR; lia. }
  set (N_ := INR (length (rates es ns))) in *.
  assert (EL : ln (nth 0 es 0 * (nth 0 ns 0 / last ns 0) ^ (p + 1)) = ln (nth 0 es 0) - (INR p + 1) * (N_ * ln q)).
  { rewrite ln_mult by (try exact P0; apply pow_lt, Qd).
    rewrite <- Rpower_pow by exact Qd; unfold Rpower; rewrite ln_exp, ln_div, plus_INR by assumption; simpl (INR 1).
    rewrite <- E2; ring. }
  assert (EQ : (ln (nth 0 es 0) - ln (last es 0)) / ln q / N_ * (N_ * ln q) = ln (nth 0 es 0) - ln (last es 0)) by (field; lra).
  assert (NL : 0 < N_ * ln q) by (apply Rmult_lt_0_compat; assumption).
  split; intros H.
  - apply Rge_le in H; apply (Rmult_le_compat_r (N_ * ln q)) in H; [|lra]; rewrite EQ in H.
    apply Rnot_lt_le; intros Hlt; apply ln_increasing in Hlt; [|apply Rmult_lt_0_compat; [exact P0|apply pow_lt, Qd]].
    lra.
  - apply Rle_ge; apply (Rmult_le_reg_r (N_ * ln q)); [exact NL|]; rewrite EQ.
    destruct H as [H|H]; [apply ln_increasing in H; [lra|exact P1]|rewrite <- H in EL; lra].
Qed.
Print Assumptions C85_geometric_grid.

(** on any other grid the check does not show that the error decreases: whenever the first two ratios differ (all grids of
    consecutive integers, as in the script), for every p there are positive errors that pass it and end above the first
    one *)
Lemma rates_repeat e ns k : e <> 0 -> grid ns -> length ns = S k -> Forall (eq 0) (rates (repeat e (S k)) ns).
Proof.
  intros He; revert ns; induction k as [|k IH]; intros [|n0 [|n1 ns]] Hg Hk; simpl in Hk; try lia; try (constructor).
  - unfold Rdiv; rewrite Rinv_r by exact He; rewrite ln_1; ring.
  - apply (IH (n1 :: ns)); [|simpl; lia].
    destruct Hg as [Hp Hg]; split; [now inversion Hp|]; intros i Hi; apply (Hg (S i)); simpl in *; lia.
Qed.
Lemma sum_zero l : Forall (eq 0) l -> fold_right Rplus 0 l = 0.
Proof. induction 1 as [|x l <- _ IH]; simpl; [reflexivity|rewrite IH; ring]. Qed.
Lemma grid_tl n0 ns : grid (n0 :: ns) -> grid ns.
Proof. intros [Hp Hg]; split; [now inversion Hp|]; intros i Hi; apply (Hg (S i)); simpl in *; lia. Qed.
Lemma last_repeat (e : R) k : last (repeat e (S k)) 0 = e.
Proof. induction k; [reflexivity|exact IHk]. Qed.
Theorem C85_decrease_refuted : forall p n0 n1 n2 rest, grid (n0 :: n1 :: n2 :: rest) -> n1 / n0 <> n2 / n1 ->
  exists es, length es = length (n0 :: n1 :: n2 :: rest) /\ Forall (Rlt 0) es
  /\ rate_check p es (n0 :: n1 :: n2 :: rest) /\ nth 0 es 0 < last es 0.
Proof.
  intros p n0 n1 n2 rest Hg Hne.
  assert (Q0 : 0 < n0) by (apply (pos_nth (n0 :: n1 :: n2 :: rest) 0); [apply Hg|simpl; lia]).
  assert (Q1 : 0 < n1) by (apply (pos_nth (n0 :: n1 :: n2 :: rest) 1); [apply Hg|simpl; lia]).
  assert (Q2 : 0 < n2) by (apply (pos_nth (n0 :: n1 :: n2 :: rest) 2); [apply Hg|simpl; lia]).
  assert (G0 : n0 < n1) by (apply (proj2 Hg 0%nat); simpl; lia).
  assert (G1 : n1 < n2) by (apply (proj2 Hg 1%nat); simpl; lia).
  set (L1 := ln n1 - ln n0); set (L2 := ln n2 - ln n1).
  assert (P1 : 0 < L1) by (unfold L1; assert (A := ln_increasing _ _ Q0 G0); lra).
  assert (P2 : 0 < L2) by (unfold L2; assert (A := ln_increasing _ _ Q1 G1); lra).
  assert (D : L2 - L1 <> 0).
  { intros E; apply Hne; apply ln_inv; try (apply Rdiv_lt_0_compat; assumption).
    rewrite !ln_div by assumption; unfold L1, L2 in E; lra. }
  set (k := length rest).
  set (N := INR (S (S k))).
  assert (HN : 0 < N) by (apply lt_0_INR; lia).
  set (a := ((INR p + 1) * N + / L2) * (L1 * L2) / (L2 - L1)).
  set (es := 1 :: exp (- a) :: repeat (exp 1) (S k)).
  exists es.
  assert (HL : length es = length (n0 :: n1 :: n2 :: rest)) by (unfold es, k; simpl; rewrite repeat_length; reflexivity).
  assert (He : Forall (Rlt 0) es).
  { unfold es; constructor; [lra|constructor; [apply exp_pos|]].
    apply Forall_forall; intros x Hx; apply repeat_spec in Hx; subst x; apply exp_pos. }
  split; [exact HL|split; [exact He|split]].
  - assert (Z := sum_zero _ (rates_repeat (exp 1) (n2 :: rest) k (Rgt_not_eq _ _ (exp_pos 1)) (grid_tl _ _ (grid_tl _ _ Hg)) eq_refl)).
    destruct (rate_ln es _ 0 HL He Hg ltac:(simpl; lia)) as [R0 _].
    destruct (rate_ln es _ 1 HL He Hg ltac:(simpl; lia)) as [R1 _].
    assert (LN : length (rates es (n0 :: n1 :: n2 :: rest)) = S (S k)) by (rewrite rates_length by exact HL; reflexivity).
    unfold rate_check, mean; rewrite LN; fold N.
    assert (E : fold_right Rplus 0 (rates es (n0 :: n1 :: n2 :: rest)) = (INR p + 1) * N).
    { change (rates es (n0 :: n1 :: n2 :: rest))
        with (nth 0 (rates es (n0 :: n1 :: n2 :: rest)) 0 :: nth 1 (rates es (n0 :: n1 :: n2 :: rest)) 0
              :: rates (repeat (exp 1) (S k)) (n2 :: rest)).
      cbn [fold_right]; rewrite Z, R0, R1.
      change (nth 0 es 0) with 1; change (nth 1 es 0) with (exp (- a)); change (nth 2 es 0) with (exp 1).
      cbn [nth]; fold L1 L2; rewrite !ln_exp, ln_1; unfold a; field; repeat split; lra. }
    rewrite E; right; field; lra.
  - unfold es; change (last (1 :: exp (- a) :: repeat (exp 1) (S k)) 0) with (last (repeat (exp 1) (S k)) 0).
    rewrite last_repeat; cbn [nth]; rewrite <- exp_0 at 1; apply exp_increasing; lra.
Qed.
Print Assumptions C85_decrease_refuted.

(** the assumptions are met by the grid range(4, 10) of the script, whose first two ratios differ, and by the errors
    n^-4 (p = 3), which pass the check *)
Example C85_nonvacuous :
  let ns := [4; 5; 6; 7; 8; 9] in
  grid ns /\ 5 / 4 <> 6 / 5 /\ rate_check 3 (map (fun n => 1 * Rpower n (- 4)) ns) ns.
Proof.
  intros ns; assert (G : grid ns).
  { split; [repeat constructor; lra|].
    intros i Hi; destruct i as [|[|[|[|[|i]]]]]; simpl in *; try lra; lia. }
  split; [exact G|split; [lra|]].
  destruct (C85_power_law 1 4 ns Rlt_0_1 G ltac:(simpl; lia)) as [_ [_ H]].
  apply H; simpl; lra.
Qed.
