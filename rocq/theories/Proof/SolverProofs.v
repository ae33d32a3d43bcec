(** Proofs about picard_solver, newton_solver, invert_map. *)
From Coq Require Import Reals Lra Lia Bool Arith Psatz.
From Coquelicot Require Import Coquelicot.
From mathcomp Require Import all_ssreflect all_algebra zify.
From Verif Require Import Model.RBase Model.Solvers Spec.SolverSpec Proof.RField.
Set Implicit Arguments.
Unset Strict Implicit.
Unset Printing Implicit Defensive.

Section While.
Variables (S : Type) (cond : S -> bool) (body : S -> S).
Notation run := (while_loop cond body).
Lemma while_det s s1 s2 : run s s1 -> run s s2 -> s1 = s2.
Proof.
move=> H; move: s2; elim: H => {s s1} [s H|s s1 H _ IH] s2 R2; inversion R2; subst; try congruence.
by apply: IH.
Qed.
Lemma while_total (m : S -> nat) : (forall s, cond s = true -> (m (body s) < m s)%coq_nat) ->
  forall s, exists s', run s s'.
Proof.
move=> Hm s; remember (m s) as n eqn:E; have {E} : (m s <= n)%coq_nat by lia.
elim: n s => [|n IH] s Hn.
- case E: (cond s); first by have := Hm s E; lia.
  by exists s; constructor.
- case E: (cond s); last by exists s; constructor.
  have [|s' Hs'] := IH (body s); first by have := Hm s E; lia.
  by exists s'; apply: while_step.
Qed.
Lemma while_exit s s' : run s s' -> cond s' = false.
Proof. by elim. Qed.
Lemma while_inv (P : S -> Prop) : (forall s, P s -> cond s = true -> P (body s)) ->
  forall s s', run s s' -> P s -> P s'.
Proof. by move=> HP s s'; elim=> {s s'} // s s' Hc _ IH Ps; apply: IH; apply: HP. Qed.
(** iterates *)
Lemma while_iter s s' : run s s' -> exists n, s' = Nat.iter n body s /\
  (forall k, (k < n)%coq_nat -> cond (Nat.iter k body s) = true) /\ cond s' = false.
Proof.
elim=> {s s'} [s H|s s' Hc _ [n [-> [H1 H2]]]].
- by exists 0%N; split=> //; split=> // k; lia.
- have E : forall k, Nat.iter k body (body s) = Nat.iter k.+1 body s.
    by elim=> //= k ->.
  exists n.+1; rewrite -E; split=> //; split=> // k Hk; case: k Hk => [|k] Hk //.
  by rewrite -E; apply: H1; lia.
Qed.
Lemma iter_while s n : (forall k, (k < n)%coq_nat -> cond (Nat.iter k body s) = true) ->
  cond (Nat.iter n body s) = false -> run s (Nat.iter n body s).
Proof.
elim: n s => [|n IH] s H0 H1; first by constructor.
have E : forall k, Nat.iter k body (body s) = Nat.iter k.+1 body s by elim=> //= k ->.
apply: while_step; first by apply: (H0 0%N); lia.
by rewrite -E in H1 *; apply: IH => // k Hk; rewrite E; apply: H0; lia.
Qed.
End While.

Section Picard.
Variables (X A T : Type) (ops : arith X T) (norm : X -> T) (f : X * A -> X * A) (tol : T) (max_iter : nat).
Notation cond := (picard_cond ops norm f tol max_iter).
Notation body := (picard_body ops norm f).
Notation res := (residual ops norm f).
Notation solver := (picard_solver ops norm f tol max_iter).

Lemma picard_total z : exists out, solver z out.
Proof.
have [|[[zp z'] i] H] := @while_total _ cond body (fun s => (max_iter - snd s)%coq_nat) _ (z, f z, 0%N).
  by move=> [[zp z'] i] /=; case/andP => /Nat.ltb_lt H _; lia.
by exists ((if (i =? 0)%nat then f z' else z'), res (if (i =? 0)%nat then f z' else z'), i), zp, z', i.
Qed.
Lemma picard_det z o1 o2 : solver z o1 -> solver z o2 -> o1 = o2.
Proof.
move=> [zp [z1 [i [H1 ->]]]] [zp' [z1' [i' [H2 ->]]]].
by case: (while_det H1 H2) => _ -> ->.
Qed.
Lemma body_count s : snd (body s) = (snd s).+1. Proof. by case: s => [[zp z] i]. Qed.
Lemma iter_count n s : snd (Nat.iter n body s) = (n + snd s)%coq_nat.
Proof. by elim: n => //= n IH; rewrite body_count IH. Qed.
Lemma picard_cap z zs r k : solver z (zs, r, k) -> (k <= max_iter)%coq_nat.
Proof.
move=> [zp [z1 [i [H [_ _ ->]]]]].
apply: (@while_inv _ cond body (fun s => (snd s <= max_iter)%coq_nat) _ _ _ H); last by cbn; lia.
by move=> [[a b] j] /= Hj /andP [/Nat.ltb_lt ? _]; lia.
Qed.
Lemma picard_res z zs r k : solver z (zs, r, k) -> r = res zs.
Proof. by move=> [zp [z1 [i [H [-> -> _]]]]]. Qed.
Lemma picard_conv z zs r k : solver z (zs, r, k) -> (0 < k)%coq_nat -> (k < max_iter)%coq_nat ->
  a_gt ops r tol = false /\ a_nan ops r = false.
Proof.
move=> [zp [z1 [i [H [_ -> ->]]]]] H0 Hk; have := while_exit H.
have -> : (i =? 0)%nat = false by apply/Nat.eqb_neq; lia.
rewrite /picard_cond; have -> : (i <? max_iter)%nat = true by apply/Nat.ltb_lt.
by move=> /= /norP [/negbTE -> /negbTE ->].
Qed.
Lemma picard_zero z zs r : solver z (zs, r, 0%N) ->
  zs = f (f z) /\ (max_iter = 0%N \/ (a_gt ops (res (f z)) tol = false /\ a_nan ops (res (f z)) = false)).
Proof.
move=> [zp [z1 [i [H E]]]]; have Ei : i = 0%N by case: E.
subst i; have := while_exit H; have := while_iter H => [[n [En _]]].
have En0 : n = 0%N by have := iter_count n (z, f z, 0%N); rewrite -En /=; lia.
subst n; case: En => _ Ez; subst z1; case: E => -> _ Hc; split=> //; move: Hc; rewrite /picard_cond.
case E: (0 <? max_iter)%nat; last by move=> _; left; move/Nat.ltb_ge: E; lia.
by move=> /= /norP [/negbTE -> /negbTE ->]; right.
Qed.
(** the iterates z_1, z_2, ... (z_0 = z_init, z_1 = f z_init) *)
Definition zit z n := Nat.iter n body (z, f z, 0%N).
Lemma picard_iterate z zs r k : solver z (zs, r, k) -> (0 < k)%coq_nat ->
  zs = snd (fst (zit z k)) /\ (forall j, (j < k)%coq_nat -> cond (zit z j) = true).
Proof.
move=> [zp [z1 [i [H [-> _ ->]]]]] H0.
have -> : (i =? 0)%nat = false by apply/Nat.eqb_neq; lia.
have [n [En [Hn _]]] := while_iter H.
have Ei : n = i by have := iter_count n (z, f z, 0%N); rewrite -En /=; lia.
by subst n; rewrite /zit -En.
Qed.
Lemma picard_found z k : (forall j, (j < k)%coq_nat -> cond (zit z j) = true) -> cond (zit z k) = false ->
  let zs := if (k =? 0)%nat then f (f z) else snd (fst (zit z k)) in solver z (zs, res zs, k).
Proof.
move=> H1 H2; have HR : while_loop cond body (z, f z, 0%N) (zit z k) by apply: iter_while.
have := iter_count k (z, f z, 0%N); rewrite -/(zit z k) /= => Ei.
case E: (zit z k) HR Ei => [[zp z1] i] HR /= Ei; have {}Ei : i = k by lia.
subst i; exists zp, z1, k; split=> //.
case Ek: (k =? 0)%nat => //; move/Nat.eqb_eq: Ek => Ek; subst k.
by move: E; rewrite /zit /= => -[_ <-].
Qed.
End Picard.

(** *** convergence in exact arithmetic *)
Section Seq.
Local Open Scope R_scope.
Variables (q tol : R) (d r al : nat -> R).
Hypothesis Hq : 0 <= q < 1.
Hypothesis Htol : 0 < tol.
Let e := / 10 ^ 12.
Hypothesis Hr : forall i, 0 <= r i.
Hypothesis Hal0 : al 0%N = 1.
Hypothesis HalS : forall i, al (S i) = clip01 (r (S i) / (d (S i) + e)).
Hypothesis Hd : forall i, d (S i) = al i * r i.
Hypothesis Hup : forall i, 0 <= al i <= 1 -> r (S i) <= (1 - al i * (1 - q)) * r i.
Hypothesis Hlo : forall i, 0 <= al i <= 1 -> (1 - al i * (1 + q)) * r i <= r (S i).

Notation rate := (picard_rate q tol).
Lemma e_pos : 0 < e. Proof. unfold e; apply Rinv_0_lt_compat; apply pow_lt; lra. Qed.
Lemma al_01 i : 0 <= al i <= 1.
Proof.
destruct i as [|i]; [rewrite Hal0; lra|]. rewrite HalS; unfold clip01.
split; [apply Rmin_glb; [lra|apply Rmax_l] | apply Rmin_l].
Qed.
Let c := Rmin (1 / 4) (2 * tol / (tol + 4 * e)).
Lemma c_bounds : 0 < c <= 1 / 4.
Proof.
split; [|apply Rmin_l]. apply Rmin_glb_lt; [lra|]. pose proof e_pos.
apply Rmult_lt_0_compat; [lra|]. apply Rinv_0_lt_compat; lra.
Qed.
Lemma rate_bounds : 0 <= rate < 1.
Proof. pose proof c_bounds. unfold picard_rate; fold e; fold c. nra. Qed.
Lemma rSle i : r (S i) <= r i.
Proof.
pose proof (al_01 i). pose proof (Hup H). pose proof (Hr i).
assert (0 <= al i * (1 - q)) by nra. nra.
Qed.
Lemma big_step i : c <= al i -> r (S i) <= rate * r i.
Proof.
intros H. pose proof (Hup (al_01 i)). pose proof (Hr i). pose proof c_bounds.
unfold picard_rate; fold e; fold c. assert ((1 - q) * c <= al i * (1 - q)) by nra. nra.
Qed.
Lemma small_then_big i : tol < r i -> al i < c -> c <= al (S i).
Proof.
intros Ht Ha. pose proof (al_01 i) as H01. pose proof (Hlo H01) as HL. pose proof c_bounds as Hc. pose proof e_pos as He.
rewrite HalS. unfold clip01. apply Rmin_glb; [lra|]. eapply Rle_trans; [|apply Rmax_r].
rewrite Hd. pose proof (Hr i) as Hri.
assert (Hr0 : al i * (1 + q) <= 1 / 2) by nra.
assert (Hr1 : r i / 2 <= r (S i)) by nra.
assert (Hden : 0 < al i * r i + e) by nra.
apply Rmult_le_reg_r with (al i * r i + e); [exact Hden|].
replace (r (S i) / (al i * r i + e) * (al i * r i + e)) with (r (S i)) by (field; lra).
eapply Rle_trans; [|exact Hr1].
assert (H4 : al i * r i + e <= r i / 4 + e) by nra.
apply Rle_trans with (c * (r i / 4 + e)); [apply Rmult_le_compat_l; lra|].
assert (Hc2 : c <= 2 * tol / (tol + 4 * e)) by apply Rmin_r.
assert (Hx : c * (tol + 4 * e) <= 2 * tol).
{ replace (2 * tol) with (2 * tol / (tol + 4 * e) * (tol + 4 * e)) by (field; lra). apply Rmult_le_compat_r; lra. }
assert (c * e * 4 <= 2 * tol - c * tol) by lra.
assert (0 <= (2 - c) * (r i - tol)) by nra. lra.
Qed.
Lemma two_steps i : tol < r i -> r (S (S i)) <= rate * r i.
Proof.
intros Ht. pose proof rate_bounds. pose proof (Hr i). destruct (Rlt_dec (al i) c) as [Ha|Ha].
- pose proof (big_step (small_then_big Ht Ha)). pose proof (rSle i). nra.
- pose proof (rSle (S i)). apply Rnot_lt_le in Ha. pose proof (big_step Ha). lra.
Qed.
Lemma decay k : (forall i, (i < 2 * k)%coq_nat -> tol < r i) -> r (2 * k)%coq_nat <= rate ^ k * r 0%N.
Proof.
induction k as [|k IH]; intros H; [rewrite Nat.mul_0_r pow_O Rmult_1_l; apply Rle_refl|].
replace (2 * S k)%coq_nat with (S (S (2 * k)%coq_nat)) by lia.
eapply Rle_trans; [apply two_steps; apply H; lia|].
simpl pow. rewrite Rmult_assoc. apply Rmult_le_compat_l; [apply rate_bounds|]. apply IH. intros i Hi; apply H; lia.
Qed.
Lemma hits k : rate ^ k * r 0%N <= tol -> exists i, (i <= 2 * k)%coq_nat /\ r i <= tol /\ (forall j, (j < i)%coq_nat -> tol < r j).
Proof.
intros Hk. assert (Hex : exists i, (i <= 2 * k)%coq_nat /\ r i <= tol).
{ destruct (Classical_Prop.classic (exists i, (i < 2 * k)%coq_nat /\ r i <= tol)) as [[i [Hi Hri]]|Hn].
  - exists i; split; [lia|exact Hri].
  - exists (2 * k)%coq_nat; split; [lia|]. eapply Rle_trans; [apply decay|exact Hk].
    intros i Hi. apply Rnot_le_lt. intros Hle. apply Hn. exists i. split; assumption. }
destruct Hex as [i [Hi Hri]]. revert Hi Hri. induction i as [i IH] using (well_founded_induction Wf_nat.lt_wf). intros Hi Hri.
destruct (Classical_Prop.classic (exists j, (j < i)%coq_nat /\ r j <= tol)) as [[j [Hj Hrj]]|Hn].
- apply (IH j Hj); [lia|exact Hrj].
- exists i. split; [exact Hi|split; [exact Hri|]]. intros j Hj. apply Rnot_le_lt. intros Hle. apply Hn. exists j; split; assumption.
Qed.
End Seq.

Section Exact.
Import GRing.Theory.
Variables (V : lmodType R_realFieldType) (A : Type) (nrm : V -> R) (f : V * A -> V * A) (q tol : R) (max_iter : nat).
Hypothesis Hn : is_norm nrm.
Hypothesis Hf : contraction nrm q f.
Hypothesis Hq : Rle 0 q /\ Rlt q 1.
Hypothesis Htol : Rlt 0 tol.
Notation ops := (exact V).
Notation res := (residual ops nrm f).
Notation zit := (zit ops nrm f).
Variable z0 : V * A.
Let r n := res (snd (fst (zit z0 n))).
Let d n := nrm (fst (snd (fst (zit z0 n))) - fst (fst (fst (zit z0 n))))%R.
Let al n := if (n =? 0)%nat then R1 else clip01 (Rdiv (r n) (Rplus (d n) (Rinv (pow 10 12)))).
Lemma nrm_pos x : Rle 0 (nrm x). Proof. exact: (proj1 Hn). Qed.
Lemma nrm_tri (x y : V) : Rle (nrm (x + y)%R) (Rplus (nrm x) (nrm y)). Proof. exact: (proj1 (proj2 Hn)). Qed.
Lemma nrm_scal (a : R) (x : V) : nrm (a *: x)%R = Rmult (Rabs a) (nrm x). Proof. exact: (proj2 (proj2 Hn)). Qed.
Lemma zit_next n : exists zp z : V * A, zit z0 n = (zp, z, n) /\ zit z0 n.+1 = (z, ((al n *: fst (f z) + (1 - al n) *: fst z)%R, snd (f z)), n.+1).
Proof.
have := iter_count ops nrm f n (z0, f z0, 0%N); rewrite -/(zit z0 n).
case E: (zit z0 n) => [[zp z] i] /= Ei; have {}Ei : i = n by lia.
subst i; exists zp, z; split=> //; rewrite /zit /= -/(zit z0 n) E /=.
by rewrite /al /r /d E /=; case: (n =? 0)%nat.
Qed.
Lemma stepE n : let z := snd (fst (zit z0 n)) in d n.+1 = nrm (al n *: (fst (f z) - fst z))%R.
Proof.
have [zp [z [E1 E2]]] := zit_next n; rewrite /d E2 E1 /=; congr nrm.
by rewrite scalerBr scalerBl scale1r -addrA; congr (_ + _)%R; rewrite addrAC subrr add0r.
Qed.
Lemma al_01' n : Rle 0 (al n) /\ Rle (al n) 1.
Proof.
rewrite /al; case: (n =? 0)%nat; first by split; [apply: Rle_0_1 | apply: Rle_refl].
split; [apply: Rmin_glb; [apply: Rle_0_1|apply: Rmax_l] | apply: Rmin_l].
Qed.
Lemma r_pos n : Rle 0 (r n). Proof. exact: nrm_pos. Qed.
Lemma nrm_opp (x : V) : nrm (- x)%R = nrm x.
Proof. by rewrite -scaleN1r nrm_scal; change (-1)%R with (Ropp 1); rewrite Rabs_Ropp Rabs_R1 Rmult_1_l. Qed.
Lemma dE n : d n.+1 = Rmult (al n) (r n).
Proof. by rewrite stepE nrm_scal Rabs_pos_eq //; case: (al_01' n). Qed.
Lemma mix_res (b : R) (F x a : V) : (a - (b *: F + (1 - b) *: x) = (1 - b) *: (F - x) + (a - F))%R.
Proof.
rewrite !scalerBl !scalerBr !scale1r opprD opprB [RHS]addrC -!addrA; congr (a + _)%R.
by rewrite [(- F + _)%R]addrA addNr add0r opprB [LHS]addrC [RHS]addrA; congr (_ + _)%R; rewrite addrC.
Qed.
(** residual at the next iterate = (1 - alpha) d + (f z' - f z) *)
Lemma res_next n : exists x y : V, r n = nrm x /\ r n.+1 = nrm ((1 - al n) *: x + y)%R /\
  Rle (nrm y) (Rmult q (Rmult (al n) (r n))).
Proof.
have [zp [z [E1 E2]]] := zit_next n; have E := stepE n; rewrite E1 /= in E.
exists (fst (f z) - fst z)%R, (fst (f (snd (fst (zit z0 n.+1)))) - fst (f z))%R.
split; first by rewrite /r E1.
split.
- rewrite /r E2 /residual /=; congr nrm; exact: mix_res.
- rewrite -dE E -/(r n).
  rewrite E2 /=; case Ez: z => [x a]; apply: Rle_trans; first exact: Hf.
  apply: Req_le; congr Rmult; congr nrm.
  by rewrite scalerBr scalerBl scale1r -addrA; congr (_ + _)%R; rewrite addrAC subrr add0r.
Qed.
Lemma nrm_low (x y : V) : Rle (Rminus (nrm x) (nrm y)) (nrm (x + y)%R).
Proof.
have H := nrm_tri (x + y)%R (- y)%R; rewrite addrK nrm_opp in H.
by apply Rplus_le_reg_r with (nrm y); rewrite /Rminus Rplus_assoc Rplus_opp_l Rplus_0_r.
Qed.
Lemma r_up n : Rle (r n.+1) (Rmult (Rminus 1 (Rmult (al n) (Rminus 1 q))) (r n)).
Proof.
have [x [y [E1 [E2 Hy]]]] := res_next n; have [H0 H1] := al_01' n.
rewrite E2; apply: Rle_trans; first exact: nrm_tri.
rewrite nrm_scal -E1 Rabs_pos_eq; last by change (Rle 0 (Rminus 1 (al n))); lra.
by change (1 - al n)%R with (Rminus 1 (al n)); lra.
Qed.
Lemma r_low n : Rle (Rmult (Rminus 1 (Rmult (al n) (Rplus 1 q))) (r n)) (r n.+1).
Proof.
have [x [y [E1 [E2 Hy]]]] := res_next n; have [H0 H1] := al_01' n.
rewrite E2; apply: Rle_trans; last exact: nrm_low.
rewrite nrm_scal -E1 Rabs_pos_eq; last by change (Rle 0 (Rminus 1 (al n))); lra.
by change (1 - al n)%R with (Rminus 1 (al n)); lra.
Qed.
Lemma picard_contraction k : Rle (Rmult (pow (picard_rate q tol) k) (res (f z0))) tol -> (2 * k <= max_iter)%coq_nat ->
  exists zs rr n, [/\ picard_solver ops nrm f tol max_iter z0 (zs, rr, n), (n <= 2 * k)%coq_nat & Rle rr tol].
Proof.
move=> Hk Hm.
have Hex : exists i, (i <= 2 * k)%coq_nat /\ Rle (r i) tol /\ (forall j, (j < i)%coq_nat -> Rlt tol (r j)).
  apply: (@hits q tol d r al Hq Htol r_pos erefl _ dE (fun i _ => r_up i) (fun i _ => r_low i) k); last exact: Hk.
  by [].
case: Hex => i [Hi [Hri Hj]].
have Hc j : (j < i)%coq_nat -> picard_cond ops nrm f tol max_iter (zit z0 j) = true.
  move=> Hji; have [zp [z [E _]]] := zit_next j; have := Hj j Hji; rewrite /r E /= => Hlt.
  have -> : (j <? max_iter)%nat = true by apply/Nat.ltb_lt; lia.
  by rewrite /Rltb; case: Rlt_dec.
have Hstop : picard_cond ops nrm f tol max_iter (zit z0 i) = false.
  have [zp [z [E _]]] := zit_next i; move: Hri; rewrite /r E /= => Hle.
  by rewrite /Rltb; case: Rlt_dec => //= H; [lra | rewrite andbF].
have HS := picard_found Hc Hstop; eexists _, _, i; split; [exact: HS|by []|].
case Ei: (i =? 0)%nat; last exact: Hri.
move/Nat.eqb_eq: Ei Hri => ->; rewrite /r /= => Hri.
move: Hri; rewrite /residual /=; case E': (f z0) => [x' a']; case E: (f (x', a')) => [x a] /= Hri.
have H1 := Hf x a x' a'; rewrite E /= in H1.
have := nrm_pos (x - x')%R; move: Hq => [? ?] ?.
apply: Rle_trans; first exact: H1.
nra.
Qed.
(** distance to a fixed point *)
Lemma picard_error (zs : V * A) (xs : V) (a : A) : fst (f (xs, a)) = xs -> Rle (res zs) tol ->
  Rle (nrm (fst zs - xs)%R) (Rdiv tol (Rminus 1 q)).
Proof.
move=> Hx Hr; case: zs Hr => x b; rewrite /residual /= => Hr.
have H := Hf x b xs a; rewrite Hx in H.
have H2 : Rle (nrm (x - xs)%R) (Rplus (nrm (fst (f (x, b)) - x)%R) (nrm (fst (f (x, b)) - xs)%R)).
  rewrite -[nrm (fst (f (x, b)) - x)%R]nrm_opp opprB.
  have -> : (x - xs = (x - fst (f (x, b))) + (fst (f (x, b)) - xs))%R by rewrite addrA subrK.
  exact: nrm_tri.
have Hp := nrm_pos (x - xs)%R; move: Hq => [? ?].
apply Rmult_le_reg_r with (Rminus 1 q); first by lra.
have -> : Rmult (Rdiv tol (Rminus 1 q)) (Rminus 1 q) = tol by field; lra.
move: Hr H H2 Hp; set n1 := nrm (fst (f (x, b)) - x)%R; set n2 := nrm (fst (f (x, b)) - xs)%R.
set n3 := nrm (x - xs)%R; move: n1 n2 n3 => n1 n2 n3 *; nra.
Qed.
End Exact.
