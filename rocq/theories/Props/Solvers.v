(** Property theorems C47-C49 (picard_solver, newton_solver, invert_map). *)
From Coq Require Import Reals Lra Lia Bool Arith Psatz.
From Coquelicot Require Import Coquelicot.
From mathcomp Require Import all_ssreflect all_algebra zify.
From Verif Require Import Model.RBase Model.Solvers Spec.SolverSpec Proof.RField Proof.SolverProofs Proof.NewtonProofs.
Set Implicit Arguments.
Unset Strict Implicit.
Unset Printing Implicit Defensive.
Import GRing.Theory.
Local Open Scope R_scope.

(** ** C47 picard_solver *)
Section C47.
Variables (X A T : Type) (ops : arith X T) (norm : X -> T) (f : X * A -> X * A) (tol : T) (max_iter : nat).
Notation solver := (picard_solver ops norm f tol max_iter).
Notation "s '>>' t" := (a_gt ops s t) (at level 70).
(** the call returns, whatever the map and the arithmetic (nan included), after at most max_iter
    iterations, and there is one result *)
Theorem C47_terminates : forall z, exists zs r k, solver z (zs, r, k) /\ (k <= max_iter)%coq_nat
  /\ forall out, solver z out -> out = (zs, r, k).
Proof.
move=> z; have [[[zs r] k] H] := picard_total ops norm f tol max_iter z.
by exists zs, r, k; split=> //; split; [exact: (picard_cap H) | move=> out H'; exact: (picard_det H' H)].
Qed.
(** the reported residual is that of the returned point; if the solver iterated and stopped
    before the cap, it is not above the tolerance and not nan *)
Theorem C47_reported_residual : forall z zs r k, solver z (zs, r, k) ->
  r = norm (a_sub ops (fst (f zs)) (fst zs)) /\
  ((0 < k)%coq_nat -> (k < max_iter)%coq_nat -> (r >> tol) = false /\ a_nan ops r = false).
Proof. by move=> z zs r k H; split; [exact: (picard_res H) | exact: (picard_conv H)]. Qed.
(** zero iterations: the result is f(f(z_init)), though it is f(z_init) that was checked *)
Theorem C47_zero_iterations : forall z zs r, solver z (zs, r, 0%N) ->
  zs = f (f z) /\ (max_iter = 0%N \/
    let r0 := norm (a_sub ops (fst (f (f z))) (fst (f z))) in (r0 >> tol) = false /\ a_nan ops r0 = false).
Proof. by move=> z zs r H; exact: (picard_zero H). Qed.
End C47.
Print Assumptions C47_terminates.
(** "iters < max_iter implies residual <= tol" is false *)
Theorem C47_zero_iterations_unchecked_refuted : exists (f : R * unit -> R * unit) (z zs : R * unit) (r tol : R) (max_iter : nat),
  picard_solver (exact [lmodType R of R^o]) Rabs f tol max_iter z (zs, r, 0%N) /\ (0 < max_iter)%coq_nat /\ 0 < tol < r.
Proof.
exists (fun z => (Rmult 10 (fst z), snd z)), (/ 100, tt), (Rmult 10 (Rmult 10 (/ 100)), tt), 9, 1, 5%N.
split; last by split; [lia|lra].
have := @picard_found _ _ _ (exact [lmodType R of R^o]) Rabs (fun z : R * unit => (Rmult 10 (fst z), snd z)) 1 5 (/ 100, tt) 0.
move=> H; have {H} := H _ _; rewrite /= => H.
have E : residual (exact [lmodType R of R^o]) Rabs (fun z : R * unit => (Rmult 10 (fst z), snd z)) (Rmult 10 (Rmult 10 (/ 100)), tt) = 9.
  rewrite /residual /=; change (GRing.add ?a (GRing.opp ?b)) with (Rminus a b).
  by rewrite Rabs_pos_eq; lra.
rewrite -[9]E; apply: H; first by move=> j; lia.
rewrite /residual /=; change (GRing.add ?a (GRing.opp ?b)) with (Rminus a b).
rewrite /Rltb orbF; case: Rlt_dec => //= H; exfalso.
by rewrite Rabs_pos_eq in H; lra.
Qed.
Print Assumptions C47_zero_iterations_unchecked_refuted.

(** exact arithmetic: on a contraction the adaptive damping does not prevent convergence; the
    number of iterations is bounded explicitly, the residual test is met and the result is
    within tol / (1 - q) of the fixed point *)
Theorem C47_contraction_converges : forall (V : lmodType R_realFieldType) (A : Type) (nrm : V -> R) (f : V * A -> V * A)
    (q tol : R) (max_iter : nat) (z : V * A) (k : nat),
  is_norm nrm -> contraction nrm q f -> 0 <= q < 1 -> 0 < tol ->
  picard_rate q tol ^ k * nrm (fst (f (f z)) - fst (f z))%R <= tol -> (2 * k <= max_iter)%coq_nat ->
  exists zs r n, picard_solver (exact V) nrm f tol max_iter z (zs, r, n) /\ (n <= 2 * k)%coq_nat /\ r <= tol
    /\ forall xs a, fst (f (xs, a)) = xs -> nrm (fst zs - xs)%R <= tol / (1 - q).
Proof.
move=> V A nrm f q tol max_iter z k Hn Hf Hq Ht Hk Hm.
have [zs [r [n [H1 H2 H3]]]] := picard_contraction Hn Hf Hq Ht Hk Hm.
exists zs, r, n; do 3 (split=> //); move=> xs a Hx.
by apply: (picard_error Hn Hf Hq Hx); rewrite -(picard_res H1).
Qed.
Print Assumptions C47_contraction_converges.
(** and such a k always exists *)
Theorem C47_rate_below_one : forall q tol r0, 0 <= q < 1 -> 0 < tol -> 0 <= r0 ->
  exists k, picard_rate q tol ^ k * r0 <= tol.
Proof.
intros q tol r0 Hq Ht Hr.
assert (Hc : 0 <= picard_rate q tol < 1).
{ unfold picard_rate. assert (He : 0 < / 10 ^ 12) by (apply Rinv_0_lt_compat, pow_lt; lra).
  set (c := Rmin _ _). assert (0 < c <= 1 / 4); [|nra]. split; [|apply Rmin_l].
  apply Rmin_glb_lt; [lra|]. apply Rmult_lt_0_compat; [lra|]. apply Rinv_0_lt_compat; lra. }
destruct (Req_dec r0 0) as [->|Hn]; [exists 0%N; simpl; lra|].
assert (Hd : 0 < tol / r0) by (apply Rdiv_lt_0_compat; lra).
destruct (pow_lt_1_zero (picard_rate q tol)) with (y := tol / r0) as [N HN];
  [rewrite Rabs_pos_eq; lra | exact Hd |].
exists N. specialize (HN N (le_n N)). rewrite Rabs_pos_eq in HN; [|apply pow_le; lra].
apply Rlt_le. apply Rmult_lt_reg_r with (/ r0); [apply Rinv_0_lt_compat; lra|].
rewrite Rmult_assoc Rinv_r; [|exact Hn]. rewrite Rmult_1_r. exact HN.
Qed.

(** ** C48 newton_solver *)
Section C48.
Variables (n : nat) (A : Type) (f : 'cV[R]_n * A -> 'cV[R]_n * A).
Notation ops := (exact [lmodType R of 'cV[R]_n]).
Notation solver := (newton_solver ops (@jacobian n n) (@lin_solve n)).
(** F(x) = f((x, aux))[0] - x and the Newton step at z *)
Definition defect (z : 'cV[R]_n * A) : 'cV[R]_n := (fst (f z) - fst z)%R.
Definition newton_step (z : 'cV[R]_n * A) : 'cV[R]_n :=
  (invmx (jacobian (fun x => fst (f (x, snd z)) - x)%R (fst z)) *m defect z)%R.
(** termination, and the reported residual is the length of the Newton step at the result *)
Theorem C48_terminates : forall nrm tol max_iter z, exists zs r k,
  solver nrm f tol max_iter z (zs, r, k) /\ (k <= max_iter)%coq_nat /\ r = nrm (- newton_step zs)%R
  /\ ((0 < k)%coq_nat -> (k < max_iter)%coq_nat -> r <= tol).
Proof.
move=> nrm tol max_iter z.
have [[[zs r] k] H] := picard_total ops nrm (newton_map ops (@jacobian n n) (@lin_solve n) f) tol max_iter z.
exists zs, r, k; split=> //; split; first exact: (picard_cap H); split.
- rewrite (picard_res H) /residual; case: (zs) => x a /=; congr nrm.
  by rewrite addrAC subrr add0r.
- move=> Hk Hm; have [] := picard_conv H Hk Hm; rewrite /= /Rltb; case: Rlt_dec => // Hlt _ _; lra.
Qed.
(** a point is stationary for the iteration iff it is a fixed point of f *)
Theorem C48_stationary_iff_fixed : forall z,
  (jacobian (fun x => fst (f (x, snd z)) - x)%R (fst z) \in unitmx) ->
  (fst (newton_map ops (@jacobian n n) (@lin_solve n) f z) = fst z <-> fst (f z) = fst z).
Proof. by move=> z; exact: newton_fixed. Qed.
(** affine maps: the solver returns the fixed point after zero counted iterations *)
Theorem C48_affine_exact : forall (B : 'M[R]_n) (c : 'cV[R]_n) (nrm : 'cV[R]_n -> R) tol max_iter z,
  (forall x a, fst (f (x, a)) = (B *m x + c)%R) -> (B - 1%:M)%R \in unitmx -> nrm 0%R = 0 -> 0 <= tol ->
  exists zs, solver nrm f tol max_iter z (zs, 0, 0%N) /\ fst (f zs) = fst zs
    /\ forall x a, fst (f (x, a)) = x -> fst zs = x.
Proof.
move=> B c nrm tol max_iter z Hf HB Hn Ht.
set g := newton_map ops (@jacobian n n) (@lin_solve n) f.
have H1 z' : fst (f (g z')) = fst (g z') by exact: (newton_affine Hf HB).
have H2 z' : fst (g (g z')) = fst (g z') by exact: (newton_stay Hf HB (H1 z')).
have Hres z' : residual ops nrm g (g z') = 0 by rewrite /residual H2 /= subrr.
exists (g (g z)); split; last first.
  split=> // x a Hx; have := H1 (g z); case: (g (g z)) => x1 a1 H; exact: (affine_fixed_unique Hf HB H Hx).
have := @picard_found _ _ _ ops nrm g tol max_iter z 0 _ _.
rewrite /= !Hres; apply; first by move=> j; lia.
rewrite /Rltb orbF; case: Rlt_dec => //= H; [lra | by rewrite andbF].
Qed.
End C48.
Print Assumptions C48_terminates.
Print Assumptions C48_affine_exact.
(** the documented meaning of the residual, ||f(z_star)[0] - x*||, is false: here the solver
    reports convergence while that residual exceeds the tolerance *)
Theorem C48_residual_is_defect_refuted : exists (f : 'cV[R]_1 * unit -> 'cV[R]_1 * unit) z zs r k tol max_iter,
  let nrm (v : 'cV[R]_1) := Rabs (v 0%R 0%R) in
  newton_solver (exact [lmodType R of 'cV[R]_1]) (@jacobian 1 1) (@lin_solve 1) nrm f tol max_iter z (zs, r, k)
  /\ (k < max_iter)%coq_nat /\ 0 < r <= tol /\ tol < nrm (fst (f zs) - fst zs)%R.
Proof.
pose nrm (v : 'cV[R]_1) := Rabs (v 0%R 0%R).
pose c (a : R) : 'cV[R]_1 := const_mx a.
pose f (z : 'cV[R]_1 * unit) : 'cV[R]_1 * unit := ((fst z + c (Rmult (fst z 0%R 0%R) (fst z 0%R 0%R)))%R, tt).
have HF x a : (fst (f (x, a)) - x)%R = c (Rmult (x 0%R 0%R) (x 0%R 0%R)) by rewrite /f /= addrAC subrr add0r.
have cE a : c a 0%R 0%R = a by rewrite mxE.
have Hg (a : R) : a <> 0 -> newton_map (exact [lmodType R of 'cV[R]_1]) (@jacobian 1 1) (@lin_solve 1) f (c a, tt)
    = (c (a / 2), tt).
  move=> Ha; rewrite /newton_map; congr (_, _).
  have EF : (fun x_ : 'cV[R]_1 => a_sub (exact [lmodType R of 'cV[R]_1]) (fst (f (x_, tt))) x_)
          = (fun x_ => c (Rmult (x_ 0%R 0%R) (x_ 0%R 0%R))).
    by apply: FunctionalExtensionality.functional_extensionality => x; exact: HF.
  rewrite EF; change (a_sub (exact [lmodType R of 'cV[R]_1]) (fst (f (c a, tt))) (c a)) with (fst (f (c a, tt)) - c a)%R.
  rewrite HF /lin_solve cE.
  have -> : jacobian (fun x_ : 'cV[R]_1 => c (Rmult (x_ 0%R 0%R) (x_ 0%R 0%R))) (c a) = (Rmult 2 a)%:M%R.
    apply/matrixP => i j; rewrite !ord1 !mxE eqxx mulr1n.
    rewrite (@Derive_ext _ (fun t => Rmult (Rplus a t) (Rplus a t))); last first.
      move=> t; rewrite /c !mxE !eqxx /=.
      by change (GRing.mul t _) with (Rmult t 1); rewrite Rmult_1_r.
    by apply: is_derive_unique; auto_derive => //; rewrite Rplus_0_r; ring.
  have Hu : ((Rmult 2 a)%:M *m c (Rdiv a 2))%R = c (Rmult a a).
    rewrite mul_scalar_mx; apply/matrixP => i j; rewrite !mxE.
    by change (Rmult (2 * a) (a / 2) = Rmult a a); field.
  rewrite -Hu mulKmx; last first.
    by rewrite unitmxE det_scalar1 unitfE; apply/eqP; change (2 * a <> 0); lra.
  by apply/matrixP => i j; rewrite !mxE; change (Rminus a (a / 2) = a / 2); field.
exists f, (c 8, tt), (c (8 / 2 / 2), tt), 1, 0%N, 2, 5%N; move=> nrm0.
have E1 (a b : R) : nrm0 (c a - c b)%R = Rabs (Rminus a b) by rewrite /nrm0 !mxE.
split; last first.
  split; first by lia.
  split; first by lra.
  rewrite [X in nrm0 (_ - X)%R]/= HF cE /nrm0 cE.
  by rewrite Rabs_pos_eq; lra.
rewrite /newton_solver; set g := newton_map _ _ _ _ in Hg *.
have Hr (a : R) : a <> 0 -> residual (exact [lmodType R of 'cV[R]_1]) nrm0 g (c a, tt) = Rabs (Rminus (a / 2) a).
  by move=> Ha; rewrite /residual Hg // -E1.
clearbody g.
have := @picard_found _ _ _ (exact [lmodType R of 'cV[R]_1]) nrm0 g 2 5 (c 8, tt) 0 _ _.
rewrite /= !Hg; try lra.
rewrite !Hr; try lra.
have -> : Rabs (Rminus (8 / 2 / 2 / 2) (8 / 2 / 2)) = 1 by rewrite Rabs_left1; lra.
apply; first by move=> j; lia.
rewrite /Rltb orbF; case: Rlt_dec => //= H; exfalso.
by rewrite Rabs_left1 in H; lra.
Qed.
Print Assumptions C48_residual_is_defect_refuted.

(** ** C49 invert_map *)
Section C49.
Variables (X Y T Mx : Type) (add : X -> X -> X) (sub : Y -> Y -> Y) (neg : Y -> Y) (gt : T -> T -> bool) (inf : T)
  (norm : Y -> T) (jac : (X -> Y) -> X -> Mx) (solve : Mx -> Y -> X).
Variables (f : X -> Y) (y : Y) (tol : T) (max_iter : nat) (x0_fn : Y -> X).
Notation runs := (invert_map add sub neg gt inf norm jac solve f y tol max_iter x0_fn).
(** one Newton step and the iterates *)
Definition newton_iterate (k : nat) : X :=
  Nat.iter k (fun x => add x (solve (jac f x) (neg (sub (f x) y)))) (x0_fn y).
(** any arithmetic: the call returns, the result is the k-th Newton iterate with k <= max_iter,
    and if k < max_iter the residual of the iterate before it is not above tol (so a nan residual
    stops the loop too) *)
Theorem C49_terminates : exists x k, runs x /\ (forall x', runs x' -> x' = x) /\ x = newton_iterate k
  /\ (k <= max_iter)%coq_nat
  /\ ((0 < k)%coq_nat -> (k < max_iter)%coq_nat -> gt (norm (sub (f (newton_iterate (k - 1))) y)) tol = false)
  /\ ((0 < max_iter)%coq_nat -> gt inf tol = true -> (0 < k)%coq_nat).
Proof.
have [x H] := invert_total add sub neg gt inf norm jac solve f y tol max_iter x0_fn.
have [k [E Hk Hs Hj]] := invert_out H; exists x, k; split=> //.
split; first by move=> x' H'; exact: (invert_det H' H).
split; first exact: E.
split; first by [].
split.
- move=> H0 Hm; case: Hs => [|Hs]; first by lia.
  case: k {E Hk Hj Hm} H0 Hs => [|k] H0 Hs; first by lia.
  by rewrite subSS subn0; exact: Hs.
- move=> Hm Hi; case: k {E Hk Hj} Hs => [|k] Hs; last by lia.
  by case: Hs => [|Hs]; [lia | rewrite /= Hi in Hs].
Qed.
End C49.
Print Assumptions C49_terminates.
(** exact arithmetic on R^n, the error starts at +infinity *)
Definition Rbar_gt (s t : Rbar) : bool := if Rbar_lt_dec t s then true else false.
Definition invert_map_exact n (nrm : 'cV[R]_n -> R) (f : 'cV[R]_n -> 'cV[R]_n) (y : 'cV[R]_n) (tol : R) (max_iter : nat) x0_fn x :=
  invert_map (fun a b => (a + b)%R) (fun a b => (a - b)%R) (fun a => (- a)%R) Rbar_gt p_infty (fun v => Finite (nrm v))
    (@jacobian n n) (@lin_solve n) f y (Finite tol) max_iter x0_fn x.
(** exact for non-singular affine maps, whatever the starting point *)
Theorem C49_affine_exact : forall n (B : 'M[R]_n) (c y : 'cV[R]_n) nrm f tol max_iter x0_fn x,
  (forall x, f x = (B *m x + c)%R) -> B \in unitmx -> (0 < max_iter)%coq_nat ->
  invert_map_exact nrm f y tol max_iter x0_fn x -> f x = y.
Proof.
move=> n B c y nrm f tol max_iter x0_fn x Hf HB Hm H.
have [k [-> Hk Hs Hj]] := invert_out H.
case: k Hk Hs {Hj} => [|k] Hk Hs; last exact: (invert_affine y Hf HB).
case: Hs => [|Hs]; first by lia.
by move: Hs; rewrite /= /Rbar_gt; case: Rbar_lt_dec => // Hn; case: Hn.
Qed.
Print Assumptions C49_affine_exact.
(** the documented postcondition f(x) = y_target (up to tol) is false: the test is about the
    iterate before the returned one *)
Theorem C49_residual_of_result_refuted : exists (f : 'cV[R]_1 -> 'cV[R]_1) (y x : 'cV[R]_1) tol x0_fn,
  let nrm (v : 'cV[R]_1) := Rabs (v 0%R 0%R) in
  (exists x', f x' = y) /\ invert_map_exact nrm f y tol 50 x0_fn x /\ 0 < tol < nrm (f x - y)%R
  /\ nrm (f (x0_fn y) - y)%R <= tol.
Proof.
pose nrm (v : 'cV[R]_1) := Rabs (v 0%R 0%R).
pose f (x : 'cV[R]_1) : 'cV[R]_1 := const_mx (Rmult (x 0%R 0%R) (x 0%R 0%R)).
pose y : 'cV[R]_1 := const_mx (IZR 1); pose x0 (_ : 'cV[R]_1) : 'cV[R]_1 := const_mx (Rinv 8).
exists f, y, (const_mx (Rdiv 65 16)), 1, x0 => /=; split; last split; last split.
- by exists (const_mx (IZR 1)); rewrite /f /y !mxE Rmult_1_l.
- have Hstep : invert_step (fun a b => (a + b)%R) (fun a b => (a - b)%R) (fun a => (- a)%R) (@jacobian 1 1) (@lin_solve 1) f y (const_mx (Rinv 8)) = const_mx (Rdiv 65 16).
    rewrite /invert_step /lin_solve.
    have -> : jacobian f (const_mx (Rinv 8)) = (Rinv 4)%:M%R.
      apply/matrixP => i j; rewrite !ord1 !mxE eqxx.
      rewrite (@Derive_ext _ (fun t => Rmult (Rplus (/ 8) t) (Rplus (/ 8) t))); last first.
        move=> t; rewrite /f !mxE !eqxx /=.
        by change (GRing.mul t _) with (Rmult t 1); rewrite Rmult_1_r.
      by apply: is_derive_unique; auto_derive => //; rewrite Rplus_0_r mulr1n; field.
    have Hu : ((Rinv 4)%:M *m const_mx (Rdiv 63 16))%R = (- (f (const_mx (Rinv 8)) - y))%R :> 'cV[R]_1.
      rewrite mul_scalar_mx; apply/matrixP => i j; rewrite !mxE.
      by change (Rmult (/ 4) (63 / 16) = Ropp (Rminus (Rmult (/ 8) (/ 8)) 1)); field.
    rewrite -Hu mulKmx; last by rewrite unitmxE det_scalar1 unitfE; apply/eqP; change (/ 4 <> 0); lra.
    by apply/matrixP => i j; rewrite !mxE; change (Rplus (/ 8) (63 / 16) = 65 / 16); field.
  exists (Finite (nrm (f (const_mx (Rinv 8)) - y)%R)), 1%N.
  apply: while_step; first by rewrite /= /Rbar_gt; case: Rbar_lt_dec => // H; exfalso; apply: H.
  rewrite /invert_body Hstep; apply: while_stop; rewrite /invert_cond /Rbar_gt; case: Rbar_lt_dec => //= H; exfalso.
  move: H; rewrite /nrm !mxE; change (1 < Rabs (Rminus (Rmult (/ 8) (/ 8)) 1) -> False).
  by rewrite Rabs_left1; lra.
- rewrite !mxE; change (0 < 1 < Rabs (Rminus (Rmult (65 / 16) (65 / 16)) 1)).
  by rewrite Rabs_pos_eq; lra.
- rewrite !mxE; change (Rabs (Rminus (Rmult (/ 8) (/ 8)) 1) <= 1).
  by rewrite Rabs_left1; lra.
Qed.
Print Assumptions C49_residual_of_result_refuted.

(** non-vacuity: a contraction in R^1 with its norm; an affine map with an invertible B - 1 *)
Example Solvers_nonvacuous :
  is_norm (V := [lmodType R of R^o]) Rabs /\
  contraction (V := [lmodType R of R^o]) Rabs (/ 2) (fun z : R * unit => (Rplus (Rmult (/ 2) (fst z)) 1, tt)) /\
  ((Rinv 2)%:M - 1%:M)%R \in unitmx (R := R_comUnitRingType) (n := 2).
Proof.
split; last split.
- split; first exact: Rabs_pos.
  by split; [move=> x y; exact: Rabs_triang | move=> a x; exact: Rabs_mult].
- move=> x a y b /=.
  change (Rabs (Rminus (Rplus (Rmult (/ 2) x) 1) (Rplus (Rmult (/ 2) y) 1)) <= Rmult (/ 2) (Rabs (Rminus x y))).
  by rewrite (_ : Rminus _ _ = Rmult (/ 2) (Rminus x y)); [rewrite Rabs_mult (Rabs_pos_eq (/ 2)); lra | field].
- rewrite -raddfB /= unitmxE det_scalar unitfE expf_neq0 //.
  by apply/eqP; change (Rminus (/ 2) 1 <> 0); lra.
Qed.
