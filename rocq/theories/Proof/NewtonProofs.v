(** newton_solver and invert_map: affine maps, fixed points, postconditions. *)
From Coq Require Import Reals Lra Lia Bool Arith Psatz.
From Coquelicot Require Import Coquelicot.
From mathcomp Require Import all_ssreflect all_algebra zify.
From Verif Require Import Model.RBase Model.Solvers Spec.SolverSpec Proof.RField Proof.SolverProofs.
Set Implicit Arguments.
Unset Strict Implicit.
Unset Printing Implicit Defensive.
Import GRing.Theory.
Local Open Scope ring_scope.

Section Jac.
Lemma jac_affine m n (B : 'M[R]_(m, n)) (c : 'cV[R]_m) (F : 'cV[R]_n -> 'cV[R]_m) :
  (forall x, F x = B *m x + c) -> forall x, jacobian F x = B.
Proof.
move=> HF x; apply/matrixP => i j; rewrite mxE.
have E t : F (x + t *: delta_mx j 0) i 0 = Rplus ((B *m x + c)%R i 0) (Rmult t (B i j)).
  rewrite HF mulmxDr -scalemxAr -colE !mxE; exact: addrAC.
rewrite (Derive_ext _ _ _ E) Derive_plus; [|exact: ex_derive_const|by auto_derive].
rewrite Derive_const Rplus_0_l.
by apply: is_derive_unique; auto_derive => //; rewrite Rmult_1_l.
Qed.
End Jac.

Section Newton.
Variables (n : nat) (A : Type) (f : 'cV[R]_n * A -> 'cV[R]_n * A).
Notation V := [lmodType R of 'cV[R]_n].
Notation ops := (exact V).
Notation g := (newton_map ops (@jacobian n n) (@lin_solve n) f).
(** F(x) = f((x, aux))[0] - x *)
Definition FF (a : A) (x : 'cV[R]_n) := fst (f (x, a)) - x.

Lemma newton_fixed z : jacobian (FF (snd z)) (fst z) \in unitmx ->
  (fst (g z) = fst z <-> fst (f z) = fst z).
Proof.
case: z => x a /= HJ; rewrite /lin_solve.
have E : (x - invmx (jacobian (FF a) x) *m FF a x = x) <-> FF a x = 0.
  split=> [H|->]; last by rewrite mulmx0 subr0.
  have H2 : invmx (jacobian (FF a) x) *m FF a x = 0 by apply: oppr_inj; apply: (addrI x); rewrite H oppr0 addr0.
  by rewrite -[FF a x](mulKVmx HJ) H2 mulmx0.
rewrite -/(FF a) -/(FF a x); split=> [/E /eqP|H]; first by rewrite subr_eq0 => /eqP.
by apply/E; rewrite /FF H subrr.
Qed.

Variables (B : 'M[R]_n) (c : 'cV[R]_n).
Hypothesis Hf : forall x a, fst (f (x, a)) = B *m x + c.
Hypothesis HB : B - 1%:M \in unitmx.
Lemma FF_affine a x : FF a x = (B - 1%:M) *m x + c.
Proof. by rewrite /FF Hf mulmxBl mul1mx addrAC. Qed.
Lemma newton_affine z : fst (f (g z)) = fst (g z).
Proof.
case: z => x a; rewrite /newton_map; set x1 := a_sub _ _ _; rewrite [fst (_, _)]/=.
apply/eqP; rewrite -subr_eq0 Hf; apply/eqP.
have -> : B *m x1 + c - x1 = (B - 1%:M) *m x1 + c by rewrite mulmxBl mul1mx addrAC.
rewrite /x1 /= -/(FF a) /lin_solve (jac_affine (FF_affine a)) -/(FF a x) FF_affine.
by rewrite mulmxBr mulKVmx // opprD addrA subrr add0r addNr.
Qed.
Lemma affine_fixed_unique x y a b : fst (f (x, a)) = x -> fst (f (y, b)) = y -> x = y.
Proof.
rewrite !Hf => Hx Hy.
have Ex : (B - 1%:M) *m x = - c by apply: (addIr c); rewrite addNr mulmxBl mul1mx addrAC Hx subrr.
have Ey : (B - 1%:M) *m y = - c by apply: (addIr c); rewrite addNr mulmxBl mul1mx addrAC Hy subrr.
by rewrite -[x](mulKmx HB) -[y](mulKmx HB) Ex Ey.
Qed.
Lemma newton_stay z : fst (f z) = fst z -> fst (g z) = fst z.
Proof.
move=> H; apply/newton_fixed => //; case: z H => x a /= H.
by rewrite (jac_affine (FF_affine a)).
Qed.
End Newton.

Section Invert.
Variables (X Y T Mx : Type) (add : X -> X -> X) (subY : Y -> Y -> Y) (negY : Y -> Y) (gt : T -> T -> bool) (inf : T)
  (norm : Y -> T) (jac : (X -> Y) -> X -> Mx) (solve : Mx -> Y -> X).
Variables (f : X -> Y) (y : Y) (tol : T) (max_iter : nat) (x0_fn : Y -> X).
Notation step := (invert_step add subY negY jac solve f y).
Notation cond := (invert_cond gt tol max_iter).
Notation body := (invert_body add subY negY norm jac solve f y).
Notation runs := (invert_map add subY negY gt inf norm jac solve f y tol max_iter x0_fn).
Notation it n := (Nat.iter n step (x0_fn y)).
Definition err n := if n is n'.+1 then norm (subY (f (it n')) y) else inf.
Lemma body_iter n : Nat.iter n body (x0_fn y, inf, 0%N) = (it n, err n, n).
Proof. by elim: n => //= n ->. Qed.
Lemma invert_total : exists x, runs x.
Proof.
have [|[[x e] i] H] := @while_total _ cond body (fun s => (max_iter - snd s)%coq_nat) _ (x0_fn y, inf, 0%N).
  by move=> [[x e] i] /=; case/andP => _ /Nat.ltb_lt H; lia.
by exists x, e, i.
Qed.
Lemma invert_det x1 x2 : runs x1 -> runs x2 -> x1 = x2.
Proof. by move=> [e [i H1]] [e' [i' H2]]; case: (while_det H1 H2). Qed.
Lemma invert_out x : runs x -> exists n, [/\ x = it n, (n <= max_iter)%coq_nat,
  n = max_iter \/ gt (err n) tol = false & forall j, (j < n)%coq_nat -> gt (err j) tol = true].
Proof.
move=> [e [i H]]; have [n [En [Hc Hx]]] := while_iter H; rewrite body_iter in En.
case: En => -> Ee Ei; subst e i.
have Hc' j : (j < n)%coq_nat -> gt (err j) tol = true /\ (j < max_iter)%coq_nat.
  by move=> /Hc; rewrite body_iter /= => /andP [-> /Nat.ltb_lt].
exists n; split=> //; first last.
- by move=> j /Hc' [].
- move: Hx => /=; case: (gt (err n) tol); last by right.
  move/Nat.ltb_ge => Hge; left; case: n {H Hc} Hc' Hge => [|n] Hc' Hge; first by lia.
  by have [_ ?] := Hc' n (Nat.lt_succ_diag_r n); lia.
- case: n {H Hx} Hc' Hc => [|n] Hc' _; first by lia.
  by have [_ ?] := Hc' n (Nat.lt_succ_diag_r n); lia.
Qed.
End Invert.

Lemma invert_affine n (B : 'M[R]_n) (c y : 'cV[R]_n) (f : 'cV[R]_n -> 'cV[R]_n) : (forall x, f x = B *m x + c) -> B \in unitmx ->
  forall x, f (invert_step (fun a b => a + b) (fun a b => a - b) (fun a => - a) (@jacobian n n) (@lin_solve n) f y x) = y.
Proof.
move=> Hf HB x; rewrite /invert_step /lin_solve (jac_affine Hf) Hf.
by rewrite mulmxDr mulKVmx // Hf opprB addrAC addrC subrK.
Qed.
