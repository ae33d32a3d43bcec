(** Small time steps are accepted; a run without floating-point faults cannot reject forever. *)
From Coq Require Import Ring Field.
From mathcomp Require Import all_ssreflect all_algebra zify.
From Verif Require Import Model.Forms Model.DeRham Model.Geometry Model.Relaxation Spec.SeqSpec Spec.RelaxSpec
  Proof.RelaxAlg Proof.RelaxLoop Proof.RelaxRun.
Set Implicit Arguments.
Unset Strict Implicit.
Unset Printing Implicit Defensive.
Import Order.TTheory GRing.Theory Num.Theory.
Local Open Scope ring_scope.

Section Progress.
Variable F : realFieldType.
Variable sqrt_ : F -> F.
Variable S : drseq F.
Variable pinv : 'M[F]_(rk S K3).
Hypothesis OK : relax_ok S pinv.
Hypothesis Hsq : is_sqrt sqrt_.
Variable DF : nat -> mat3 F.
Variable lstsq : 'M[F]_(rk S K2) -> 'cV[F]_(rk S K2) -> 'cV[F]_(rk S K2).
Variable fault : rstate S -> option ('cV[F]_(rk S K2) * bool * num F * num F).
Variable cfg : config F.
Notation stp := (step sqrt_ pinv lstsq fault cfg).
Notation ts := (the_stepper cfg).
Notation nrm := (norm_2 sqrt_).
(** rate of change of B for a guess equal to B *)
Definition rate (st : rstate S) : F := nrm (strong_curl S *m mid_E pinv lstsq ts st).

Lemma first_accept (st : rstate S) : B_guess st = B_n st -> fault (picard_init st) = None -> 0 <= dt_ st ->
  (0 < c_solver_maxit cfg)%N -> dt_ st * rate st <= c_solver_tol cfg -> failed cfg (stp st) = false.
Proof.
move=> HB Hf Hdt Hm Hr.
have N : nrm (B_nplus1 pinv lstsq ts st - B_guess st) = dt_ st * rate st.
  rewrite HB /B_nplus1 addrAC subrr add0r -(nrmZ OK Hsq) //.
have Emid : midpoint_residuum sqrt_ pinv lstsq ts fault (picard_init st) =
  RState (B_n st) (B_nplus1 pinv lstsq ts st) (dt_ st) (eta st) (Hessian st) 1
        (Fin (dt_ st * rate st)) (Fin (nrm (mid_f pinv ts st))) (Fin (nrm (mid_u pinv lstsq ts st))).
  by rewrite /midpoint_residuum Hf -N.
have [m Em] : exists m, c_solver_maxit cfg = m.+1 by case: (c_solver_maxit cfg) Hm => // m _; exists m.
rewrite /step /picard_solver (_ : picard_maxit ts = m.+1); last by rewrite -Em.
have -> : while_loop sqrt_ pinv lstsq ts fault m.+1 (picard_init st) = if cond_fun ts (picard_init st)
  then while_loop sqrt_ pinv lstsq ts fault m (midpoint_residuum sqrt_ pinv lstsq ts fault (picard_init st)) else picard_init st by [].
rewrite Emid.
have Cd (s : rstate S) r : picard_residuum s = Fin r -> r <= c_solver_tol cfg -> cond_fun ts s = false.
  by move=> E Hle; rewrite /cond_fun E /= ltNge Hle orbF andbF.
case: ifP => Hc.
  by case: m Em => [|m] Em; rewrite /= ?(Cd _ _ _ Hr) // /failed /= ltNge Hr.
move: Hc; rewrite /cond_fun /= Em /= orbF => /negbT; rewrite -leNgt => Ht.
by rewrite /failed /= ltNge Ht.
Qed.

Variables (t0 : trace S) (st0 : rstate S).
Notation st_at := (state_at sqrt_ pinv DF lstsq fault cfg t0 st0).
Notation acc := (accepted sqrt_ pinv DF lstsq fault cfg t0 st0).
Lemma rejections n m : (forall k, (n < k <= n + m.+1)%N -> acc k = false) ->
  let st := st_at (n + m.+1) in
  [/\ B_n st = B_n (st_at n), B_guess st = B_n (st_at n), dt_ st = dt_ (st_at n) / 2%:R ^+ m.+1,
      eta st = eta (st_at n) & Hessian st = Hessian (st_at n)].
Proof.
elim: m => [|m IH] H.
  rewrite addn1 expr1; apply: reject_fields; apply: H; lia.
have [|E1 E2 E3 E4 E5] := IH.
  by move=> k /andP [H1 H2]; apply: H; lia.
have Ha : acc (n + m.+1).+1 = false by apply: H; lia.
have [G1 G2 G3 G4 G5] := reject_fields Ha; move: G1 G2 G3 G4 G5; rewrite -[(n + m.+1).+1]addnS E1 E3 E4 E5.
move=> G1 G2 G3 G4 G5 /=; split=> //; rewrite G3.
by rewrite [in RHS]exprS invfM [_^-1 / _]mulrC mulrA.
Qed.
Lemma rate_eq (s s' : rstate S) : B_n s = B_n s' -> B_guess s = B_guess s' -> eta s = eta s' -> Hessian s = Hessian s' ->
  rate s = rate s'.
Proof.
by case: s => a b c d e f g h i; case: s' => a' b' c' d' e' f' g' h' i' /= -> -> -> ->.
Qed.
Lemma progress n : (forall x : F, exists k : nat, x < k%:R) -> (forall st, fault st = None) ->
  (0 < c_solver_maxit cfg)%N -> 0 < c_solver_tol cfg -> 0 < dt_ st0 -> 0 < c_dt_factor cfg ->
  exists k, (n < k)%N && acc k.
Proof.
move=> Harch Hf Hm Htol Hdt Hfac.
have Pdt : 0 < dt_ (st_at n) by apply: dt_pos.
pose c := rate (update_B_guess (st_at n) (B_n (st_at n))).
have [m Hmx] := Harch (dt_ (st_at n) * c / c_solver_tol cfg).
case Hall : [forall k : 'I_m.+1, ~~ acc (n + k.+1)]; last first.
  have /forallPn [k] := negbT Hall; rewrite negbK => Hk; exists (n + k.+1)%N.
  by rewrite Hk addnS ltnS leq_addr.
have [|E1 E2 E3 E4 E5] := @rejections n m.
  move=> k /andP [H1 H2]; move/forallP: Hall => Hall.
  have Hk : (k - n.+1 < m.+1)%N by lia.
  by have := Hall (Ordinal Hk); rewrite /= (_ : n + (k - n.+1).+1 = k)%N; [move=> /negbTE | lia].
exists (n + m.+1).+1; rewrite ltnS leq_addr /= /accepted /solved_at /=.
have -> // : failed cfg (stp (st_at (n + m.+1))) = false.
apply: first_accept => //; first by rewrite E2 E1.
  by rewrite E3 divr_ge0 ?exprn_ge0 ?ler0n // ltW.
rewrite E3 (rate_eq (s' := update_B_guess (st_at n) (B_n (st_at n)))) // -/c.
have P2 : 0 < (2%:R : F) ^+ m.+1 by rewrite exprn_gt0 // ltr0n.
rewrite mulrAC ler_pdivr_mulr // [X in _ <= X]mulrC -(@ler_pdivr_mulr _ (c_solver_tol cfg)) //; apply: le_trans (ltW Hmx) _.
by rewrite -natrX ler_nat; apply: leq_trans (ltnW (ltn_expl m (isT : 1 < 2)%N)) _; rewrite leq_exp2l.
Qed.
End Progress.
