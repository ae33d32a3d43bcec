(** Specification vocabulary for the relaxation: what the discrete de Rham complex has to
    satisfy (theorem C38_sequence_ok shows that the sequences built by the constructor do),
    and the norms. *)
From mathcomp Require Import all_ssreflect all_algebra.
From Verif Require Import Model.Forms Model.DeRham Model.Geometry Model.Relaxation Spec.SeqSpec.
Set Implicit Arguments.
Unset Strict Implicit.
Unset Printing Implicit Defensive.
Import Order.TTheory GRing.Theory Num.Theory.
Local Open Scope ring_scope.

Section RelaxSpec.
Variable F : realFieldType.

(** symmetric positive definite *)
Definition spd n (A : 'M[F]_n) : Prop := A^T = A /\ forall x : 'cV_n, x != 0 -> 0 < form A x x.

(** a non-negative square root on the non-negative numbers *)
Definition is_sqrt (sqrt_ : F -> F) : Prop := forall x, 0 <= x -> 0 <= sqrt_ x /\ sqrt_ x ^+ 2 = x.

(** mass matrices, complex, adjoint weak derivatives, Hodge Laplacians, Leray projector *)
Record relax_ok (S : drseq F) (pinv : 'M[F]_(rk S K3)) : Prop := RelaxOk {
  ok_M0 : spd (M0 S); ok_M1 : spd (M1 S); ok_M2 : spd (M2 S); ok_M3 : spd (M3 S);
  ok_cg : strong_curl S *m strong_grad S = 0;
  ok_dc : strong_div S *m strong_curl S = 0;
  ok_wdiv : forall (u : 'cV_(rk S K1)) f, form (M0 S) f (weak_div S *m u) = - form (M1 S) (strong_grad S *m f) u;
  ok_wcurl : forall (u : 'cV_(rk S K2)) v, form (M1 S) v (weak_curl S *m u) = form (M2 S) (strong_curl S *m v) u;
  ok_wgrad : forall (p : 'cV_(rk S K3)) v, form (M2 S) v (weak_grad S *m p) = - form (M3 S) (strong_div S *m v) p;
  ok_dd1 : dd1 S = weak_curl S *m strong_curl S - strong_grad S *m weak_div S;
  ok_dd2 : dd2 S = strong_curl S *m weak_curl S - weak_grad S *m strong_div S;
  ok_Pdiv : strong_div S *m P_Leray S pinv = 0;
  ok_Pid : forall u : 'cV_(rk S K2), strong_div S *m u = 0 -> P_Leray S pinv *m u = u;
  ok_Psa : forall u v : 'cV_(rk S K2), form (M2 S) u (P_Leray S pinv *m v) = form (M2 S) (P_Leray S pinv *m u) v;
  ok_sym : geometry_sym S }.

(** discretely divergence free *)
Definition divfree (S : drseq F) (B : 'cV[F]_(rk S K2)) : Prop := strong_div S *m B = 0.
End RelaxSpec.
Arguments relax_ok {F} S pinv.
Arguments divfree {F} S B.

Section History.
Variable F : realFieldType.
Variable sqrt_ : F -> F.
Variable S : drseq F.
Variable pinv : 'M[F]_(rk S K3).
Variable DF : nat -> mat3 F.
Variable lstsq : 'M[F]_(rk S K2) -> 'cV[F]_(rk S K2) -> 'cV[F]_(rk S K2).
Variable fault : rstate S -> option ('cV[F]_(rk S K2) * bool * num F * num F).
Variable cfg : config F.
Variables (t0 : trace S) (st0 : rstate S).
Notation body := (loop_body sqrt_ pinv DF lstsq fault cfg).

(** state and trace after the first n iterations of the loop started in st0, t0 (breaks
    ignored: a run is such a history cut at its first break, see C45) *)
Fixpoint history (n : nat) : rstate S * trace S :=
  if n is n'.+1 then let: (st, t) := history n' in let: (st', t', _) := body n'.+1 st t in (st', t')
  else (st0, record_initial sqrt_ pinv lstsq fault cfg t0 st0).
Definition state_at n := (history n).1.
Definition trace_at n := (history n).2.
(** the n-th solve (n >= 1) and whether it was accepted *)
Definition solved_at n := step sqrt_ pinv lstsq fault cfg (state_at n.-1).
Definition accepted n : bool := ~~ failed cfg (solved_at n).
(** the accepted iterations selected for recording *)
Definition selected n : bool := (n %% c_save_every cfg == 0)%N || (n == c_maxit cfg).
(** the loop breaks after iteration n *)
Definition breaks n : bool := accepted n && num_lt (last NaN (force_trace (trace_at n))) (c_force_tol cfg).
End History.
