(** C73: the implicit midpoint rule of TimeStepper: for small time steps it has one solution near the
    current field, the inner Picard iteration converges to it geometrically, and what the stepper
    returns is within the reported residual of it. *)
From Coq Require Import Reals Lra.
From mathcomp Require Import all_ssreflect all_algebra zify.
From Verif Require Import Model.RBase Model.Spline Model.Quad Model.Forms Model.DeRham Model.FormEval Model.Geometry Model.SeqR Model.Relaxation.
From Verif Require Import Spec.SeqSpec Spec.GeomSpec Spec.SeqRSpec Spec.CalculusSpec Spec.RelaxSpec.
From Verif Require Import Proof.RField Proof.SeqFacts Proof.SeqRProofs Proof.SeqCalculus Proof.RelaxAlg Proof.RelaxLoop Proof.RelaxRun Proof.RelaxProgress Proof.RelaxBound Proof.ForceAlg
  Proof.SpectrumSeq Proof.MidpointSolve Props.DeRham Props.SequenceR Props.Relaxation Props.Spectrum Props.Pressure Props.Converge.
Set Implicit Arguments.
Unset Strict Implicit.
Unset Printing Implicit Defensive.
Import Order.TTheory GRing.Theory Num.Theory.
Local Open Scope ring_scope.
Notation F := R_realFieldType.

Section Seq.
Variables (ns ps : triple) (q : nat) (types : stype * stype * stype) (DFx : point -> mat3 R_realFieldType)
  (polar dirichlet : bool).
Hypothesis Hs : supported ns ps q types polar dirichlet.
Hypothesis Hreg : regular_map DFx (seq_points ns ps q types).
Variable S : drseq R_realFieldType.
Hypothesis HS : new_sequence ns ps q types DFx polar dirichlet = Some S.
Notation vec1 := 'cV[F]_(rk S K1).
Notation vec2 := 'cV[F]_(rk S K2).
Notation ip := (phys_l2 ns ps q types DFx).
Notation val := (phys ns ps q types DFx).
Notation D := (strong_div S). Notation C := (strong_curl S).
Notation is_current := (is_current ns ps q types DFx).
Notation is_projection := (is_projection ns ps q types DFx).
Notation is_force := (is_force ns ps q types DFx).

(** *** The scheme, in terms of the physical fields *)
(** f is the L2-orthogonal projection of f0 onto the divergence-free 2-forms *)
Definition solenoidal_part (f0 f : vec2) : Prop :=
  D *m f = 0 /\ forall v : vec2, D *m v = 0 -> ip 3 (val f) (val v) = ip 3 (val f0) (val v).
(** u' solves u' + (curl curl - grad div) u' = u weakly *)
Definition smoothing_step (u u' : vec2) : Prop := forall (v : vec2) (J Jv : vec1), is_current u' J -> is_current v Jv ->
  ip 3 (val u') (val v) + ip 3 (val J) (val Jv) + ip 1 (val (D *m u')) (val (D *m v)) = ip 3 (val u) (val v).
Fixpoint smoothed (g : nat) (f u : vec2) : Prop :=
  if g is g'.+1 then exists2 w, smoothed g' f w & smoothing_step w u else u = f.
(** X is the rate curl (u x B - eta J) at the field b, u being the (projected, smoothed) force J x B *)
Definition is_rate (g : nat) (ff : bool) (eta : F) (b X : vec2) : Prop :=
  exists (J H : vec1) (f0 f u : vec2) (e : vec1),
  [/\ is_current b J, is_projection (k := K1) (val b) H, is_force b f0 & (if ff then f = f0 else solenoidal_part f0 f)] /\
  [/\ smoothed g f u, is_projection (fun j => cross (val u j) (val H j)) e & X = C *m (e - eta *: J)].
(** B is reached from Bn by one step of the implicit midpoint rule *)
Definition implicit_midpoint (g : nat) (ff : bool) (eta dt : F) (Bn B : vec2) : Prop :=
  exists2 X, is_rate g ff eta (2%:R^-1 *: (B + Bn)) X & B = Bn + dt *: X.

Variable pinv : 'M[R_realFieldType]_(rk S K3).
Hypothesis Hpinv : dd3 S *m pinv *m dd3 S = dd3 S.
Let OK := C38_sequence_ok Hs Hreg HS Hpinv.
Notation sq := Rsqrt_is_sqrt.
Notation N := (norm_2 (F := F) sqrt).

Lemma sol_iff (f0 f : vec2) : solenoidal_part f0 f <-> f = P_Leray S pinv *m f0.
Proof.
have DP (x : vec2) : D *m (P_Leray S pinv *m x) = 0.
  by rewrite (mulmxA D (P_Leray S pinv)) (ok_Pdiv OK) mul0mx.
split=> [[Hf H]|->]; last first.
  split=> // v Hv; rewrite -!(ip2 Hs Hreg HS) (formC _ v (proj1 (ok_M2 OK))) (ok_Psa OK) (ok_Pid OK Hv).
  by rewrite (formC _ _ (proj1 (ok_M2 OK))).
apply/eqP; rewrite -subr_eq0; apply/eqP; set d := f - _.
have Hd : D *m d = 0 by rewrite mulmxBr Hf DP subrr.
apply: (spd_eq0 (ok_M2 OK)).
rewrite {2}/d formDr formNr (ok_Psa OK) (ok_Pid OK Hd) (formC d f (proj1 (ok_M2 OK))) (formC d f0 (proj1 (ok_M2 OK))).
by rewrite !(ip2 Hs Hreg HS) (H _ Hd) subrr.
Qed.
Lemma dd2_form (v u : vec2) : form (M2 S) v (dd2 S *m u) =
  form (M1 S) (weak_curl S *m u) (weak_curl S *m v) + form (M3 S) (D *m u) (D *m v).
Proof.
rewrite (dd2E OK) formDr formNr (ok_wgrad OK) opprK (formC _ _ (proj1 (ok_M2 OK))) (curl_adj OK).
by congr (_ + _); apply: formC; exact: (proj1 (ok_M3 OK)).
Qed.
Lemma ip3 (x y : 'cV_(rk S K3)) : form (M3 S) x y = ip 1 (val x) (val y).
Proof. by rewrite (@C33_sequence _ _ _ _ _ _ _ Hs Hreg S HS K3). Qed.
Lemma smoothing_iff (u u' : vec2) : smoothing_step u u' <-> u' = solve (1%:M + dd2 S) u.
Proof.
have E (v w : vec2) : ip 3 (val w) (val v) + ip 3 (val (weak_curl S *m w)) (val (weak_curl S *m v)) + ip 1 (val (D *m w)) (val (D *m v))
  = form (M2 S) v ((1%:M + dd2 S) *m w).
  rewrite (AE w) formDr dd2_form -(ip2 Hs Hreg HS) -(ip1 Hs Hreg HS) -ip3 addrA.
  by rewrite (formC v w (proj1 (ok_M2 OK))).
have I (J : vec1) (w : vec2) := current_iff Hs Hreg HS w J.
split=> [H|->].
- have Q : (1%:M + dd2 S) *m u' = u.
    apply/eqP; rewrite -subr_eq0; apply/eqP; apply: (spd_nondeg (ok_M2 OK)) => v.
    rewrite formDr formNr -E (H v (weak_curl S *m u') (weak_curl S *m v)); [|exact/I|exact/I].
    by rewrite -(ip2 Hs Hreg HS) (formC v u (proj1 (ok_M2 OK))) subrr.
  by rewrite -Q /solve mulKmx //; exact: (A_unit OK).
- move=> v J Jv /I -> /I ->; rewrite E (A_solve OK) -(ip2 Hs Hreg HS).
  exact: formC (proj1 (ok_M2 OK)).
Qed.
Lemma smoothed_iff g (f u : vec2) : smoothed g f u <-> u = smooth g f.
Proof.
elim: g u => [//|g IH] u /=; split=> [[w /IH -> /smoothing_iff ->] //|->].
by exists (smooth g f); [exact/IH | exact/smoothing_iff].
Qed.

Lemma sub_scale n m (Cm : 'M[F]_(n, m)) (x y : 'cV_m) (a : F) : Cm *m (x - a *: y) = Cm *m x - a *: (Cm *m y).
Proof. by rewrite mulmxBr -scalemxAr. Qed.
Lemma op_force_sol (ff : bool) (b f : vec2) : (if ff then f = force b else solenoidal_part (force b) f) <-> f = op_force pinv ff b b.
Proof. by case: ff; [|exact: sol_iff]. Qed.

Section Stepper.
Variable lstsq : 'M[F]_(rk S K2) -> vec2 -> vec2.
Variable ts : stepper F.
Hypothesis Hnewton : newton ts = false.
Lemma rate_iff eta (b X : vec2) : is_rate (gamma ts) (force_free ts) eta b X <-> X = G_ pinv ts eta b.
Proof.
have I (J : vec1) := current_iff Hs Hreg HS b J.
have IH (H : vec1) := H_iff Hs Hreg HS b H.
have IX (u : vec2) (H e : vec1) := ux_iff Hs Hreg HS u H e.
have If (f : vec2) := force_iff Hs Hreg HS b f.
have EG : G_ pinv ts eta b = C *m (solve (M1 S) (P2x1_to_1 (smooth (gamma ts) (op_force pinv (force_free ts) b b)) (P12 S *m b)) - eta *: (weak_curl S *m b)).
  by rewrite (sub_scale C).
split=> [[J [H [f0 [f [u [e [[/I -> /IH -> /If -> Hf] [/smoothed_iff -> /IX -> ->]]]]]]]]|->].
  by rewrite EG; have -> := proj1 (op_force_sol _ _ _) Hf.
exists (weak_curl S *m b), (P12 S *m b), (force b), (op_force pinv (force_free ts) b b), (smooth (gamma ts) (op_force pinv (force_free ts) b b)).
exists (solve (M1 S) (P2x1_to_1 (smooth (gamma ts) (op_force pinv (force_free ts) b b)) (P12 S *m b))).
split; split; [exact/I | exact/IH | exact/If | exact/op_force_sol | exact/smoothed_iff | exact/IX | exact: EG].
Qed.
Lemma midpoint_iff (st : rstate S) (B : vec2) :
  implicit_midpoint (gamma ts) (force_free ts) (eta st) (dt_ st) (B_n st) B <-> Phi_ pinv lstsq ts st B = B.
Proof.
rewrite (PhiE pinv lstsq Hnewton); split=> [[X /rate_iff -> E]|E]; first exact: esym.
by exists (G_ pinv ts (eta st) (half B (B_n st))); [apply/rate_iff | rewrite E].
Qed.
End Stepper.

(** *** What the stepper evaluates: a guess is left unchanged exactly if it solves the midpoint rule *)
Theorem C73_fixed_points : forall lstsq ts (st : rstate S), newton ts = false ->
  (B_nplus1 pinv lstsq ts st = B_guess st <->
   implicit_midpoint (gamma ts) (force_free ts) (eta st) (dt_ st) (B_n st) (B_guess st)).
Proof.
move=> lstsq ts st Hn; rewrite (midpoint_iff lstsq Hn st (B_guess st)).
by rewrite (Phi_same pinv lstsq ts (same_refl st)).
Qed.

Section Const.
Variables (g : nat) (ff : bool) (A e : R).
Hypothesis HA : Rle 0 A. Hypothesis He : Rle 0 e.
Definition ts0 : stepper F := Stepper g false (0 : F) 0 ff.
Definition dt0 : R := dt_max (Km pinv ts0) (Rplus A 1) e.
Lemma dt0_pos : Rlt 0 dt0.
Proof. by apply: dt_max_pos => //; [exact: (Km1 OK sq) | lra]. Qed.
(** the hypotheses about a state, in terms of what it holds *)
Definition small_step (ts : stepper F) (st : rstate S) (d : R) : Prop :=
  [/\ newton ts = false, gamma ts = g & force_free ts = ff] /\
  [/\ Rle 0 (dt_ st), Rle (dt_ st) d, Rle 0 (eta st), Rle (eta st) e & Rle (N (B_n st)) A].
Lemma small_props lstsq ts st : small_step ts st dt0 ->
  (forall x, Rle (N (x - B_n st)) 1 -> Rle (N (Phi_ pinv lstsq ts st x - B_n st)) 1) /\
  (forall x y, Rle (N (x - B_n st)) 1 -> Rle (N (y - B_n st)) 1 -> Rle (N (Phi_ pinv lstsq ts st x - Phi_ pinv lstsq ts st y)) (Rmult (/ 2) (N (x - y)))).
Proof.
move=> [[Hn Hg Hf] [H1 H2 H3 H4 H5]].
have EK : Km pinv ts = Km pinv ts0 by rewrite /Km /Kmid Hg Hf.
have Hd : Rle (dt_ st) (dt_max (Km pinv ts) (Rplus A 1) e) by rewrite EK.
split=> x *; [exact: (Phi_self OK sq lstsq Hn HA He H1 Hd H3 H4 H5) | exact: (Phi_con OK sq lstsq Hn HA He H1 Hd H3 H4 H5)].
Qed.
End Const.
Arguments small_step g ff A e ts st d : clear implicits.

(** *** Solvability, uniqueness, consistency *)
Theorem C73_solvable : forall g ff (A e : R), Rle 0 A -> Rle 0 e -> exists (d K : R), Rlt 0 d /\
  forall (Bn : vec2) (eta dt : R), Rle (N Bn) A -> Rle 0 eta -> Rle eta e -> Rle 0 dt -> Rle dt d ->
  exists B : vec2,
    [/\ implicit_midpoint g ff eta dt Bn B, Rle (N (B - Bn)) 1,
        (forall B', implicit_midpoint g ff eta dt Bn B' -> Rle (N (B' - Bn)) 1 -> B' = B)
      & forall X, is_rate g ff eta Bn X -> Rle (N (B - Bn - (dt : F) *: X)) (Rmult K (Rmult dt dt))].
Proof.
move=> g ff A e HA He; set d := dt0 g ff A e; set M := Rplus A 1; set k := Km pinv (ts0 g ff).
exists d, (Rmult (/ 2) (Rmult (Rplus (Rmult (Rmult (Rmult (Rmult 3 k) k) M) M) (Rmult e k))
       (Rplus (Rmult (Rmult (Rmult (Rmult k k) M) M) M) (Rmult (Rmult e k) M)))).
split=> [|Bn eta dt HB E1 E2 D1 D2]; first exact: dt0_pos.
pose st := RState Bn Bn (dt : F) (eta : F) 0 0 (Fin (0 : F)) (Fin (0 : F)) (Fin (0 : F)) : rstate S.
pose ls := (fun _ _ => 0) : 'M[F]_(rk S K2) -> vec2 -> vec2.
have Hsm : small_step g ff A e (ts0 g ff) st d by [].
have [P1 P2] := small_props HA He ls Hsm.
have [B Hb Ef] := fix_exists OK sq P1 P2.
have Iff (B' : vec2) := midpoint_iff (ts := ts0 g ff) ls erefl st B'.
exists B; split=> //.
- exact/(Iff B).
- by move=> B' /(Iff B') H' Hb'; exact: (fix_unique OK sq P2 Hb' Hb H' Ef).
- move=> X /(rate_iff (ts0 g ff)) ->.
  have := Phi_consistent OK sq (lstsq := ls) (ts := ts0 g ff) erefl HA (st := st) D1 E1 E2 HB Hb Ef.
  rewrite -/k -/M /= /MidpointSolve.N; move: (N _) (Rmult (Rplus _ _) _) => n w; lra.
Qed.

(** *** The inner solver: with enough iterations admitted it stops by its tolerance, within N of them
    (N does not depend on the time step), and the field it returns is within the residual it reports
    of the solution of the midpoint rule *)
Theorem C73_solver : forall g ff (A e : R), Rle 0 A -> Rle 0 e -> exists2 d : R, Rlt 0 d &
  forall tol : R, Rlt 0 tol -> Rlt tol 1 -> exists n : nat,
  forall lstsq ts fault (st : rstate S), small_step g ff A e ts st d -> (forall s, fault s = None) ->
    picard_tol ts = tol -> (n <= picard_maxit ts)%N -> Rle (N (B_guess st - B_n st)) 1 ->
  let s := picard_solver (F := F) sqrt pinv lstsq ts fault st in
  exists (B : vec2) (r : R),
    [/\ implicit_midpoint g ff (eta st) (dt_ st) (B_n st) B, Rle (N (B - B_n st)) 1 & picard_residuum s = Fin (r : F)]
    /\ [/\ Rle r tol, (0 < picard_iterations s <= n)%N & Rle (N (B_guess s - B)) r].
Proof.
move=> g ff A e HA He; exists (dt0 g ff A e) => [|tol t0 t1]; first exact: dt0_pos.
have [n Hn] := half_pow_small (ltac:(lra) : Rlt 0 (Rdiv tol 4)).
have n0 : (0 < n)%N by case: n Hn => // /=; lra.
exists n => lstsq ts fault st Hsm Hfa Et Hmax Hgu s.
have [[Hnt Hg Hf] _] := Hsm.
have [P1 P2] := small_props HA He lstsq Hsm.
have [B Hb Ef] := fix_exists OK sq P1 P2.
have HI : implicit_midpoint g ff (eta st) (dt_ st) (B_n st) B by rewrite -Hg -Hf; apply/(midpoint_iff lstsq Hnt).
have [Es Hc] := picard_iter pinv lstsq ts fault st; rewrite -/s in Es Hc.
have Hm0 : (0 < picard_iterations s)%N.
  by rewrite lt0n picard_zero_iff Et; apply/negP => /orP [/eqP E0|/RleE]; [move: Hmax; rewrite E0; lia | change (Rle 1 tol -> False); lra].
case Em : (picard_iterations s) Hm0 => [//|m] _; rewrite Em in Es Hc.
have Pin : Phi_ pinv lstsq ts (picard_init st) = Phi_ pinv lstsq ts st by [].
have Er := iter_res pinv lstsq ts Hfa m (picard_init st); rewrite -Es Pin /= in Er.
have Eg := iter_guess pinv lstsq ts Hfa m.+1 (picard_init st); rewrite -Es Pin /= in Eg.
have G1 : Rle (N (Phi_ pinv lstsq ts st (B_guess st) - B_guess st)) 2.
  have := NTB OK sq (Phi_ pinv lstsq ts st (B_guess st)) (B_n st) (B_guess st).
  by have := P1 _ Hgu; rewrite [MidpointSolve.N (B_n st - _)](NB (B_n st)) /MidpointSolve.N; lra.
have St j : Rle (N (iter j.+1 (Phi_ pinv lstsq ts st) (B_guess st) - iter j (Phi_ pinv lstsq ts st) (B_guess st))) (Rmult 2 (pow (/ 2) j)).
  apply: Rle_trans (iter_step P1 P2 j Hgu) _; apply: Rmult_le_compat_r => //; apply: pow_le; lra.
exists B, (N (iter m.+1 (Phi_ pinv lstsq ts st) (B_guess st) - iter m (Phi_ pinv lstsq ts st) (B_guess st))); split; split=> //.
- case: (ltnP (picard_iterations s) (picard_maxit ts)) => Hlt.
    have [r Hr Hle] := picard_converged Hlt; move: Hr; rewrite -/s Er => -[Err]; rewrite -Et; apply/RleE; move: Hle; rewrite -Err; exact.
  apply: Rle_trans (St m) _.
  have Hnm : (n <= m.+1)%N by rewrite -Em; exact: leq_trans Hmax Hlt.
  have Hpm := half_pow_le Hnm.
  by move: Hpm Hn; move: (pow _ _) (pow _ _) => a b; lra.
- case: (ltnP m n) => // Hnm; exfalso.
  have m0 : (0 < m)%N by lia.
  have := Hc m (ltnSn m); case: m m0 Hnm {Em Es Hc Er Eg} => // m _ Hnm.
  rewrite /cond_fun (iter_res pinv lstsq ts Hfa m) Pin /= orbF => /andP [_]; rewrite Et => /RltE H.
  have := Rlt_le_trans _ _ _ H (St m); have := half_pow_le Hnm.
  move: Hn; rewrite -/(pow _ _); move: (pow _ n) (pow _ m) => a b; lra.
- rewrite Eg; exact: (fix_post OK sq P2 Hb (iter_ball P1 m Hgu) Ef).
Qed.

(** for every tolerance and iteration cap, the distance to the solution is halved by each iteration *)
Theorem C73_geometric : forall g ff (A e : R), Rle 0 A -> Rle 0 e -> exists2 d : R, Rlt 0 d &
  forall lstsq ts fault (st : rstate S) (B : vec2), small_step g ff A e ts st d -> (forall s, fault s = None) ->
    Rle (N (B_guess st - B_n st)) 1 ->
    implicit_midpoint g ff (eta st) (dt_ st) (B_n st) B -> Rle (N (B - B_n st)) 1 ->
  let s := picard_solver (F := F) sqrt pinv lstsq ts fault st in
  Rle (Rmult (pow 2 (picard_iterations s)) (N (B_guess s - B))) (N (B_guess st - B)).
Proof.
move=> g ff A e HA He; exists (dt0 g ff A e) => [|lstsq ts fault st B Hsm Hfa Hgu HI Hb s]; first exact: dt0_pos.
have [[Hnt Hg Hf] _] := Hsm.
have [P1 P2] := small_props HA He lstsq Hsm.
have Ef : Phi_ pinv lstsq ts st B = B by apply/(midpoint_iff lstsq Hnt); rewrite Hg Hf.
have [Es _] := picard_iter pinv lstsq ts fault st; rewrite -/s in Es; set m := picard_iterations s in Es *.
have Eg := iter_guess pinv lstsq ts Hfa m (picard_init st); rewrite -Es in Eg.
rewrite Eg; have := fix_dist P1 P2 m Hb Hgu Ef; rewrite /MidpointSolve.N => H.
have P : Rlt 0 (pow 2 m) by apply: pow_lt; lra.
apply: Rle_trans (Rmult_le_compat_l _ _ _ (Rlt_le _ _ P) H) _.
have -> : pow (/ 2) m = Rinv (pow 2 m) by rewrite pow_inv.
by rewrite (Rmult_comm (N _)) -Rmult_assoc Rinv_r; lra.
Qed.

(** *** In a run: an iteration whose time step is below the threshold is accepted, and moves the field
    to within solver_tol of the solution of the midpoint rule *)
Theorem C73_run : forall g ff (A e : R), Rle 0 A -> Rle 0 e -> exists2 d : R, Rlt 0 d &
  forall tol : R, Rlt 0 tol -> Rlt tol 1 -> exists n : nat,
  forall DF lstsq fault cfg (t0 : trace S) st0, plain_run fault cfg st0 ->
    c_gamma cfg = g -> c_force_free cfg = ff -> c_solver_tol cfg = tol -> (n <= c_solver_maxit cfg)%N ->
    Rle 0 (eta st0) -> Rle (eta st0) e ->
  forall k, let st := state_at (F := F) sqrt pinv DF lstsq fault cfg t0 st0 in
    Rle (dt_ (st k)) d -> Rle (N (B_n (st k))) A ->
    accepted (F := F) sqrt pinv DF lstsq fault cfg t0 st0 k.+1 /\
    exists2 B : vec2, implicit_midpoint g ff (eta st0) (dt_ (st k)) (B_n (st k)) B & Rle (N (B_n (st k.+1) - B)) tol.
Proof.
move=> g ff A e HA He; have [d d0 H] := C73_solver g ff HA He; exists d => // tol t0 t1.
have [n Hn] := H tol t0 t1; exists n => DF lstsq fault cfg tr st0 [[Q1 Q2 Q3 Q4] [Q5 Q6 Q7 Q8]] Eg Ef Et Em He0 Hee k st Hdt HB.
have NP i : pert (F := F) sqrt pinv DF cfg i = 0 by rewrite /pert /pert_at ltNge Q2 andbF.
have GE i : B_guess (st i) = B_n (st i).
  elim: i => [//|i IH]; case Ha : (accepted (F := F) sqrt pinv DF lstsq fault cfg tr st0 i.+1).
    by have [-> -> _ _ _] := accept_state Ha; rewrite NP addr0.
  by have [-> -> _ _ _] := reject_fields Ha.
have f0 : 0 < c_dt_factor cfg by apply: lt_le_trans Q7; exact: ltr01.
have Hdt0 : Rle 0 (dt_ (st k)) by apply/RleE; apply: ltW; exact: dt_pos.
have Een : eta (st k) = eta st0 by exact: eta_const.
have Hsm : small_step g ff A e (the_stepper cfg) (st k) d by split; split=> //; rewrite Een.
have Gu : Rle (N (B_guess (st k) - B_n (st k))) 1.
  by rewrite GE subrr (_ : N 0 = R0) ?(nrm0 S sq) //; lra.
have [B [r [[B1 B2 B3] [B4 B5 B6]]]] := Hn lstsq (the_stepper cfg) fault (st k) Hsm Q3 Et Em Gu.
have Acc : accepted (F := F) sqrt pinv DF lstsq fault cfg tr st0 k.+1.
  rewrite /accepted /failed /solved_at /step B3 /= orbF -leNgt Et; exact/RleE.
split=> //; exists B; first by rewrite -Een.
have [-> _ _ _ _] := accept_state Acc; rewrite NP addr0; exact: Rle_trans B6 B4.
Qed.
End Seq.
Print Assumptions C73_fixed_points.
Print Assumptions C73_solvable.
Print Assumptions C73_solver.
Print Assumptions C73_geometric.
Print Assumptions C73_run.

(** a polar Dirichlet discretisation, a non-zero divergence-free field of any size, positive time step
    and resistivity: states and runs that meet the hypotheses, and the solver's result for one of them *)
Example C73_nonvacuous : exists (S : drseq F) (B : 'cV_(rk S K2)),
  [/\ new_sequence (8, 8, 1)%N (3, 3, 0)%N 4 (Clamped, Periodic, Constant) (fun _ => id33) true true = Some S,
      B != 0 /\ divfree S B
    & exists2 dt : F, 0 < dt & exists n : nat, forall lstsq dB,
      let pinv := pinvmx (dd3 S) in
      let st0 := RState B B dt 1 0 0 (Fin 0) (Fin 0) (Fin 0) in
      let cfg := Config 10 false 1000 2 (Rdiv 101 100) (Rdiv 1 1000000) false (n + 1) 4 (Rdiv 1 1000) 1 false 0 2000 dB in
      let t0 := Trace [::] [::] [::] [::] [::] [::] [::] [::] [::] [::] in
      [/\ plain_run (fun _ => None) cfg st0, small_step 2 false (norm_2 sqrt B) 1 (the_stepper cfg) st0 dt
        & accepted sqrt pinv (fun _ => id33) lstsq (fun _ => None) cfg t0 st0 1]].
Proof.
have [S [_ [B [HS [HB HD] _]]]] := C71_nonvacuous.
have [H1 _ H3 _ H5] := SequenceR_nonvacuous.
exists S, B; split=> //.
have OK := C38_sequence_ok H1 (H3 _) HS (H5 S).
have A0 : Rle 0 (norm_2 sqrt B) by apply/RleE; exact: (nrm_ge0 OK Rsqrt_is_sqrt).
have [d d0 H] := C73_run H1 (H3 _) HS (H5 S) 2 false A0 Rle_0_1.
exists d; first exact/RltE.
have [n Hn] := H (Rdiv 1 1000) (ltac:(lra)) (ltac:(lra)); exists n => lstsq dB pinv st0 cfg t0.
have HP : plain_run (fun _ => None) cfg st0.
  split; split=> //=; [by rewrite addn1 | apply/RleE; change (Rle 1 (Rdiv 101 100)); lra | exact/RltE].
split=> //.
- by split; split=> //=; [exact: Rlt_le | exact: Rle_refl | exact: Rle_0_1 | exact: Rle_refl | exact: Rle_refl].
- have [] := Hn (fun _ => id33) lstsq (fun _ => None) cfg t0 st0 HP erefl erefl erefl _ _ _ 0%N _ _ => //=.
  + by rewrite leq_addr.
  + exact: Rle_0_1.
  + exact: Rle_refl.
  + exact: Rle_refl.
  + exact: Rle_refl.
Qed.
