(** Contraction of the Picard map of the implicit midpoint rule, and the fixed point it has. *)
From Coq Require Import Reals Lra.
From mathcomp Require Import all_ssreflect all_algebra zify.
From Verif Require Import Model.Forms Model.DeRham Model.Geometry Model.Relaxation Spec.GeomSpec Spec.SeqSpec Spec.RelaxSpec
  Proof.RField Proof.MCRing Proof.SequenceAlg Proof.DeRhamAlg Proof.GeometryProofs Proof.ProjectionProofs Proof.RelaxAlg Proof.RelaxLoop Proof.RelaxRun
  Proof.RelaxProgress Proof.SpectrumSeq Proof.ForceAlg Proof.RelaxBound.
Set Implicit Arguments.
Unset Strict Implicit.
Unset Printing Implicit Defensive.
Import Order.TTheory GRing.Theory Num.Theory.

Section PureR.
Local Open Scope R_scope.
(** a real sequence whose increments are halved has a limit, and is within twice the increment of it *)
Lemma halving_limit (a : nat -> R) (C : R) : 0 <= C -> (forall k, Rabs (a (S k) - a k) <= C * (/ 2) ^ k) ->
  exists l, forall k, Rabs (a k - l) <= 2 * C * (/ 2) ^ k.
Proof.
move=> HC H.
have P k : 0 < (/ 2) ^ k by apply: pow_lt; lra.
have Inc k : a k - 2 * C * (/ 2) ^ k <= a (S k) - 2 * C * (/ 2) ^ (S k).
  by move: (H k); rewrite /Rabs /=; case: Rcase_abs => ? ?; nra.
have Dec k : a (S k) + 2 * C * (/ 2) ^ (S k) <= a k + 2 * C * (/ 2) ^ k.
  by move: (H k); rewrite /Rabs /=; case: Rcase_abs => ? ?; nra.
have IncN k d : a k - 2 * C * (/ 2) ^ k <= a (k + d)%nat - 2 * C * (/ 2) ^ (k + d)%nat.
  elim: d => [|d IH]; first by rewrite addn0; lra.
  by rewrite addnS; apply: Rle_trans IH (Inc _).
have DecN k d : a (k + d)%nat + 2 * C * (/ 2) ^ (k + d)%nat <= a k + 2 * C * (/ 2) ^ k.
  elim: d => [|d IH]; first by rewrite addn0; lra.
  by rewrite addnS; apply: Rle_trans (Dec _) IH.
have Cross k j : a k - 2 * C * (/ 2) ^ k <= a j + 2 * C * (/ 2) ^ j.
  apply: Rle_trans (IncN k j) _; apply: Rle_trans (DecN j k).
  by rewrite addnC; have := P (j + k)%nat; have := Rmult_le_pos _ _ HC (Rlt_le _ _ (P (j + k)%nat)); lra.
pose E x := exists k, x = a k - 2 * C * (/ 2) ^ k.
have [l [L1 L2]] : {l | is_lub E l}.
  apply: completeness; last by exists (a 0%nat - 2 * C * (/ 2) ^ 0); exists 0%nat.
  by exists (a 0%nat + 2 * C * (/ 2) ^ 0) => x [k ->].
exists l => k.
have A1 : a k - 2 * C * (/ 2) ^ k <= l by apply: L1; exists k.
have A2 : l <= a k + 2 * C * (/ 2) ^ k by apply: L2 => x [j ->].
by apply: Rabs_le; lra.
Qed.
Lemma half_pow_small (x : R) : 0 < x -> exists k, (/ 2) ^ k < x.
Proof.
move=> Hx; have H : Rabs (/ 2) < 1 by rewrite Rabs_right; lra.
have [N HN] := pow_lt_1_zero _ H _ Hx; exists N; have := HN N (le_n _); rewrite Rabs_right //.
by apply: Rle_ge; apply: pow_le; lra.
Qed.
Lemma half_pow_le (m n : nat) : (n <= m.+1)%N -> (/ 2) ^ m <= 2 * (/ 2) ^ n.
Proof.
move=> H; have -> : (/ 2) ^ m = 2 * (/ 2) ^ (S m) by rewrite /=; lra.
rewrite -(subnKC H) pow_add; apply: Rmult_le_compat_l; first lra.
have P : 0 <= (/ 2) ^ n by apply: pow_le; lra.
have Q : (/ 2) ^ (m.+1 - n) <= 1 by rewrite -(pow1 (m.+1 - n)); apply: pow_incr; lra.
by have := Rmult_le_compat_l _ _ _ P Q; rewrite Rmult_1_r.
Qed.
Lemma le0_half (x C : R) : 0 <= C -> (forall k, x <= C * (/ 2) ^ k) -> x <= 0.
Proof.
move=> HC H; apply: Rnot_lt_le => Hx.
have [k Hk] : exists k, (/ 2) ^ k < x / (C + 1) by apply: half_pow_small; apply: Rdiv_lt_0_compat; lra.
have P : 0 < (/ 2) ^ k by apply: pow_lt; lra.
have : (C + 1) * (/ 2) ^ k < x.
  by apply: (Rle_lt_trans _ ((/ 2) ^ k * (C + 1))); [lra | apply: (Rmult_lt_reg_r (/ (C + 1))); [apply: Rinv_0_lt_compat; lra | rewrite Rmult_assoc Rinv_r; lra]].
by have := H k; nra.
Qed.
End PureR.

Local Open Scope ring_scope.
Notation F := R_realFieldType.
Section Fix.
Variables (S : drseq F) (pinv : 'M[F]_(rk S K3)).
Hypothesis OK : relax_ok S pinv.
Hypothesis Hsq : is_sqrt (F := F) sqrt.
Notation vec2 := 'cV[F]_(rk S K2).
Definition N (x : vec2) : R := norm_2 (F := F) sqrt x.
Lemma N_ge0 x : Rle 0 (N x). Proof. by apply/RleE; exact: (nrm_ge0 OK). Qed.
Lemma NT x y : Rle (N (x + y)) (Rplus (N x) (N y)). Proof. by apply/RleE; exact: (nrm_triangle OK Hsq). Qed.
Lemma NN x : N (- x) = N x. Proof. exact: nrmN. Qed.
Lemma NB x y : N (x - y) = N (y - x). Proof. by rewrite -NN opprB. Qed.
Lemma NTB x y z : Rle (N (x - z)) (Rplus (N (x - y)) (N (y - z))).
Proof. have -> : x - z = (x - y) + (y - z) by rewrite addrA subrK. exact: NT. Qed.
Lemma N0 : N 0 = R0. Proof. exact: (nrm0 S Hsq). Qed.
Lemma NZ (a : R) x : N ((a : F) *: x) = Rmult (Rabs a) (N x).
Proof. by rewrite /N (nrmZn OK Hsq). Qed.
Lemma N_eq0 x : Rle (N x) 0 -> x = 0.
Proof. by move=> H; apply: (nrm_eq0 OK Hsq); apply: Rle_antisym => //; apply: N_ge0. Qed.
Lemma N_coord (x : vec2) i : Rle (Rabs (x i 0)) (Rmult (N (zc i)) (N x)).
Proof. by apply/RleE; exact: (coord OK Hsq). Qed.

(** the fixed point *)
Variables (Phi : vec2 -> vec2) (c : vec2).
Hypothesis Hself : forall x, Rle (N (x - c)) 1 -> Rle (N (Phi x - c)) 1.
Hypothesis Hcon : forall x y, Rle (N (x - c)) 1 -> Rle (N (y - c)) 1 -> Rle (N (Phi x - Phi y)) (Rmult (/ 2) (N (x - y))).
Let x_ k := iter k Phi c.
Lemma iter_ball x k : Rle (N (x - c)) 1 -> Rle (N (iter k Phi x - c)) 1.
Proof. by move=> Hx; elim: k => [//|k IH]; rewrite iterS; apply: Hself. Qed.
Lemma c_ball : Rle (N (c - c)) 1. Proof. by rewrite subrr N0; lra. Qed.
Lemma iter_step x k : Rle (N (x - c)) 1 -> Rle (N (iter k.+1 Phi x - iter k Phi x)) (Rmult (N (Phi x - x)) (pow (/ 2) k)).
Proof.
move=> Hx; elim: k => [|k IH] /=; first by lra.
apply: Rle_trans (Hcon (Hself (iter_ball k Hx)) (iter_ball k Hx)) _.
by move: IH; rewrite iterS; move: (N _) (N _) (pow _ _) => a b d; lra.
Qed.
Lemma fix_exists : exists2 x, Rle (N (x - c)) 1 & Phi x = x.
Proof.
have Hstep k : Rle (N (x_ k.+1 - x_ k)) (pow (/ 2) k).
  apply: Rle_trans (iter_step k c_ball) _.
  have := Hself c_ball; have : Rlt 0 (pow (/ 2) k) by apply: pow_lt; lra.
  by move: (N _) (pow _ _) => a b; nra.
have Hl i : exists l : R, forall k, Rle (Rabs (Rminus (x_ k i 0) l)) (Rmult (Rmult 2 (N (zc i))) (pow (/ 2) k)).
  apply: halving_limit; first exact: N_ge0.
  move=> k; apply: Rle_trans (Rmult_le_compat_l _ _ _ (N_ge0 _) (Hstep k)).
  by have := N_coord (x_ k.+1 - x_ k) i; rewrite !mxE.
have [l Hl'] : exists l : vec2, forall i k, Rle (Rabs (Rminus (x_ k i 0) (l i 0))) (Rmult (Rmult 2 (N (zc i))) (pow (/ 2) k)).
  pose P i y := forall k, Rle (Rabs (Rminus (x_ k i 0) y)) (Rmult (Rmult 2 (N (zc i))) (pow (/ 2) k)).
  pose g i := proj1_sig (ClassicalEpsilon.constructive_indefinite_description _ (Hl i)).
  exists (\col_i g i) => i k; rewrite mxE; exact: (proj2_sig (ClassicalEpsilon.constructive_indefinite_description _ (Hl i))).
pose D : R := \sum_(j : 'I_(rk S K2)) Rmult (Rmult 2 (N (zc j))) (N (delta_mx j 0)).
have D0 : Rle 0 D.
  by apply/RleE; apply: sumr_ge0 => j _; apply/RleE; apply: Rmult_le_pos; [apply: Rmult_le_pos; [lra | exact: N_ge0] | exact: N_ge0].
have Hlim k : Rle (N (x_ k - l)) (Rmult D (pow (/ 2) k)).
  apply/RleE; rewrite /N (vec_sum (x_ k - l)); apply: le_trans (nrm_sum OK Hsq _ _) _.
  change (Rmult D (pow (/ 2) k)) with ((D : F) * (pow (/ 2) k : F)); rewrite mulr_suml; apply: ler_sum => j _; apply/RleE.
  rewrite -/(N _) NZ !mxE.
  have := Hl' j k; have := N_ge0 (delta_mx j 0); rewrite /Rminus.
  move: (Rabs _) (N _) (Rmult 2 _) (pow _ _) => a b d e Hb Ha.
  change (Rle (Rmult a b) (Rmult (Rmult d b) e)).
  by have := Rmult_le_compat_r _ _ _ Hb Ha; lra.
have Hball : Rle (N (l - c)) 1.
  have : Rle (Rminus (N (l - c)) 1) 0; last lra.
  apply: (le0_half D0) => k; have := NTB l (x_ k) c; have := Hlim k; have := iter_ball k c_ball; rewrite [N (l - x_ k)]NB -/(x_ k); lra.
exists l => //; apply/eqP; rewrite -subr_eq0; apply/eqP; apply: N_eq0.
have D2 : Rle 0 (Rmult 2 D) by lra.
apply: (le0_half D2) => k.
have := NTB (Phi l) (x_ k.+1) l; have := Hlim k.+1; have := Hcon Hball (iter_ball k c_ball).
rewrite -/(x_ k) [N (l - _)]NB [pow _ k.+1]/=; have := Hlim k; rewrite /x_ iterS -/(x_ k).
have : Rle 0 (pow (/ 2) k) by apply: pow_le; lra.
move: (N _) (N _) (N _) (N _) (pow _ _) => a b d e h; nra.
Qed.
Lemma fix_unique x y : Rle (N (x - c)) 1 -> Rle (N (y - c)) 1 -> Phi x = x -> Phi y = y -> x = y.
Proof.
move=> Hx Hy Ex Ey; have := Hcon Hx Hy; rewrite Ex Ey => H.
by apply/eqP; rewrite -subr_eq0; apply/eqP; apply: N_eq0; have := N_ge0 (x - y); lra.
Qed.
Lemma fix_dist x y k : Rle (N (x - c)) 1 -> Rle (N (y - c)) 1 -> Phi x = x -> Rle (N (iter k Phi y - x)) (Rmult (N (y - x)) (pow (/ 2) k)).
Proof.
move=> Hx Hy Ex; elim: k => [|k IH] /=; first by lra.
have := Hcon (iter_ball k Hy) Hx; rewrite Ex; move: IH; move: (N _) (N _) (N _) (pow _ _) => a b d e; lra.
Qed.
(** a posteriori *)
Lemma fix_post x y : Rle (N (x - c)) 1 -> Rle (N (y - c)) 1 -> Phi x = x -> Rle (N (Phi y - x)) (N (Phi y - y)).
Proof.
move=> Hx Hy Ex; have := Hcon Hy Hx; rewrite Ex; have := NTB y (Phi y) x; rewrite [N (y - Phi y)]NB; lra.
Qed.
End Fix.

Section MidR.
Local Open Scope R_scope.
(** the largest admitted time step: M bounds the fields in the ball *)
Definition dt_max (K M e : R) : R := / (1 + 3 * K * K * M * M * (1 + M) + e * K * (1 + M)).
Lemma dt_max_pos K M e : 1 <= K -> 0 <= M -> 0 <= e -> 0 < dt_max K M e.
Proof.
move=> HK HM He; apply: Rinv_0_lt_compat.
have A1 : 0 <= K * K * M * M * (1 + M) by repeat apply: Rmult_le_pos; lra.
have A2 : 0 <= e * K * (1 + M) by repeat apply: Rmult_le_pos; lra.
lra.
Qed.
Lemma dt_max_use K M e h : 1 <= K -> 0 <= M -> 0 <= e -> 0 <= h <= dt_max K M e ->
  h * (3 * K * K * M * M + e * K) <= 1 /\ h * (K * K * M * M * M + e * K * M) <= 1.
Proof.
move=> HK HM He [h0 Hh].
have B1 : 0 <= K * K * M * M by repeat apply: Rmult_le_pos; lra.
have B2 : 0 <= e * K by repeat apply: Rmult_le_pos; lra.
have B3 : 0 <= K * K * M * M * M by apply: Rmult_le_pos.
have B4 : 0 <= e * K * M by apply: Rmult_le_pos.
have X : h * (1 + 3 * K * K * M * M * (1 + M) + e * K * (1 + M)) <= 1.
  apply: (Rmult_le_reg_r (/ (1 + 3 * K * K * M * M * (1 + M) + e * K * (1 + M)))); first by apply: Rinv_0_lt_compat; lra.
  by rewrite Rmult_assoc Rinv_r; [rewrite /dt_max in Hh; lra | lra].
have C1 := Rmult_le_pos _ _ h0 B1. have C2 := Rmult_le_pos _ _ h0 B2.
have C3 := Rmult_le_pos _ _ h0 B3. have C4 := Rmult_le_pos _ _ h0 B4.
by split; lra.
Qed.
End MidR.

Section Mid.
Variables (S : drseq F) (pinv : 'M[F]_(rk S K3)).
Hypothesis OK : relax_ok S pinv.
Hypothesis Hsq : is_sqrt (F := F) sqrt.
Variable lstsq : 'M[F]_(rk S K2) -> 'cV[F]_(rk S K2) -> 'cV[F]_(rk S K2).
Variable ts : stepper F.
Hypothesis Hnewton : newton ts = false.
Notation vec2 := 'cV[F]_(rk S K2).
Definition Km : R := Kmid sqrt pinv ts.
Lemma Km1 : Rle 1 Km.
Proof. by apply/RleE; have [] := Kmid_parts OK Hsq ts. Qed.
Definition U_ (b b' : vec2) : vec2 := smooth (gamma ts) (op_force pinv (force_free ts) b b').
Definition G_ (e : R) (b : vec2) : vec2 := op_ind (U_ b b) b - (e : F) *: op_res b.
Lemma U_bound (b b' : vec2) : Rle (N (U_ b b')) (Rmult Km (Rmult (N b) (N b'))).
Proof.
have [_ _ _ H _] := Kmid_parts OK Hsq ts.
apply/RleE; apply: le_trans (lin_bound OK Hsq (@smooth_lin _ _ _) _) _.
apply: (@le_trans _ _ (linK sqrt (smooth (gamma ts)) * (bilK sqrt (op_force pinv (force_free ts)) * (norm_2 (F := F) sqrt b * norm_2 (F := F) sqrt b')))).
  by apply: ler_wpmul2l; [exact: linK_ge0 OK Hsq _ | apply: (bil_bound OK Hsq); [apply: op_force_l | apply: op_force_r]].
rewrite mulrA; apply: ler_wpmul2r => //; apply: mulr_ge0; apply: (nrm_ge0 OK Hsq).
Qed.
Lemma ind_bound (u b : vec2) : Rle (N (op_ind u b)) (Rmult Km (Rmult (N u) (N b))).
Proof. by apply/RleE; exact: (bound_ind OK Hsq ts). Qed.
Lemma res_bound (b : vec2) : Rle (N (op_res b)) (Rmult Km (N b)).
Proof. by apply/RleE; exact: (bound_res OK Hsq ts). Qed.
Lemma linB (f : vec2 -> vec2) : (forall a u v, f (a *: u + v) = a *: f u + f v) -> forall u v, f (u - v) = f u - f v.
Proof. by move=> H u v; rewrite addrC -scaleN1r H scaleN1r addrC. Qed.
Lemma U_diff (b b' : vec2) : U_ b b - U_ b' b' = U_ (b - b') b + U_ b' (b - b').
Proof.
rewrite /U_ (linB (op_force_l pinv _ b)) (linB (op_force_r pinv _ b')) !(linB (@smooth_lin _ _ _)).
by rewrite addrA subrK.
Qed.
Lemma G_diff e (b b' : vec2) : G_ e b - G_ e b' = op_ind (U_ (b - b') b + U_ b' (b - b')) b + op_ind (U_ b' b') (b - b') - (e : F) *: op_res (b - b').
Proof.
rewrite -U_diff (linB (op_ind_l b)) (linB (@op_ind_r _ _ (U_ b' b'))) (linB (@op_res_lin _ _)) scalerBr /G_.
set x := op_ind (U_ b b) b; set y := op_ind (U_ b' b') b; set z := op_ind (U_ b' b') b'.
set p := _ *: _; set r := _ *: _.
by rewrite addrA subrK !opprB addrAC [x - z + _]addrC; rewrite [in LHS]addrC addrA [r + _]addrC -!addrA; congr (_ + _); rewrite addrCA; congr (_ + _).
Qed.
Lemma G_bound e (b : vec2) (M : R) : Rle 0 e -> Rle (N b) M ->
  Rle (N (G_ e b)) (Rplus (Rmult (Rmult (Rmult (Rmult Km Km) M) M) M) (Rmult (Rmult e Km) M)).
Proof.
move=> He Hb; have := NT OK Hsq (op_ind (U_ b b) b) (- ((e : F) *: op_res b)); rewrite NN (NZ OK Hsq) (Rabs_pos_eq _ He) -/(G_ e b).
have := ind_bound (U_ b b) b; have := res_bound b; have := U_bound b b.
have := N_ge0 OK Hsq b; have := N_ge0 OK Hsq (U_ b b); have := Km1; move: Hb.
move: (N (op_res b)) (N (op_ind (U_ b b) b)) (N (U_ b b)) (N (G_ e b)) (N b) Km => nr ni nu ng nb K Hb HK Hu0 Hb0 HU HR HI HG.
have HM : Rle 0 M by exact: Rle_trans Hb.
have P1 : Rle (Rmult nb nb) (Rmult M M) by apply: Rmult_le_compat.
have P2 : Rle nu (Rmult K (Rmult M M)) by apply: Rle_trans HU _; apply: Rmult_le_compat_l; lra.
have P3 : Rle (Rmult nu nb) (Rmult (Rmult K (Rmult M M)) M) by apply: Rmult_le_compat.
have P4 : Rle ni (Rmult K (Rmult (Rmult K (Rmult M M)) M)) by apply: Rle_trans HI _; apply: Rmult_le_compat_l; lra.
have P5 : Rle (Rmult e nr) (Rmult e (Rmult K M)).
  by apply: Rmult_le_compat_l => //; apply: Rle_trans HR _; apply: Rmult_le_compat_l; lra.
lra.
Qed.
Lemma G_lip e (b b' : vec2) (M : R) : Rle 0 e -> Rle (N b) M -> Rle (N b') M ->
  Rle (N (G_ e b - G_ e b')) (Rmult (Rplus (Rmult (Rmult (Rmult (Rmult 3 Km) Km) M) M) (Rmult e Km)) (N (b - b'))).
Proof.
move=> He Hb Hb'; rewrite G_diff.
have := NT OK Hsq (op_ind (U_ (b - b') b + U_ b' (b - b')) b + op_ind (U_ b' b') (b - b')) (- ((e : F) *: op_res (b - b'))).
rewrite NN (NZ OK Hsq) (Rabs_pos_eq _ He).
have := NT OK Hsq (op_ind (U_ (b - b') b + U_ b' (b - b')) b) (op_ind (U_ b' b') (b - b')).
have := ind_bound (U_ (b - b') b + U_ b' (b - b')) b; have := ind_bound (U_ b' b') (b - b'); have := res_bound (b - b').
have := NT OK Hsq (U_ (b - b') b) (U_ b' (b - b')).
have := U_bound (b - b') b; have := U_bound b' (b - b'); have := U_bound b' b'.
have := N_ge0 OK Hsq b; have := N_ge0 OK Hsq b'; have := N_ge0 OK Hsq (b - b'); have := N_ge0 OK Hsq (U_ (b - b') b + U_ b' (b - b')).
have := N_ge0 OK Hsq (U_ b' b'); have := Km1; move: Hb Hb'.
move: (N b) (N b') (N (b - b')) (N (U_ b' b')) (N (U_ (b - b') b + _)) (N (U_ (b - b') b)) (N (U_ b' (b - b'))) (N (op_res _)) (N (op_ind (U_ b' b') _)) (N (op_ind _ b)) (N (_ + op_ind _ _)) (N _) Km.
move=> nb nb' d u us u1 u2 r i1 i2 s t K Hb Hb' HK Hu0 Hus0 Hd Hb0' Hb0 HU HU2 HU1 HUs HR HI1 HI2 HS HT.
have HM : Rle 0 M by exact: Rle_trans Hb.
have HK0 : Rle 0 K by lra.
have Q1 : Rle u (Rmult K (Rmult M M)) by apply: Rle_trans HU _; apply: Rmult_le_compat_l => //; apply: Rmult_le_compat.
have Q2 : Rle u1 (Rmult K (Rmult d M)) by apply: Rle_trans HU1 _; apply: Rmult_le_compat_l => //; apply: Rmult_le_compat_l.
have Q3 : Rle u2 (Rmult K (Rmult M d)) by apply: Rle_trans HU2 _; apply: Rmult_le_compat_l => //; apply: Rmult_le_compat_r.
have Q4 : Rle us (Rmult K (Rmult (Rmult 2 M) d)) by lra.
have Q5 : Rle i2 (Rmult K (Rmult (Rmult K (Rmult (Rmult 2 M) d)) M)) by apply: Rle_trans HI2 _; apply: Rmult_le_compat_l => //; apply: Rmult_le_compat.
have Q6 : Rle i1 (Rmult K (Rmult (Rmult K (Rmult M M)) d)) by apply: Rle_trans HI1 _; apply: Rmult_le_compat_l => //; apply: Rmult_le_compat_r.
have Q7 : Rle (Rmult e r) (Rmult e (Rmult K d)) by apply: Rmult_le_compat_l.
lra.
Qed.

Lemma halfE : (2%:R^-1 : F) = Rinv 2.
Proof. rewrite (_ : 2%:R = IZR 2) //; apply: esym; apply: RinvE; apply/eqP; exact: (Rgt_not_eq _ _ Rlt_0_2). Qed.
(** the Picard map of a state *)
Definition Phi_ (st : rstate S) (B : vec2) : vec2 := B_nplus1 pinv lstsq ts (update_B_guess st B).
Definition half (x y : vec2) : vec2 := 2%:R^-1 *: (x + y).
Lemma PhiE st B : Phi_ st B = B_n st + dt_ st *: G_ (eta st) (half B (B_n st)).
Proof.
have := incrE pinv lstsq ts (update_B_guess st B) => /=.
by rewrite (mid_uE pinv lstsq Hnewton) mid_fE /Phi_ => <-; rewrite addrC subrK.
Qed.
Lemma N_half (x y : vec2) (M : R) : Rle (N x) M -> Rle (N y) M -> Rle (N (half x y)) M.
Proof.
move=> Hx Hy; rewrite /half halfE.
rewrite (NZ OK Hsq) Rabs_pos_eq; last by lra.
by have := NT OK Hsq x y; lra.
Qed.
Lemma half_diff (x x' y : vec2) : half x y - half x' y = 2%:R^-1 *: (x - x').
Proof. by rewrite /half -scalerBr opprD addrACA subrr addr0. Qed.
Lemma N_ball (st : rstate S) (B : vec2) (A : R) : Rle (N (B_n st)) A -> Rle (N (B - B_n st)) 1 -> Rle (N B) (Rplus A 1).
Proof. by move=> H1 H2; have := NT OK Hsq (B - B_n st) (B_n st); rewrite subrK; lra. Qed.

Variables (A e : R).
Hypothesis HA : Rle 0 A. Hypothesis He : Rle 0 e.
Variable st : rstate S.
Hypothesis Hdt0 : Rle 0 (dt_ st). Hypothesis Hdt : Rle (dt_ st) (dt_max Km (Rplus A 1) e).
Hypothesis He0 : Rle 0 (eta st). Hypothesis Hee : Rle (eta st) e.
Hypothesis HB : Rle (N (B_n st)) A.
Let M := Rplus A 1.
Let HM : Rle 0 M. Proof. by rewrite /M; lra. Qed.
Lemma Phi_self (B : vec2) : Rle (N (B - B_n st)) 1 -> Rle (N (Phi_ st B - B_n st)) 1.
Proof.
move=> H; rewrite PhiE addrC addKr (NZ OK Hsq) (Rabs_pos_eq _ Hdt0).
have HB' : Rle (N (B_n st)) M by rewrite /M; lra.
have := G_bound He0 (N_half (N_ball HB H) HB').
have [_] := dt_max_use Km1 HM He (conj Hdt0 Hdt).
have := N_ge0 OK Hsq (G_ (eta st) (half B (B_n st))).
move: (N _) => n Hn0 H1 Hn.
have X : Rle (Rmult (Rmult (eta st) Km) M) (Rmult (Rmult e Km) M).
  by apply: Rmult_le_compat_r => //; apply: Rmult_le_compat_r => //; have := Km1; lra.
apply: Rle_trans H1; apply: Rmult_le_compat_l => //; apply: Rle_trans Hn _.
by apply: Rplus_le_compat_l.
Qed.
Lemma Phi_con (B B' : vec2) : Rle (N (B - B_n st)) 1 -> Rle (N (B' - B_n st)) 1 -> Rle (N (Phi_ st B - Phi_ st B')) (Rmult (/ 2) (N (B - B'))).
Proof.
move=> H H'.
have HB' : Rle (N (B_n st)) M by rewrite /M; lra.
have E : Phi_ st B - Phi_ st B' = dt_ st *: (G_ (eta st) (half B (B_n st)) - G_ (eta st) (half B' (B_n st))).
  by rewrite !PhiE; move: (G_ _ _) (G_ _ _) => g g'; rewrite scalerBr opprD addrACA subrr add0r.
have := G_lip He0 (N_half (N_ball HB H) HB') (N_half (N_ball HB H') HB').
rewrite E (NZ OK Hsq) (Rabs_pos_eq _ Hdt0) half_diff.
rewrite halfE.
rewrite (NZ OK Hsq) Rabs_pos_eq; last by lra.
have [+ _] := dt_max_use Km1 HM He (conj Hdt0 Hdt).
have := N_ge0 OK Hsq (B - B').
move: (N (G_ _ _ - _)) (N (B - B')) => n' n Hn0 H1 Hn.
have X : Rle (Rmult (eta st) Km) (Rmult e Km) by apply: Rmult_le_compat_r => //; have := Km1; lra.
have Y : Rle (Rmult (dt_ st) (Rplus (Rmult (Rmult (Rmult (Rmult 3 Km) Km) M) M) (Rmult (eta st) Km))) 1.
  by apply: Rle_trans H1; apply: Rmult_le_compat_l => //; apply: Rplus_le_compat_l.
apply: Rle_trans (Rmult_le_compat_l _ _ _ Hdt0 Hn) _.
have n0 : Rle 0 (Rmult (/ 2) n) by lra.
by have := Rmult_le_compat_r _ _ _ n0 Y; rewrite Rmult_1_l (Rmult_assoc (dt_ st)).
Qed.
(** consistency of the fixed point with the explicit step *)
Lemma Phi_consistent (B : vec2) : Rle (N (B - B_n st)) 1 -> Phi_ st B = B ->
  Rle (N (B - B_n st - dt_ st *: G_ (eta st) (B_n st)))
    (Rmult (Rmult (Rmult (dt_ st) (dt_ st)) (/ 2)) (Rmult (Rplus (Rmult (Rmult (Rmult (Rmult 3 Km) Km) M) M) (Rmult e Km))
       (Rplus (Rmult (Rmult (Rmult (Rmult Km Km) M) M) M) (Rmult (Rmult e Km) M)))).
Proof.
move=> H E.
have HB' : Rle (N (B_n st)) M by rewrite /M; lra.
have E1 : B - B_n st = dt_ st *: G_ (eta st) (half B (B_n st)) by rewrite -{1}E PhiE addrC addKr.
have Hh : half (B_n st) (B_n st) = B_n st.
  by rewrite /half -mulr2n -scaler_nat scalerA mulVf ?scale1r // pnatr_eq0.
have Hd : half B (B_n st) - B_n st = (Rinv 2 : F) *: (dt_ st *: G_ (eta st) (half B (B_n st))).
  by rewrite -E1 -halfE -[X in _ - X = _]Hh half_diff.
have := G_lip He0 (N_half (N_ball HB H) HB') HB'; rewrite Hd.
have := G_bound He0 (N_half (N_ball HB H) HB').
rewrite E1 -scalerBr !(NZ OK Hsq) (Rabs_pos_eq _ Hdt0) Rabs_pos_eq; last by lra.
have := N_ge0 OK Hsq (G_ (eta st) (half B (B_n st))).
have X : Rle (Rmult (eta st) Km) (Rmult e Km) by apply: Rmult_le_compat_r => //; have := Km1; lra.
have X2 : Rle (Rmult (Rmult (eta st) Km) M) (Rmult (Rmult e Km) M) by apply: Rmult_le_compat_r.
have X0 : Rle 0 (Rmult (eta st) Km) by apply: Rmult_le_pos => //; have := Km1; lra.
have Z3 : Rle 0 (Rmult (Rmult (Rmult (Rmult 3 Km) Km) M) M) by do 4?(apply: Rmult_le_pos => //); have := Km1; lra.
rewrite -/M; move: (N (G_ _ _)) (N (G_ _ _ - _)) => n n' Hn.
move: (Rmult (Rmult (Rmult (Rmult 3 Km) Km) M) M) (Rmult (Rmult (Rmult (Rmult Km Km) M) M) M) Z3 => a b Z3 Hb Hl.
have := Hdt0; move: (dt_ st : R) Hl => h Hl Hh0.
apply: Rle_trans (Rmult_le_compat_l _ _ _ Hh0 Hl) _.
have Y1 : Rle n (Rplus b (Rmult (Rmult e Km) M)) by lra.
have Y2 : Rle (Rmult (Rplus a (Rmult (eta st) Km)) n) (Rmult (Rplus a (Rmult e Km)) (Rplus b (Rmult (Rmult e Km) M))) by apply: Rmult_le_compat; lra.
have Y3 : Rle 0 (Rmult (Rmult h h) (/ 2)) by apply: Rmult_le_pos; [exact: Rmult_le_pos | lra].
have := Rmult_le_compat_l _ _ _ Y3 Y2.
move: (Rmult (Rplus a (Rmult e Km)) _) => w; move: (Rplus a _) => v; lra.
Qed.
End Mid.

Section PicardIter.
Variables (S : drseq F) (pinv : 'M[F]_(rk S K3)).
Variable lstsq : 'M[F]_(rk S K2) -> 'cV[F]_(rk S K2) -> 'cV[F]_(rk S K2).
Variable ts : stepper F.
Variable fault : rstate S -> option ('cV[F]_(rk S K2) * bool * num F * num F).
Hypothesis Hfault : forall st, fault st = None.
Notation mid := (midpoint_residuum (F := F) sqrt pinv lstsq ts fault).
Notation Phi_ := (Phi_ pinv lstsq ts).
Lemma while_iter fuel st : exists2 m, while_loop (F := F) sqrt pinv lstsq ts fault fuel st = iter m mid st & forall j, (j < m)%N -> cond_fun ts (iter j mid st).
Proof.
elim: fuel st => [|fuel IH] st /=; first by exists 0%N.
case Hc : (cond_fun ts st); last by exists 0%N.
have [m E H] := IH (mid st); exists m.+1; first by rewrite E -iterSr.
by case=> [//|j] Hj; rewrite iterSr; apply: H.
Qed.
Lemma iter_iters k st : picard_iterations (iter k mid st) = (picard_iterations st + k)%N.
Proof. by elim: k => [|k IH]; rewrite ?addn0 // iterS mid_iters IH addnS. Qed.
Lemma picard_iter st : let m := picard_iterations (picard_solver (F := F) sqrt pinv lstsq ts fault st) in
  picard_solver (F := F) sqrt pinv lstsq ts fault st = iter m mid (picard_init st) /\
  forall j, (j < m)%N -> cond_fun ts (iter j mid (picard_init st)).
Proof. by rewrite /picard_solver; have [m -> H] := while_iter (picard_maxit ts) (picard_init st); rewrite iter_iters add0n. Qed.
Lemma iter_same k st : same (iter k mid st) st.
Proof. by elim: k => [//|k IH]; rewrite iterS; exact: same_trans (mid_same _ _ _ _ _ _) IH. Qed.
Lemma Phi_same (s s' : rstate S) : same s s' -> B_nplus1 pinv lstsq ts s = Phi_ s' (B_guess s).
Proof.
case: s s' => b g d e h i r f v [b' g' d' e' h' i' r' f' v']; rewrite /same /= => -[-> -> -> ->].
by rewrite /Phi_.
Qed.
Lemma iter_guess k st : B_guess (iter k mid st) = iter k (Phi_ st) (B_guess st).
Proof. by elim: k => [//|k IH]; rewrite !iterS {1}/midpoint_residuum Hfault /= (Phi_same (iter_same k st)) IH. Qed.
Lemma iter_res k st : picard_residuum (iter k.+1 mid st) = Fin (N (iter k.+1 (Phi_ st) (B_guess st) - iter k (Phi_ st) (B_guess st))).
Proof. by rewrite iterS {1}/midpoint_residuum Hfault /= (Phi_same (iter_same k st)) iter_guess. Qed.
End PicardIter.
