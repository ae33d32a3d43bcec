(** C70: the fit of the last closed flux surface (lcfs_fit, get_lcfs_F). *)
From Coq Require Import Reals Lra Lia List Psatz Arith.
From Coquelicot Require Import Coquelicot.
From mathcomp Require Import all_ssreflect all_algebra zify.
From Verif Require Import Model.RBase Model.Spline Model.Quad Model.Forms Model.DeRham Model.FormEval Model.Maps Model.Lcfs.
From Verif Require Import Spec.QuadSpec Spec.LcfsSpec Spec.MapSpec.
From Verif Require Import Proof.RField Proof.IndexLemmas Spec.BSpline Proof.BSplineLemmas Proof.BSplinePoly Proof.SplineLink Proof.SplineProps Proof.SplineDeriv Proof.SeqRProofs Proof.LcfsAlg.
From Verif Require Import Props.Splines Props.Quadrature Props.Maps Props.Smooth.
Set Implicit Arguments.
Unset Strict Implicit.
Unset Printing Implicit Defensive.
Local Open Scope R_scope.

Lemma mesh1 (A : Type) (xs : list A) (y z : A) : meshgrid3 xs (y :: nil) (z :: nil) = List.map (fun x => (x, y, z)) xs.
Proof. by rewrite /meshgrid3 /= app_nil_r; elim: xs => //= x xs ->. Qed.
Section Setup.
Variables n p q : nat.
Hypothesis Hp : (1 <= p)%coq_nat.
Hypothesis Hn : (p < n)%coq_nat.
Let l0 := mkSpline n p Periodic (init_knots n p Periodic).
Let l1 := mkSpline 1 0 Constant (init_knots 1 0 Constant).
Let d0 := mkSpline n (p - 1) Periodic (removelast (tl (init_knots n p Periodic))).
Let f0 := DForm K0 l0 l1 l1 d0 l1 l1.
Lemma L_mapE : L_map n p = Some f0.
Proof.
have Hn' : (p < n)%N by apply/ssrnat.ltP.
rewrite /L_map /DifferentialForm (@new_spline_ok n p Periodic Hn') (@new_spline_ok 1 0 Constant) //.
by rewrite (@new_deriv_periodic n p Hp (or_introl Hn)) const_deriv.
Qed.
Lemma f0_n : f_n f0 = n.
Proof. by rewrite /f_n /fdim /fn1 /fn2 /fn3 /=; lia. Qed.
Lemma f0_eval x i c : (i < n)%N -> form_evaluate f0 x i c = evaluate l0 x.1.1 i.
Proof.
case: x => [[x0 x1] x2] Hi.
have E : form_evaluate f0 (x0, x1, x2) i c = 1 * (let: (i0, i1, i2) := unravel3 (n, 1%N, 1%N) i in evaluate l0 x0 i0 * 1 * 1) by [].
rewrite E unravel3E ?muln1 // divn1 /=; ring.
Qed.
Lemma a_hE a x : a_h f0 a x = rsum n (fun i => a i * evaluate l0 x.1.1 i).
Proof.
rewrite /a_h f0_n rsumE; apply: eq_bigr => i _; by rewrite f0_eval.
Qed.
Let T := linspace01 (n + 1).
Lemma Q_mapE : exists Q, Q_map q f0 = Some Q /\
  combine (q_w Q) (q_x Q) = List.map (fun xw : R * R => (snd xw, (fst xw, 1 / 2, 1 / 2))) (combine (fst (composite_quad T q)) (snd (composite_quad T q))).
Proof.
rewrite /Q_map /QuadratureRule /select_quadrature [sty _]/= [sty _]/= /spectral_quad [nodes_and_weights 1]/= [(_ <=? _)%coq_nat && _]/=.
have [_ E] := @C14_spline_mesh n p Hp Hn; rewrite [sT _]/= [sp _]/= E -/T.
case: (composite_quad T q) => xs ws; eexists; split; first by reflexivity.
cbn [q_w q_x]; rewrite !mesh1.
have ew : ufl 20000000000000000 / 2 = 1 by rewrite /ufl; field.
have ex : (ufl 0 + 1) / 2 = 1 / 2 by rewrite /ufl; field.
elim: xs ws => [|x xs IH] [|w ws] //=.
rewrite IH ew ex; congr cons; congr pair; ring.
Qed.
Lemma T_inc : increasing T /\ (1 <= length T)%coq_nat.
Proof. by have [H _] := @linspace_inc (n + 1)%N ltac:(lia); split; [exact: H | rewrite /T /linspace01 map_length seq_length; lia]. Qed.
End Setup.

Lemma L_map_inv n p f : (1 <= p)%coq_nat -> (p < n)%coq_nat -> L_map n p = Some f ->
  f = DForm K0 (mkSpline n p Periodic (init_knots n p Periodic)) (mkSpline 1 0 Constant (init_knots 1 0 Constant)) (mkSpline 1 0 Constant (init_knots 1 0 Constant))
    (mkSpline n (p - 1) Periodic (removelast (tl (init_knots n p Periodic)))) (mkSpline 1 0 Constant (init_knots 1 0 Constant)) (mkSpline 1 0 Constant (init_knots 1 0 Constant)).
Proof. by move=> Hp Hn; rewrite L_mapE // => -[<-]. Qed.

Lemma rsum_le m (u v : nat -> R) : (forall i, (i < m)%coq_nat -> u i <= v i) -> rsum m u <= rsum m v.
Proof. elim: m => [|m IH] H /=; first lra. have H1 := IH (fun i Hi => H i (Nat.lt_lt_succ_r _ _ Hi)); have := H m (Nat.lt_succ_diag_r m); lra. Qed.

(** ** the fitted radius is the periodic spline with the returned coefficients; it stays between their bounds *)
Theorem C70_radius : forall (n p : nat) (s : spline) (f : dform) (a : nat -> R) (x : point),
  (1 <= p)%coq_nat -> (p < n)%coq_nat -> INR n <= 49000 -> new_spline n p Periodic = Some s -> L_map n p = Some f ->
  [/\ a_h f a x = rsum n (fun i => a i * evaluate s x.1.1 i),
     forall lo hi, 0 <= x.1.1 <= 1 -> (forall i, (i < n)%coq_nat -> lo <= a i <= hi) -> lo <= a_h f a x <= hi
   & forall y z y' z', a_h f a (0, y, z) = a_h f a (1, y', z')].
Proof.
move=> n p s f a x Hp Hn HN Hs Hf; rewrite (L_map_inv Hp Hn Hf) !(a_hE Hp Hn).
have [-> _] := new_spline_inv _ _ _ _ Hs.
set s0 := mkSpline _ _ _ _; split=> [//|lo hi Hx Ha|y z y' z'].
  have pou : rsum n (fun i => evaluate s0 x.1.1 i) = 1.
    by apply: periodic_pou; try lia; try exact: HN; case: (Req_dec x.1.1 1) => E; [right; split | left; lra].
  have E c : c = rsum n (fun i => c * evaluate s0 x.1.1 i) by rewrite rsum_scal pou; ring.
  have P i : (i < n)%coq_nat -> 0 <= evaluate s0 x.1.1 i by move=> Hi; apply: periodic_nonneg; try lia; exact: HN.
  by rewrite {1}(E lo) {1}(E hi); split; apply: rsum_le => i Hi; apply: Rmult_le_compat_r; try exact: P; have := Ha i Hi; lra.
rewrite (a_hE Hp Hn) (a_hE Hp Hn) [fst _]/= [fst _]/=; apply rsum_ext => i Hi; congr Rmult; apply: periodic_closed; try lia; exact: HN.
Qed.
Print Assumptions C70_radius.

Lemma loss_gen (g : R * point -> R) (h : R -> R) c (l : list (R * R)) : (forall x w, g (w, (x, 1 / 2, 1 / 2)) = c * (w * h x)) ->
  fold_right Rplus 0 (List.map g (List.map (fun xw : R * R => (snd xw, (fst xw, 1 / 2, 1 / 2))) l)) = c * lsum (List.map (fun xw => snd xw * h (fst xw)) l).
Proof. by move=> H; elim: l => [|[x w] l IH] /=; [ring | rewrite H IH Rmult_plus_distr_l]. Qed.
(** ** the loss is the quadrature of the squared defect of the surface equation along the curve, on the spline's own mesh *)
Theorem C70_loss : forall (n p q : nat) (R0 k0 q0 aR : R) (f : dform),
  (1 <= p)%coq_nat -> (p < n)%coq_nat -> L_map n p = Some f ->
  exists Q, Q_map q f = Some Q /\
  forall a, loss R0 k0 q0 aR f Q a =
    (/ (2 * R0 ^ 2 * k0 * q0)) ^ 2 * qsum (composite_quad (linspace01 (n + 1)) q) (fun chi =>
      defect R0 k0 aR (ray_R R0 (a_h f a (chi, 0, 0)) chi) (ray_Z (a_h f a (chi, 0, 0)) chi) ^ 2).
Proof.
move=> n p q R0 k0 q0 aR f Hp Hn Hf; rewrite (L_map_inv Hp Hn Hf).
have [Q [EQ E]] := Q_mapE q Hp Hn; exists Q; split=> // a.
rewrite /loss E /qsum; apply: (loss_gen (h := fun chi => defect R0 k0 aR (ray_R R0 (a_h _ a (chi, 0, 0)) chi) (ray_Z (a_h _ a (chi, 0, 0)) chi) ^ 2)) => x w.
rewrite /psi_at /psi /_psi /defect /ray_R /ray_Z !(a_hE Hp Hn) [fst _]/= [snd _]/= [fst (_, _)]/= [fst (fst _)]/=; move: (rsum _ _) => r.
rewrite /Rdiv; move: (/ (2 * _ * k0 * q0)) => d; ring.
Qed.
Print Assumptions C70_loss.

Lemma qsum_pos T q (g : R -> R) : increasing T -> (1 <= length T)%coq_nat -> (forall x, 0 <= g x) ->
  0 <= qsum (composite_quad T q) g /\ (qsum (composite_quad T q) g = 0 <-> forall x, In x (fst (composite_quad T q)) -> g x = 0).
Proof.
move=> HT HL Hg; have [El [Hw _]] := @C14_weights T q HT HL.
rewrite /qsum; move: (fst _) (snd _) El Hw => xs ws.
elim: xs ws => [|x xs IH] [|w ws] //= El Hw; first by split; [lra | split].
have [IH1 IH2] := IH ws (Nat.succ_inj _ _ El) (fun v Hv => Hw v (or_intror Hv)).
have W := Hw w (or_introl erefl); have G := Hg x; rewrite -/(lsum _).
have P : 0 <= w * g x by nra.
split; first by rewrite -/(lsum _) /=; move: IH1; rewrite /lsum; lra.
split=> [E y [<-|Hy]|H].
- have : w * g x = 0 by move: IH1 E; rewrite /lsum; lra. nra.
- have E0 : lsum (List.map (fun xw : R * R => snd xw * g (fst xw)) (combine xs ws)) = 0 by move: IH1 E; rewrite /lsum; lra.
  exact: (proj1 IH2 E0).
- have E1 := H x (or_introl erefl); have E2 := proj2 IH2 (fun y Hy => H y (or_intror Hy)).
  by move: E2; rewrite /lsum E1 => ->; ring.
Qed.

Theorem C70_loss_zero : forall (n p q : nat) (R0 k0 q0 aR : R) (f : dform) (Q : quadrule) (a : nat -> R),
  (1 <= p)%coq_nat -> (p < n)%coq_nat -> R0 <> 0 -> k0 <> 0 -> q0 <> 0 -> L_map n p = Some f -> Q_map q f = Some Q ->
  [/\ 0 <= loss R0 k0 q0 aR f Q a,
     loss R0 k0 q0 aR f Q a = 0 <->
       (forall chi, In chi (fst (composite_quad (linspace01 (n + 1)) q)) ->
          on_surface R0 k0 aR (ray_R R0 (a_h f a (chi, 0, 0)) chi) (ray_Z (a_h f a (chi, 0, 0)) chi))
   & forall b, loss R0 k0 q0 aR f Q a ^ 2 <= loss R0 k0 q0 aR f Q b ^ 2 <-> loss R0 k0 q0 aR f Q a <= loss R0 k0 q0 aR f Q b].
Proof.
move=> n p q R0 k0 q0 aR f Q a Hp Hn HR Hk Hq Hf HQ.
have [Q' [EQ E]] := @C70_loss n p q R0 k0 q0 aR f Hp Hn Hf.
have EQ' : Q' = Q by move: EQ; rewrite HQ => -[].
rewrite EQ' in E; have [T1 T2] := T_inc Hp Hn.
have D : 2 * R0 ^ 2 * k0 * q0 <> 0.
  by do 2![apply: Rmult_integral_contrapositive_currified => //]; apply: Rmult_integral_contrapositive_currified; [lra | exact: pow_nonzero].
have D2 : 0 < (/ (2 * R0 ^ 2 * k0 * q0)) ^ 2 by apply: pow2_gt_0; exact: Rinv_neq_0_compat.
have P b : 0 <= loss R0 k0 q0 aR f Q b.
  rewrite E; apply: Rmult_le_pos; first lra.
  by have [] := @qsum_pos (linspace01 (n + 1)) q (fun chi => defect R0 k0 aR (ray_R R0 (a_h f b (chi, 0, 0)) chi) (ray_Z (a_h f b (chi, 0, 0)) chi) ^ 2) T1 T2 (fun x => pow2_ge_0 _).
split=> [//||b]; last by have := P a; have := P b; move: (loss _ _ _ _ _ _ a) (loss _ _ _ _ _ _ b) => u v Hv Hu; split=> H; nra.
have [_ Z] := @qsum_pos (linspace01 (n + 1)) q (fun chi => defect R0 k0 aR (ray_R R0 (a_h f a (chi, 0, 0)) chi) (ray_Z (a_h f a (chi, 0, 0)) chi) ^ 2) T1 T2 (fun x => pow2_ge_0 _).
have S u v : on_surface R0 k0 aR u v <-> defect R0 k0 aR u v ^ 2 = 0.
  rewrite /on_surface /defect; split=> H; first by rewrite H; ring.
  have : forall x y, (x - y) ^ 2 = 0 -> x = y by move=> x y Hxy; nra.
  by move=> /(_ _ _ H).
rewrite E; split=> [H chi Hc|H].
  apply/S; apply: (proj1 Z) Hc; case: (Rmult_integral _ _ H) => //; lra.
rewrite (proj2 Z); first by ring.
by move=> chi Hc; apply/S; exact: H.
Qed.
Print Assumptions C70_loss_zero.

(** ** what is handed to the optimiser: this residual, starting from the circle of radius aR; nothing else enters the
    result, and the call fails only if the optimiser does *)
Theorem C70_fit : forall (n p q : nat) (R0 k0 q0 aR : R) least_squares, (1 <= p)%coq_nat -> (p < n)%coq_nat ->
  exists f, L_map n p = Some f /\
  lcfs_fit n p q R0 k0 q0 aR least_squares = least_squares (fun a =>
    (/ (2 * R0 ^ 2 * k0 * q0)) ^ 2 * qsum (composite_quad (linspace01 (n + 1)) q) (fun chi =>
      defect R0 k0 aR (ray_R R0 (a_h f a (chi, 0, 0)) chi) (ray_Z (a_h f a (chi, 0, 0)) chi) ^ 2)) (fun _ => aR).
Proof.
move=> n p q R0 k0 q0 aR LS Hp Hn.
case E : (L_map n p) => [f|]; last by move: E; rewrite (L_mapE Hp Hn).
have [Q [EQ H]] := @C70_loss n p q R0 k0 q0 aR f Hp Hn E.
exists f; split=> //; rewrite /lcfs_fit E EQ; congr LS; apply: FunctionalExtensionality.functional_extensionality => a; [exact: H | by rewrite /y0 Rmult_1_l].
Qed.
Print Assumptions C70_fit.
(** q0 only scales the loss; the start value is the circle of radius aR, which touches the surface at chi = 0 *)
Theorem C70_safety_factor : forall (n p q : nat) (R0 k0 q0 q0' aR : R) (f : dform) (Q : quadrule) (a : nat -> R),
  (1 <= p)%coq_nat -> (p < n)%coq_nat -> q0 <> 0 -> q0' <> 0 -> L_map n p = Some f -> Q_map q f = Some Q ->
  loss R0 k0 q0' aR f Q a = (q0 / q0') ^ 2 * loss R0 k0 q0 aR f Q a.
Proof.
move=> n p q R0 k0 q0 q0' aR f Q a Hp Hn H1 H2 Hf HQ.
have [Q1 [EQ1 E1]] := @C70_loss n p q R0 k0 q0 aR f Hp Hn Hf.
have [Q2 [EQ2 E2]] := @C70_loss n p q R0 k0 q0' aR f Hp Hn Hf.
have e1 : Q1 = Q by move: EQ1; rewrite HQ => -[]. have e2 : Q2 = Q by move: EQ2; rewrite HQ => -[].
rewrite e1 in E1; rewrite e2 in E2; rewrite E1 E2 -Rmult_assoc; congr Rmult.
rewrite -Rpow_mult_distr; congr pow; rewrite (Rinv_mult _ q0) (Rinv_mult _ q0'); move: (/ (2 * _ * k0)) => u; field; split=> //.
Qed.
Print Assumptions C70_safety_factor.
Theorem C70_start : forall (n p : nat) (R0 k0 aR : R) (f : dform) (chi : R),
  (1 <= p)%coq_nat -> (p < n)%coq_nat -> INR n <= 49000 -> L_map n p = Some f -> 0 <= chi <= 1 ->
  a_h f (y0 aR) (chi, 0, 0) = aR /\ on_surface R0 k0 aR (ray_R R0 (a_h f (y0 aR) (0, 0, 0)) 0) (ray_Z (a_h f (y0 aR) (0, 0, 0)) 0).
Proof.
move=> n p R0 k0 aR f chi Hp Hn HN Hf Hc.
have Hs : new_spline n p Periodic = Some (mkSpline n p Periodic (init_knots n p Periodic)) by apply: new_spline_ok; apply/ssrnat.ltP.
have C x : 0 <= x <= 1 -> a_h f (y0 aR) (x, 0, 0) = aR.
  move=> Hx; have [_ B _] := @C70_radius n p _ f (y0 aR) (x, 0, 0) Hp Hn HN Hs Hf.
  by have := B aR aR Hx (fun i _ => ltac:(rewrite /y0; lra)); lra.
split; first exact: C; rewrite C; last lra.
by rewrite /on_surface /ray_R /ray_Z !Rmult_0_r cos_0 sin_0; ring.
Qed.
Print Assumptions C70_start.

(** ** when the level set is a closed surface around the magnetic axis: every ray from (R0, 0) meets it at R > 0 exactly if ... *)
Theorem C70_closed : forall R0 k0 aR : R, 0 < R0 -> k0 <> 0 -> 0 < aR ->
  ((forall chi, exists a, 0 < a /\ 0 < ray_R R0 a chi /\ on_surface R0 k0 aR (ray_R R0 a chi) (ray_Z a chi))
   <-> (R0 + aR) ^ 2 < 2 * R0 ^ 2) /\
  (2 * R0 ^ 2 < (R0 + aR) ^ 2 -> forall M, exists Rr Z, 0 < Rr < R0 /\ M < Z /\ on_surface R0 k0 aR Rr Z).
Proof.
move=> R0 k0 aR HR Hk Ha; split; last by move=> H M; exact: unbounded.
split=> [H|H chi].
  have [a [H1 [H2 H3]]] := H (1 / 2); have E : 2 * PI * (1 / 2) = PI by field.
  move: H2 H3; rewrite /ray_R /ray_Z E cos_PI sin_PI Rmult_0_r => H2 H3.
  apply: (@inboard R0 k0 aR HR Hk Ha a); first lra.
  by have -> : R0 - a = R0 + a * -1 by ring.
have E := sin2_cos2 (2 * PI * chi); rewrite /Rsqr in E; rewrite /ray_R /ray_Z.
case: (Rle_lt_dec 0 (cos (2 * PI * chi))) => Hc.
  have [a [H1 H2]] := @ray_out R0 k0 aR HR Hk Ha (cos (2 * PI * chi)) (sin (2 * PI * chi)) ltac:(move: E; rewrite /=; lra) Hc.
  exists a; split=> //; split; last exact/on_surface_g.
  by have := Rmult_le_pos a _ (Rlt_le _ _ H1) Hc; lra.
  
have [a [H1 [H2 H3]]] := @ray_in R0 k0 aR HR Hk Ha _ (sin (2 * PI * chi)) H Hc.
by exists a; split=> //; split=> //; exact/on_surface_g.
Qed.
Print Assumptions C70_closed.

(** otherwise no admissible curve fits: near the inboard midplane the surface is missing *)
Lemma gap_node R0 k0 aR a chi : 0 < R0 -> k0 <> 0 -> 0 < aR -> 0 <= a <= R0 -> Rabs (chi - 1 / 2) <= 1 / 4 ->
  (R0 ^ 2) ^ 2 * (8 * Rabs (chi - 1 / 2)) ^ 2 < k0 ^ 2 / 4 * (((R0 + aR) ^ 2 - R0 ^ 2) ^ 2 - (R0 ^ 2) ^ 2) ->
  ~ on_surface R0 k0 aR (ray_R R0 a chi) (ray_Z a chi).
Proof.
move=> HR Hk Ha HA H4 HD /on_surface_g HG.
have HP := PI_RGT_0; have P4 := PI_4.
pose y := 2 * PI * (chi - 1 / 2); have Ey : 2 * PI * chi = y + PI by rewrite /y; field.
have By : Rabs y <= 8 * Rabs (chi - 1 / 2).
  rewrite /y Rabs_mult (Rabs_pos_eq (2 * PI)); last lra.
  by apply: Rmult_le_compat_r; [exact: Rabs_pos | lra].
have By2 : - (PI / 2) <= y <= PI / 2.
  apply/Rabs_le_between; rewrite /y Rabs_mult (Rabs_pos_eq (2 * PI)); last lra.
  by have : 2 * PI * Rabs (chi - 1 / 2) <= 2 * PI * (1 / 4) by [apply: Rmult_le_compat_l; lra]; lra.
have Hc : cos (2 * PI * chi) <= 0.
  by rewrite Ey neg_cos; have := cos_ge_0 y (proj1 By2) (proj2 By2); lra.
have Hs : sin (2 * PI * chi) ^ 2 <= (8 * Rabs (chi - 1 / 2)) ^ 2.
  rewrite Ey neg_sin.
  have H1 : Rabs (sin y) <= Rabs y.
    have Hp z : 0 <= z -> z <= PI / 2 -> Rabs (sin z) <= z.
      move=> Hz Hz2; rewrite Rabs_pos_eq; last by apply: sin_ge_0; lra.
      case: Hz => [Hz|<-]; last by rewrite sin_0; lra.
      by have := sin_lt_x z Hz; lra.
    case: (Rle_lt_dec 0 y) => Hy; first by rewrite (Rabs_pos_eq y) //; apply: Hp; lra.
    by rewrite -Rabs_Ropp -sin_neg (Rabs_left y) //; apply: Hp; lra.
  have -> : (- sin y) ^ 2 = Rabs (sin y) ^ 2 by rewrite pow2_abs; ring.
  by apply: pow_incr; split; [exact: Rabs_pos | lra].
have E := sin2_cos2 (2 * PI * chi); rewrite /Rsqr in E.
have := @gap R0 k0 aR HR Hk (cos (2 * PI * chi)) (sin (2 * PI * chi)) a HA Hc ltac:(move: E; rewrite /=; lra).
rewrite HG; move: HD; set W := k0 ^ 2 / 4 * _ => HD HW.
have : (R0 ^ 2) ^ 2 * sin (2 * PI * chi) ^ 2 <= (R0 ^ 2) ^ 2 * (8 * Rabs (chi - 1 / 2)) ^ 2 by apply: Rmult_le_compat_l => //; exact: pow2_ge_0.
lra.
Qed.
Lemma mid_node n q : (1 <= n)%coq_nat -> (1 <= q)%coq_nat /\ (q <= 10)%coq_nat ->
  exists chi, In chi (fst (composite_quad (linspace01 (n + 1)) q)) /\ Rabs (chi - 1 / 2) <= / INR n.
Proof.
move=> Hn Hq; have HN : 0 < INR n by apply: lt_0_INR.
have [Hinc _] := @linspace_inc (n + 1)%N ltac:(lia).
have [El [Hnode _]] := @C14_nodes_in_cells (linspace01 (n + 1)) q Hinc Hq.
have L : length (linspace01 (n + 1)) = (n + 1)%N by rewrite /linspace01 map_length seq_length.
rewrite L in El Hnode.
have Lk i : (i < n + 1)%N -> List.nth i (linspace01 (n + 1)) 0 = INR i / INR n.
  by move=> Hi; rewrite SplineLink.linspace01_nth; [have -> : (n + 1 - 1)%coq_nat = n by lia | lia].
have [m [Hm1 Hm2]] : exists m, (m < n)%coq_nat /\ INR m <= 1 / 2 * INR n < INR m + 1 by apply: cell_exists; lra.
have Hm := Hnode m 0%N ltac:(lia) ltac:(lia); rewrite !Lk in Hm; try lia.
exists (List.nth (m * q + 0)%coq_nat (fst (composite_quad (linspace01 (n + 1)) q)) 0); split.
  by apply: nth_In; rewrite El; nia.
move: Hm; set x := List.nth _ _ _; rewrite S_INR => -[X1 X2].
have D u : u / INR n * INR n = u by field; lra.
have Y1 : INR m < x * INR n by rewrite -(D (INR m)); apply: Rmult_lt_compat_r.
have Y2 : x * INR n < INR m + 1 by rewrite -(D (INR m + 1)); apply: Rmult_lt_compat_r.
apply: (Rmult_le_reg_r (INR n)) => //; rewrite Rinv_l; last lra.
rewrite -{1}(Rabs_pos_eq (INR n)); last lra.
by rewrite -Rabs_mult; apply/Rabs_le_between; lra.
Qed.

Theorem C70_no_fit : forall (n p q : nat) (R0 k0 q0 aR : R) (f : dform) (Q : quadrule) (a : nat -> R),
  (1 <= p)%coq_nat -> (p < n)%coq_nat -> (1 <= q)%coq_nat /\ (q <= 10)%coq_nat -> INR n <= 49000 -> 0 < R0 -> k0 <> 0 -> q0 <> 0 -> 0 < aR ->
  (4 <= n)%coq_nat -> (8 * R0 ^ 2 / INR n) ^ 2 < k0 ^ 2 / 4 * (((R0 + aR) ^ 2 - R0 ^ 2) ^ 2 - (R0 ^ 2) ^ 2) ->
  L_map n p = Some f -> Q_map q f = Some Q -> (forall i, (i < n)%coq_nat -> 0 <= a i <= R0) ->
  0 < loss R0 k0 q0 aR f Q a.
Proof.
move=> n p q R0 k0 q0 aR f Q a Hp Hn Hq HN HR Hk Hq0 Ha H4 HD Hf HQ Hai.
have [L0 LZ _] := @C70_loss_zero n p q R0 k0 q0 aR f Q a Hp Hn ltac:(lra) Hk Hq0 Hf HQ.
case: L0 => [//|/esym /LZ H]; exfalso.
have [chi [Hc1 Hc2]] := @mid_node n q ltac:(lia) Hq.
have NP : 4 <= INR n by have -> : 4 = INR 4 by [rewrite /=; lra]; apply: le_INR.
have NI : / INR n <= 1 / 4 by have -> : 1 / 4 = / 4 by [field]; apply: Rinv_le_contravar; lra.
have C01 : 0 <= chi <= 1 by have := proj1 (Rabs_le_between _ _) Hc2; lra.
have Hs : new_spline n p Periodic = Some (mkSpline n p Periodic (init_knots n p Periodic)) by apply: new_spline_ok; apply/ssrnat.ltP.
have [_ B _] := @C70_radius n p _ f a (chi, 0, 0) Hp Hn HN Hs Hf.
apply: (@gap_node R0 k0 aR (a_h f a (chi, 0, 0)) chi) (H chi Hc1) => //; try lra; first exact: B.
apply: Rle_lt_trans HD.
have -> : 8 * R0 ^ 2 / INR n = R0 ^ 2 * (8 * / INR n) by field; lra.
rewrite (Rpow_mult_distr (R0 ^ 2)); apply: Rmult_le_compat_l; first exact: pow2_ge_0.
by apply: pow_incr; have := Rabs_pos (chi - 1 / 2); lra.
Qed.
Print Assumptions C70_no_fit.
(** in particular with the default arguments R0 = k0 = 1, aR = 1/2 *)
Theorem C70_defaults_refuted :
  (~ forall chi, exists a, 0 < a /\ 0 < ray_R 1 a chi /\ on_surface 1 1 (1 / 2) (ray_R 1 a chi) (ray_Z a chi)) /\
  (forall (n p q : nat) (q0 : R) f Q a, (1 <= p)%coq_nat -> (p < n)%coq_nat -> (24 <= n)%coq_nat -> (1 <= q)%coq_nat /\ (q <= 10)%coq_nat ->
     INR n <= 49000 -> q0 <> 0 -> L_map n p = Some f -> Q_map q f = Some Q -> (forall i, (i < n)%coq_nat -> 0 <= a i <= 1) ->
     0 < loss 1 1 q0 (1 / 2) f Q a).
Proof.
split; first by case: (@C70_closed 1 1 (1 / 2)) => [||| [H _] _ /H]; lra.
move=> n p q q0 f Q a Hp Hn H24 Hq HN Hq0 Hf HQ Ha.
apply: (@C70_no_fit n p q 1 1 q0 (1 / 2) f Q a) => //; try lra; try lia.
have NP : 24 <= INR n by have -> : 24 = INR 24 by [rewrite /=; lra]; apply: le_INR.
have NI : / INR n <= / 24 by apply: Rinv_le_contravar; lra.
have N0 : 0 < / INR n by apply: Rinv_0_lt_compat; lra.
have -> : 8 * 1 ^ 2 / INR n = 8 * / INR n by rewrite /Rdiv; ring.
nra.
Qed.
Print Assumptions C70_defaults_refuted.

Lemma coef_range (a : nat -> R) R0 n : (1 <= n)%coq_nat -> (forall i, (i < n)%coq_nat -> 0 < a i < R0) ->
  exists lo hi, 0 < lo /\ hi < R0 /\ forall i, (i < n)%coq_nat -> lo <= a i <= hi.
Proof.
elim: n => [|n IH] Hn Ha; first lia.
case: n IH Hn Ha => [|n] IH Hn Ha.
  by exists (a 0%N), (a 0%N); have := Ha 0%N ltac:(lia) => H; split; [lra | split; [lra |]]; move=> [|i] Hi; [lra | lia].
have [lo [hi [H1 [H2 H3]]]] := IH ltac:(lia) (fun i Hi => Ha i ltac:(lia)).
have H4 := Ha n.+1 ltac:(lia).
exists (Rmin lo (a n.+1)), (Rmax hi (a n.+1)); split; first by apply: Rmin_glb_lt; lra.
split; first by apply: Rmax_lub_lt; lra.
move=> i Hi; case: (Nat.eq_dec i n.+1) => [->|Hin]; first by split; [exact: Rmin_r | exact: Rmax_r].
have := H3 i ltac:(lia); have := Rmin_l lo (a n.+1); have := Rmax_l hi (a n.+1); lra.
Qed.
Lemma same01 t t' : 0 <= t < 1 -> 0 <= t' < 1 -> (exists k : BinInt.Z, t = t' + IZR k) -> t = t'.
Proof.
move=> H H' [k E]; have [K1 K2] : -1 < IZR k /\ IZR k < 1 by lra.
by have K : k = Z0 by [have := lt_IZR _ _ K1; have := lt_IZR _ _ K2; lia]; rewrite E K; lra.
Qed.
Lemma rsum_ex_derive m (g : nat -> R -> R) x : (forall i, (i < m)%coq_nat -> ex_derive (g i) x) -> ex_derive (fun y => rsum m (fun i => g i y)) x.
Proof.
elim: m => [|m IH] H /=; first exact: ex_derive_const.
by apply: (@ex_derive_plus R_AbsRing R_NormedModule (fun y => rsum m (fun i => g i y)) (g m)); [apply: IH => i Hi; apply: H; lia | apply: H; lia].
Qed.
(** ** the returned map: positive Jacobian, one-to-one, closed, and its boundary is the fitted curve *)
Theorem C70_map : forall (n p q : nat) (R0 k0 q0 aR : R) least_squares (a : nat -> R),
  (1 <= p)%coq_nat -> (p < n)%coq_nat -> INR n <= 49000 ->
  lcfs_fit n p q R0 k0 q0 aR least_squares = Some a -> (forall i, (i < n)%coq_nat -> 0 < a i < R0) ->
  exists F f, get_lcfs_F n p q R0 k0 q0 aR least_squares = Some F /\ L_map n p = Some f /\
  [/\ forall r t z, 0 < r <= 1 -> 0 < t < 1 -> (2 <= p)%coq_nat \/ (forall k : nat, t * INR n <> INR k) ->
        exists d, jacobian_det F (r, t, z) d /\ 0 < d,
      forall r t z r' t' z', 0 < r <= 1 -> 0 < r' <= 1 -> 0 <= t < 1 -> 0 <= t' < 1 -> 0 <= z < 1 -> 0 <= z' < 1 ->
        F (r, t, z) = F (r', t', z') -> (r, t, z) = (r', t', z'),
      forall r z, F (r, 0, z) = F (r, 1, z),
      polar_axis F
    & forall t z, let a_t := a_h f a (t, 0, 0) in
        F (1, t, z) = (ray_R R0 a_t t * cos (2 * PI * z), - ray_R R0 a_t t * sin (2 * PI * z), ray_Z a_t t)].
Proof.
move=> n p q R0 k0 q0 aR ls a Hp Hn HN Hfit Ha.
have Hf := L_mapE Hp Hn; move: Hfit; rewrite /get_lcfs_F; case: lcfs_fit => // a' [->].
rewrite Hf; set f := DForm _ _ _ _ _ _ _ in Hf *; eexists; exists f; do 2!split=> //.
set l := mkSpline n p Periodic (init_knots n p Periodic).
have Hs : new_spline n p Periodic = Some l by apply: new_spline_ok; apply/ssrnat.ltP.
have [lo [hi [B1 [B2 B3]]]] := @coef_range a R0 n ltac:(lia) Ha.
have B t : 0 <= t <= 1 -> 0 < a_h f a (t, 0, 0) < R0.
  by move=> Ht; have [_ /(_ lo hi Ht B3) H _] := @C70_radius n p _ f a (t, 0, 0) Hp Hn HN Hs Hf; lra.
have T r t z : drumshape_map_modified (fun chi => a_h f a (chi, 0, 0)) R0 (r, t, z) = toroid_map 1 1 R0 (a_h f a (t, 0, 0) * r, t, z).
  by rewrite /drumshape_map_modified /toroid_map; congr (_, _, _); ring.
split.
- move=> r t z Hr Ht Hsm.
  have Dt : ex_derive (fun chi => a_h f a (chi, 0, 0)) t.
    apply: (@ex_derive_ext _ _ (fun y => rsum n (fun i => a i * evaluate l y i))).
      by move=> y; rewrite (a_hE Hp Hn).
    apply: (@rsum_ex_derive n (fun i y => a i * evaluate l y i)) => i Hi.
    apply: ex_derive_scal; eexists.
    have Hd := @new_deriv_periodic n p Hp (or_introl Hn).
    case: Hsm => [H2|Hk].
      exact: (proj1 (@C67_periodic_C1 n p l _ H2 Hn HN Hs Hd) t i Ht Hi).
    exact: (@C03_periodic_derivative_exact n p l _ t i Hp (or_introl Hn) HN Hs Hd Ht Hk Hi).
  have [_ _ _ [_ H _ _]] := @C35_orientation r t z Hr.
  by apply: H => //; rewrite Rabs_pos_eq; have := B t; lra.
- move=> r t z r' t' z' Hr Hr' Ht Ht' Hz Hz'; rewrite !T => E.
  have A := B t ltac:(lra); have A' := B t' ltac:(lra).
  have [] := @C36_toroid_injective 1 1 R0 (a_h f a (t, 0, 0) * r) t z (a_h f a (t', 0, 0) * r') t' z' _ _ _ _ _ _ E; try lra; try nra.
  move=> Er [Et Ez]; have Et' := same01 Ht Ht' Et; have Ez' := same01 Hz Hz' Ez.
  rewrite -Et' in Er A' *; rewrite Ez'; congr (_, _, _).
  by apply: (Rmult_eq_reg_l (a_h f a (t, 0, 0))) => //; lra.
- move=> r z; have [_ _ H] := @C70_radius n p _ f a (0, 0, 0) Hp Hn HN Hs Hf.
  by rewrite /drumshape_map_modified (H 0 0 0 0) !Rmult_1_r !Rmult_0_r cos_2PI cos_0 sin_2PI sin_0.
- by move=> t t' z; rewrite /drumshape_map_modified; congr (_, _, _); ring.
- by move=> t z; rewrite /drumshape_map_modified /ray_R /ray_Z; congr (_, _, _); ring.
Qed.
Print Assumptions C70_map.

Example C70_nonvacuous :
  (exists f Q, L_map 24 3 = Some f /\ Q_map 4 f = Some Q /\ 0 < loss 1 1 1 (1 / 2) f Q (y0 (1 / 2))) /\
  (1 + 1 / 3) ^ 2 < 2 * 1 ^ 2 /\
  (exists F, get_lcfs_F 8 3 4 1 1 1 (1 / 3) (fun _ y => Some y) = Some F).
Proof.
have Hf := @L_mapE 24 3 ltac:(lia) ltac:(lia); have [Q [HQ _]] := @Q_mapE 24 3 4 ltac:(lia) ltac:(lia).
split.
  do 2!eexists; split; first exact: Hf; split; first exact: HQ.
  have [_ H] := C70_defaults_refuted; apply: (H 24%N 3%N 4%N 1) Hf HQ _; try lia; try lra; last by move=> i _; rewrite /y0; lra.
  by rewrite INR_IZR_INZ /=; lra.
split; first lra.
have N8 : INR 8 <= 49000 by rewrite INR_IZR_INZ /=; lra.
have Hl : lcfs_fit 8 3 4 1 1 1 (1 / 3) (fun _ y => Some y) = Some (y0 (1 / 3)).
  by have [Q' [HQ' _]] := @Q_mapE 8 3 4 ltac:(lia) ltac:(lia); rewrite /lcfs_fit (@L_mapE 8 3 ltac:(lia) ltac:(lia)) HQ'.
have [F [f [-> _]]] := @C70_map 8 3 4 1 1 1 (1 / 3) (fun _ y => Some y) (y0 (1 / 3)) ltac:(lia) ltac:(lia) N8 Hl (fun i _ => ltac:(rewrite /y0; lra)).
by exists F.
Qed.
Print Assumptions C70_nonvacuous.
