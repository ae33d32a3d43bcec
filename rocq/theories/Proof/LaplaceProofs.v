(** Laplacians of functions of the distance to an axis. *)
From Coq Require Import Reals Lra.
From Coquelicot Require Import Coquelicot.
From mathcomp Require Import all_ssreflect.
From Verif Require Import Model.RBase Model.FormEval Spec.CalculusSpec Spec.LaplaceSpec.
Local Open Scope R_scope.

Lemma near_pos c a : 0 < a * a + c -> locally a (fun t => 0 < t * t + c).
Proof.
move=> H; have C : continuous (fun t => t * t + c) a.
  by apply: (@ex_derive_continuous R_AbsRing R_NormedModule); auto_derive.
exact: (C (fun y => 0 < y) (open_gt 0 _ H)).
Qed.
Lemma derive2_ext g h x l : (forall t, g t = h t) -> is_derive2 g x l -> is_derive2 h x l.
Proof.
move=> E [g' [H1 H2]]; exists g'; split=> //.
by apply: filter_imp H1 => t; apply: is_derive_ext.
Qed.
Lemma derive2_const k x : is_derive2 (fun _ => k) x 0.
Proof.
exists (fun _ => 0); split; last by apply: is_derive_const.
by apply: filter_forall => t; apply: is_derive_const.
Qed.
Lemma derive2_scal k g x l : is_derive2 g x l -> is_derive2 (fun t => k * g t) x (k * l).
Proof.
move=> [g' [H1 H2]]; exists (fun t => k * g' t); split; last by apply: is_derive_scal.
by apply: filter_imp H1 => t; apply: is_derive_scal.
Qed.
Lemma derive2_unique g x l m : is_derive2 g x l -> is_derive2 g x m -> l = m.
Proof.
move=> [g' [H1 H2]] [h' [H3 H4]].
have E : locally x (fun t => h' t = g' t).
  apply: filter_imp (filter_and _ _ H1 H3) => t [A B].
  by rewrite -(is_derive_unique _ _ _ A) -(is_derive_unique _ _ _ B).
have H5 : is_derive g' x m by apply: (is_derive_ext_loc h').
by rewrite -(is_derive_unique _ _ _ H2) -(is_derive_unique _ _ _ H5).
Qed.
Lemma laplacian_unique U x l m : is_laplacian U x l -> is_laplacian U x m -> l = m.
Proof.
move=> [l0 [l1 [l2 [A0 [A1 [A2 ->]]]]]] [m0 [m1 [m2 [B0 [B1 [B2 ->]]]]]].
by rewrite (derive2_unique _ _ _ _ A0 B0) (derive2_unique _ _ _ _ A1 B1) (derive2_unique _ _ _ _ A2 B2).
Qed.

Lemma eq_derive (f : R -> R) (x l m : R) : is_derive f x l -> l = m -> is_derive f x m. Proof. by move=> H <-. Qed.
Section Radial.
Variables (g g' : R -> R) (g2 a c : R).
Hypothesis H : 0 < a * a + c.
Hypothesis Hg : forall s, 0 < s -> is_derive g s (g' s).
Let rho := sqrt (a * a + c).
Hypothesis Hg' : is_derive g' rho g2.
Lemma rho_pos : 0 < rho. Proof. exact: sqrt_lt_R0. Qed.
Lemma rho_sqr : rho * rho = a * a + c. Proof. by apply: sqrt_def; lra. Qed.
Lemma derive_rho t : 0 < t * t + c -> is_derive (fun t => sqrt (t * t + c)) t (t / sqrt (t * t + c)).
Proof. move=> Ht; have P : sqrt (t * t + c) <> 0 by have := sqrt_lt_R0 _ Ht; lra. by auto_derive; [| field]. Qed.
Lemma derive_comp t : 0 < t * t + c -> is_derive (fun t => g (sqrt (t * t + c))) t (t / sqrt (t * t + c) * g' (sqrt (t * t + c))).
Proof. by move=> Ht; apply: (is_derive_comp g); [apply: Hg; apply: sqrt_lt_R0 | apply: derive_rho]. Qed.
Lemma derive_comp' : is_derive (fun t => g' (sqrt (t * t + c))) a (a / rho * g2).
Proof. by apply: (is_derive_comp g'); [exact: Hg' | apply: derive_rho]. Qed.
Lemma derive_dir : is_derive (fun t => t / sqrt (t * t + c)) a (1 / rho - a * a / (rho * rho * rho)).
Proof.
have P := rho_pos; have Q := rho_sqr; rewrite /rho in P Q *.
by auto_derive; [split=> //; lra | field; lra].
Qed.
(** second derivative of t -> g(sqrt(t^2+c)) *)
Lemma derive2_radial : is_derive2 (fun t => g (sqrt (t * t + c))) a
  (g2 * (a * a) / (rho * rho) + g' rho * (1 / rho - a * a / (rho * rho * rho))).
Proof.
exists (fun t => t / sqrt (t * t + c) * g' (sqrt (t * t + c))); split.
  by apply: filter_imp (near_pos _ _ H) => t; apply: derive_comp.
apply: eq_derive (is_derive_mult _ _ _ _ _ derive_dir derive_comp' Rmult_comm) _.
have P := rho_pos; rewrite /plus /mult /= -/rho; field; lra.
Qed.
(** second derivative of t -> t g(sqrt(t^2+c)) *)
Lemma derive2_radial_x : is_derive2 (fun t => t * g (sqrt (t * t + c))) a
  (a * (g2 * (a * a) / (rho * rho) + g' rho * (3 / rho - a * a / (rho * rho * rho)))).
Proof.
exists (fun t => g (sqrt (t * t + c)) + t * (t / sqrt (t * t + c) * g' (sqrt (t * t + c)))); split.
  apply: filter_imp (near_pos _ _ H) => t Ht.
  apply: eq_derive (is_derive_mult _ _ _ _ _ (is_derive_id t) (derive_comp t Ht) Rmult_comm) _.
  by rewrite /plus /mult /one /=; ring.
have D := is_derive_mult _ _ _ _ _ derive_dir derive_comp' Rmult_comm.
have E := is_derive_mult _ _ _ _ _ (is_derive_id a) D Rmult_comm.
apply: eq_derive (is_derive_plus _ _ _ _ _ (derive_comp a H) E) _.
have P := rho_pos; rewrite /plus /mult /one /= -/rho; field; lra.
Qed.
End Radial.
