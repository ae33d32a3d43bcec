(** Jacobians of the coordinate maps. *)
From Coq Require Import Reals Lra.
From Coquelicot Require Import Coquelicot.
From mathcomp Require Import all_ssreflect all_algebra.
From Verif Require Import Model.RBase Model.Forms Model.FormEval Model.Geometry Model.Maps Proof.RField Spec.CalculusSpec Spec.MapSpec Proof.MapProofs.
Set Implicit Arguments.
Unset Strict Implicit.
Unset Printing Implicit Defensive.
Local Open Scope R_scope.

Lemma det33_R (a : mat3 R_realFieldType) :
  det33 a = a 0%N 0%N * a 1%N 1%N * a 2%N 2%N + a 0%N 1%N * a 1%N 2%N * a 2%N 0%N + a 0%N 2%N * a 1%N 0%N * a 2%N 1%N
  - a 0%N 2%N * a 1%N 1%N * a 2%N 0%N - a 0%N 0%N * a 1%N 2%N * a 2%N 1%N - a 0%N 1%N * a 1%N 0%N * a 2%N 2%N :> R.
Proof. by []. Qed.

Lemma is_partial_unique a g x d e : is_partial a g x d -> is_partial a g x e -> d = e.
Proof. rewrite /is_partial => H1 H2; by rewrite -(is_derive_unique _ _ _ H1) -(is_derive_unique _ _ _ H2). Qed.
Lemma is_jacobian_unique F x DF DF' : is_jacobian F x DF -> is_jacobian F x DF' ->
  forall k a, (k < 3)%N -> (a < 3)%N -> DF k a = DF' k a.
Proof. by move=> H H' k a Hk Ha; apply: is_partial_unique (H k a Hk Ha) (H' k a Hk Ha). Qed.
Lemma is_jacobian_ext F G x DF : (forall y, F y = G y) -> is_jacobian F x DF -> is_jacobian G x DF.
Proof.
move=> E H k a Hk Ha; have := H k a Hk Ha; rewrite /is_partial => H'.
by apply: is_derive_ext H' => t; rewrite E.
Qed.
Lemma jacobian_det_ext F G x d : (forall y, F y = G y) -> jacobian_det F x d -> jacobian_det G x d.
Proof.
move=> E [[DF H] H']; split; first by exists DF; apply: is_jacobian_ext H.
by move=> D HD; apply: H'; apply: is_jacobian_ext HD => y; rewrite E.
Qed.
Lemma jacdet_intro F x (DF : mat3 R_realFieldType) d : is_jacobian F x DF -> det33 DF = d :> R -> jacobian_det F x d.
Proof.
move=> H E; split; first by exists DF.
move=> D HD; have U := is_jacobian_unique HD H; rewrite -E !det33_R.
by rewrite !U.
Qed.
Lemma jacobian9 F r t z (c0 c1 c2 : point) :
  (let: (a, b, c) := c0 in
   [/\ is_derive (fun s => coord 0 (F (s, t, z))) r a, is_derive (fun s => coord 1 (F (s, t, z))) r b
     & is_derive (fun s => coord 2 (F (s, t, z))) r c]) ->
  (let: (a, b, c) := c1 in
   [/\ is_derive (fun s => coord 0 (F (r, s, z))) t a, is_derive (fun s => coord 1 (F (r, s, z))) t b
     & is_derive (fun s => coord 2 (F (r, s, z))) t c]) ->
  (let: (a, b, c) := c2 in
   [/\ is_derive (fun s => coord 0 (F (r, t, s))) z a, is_derive (fun s => coord 1 (F (r, t, s))) z b
     & is_derive (fun s => coord 2 (F (r, t, s))) z c]) ->
  is_jacobian F (r, t, z) (fun k a => coord k (if a == 0%N then c0 else if a == 1%N then c1 else c2)).
Proof.
case: c0 => [[a0 b0] d0]; case: c1 => [[a1 b1] d1]; case: c2 => [[a2 b2] d2].
move=> [H1 H2 H3] [H4 H5 H6] [H7 H8 H9] k a.
by case: k => [|[|[|//]]] _; case: a => [|[|[|//]]] _; rewrite /is_partial /=.
Qed.

(** general toroidal map (R cos w z, - R sin w z, Z) with R, Z functions of the logical coordinates *)
Lemma toroidal_jac (Rf Zf : R -> R -> R -> R) w r t z (Rr Rt Rz Zr Zt Zz : R) :
  is_derive (fun s => Rf s t z) r Rr -> is_derive (fun s => Rf r s z) t Rt -> is_derive (fun s => Rf r t s) z Rz ->
  is_derive (fun s => Zf s t z) r Zr -> is_derive (fun s => Zf r s z) t Zt -> is_derive (fun s => Zf r t s) z Zz ->
  jacobian_det (fun x => let: (r, t, z) := x in (Rf r t z * cos (w * z), - Rf r t z * sin (w * z), Zf r t z))
    (r, t, z) (w * Rf r t z * (Rr * Zt - Rt * Zr)).
Proof.
move=> H1 H2 H3 H4 H5 H6.
apply: jacdet_intro.
  apply: (@jacobian9 _ r t z (Rr * cos (w * z), - Rr * sin (w * z), Zr) (Rt * cos (w * z), - Rt * sin (w * z), Zt)
    (Rz * cos (w * z) - w * Rf r t z * sin (w * z), - Rz * sin (w * z) - w * Rf r t z * cos (w * z), Zz)) => /=.
  - split=> //.
    + by auto_derive; [by exists Rr | rewrite (is_derive_unique _ _ _ H1); ring].
    + by auto_derive; [by exists Rr | rewrite (is_derive_unique _ _ _ H1); ring].
  - split=> //.
    + by auto_derive; [by exists Rt | rewrite (is_derive_unique _ _ _ H2); ring].
    + by auto_derive; [by exists Rt | rewrite (is_derive_unique _ _ _ H2); ring].
  - split=> //.
    + by auto_derive; [by exists Rz | rewrite (is_derive_unique (fun s => Rf r t s) z Rz H3); ring].
    + by auto_derive; [by exists Rz | rewrite (is_derive_unique (fun s => Rf r t s) z Rz H3); ring].
rewrite det33_R /=.
have := sin2_cos2 (w * z); rewrite /Rsqr.
move: (sin (w * z)) (cos (w * z)) => s c E.
have -> : w * Rf r t z * (Rr * Zt - Rt * Zr) = w * Rf r t z * (Rr * Zt - Rt * Zr) * (s * s + c * c) by rewrite E; ring.
ring.
Qed.
