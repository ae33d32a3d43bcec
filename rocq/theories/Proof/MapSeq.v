(** The radial quadrature points of a sequence. *)
From Coq Require Import Reals Lra.
From mathcomp Require Import all_ssreflect all_algebra zify.
From Verif Require Import Model.RBase Model.Spline Model.Quad Model.Forms Model.DeRham Model.FormEval Model.Geometry Model.SeqR.
From Verif Require Import Spec.SeqRSpec Proof.RField Proof.QuadProofs Proof.SplineTables Proof.SeqRProofs Proof.MapQuad Props.Quadrature.
Set Implicit Arguments.
Unset Strict Implicit.
Unset Printing Implicit Defensive.
Local Open Scope R_scope.

Lemma seq_points_radial (n0 n1 n2 p0 p1 p2 q : nat) types x :
  resolved (n0, n1, n2) (p0, p1, p2) q types -> List.In x (seq_points (n0, n1, n2) (p0, p1, p2) q types) ->
  / (80 * INR (n0 - p0)) <= x.1.1 /\ x.1.1 < 1.
Proof.
case: types => [[t0 t1] t2] [[-> ->] /and3P [Hp0 Hn0 _] _ _].
rewrite /seq_points /DifferentialForm new_spline_ok //.
case: (new_spline n1 p1 Periodic) => [l1|] //; case: (new_spline n2 p2 t2) => [l2|] //.
case: (new_deriv _) => [d0|] //; case: (new_deriv l1) => [d1|] //; case: (new_deriv l2) => [d2|] //=.
have [Em _] := @C14_spline_mesh n0 p0 (elimT ssrnat.leP Hp0) (elimT ssrnat.ltP Hn0).
rewrite /QuadratureRule {1}/select_quadrature [sty _]/= [sT _]/= [sp _]/= Em.
have C := @comp_low (n0 - p0)%N q.
move: (composite_quad _ q) C => [X W] C.
case: (select_quadrature l1 q) => [[Y WY]|] //; case: (select_quadrature l2 q) => [[Z WZ]|] //= Hx.
have HX : List.In x.1.1 X.
  move: Hx; rewrite /meshgrid3 => /List.in_flat_map [y [_ /List.in_flat_map [u [Hu /List.in_map_iff [v [<- _]]]]]].
  by [].
by apply: C => //; apply/ssrnat.leP; lia.
Qed.
