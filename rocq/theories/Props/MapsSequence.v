(** C35: de Rham sequences on the torus, end to end. *)
From Coq Require Import Reals Lra ClassicalEpsilon.
From mathcomp Require Import all_ssreflect all_algebra.
From Verif Require Import Model.RBase Model.Spline Model.Quad Model.Forms Model.DeRham Model.FormEval Model.Geometry Model.SeqR Model.Maps.
From Verif Require Import Spec.SeqSpec Spec.GeomSpec Spec.SeqRSpec Spec.CalculusSpec Spec.MapSpec Proof.RField Proof.MassSPD Props.SequenceR Props.Maps.
Set Implicit Arguments.
Unset Strict Implicit.
Unset Printing Implicit Defensive.
Import Order.TTheory GRing.Theory Num.Theory.

(** For all supported arguments and torus parameters, DeRhamSequence(..., F = toroid_map(...))
    is built, strong curl after strong grad and strong div after strong curl vanish, and its
    mass matrices are symmetric positive definite. *)
Theorem C35_toroid_sequence : forall (n0 n1 n2 p0 p1 p2 q : nat) types polar dirichlet (epsilon kappa R0 : R),
  supported (n0, n1, n2) (p0, p1, p2) q types polar dirichlet ->
  Rlt 0 epsilon /\ Rlt epsilon R0 /\ Rlt 0 kappa ->
  Rle (INR (n0 - p0)) (Rmult 45000 (Rmult (Rmult (pow epsilon 2) kappa) (Rminus R0 epsilon))) ->
  forall DFx, (forall x, is_jacobian (toroid_map epsilon kappa R0) x (DFx x)) ->
  exists S, [/\ new_sequence (n0, n1, n2) (p0, p1, p2) q types DFx polar dirichlet = Some S,
    (strong_curl S *m strong_grad S = 0 /\ strong_div S *m strong_curl S = 0)%R
  & forall k, k <> KV -> (mass S k)^T%R = mass S k /\ (forall x, x != 0 -> 0 < form (mass S k) x x)%R].
Proof.
move=> n0 n1 n2 p0 p1 p2 q types polar dirichlet e k R0 Hs [He [HR Hk]] HN DFx HJ.
have Hres : resolved (n0, n1, n2) (p0, p1, p2) q types by case: Hs.
have [_ _ Ht _] := C35_regular_sequences DFx Hres.
have Hreg := Ht e k R0 (conj He HR) Hk HJ HN.
have [S HS] := C26_constructor_total Hs Hreg.
exists S; split=> //; first exact: (C24_sequence_complex Hs Hreg HS).
by have [M0 M1 M2 M3] := C26_sequence Hs Hreg HS; case.
Qed.
Print Assumptions C35_toroid_sequence.

(** the torus has a Jacobian everywhere, and a concrete configuration: toroid_map() with its
    default parameters, with the sizes of DEFAULT_CONFIG: ns = (8, 8, 6), ps = (3, 3, 3), q = max(ps) = 3, polar with Dirichlet conditions *)
Lemma C35_toroid_has_jacobian (epsilon kappa R0 : R) :
  exists DFx, forall x, is_jacobian (toroid_map epsilon kappa R0) x (DFx x).
Proof.
have H x : exists DF, is_jacobian (toroid_map epsilon kappa R0) x DF.
  by case: x => [[r t] z]; have [H _] := C35_toroid_jacobian epsilon kappa R0 r t z.
exists (fun x => proj1_sig (constructive_indefinite_description _ (H x))) => x.
exact: (proj2_sig (constructive_indefinite_description _ (H x))).
Qed.
Lemma C35_supported_instance : supported (8, 8, 6)%N (3, 3, 3)%N 3 (Clamped, Periodic, Periodic) true true.
Proof. by split=> //; split=> //; [rewrite /=; lra | left; split=> //; split=> //; rewrite /=; lra]. Qed.
(** ... and with n_zeta = 1, p_zeta = 0 (the tokamak presets) *)
Lemma C35_supported_axisymmetric : supported (8, 8, 1)%N (3, 3, 0)%N 3 (Clamped, Periodic, Constant) true true.
Proof. by split=> //; split=> //; [rewrite /=; lra | right]. Qed.
Theorem C35_toroid_instance : exists DFx S,
  (forall x, is_jacobian (toroid_map (Rdiv 1 3) 1 1) x (DFx x)) /\
  new_sequence (8, 8, 6)%N (3, 3, 3)%N 3 (Clamped, Periodic, Periodic) DFx true true = Some S.
Proof.
have [DFx HJ] := C35_toroid_has_jacobian (Rdiv 1 3) 1 1.
have [||S [HS _ _]] := C35_toroid_sequence C35_supported_instance _ _ HJ; [lra | rewrite /=; lra |].
by exists DFx, S.
Qed.
Print Assumptions C35_toroid_instance.
