(** Property theorems C80: a discrete field is determined by its integrals, and is curl-free (divergence-free) exactly if
    all its circulations (fluxes out of boxes) vanish. *)
From Coq Require Import Reals Lra.
From Coquelicot Require Import Coquelicot.
From mathcomp Require Import all_ssreflect all_algebra zify.
From Verif Require Import Model.RBase Model.Spline Model.Quad Model.Forms Model.DeRham Model.FormEval Model.Geometry Model.SeqR Model.Relaxation.
From Verif Require Import Spec.Cochain Spec.PolarSpace Spec.SeqSpec Spec.FormSpec Spec.GeomSpec Spec.SeqRSpec Spec.CalculusSpec Spec.SmoothSpec Spec.TopologySpec Spec.SegSpec.
From Verif Require Import Proof.RField Proof.MCRing Proof.IndexLemmas Proof.SplineInt Proof.FormEvalProofs Proof.GeometryProofs Proof.SeqRProofs Proof.SeqDeriv Proof.SeqCalculus Proof.SeqSmooth Proof.SeqFlux Proof.SeqSeg Proof.SeqSep
  Spec.FluxSpec Props.SequenceR Props.Relaxation Props.Flux Props.Segments Props.Topology.
Set Implicit Arguments.
Unset Strict Implicit.
Unset Printing Implicit Defensive.
Import Order.TTheory GRing.Theory Num.Theory.
Local Open Scope ring_scope.

Section Seq.
Variables (ns ps : triple) (q : nat) (types : stype * stype * stype) (DFx : point -> mat3 R_realFieldType)
  (polar dirichlet : bool).
Hypothesis Hs : supported ns ps q types polar dirichlet.
Hypothesis Hreg : regular_map DFx (seq_points ns ps q types).
Variable S : drseq R_realFieldType.
Hypothesis HS : new_sequence ns ps q types DFx polar dirichlet = Some S.
Notation field y := (fun c => discrete_form ns ps types y c).
Notation n0 := ns.1.1.
Notation n1 := ns.1.2.
Notation n2 := ns.2.
Let Hres : resolved ns ps q types := Hres' Hs.
Let K0V : K0 <> KV := fun e => ltac:(discriminate).
Let K1V : K1 <> KV := fun e => ltac:(discriminate).
Let K2V : K2 <> KV := fun e => ltac:(discriminate).
Let K3V : K3 <> KV := fun e => ltac:(discriminate).

Lemma RInt0 a b : is_RInt (fun _ : R => R0) a b R0.
Proof. by have := is_RInt_const a b R0; rewrite /scal /= /mult /= Rmult_0_r. Qed.
(** ** degrees of freedom are determined by the values, the line integrals, the fluxes and the box integrals of the field *)
Theorem C80_values : forall y : 'cV_(rk S K0),
  (forall r t z, closed01 r -> closed01 t -> closed01 z -> field y 0%N (r, t, z) = 0) -> y = 0.
Proof.
move=> y H; have [l0 [l1 [l2 [d0 [d1 [d2 SP]]]]]] := resolved_sep Hres; have HD := ss_form (se_seg SP).
apply: (seq_coefs_inj Hs Hreg HS K0V) => c i j l Hc; rewrite /in_comp /cshape /= /dr /dt /dz /= ?subn0 => /and3P [Hi Hj Hl].
case: c Hc => [|//] _.
apply: (@sep3 _ _ _ _ _ _ (coefs S K0 y 0%N) (se_l0 SP) (se_l1 SP) (se_l2 SP)) Hi Hj Hl => _ _ _ [r [Hr ->]] [t [Ht ->]] [z [Hz ->]].
by rewrite -(f0 Hs Hreg HS HD) H.
Qed.
Theorem C80_work : forall a : 'cV_(rk S K1),
  (forall u v r t z, sub01 u v -> closed01 r -> closed01 t -> closed01 z ->
     [/\ is_RInt (fun x => field a 0%N (x, t, z)) u v 0, is_RInt (fun x => field a 1%N (r, x, z)) u v 0
       & is_RInt (fun x => field a 2%N (r, t, x)) u v 0]) -> a = 0.
Proof.
move=> a H; have [l0 [l1 [l2 [d0 [d1 [d2 SP]]]]]] := resolved_sep Hres; have HD := ss_form (se_seg SP).
have F0 x y s := let: And3 e _ _ := f1 Hs Hreg HS HD a x y s in e.
have F1 x y s := let: And3 _ e _ := f1 Hs Hreg HS HD a x y s in e.
have F2 x y s := let: And3 _ _ e := f1 Hs Hreg HS HD a x y s in e.
apply: (seq_coefs_inj Hs Hreg HS K1V) => c i j l Hc; rewrite /in_comp /cshape /= /dr /dt /dz.
case: c Hc => [|[|[|//]]] _ /=; rewrite ?subn0 ?subn1 => /and3P [Hi Hj Hl].
- apply: (@sep3 _ _ _ _ _ _ (coefs S K1 a 0%N) (se_d0 SP) (se_l1 SP) (se_l2 SP)) Hi Hj Hl => I _ _ [u [v [Huv W]]] [t [Ht ->]] [z [Hz ->]].
  have [A _ _] := H u v R0 t z Huv Z01 Ht Hz.
  apply: (seg_unique _ A); apply: seg_ext' (along_r _ _ _ (coefs S K1 a 0%N) _ _ _ _ _ _ W) => x; exact: F0.
- apply: (@sep3 _ _ _ _ _ _ (coefs S K1 a 1%N) (se_l0 SP) (se_d1 SP) (se_l2 SP)) Hi Hj Hl => _ I _ [r [Hr ->]] [u [v [Huv W]]] [z [Hz ->]].
  have [_ A _] := H u v r R0 z Huv Hr Z01 Hz.
  apply: (seg_unique _ A); apply: seg_ext' (along_t _ _ _ (coefs S K1 a 1%N) _ _ _ _ _ _ W) => x; exact: F1.
- apply: (@sep3 _ _ _ _ _ _ (coefs S K1 a 2%N) (se_l0 SP) (se_l1 SP) (se_d2 SP)) Hi Hj Hl => _ _ I [r [Hr ->]] [t [Ht ->]] [u [v [Huv W]]].
  have [_ _ A] := H u v r t R0 Huv Hr Ht Z01.
  apply: (seg_unique _ A); apply: seg_ext' (along_z _ _ _ (coefs S K1 a 2%N) _ _ _ _ _ _ W) => x; exact: F2.
Qed.
Theorem C80_flux : forall b : 'cV_(rk S K2),
  (forall r0 r1 t0 t1 z0 z1 r t z, sub01 r0 r1 -> sub01 t0 t1 -> sub01 z0 z1 -> closed01 r -> closed01 t -> closed01 z ->
     [/\ int2_on (fun t z => field b 0%N (r, t, z)) t0 t1 z0 z1 0, int2_on (fun z r => field b 1%N (r, t, z)) z0 z1 r0 r1 0
       & int2_on (fun r t => field b 2%N (r, t, z)) r0 r1 t0 t1 0]) -> b = 0.
Proof.
move=> b H; have [l0 [l1 [l2 [d0 [d1 [d2 SP]]]]]] := resolved_sep Hres; have HD := ss_form (se_seg SP).
have F0 x y s := let: And3 e _ _ := f2 Hs Hreg HS HD b x y s in e.
have F1 x y s := let: And3 _ e _ := f2 Hs Hreg HS HD b x y s in e.
have F2 x y s := let: And3 _ _ e := f2 Hs Hreg HS HD b x y s in e.
have U : sub01 R0 R1 by split; [apply: Rle_refl | split; [apply: Rle_0_1 | apply: Rle_refl]].
apply: (seq_coefs_inj Hs Hreg HS K2V) => c i j l Hc; rewrite /in_comp /cshape /= /dr /dt /dz.
case: c Hc => [|[|[|//]]] _ /=; rewrite ?subn0 ?subn1 => /and3P [Hi Hj Hl].
- apply: (@sep3 _ _ _ _ _ _ (coefs S K2 b 0%N) (se_l0 SP) (se_d1 SP) (se_d2 SP)) Hi Hj Hl => _ I J [r [Hr ->]] [u [v [Huv W]]] [u' [v' [Huv' W']]].
  have [A _ _] := H R0 R1 u v u' v' r R0 R0 U Huv Huv' Hr Z01 Z01.
  have [_ [L _]] := Huv'; apply: (rect_unique L _ A).
  by apply: rect_ext (rect_tz n0 (coefs S K2 b 0%N) W W' (evaluate l0 r)) => x y; exact: F0.
- apply: (@sep3 _ _ _ _ _ _ (coefs S K2 b 1%N) (se_d0 SP) (se_l1 SP) (se_d2 SP)) Hi Hj Hl => I _ J [u [v [Huv W]]] [t [Ht ->]] [u' [v' [Huv' W']]].
  have [_ A _] := H u v R0 R1 u' v' R0 t R0 Huv U Huv' Z01 Ht Z01.
  have [_ [L _]] := Huv; apply: (rect_unique L _ A).
  by apply: rect_ext (rect_zr n1 (coefs S K2 b 1%N) W W' (evaluate l1 t)) => x y; exact: F1.
- apply: (@sep3 _ _ _ _ _ _ (coefs S K2 b 2%N) (se_d0 SP) (se_d1 SP) (se_l2 SP)) Hi Hj Hl => I J _ [u [v [Huv W]]] [u' [v' [Huv' W']]] [z [Hz ->]].
  have [_ _ A] := H u v u' v' R0 R1 R0 R0 z Huv Huv' U Z01 Z01 Hz.
  have [_ [L _]] := Huv'; apply: (rect_unique L _ A).
  by apply: rect_ext (rect_rt n2 (coefs S K2 b 2%N) W W' (evaluate l2 z)) => x y; exact: F2.
Qed.
Theorem C80_content : forall c : 'cV_(rk S K3),
  (forall r0 r1 t0 t1 z0 z1, sub01 r0 r1 -> sub01 t0 t1 -> sub01 z0 z1 ->
     int3_on (fun r t z => field c 0%N (r, t, z)) r0 r1 t0 t1 z0 z1 0) -> c = 0.
Proof.
move=> c H; have [l0 [l1 [l2 [d0 [d1 [d2 SP]]]]]] := resolved_sep Hres; have HD := ss_form (se_seg SP).
apply: (seq_coefs_inj Hs Hreg HS K3V) => k i j l Hk; rewrite /in_comp /cshape /= /dr /dt /dz /= ?subn0 ?subn1 => /and3P [Hi Hj Hl].
case: k Hk => [|//] _.
apply: (@sep3 _ _ _ _ _ _ (coefs S K3 c 0%N) (se_d0 SP) (se_d1 SP) (se_d2 SP)) Hi Hj Hl => I J K [a [b [Hab W]]] [a' [b' [Hab' W']]] [a2 [b2 [Hab2 W2]]].
have [_ [L' _]] := Hab'; have [_ [L2 _]] := Hab2.
apply: (box_unique L' L2 _ (H _ _ _ _ _ _ Hab Hab' Hab2)).
by apply: box_ext (box_rtz (coefs S K3 c 0%N) W W' W2) => x y s; exact: (f3 Hs Hreg HS HD).
Qed.

(** ** exactness of the operators, seen from the outside: a field is curl-free iff it does no work around any coordinate
    rectangle, divergence-free iff no coordinate box has a net outflux, and its potential gradient vanishes iff no
    coordinate segment sees a difference *)
Theorem C80_irrotational : forall a : 'cV_(rk S K1),
  (strong_curl S *m a = 0 <->
   forall r0 r1 t0 t1 z0 z1 r t z, sub01 r0 r1 -> sub01 t0 t1 -> sub01 z0 z1 -> closed01 r -> closed01 t -> closed01 z ->
   [/\ circulation (fun t z => field a 1%N (r, t, z)) (fun t z => field a 2%N (r, t, z)) t0 t1 z0 z1 0,
       circulation (fun z r => field a 2%N (r, t, z)) (fun z r => field a 0%N (r, t, z)) z0 z1 r0 r1 0
     & circulation (fun r t => field a 0%N (r, t, z)) (fun r t => field a 1%N (r, t, z)) r0 r1 t0 t1 0]).
Proof.
move=> a; split=> [Ha r0 r1 t0 t1 z0 z1 r t z Hr Ht Hz _ _ _|H]; first exact: (C78_irrotational Hs Hreg HS Ha).
apply: C80_flux => r0 r1 t0 t1 z0 z1 r t z Hr Ht Hz Cr Ct Cz.
have [[v0 [A0 B0]] [v1 [A1 B1]] [v2 [A2 B2]]] := C78_stokes Hs Hreg HS a Hr Ht Hz r t z.
have [E0 E1 E2] := H r0 r1 t0 t1 z0 z1 r t z Hr Ht Hz Cr Ct Cz.
have Q f g p0 p1 q0 q1 v w := proj1 (@C78_unique_boundary f g p0 p1 q0 q1 (field a) r0 r1 t0 t1 z0 z1 v w Hr Ht Hz).
by rewrite -(Q _ _ _ _ _ _ _ _ E0 B0) in A0; rewrite -(Q _ _ _ _ _ _ _ _ E1 B1) in A1; rewrite -(Q _ _ _ _ _ _ _ _ E2 B2) in A2.
Qed.
Theorem C80_solenoidal : forall b : 'cV_(rk S K2),
  (strong_div S *m b = 0 <->
   forall r0 r1 t0 t1 z0 z1, sub01 r0 r1 -> sub01 t0 t1 -> sub01 z0 z1 -> outflux (field b) r0 r1 t0 t1 z0 z1 0).
Proof.
move=> b; split=> [Hb r0 r1 t0 t1 z0 z1 Hr Ht Hz|H]; first exact: (C78_solenoidal Hs Hreg HS Hb).
apply: C80_content => r0 r1 t0 t1 z0 z1 Hr Ht Hz; have [v [A B]] := C78_gauss Hs Hreg HS b Hr Ht Hz.
have [_ Q] := @C78_unique_boundary (fun _ _ => R0) (fun _ _ => R0) r0 r1 t0 t1 (field b) r0 r1 t0 t1 z0 z1 0 v Hr Ht Hz.
by move: A; rewrite -(Q (H _ _ _ _ _ _ Hr Ht Hz) B).
Qed.
Theorem C80_constant : forall y : 'cV_(rk S K0),
  (strong_grad S *m y = 0 <->
   forall r t z r' t' z', closed01 r -> closed01 t -> closed01 z -> closed01 r' -> closed01 t' -> closed01 z' ->
     field y 0%N (r, t, z) = field y 0%N (r', t', z')).
Proof.
move=> y; have G := C78_gradient Hs Hreg HS y; split=> [Hy|H]; last first.
  apply: C80_work => u v r t z Huv Hr Ht Hz; have [A0 A1 A2] := G u v Huv r t z.
  have [Hu Hv] : closed01 u /\ closed01 v by case: Huv => A [B C]; split; split=> //; [exact: Rle_trans B C | exact: Rle_trans A B].
  split.
  - by apply: val_eq A0 _; rewrite (H v t z u t z) // Rminus_eq_0.
  - by apply: val_eq A1 _; rewrite (H r v z r u z) // Rminus_eq_0.
  - by apply: val_eq A2 _; rewrite (H r t v r t u) // Rminus_eq_0.
have Z (f : R -> R) u v w : (forall x, f x = R0) -> is_RInt f u v w -> w = R0.
  by move=> Hf A; apply: (seg_unique A); apply: seg_ext' Hf _; apply: RInt0.
have E u v r t z : sub01 u v -> [/\ field y 0%N (v, t, z) = field y 0%N (u, t, z), field y 0%N (r, v, z) = field y 0%N (r, u, z)
    & field y 0%N (r, t, v) = field y 0%N (r, t, u)].
  move=> Huv; have [A0 A1 A2] := G u v Huv r t z; rewrite Hy in A0 A1 A2.
  split; apply: Rminus_diag_uniq.
  - by apply: Z A0 => x; rewrite field_zero.
  - by apply: Z A1 => x; rewrite field_zero.
  - by apply: Z A2 => x; rewrite field_zero.
have E' u v r t z : closed01 u -> closed01 v -> [/\ field y 0%N (v, t, z) = field y 0%N (u, t, z), field y 0%N (r, v, z) = field y 0%N (r, u, z)
    & field y 0%N (r, t, v) = field y 0%N (r, t, u)].
  move=> [u0 u1] [v0 v1]; case: (Rle_dec u v) => [L|/Rnot_le_lt /Rlt_le L]; first by apply: E; split.
  by have [-> -> ->] := E v u r t z (conj v0 (conj L u1)).
move=> r t z r' t' z' Hr Ht Hz Hr' Ht' Hz'.
have [-> _ _] := E' r' r r t z Hr' Hr; have [_ -> _] := E' t' t r' t z Ht' Ht; by have [_ _ ->] := E' z' z r' t' z Hz' Hz.
Qed.
End Seq.

(** the discretisation of the scripts: not every 2-form is divergence-free, so some box has a net outflux *)
Example C80_nonvacuous : exists S : drseq R_realFieldType,
  [/\ supported (8, 8, 1)%N (3, 3, 0)%N 4 (Clamped, Periodic, Constant) true true,
      new_sequence (8, 8, 1)%N (3, 3, 0)%N 4 (Clamped, Periodic, Constant) (fun _ => id33) true true = Some S,
      exists a : 'cV_(rk S K1), strong_curl S *m a != 0
    & exists2 b : 'cV_(rk S K2), b != 0 & strong_div S *m b = 0].
Proof.
have [H1 _ H3 _ H5] := SequenceR_nonvacuous.
have [S [HS _ _ [_ NC] [B HD HB]]] := C58_nonvacuous; exists S; split=> //.
- have [i Hi] : exists i, strong_curl S *m delta_mx i 0 != 0 :> 'cV_(rk S K2).
    apply/existsP; case: existsP => // H; case/negP: NC; apply/eqP; apply/matrixP => a j; rewrite mxE.
    have /eqP E : strong_curl S *m (delta_mx j 0 : 'cV_(rk S K1)) == 0 by apply/negPn/negP => Hj; apply: H; exists j.
    by have := congr1 (fun X : 'cV_(rk S K2) => X a 0) E; rewrite -colE !mxE.
  by exists (delta_mx i 0).
- exists B => //; apply: contraNneq HB => ->.
  by rewrite /harmonic_component /potential /solve !mulmx0 subr0.
Qed.
Print Assumptions C80_values.
Print Assumptions C80_work.
Print Assumptions C80_flux.
Print Assumptions C80_content.
Print Assumptions C80_irrotational.
Print Assumptions C80_solenoidal.
Print Assumptions C80_constant.
Print Assumptions C80_nonvacuous.
