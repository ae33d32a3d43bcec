(** C75: the discrete spaces approximate a form and its exterior derivative simultaneously; convergence of the
    Poisson solver. *)
From Coq Require Import Reals Lra.
From Coquelicot Require Import Coquelicot.
From mathcomp Require Import all_ssreflect all_algebra zify.
From Verif Require Import Model.RBase Model.Spline Model.Quad Model.Forms Model.DeRham Model.FormEval Model.Geometry Model.SeqR Model.Eigen Model.Poisson.
From Verif Require Import Spec.Cochain Spec.PolarSpace Spec.FreeDofs Spec.SeqSpec Spec.FormSpec Spec.GeomSpec Spec.SeqRSpec Spec.RelaxSpec Spec.CalculusSpec Spec.ApproxSpec Spec.DerivApproxSpec.
From Verif Require Import Proof.RField Proof.IndexLemmas Proof.Incidence Proof.Complex Proof.SeqFacts Proof.PolarSpan Proof.DeRhamAlg Proof.SequenceAlg Proof.ProjectionProofs Proof.RelaxAlg Proof.MassSPD Proof.GeometryProofs Proof.SeqRProofs Proof.SeqCalculus Proof.LazyProofs
  Proof.Topology Proof.SeqFlux Proof.ApproxSplines Proof.ApproxSeq Proof.Greville Proof.GrevilleSeq
  Props.SequenceR Props.Approx Props.Poisson.
Set Implicit Arguments.
Unset Strict Implicit.
Unset Printing Implicit Defensive.
Import Order.TTheory GRing.Theory Num.Theory.
Local Open Scope ring_scope.

(** perturbed Galerkin solutions *)
Section Strang.
Lemma amgm (a b r : R) : Rle 0 a -> Rle 0 b -> Rle (Rmult r r) (Rmult a b) -> Rle (Rmult 2 r) (Rplus a b) /\ Rle (Ropp (Rmult 2 r)) (Rplus a b).
Proof.
move=> Ha Hb H; have Hs : Rle 0 (Rmult (Rminus a b) (Rminus a b)) by apply: Rle_0_sqr.
by split; apply: Rnot_lt_le => L; nra.
Qed.
Lemma strang_pure (gg d1 d2 Auu Ayy Auy delta rho : R) :
  rho = Rminus (Rminus d1 d2) (Rminus Auu Auy) -> Rle (Ropp (Rmult 2 rho)) (Rplus delta (Rplus (Rminus Auu (Rmult 2 Auy)) Ayy)) ->
  Rle (Rplus (Rminus gg (Rmult 2 d1)) Auu) (Rplus (Rplus (Rminus gg (Rmult 2 d2)) Ayy) delta).
Proof. move=> -> H; lra. Qed.
Lemma strang n m (A : 'M[R_realFieldType]_n) (G : 'M[R_realFieldType]_(m, n)) (p0 : 'cV[R_realFieldType]_n) (p1 : 'cV[R_realFieldType]_m) (u y : 'cV[R_realFieldType]_n) (gg delta : R_realFieldType) :
  spd A -> A *m u = p0 -> 0 <= delta ->
  (forall v, (dotv (G *m v) p1 - dotv v p0) * (dotv (G *m v) p1 - dotv v p0) <= delta * form A v v) ->
  gg - 2%:R * dotv (G *m u) p1 + form A u u <= gg - 2%:R * dotv (G *m y) p1 + form A y y + delta.
Proof.
move=> HA Hu Hd Hdef; have HA0 := spd_ge0 HA (u - y).
have := Hdef (u - y) => /RleE H; move/RleE: HA0 => HA0; move/RleE: Hd => Hd.
have [_ Q] := amgm Hd HA0 H; apply/RleE.
have E1 : dotv (G *m (u - y)) p1 = dotv (G *m u) p1 - dotv (G *m y) p1.
  by rewrite mulmxBr /dotv linearB /= mulmxBl mxE [(- _ : 'M_(_, _)) _ _]mxE.
have E2 : dotv (u - y) p0 = form A u u - form A u y.
  by rewrite -Hu dotv_form formDl formNl (formC y u (proj1 HA)).
have E3 : form A (u - y) (u - y) = form A u u - 2%:R * form A u y + form A y y.
  rewrite formDl !formDr !formNl !formNr (formC y u (proj1 HA)) opprK mulr2n mulrDl mul1r.
  by rewrite opprD !addrA.
rewrite E3 in Q; rewrite E1 E2 in Q.
rewrite (_ : 2%:R = IZR 2) // in Q *; exact: (strang_pure gg erefl Q).
Qed.
Lemma dotv_adj n m (G : 'M[R_realFieldType]_(m, n)) (p0 v : 'cV[R_realFieldType]_n) (p1 : 'cV[R_realFieldType]_m) :
  dotv v (G^T *m p1 - p0) = dotv (G *m v) p1 - dotv v p0.
Proof. by rewrite /dotv mulmxBr mxE [(- _ : 'M_(_, _)) _ _]mxE trmx_mul -mulmxA. Qed.
End Strang.

Section Seq.
Variables (ns ps : triple) (q : nat) (types : stype * stype * stype) (DFx : point -> mat3 R_realFieldType)
  (dirichlet : bool).
Hypothesis Hs : supported ns ps q types false dirichlet.
Hypothesis Hreg : regular_map DFx (seq_points ns ps q types).
Variable S : drseq R_realFieldType.
Hypothesis HS : new_sequence ns ps q types DFx false dirichlet = Some S.
Notation field := (discrete_form ns ps types).
Notation n0 := ns.1.1.
Notation n1 := ns.1.2.
Notation n2 := ns.2.
Notation sh0 := (Shape n0 n1 n2 true false false).
Notation mesh := (mesh_err ns ps).

Section Form.
Variables (k : deg) (phi : nat -> point -> R) (M : nat -> R * R * R) (d : nat -> nat -> point -> R) (L : nat -> nat -> R * R * R).
Hypothesis Hk : k <> KV.
Hypothesis Hphi : forall c, (c < comps k)%N -> smooth11 (phi c) (M c) (d c) (L c).
Hypothesis Hedge : edge_ok false dirichlet k phi.

(** the coefficients of the Greville quasi-interpolant *)
Lemma interp : exists z : 'cV_(rk S k), forall c i j l, (c < ncomp k)%N -> in_comp sh0 k c (i, j, l) -> coefs S k z c i j l = qg ns ps k phi c i j l.
Proof. exact: (seq_real Hs Hreg HS Hk (qg_V Hs Hreg HS Hk Hedge)). Qed.
Variable z : 'cV[R]_(rk S k).
Hypothesis Hz : forall c i j l, (c < ncomp k)%N -> in_comp sh0 k c (i, j, l) -> coefs S k z c i j l = qg ns ps k phi c i j l.

Lemma interp_value c x0 x1 x2 : (c < comps k)%N -> half01 x0 -> half01 x1 -> half01 x2 ->
  Rle (Rabs (Rminus (phi c (x0, x1, x2)) (field z c (x0, x1, x2)))) (mesh (M c)).
Proof.
move=> Hc H0 H1 H2.
have [l0 [l1 [l2 [d0 [d1 [d2 [HD]]]]]]] := seq_quasi2 Hs Hk Hc H0 H1 H2.
have H0' : Rle 0 x0 /\ Rle x0 1 by case: H0 => A B; split=> //; apply: Rlt_le.
have [HL HP _ _] := Hphi Hc.
have := value_bound Hs Hreg HS l0 l1 l2 d0 d1 d2 x1 x2 Hc HL HP H0'.
rewrite (form_str Hs Hreg HS HD) //; have := Hz (c := c).
case E : cshape => [[a b] e] Hz' F Q; move: (F Q).
apply: Rle_trans; right; congr (Rabs (Rminus _ _)).
apply: eq_bigr => i _; apply: eq_bigr => j _; apply: eq_bigr => l _.
by rewrite Hz' //; rewrite /in_comp E; apply/and3P.
Qed.

Lemma cdims k' c : k' <> KV -> (c < comps k')%N ->
  let: (A, B, D) := cshape sh0 k' c in [/\ A = (if has_dx k' c 0 then n0.-1 else n0), B = n1 & D = n2].
Proof. by case: k' => //; case: c => [|[|[|?]]] //= _ _; rewrite /dr /dt /dz /= ?subn0 ?subn1. Qed.
Lemma cdims_in k' c i j l : k' <> KV -> (c < comps k')%N ->
  in_comp sh0 k' c (i, j, l) = [&& (i < (if has_dx k' c 0 then n0.-1 else n0))%N, (j < n1)%N & (l < n2)%N].
Proof. by move=> H1 H2; have := cdims H1 H2; rewrite /in_comp; case: cshape => [[A B] D] [-> -> ->]. Qed.
(** sums of differences of coefficients *)
Lemma interp_delta k' c c' a x0 x1 x2 : k' <> KV -> (c' < comps k')%N -> (c < comps k)%N -> (a < 3)%N ->
  has_dx k c a = false -> (forall b, (b < 3)%N -> has_dx k' c' b = (b == a) || has_dx k c b) ->
  half01 x0 -> half01 x1 -> half01 x2 ->
  forall l0 l1 l2 d0 d1 d2, (forall k, DifferentialForm k ns ps types = Some (DForm k l0 l1 l2 d0 d1 d2)) ->
  let: (A, B, D) := cshape sh0 k' c' in
  let f := DForm k' l0 l1 l2 d0 d1 d2 in
  Rle (Rabs (Rminus (d c a (x0, x1, x2)) (\sum_(i < A) \sum_(j < B) \sum_(l < D)
     delta ns a (coefs S k z c) i j l * (factor f c' 0 x0 i * factor f c' 1 x1 j * factor f c' 2 x2 l)))) (mesh (L c a)).
Proof.
move=> Hk' Hc' Hc Ha Hdx Hdx' H0 H1 H2 l0 l1 l2 d0 d1 d2 HD.
have [m0 [m1 [m2 [e0 [e1 [e2 [HD']]]]]]] := seq_quasi2 Hs Hk' Hc' H0 H1 H2.
have [E1 [E2 [E3 [E4 [E5 E6]]]]] : m0 = l0 /\ m1 = l1 /\ m2 = l2 /\ e0 = d0 /\ e1 = d1 /\ e2 = d2.
  by have := HD K0; rewrite (HD' K0) => -[].
rewrite E1 E2 E3 E4 E5 E6 {m0 m1 m2 e0 e1 e2 HD' E1 E2 E3 E4 E5 E6}.
have H0' : Rle 0 x0 /\ Rle x0 1 by case: H0 => A B; split=> //; apply: Rlt_le.
have := part_bound Hs Hreg HS l0 l1 l2 d0 d1 d2 x1 x2 Hk' Hc' Ha Hdx Hdx' (Hphi Hc) H0'.
have [[_ _ Hn0 Hn1 Hn2] _] := gsz Hs Hreg HS.
have := cdims Hk' Hc'; have in_k i j l := cdims_in i j l Hk Hc.
case: cshape => [[A B] D] [EA -> ->] F Q; apply: Rle_trans (F Q); right; congr (Rabs (Rminus _ _)).
have Hcn : (c < ncomp k)%N by move: Hc; case: (k).
apply: eq_bigr => -[i Hi] _; apply: eq_bigr => -[j Hj] _; apply: eq_bigr => -[l Hl] _; congr (_ * _).
rewrite [nat_of_ord (Ordinal Hi)]/= [nat_of_ord (Ordinal Hj)]/= [nat_of_ord (Ordinal Hl)]/=; rewrite EA (Hdx' 0%N) // in Hi.
have Hj' : (j.+1 %% n1 < n1)%N by rewrite ltn_mod.
have Hl' : (l.+1 %% n2 < n2)%N by rewrite ltn_mod.
case: a Ha Hdx Hi {Hdx' F} => [|[|[|a]]] // _ Hdx Hi; rewrite /delta /=.
- by rewrite /dr_ !Hz // in_k Hdx Hj Hl ?andbT; move: Hi => /=; lia.
- by rewrite /dt_ !Hz // in_k ?Hj ?Hj' ?Hl ?andbT.
- by rewrite /dz_ !Hz // in_k ?Hj ?Hl' ?Hl ?andbT.
Qed.
End Form.

Lemma sum3_sub (A B D : nat) (u v w : nat -> nat -> nat -> R) :
  \sum_(i < A) \sum_(j < B) \sum_(l < D) (u i j l - v i j l) * w i j l
  = \sum_(i < A) \sum_(j < B) \sum_(l < D) u i j l * w i j l - \sum_(i < A) \sum_(j < B) \sum_(l < D) v i j l * w i j l.
Proof.
rewrite -sumrB; apply: eq_bigr => i _; rewrite -sumrB; apply: eq_bigr => j _; rewrite -sumrB; apply: eq_bigr => l _.
exact: mulrBl.
Qed.
Lemma sum3_add (A B D : nat) (u v w : nat -> nat -> nat -> R) :
  \sum_(i < A) \sum_(j < B) \sum_(l < D) (u i j l + v i j l) * w i j l
  = \sum_(i < A) \sum_(j < B) \sum_(l < D) u i j l * w i j l + \sum_(i < A) \sum_(j < B) \sum_(l < D) v i j l * w i j l.
Proof.
rewrite -big_split; apply: eq_bigr => i _; rewrite -big_split; apply: eq_bigr => j _; rewrite -big_split; apply: eq_bigr => l _.
exact: mulrDl.
Qed.
Section Pure.
Local Open Scope R_scope.
Lemma abs_sub (a b u v e f : R) : Rabs (a - u) <= e -> Rabs (b - v) <= f -> Rabs (a - b - (u - v)) <= e + f.
Proof.
move=> H1 H2; have -> : a - b - (u - v) = (a - u) - (b - v) by ring.
by apply: Rle_trans (Rabs_triang _ _) _; rewrite Rabs_Ropp; lra.
Qed.
Lemma abs_add (a b u v e f : R) : Rabs (a - u) <= e -> Rabs (b - v) <= f -> Rabs (a + b - (u + v)) <= e + f.
Proof.
move=> H1 H2; have -> : a + b - (u + v) = (a - u) + (b - v) by ring.
by apply: Rle_trans (Rabs_triang _ _) _; lra.
Qed.
End Pure.

(** a differentiable scalar with Lipschitz gradient that satisfies the essential conditions: one discrete 0-form
    approximates it, and the discrete gradient of that 0-form approximates its gradient *)
Theorem C75_grad : forall u M d L, smooth11 u M d L -> (dirichlet -> forall t z, u (R1, t, z) = 0 /\ u (R0, t, z) = 0) ->
  exists y : 'cV_(rk S K0), forall x0 x1 x2, half01 x0 -> half01 x1 -> half01 x2 ->
    Rle (Rabs (Rminus (u (x0, x1, x2)) (field y 0%N (x0, x1, x2)))) (mesh M) /\
    forall a, (a < 3)%N -> Rle (Rabs (Rminus (d a (x0, x1, x2)) (field (strong_grad S *m y) a (x0, x1, x2)))) (mesh (L a)).
Proof.
move=> u M d L Hu Hbc.
have Hedge : edge_ok false dirichlet K0 (fun _ => u).
  by move=> Hd c Hc _ t z; have [-> ->] := Hbc Hd t z.
have Hk : K0 <> KV by [].
have Hu' c : (c < comps K0)%N -> smooth11 ((fun _ => u) c) ((fun _ => M) c) ((fun _ => d) c) ((fun _ => L) c) by [].
have [y Hy] := interp Hk Hedge; exists y => x0 x1 x2 H0 H1 H2.
have Hr : resolved ns ps q types by move: Hs; case: (ns) => [[? ?] ?] [].
split; first exact: (interp_value Hk Hu' Hy (c := 0%N)).
move=> a Ha; have Hk1 : K1 <> KV by [].
have [l0 [l1 [l2 [d0 [d1 [d2 [HD _]]]]]]] := seq_quasi2 Hs Hk (isT : 0 < comps K0)%N H0 H1 H2.
have Hdx b : (b < 3)%N -> has_dx K1 a b = (b == a) || has_dx K0 0 b by rewrite orbF.
have := interp_delta Hk Hu' Hy Hk1 Ha (isT : 0 < comps K0)%N Ha erefl Hdx H0 H1 H2 HD.
rewrite (form_str Hs Hreg HS HD) //; have [Hg _ _] := E_incidence Hs Hreg HS.
have := @cdims K1 a Hk1 Ha; have := Hg y a; rewrite (seq_sh Hs Hreg HS) /in_comp.
case: cshape => [[A B] D] Hg' [EA EB ED]; apply: Rle_trans; right; congr (Rabs (Rminus _ _)).
apply: eq_bigr => i _; apply: eq_bigr => j _; apply: eq_bigr => l _; rewrite Hg' //; last by apply/and3P.
by case: a Ha {Hdx Hg' EA} => [|[|[|a]]].
Qed.

(** a vector potential: one discrete 1-form approximates it, and its discrete curl approximates its curl; the discrete
    curl is exactly divergence free *)
Theorem C75_curl : forall (v : nat -> point -> R) M d L, (forall c, (c < 3)%N -> smooth11 (v c) (M c) (d c) (L c)) ->
  (dirichlet -> forall c t z, (0 < c < 3)%N -> v c (R1, t, z) = 0 /\ v c (R0, t, z) = 0) ->
  let curl c x := match c with 0 => Rminus (d 2%N 1%N x) (d 1%N 2%N x) | 1 => Rminus (d 0%N 2%N x) (d 2%N 0%N x) | _ => Rminus (d 1%N 0%N x) (d 0%N 1%N x) end%N in
  let err c := match c with 0 => Rplus (mesh (L 2%N 1%N)) (mesh (L 1%N 2%N)) | 1 => Rplus (mesh (L 0%N 2%N)) (mesh (L 2%N 0%N)) | _ => Rplus (mesh (L 1%N 0%N)) (mesh (L 0%N 1%N)) end%N in
  exists y : 'cV_(rk S K1), strong_div S *m (strong_curl S *m y) = 0 /\ forall c x0 x1 x2, (c < 3)%N -> half01 x0 -> half01 x1 -> half01 x2 ->
    Rle (Rabs (Rminus (v c (x0, x1, x2)) (field y c (x0, x1, x2)))) (mesh (M c)) /\
    Rle (Rabs (Rminus (curl c (x0, x1, x2)) (field (strong_curl S *m y) c (x0, x1, x2)))) (err c).
Proof.
move=> v M d L Hv Hbc curl err.
have Hedge : edge_ok false dirichlet K1 v.
  by move=> Hd c Hc Ht t z; have [|-> ->] := Hbc Hd c t z => //; move: Hc Ht; rewrite /has_trace /comps /=; case: (c).
have Hk : K1 <> KV by [].
have [y Hy] := interp Hk Hedge; exists y; split; first by rewrite mulmxA (proj2 (C24_sequence_complex Hs Hreg HS)) mul0mx.
move=> c x0 x1 x2 Hc H0 H1 H2; split; first exact: (interp_value Hk Hv Hy).
have [l0 [l1 [l2 [d0 [d1 [d2 [HD _]]]]]]] := seq_quasi2 Hs Hk (isT : 0 < comps K1)%N H0 H1 H2.
have Hk2 : K2 <> KV by [].
have [_ Hg _] := E_incidence Hs Hreg HS; have := Hg y c; rewrite (seq_sh Hs Hreg HS) /in_comp => Hg'.
have key (c1 c2 a1 a2 : nat) : (c1 < 3)%N -> (c2 < 3)%N -> (a1 < 3)%N -> (a2 < 3)%N -> c1 != a1 -> c2 != a2 ->
   (forall b, (b < 3)%N -> has_dx K2 c b = (b == a1) || has_dx K1 c1 b) -> (forall b, (b < 3)%N -> has_dx K2 c b = (b == a2) || has_dx K1 c2 b) ->
   (forall i j l, ccurl n1 n2 (coefs S K1 y) c i j l = delta ns a1 (coefs S K1 y c1) i j l - delta ns a2 (coefs S K1 y c2) i j l) ->
   Rle (Rabs (Rminus (Rminus (d c1 a1 (x0, x1, x2)) (d c2 a2 (x0, x1, x2))) (field (strong_curl S *m y) c (x0, x1, x2)))) (Rplus (mesh (L c1 a1)) (mesh (L c2 a2))).
  move=> L1 L2 L3 L4 N1 N2 X1 X2 Ec.
  have T1 : has_dx K1 c1 a1 = false by rewrite /has_dx eq_sym; exact: negbTE.
  have T2 : has_dx K1 c2 a2 = false by rewrite /has_dx eq_sym; exact: negbTE.
  have := interp_delta Hk Hv Hy Hk2 Hc L1 L3 T1 X1 H0 H1 H2 HD.
  have := interp_delta Hk Hv Hy Hk2 Hc L2 L4 T2 X2 H0 H1 H2 HD.
  rewrite (form_str Hs Hreg HS HD) //.
  have := @cdims K2 c Hk2 Hc; move: Hg'; case: cshape => [[A B] D] Hg' _ F2 F1.
  apply: Rle_trans (abs_sub F1 F2); right; congr (Rabs (Rminus _ _)).
  rewrite RminusE -(sum3_sub A B D (delta ns a1 (coefs S K1 y c1)) (delta ns a2 (coefs S K1 y c2)) (fun i j l => factor (DForm K2 l0 l1 l2 d0 d1 d2) c 0 x0 i * factor (DForm K2 l0 l1 l2 d0 d1 d2) c 1 x1 j * factor (DForm K2 l0 l1 l2 d0 d1 d2) c 2 x2 l)); apply: eq_bigr => i _; apply: eq_bigr => j _; apply: eq_bigr => l _.
  by rewrite Hg' ?Ec //; apply/and3P.
case: c Hc {Hg'} key => [|[|[|c]]] // Hc key.
- by apply: (key 2 1 1 2)%N => // -[|[|[|b]]].
- by apply: (key 0 2 2 0)%N => // -[|[|[|b]]].
- by apply: (key 1 0 0 1)%N => // -[|[|[|b]]].
Qed.

(** a flux: one discrete 2-form approximates it, and its discrete divergence approximates its divergence *)
Theorem C75_div : forall (v : nat -> point -> R) M d L, (forall c, (c < 3)%N -> smooth11 (v c) (M c) (d c) (L c)) ->
  (dirichlet -> forall t z, v 0%N (R1, t, z) = 0 /\ v 0%N (R0, t, z) = 0) ->
  exists y : 'cV_(rk S K2), forall x0 x1 x2, half01 x0 -> half01 x1 -> half01 x2 ->
    (forall c, (c < 3)%N -> Rle (Rabs (Rminus (v c (x0, x1, x2)) (field y c (x0, x1, x2)))) (mesh (M c))) /\
    Rle (Rabs (Rminus (Rplus (Rplus (d 0%N 0%N (x0, x1, x2)) (d 1%N 1%N (x0, x1, x2))) (d 2%N 2%N (x0, x1, x2))) (field (strong_div S *m y) 0%N (x0, x1, x2))))
      (Rplus (Rplus (mesh (L 0%N 0%N)) (mesh (L 1%N 1%N))) (mesh (L 2%N 2%N))).
Proof.
move=> v M d L Hv Hbc.
have Hedge : edge_ok false dirichlet K2 v.
  by move=> Hd [|[|[|c]]] // Hc Ht t z; have [-> ->] := Hbc Hd t z.
have Hk : K2 <> KV by [].
have [y Hy] := interp Hk Hedge; exists y => x0 x1 x2 H0 H1 H2; split.
  by move=> c Hc; exact: (interp_value Hk Hv Hy).
have [l0 [l1 [l2 [d0 [d1 [d2 [HD _]]]]]]] := seq_quasi2 Hs Hk (isT : 0 < comps K2)%N H0 H1 H2.
have Hk3 : K3 <> KV by [].
have [_ _ Hg] := E_incidence Hs Hreg HS; have := Hg y; rewrite (seq_sh Hs Hreg HS) /in_comp => Hg'.
have X (a : nat) : (a < 3)%N -> forall b, (b < 3)%N -> has_dx K3 0 b = (b == a) || has_dx K2 a b.
  by move=> _ b _; rewrite /has_dx; case: eqP.
have T (a : nat) : has_dx K2 a a = false by rewrite /has_dx eqxx.
have F a (Ha : (a < 3)%N) := interp_delta Hk Hv Hy Hk3 (isT : 0 < comps K3)%N Ha Ha (T a) (X a Ha) H0 H1 H2 HD.
have := F 0%N isT; have := F 1%N isT; have := F 2%N isT.
rewrite (form_str Hs Hreg HS HD) //; rewrite /cshape in Hg' |- * => F2 F1 F0; pose A := dr sh0; pose B := dt sh0; pose D := dz sh0.
apply: Rle_trans (abs_add (abs_add F0 F1) F2); right; congr (Rabs (Rminus _ _)).
pose w i j l := factor (DForm K3 l0 l1 l2 d0 d1 d2) 0 0 x0 i * factor (DForm K3 l0 l1 l2 d0 d1 d2) 0 1 x1 j * factor (DForm K3 l0 l1 l2 d0 d1 d2) 0 2 x2 l.
pose D0 := delta ns 0 (coefs S K2 y 0%N); pose D1 := delta ns 1 (coefs S K2 y 1%N); pose D2 := delta ns 2 (coefs S K2 y 2%N).
transitivity (\sum_(i < A) \sum_(j < B) \sum_(l < D) (D0 i j l + D1 i j l + D2 i j l) * w i j l); last first.
  rewrite (sum3_add A B D (fun i j l => D0 i j l + D1 i j l) D2 w) (sum3_add A B D D0 D1 w). rewrite !RplusE; reflexivity.
 apply: eq_bigr => i _; apply: eq_bigr => j _; apply: eq_bigr => l _.
by rewrite Hg' //; apply/and3P.
Qed.

Notation qpt := (qpt ns ps q types).
Notation ip := (phys_l2 ns ps q types DFx).
Notation val := (phys ns ps q types DFx).
Notation Gr := (strong_grad S).
Notation npts := (length (seq_points ns ps q types)).
Section Poisson.
Hypothesis Hd : dirichlet.
(** source and candidate exact solution; its physical gradient at the quadrature points *)
Variables (phi : point -> vec3 R_realFieldType) (u : point -> R) (M : R * R * R) (d : nat -> point -> R) (L : nat -> R * R * R).
Hypothesis Hu : smooth11 u M d L.
Hypothesis Hbc : forall t z, u (R1, t, z) = 0 /\ u (R0, t, z) = 0.
Definition exact_grad (j : nat) : vec3 R_realFieldType := pushforward K1 (DFx (qpt j)) (fun a => d a (qpt j)).
(** squared L2 distance between that gradient and the gradient of a discrete 0-form *)
Definition grad_err (v : 'cV_(rk S K0)) : R := ip 3 (fun j a => exact_grad j a - val (Gr *m v) j a) (fun j a => exact_grad j a - val (Gr *m v) j a).
Notation uh := (poisson_primal S (fun j => phi (qpt j))).
(** consistency: delta bounds the residual of u in the discrete weak form *)
Definition residual (v : 'cV_(rk S K0)) : R := ip 3 exact_grad (val (Gr *m v)) - ip 1 (fun j => phi (qpt j)) (val v).

Lemma functional : exists2 p1 : 'cV_(rk S K1), (forall x, ip 3 exact_grad (val x) = dotv x p1) & forall v, residual v = dotv (Gr *m v) p1 - dotv v (Projector0 S (fun j => phi (qpt j))).
Proof.
have Hk1 : K1 <> KV by [].
have [p1 Hp1 _] := C29_sequence Hs Hreg HS (fun x => pushforward K1 (DFx x) (fun a => d a x)) Hk1.
have E x : ip 3 exact_grad (val x) = dotv x p1 by rewrite (ip_tests Hs Hreg HS x Hp1).
exists p1 => // v; rewrite /residual E; congr (_ - _).
by rewrite (@ip_tests _ _ _ _ _ _ _ Hs Hreg S HS K0 (fun j => phi (qpt j))).
Qed.

(** the best possible constant always exists: it is the energy of the discrete response to the residual *)
Theorem C75_residual : exists2 delta, 0 <= delta & (forall v, residual v * residual v <= delta * ip 3 (val (Gr *m v)) (val (Gr *m v))) /\
  exists s, delta = ip 3 (val (Gr *m s)) (val (Gr *m s)) /\ residual s = delta.
Proof.
have HA := dirichlet_spd Hs Hreg HS Hd.
have [p1 _ E] := functional; pose p := Gr^T *m p1 - Projector0 S (fun j => phi (qpt j)).
have E' v : residual v = dotv v p by rewrite E dotv_adj.
pose s := solve (M0 S *m dd0 S) p.
have Es v : form (M0 S *m dd0 S) v s = residual v by rewrite E'; exact: (proj2 (form_solve p v (proj1 HA) (spd_unit HA))).
exists (form (M0 S *m dd0 S) s s); first exact: spd_ge0.
split=> [v|]; last by exists s; rewrite -(stiffness Hs Hreg HS) Es.
rewrite -(stiffness Hs Hreg HS) -!Es mulrC -expr2 [X in _ <= X]mulrC; exact: spd_CS.
Qed.

(** the error of the computed gradient exceeds the error of any other discrete gradient by at most the residual *)
Theorem C75_strang : forall delta, 0 <= delta ->
  (forall v, residual v * residual v <= delta * ip 3 (val (Gr *m v)) (val (Gr *m v))) ->
  forall y, grad_err uh <= grad_err y + delta.
Proof.
move=> delta H0 Hdef y; have HA := dirichlet_spd Hs Hreg HS Hd.
have [p1 E1 E] := functional.
have Eerr w : grad_err w = ip 3 exact_grad exact_grad - 2%:R * dotv (Gr *m w) p1 + form (M0 S *m dd0 S) w w by rewrite /grad_err ip_sub E1 -(stiffness Hs Hreg HS).
have Hsol : M0 S *m dd0 S *m uh = Projector0 S (fun j => phi (qpt j)) by rewrite /poisson_primal /solve mulKVmx ?(spd_unit HA).
rewrite !Eerr; apply: (strang _ _ HA Hsol H0) => v; rewrite -E (stiffness Hs Hreg HS); exact: Hdef.
Qed.

(** convergence of the gradient: first order in the mesh size, up to the residual of the exact solution in the discrete
    weak form (quadrature error of the source and of the metric) *)
Variable C : R.
Hypothesis HC0 : 0 <= C.
Hypothesis HC : forall j e, (j < npts)%N ->
  \sum_(a < 3) pushforward K1 (DFx (qpt j)) e a * pushforward K1 (DFx (qpt j)) e a <= C * \sum_(c < 3) e c * e c.
Theorem C75_poisson : forall delta, 0 <= delta ->
  (forall v, residual v * residual v <= delta * ip 3 (val (Gr *m v)) (val (Gr *m v))) ->
  grad_err uh <= C * (\sum_(a < 3) mesh (L a) * mesh (L a)) * volume ns ps q types DFx + delta.
Proof.
move=> delta H0 Hdef; have [y Hy] := C75_grad Hu (fun _ => Hbc).
apply: le_trans (C75_strang H0 Hdef y) _; apply: ler_add => //.
have [En Ew [_ _ HO _]] := seq_summary' Hs Hreg HS.
rewrite /grad_err /SequenceR.phys_l2 /volume mulr_sumr; apply: ler_sum => j _.
have Hj : (j < n_q S)%N by rewrite En; exact: ltn_ord.
have [HJ Hw] := HO _ Hj; rewrite Ew in Hw.
apply: ler_wpmul2r; first exact: mulr_ge0 (ltW Hw) (ltW HJ).
under eq_bigr => a _ do rewrite (push_sub K1).
apply: le_trans (HC _ (ltn_ord j)) _; apply: ler_wpmul2l => //; apply: ler_sum => c _.
have Hin : List.In (qpt j) (seq_points ns ps q types) by apply: List.nth_In; apply/ssrnat.ltP; exact: ltn_ord.
have Hr : resolved ns ps q types by move: Hs; case: (ns) => [[? ?] ?] [].
have := point_off Hr Hin; case: (qpt j) => [[x0 x1] x2] Hoff.
have [K0' [K1' K2']] : (Rlt 0 x0 /\ Rlt x0 1) /\ (Rlt 0 x1 /\ Rlt x1 1) /\ (Rlt 0 x2 /\ Rlt x2 1).
  by move: Hoff; rewrite /off_knots; case: (ns) => [[? ?] ?]; case: (ps) => [[? ?] ?] [].
have cl x : Rlt 0 x /\ Rlt x 1 -> half01 x by rewrite /half01; lra.
apply/RleE; apply: sq_bound.
by have [_ F] := Hy x0 x1 x2 (cl _ K0') (cl _ K1') (cl _ K2'); exact: F.
Qed.
End Poisson.
End Seq.

(** a hollow Dirichlet sequence, u = r (1 - r), f = 2, identity map *)
Section Example1.
Local Open Scope R_scope.
Definition u_ex (x : point) : R := x.1.1 * (1 - x.1.1).
Definition d_ex (a : nat) (x : point) : R := if a == 0%N then 1 - 2 * x.1.1 else 0.
Definition L_ex (a : nat) : R * R * R := if a == 0%N then (2, 0, 0) else (0, 0, 0).
Lemma smooth_ex : smooth11 u_ex (1, 0, 0) d_ex L_ex.
Proof.
split.
- split; try lra; move=> r t z r' t' z' Hr Hr'; rewrite /u_ex /=.
  have -> : r * (1 - r) - r' * (1 - r') = (1 - r - r') * (r - r') by ring.
  rewrite Rabs_mult; have A : Rabs (1 - r - r') <= 1 by apply: Rabs_le; lra.
  have := Rmult_le_compat_r _ _ _ (Rabs_pos (r - r')) A; lra.
- by [].
- move=> [|[|[|a]]] // r t z _ _; rewrite /is_partial /u_ex /d_ex /=.
  + by auto_derive => //; ring.
  + by auto_derive => //; ring.
  + by auto_derive => //; ring.
- move=> [|[|[|a]]] // _; split=> //; rewrite /L_ex /d_ex /=; split; try lra; move=> r t z r' t' z' _ _ /=.
  + have -> : 1 - 2 * r - (1 - 2 * r') = 2 * (r' - r) by ring.
    by rewrite Rabs_mult (Rabs_pos_eq 2); [rewrite (Rabs_minus_sym r r'); lra | lra].
  + by rewrite Rminus_eq_0 Rabs_R0; lra.
  + by rewrite Rminus_eq_0 Rabs_R0; lra.
Qed.
Lemma mesh_ex : mesh_err (8, 8, 6)%N (3, 2, 2)%N (L_ex 0) = 8 / 5 /\ mesh_err (8, 8, 6)%N (3, 2, 2)%N (L_ex 1) = 0 /\ mesh_err (8, 8, 6)%N (3, 2, 2)%N (L_ex 2) = 0.
Proof. by rewrite /mesh_err /L_ex /=; lra. Qed.
End Example1.
Lemma push1_id e : \sum_(a < 3) pushforward K1 id33 e a * pushforward K1 id33 e a <= 1 * \sum_(c < 3) e c * e c.
Proof.
have D : det33 id33 = 1 :> R_realFieldType by rewrite /det33 /id33 /= !mulr0 !mulr1 !addr0 !subr0.
have HD : (10%:R ^+ 10)^-1 <= `|det33 (id33 : mat3 R_realFieldType)|.
  by rewrite D normr1 invf_le1 ?exprn_gt0 ?ltr0n // exprn_ege1 // ler1n.
have I k l : (k < 3)%N -> (l < 3)%N -> inv33 id33 k l = (k == l)%:R :> R_realFieldType.
  move=> Hk Hl; rewrite -(inv33_right HD Hk Hl) /id33.
  by case: k Hk => [|[|[|k]]] // _; rewrite !big_ord_recl big_ord0 /= ?mul0r ?mul1r ?add0r ?addr0.
rewrite mul1r; apply: ler_sum => a _; rewrite /pushforward /mulv3 /tr33.
case: a => [[|[|[|a]]] Ha] //=; rewrite !big_ord_recl big_ord0 /= !I //= ?mul0r ?mul1r ?add0r ?addr0; exact: lexx.
Qed.
Notation ns_ex := (8, 8, 6)%N (only parsing). Notation ps_ex := (3, 2, 2)%N (only parsing).
Notation ty_ex := (Clamped, Periodic, Periodic) (only parsing).
Example C75_nonvacuous : exists S : drseq R_realFieldType,
  [/\ new_sequence ns_ex ps_ex 5 ty_ex (fun _ => id33) false true = Some S,
      exists y : 'cV_(rk S K0), forall x0 x1 x2, half01 x0 -> half01 x1 -> half01 x2 ->
        Rle (Rabs (Rminus (Rminus 1 (Rmult 2 x0)) (discrete_form ns_ex ps_ex ty_ex (strong_grad S *m y) 0 (x0, x1, x2)))) (Rdiv 8 5) /\
        discrete_form ns_ex ps_ex ty_ex (strong_grad S *m y) 1 (x0, x1, x2) = R0,
      exists delta, 0 <= delta /\ (forall v : 'cV_(rk S K0), residual ns_ex ps_ex 5 ty_ex (fun _ => id33) (fun _ _ => 2%:R) d_ex v * residual ns_ex ps_ex 5 ty_ex (fun _ => id33) (fun _ _ => 2%:R) d_ex v
          <= delta * phys_l2 ns_ex ps_ex 5 ty_ex (fun _ => id33) 3 (phys ns_ex ps_ex 5 ty_ex (fun _ => id33) (strong_grad S *m v)) (phys ns_ex ps_ex 5 ty_ex (fun _ => id33) (strong_grad S *m v))) /\
        grad_err ns_ex ps_ex 5 ty_ex (fun _ => id33) d_ex (poisson_primal S (fun _ _ => 2%:R))
          <= 1 * (Rmult (Rdiv 8 5) (Rdiv 8 5)) * volume ns_ex ps_ex 5 ty_ex (fun _ => id33) + delta,
      exists y : 'cV_(rk S K1), strong_div S *m (strong_curl S *m y) = 0 /\ forall x0 x1 x2, half01 x0 -> half01 x1 -> half01 x2 ->
        Rle (Rabs (Rminus (Ropp (Rminus 1 (Rmult 2 x0))) (discrete_form ns_ex ps_ex ty_ex (strong_curl S *m y) 1 (x0, x1, x2)))) (Rdiv 8 5)
    & exists y : 'cV_(rk S K2), forall x0 x1 x2, half01 x0 -> half01 x1 -> half01 x2 ->
        Rle (Rabs (Rminus (Rminus 1 (Rmult 2 x0)) (discrete_form ns_ex ps_ex ty_ex (strong_div S *m y) 0 (x0, x1, x2)))) (Rdiv 8 5)].
Proof.
have [_ H2 H3 _ _] := SequenceR_nonvacuous.
have H2' : supported (8, 8, 6)%N (3, 2, 2)%N 5 (Clamped, Periodic, Periodic) false true by case: H2 => A _; split.
have [S HS] := C26_constructor_total H2' (H3 _); exists S.
have [e0 [e1 e2]] := mesh_ex.
have bc t z : u_ex (R1, t, z) = R0 /\ u_ex (R0, t, z) = R0 by rewrite /u_ex /=; split; ring.
have zero : smooth11 (fun _ => R0) (R0, R0, R0) (fun _ _ => R0) (fun _ => (R0, R0, R0)).
  have L0 : lipschitz (R0, R0, R0) (fun _ => R0).
    split; try lra; move=> r t z r' t' z' _ _; rewrite Rminus_eq_0 Rabs_R0 !Rmult_0_l !Rplus_0_l; exact: Rle_refl.
  split=> // a r t z _ _; rewrite /is_partial; exact: is_derive_const.
have m0 : mesh_err (8, 8, 6)%N (3, 2, 2)%N (R0, R0, R0) = R0 by rewrite /mesh_err !Rmult_0_l !Rplus_0_l.
split=> //.
- have [y Hy] := C75_grad H2' (H3 _) HS smooth_ex (fun _ => bc); exists y => x0 x1 x2 A B C.
  have [_ F] := Hy x0 x1 x2 A B C; split; first by rewrite -e0; exact: (F 0%N isT).
  have := F 1%N isT; rewrite e1 /d_ex /=; set w := discrete_form _ _ _ _ _ _ => Q.
  have P := Rabs_pos (Rminus 0 w); have E : Rabs (Rminus 0 w) = 0%R by exact: (Rle_antisym _ _ Q P).
  have := Rabs_eq_0 _ E; lra.
- have [delta D0 [D1 _]] := C75_residual H2' (H3 _) HS isT (fun _ _ => 2%:R) d_ex.
  exists delta; split=> //; split=> //.
  have F := C75_poisson H2' (H3 _) HS isT smooth_ex bc (C := 1) ler01 (fun j e _ => push1_id e) D0 D1.
  apply: le_trans F _; rewrite ler_add2r; apply: ler_wpmul2r; last first.
    apply: ler_wpmul2l; first exact: ler01.
    rewrite (sum3E (F := R_realFieldType) (fun a => mesh_err (8, 8, 6)%N (3, 2, 2)%N (L_ex a) * mesh_err (8, 8, 6)%N (3, 2, 2)%N (L_ex a))) e0 e1.
    have -> : (IZR 0 * IZR 0 = 0 :> R)%R by exact: mulr0.
    by rewrite !addr0.
  have [En Ew [_ _ HO _]] := seq_summary' H2' (H3 _) HS.
  apply: sumr_ge0 => j _; have Hj : (j < n_q S)%N by rewrite En; exact: ltn_ord.
  by have [HJ Hw] := HO _ Hj; rewrite Ew in Hw; exact: mulr_ge0 (ltW Hw) (ltW HJ).
- pose v (c : nat) := if c == 2%N then u_ex else (fun _ => R0).
  pose d (c : nat) := if c == 2%N then d_ex else (fun _ _ => R0).
  pose L (c : nat) := if c == 2%N then L_ex else (fun _ => (R0, R0, R0)).
  have sm c : (c < 3)%N -> smooth11 (v c) (if c == 2%N then (R1, R0, R0) else (R0, R0, R0)) (d c) (L c).
    by move=> _; rewrite /v /d /L; case: (c == 2%N) => //; exact: smooth_ex.
  have bc' : true -> forall c t z, (0 < c < 3)%N -> v c (R1, t, z) = 0 /\ v c (R0, t, z) = 0.
    by move=> _ c t z _; rewrite /v; case: (c == 2%N) => //; exact: bc.
  have [y [Hy F]] := C75_curl H2' (H3 _) HS sm bc'; exists y; split=> // x0 x1 x2 A B C.
  have [_ Q] := F 1%N x0 x1 x2 isT A B C; have E : Ropp (Rminus 1 (Rmult 2 x0)) = Rminus (d 0%N 2%N (x0, x1, x2)) (d 2%N 0%N (x0, x1, x2)) by rewrite /d /d_ex /=; ring.
  rewrite E; apply: Rle_trans Q _.
  change (Rle (Rplus (mesh_err (8, 8, 6)%N (3, 2, 2)%N (R0, R0, R0)) (mesh_err (8, 8, 6)%N (3, 2, 2)%N (L_ex 0))) (Rdiv 8 5)).
  by rewrite m0 e0 Rplus_0_l; exact: Rle_refl.
- pose v (c : nat) := if c == 0%N then u_ex else (fun _ => R0).
  pose d (c : nat) := if c == 0%N then d_ex else (fun _ _ => R0).
  pose L (c : nat) := if c == 0%N then L_ex else (fun _ => (R0, R0, R0)).
  have sm c : (c < 3)%N -> smooth11 (v c) (if c == 0%N then (R1, R0, R0) else (R0, R0, R0)) (d c) (L c).
    by move=> _; rewrite /v /d /L; case: (c == 0%N) => //; exact: smooth_ex.
  have [y F] := C75_div H2' (H3 _) HS sm (fun _ => bc); exists y => x0 x1 x2 A B C.
  have [_ Q] := F x0 x1 x2 A B C; have E : Rminus 1 (Rmult 2 x0) = Rplus (Rplus (d 0%N 0%N (x0, x1, x2)) (d 1%N 1%N (x0, x1, x2))) (d 2%N 2%N (x0, x1, x2)) by rewrite /d /d_ex /=; ring.
  rewrite E; apply: Rle_trans Q _.
  change (Rle (Rplus (Rplus (mesh_err (8, 8, 6)%N (3, 2, 2)%N (L_ex 0)) (mesh_err (8, 8, 6)%N (3, 2, 2)%N (R0, R0, R0))) (mesh_err (8, 8, 6)%N (3, 2, 2)%N (R0, R0, R0))) (Rdiv 8 5)).
  by rewrite m0 e0 !Rplus_0_r; exact: Rle_refl.
Qed.
Print Assumptions C75_grad.
Print Assumptions C75_curl.
Print Assumptions C75_div.
Print Assumptions C75_residual.
Print Assumptions C75_strang.
Print Assumptions C75_poisson.
Print Assumptions C75_nonvacuous.
