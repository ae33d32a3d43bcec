(** Property theorems C78: the integral theorems on every coordinate segment, rectangle and box of the logical
    cube, whether or not it is aligned with the mesh. *)
From Coq Require Import Reals Lra.
From Coquelicot Require Import Coquelicot.
From mathcomp Require Import all_ssreflect all_algebra zify.
From Verif Require Import Model.RBase Model.Spline Model.Quad Model.Forms Model.DeRham Model.FormEval Model.Geometry Model.SeqR Model.Relaxation.
From Verif Require Import Spec.Cochain Spec.PolarSpace Spec.SeqSpec Spec.FormSpec Spec.GeomSpec Spec.SeqRSpec Spec.CalculusSpec Spec.SmoothSpec Spec.SegSpec Spec.RelaxSpec.
From Verif Require Import Proof.RField Proof.MCRing Proof.IndexLemmas Proof.SplineInt Proof.FormEvalProofs Proof.GeometryProofs Proof.SeqRProofs Proof.SeqDeriv Proof.SeqCalculus Proof.SeqSmooth Proof.SeqFlux Proof.SeqSeg
  Spec.FluxSpec Props.SequenceR Props.Relaxation Props.Flux.
Set Implicit Arguments.
Unset Strict Implicit.
Unset Printing Implicit Defensive.
Import Order.TTheory GRing.Theory Num.Theory.
Local Open Scope ring_scope.

(** the integrals are unique *)
Theorem C78_unique : forall f g p0 p1 q0 q1 s0 s1 v w, Rle q0 q1 -> Rle s0 s1 ->
  (int2_on f p0 p1 q0 q1 v -> int2_on f p0 p1 q0 q1 w -> v = w) /\
  (int3_on g p0 p1 q0 q1 s0 s1 v -> int3_on g p0 p1 q0 q1 s0 s1 w -> v = w).
Proof. by move=> *; split; [apply: rect_unique | apply: box_unique]. Qed.
Theorem C78_unique_boundary : forall f g p0 p1 q0 q1 b r0 r1 t0 t1 z0 z1 v w, sub01 r0 r1 -> sub01 t0 t1 -> sub01 z0 z1 ->
  (circulation f g p0 p1 q0 q1 v -> circulation f g p0 p1 q0 q1 w -> v = w) /\
  (outflux b r0 r1 t0 t1 z0 z1 v -> outflux b r0 r1 t0 t1 z0 z1 w -> v = w).
Proof.
move=> f g p0 p1 q0 q1 b r0 r1 t0 t1 z0 z1 v w [_ [Hr _]] [_ [Ht _]] [_ [Hz _]]; split.
- move=> [x1 [x2 [x3 [x4 [[A1 A2] [[A3 A4] ->]]]]]] [y1 [y2 [y3 [y4 [[B1 B2] [[B3 B4] ->]]]]]].
  by rewrite (seg_unique A1 B1) (seg_unique A2 B2) (seg_unique A3 B3) (seg_unique A4 B4).
- move=> [x1 [x2 [x3 [x4 [x5 [x6 [[A1 A2] [[A3 A4] [[A5 A6] ->]]]]]]]]] [y1 [y2 [y3 [y4 [y5 [y6 [[B1 B2] [[B3 B4] [[B5 B6] ->]]]]]]]]].
  by rewrite (rect_unique Hz A1 B1) (rect_unique Hz A2 B2) (rect_unique Hr A3 B3) (rect_unique Hr A4 B4) (rect_unique Ht A5 B5) (rect_unique Ht A6 B6).
Qed.

Section Seq.
Variables (ns ps : triple) (q : nat) (types : stype * stype * stype) (DFx : point -> mat3 R_realFieldType)
  (polar dirichlet : bool).
Hypothesis Hs : supported ns ps q types polar dirichlet.
Hypothesis Hreg : regular_map DFx (seq_points ns ps q types).
Variable S : drseq R_realFieldType.
Hypothesis HS : new_sequence ns ps q types DFx polar dirichlet = Some S.
Notation field y := (fun c => discrete_form ns ps types y c).
Notation n0 := ns.1.1.
Notation n1 := ns.1.2.
Notation n2 := ns.2.

Lemma Hres' : resolved ns ps q types.
Proof. by move: Hs; case: ns => [[a b] c] []. Qed.
Lemma grad_coefs (y : 'cV_(rk S K0)) c i j l : (c < 3)%N -> (i < (if c == 0%N then n0.-1 else n0))%N -> (j < n1)%N -> (l < n2)%N ->
  coefs S K1 (strong_grad S *m y) c i j l = cgrad n1 n2 (coefs S K0 y) c i j l.
Proof.
move=> Hc Hi Hj Hl; have [H _ _] := E_incidence Hs Hreg HS; apply: H => //.
rewrite (seq_sh Hs Hreg HS); move: Hc Hi; case: c => [|[|[|c]]] //= _ Hi.
all: by rewrite /in_comp /cshape /= /dr /dt /dz /= ?subn0 ?subn1; apply/and3P.
Qed.
Lemma div_coefs (b : 'cV_(rk S K2)) i j l : (i < n0.-1)%N -> (j < n1)%N -> (l < n2)%N ->
  coefs S K3 (strong_div S *m b) 0%N i j l = cdiv n1 n2 (coefs S K2 b) 0%N i j l.
Proof.
move=> Hi Hj Hl; have [_ _ H] := E_incidence Hs Hreg HS; apply: H => //.
by rewrite (seq_sh Hs Hreg HS) /in_comp /cshape /= /dr /dt /dz /= ?subn0 ?subn1; apply/and3P.
Qed.
Lemma S3_eq N M P (u u' : nat -> nat -> nat -> R) (A B C : nat -> R) :
  (forall i j l, (i < N)%N -> (j < M)%N -> (l < P)%N -> u i j l = u' i j l) ->
  \sum_(i < N) \sum_(j < M) \sum_(l < P) u i j l * (A i * B j * C l) = \sum_(i < N) \sum_(j < M) \sum_(l < P) u' i j l * (A i * B j * C l).
Proof. by move=> H; apply: eq_bigr => i _; apply: eq_bigr => j _; apply: eq_bigr => l _; rewrite H. Qed.
Lemma val_eq (f : R -> R) a b (v w : R) : is_RInt f a b v -> v = w -> is_RInt f a b w.
Proof. by move=> H <-. Qed.

(** ** the line integral of a gradient along any coordinate segment is the difference of the potential *)
Theorem C78_gradient : forall (y : 'cV_(rk S K0)) a b, sub01 a b -> forall r t z : R,
  [/\ is_RInt (fun x => field (strong_grad S *m y) 0%N (x, t, z)) a b (Rminus (field y 0%N (b, t, z)) (field y 0%N (a, t, z))),
      is_RInt (fun x => field (strong_grad S *m y) 1%N (r, x, z)) a b (Rminus (field y 0%N (r, b, z)) (field y 0%N (r, a, z)))
    & is_RInt (fun x => field (strong_grad S *m y) 2%N (r, t, x)) a b (Rminus (field y 0%N (r, t, b)) (field y 0%N (r, t, a)))].
Proof.
move=> y a b Hab r t z; have [l0 [l1 [l2 [d0 [d1 [d2 SS]]]]]] := resolved_seg Hres'; have HD := ss_form SS.
have [Ir [Wr Er]] := ss_r SS Hab; have [It [Wt Et]] := ss_t SS Hab; have [Iz [Wz Ez]] := ss_z SS Hab.
rewrite !(f0 Hs Hreg HS HD) !RminusE; split.
- rewrite -(ends_r n1 n2 (coefs S K0 y 0%N) (evaluate l1 t) (evaluate l2 z) Er).
  apply: seg_ext' (along_r _ _ _ _ _ _ _ _ _ _ Wr) => x.
  by have [-> _ _] := f1 Hs Hreg HS HD (strong_grad S *m y) x t z; apply: S3_eq => i j l Hi Hj Hl; rewrite grad_coefs.
- rewrite -(ends_t n0 n2 (coefs S K0 y 0%N) (evaluate l0 r) (evaluate l2 z) Et).
  apply: seg_ext' (along_t _ _ _ _ _ _ _ _ _ _ Wt) => x.
  by have [_ -> _] := f1 Hs Hreg HS HD (strong_grad S *m y) r x z; apply: S3_eq => i j l Hi Hj Hl; rewrite grad_coefs.
- rewrite -(ends_z n0 n1 (coefs S K0 y 0%N) (evaluate l0 r) (evaluate l1 t) Ez).
  apply: seg_ext' (along_z _ _ _ _ _ _ _ _ _ _ Wz) => x.
  by have [_ _ ->] := f1 Hs Hreg HS HD (strong_grad S *m y) r t x; apply: S3_eq => i j l Hi Hj Hl; rewrite grad_coefs.
Qed.

Lemma S3_sub N M P (u v : nat -> nat -> nat -> R) (A B C : nat -> R) :
  \sum_(i < N) \sum_(j < M) \sum_(l < P) (u i j l - v i j l) * (A i * B j * C l)
  = \sum_(i < N) \sum_(j < M) \sum_(l < P) u i j l * (A i * B j * C l) - \sum_(i < N) \sum_(j < M) \sum_(l < P) v i j l * (A i * B j * C l).
Proof. by rewrite -sumrB; apply: eq_bigr => i _; rewrite -sumrB; apply: eq_bigr => j _; rewrite -sumrB; apply: eq_bigr => l _; rewrite mulrBl. Qed.
Lemma S3_add N M P (u v : nat -> nat -> nat -> R) (A B C : nat -> R) :
  \sum_(i < N) \sum_(j < M) \sum_(l < P) (u i j l + v i j l) * (A i * B j * C l)
  = \sum_(i < N) \sum_(j < M) \sum_(l < P) u i j l * (A i * B j * C l) + \sum_(i < N) \sum_(j < M) \sum_(l < P) v i j l * (A i * B j * C l).
Proof. by rewrite -big_split; apply: eq_bigr => i _; rewrite -big_split; apply: eq_bigr => j _; rewrite -big_split; apply: eq_bigr => l _; rewrite mulrDl. Qed.

Lemma shuffle (x y s w : [zmodType of R]) : x - y - (s - w) = w + x - s - y.
Proof. by rewrite opprB addrACA [x + w]addrC [- y - s]addrC addrA. Qed.
(** ** Stokes: the flux of a curl through any coordinate rectangle is the circulation around its boundary *)
Theorem C78_stokes : forall (a : 'cV_(rk S K1)) r0 r1 t0 t1 z0 z1, sub01 r0 r1 -> sub01 t0 t1 -> sub01 z0 z1 -> forall r t z : R,
  let c := strong_curl S *m a in
  [/\ exists v, int2_on (fun t z => field c 0%N (r, t, z)) t0 t1 z0 z1 v /\
        circulation (fun t z => field a 1%N (r, t, z)) (fun t z => field a 2%N (r, t, z)) t0 t1 z0 z1 v,
      exists v, int2_on (fun z r => field c 1%N (r, t, z)) z0 z1 r0 r1 v /\
        circulation (fun z r => field a 2%N (r, t, z)) (fun z r => field a 0%N (r, t, z)) z0 z1 r0 r1 v
    & exists v, int2_on (fun r t => field c 2%N (r, t, z)) r0 r1 t0 t1 v /\
        circulation (fun r t => field a 0%N (r, t, z)) (fun r t => field a 1%N (r, t, z)) r0 r1 t0 t1 v].
Proof.
move=> a r0 r1 t0 t1 z0 z1 Hr Ht Hz r t z /=; have [l0 [l1 [l2 [d0 [d1 [d2 SS]]]]]] := resolved_seg Hres'; have HD := ss_form SS.
have [Ir [Wr Er]] := ss_r SS Hr; have [It [Wt Et]] := ss_t SS Ht; have [Iz [Wz Ez]] := ss_z SS Hz.
have F0 x y s := let: And3 e _ _ := f1 Hs Hreg HS HD a x y s in e.
have F1 x y s := let: And3 _ e _ := f1 Hs Hreg HS HD a x y s in e.
have F2 x y s := let: And3 _ _ e := f1 Hs Hreg HS HD a x y s in e.
have G0 x y s := let: And3 e _ _ := f2 Hs Hreg HS HD (strong_curl S *m a) x y s in e.
have G1 x y s := let: And3 _ e _ := f2 Hs Hreg HS HD (strong_curl S *m a) x y s in e.
have G2 x y s := let: And3 _ _ e := f2 Hs Hreg HS HD (strong_curl S *m a) x y s in e.
split; eexists; split.
- by apply: rect_ext (rect_tz n0 (coefs S K2 (strong_curl S *m a) 0%N) Wt Wz (evaluate l0 r)) => x y; exact: G0.
- do 4! eexists; split; [split | split; [split | ]].
  + by apply: seg_ext' (along_t _ _ _ _ _ _ _ _ _ _ Wt) => x; exact: F1.
  + by apply: seg_ext' (along_z _ _ _ _ _ _ _ _ _ _ Wz) => x; exact: F2.
  + by apply: seg_ext' (along_t _ _ _ _ _ _ _ _ _ _ Wt) => x; exact: F1.
  + by apply: seg_ext' (along_z _ _ _ _ _ _ _ _ _ _ Wz) => x; exact: F2.
  + rewrite (@S3_eq _ _ _ _ (fun i j l => dt_ n1 (coefs S K1 a 2%N) i j l - dz_ n2 (coefs S K1 a 1%N) i j l)); last first.
      by move=> i j l Hi Hj Hl; rewrite (curl_coefs Hs Hreg HS).
    rewrite S3_sub (ends_t _ _ _ _ _ Et) (ends_z _ _ _ _ _ Ez) !RminusE !RplusE.
    exact: shuffle.
- by apply: rect_ext (rect_zr n1 (coefs S K2 (strong_curl S *m a) 1%N) Wr Wz (evaluate l1 t)) => x y; exact: G1.
- do 4! eexists; split; [split | split; [split | ]].
  + by apply: seg_ext' (along_z _ _ _ _ _ _ _ _ _ _ Wz) => x; exact: F2.
  + by apply: seg_ext' (along_r _ _ _ _ _ _ _ _ _ _ Wr) => x; exact: F0.
  + by apply: seg_ext' (along_z _ _ _ _ _ _ _ _ _ _ Wz) => x; exact: F2.
  + by apply: seg_ext' (along_r _ _ _ _ _ _ _ _ _ _ Wr) => x; exact: F0.
  + rewrite (@S3_eq _ _ _ _ (fun i j l => dz_ n2 (coefs S K1 a 0%N) i j l - dr_ (coefs S K1 a 2%N) i j l)); last first.
      by move=> i j l Hi Hj Hl; rewrite (curl_coefs Hs Hreg HS).
    rewrite S3_sub (ends_z _ _ _ _ _ Ez) (ends_r _ _ _ _ _ Er) !RminusE !RplusE.
    exact: shuffle.
- by apply: rect_ext (rect_rt n2 (coefs S K2 (strong_curl S *m a) 2%N) Wr Wt (evaluate l2 z)) => x y; exact: G2.
- do 4! eexists; split; [split | split; [split | ]].
  + by apply: seg_ext' (along_r _ _ _ _ _ _ _ _ _ _ Wr) => x; exact: F0.
  + by apply: seg_ext' (along_t _ _ _ _ _ _ _ _ _ _ Wt) => x; exact: F1.
  + by apply: seg_ext' (along_r _ _ _ _ _ _ _ _ _ _ Wr) => x; exact: F0.
  + by apply: seg_ext' (along_t _ _ _ _ _ _ _ _ _ _ Wt) => x; exact: F1.
  + rewrite (@S3_eq _ _ _ _ (fun i j l => dr_ (coefs S K1 a 1%N) i j l - dt_ n1 (coefs S K1 a 0%N) i j l)); last first.
      by move=> i j l Hi Hj Hl; rewrite (curl_coefs Hs Hreg HS).
    rewrite S3_sub (ends_r _ _ _ _ _ Er) (ends_t _ _ _ _ _ Et) !RminusE !RplusE.
    exact: shuffle.
Qed.

(** ** Gauss: the flux out of any coordinate box is the integral of the divergence over it *)
Theorem C78_gauss : forall (b : 'cV_(rk S K2)) r0 r1 t0 t1 z0 z1, sub01 r0 r1 -> sub01 t0 t1 -> sub01 z0 z1 ->
  exists v, int3_on (fun r t z => field (strong_div S *m b) 0%N (r, t, z)) r0 r1 t0 t1 z0 z1 v /\ outflux (field b) r0 r1 t0 t1 z0 z1 v.
Proof.
move=> b r0 r1 t0 t1 z0 z1 Hr Ht Hz; have [l0 [l1 [l2 [d0 [d1 [d2 SS]]]]]] := resolved_seg Hres'; have HD := ss_form SS.
have [Ir [Wr Er]] := ss_r SS Hr; have [It [Wt Et]] := ss_t SS Ht; have [Iz [Wz Ez]] := ss_z SS Hz.
have G0 x y s := let: And3 e _ _ := f2 Hs Hreg HS HD b x y s in e.
have G1 x y s := let: And3 _ e _ := f2 Hs Hreg HS HD b x y s in e.
have G2 x y s := let: And3 _ _ e := f2 Hs Hreg HS HD b x y s in e.
eexists; split.
- by apply: box_ext (box_rtz (coefs S K3 (strong_div S *m b) 0%N) Wr Wt Wz) => x y s; rewrite (f3 Hs Hreg HS HD).
- do 6! eexists; split; [split | split; [split | split; [split |]]].
  + by apply: rect_ext (rect_tz n0 (coefs S K2 b 0%N) Wt Wz (evaluate l0 r0)) => x y; exact: G0.
  + by apply: rect_ext (rect_tz n0 (coefs S K2 b 0%N) Wt Wz (evaluate l0 r1)) => x y; exact: G0.
  + by apply: rect_ext (rect_zr n1 (coefs S K2 b 1%N) Wr Wz (evaluate l1 t0)) => x y; exact: G1.
  + by apply: rect_ext (rect_zr n1 (coefs S K2 b 1%N) Wr Wz (evaluate l1 t1)) => x y; exact: G1.
  + by apply: rect_ext (rect_rt n2 (coefs S K2 b 2%N) Wr Wt (evaluate l2 z0)) => x y; exact: G2.
  + by apply: rect_ext (rect_rt n2 (coefs S K2 b 2%N) Wr Wt (evaluate l2 z1)) => x y; exact: G2.
  + rewrite (@S3_eq _ _ _ _ (fun i j l => dr_ (coefs S K2 b 0%N) i j l + dt_ n1 (coefs S K2 b 1%N) i j l + dz_ n2 (coefs S K2 b 2%N) i j l)); last first.
      by move=> i j l Hi Hj Hl; rewrite div_coefs.
    rewrite (S3_add _ _ _ (fun i j l => dr_ (coefs S K2 b 0%N) i j l + dt_ n1 (coefs S K2 b 1%N) i j l) (dz_ n2 (coefs S K2 b 2%N))).
    by rewrite (S3_add _ _ _ (dr_ (coefs S K2 b 0%N)) (dt_ n1 (coefs S K2 b 1%N))) (ends_r _ _ _ _ _ Er) (ends_t _ _ _ _ _ Et) (ends_z _ _ _ _ _ Ez) !RminusE !RplusE.
Qed.
Lemma box_zero r0 r1 t0 t1 z0 z1 : int3_on (fun _ _ _ : R => R0) r0 r1 t0 t1 z0 z1 R0.
Proof.
have Z a b : is_RInt (fun _ : R => R0) a b R0 by have := is_RInt_const a b R0; rewrite /scal /= /mult /= Rmult_0_r.
by exists (fun _ => R0); split=> // s _; exists (fun _ => R0).
Qed.
Lemma field_zero k c x : discrete_form ns ps types (0 : 'cV_(rk S k)) c x = 0.
Proof.
rewrite /discrete_form; case: (DifferentialForm _ _ _ _) => [g|] //.
by rewrite trmx0 mul0mx; apply: big1 => i _; rewrite mxE mul0r.
Qed.
(** as much flux enters as leaves any box, for a divergence-free field *)
Theorem C78_solenoidal : forall b : 'cV_(rk S K2), strong_div S *m b = 0 -> forall r0 r1 t0 t1 z0 z1,
  sub01 r0 r1 -> sub01 t0 t1 -> sub01 z0 z1 -> outflux (field b) r0 r1 t0 t1 z0 z1 0.
Proof.
move=> b Hb r0 r1 t0 t1 z0 z1 Hr Ht Hz; have [v [H1 H2]] := C78_gauss b Hr Ht Hz.
have [_ [Lt _]] := Ht; have [_ [Lz _]] := Hz.
have E : v = 0 :> R; last by move: H2; rewrite E.
apply: (box_unique Lt Lz H1).
by apply: box_ext (box_zero _ _ _ _ _ _) => r t z; rewrite Hb field_zero.
Qed.
(** a curl-free field does no work around any rectangle *)
Theorem C78_irrotational : forall a : 'cV_(rk S K1), strong_curl S *m a = 0 -> forall r0 r1 t0 t1 z0 z1,
  sub01 r0 r1 -> sub01 t0 t1 -> sub01 z0 z1 -> forall r t z : R,
  [/\ circulation (fun t z => field a 1%N (r, t, z)) (fun t z => field a 2%N (r, t, z)) t0 t1 z0 z1 0,
      circulation (fun z r => field a 2%N (r, t, z)) (fun z r => field a 0%N (r, t, z)) z0 z1 r0 r1 0
    & circulation (fun r t => field a 0%N (r, t, z)) (fun r t => field a 1%N (r, t, z)) r0 r1 t0 t1 0].
Proof.
move=> a Ha r0 r1 t0 t1 z0 z1 Hr Ht Hz r t z.
have [[v0 [A0 B0]] [v1 [A1 B1]] [v2 [A2 B2]]] := C78_stokes a Hr Ht Hz r t z.
have Z p0 p1 q0 q1 : int2_on (fun _ _ : R => R0) p0 p1 q0 q1 R0.
  have Z1 x y : is_RInt (fun _ : R => R0) x y R0 by have := is_RInt_const x y R0; rewrite /scal /= /mult /= Rmult_0_r.
  by exists (fun _ => R0).
have E f p0 p1 q0 q1 v : Rle q0 q1 -> (forall p q, f p q = R0) -> int2_on f p0 p1 q0 q1 v -> v = R0.
  by move=> Hq Hf H; apply: (rect_unique Hq H); apply: rect_ext (Z _ _ _ _).
have [_ [Lr _]] := Hr; have [_ [Lt _]] := Ht; have [_ [Lz _]] := Hz.
split; [move: B0; rewrite (E _ _ _ _ _ _ Lz _ A0) // | move: B1; rewrite (E _ _ _ _ _ _ Lr _ A1) // | move: B2; rewrite (E _ _ _ _ _ _ Lt _ A2) //].
all: by move=> x y; rewrite Ha field_zero.
Qed.

(** ** after any number of relaxation steps the field still has no net flux out of any box, whatever the faults *)
Theorem C78_relaxation : forall (pinv : 'M[R_realFieldType]_(rk S K3)), dd3 S *m pinv *m dd3 S = dd3 S ->
  forall (DF : nat -> mat3 R_realFieldType) lstsq fault (cfg : config R_realFieldType) (tr0 : trace S) (st0 : rstate S),
  divfree S (B_n st0) -> divfree S (B_guess st0) -> forall n r0 r1 t0 t1 z0 z1, sub01 r0 r1 -> sub01 t0 t1 -> sub01 z0 z1 ->
  outflux (field (B_n (state_at sqrt pinv DF lstsq fault cfg tr0 st0 n))) r0 r1 t0 t1 z0 z1 0.
Proof.
move=> pinv Hpinv DF lstsq fault cfg tr0 st0 H0 H1 n r0 r1 t0 t1 z0 z1 Hr Ht Hz.
apply: C78_solenoidal => //.
by have [Hd _] := C38_divergence_free sqrt DF lstsq fault cfg tr0 (C38_sequence_ok Hs Hreg HS Hpinv) H0 H1 n.
Qed.
End Seq.

(** the discretisation of the scripts: a divergence-free field with toroidal flux 1 and a box that is not aligned
    with its mesh (knots are multiples of 1/5 in r and of 1/8 in theta) *)
Example C78_nonvacuous : exists S : drseq R_realFieldType,
  new_sequence (8, 8, 1)%N (3, 3, 0)%N 4 (Clamped, Periodic, Constant) (fun _ => id33) true true = Some S /\
  exists b : 'cV_(rk S K2), let B c := discrete_form (8, 8, 1)%N (3, 3, 0)%N (Clamped, Periodic, Constant) b c in
    toroidal_flux B 0 1 /\ outflux B (/ 7)%R (/ 3)%R (/ 7)%R (/ 3)%R (/ 7)%R (/ 3)%R 0.
Proof.
have [H1 H2 H3 _ _] := SequenceR_nonvacuous.
have [S [S' [HS _ [b Hb Ft] _]]] := C68_nonvacuous; exists S; split=> //; exists b; split=> //.
have Hsub : sub01 (/ 7)%R (/ 3)%R by split; [lra | split; lra].
exact: (C78_solenoidal H1 (H3 _) HS Hb Hsub Hsub Hsub).
Qed.
Print Assumptions C78_unique.
Print Assumptions C78_unique_boundary.
Print Assumptions C78_gradient.
Print Assumptions C78_stokes.
Print Assumptions C78_gauss.
Print Assumptions C78_solenoidal.
Print Assumptions C78_irrotational.
Print Assumptions C78_relaxation.
