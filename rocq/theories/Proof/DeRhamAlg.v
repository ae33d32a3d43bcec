(** Consequences of exactness of the derivative getters on the extracted spaces:
    metric-free strong derivatives, complex, adjointness, Hodge Laplacians, Leray. *)
From Coq Require Import Ring Field.
From mathcomp Require Import all_ssreflect all_algebra.
From Verif Require Import Model.Forms Model.DeRham Proof.MCRing Proof.SequenceAlg.
Set Implicit Arguments.
Unset Strict Implicit.
Unset Printing Implicit Defensive.
Import Order.TTheory GRing.Theory Num.Theory.
Local Open Scope ring_scope.

Section Facts.
Variable F : realFieldType.
Variable S : drseq F.
Notation s := (sh S).
Notation T := (tb S).
Notation E0 := (E_ S K0).
Notation E1 := (E_ S K1).
Notation E2 := (E_ S K2).
Notation E3 := (E_ S K3).
Notation r0 := (rk S K0).
Notation r1 := (rk S K1).
Notation r2 := (rk S K2).
Notation r3 := (rk S K3).

(** the geometry is symmetric at every quadrature point *)
Definition sym_geom : Prop := forall j k m, (j < n_q S)%N -> (k < 3)%N -> (m < 3)%N ->
  G_jkl S j k m = G_jkl S j m k /\ G_inv_jkl S j k m = G_inv_jkl S j m k.

(** w > 0, J > 0 and metric and inverse metric positive semidefinite *)
Definition pos_geom : Prop := forall j, (j < n_q S)%N ->
  [/\ 0 <= w_j S j, 0 < J_j S j,
   (forall x : nat -> F, 0 <= \sum_(k < 3) \sum_(m < 3) x k * G_jkl S j k m * x m) &
   (forall x : nat -> F, 0 <= \sum_(k < 3) \sum_(m < 3) x k * G_inv_jkl S j k m * x m)].

Hypothesis Hsym : sym_geom.

Lemma M0_sym : (M0 S)^T = M0 S.
Proof. by rewrite /M0 !trmx_mul trmxK mulmxA assemble_tr. Qed.
Lemma M3_sym : (M3 S)^T = M3 S.
Proof. by rewrite /M3 !trmx_mul trmxK mulmxA assemble_tr. Qed.
Lemma M1_sym : (M1 S)^T = M1 S.
Proof.
rewrite /M1 !trmx_mul trmxK mulmxA assemble_tr; congr (_ *m _ *m _).
by apply: assemble_eqW => j k m Hj Hk Hm; rewrite /W1; have [_ ->] := Hsym Hj Hk Hm.
Qed.
Lemma M2_sym : (M2 S)^T = M2 S.
Proof.
rewrite /M2 !trmx_mul trmxK mulmxA assemble_tr; congr (_ *m _ *m _).
by apply: assemble_eqW => j k m Hj Hk Hm; rewrite /W2; have [-> _] := Hsym Hj Hk Hm.
Qed.

(** quadratic forms are quadratures of the squared pointwise norm *)
Lemma mass_quad n d (g : nat -> nat -> nat -> F) W r (E : 'M[F]_(r, n)) (x : 'cV_r) :
  bl (E *m assemble (n_q S) d g g W n n *m E^T) x x
  = \sum_(j < n_q S) \sum_(k < d) \sum_(m < d)
      evaluate_at_xq g (E^T *m x) j k * W j k m * evaluate_at_xq g (E^T *m x) j m.
Proof.
rewrite /bl !mulmxA -(mulmxA _ E^T x) -{2}[x]trmxK -trmx_mul assemble_row.
by apply: eq_bigr => j _; apply: eq_bigr => k _; apply: eq_bigr => m _; rewrite !fvalE trmx_mul trmxK.
Qed.

Section Psd.
Hypothesis Hpos : pos_geom.
Lemma M0_psd : psd (M0 S).
Proof.
split; first exact: M0_sym.
move=> x; rewrite -/(bl (M0 S) x x) mass_quad; apply: sumr_ge0 => j _.
have [Hw HJ _ _] := Hpos (ltn_ord j).
do 2 (rewrite big_ord_recl big_ord0 addr0); rewrite /W0 mulrAC.
by apply: mulr_ge0; [rewrite -expr2 sqr_ge0 | rewrite mulr_ge0 // ltW].
Qed.
Lemma M3_psd : psd (M3 S).
Proof.
split; first exact: M3_sym.
move=> x; rewrite -/(bl (M3 S) x x) mass_quad; apply: sumr_ge0 => j _.
have [Hw HJ _ _] := Hpos (ltn_ord j).
do 2 (rewrite big_ord_recl big_ord0 addr0); rewrite /W3 mulrAC.
by apply: mulr_ge0; [rewrite -expr2 sqr_ge0 | rewrite mulr_ge0 // ltW // invr_gt0].
Qed.
Lemma weighted_ge0 (A : nat -> nat -> F) (c : F) (x : nat -> F) : 0 <= c ->
  0 <= \sum_(k < 3) \sum_(m < 3) x k * A k m * x m ->
  0 <= \sum_(k < 3) \sum_(m < 3) x k * (A k m * c) * x m.
Proof.
move=> Hc H.
have -> : \sum_(k < 3) \sum_(m < 3) x k * (A k m * c) * x m
        = (\sum_(k < 3) \sum_(m < 3) x k * A k m * x m) * c.
  rewrite mulr_suml; apply: eq_bigr => k _; rewrite mulr_suml; apply: eq_bigr => m _.
  by rewrite mulrA -!mulrA; congr (_ * (_ * _)); rewrite mulrC.
exact: mulr_ge0.
Qed.
Lemma M1_psd : psd (M1 S).
Proof.
split; first exact: M1_sym.
move=> x; rewrite -/(bl (M1 S) x x) mass_quad; apply: sumr_ge0 => j _.
have [Hw HJ _ H] := Hpos (ltn_ord j).
apply: (@weighted_ge0 (G_inv_jkl S j) _ (evaluate_at_xq _ _ j)) => //.
by rewrite mulr_ge0 // ltW.
Qed.
Lemma M2_psd : psd (M2 S).
Proof.
split; first exact: M2_sym.
move=> x; rewrite -/(bl (M2 S) x x) mass_quad; apply: sumr_ge0 => j _.
have [Hw HJ H _] := Hpos (ltn_ord j).
apply: (@weighted_ge0 (G_jkl S j) _ (evaluate_at_xq _ _ j)) => //.
by rewrite mulr_ge0 // ltW // invr_gt0.
Qed.
End Psd.

(** exactness of the derivative getters on the extracted spaces *)
Definition exact0 (g : 'M[F]_(r1, r0)) : Prop := forall r j k, (k < 3)%N ->
  fval (get_d_Lambda_0 s T) (row r E0) j k = fval (get_Lambda_1 s T) (row r (g^T *m E1)) j k.
Definition exact1 (c : 'M[F]_(r2, r1)) : Prop := forall r j k, (k < 3)%N ->
  fval (get_d_Lambda_1 s T) (row r E1) j k = fval (get_Lambda_2 s T) (row r (c^T *m E2)) j k.
Definition exact2 (d : 'M[F]_(r3, r2)) : Prop := forall r j k, (k < 1)%N ->
  fval (get_d_Lambda_2 s T) (row r E2) j k = fval (get_Lambda_3 s T) (row r (d^T *m E3)) j k.

Variables (g : 'M[F]_(r1, r0)) (c : 'M[F]_(r2, r1)) (d : 'M[F]_(r3, r2)).
Hypotheses (Hg : exact0 g) (Hc : exact1 c) (Hd : exact2 d).

Lemma D0E : D0 S = M1 S *m g.
Proof.
rewrite /D0 /M1 (@assemble_congr _ _ _ _ _ _ (fdim s K1) _ _ _ (get_Lambda_1 s T) _ (get_Lambda_1 s T) _ _ E1 _ (g^T *m E1)) //.
by rewrite trmx_mul trmxK !mulmxA.
Qed.
Lemma D1E : D1 S = M2 S *m c.
Proof.
rewrite /D1 /M2 (@assemble_congr _ _ _ _ _ _ (fdim s K2) _ _ _ (get_Lambda_2 s T) _ (get_Lambda_2 s T) _ _ E2 _ (c^T *m E2)) //.
by rewrite trmx_mul trmxK !mulmxA.
Qed.
Lemma D2E : D2 S = M3 S *m d.
Proof.
rewrite /D2 /M3 (@assemble_congr _ _ _ _ _ _ (fdim s K3) _ _ _ (get_Lambda_3 s T) _ (get_Lambda_3 s T) _ _ E3 _ (d^T *m E3)) //.
by rewrite trmx_mul trmxK !mulmxA.
Qed.

Lemma strong_gradE : M1 S \in unitmx -> strong_grad S = g.
Proof. by move=> H; rewrite /strong_grad /solve D0E mulKmx. Qed.
Lemma strong_curlE : M2 S \in unitmx -> strong_curl S = c.
Proof. by move=> H; rewrite /strong_curl /solve D1E mulKmx. Qed.
Lemma strong_divE : M3 S \in unitmx -> strong_div S = d.
Proof. by move=> H; rewrite /strong_div /solve D2E mulKmx. Qed.

(** invertible mass matrices force independent extracted basis functions *)
Lemma mass_row_free r n (E : 'M[F]_(r, n)) (A : 'M[F]_n) : E *m A *m E^T \in unitmx -> row_free E.
Proof.
move=> H; apply/row_freeP; exists (A *m E^T *m invmx (E *m A *m E^T)).
by rewrite !mulmxA mulmxV.
Qed.

Lemma row_free0 m r n (X : 'M[F]_(m, r)) (E : 'M[F]_(r, n)) : row_free E -> X *m E = 0 -> X = 0.
Proof. by move=> H E0; apply: (row_free_inj H); rewrite E0 mul0mx. Qed.

(** *** invertible mass matrices *)
Hypotheses (U0 : M0 S \in unitmx) (U1 : M1 S \in unitmx) (U2 : M2 S \in unitmx) (U3 : M3 S \in unitmx).

Lemma M0_wdiv : M0 S *m weak_div S = - (g^T *m M1 S).
Proof.
rewrite /weak_div /solve M0_sym mulmxN mulKVmx // D0E trmx_mul M1_sym //.
Qed.
Lemma M1_wcurl : M1 S *m weak_curl S = c^T *m M2 S.
Proof. by rewrite /weak_curl /solve M1_sym // mulKVmx // D1E trmx_mul M2_sym. Qed.
Lemma M2_wgrad : M2 S *m weak_grad S = - (d^T *m M3 S).
Proof. by rewrite /weak_grad /solve M2_sym // mulmxN mulKVmx // D2E trmx_mul M3_sym. Qed.

Lemma trmxN n m (A : 'M[F]_(n, m)) : (- A)^T = - A^T.
Proof. by rewrite linearN. Qed.
Lemma adj_flip n m (A : 'M[F]_n) (B : 'M[F]_m) X (Y : 'M[F]_(m, n)) :
  A^T = A -> B^T = B -> A *m X = Y^T *m B -> B *m Y = X^T *m A.
Proof. by move=> HA HB E; have := congr1 trmx E; rewrite !trmx_mul trmxK HA HB => ->. Qed.
Lemma adj_flipN n m (A : 'M[F]_n) (B : 'M[F]_m) X (Y : 'M[F]_(m, n)) :
  A^T = A -> B^T = B -> A *m X = - (Y^T *m B) -> B *m Y = - (X^T *m A).
Proof.
move=> HA HB E; rewrite -[X in B *m X]opprK mulmxN; congr (- _).
by apply: adj_flip => //; rewrite E trmxN mulNmx.
Qed.
Lemma M1_g : M1 S *m g = - ((weak_div S)^T *m M0 S).
Proof. by apply: adj_flipN; [apply: M0_sym | apply: M1_sym | apply: M0_wdiv]. Qed.
Lemma M2_c : M2 S *m c = (weak_curl S)^T *m M1 S.
Proof. by apply: adj_flip; [apply: M1_sym | apply: M2_sym | apply: M1_wcurl]. Qed.
Lemma M3_d : M3 S *m d = - ((weak_grad S)^T *m M2 S).
Proof. by apply: adj_flipN; [apply: M2_sym | apply: M3_sym | apply: M2_wgrad]. Qed.

Lemma unit_inj n m (A : 'M[F]_n) (X Y : 'M[F]_(n, m)) : A \in unitmx -> A *m X = A *m Y -> X = Y.
Proof. by move=> HA E; rewrite -[X](mulKmx HA) E mulKmx. Qed.

Lemma wdiv_wcurl : c *m g = 0 -> weak_div S *m weak_curl S = 0.
Proof.
move=> H; apply: (unit_inj U0); rewrite mulmx0 mulmxA M0_wdiv mulNmx -mulmxA M1_wcurl.
by rewrite mulmxA -trmx_mul H trmx0 mul0mx oppr0.
Qed.
Lemma wcurl_wgrad : d *m c = 0 -> weak_curl S *m weak_grad S = 0.
Proof.
move=> H; apply: (unit_inj U1); rewrite mulmx0 mulmxA M1_wcurl -mulmxA M2_wgrad.
by rewrite mulmxN mulmxA -trmx_mul H trmx0 mul0mx oppr0.
Qed.

Lemma M0_dd0 : M0 S *m dd0 S = g^T *m M1 S *m g.
Proof.
rewrite /dd0 /solve mulKVmx // /M1.
rewrite (@assemble_congr _ _ _ _ (fdim s K1) _ (fdim s K1) _ _ _ (get_Lambda_1 s T) _ (get_Lambda_1 s T) _ _ (g^T *m E1) _ (g^T *m E1)) //.
by rewrite trmx_mul trmxK !mulmxA.
Qed.
Lemma M1_dd1 : M1 S *m dd1 S = c^T *m M2 S *m c + (weak_div S)^T *m M0 S *m weak_div S.
Proof.
rewrite /dd1 strong_gradE // mulmxBr {1}/solve mulKVmx // mulmxA M1_g mulNmx opprK; congr (_ + _).
rewrite /M2.
rewrite (@assemble_congr _ _ _ _ (fdim s K2) _ (fdim s K2) _ _ _ (get_Lambda_2 s T) _ (get_Lambda_2 s T) _ _ (c^T *m E2) _ (c^T *m E2)) //.
by rewrite trmx_mul trmxK !mulmxA.
Qed.
Lemma M2_dd2 : M2 S *m dd2 S = d^T *m M3 S *m d + (weak_curl S)^T *m M1 S *m weak_curl S.
Proof.
rewrite /dd2 strong_curlE // mulmxDr {1}/solve mulKVmx // mulmxA M2_c; congr (_ + _).
rewrite /M3.
rewrite (@assemble_congr _ _ _ _ (fdim s K3) _ (fdim s K3) _ _ _ (get_Lambda_3 s T) _ (get_Lambda_3 s T) _ _ (d^T *m E3) _ (d^T *m E3)) //.
by rewrite trmx_mul trmxK !mulmxA.
Qed.
Opaque M0 M1 M2 M3 weak_grad weak_div weak_curl.
Lemma M3_dd3 : M3 S *m dd3 S = (weak_grad S)^T *m M2 S *m weak_grad S.
Proof. by rewrite /dd3 strong_divE // mulNmx mulmxN mulmxA M3_d mulNmx opprK. Qed.

Lemma congr_sym n m (A : 'M[F]_n) (X : 'M[F]_(n, m)) : A^T = A -> (X^T *m A *m X)^T = X^T *m A *m X.
Proof. by move=> H; rewrite !trmx_mul trmxK H mulmxA. Qed.
Lemma bl_congr n m (A : 'M[F]_n) (X : 'M[F]_(n, m)) x : bl (X^T *m A *m X) x x = bl A (X *m x) (X *m x).
Proof. by rewrite /bl trmx_mul !mulmxA. Qed.

Lemma dd0_sym : (M0 S *m dd0 S)^T = M0 S *m dd0 S.
Proof. by rewrite M0_dd0 congr_sym // M1_sym. Qed.
Lemma dd1_sym : (M1 S *m dd1 S)^T = M1 S *m dd1 S.
Proof. by rewrite M1_dd1 linearD /= !congr_sym // ?M0_sym ?M2_sym. Qed.
Lemma dd2_sym : (M2 S *m dd2 S)^T = M2 S *m dd2 S.
Proof. by rewrite M2_dd2 linearD /= !congr_sym // ?M3_sym ?M1_sym. Qed.
Lemma dd3_sym : (M3 S *m dd3 S)^T = M3 S *m dd3 S.
Proof. by rewrite M3_dd3 congr_sym // M2_sym. Qed.

Lemma dd0_quad x : bl (M0 S *m dd0 S) x x = bl (M1 S) (g *m x) (g *m x).
Proof. by rewrite M0_dd0 bl_congr. Qed.
Lemma dd1_quad x : bl (M1 S *m dd1 S) x x
  = bl (M2 S) (c *m x) (c *m x) + bl (M0 S) (weak_div S *m x) (weak_div S *m x).
Proof. by rewrite M1_dd1 blDA !bl_congr. Qed.
Lemma dd2_quad x : bl (M2 S *m dd2 S) x x
  = bl (M3 S) (d *m x) (d *m x) + bl (M1 S) (weak_curl S *m x) (weak_curl S *m x).
Proof. by rewrite M2_dd2 blDA !bl_congr. Qed.
Lemma dd3_quad x : bl (M3 S *m dd3 S) x x = bl (M2 S) (weak_grad S *m x) (weak_grad S *m x).
Proof. by rewrite M3_dd3 bl_congr. Qed.

(** *** positive geometry *)
Hypothesis Hpos : pos_geom.

Lemma unit_pd n (A : 'M[F]_n) x : psd A -> A \in unitmx -> bl A x x = 0 -> x = 0.
Proof.
move=> HA HU H; apply: (unit_inj HU); rewrite mulmx0; exact: psd_null.
Qed.
Lemma bl0 n (A : 'M[F]_n) : bl A 0 0 = 0.
Proof. by rewrite /bl trmx0 mul0mx mul0mx mxE. Qed.
Lemma unit_pd_pos n (A : 'M[F]_n) x : psd A -> A \in unitmx -> x != 0 -> 0 < bl A x x.
Proof.
move=> HA HU H; rewrite lt_neqAle (proj2 HA x) andbT; apply: contra H => /eqP H.
by apply/eqP; apply: (unit_pd HA HU); rewrite -H.
Qed.

Lemma sum2_0 (a b : F) : 0 <= a -> 0 <= b -> (a + b == 0) = (a == 0) && (b == 0).
Proof. exact: paddr_eq0. Qed.

Lemma psd_quad0 n (A : 'M[F]_n) x : psd A -> A \in unitmx -> (bl A x x = 0 <-> x = 0).
Proof. by move=> HA HU; split=> [|->]; [apply: unit_pd | apply: bl0]. Qed.

Lemma dd0_kernel x : bl (M0 S *m dd0 S) x x = 0 <-> g *m x = 0.
Proof. by rewrite dd0_quad; apply: (psd_quad0 _ (M1_psd Hpos) U1). Qed.
Lemma dd1_kernel x : bl (M1 S *m dd1 S) x x = 0 <-> c *m x = 0 /\ weak_div S *m x = 0.
Proof.
rewrite dd1_quad; split.
- move/eqP; rewrite sum2_0 ?(proj2 (M2_psd Hpos)) ?(proj2 (M0_psd Hpos)) // => /andP [/eqP H1 /eqP H2].
  by split; [apply: (unit_pd (M2_psd Hpos)) | apply: (unit_pd (M0_psd Hpos))].
- by move=> [-> ->]; rewrite !bl0 addr0.
Qed.
Lemma dd2_kernel x : bl (M2 S *m dd2 S) x x = 0 <-> d *m x = 0 /\ weak_curl S *m x = 0.
Proof.
rewrite dd2_quad; split.
- move/eqP; rewrite sum2_0 ?(proj2 (M3_psd Hpos)) ?(proj2 (M1_psd Hpos)) // => /andP [/eqP H1 /eqP H2].
  by split; [apply: (unit_pd (M3_psd Hpos)) | apply: (unit_pd (M1_psd Hpos))].
- by move=> [-> ->]; rewrite !bl0 addr0.
Qed.
Lemma dd3_kernel x : bl (M3 S *m dd3 S) x x = 0 <-> weak_grad S *m x = 0.
Proof. by rewrite dd3_quad; apply: (psd_quad0 _ (M2_psd Hpos) U2). Qed.

(** *** Leray projection *)
Variable pinv : 'M[F]_r3.
Hypothesis Hpinv : dd3 S *m pinv *m dd3 S = dd3 S.
Notation P := (P_Leray S pinv).

Lemma psd_congr0 n m (A : 'M[F]_n) (X : 'M[F]_(n, m)) :
  psd A -> A \in unitmx -> X^T *m A *m X = 0 -> X = 0.
Proof.
move=> HA HU H; apply/matrixP => i j.
have E : bl A (col j X) (col j X) = (X^T *m A *m X) j j.
  rewrite /bl tr_col -row_mul !mxE; apply: eq_bigr => k _; rewrite !mxE.
  by congr (_ * _).
have : col j X = 0 by apply: (unit_pd HA HU); rewrite E H mxE.
by move/colP/(_ i); rewrite !mxE.
Qed.

Lemma dd3_def : dd3 S = invmx (M3 S) *m ((weak_grad S)^T *m M2 S *m weak_grad S).
Proof. by rewrite -M3_dd3 mulKmx. Qed.

(** column space of div is contained in that of dd3 *)
Lemma div_range : exists Z : 'M[F]_(r3, r2), d = dd3 S *m Z.
Proof.
have H : (d^T <= (dd3 S)^T)%MS.
  rewrite submxE; apply/eqP.
  move: (cokermx _) (mulmx_coker (dd3 S)^T) => K HK.
  have E : (dd3 S)^T = (weak_grad S)^T *m M2 S *m weak_grad S *m invmx (M3 S).
    by rewrite dd3_def trmx_mul trmx_inv M3_sym congr_sym // M2_sym.
  rewrite E -(mulmxA _ (invmx _) K) in HK; set X := invmx _ *m K in HK.
  have HX : weak_grad S *m X = 0.
    apply: (psd_congr0 (M2_psd Hpos) U2).
    by rewrite trmx_mul -!mulmxA in HK *; rewrite HK mulmx0.
  have -> : d^T *m K = d^T *m M3 S *m X by rewrite /X (mulmxA _ (invmx _)) mulmxK.
  by rewrite -[d^T *m _]opprK -M2_wgrad mulNmx -mulmxA HX mulmx0 oppr0.
have /submxP [Z HZ] := H; exists Z^T.
by rewrite -[d]trmxK HZ trmx_mul trmxK.
Qed.

(** P u is divergence free *)
Lemma leray_div : d *m P = 0.
Proof.
have [Z HZ] := div_range.
rewrite /P_Leray strong_divE // mulmxDr mulmx1 !mulmxA.
have -> : d *m weak_grad S = - dd3 S by rewrite /dd3 strong_divE // mulNmx opprK.
by rewrite !mulNmx {2}HZ mulmxA Hpinv -HZ subrr.
Qed.
Lemma leray_id n (u : 'M[F]_(r2, n)) : d *m u = 0 -> P *m u = u.
Proof. by move=> H; rewrite /P_Leray strong_divE // mulmxDl mul1mx -mulmxA H mulmx0 addr0. Qed.
Lemma leray_idem : P *m P = P.
Proof. by apply: leray_id; apply: leray_div. Qed.
Lemma leray_grad n (u : 'M[F]_(r2, n)) : u - P *m u = weak_grad S *m (- (pinv *m (d *m u))).
Proof.
by rewrite /P_Leray strong_divE // mulmxDl mul1mx opprD addrA subrr add0r mulmxN !mulmxA.
Qed.
Lemma leray_selfadj : (M2 S *m P)^T = M2 S *m P.
Proof.
have [Z HZ] := div_range.
have E : M2 S *m P = M2 S - d^T *m M3 S *m pinv *m d.
  rewrite /P_Leray strong_divE // mulmxDr mulmx1 (mulmxA (M2 S)) (mulmxA (M2 S) (weak_grad S)).
  by rewrite M2_wgrad !mulNmx.
rewrite E linearB /= M2_sym; congr (_ - _).
have Sym : (M3 S *m dd3 S)^T = M3 S *m dd3 S := dd3_sym.
have E2 : d^T *m M3 S *m pinv *m d = Z^T *m (M3 S *m dd3 S) *m Z.
  have Hl : d^T *m M3 S = Z^T *m (M3 S *m dd3 S).
    rewrite {1}HZ (trmx_mul (dd3 S) Z) -(mulmxA Z^T) -Sym (trmx_mul (M3 S)).
    by rewrite M3_sym.
  move: Hpinv Hl; move: (dd3 S) (M3 S) HZ => D M HZ Hp Hl.
  rewrite Hl HZ -!mulmxA; congr (_ *m (_ *m _)).
  by rewrite !mulmxA Hp.
by move: Sym; rewrite E2; move: (M3 S *m dd3 S) => D Sym; rewrite !trmx_mul trmxK Sym mulmxA.
Qed.
End Facts.
Transparent M0 M1 M2 M3 weak_grad weak_div weak_curl.
