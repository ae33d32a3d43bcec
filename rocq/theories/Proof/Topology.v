(** Discrete cohomology: ranks of the derivatives, kernels of the Hodge Laplacians. *)
From Coq Require Import Ring Field.
From mathcomp Require Import all_ssreflect all_algebra zify.
From Verif Require Import Model.Forms Model.DeRham Spec.Cochain Spec.PolarSpace Spec.FreeDofs Spec.SeqSpec Spec.TopologySpec
  Proof.MCRing Proof.IndexLemmas Proof.Incidence Proof.SequenceAlg Proof.DeRhamAlg Proof.BoundarySel Proof.PolarSpan Proof.Complex Proof.SeqFacts.
Set Implicit Arguments.
Unset Strict Implicit.
Unset Printing Implicit Defensive.
Import Order.TTheory GRing.Theory Num.Theory.
Local Open Scope ring_scope.

(** *** linear algebra *)
Section Lin.
Variable F : realFieldType.

Lemma submx_ker m n p (A : 'M[F]_(m, n)) (B : 'M[F]_(p, n)) :
  (forall x : 'cV_n, B *m x = 0 -> A *m x = 0) -> (A <= B)%MS.
Proof.
move=> H; rewrite submxE; apply/eqP/matrixP => i j.
have /H : B *m col j (cokermx B) = 0 by rewrite colE mulmxA mulmx_coker mul0mx.
by rewrite colE mulmxA -colE => /colP /(_ i); rewrite !mxE.
Qed.

Lemma mul_col_mx0 m p n (A : 'M[F]_(m, n)) (B : 'M[F]_(p, n)) (x : 'cV_n) :
  col_mx A B *m x = 0 <-> A *m x = 0 /\ B *m x = 0.
Proof.
rewrite mul_col_mx -col_mx0; split=> [/eq_col_mx //|[-> ->] //].
Qed.

(** cohomology from generators Ga and separating functionals Ph *)
Lemma cohom_rank n m p b (g : 'M[F]_(n, m)) (c : 'M[F]_(p, n)) (Ga : 'M[F]_(n, b)) (Ph : 'M[F]_(b, n)) :
  c *m g = 0 -> c *m Ga = 0 -> Ph *m g = 0 -> Ph *m Ga = 1%:M ->
  (forall u : 'cV_n, c *m u = 0 -> Ph *m u = 0 -> exists f, u = g *m f) ->
  (\rank g + b + \rank c)%N = n.
Proof.
move=> Hcg HcG HPg HPG Hex.
have E : (kermx c^T :=: g^T + Ga^T)%MS.
  apply/eqmxP/andP; split; last first.
    by rewrite addsmx_sub; apply/andP; split; apply/sub_kermxP; rewrite -trmx_mul ?Hcg ?HcG trmx0.
  apply/row_subP => i; set v := row i _.
  have Hv : c *m v^T = 0 by apply: trmx_inj; rewrite trmx_mul trmxK trmx0 /v -row_mul mulmx_ker row0.
  have [||f Hf] := Hex (v^T - Ga *m (Ph *m v^T)).
  - by rewrite mulmxBr Hv mulmxA HcG mul0mx subrr.
  - by rewrite mulmxBr !mulmxA HPG mul1mx subrr.
  have -> : v = f^T *m g^T + (Ph *m v^T)^T *m Ga^T.
    by apply: trmx_inj; rewrite linearD /= (trmx_mul _ g^T) (trmx_mul _ Ga^T) !trmxK -Hf subrK.
  by apply: addmx_sub_adds; apply: submxMl.
have Hd : (g^T :&: Ga^T = 0)%MS.
  apply/eqP; rewrite -submx0; apply/row_subP => i; set v := row i _.
  have /submxP [x Hx] : (v <= g^T)%MS by apply: submx_trans (row_sub _ _) (capmxSl _ _).
  have /submxP [y Hy] : (v <= Ga^T)%MS by apply: submx_trans (row_sub _ _) (capmxSr _ _).
  suff -> : v = 0 by apply: sub0mx.
  have : v *m Ph^T = 0 by rewrite Hx -mulmxA -trmx_mul HPg trmx0 mulmx0.
  by rewrite Hy -mulmxA -trmx_mul HPG trmx1 mulmx1 => ->; rewrite mul0mx.
have RG : \rank Ga^T = b.
  apply/eqP; rewrite -[_ == b]/(row_free _); apply/row_freeP; exists Ph^T.
  by rewrite -trmx_mul HPG trmx1.
have R := mxrank_ker c^T; rewrite E (mxrank_disjoint_sum Hd) RG !mxrank_tr in R.
by rewrite R subnK // rank_leq_col.
Qed.

Lemma rank_same_ker m n p (A : 'M[F]_(m, n)) (B : 'M[F]_(p, n)) :
  (forall x : 'cV_n, A *m x = 0 <-> B *m x = 0) -> \rank A = \rank B.
Proof.
move=> H; apply/eqP; rewrite eqn_leq; apply/andP; split; apply: mxrankS; apply: submx_ker => x; by apply H.
Qed.

Lemma hodge_rank n m p (M D : 'M[F]_n) (A : 'M[F]_(m, n)) (B : 'M[F]_(n, p)) :
  psd M -> M \in unitmx -> A *m B = 0 ->
  (forall x : 'cV_n, D *m x = 0 <-> A *m x = 0 /\ B^T *m M *m x = 0) ->
  \rank D = (\rank A + \rank B)%N.
Proof.
move=> HM HU HAB HD.
rewrite (@rank_same_ker _ _ _ D (col_mx A (B^T *m M))); last first.
  by move=> x; rewrite HD mul_col_mx0.
rewrite -addsmxE mxrank_disjoint_sum.
  by congr addn; rewrite mxrankMfree ?row_free_unit // mxrank_tr.
apply/eqP; rewrite -submx0; apply/row_subP => i; set v := row i _.
have /submxP [x Hx] : (v <= A)%MS by apply: submx_trans (row_sub _ _) (capmxSl _ _).
have /submxP [y Hy] : (v <= B^T *m M)%MS by apply: submx_trans (row_sub _ _) (capmxSr _ _).
suff H : B *m y^T = 0 by rewrite Hy mulmxA -[y *m _]trmxK trmx_mul trmxK H trmx0 mul0mx sub0mx.
apply: (unit_pd HM HU); rewrite /bl trmx_mul trmxK.
have -> : y *m B^T *m M = v by rewrite Hy mulmxA.
by rewrite Hx -(mulmxA x) (mulmxA A) HAB mul0mx mulmx0 mxE.
Qed.

Lemma functional n (f : 'cV[F]_n -> F) : (forall a x y, f (a *: x + y) = a * f x + f y) ->
  exists R : 'rV[F]_n, forall x, (R *m x) 0 0 = f x.
Proof.
move=> H; have f0 : f 0 = 0.
  have := H 0 0 0; rewrite scaler0 add0r mul0r add0r => _.
  by have := H (-1) 0 0; rewrite scaler0 add0r mulN1r addNr.
have fD x y : f (x + y) = f x + f y by rewrite -{1}[x]scale1r H mul1r.
have fZ a x : f (a *: x) = a * f x by rewrite -[a *: x]addr0 H f0 addr0.
exists (\row_i f (delta_mx i 0)) => x; rewrite mxE.
have E : x = \sum_i x i 0 *: delta_mx i 0.
  apply/colP => i; rewrite summxE (bigD1 i) //= big1 => [|k Hk]; rewrite !mxE ?eqxx ?mulr1 ?addr0 //.
  by rewrite eq_sym (negbTE Hk) mulr0.
rewrite [in RHS]E (big_morph f fD f0); apply: eq_bigr => i _; by rewrite fZ mxE mulrC.
Qed.
End Lin.

Section Cohom.
Variable F : realFieldType.
Lemma cohom_rank_f n m p b (g : 'M[F]_(n, m)) (c : 'M[F]_(p, n)) (phi : 'I_b -> 'cV[F]_n -> F) (ga : 'I_b -> 'cV[F]_n) :
  (forall a t x y, phi a (t *: x + y) = t * phi a x + phi a y) ->
  c *m g = 0 -> (forall a, c *m ga a = 0) -> (forall a f, phi a (g *m f) = 0) ->
  (forall a a', phi a (ga a') = (a == a')%:R) ->
  (forall u : 'cV_n, c *m u = 0 -> (forall a, phi a u = 0) -> exists f, u = g *m f) ->
  (\rank g + b + \rank c)%N = n.
Proof.
move=> Hl Hcg HcG HPg HPG Hex.
have [R HR] : exists R : 'I_b -> 'rV[F]_n, forall a x, (R a *m x) 0 0 = phi a x.
  by apply: (@fin_all_exists _ (fun _ => 'rV[F]_n) (fun a R => forall x, (R *m x) 0 0 = phi a x)) => a;
    apply: functional => t x y; apply: Hl.
pose Ph : 'M[F]_(b, n) := \matrix_(a, i) R a 0 i.
pose Ga : 'M[F]_(n, b) := \matrix_(i, a) ga a i 0.
have EP (x : 'cV_n) a : (Ph *m x) a 0 = phi a x.
  by rewrite -HR !mxE; apply: eq_bigr => i _; rewrite !mxE.
apply: (@cohom_rank F n m p b g c Ga Ph) => //.
- apply/matrixP => i a; have /colP /(_ i) := HcG a; rewrite !mxE => H; rewrite -[RHS]H.
  by apply: eq_bigr => k _; rewrite !mxE.
- apply/matrixP => a i; rewrite [RHS]mxE -[RHS](HPg a (delta_mx i 0)) -EP mulmxA -colE.
  by rewrite [RHS]mxE.
- apply/matrixP => a a'; rewrite [RHS]mxE -HPG -EP !mxE; apply: eq_bigr => i _; rewrite !mxE //.
- by move=> u Hu HP; apply: Hex => // a; rewrite -EP HP mxE.
Qed.
End Cohom.

(** *** cochains *)
Section Chains.
Variable F : realFieldType.
Add Field Fftop : (@mc_fth F).

Definition prim (f : nat -> F) (n : nat) : F := \sum_(m < n) f m.
Lemma primS f n : prim f n.+1 = prim f n + f n. Proof. by rewrite /prim big_ord_recr. Qed.
Lemma prim0 f : prim f 0 = 0. Proof. by rewrite /prim big_ord0. Qed.
Lemma prim_eq f g n : (forall i, (i < n)%N -> f i = g i) -> prim f n = prim g n.
Proof. by move=> H; apply: eq_bigr => i _; apply: H. Qed.
Lemma prim_tele (f : nat -> F) n : prim (fun i => f i.+1 - f i) n = f n - f 0%N.
Proof. by elim: n => [|n IH]; rewrite ?prim0 ?subrr // primS IH; mc_norm; ring. Qed.
Lemma primD f g n : prim (fun i => f i + g i) n = prim f n + prim g n.
Proof. by rewrite /prim big_split. Qed.
Lemma primB f g n : prim (fun i => f i - g i) n = prim f n - prim g n.
Proof. by rewrite /prim sumrB. Qed.
Lemma primN f n : prim (fun i => - f i) n = - prim f n.
Proof. by rewrite /prim sumrN. Qed.
Lemma primZ a f n : prim (fun i => a * f i) n = a * prim f n.
Proof. by rewrite /prim mulr_sumr. Qed.
Lemma prim_zero n : prim (fun _ => 0) n = 0.
Proof. by rewrite /prim big1. Qed.
Lemma prim_delta n i0 (f : nat -> F) : (i0 < n)%N -> prim (fun i => if i == i0 then f i else 0) n = f i0.
Proof.
move=> H; rewrite /prim (bigD1 (Ordinal H)) //= eqxx big1 ?addr0 // => i Hi.
by case: eqP => // E; case/eqP: Hi; apply: val_inj.
Qed.
Lemma prim_delta_out n i0 (f : nat -> F) : (n <= i0)%N -> prim (fun i => if i == i0 then f i else 0) n = 0.
Proof.
move=> H; rewrite /prim big1 // => i _; case: eqP => // E; move: (ltn_ord i); rewrite E; lia.
Qed.
(** sums over a circle *)
Lemma circ_sum n (f : nat -> F) : (0 < n)%N -> prim (fun i => f (i.+1 %% n)%N) n = prim f n.
Proof.
case: n => // n _; rewrite primS modnn; rewrite [RHS]/prim big_ord_recl addrC; congr (_ + _).
by apply: eq_bigr => i _; rewrite /= modn_small // ltnS.
Qed.
Lemma circ_tele n (f : nat -> F) : (0 < n)%N -> prim (fun i => f (i.+1 %% n)%N - f i) n = 0.
Proof. by move=> H; rewrite primB circ_sum // subrr. Qed.
Lemma circ_const n (e : nat -> F) : (forall j, (j < n)%N -> e (j.+1 %% n)%N - e j = 0) -> forall j, (j < n)%N -> e j = e 0%N.
Proof.
move=> H; elim=> [//|j IH] Hj; rewrite -IH ?(ltnW Hj) //; have := H j (ltnW Hj).
by rewrite modn_small // => /eqP; rewrite subr_eq0 => /eqP.
Qed.
Lemma circ_step n f i : (i < n)%N -> prim f n = 0 -> prim f (i.+1 %% n) - prim f i = f i.
Proof.
move=> Hi H; case: (ltnP i.+1 n) => Hn.
  by rewrite modn_small // primS addrC addKr.
have E : n = i.+1 by lia.
rewrite E modnn prim0 sub0r; move: H; rewrite E primS => /eqP; rewrite addr_eq0 => /eqP ->.
by rewrite opprK.
Qed.
(** interchange of a difference and a partial sum *)

Variables nr nt nz : nat.
Hypotheses (Hr : (1 < nr)%N) (Ht : (0 < nt)%N) (Hz : (0 < nz)%N).
Implicit Types u v w : cochain F.

Definition closed1 u : Prop := forall i j l, (j < nt)%N -> (l < nz)%N ->
  [/\ (i < nr)%N -> dt_ nt (u 2%N) i j l = dz_ nz (u 1%N) i j l,
      (i < nr.-1)%N -> dz_ nz (u 0%N) i j l = dr_ (u 2%N) i j l
    & (i < nr.-1)%N -> dr_ (u 1%N) i j l = dt_ nt (u 0%N) i j l].

Lemma jm j : (j.+1 %% nt < nt)%N. Proof. exact: ltn_pmod. Qed.
Lemma lm l : (l.+1 %% nz < nz)%N. Proof. exact: ltn_pmod. Qed.

(** radial integration of a closed 1-cochain from a base potential *)
Definition pot (v0 : nat -> nat -> F) u : cochain F := fun _ i j l => v0 j l + prim (fun m => u 0%N m j l) i.
Lemma potential_ok u (v0 : nat -> nat -> F) : closed1 u ->
  (forall j l, (j < nt)%N -> (l < nz)%N -> v0 (j.+1 %% nt)%N l - v0 j l = u 1%N 0%N j l) ->
  (forall j l, (j < nt)%N -> (l < nz)%N -> v0 j (l.+1 %% nz)%N - v0 j l = u 2%N 0%N j l) ->
  forall c i j l, (c < 3)%N -> (i < (if c == 0%N then nr.-1 else nr))%N -> (j < nt)%N -> (l < nz)%N ->
  cgrad nt nz (pot v0 u) c i j l = u c i j l.
Proof.
move=> Hu H1 H2 c i j l Hc Hi Hj Hl; rewrite /cgrad /dr_ /dt_ /dz_ /pot.
case: c Hc Hi => [|[|[|c]]] //= _.
- by move=> _; rewrite primS; mc_norm; ring.
- elim: i => [|i IH] Hi; first by rewrite !prim0 !addr0 H1.
  rewrite !primS !addrA; have [_ _ H] := Hu i j l Hj Hl.
  have := H ltac:(lia); rewrite /dr_ /dt_ => /eqP; rewrite subr_eq => /eqP ->.
  by rewrite -(IH (ltnW Hi)); mc_norm; ring.
- elim: i => [|i IH] Hi; first by rewrite !prim0 !addr0 H2.
  rewrite !primS !addrA; have [_ H _] := Hu i j l Hj Hl.
  have := H ltac:(lia); rewrite /dr_ /dz_ => /esym /eqP; rewrite subr_eq => /eqP ->.
  by rewrite -(IH (ltnW Hi)); mc_norm; ring.
Qed.
(** a closed 1-cochain vanishing tangentially at the outer edge has a potential vanishing there *)
Definition out0 u j l : F := - prim (fun m => u 0%N m j l) nr.-1.
Lemma out0_ok u : closed1 u ->
  (forall j l, (j < nt)%N -> (l < nz)%N -> u 1%N nr.-1 j l = 0 /\ u 2%N nr.-1 j l = 0) ->
  forall j l, (j < nt)%N -> (l < nz)%N ->
  out0 u (j.+1 %% nt)%N l - out0 u j l = u 1%N 0%N j l /\ out0 u j (l.+1 %% nz)%N - out0 u j l = u 2%N 0%N j l.
Proof.
move=> Hu He j l Hj Hl; have [E1 E2] := He j l Hj Hl; rewrite /out0; split.
- have -> : - prim (fun m => u 0%N m (j.+1 %% nt)%N l) nr.-1 - - prim (fun m => u 0%N m j l) nr.-1
     = - prim (fun m => u 1%N m.+1 j l - u 1%N m j l) nr.-1.
    rewrite opprK addrC -opprB -primB; congr (- _); apply: prim_eq => m Hm.
    by have [_ _ /(_ Hm)] := Hu m j l Hj Hl; rewrite /dr_ /dt_ => ->.
  by rewrite (prim_tele (fun m => u 1%N m j l)) E1 sub0r opprK.
- have -> : - prim (fun m => u 0%N m j (l.+1 %% nz)%N) nr.-1 - - prim (fun m => u 0%N m j l) nr.-1
     = - prim (fun m => u 2%N m.+1 j l - u 2%N m j l) nr.-1.
    rewrite opprK addrC -opprB -primB; congr (- _); apply: prim_eq => m Hm.
    by have [_ /(_ Hm) H _] := Hu m j l Hj Hl; move: H; rewrite /dr_ /dz_ => ->.
  by rewrite (prim_tele (fun m => u 2%N m j l)) E2 sub0r opprK.
Qed.
(** potentials on the torus i = 0 *)
Definition tor0 u j l : F := prim (fun m => u 1%N 0%N m 0%N) j + prim (fun m => u 2%N 0%N j m) l.
Lemma tor0_ok u : closed1 u -> prim (fun m => u 1%N 0%N m 0%N) nt = 0 -> prim (fun m => u 2%N 0%N 0%N m) nz = 0 ->
  forall j l, (j < nt)%N -> (l < nz)%N ->
  tor0 u (j.+1 %% nt)%N l - tor0 u j l = u 1%N 0%N j l /\ tor0 u j (l.+1 %% nz)%N - tor0 u j l = u 2%N 0%N j l.
Proof.
move=> Hu P1 P2 j l Hj Hl.
have A m l' : (m < nt)%N -> (l' <= nz)%N ->
    prim (fun q => u 2%N 0%N (m.+1 %% nt)%N q) l' - prim (fun q => u 2%N 0%N m q) l'
    = prim (fun q => u 1%N 0%N m (q.+1 %% nz)%N - u 1%N 0%N m q) l'.
  move=> Hm Hl'; rewrite -primB; apply: prim_eq => q Hq.
  by have [/(_ (ltnW Hr)) H _ _] := Hu 0%N m q Hm (leq_trans Hq Hl'); move: H; rewrite /dt_ /dz_ => ->.
rewrite /tor0; split.
- have -> : prim (fun m => u 1%N 0%N m 0%N) (j.+1 %% nt) + prim (fun m => u 2%N 0%N (j.+1 %% nt)%N m) l
     - (prim (fun m => u 1%N 0%N m 0%N) j + prim (fun m => u 2%N 0%N j m) l)
     = (prim (fun m => u 1%N 0%N m 0%N) (j.+1 %% nt) - prim (fun m => u 1%N 0%N m 0%N) j)
     + (prim (fun m => u 2%N 0%N (j.+1 %% nt)%N m) l - prim (fun m => u 2%N 0%N j m) l) by mc_norm; ring.
  rewrite circ_step // A ?(ltnW Hl) //.
  have -> : prim (fun q => u 1%N 0%N j (q.+1 %% nz)%N - u 1%N 0%N j q) l = prim (fun q => u 1%N 0%N j q.+1 - u 1%N 0%N j q) l.
    by apply: prim_eq => q Hq; rewrite modn_small // (leq_ltn_trans Hq Hl).
  by rewrite (prim_tele (fun q => u 1%N 0%N j q)); mc_norm; ring.
- have P j' : (j' < nt)%N -> prim (fun m => u 2%N 0%N j' m) nz = 0.
    rewrite -P2; apply: (circ_const (e := fun j' => prim (fun m => u 2%N 0%N j' m) nz)) => m Hm.
    by rewrite A // circ_tele.
  by rewrite opprD addrACA subrr add0r circ_step ?P.
Qed.

(** top degree: a 2-cochain w with divergence r; if e, w_r vanishes at the outer edge *)
Section Top.
Variables (e : bool) (r : nat -> nat -> nat -> F).
Let i0 := nr.-2.
Definition rsum j l : F := prim (fun m => r m j l) nr.-1.
Definition tsum l : F := prim (fun j => rsum j l) nt.
Definition total : F := prim tsum nz.
Definition w2_ i j l : F := if e && (i == i0) && (j == 0%N) then prim tsum l else 0.
Definition w1_ i j l : F := if e && (i == i0) then prim (fun m => rsum m l - (if m == 0%N then tsum l else 0)) j else 0.
Definition w0_ i j l : F := prim (fun m => r m j l - dt_ nt w1_ m j l - dz_ nz w2_ m j l) i.
Definition wtop : cochain F := fun c => if c == 0%N then w0_ else if c == 1%N then w1_ else w2_.
Lemma cdiv_wtop c i j l : cdiv nt nz wtop c i j l = r i j l.
Proof. by rewrite /cdiv /wtop /= /dr_ /w0_ primS; move: (prim _ _) => x; mc_norm; ring. Qed.
Lemma wtop_low c i j l : (c < 3)%N -> (e -> (i < (if c == 0%N then nr.-1 else nr.-2))%N) -> (forall m, (m < i)%N -> r m j l = 0) ->
  wtop c i j l = 0.
Proof.
case: c => [|[|[|c]]] //= _ Hi H; rewrite /wtop /=; last 2 first.
- by rewrite /w1_; case: (e) Hi => //= /(_ isT) Hi; rewrite (_ : (i == i0) = false) //; apply/eqP; rewrite /i0; lia.
- by rewrite /w2_; case: (e) Hi => //= /(_ isT) Hi; rewrite (_ : (i == i0) = false) //; apply/eqP; rewrite /i0; lia.
rewrite /w0_ -[RHS](prim_zero i); apply: prim_eq => m Hm; rewrite H //.
have E : e && (m == i0) = false by case: (e) Hi => //= /(_ isT) Hi; apply/eqP; rewrite /i0; lia.
by rewrite /dt_ /dz_ /w1_ /w2_ E !subrr.
Qed.
Lemma wtop_edge j l : (j < nt)%N -> (l < nz)%N -> e -> total = 0 -> wtop 0%N nr.-1 j l = 0.
Proof.
move=> Hj Hl He Htot; rewrite /wtop /= /w0_.
rewrite (primB (fun m => r m j l - dt_ nt w1_ m j l)) (primB (fun m => r m j l) (fun m => dt_ nt w1_ m j l)).
have E1 : prim (fun m => dt_ nt w1_ m j l) nr.-1 = rsum j l - (if j == 0%N then tsum l else 0).
  rewrite -[RHS](@circ_step nt (fun m => rsum m l - (if m == 0%N then tsum l else 0)) j) //.
    rewrite -(@prim_delta nr.-1 i0 (fun m => prim (fun m => rsum m l - (if m == 0%N then tsum l else 0)) (j.+1 %% nt)
       - prim (fun m => rsum m l - (if m == 0%N then tsum l else 0)) j)); last by rewrite /i0; lia.
    by apply: prim_eq => m _; rewrite /dt_ /w1_ He /=; case: eqP; rewrite ?subrr.
  by rewrite primB (prim_delta (fun=> tsum l) Ht) subrr.
have E2 : prim (fun m => dz_ nz w2_ m j l) nr.-1 = if j == 0%N then tsum l else 0.
  case: (eqVneq j 0%N) => Hj0.
    rewrite -[RHS](@circ_step nz tsum l) // -(@prim_delta nr.-1 i0 (fun m => prim tsum (l.+1 %% nz) - prim tsum l)); last by rewrite /i0; lia.
    by apply: prim_eq => m _; rewrite /dz_ /w2_ He Hj0 /=; case: eqP; rewrite ?subrr.
  by rewrite -[RHS](prim_zero nr.-1); apply: prim_eq => m _; rewrite /dz_ /w2_ (negbTE Hj0) !andbF subrr.
by rewrite E1 E2 /rsum; move: (prim _ _) (if _ then _ else _) => x y; mc_norm; ring.
Qed.
End Top.
(** the total of a divergence is the flux through the two faces *)
Lemma total_div w : (forall j l, (j < nt)%N -> (l < nz)%N -> w 0%N nr.-1 j l = w 0%N 0%N j l) ->
  total (cdiv nt nz w 0%N) = 0.
Proof.
move=> H; rewrite /total.
have -> : prim (tsum (cdiv nt nz w 0%N)) nz
  = prim (fun l => prim (fun j => prim (fun m => dt_ nt (w 1%N) m j l) nr.-1) nt) nz
  + prim (fun l => prim (fun j => prim (fun m => dz_ nz (w 2%N) m j l) nr.-1) nt) nz.
  rewrite -primD; apply: prim_eq => l Hl; rewrite /tsum -primD; apply: prim_eq => j Hj.
  rewrite /rsum /cdiv (primD (fun m => dr_ (w 0%N) m j l + dt_ nt (w 1%N) m j l)) (primD (fun m => dr_ (w 0%N) m j l)).
  by rewrite (prim_tele (fun m => w 0%N m j l)) H // subrr add0r.
have swap n m (f : nat -> nat -> F) : prim (fun i => prim (f i) n) m = prim (fun j => prim (fun i => f i j) m) n.
  by rewrite /prim exchange_big.
have -> : prim (fun l => prim (fun j => prim (fun m => dt_ nt (w 1%N) m j l) nr.-1) nt) nz = 0.
  rewrite -[RHS](prim_zero nz); apply: prim_eq => l Hl; rewrite swap -[RHS](prim_zero nr.-1); apply: prim_eq => m Hm.
  by rewrite /dt_ (circ_tele (fun j => w 1%N m j l)).
rewrite add0r swap -[RHS](prim_zero nt); apply: prim_eq => j Hj; rewrite swap -[RHS](prim_zero nr.-1); apply: prim_eq => m Hm.
by rewrite /dz_ (circ_tele (fun l => w 2%N m j l)).
Qed.
Lemma totalD (r r' : nat -> nat -> nat -> F) t : 
  total (fun i j l => t * r i j l + r' i j l) = t * total r + total r'.
Proof.
rewrite /total -primZ -primD; apply: prim_eq => l _; rewrite /tsum -primZ -primD; apply: prim_eq => j _.
by rewrite /rsum -primZ -primD.
Qed.
Lemma total_eq (r r' : nat -> nat -> nat -> F) :
  (forall i j l, (i < nr.-1)%N -> (j < nt)%N -> (l < nz)%N -> r i j l = r' i j l) -> total r = total r'.
Proof. by move=> H; apply: prim_eq => l Hl; apply: prim_eq => j Hj; apply: prim_eq => i Hi; apply: H. Qed.
Lemma total_delta i0 : (i0 < nr.-1)%N -> total (fun i j l => ((i == i0) && (j == 0%N) && (l == 0%N))%:R) = 1.
Proof.
move=> Hi; rewrite -[RHS](@prim_delta nz 0 (fun=> 1)) //; apply: prim_eq => l _; case: (eqVneq l 0%N) => Hl0.
- rewrite -[RHS](@prim_delta nt 0 (fun=> 1)) //; apply: prim_eq => j _; case: (eqVneq j 0%N) => Hj0.
  + by rewrite -[RHS](@prim_delta nr.-1 i0 (fun=> 1)) //; apply: prim_eq => i _; rewrite Hj0 Hl0 !andbT; case: eqP.
  + by rewrite -[RHS](prim_zero nr.-1); apply: prim_eq => i _; rewrite (negbTE Hj0) andbF.
- rewrite -[RHS](prim_zero nt); apply: prim_eq => j _.
  by rewrite -[RHS](prim_zero nr.-1); apply: prim_eq => i _; rewrite (negbTE Hl0) andbF.
Qed.
End Chains.

(** *** sequences *)
Section SeqTop.
Variable F : realFieldType.
Add Field Fftop2 : (@mc_fth F).
Variables (nr nt nz : nat).
Notation s := (Shape nr nt nz true false false).
Variables (t : tables F) (G Gi : nat -> nat -> nat -> F) (J w : nat -> F)
  (xi : nat -> nat -> nat -> F) (polar dirichlet : bool).
Hypothesis Hadm : admissible s xi polar dirichlet.
Notation S := (DeRhamSequence s t G Gi J w xi polar dirichlet).
Notation o := dirichlet.

Let Ht : (0 < nt)%N. Proof. by move: Hadm => [_ /and3P [? ? ?]]. Qed.
Let Hz : (0 < nz)%N. Proof. by move: Hadm => [_ /and3P [? ? ?]]. Qed.
Let Hnr : (2 + (polar && o) <= nr)%N. Proof. by move: Hadm => []. Qed.
Let Hr : (1 < nr)%N. Proof. by move: Hnr => /=; lia. Qed.
Let Hxi : polar -> xi_ok xi nt. Proof. by move: Hadm => []. Qed.

Definition Vs (k : deg) (u : cochain F) : Prop :=
  if polar then Vpol xi nr nt nz o k u else Vbnd nr nt nz o k u.

Lemma sh_s : sh S = s. Proof. by rewrite /DeRhamSequence; case: polar. Qed.

Lemma coefs_lin k a (x y : 'cV_(rk S k)) c i j l :
  coefs S k (a *: x + y) c i j l = a * coefs S k x c i j l + coefs S k y c i j l.
Proof. by rewrite /coefs mulr_sumr -big_split; apply: eq_bigr => p _; rewrite mulmxDr -scalemxAr !mxE. Qed.
Lemma coefs0 k c i j l : coefs S k 0 c i j l = 0.
Proof. by rewrite /coefs mulmx0 big1 // => p _; rewrite mxE. Qed.

Lemma V_coefs k (y : 'cV_(rk S k)) : k <> KV -> Vs k (coefs S k y).
Proof.
rewrite /Vs /DeRhamSequence => Hk; case: polar Hnr Hxi y => /= Hn Hx y.
- apply: (@Vpol_ext F xi nr nt nz o Hn k (coch s k (pe xi nr nt nz o k (rvf y^T)))) => //.
    move=> c i j l Hc Hin; rewrite coefsE /= /coch; have Hlt := ravel_index_lt Hc Hin.
    rewrite (rvf_ord _ (Ordinal Hlt)) !mxE; apply: eq_bigr => r _.
    by rewrite !mxE mulrC rvf_ord mxE.
  exact: Vpol_pe.
- move=> c i j l Hc Hin Hf; rewrite coefsE /= /coch; have Hlt := ravel_index_lt Hc Hin.
  rewrite (rvf_ord _ (Ordinal Hlt)) !mxE big1 // => r _.
  by rewrite mxE boundary_row0 ?mul0r //= unravel_ravel_index.
Qed.

Lemma V_real k u : k <> KV -> Vs k u -> exists y : 'cV_(rk S k), forall c i j l,
  (c < ncomp k)%N -> in_comp s k c (i, j, l) -> coefs S k y c i j l = u c i j l.
Proof.
rewrite /Vs /DeRhamSequence => Hk; case: polar Hnr Hxi => /= Hn Hx Hu.
- have : (flat s k u <= polar_matrix xi s o k)%MS.
    apply: (Vpol_span Hn) => //.
    by apply: (@Vpol_ext F xi nr nt nz o Hn k u) => // c i j l Hc Hin; rewrite coch_flat.
  case/submxP => v Hv; exists v^T => c i j l Hc Hin.
  by rewrite coefsE /= trmx_mul !trmxK -Hv coch_flat.
- have : (flat s k u <= boundary_matrix F s (rbc o) k)%MS.
    apply: Vbnd_span => //.
    by apply: (@Vbnd_ext F nr nt nz o k u) => // c i j l Hc Hin; rewrite coch_flat.
  case/submxP => v Hv; exists v^T => c i j l Hc Hin.
  by rewrite coefsE /= trmx_mul !trmxK -Hv coch_flat.
Qed.

Lemma coefs_inj k (y : 'cV_(rk S k)) : row_free (E_ S k) ->
  (forall c i j l, (c < ncomp k)%N -> in_comp s k c (i, j, l) -> coefs S k y c i j l = 0) -> y = 0.
Proof.
move=> Hf H; apply: trmx_inj; rewrite trmx0; apply: (row_free0 Hf).
move: Hf y H; rewrite /DeRhamSequence; case: polar => /= Hf y H.
all: transitivity (flat s k (fun _ _ _ _ => 0 : F)); last (by apply/rowP => x; rewrite !mxE; case: (unravel_index s k x) => [c [[a b] d]]).
all: apply: rvf_flat_eq => c i j l Hc Hin; by rewrite -[RHS](H c i j l) // coefsE /= trmx_mul trmxK.
Qed.

Lemma coefs_ext k (x y : 'cV_(rk S k)) : row_free (E_ S k) ->
  (forall c i j l, (c < ncomp k)%N -> in_comp s k c (i, j, l) -> coefs S k x c i j l = coefs S k y c i j l) -> x = y.
Proof.
move=> Hf H; apply/eqP; rewrite -subr_eq0; apply/eqP; apply: coefs_inj => // c i j l Hc Hin.
have -> : x - y = (-1) *: y + x by rewrite scaleN1r addrC.
by rewrite coefs_lin H // mulN1r addNr.
Qed.

(** membership of a radial potential in the polar 0-form space *)
Lemma pot_pol0 (u : cochain F) v0 : xi_ok xi nt -> pol1 xi nr nt nz o u ->
  (forall j l, (j < nt)%N -> (l < nz)%N -> v0 j l = v0 0%N l) ->
  (o -> forall j l, (j < nt)%N -> (l < nz)%N -> pot v0 u 0%N nr.-1 j l = 0) ->
  pol0 xi nr nt nz o (pot v0 u).
Proof.
move=> Hx [al [ga H]] Hv Ho.
pose g0 l := v0 0%N l - (al 0%N l * xi 1%N 0%N 0%N + al 1%N l * xi 2%N 0%N 0%N).
exists (fun p l => if p is q.+1 then g0 l + al q l else g0 l) => j l Hj Hl; split; last by move=> O; apply: Ho.
have [A _ _ _ _] := H j l Hj Hl; have Hx0 := xic Hx.
case=> [|[|i]] //= _; rewrite /pot ?primS prim0 ?add0r ?addr0 (Hv j l Hj Hl) sum3O /= !(xi0E Hx) // ?A ?sum2O /= /xr /g0
   !(Hx0 _ 0%N j) //; mc_norm; ring.
Qed.

Section Ranks.
Variables (g : 'M[F]_(rk S K1, rk S K0)) (c : 'M[F]_(rk S K2, rk S K1)) (d : 'M[F]_(rk S K3, rk S K2)).
Hypotheses (Hco : coef_ok (S := S) g c d) (Hcg : c *m g = 0) (Hdc : d *m c = 0).
Hypothesis Hf : forall k, k <> KV -> row_free (E_ S k).

Lemma co0 y a i j l : (a < 3)%N -> in_comp s K1 a (i, j, l) ->
  coefs S K1 (g *m y) a i j l = cgrad nt nz (coefs S K0 y) a i j l.
Proof.
move=> Ha Hin; have [H _ _] := Hco; have := H y a i j l Ha.
by rewrite !sh_s /=; apply.
Qed.
Lemma co1 y a i j l : (a < 3)%N -> in_comp s K2 a (i, j, l) ->
  coefs S K2 (c *m y) a i j l = ccurl nt nz (coefs S K1 y) a i j l.
Proof.
move=> Ha Hin; have [_ H _] := Hco; have := H y a i j l Ha.
by rewrite !sh_s /=; apply.
Qed.
Lemma co2 y i j l : in_comp s K3 0%N (i, j, l) ->
  coefs S K3 (d *m y) 0%N i j l = cdiv nt nz (coefs S K2 y) 0%N i j l.
Proof.
move=> Hin; have [_ _ H] := Hco; have := H y i j l.
by rewrite !sh_s /=; apply.
Qed.

Lemma boolE (b : bool) : b = true \/ b = false. Proof. by case: b; [left | right]. Qed.
Let Hlast : (nr.-1 < nr)%N. Proof. by rewrite prednK // ltnW. Qed.
Let Hr0 : (0 < nr)%N. Proof. exact: ltnW. Qed.
Let Hr1 : (0 < nr.-1)%N. Proof. by rewrite -ltnS prednK. Qed.

(** edge values *)
Lemma edge0 u : Vs K0 u -> o = true -> forall j l, (j < nt)%N -> (l < nz)%N -> u 0%N nr.-1 j l = 0.
Proof.
rewrite /Vs => H Ho j l Hj Hl; case: ifP H => Hp /= H.
  by case: H => ga /(_ j l Hj Hl) [_]; apply.
by apply: (H 0%N nr.-1 j l); rewrite ?in0 ?freeE ?Hj ?Hl ?Hlast ?Ho //= prednK // leqnn orbT.
Qed.
Lemma edge1 u : Vs K1 u -> o = true -> forall j l, (j < nt)%N -> (l < nz)%N ->
  u 1%N nr.-1 j l = 0 /\ u 2%N nr.-1 j l = 0.
Proof.
rewrite /Vs => H Ho j l Hj Hl; case: ifP H => Hp /= H.
  by case: H => al [ga /(_ j l Hj Hl)] [_ _ _ _]; apply.
by split; [apply: (H 1%N nr.-1 j l) | apply: (H 2%N nr.-1 j l)];
  rewrite ?in1 ?freeE ?Hj ?Hl ?Hlast ?Ho //= prednK // leqnn orbT.
Qed.
Lemma edge2 u : Vs K2 u -> o = true -> forall j l, (j < nt)%N -> (l < nz)%N -> u 0%N nr.-1 j l = 0.
Proof.
rewrite /Vs => H Ho j l Hj Hl; case: ifP H => Hp /= H.
  by case: H => be /(_ j l Hj Hl) [_ _ _]; apply.
by apply: (H 0%N nr.-1 j l); rewrite ?in2 ?freeE ?Hj ?Hl ?Hlast ?Ho //= prednK // leqnn orbT.
Qed.
(** inner values *)
Lemma axis2 u : Vs K2 u -> o = true -> forall j l, (j < nt)%N -> (l < nz)%N -> u 0%N 0%N j l = 0.
Proof.
rewrite /Vs => H Ho j l Hj Hl; case: ifP H => Hp /= H.
  by case: H => be /(_ j l Hj Hl) [[-> _]].
by apply: (H 0%N 0%N j l); rewrite ?in2 ?freeE ?Hj ?Hl ?Hr0 ?Ho.
Qed.
Lemma inner1 u : Vs K1 u -> polar = false -> o = true -> forall j l, (j < nt)%N -> (l < nz)%N ->
  u 1%N 0%N j l = 0 /\ u 2%N 0%N j l = 0.
Proof.
rewrite /Vs => H Hp Ho j l Hj Hl; rewrite Hp /= in H.
by split; [apply: (H 1%N 0%N j l) | apply: (H 2%N 0%N j l)]; rewrite ?in1 ?freeE ?Hj ?Hl ?Hr0 ?Ho.
Qed.
Lemma Vbnd_free k u : polar = false -> o = false -> Vs k u.
Proof. by rewrite /Vs => -> Ho a i j l Ha Hin; rewrite freeE Ho. Qed.

Lemma VsT k u : polar = true -> Vs k u <-> Vpol xi nr nt nz o k u. Proof. by rewrite /Vs => ->. Qed.
Lemma VsF k u : polar = false -> Vs k u <-> Vbnd nr nt nz o k u. Proof. by rewrite /Vs => ->. Qed.

Lemma const_of_grad0 y : g *m y = 0 -> forall i j l, (i < nr)%N -> (j < nt)%N -> (l < nz)%N ->
  coefs S K0 y 0%N i j l = coefs S K0 y 0%N 0%N 0%N 0%N.
Proof.
move=> Hy; have H a i j l : (a < 3)%N -> in_comp s K1 a (i, j, l) -> cgrad nt nz (coefs S K0 y) a i j l = 0.
  by move=> Ha Hin; rewrite -co0 // Hy coefs0.
move=> i j l Hi Hj Hl.
have -> : coefs S K0 y 0%N i j l = coefs S K0 y 0%N 0%N j l.
  elim: i Hi => [//|i IH] Hi; rewrite -IH ?(ltnW Hi) //.
  have := H 0%N i j l isT; rewrite in1 //= Hj Hl (_ : (i < nr.-1)%N) => [|]; last by lia.
  by move/(_ isT) => /eqP; rewrite /cgrad /= /dr_ subr_eq0 => /eqP.
rewrite (@circ_const F nt (fun j => coefs S K0 y 0%N 0%N j l)) //; last first.
  by move=> m Hm; have := H 1%N 0%N m l isT; rewrite in1 //= Hr0 Hm Hl /cgrad /= /dt_; apply.
apply: (@circ_const F nz (fun l => coefs S K0 y 0%N 0%N 0%N l)) => // m Hm.
by have := H 2%N 0%N 0%N m isT; rewrite in1 //= Hr0 Hm Ht /cgrad /= /dz_; apply.
Qed.

Lemma rank0 : (\rank g + ~~ o)%N = rk S K0.
Proof.
have [Ho|Ho] := boolE o.
- have Eb : nat_of_bool (~~ o) = 0%N by rewrite Ho.
  have := @cohom_rank_f F _ 0 _ 0 (0 : 'M_(rk S K0, 0)) g (fun _ _ => 0) (fun _ => 0).
  rewrite mxrank0 !add0n Eb addn0 => -> //; try by [move=> [] | rewrite mulmx0].
  move=> u Hu _; exists 0; rewrite mulmx0; apply: coefs_inj => [|a i j l Ha Hin]; first exact: Hf.
  have {Ha} -> : a = 0%N by case: a Ha {Hin}.
  have := Hin; rewrite in0 => /and3P [Hi Hj Hl].
  rewrite (const_of_grad0 Hu Hi Hj Hl) -(const_of_grad0 Hu Hlast Hj Hl).
  by apply: edge0 => //; apply: V_coefs.
- have Eb : nat_of_bool (~~ o) = 1%N by rewrite Ho.
  have [//||y1 Hy1] := @V_real K0 (fun _ _ _ _ => 1 : F).
    rewrite /Vs; have [Hp|Hp] := boolE polar; last by move: (@Vbnd_free K0 (fun _ _ _ _ => 1 : F) Hp Ho).
    rewrite Hp /=; exists (fun _ _ => 1) => j l Hj Hl; split; last by rewrite Ho.
    move=> i Hi; have [Hx _] := Hxi Hp Hj; by rewrite sum3O /= !mul1r Hx.
  have := @cohom_rank_f F _ 0 _ 1 (0 : 'M_(rk S K0, 0)) g (fun _ y => coefs S K0 y 0%N 0%N 0%N 0%N) (fun _ => y1).
  rewrite mxrank0 add0n Eb addnC => -> //.
  + by move=> _ a x y; rewrite coefs_lin.
  + by rewrite mulmx0.
  + move=> _; apply: coefs_inj => [|a i j l Ha Hin]; first exact: Hf.
    have := Hin; rewrite in1 // => /and3P [Hi Hj Hl]; have Hj' := ltn_pmod j.+1 Ht; have Hl' := ltn_pmod l.+1 Hz.
    rewrite co0 // /cgrad /dr_ /dt_ /dz_; case: a Ha Hi {Hin} => [|[|[|a]]] //= _ Hi;
      rewrite !Hy1 ?subrr // in0 ?Hj ?Hl ?Hj' ?Hl' ?andbT //; lia.
  + by move=> _ f; rewrite mul0mx coefs0.
  + by move=> a a'; rewrite Hy1 ?in0 ?Hr0 ?Ht // !ord1 eqxx.
  + move=> u Hu H0; exists 0; rewrite mulmx0; apply: coefs_inj => [|a i j l Ha Hin]; first exact: Hf.
    have {Ha} -> : a = 0%N by case: a Ha {Hin}.
    by have := Hin; rewrite in0 => /and3P [Hi Hj Hl]; rewrite (const_of_grad0 Hu) // (H0 0).
Qed.

Lemma closed_of_curl0 y : c *m y = 0 -> closed1 nr nt nz (coefs S K1 y).
Proof.
move=> Hy; have H a i j l : (a < 3)%N -> in_comp s K2 a (i, j, l) -> ccurl nt nz (coefs S K1 y) a i j l = 0.
  by move=> Ha Hin; rewrite -co1 // Hy coefs0.
move=> i j l Hj Hl; split=> Hi; apply/eqP; rewrite -subr_eq0; apply/eqP.
- by have := H 0%N i j l isT; rewrite in2 //= Hi Hj Hl /ccurl /=; apply.
- by have := H 1%N i j l isT; rewrite in2 //= Hi Hj Hl /ccurl /=; apply.
- by have := H 2%N i j l isT; rewrite in2 //= Hi Hj Hl /ccurl /=; apply.
Qed.
Lemma exact_of v0 y : c *m y = 0 ->
  (forall j l, (j < nt)%N -> (l < nz)%N -> v0 (j.+1 %% nt)%N l - v0 j l = coefs S K1 y 1%N 0%N j l
                                        /\ v0 j (l.+1 %% nz)%N - v0 j l = coefs S K1 y 2%N 0%N j l) ->
  Vs K0 (pot v0 (coefs S K1 y)) -> exists f, y = g *m f.
Proof.
move=> Hy Hb HV; have [//||f Hf0] := @V_real K0 (pot v0 (coefs S K1 y)); first exact: HV.
exists f; apply: coefs_ext => [|a i j l Ha Hin]; first exact: Hf.
rewrite co0 // -(potential_ok Hr Ht Hz (v0 := v0) (closed_of_curl0 Hy)) //; last first.
- by move: Hin; rewrite in1 // => /and3P [].
- by move: Hin; rewrite in1 // => /and3P [].
- by move: Hin; rewrite in1 // => /and3P [].
- by move=> j' l' Hj' Hl'; have [] := Hb j' l' Hj' Hl'.
- by move=> j' l' Hj' Hl'; have [] := Hb j' l' Hj' Hl'.
have := Hin; rewrite in1 // => /and3P [Hi Hj Hl]; have Hj' := ltn_pmod j.+1 Ht; have Hl' := ltn_pmod l.+1 Hz.
rewrite /cgrad /dr_ /dt_ /dz_; case: a Ha Hi {Hin} => [|[|[|a]]] //= _ Hi;
  rewrite !Hf0 // in0 ?Hj ?Hl ?Hj' ?Hl' ?andbT //; lia.
Qed.

(** constant cochains *)
Definition genc (a : nat) (x : F) : cochain F := fun b _ _ _ => if b == a then x else 0.
Lemma ccurl_genc a x b i j l : ccurl nt nz (genc a x) b i j l = 0.
Proof. by rewrite /ccurl /dr_ /dt_ /dz_ /genc !subrr; case: ifP => _ //; case: ifP. Qed.
Lemma gen_closed a x : Vs K1 (genc a x) -> exists y : 'cV_(rk S K1), c *m y = 0 /\
  forall b i j l, (b < 3)%N -> in_comp s K1 b (i, j, l) -> coefs S K1 y b i j l = genc a x b i j l.
Proof.
move=> HV; have [//||y Hy] := @V_real K1 (genc a x); first exact: HV.
exists y; split=> //; apply: coefs_inj => [|b i j l Hb Hin]; first exact: Hf.
rewrite co1 // -[RHS](ccurl_genc a x b i j l).
have := Hin; rewrite in2 // => /and3P [Hi Hj Hl]; have Hj' := ltn_pmod j.+1 Ht; have Hl' := ltn_pmod l.+1 Hz.
rewrite /ccurl /dr_ /dt_ /dz_; case: b Hb Hi {Hin} => [|[|[|b]]] //= _ Hi;
  rewrite !Hy // in1 //= ?Hj ?Hl ?Hj' ?Hl' ?andbT //; lia.
Qed.
Lemma prim_const (x : F) n : prim (fun _ => x) n = n%:R * x.
Proof. by rewrite /prim sumr_const card_ord mulr_natl. Qed.
Lemma natinv n : (0 < n)%N -> (n%:R : F) * n%:R^-1 = 1.
Proof. by move=> H; rewrite divff // pnatr_eq0; lia. Qed.

Definition phi_r (y : 'cV_(rk S K1)) : F := prim (fun m => coefs S K1 y 0%N m 0%N 0%N) nr.-1.
Definition phi_t (y : 'cV_(rk S K1)) : F := prim (fun m => coefs S K1 y 1%N 0%N m 0%N) nt.
Definition phi_z (y : 'cV_(rk S K1)) : F := prim (fun m => coefs S K1 y 2%N 0%N 0%N m) nz.
Lemma phi_r_lin a x y : phi_r (a *: x + y) = a * phi_r x + phi_r y.
Proof. by rewrite /phi_r -primZ -primD; apply: prim_eq => i _; rewrite coefs_lin. Qed.
Lemma phi_t_lin a x y : phi_t (a *: x + y) = a * phi_t x + phi_t y.
Proof. by rewrite /phi_t -primZ -primD; apply: prim_eq => i _; rewrite coefs_lin. Qed.
Lemma phi_z_lin a x y : phi_z (a *: x + y) = a * phi_z x + phi_z y.
Proof. by rewrite /phi_z -primZ -primD; apply: prim_eq => i _; rewrite coefs_lin. Qed.
Lemma phi_t_grad f : phi_t (g *m f) = 0.
Proof.
rewrite /phi_t (@prim_eq _ _ (fun m => coefs S K0 f 0%N 0%N (m.+1 %% nt)%N 0%N - coefs S K0 f 0%N 0%N m 0%N)).
  exact: (circ_tele (fun m => coefs S K0 f 0%N 0%N m 0%N)).
by move=> m Hm; rewrite co0 // in1 //= Hr0 Hm.
Qed.
Lemma phi_z_grad f : phi_z (g *m f) = 0.
Proof.
rewrite /phi_z (@prim_eq _ _ (fun m => coefs S K0 f 0%N 0%N 0%N (m.+1 %% nz)%N - coefs S K0 f 0%N 0%N 0%N m)).
  exact: (circ_tele (fun m => coefs S K0 f 0%N 0%N 0%N m)).
by move=> m Hm; rewrite co0 // in1 //= Hr0 Ht Hm.
Qed.
Lemma phi_r_grad f : phi_r (g *m f) = coefs S K0 f 0%N nr.-1 0%N 0%N - coefs S K0 f 0%N 0%N 0%N 0%N.
Proof.
rewrite -(prim_tele (fun m => coefs S K0 f 0%N m 0%N 0%N)); apply: prim_eq => m Hm.
by rewrite co0 // in1 //= Hm Ht.
Qed.
Lemma phi_gen (y : 'cV_(rk S K1)) a x : (forall b i j l, (b < 3)%N -> in_comp s K1 b (i, j, l) -> coefs S K1 y b i j l = genc a x b i j l) ->
  [/\ phi_r y = if a == 0%N then nr.-1%:R * x else 0,
      phi_t y = if a == 1%N then nt%:R * x else 0
    & phi_z y = if a == 2%N then nz%:R * x else 0].
Proof.
move=> H; split.
- rewrite /phi_r (@prim_eq _ _ (fun=> genc a x 0%N 0%N 0%N 0%N)) => [|m Hm]; last by rewrite H // in1 //= Hm Ht.
  by rewrite prim_const /genc eq_sym; case: ifP; rewrite ?mulr0.
- rewrite /phi_t (@prim_eq _ _ (fun=> genc a x 1%N 0%N 0%N 0%N)) => [|m Hm]; last by rewrite H // in1 //= Hm Hr0.
  by rewrite prim_const /genc eq_sym; case: ifP; rewrite ?mulr0.
- rewrite /phi_z (@prim_eq _ _ (fun=> genc a x 2%N 0%N 0%N 0%N)) => [|m Hm]; last by rewrite H // in1 //= Hm Ht Hr0.
  by rewrite prim_const /genc eq_sym; case: ifP; rewrite ?mulr0.
Qed.

(** polar, Dirichlet: every curl-free 1-form is a gradient *)
Lemma exact_pd (y : 'cV_(rk S K1)) : polar = true -> o = true -> c *m y = 0 -> exists f, y = g *m f.
Proof.
move=> Hp Ho Hy; have HV : Vs K1 (coefs S K1 y) by apply: V_coefs.
have Hb := out0_ok (closed_of_curl0 Hy) (edge1 HV Ho).
apply: (exact_of Hy Hb); apply/(VsT _ _ Hp); move/(VsT _ _ Hp): HV => HV.
apply: pot_pol0 => //; first exact: Hxi.
- move=> j l Hj Hl; apply: (@circ_const F nt (fun j => out0 nr (coefs S K1 y) j l)) => // m Hm.
  by have [-> _] := Hb m l Hm Hl; case: HV => al [ga /(_ m l Hm Hl)] [].
- by move=> _ j l Hj Hl; rewrite /pot /out0 addNr.
Qed.
(** polar, free *)
Lemma exact_pf (y : 'cV_(rk S K1)) : polar = true -> o = false -> c *m y = 0 -> phi_z y = 0 -> exists f, y = g *m f.
Proof.
move=> Hp Ho Hy Hz0; have HV : Vs K1 (coefs S K1 y) by apply: V_coefs.
have A j l : (j < nt)%N -> (l < nz)%N -> coefs S K1 y 1%N 0%N j l = 0.
  by move=> Hj Hl; move/(VsT _ _ Hp): HV => -[al [ga /(_ j l Hj Hl)]] [].
have Hb := tor0_ok Hr Hz (closed_of_curl0 Hy).
have {}Hb := Hb _ Hz0; have {}Hb := Hb ltac:(by rewrite -[RHS](prim_zero F nt); apply: prim_eq => m Hm; apply: A).
apply: (exact_of Hy Hb); apply/(VsT _ _ Hp); move/(VsT _ _ Hp): HV => HV.
apply: pot_pol0 => //; first exact: Hxi; last by move=> /(elimT idP) Ho'; exfalso; move: Ho' Ho; clear; case: (o).
move=> j l Hj Hl; apply: (@circ_const F nt (fun j => tor0 (coefs S K1 y) j l)) => // m Hm.
by have [-> _] := Hb m l Hm Hl; apply: A.
Qed.
(** not polar, free *)
Lemma exact_nf (y : 'cV_(rk S K1)) : polar = false -> o = false -> c *m y = 0 -> phi_t y = 0 -> phi_z y = 0 -> exists f, y = g *m f.
Proof.
move=> Hp Ho Hy Ht0 Hz0; apply: (exact_of Hy (tor0_ok Hr Hz (closed_of_curl0 Hy) Ht0 Hz0)).
exact: Vbnd_free.
Qed.
(** not polar, Dirichlet *)
Lemma exact_nd (y : 'cV_(rk S K1)) : polar = false -> o = true -> c *m y = 0 -> phi_r y = 0 -> exists f, y = g *m f.
Proof.
move=> Hp Ho Hy Hr00; have HV : Vs K1 (coefs S K1 y) by apply: V_coefs.
apply: (@exact_of (fun _ _ => 0) y Hy).
  by move=> j l Hj Hl; have [-> ->] := inner1 HV Hp Ho Hj Hl; rewrite subrr.
have Hb := out0_ok (closed_of_curl0 Hy) (edge1 HV Ho).
have E j l : (j < nt)%N -> (l < nz)%N -> out0 nr (coefs S K1 y) j l = 0.
  move=> Hj Hl; rewrite (@circ_const F nt (fun j => out0 nr (coefs S K1 y) j l)) //.
    rewrite (@circ_const F nz (fun l => out0 nr (coefs S K1 y) 0%N l)) ?{1}/out0 -/(phi_r y) ?Hr00 ?oppr0 //.
    by move=> m Hm; have [_ ->] := Hb 0%N m Ht Hm; have [] := inner1 HV Hp Ho Ht Hm.
  by move=> m Hm; have [-> _] := Hb m l Hm Hl; have [] := inner1 HV Hp Ho Hm Hl.
apply/(VsF _ _ Hp) => a i j l Ha; rewrite in0 => /and3P [Hi Hj Hl]; rewrite freeE negbK => /andP [_ /orP [/eqP ->|Hi']].
  by rewrite /pot prim0 addr0.
have -> : i = nr.-1 by lia.
by rewrite /pot add0r -[LHS]opprK -/(out0 nr (coefs S K1 y) j l) E // oppr0.
Qed.

Lemma bettiE k p q : polar = p -> o = q -> betti polar o k = betti p q k. Proof. by move=> -> ->. Qed.

Lemma gen_z : o = false -> exists y : 'cV_(rk S K1), c *m y = 0 /\
  forall b i j l, (b < 3)%N -> in_comp s K1 b (i, j, l) -> coefs S K1 y b i j l = genc 2 (nz%:R^-1) b i j l.
Proof.
move=> Ho; apply: gen_closed; have [Hp|Hp] := boolE polar; last exact: Vbnd_free.
apply/(VsT _ _ Hp); exists (fun _ _ => 0), (fun _ _ => nz%:R^-1) => j l Hj Hl; split; rewrite ?Ho //.
- by rewrite sum2O /= !mul0r addr0.
- by rewrite sum2O /= !mul0r addr0.
- by move=> i Hi; have [Hx _] := Hxi Hp Hj; rewrite sum3O /= -!mulrDr Hx // mulr1.
Qed.

Lemma rank1 : (\rank g + betti polar o K1 + \rank c)%N = rk S K1.
Proof.
have [Hp|Hp] := boolE polar; have [Ho|Ho] := boolE o; rewrite (bettiE K1 Hp Ho) /=.
- apply: (@cohom_rank_f F _ _ _ 0 g c (fun _ _ => 0) (fun _ => 0)) => //; try by [move=> [] | move=> _; rewrite mulmx0].
  by move=> u Hu _; apply: exact_pd.
- have [y1 [Hy1 Gy1]] := gen_z Ho; have [_ _ Pz] := phi_gen Gy1.
  apply: (@cohom_rank_f F _ _ _ 1 g c (fun _ => phi_z) (fun _ => y1)) => //.
  + by move=> _; exact: phi_z_lin.
  + by move=> _; exact: phi_z_grad.
  + by move=> a a'; rewrite !ord1 Pz /= natinv.
  + by move=> u Hu /(_ 0) H0; apply: exact_pf.
- have [|y1 [Hy1 Gy1]] := @gen_closed 0 (nr.-1%:R^-1).
    apply/(VsF _ _ Hp) => a i j l Ha; rewrite freeE negbK => _ /andP [/andP [_]].
    by case: a Ha => [|[|[|a]]].
  have [Pr _ _] := phi_gen Gy1.
  apply: (@cohom_rank_f F _ _ _ 1 g c (fun _ => phi_r) (fun _ => y1)) => //.
  + by move=> _; exact: phi_r_lin.
  + move=> _ f; rewrite phi_r_grad (edge0 _ Ho) //; last exact: V_coefs.
    have /(VsF _ _ Hp) H : Vs K0 (coefs S K0 f) by apply: V_coefs.
    by rewrite H ?subrr // ?in0 ?Hr0 ?Ht ?Hz // freeE /= andbT andbT negbK.
  + by move=> a a'; rewrite !ord1 Pr /= natinv.
  + by move=> u Hu /(_ 0) H0; apply: exact_nd.
- have [y2 [Hy2 Gy2]] := gen_z Ho; have [_ Pt2 Pz2] := phi_gen Gy2.
  have [|y1 [Hy1 Gy1]] := @gen_closed 1 (nt%:R^-1); first exact: Vbnd_free.
  have [_ Pt1 Pz1] := phi_gen Gy1.
  pose two T (a : 'I_2) (x y : T) := if nat_of_ord a == 0%N then x else y.
  apply: (@cohom_rank_f F _ _ _ 2 g c (fun a => two _ a phi_t phi_z) (fun a => two _ a y1 y2)) => //; rewrite /two.
  + by move=> a x y z; case: ifP; rewrite ?phi_t_lin ?phi_z_lin.
  + by move=> a; case: ifP.
  + by move=> a f; case: ifP => _; rewrite ?phi_t_grad ?phi_z_grad.
  + by case=> [[|[|a]] Ha] //; case=> [[|[|a']] Ha'] //=; rewrite ?Pt1 ?Pt2 ?Pz1 ?Pz2 /= ?natinv.
  + move=> u Hu H; apply: exact_nf => //; first by have := H (@Ordinal 2 0 isT).
    by have := H (@Ordinal 2 1 isT).
Qed.

Definition total3 (y : 'cV_(rk S K3)) : F := total nr nt nz (coefs S K3 y 0%N).
Lemma total3_lin a x y : total3 (a *: x + y) = a * total3 x + total3 y.
Proof. by rewrite /total3 -totalD; apply: total_eq => i j l _ _ _; rewrite coefs_lin. Qed.
Lemma total3_div x : o = true -> total3 (d *m x) = 0.
Proof.
move=> Ho; rewrite /total3 (@total_eq _ _ _ _ _ (cdiv nt nz (coefs S K2 x) 0%N)).
  apply: (total_div Ht Hz) => j l Hj Hl; have HV : Vs K2 (coefs S K2 x) by apply: V_coefs.
  by rewrite (edge2 HV Ho) // (axis2 HV Ho).
by move=> i j l Hi Hj Hl; rewrite co2 // in3 // Hi Hj Hl.
Qed.
(** a 3-form is a divergence, if its total vanishes or there is no boundary condition *)
Lemma exact3 y : (o = true -> total3 y = 0) -> exists x, y = d *m x.
Proof.
move=> Htot; set r := coefs S K3 y 0%N.
have Hr3 : polar = true -> forall j l, (j < nt)%N -> (l < nz)%N -> r 0%N j l = 0.
  by move=> Hp j l Hj Hl; have /(VsT _ _ Hp) H : Vs K3 (coefs S K3 y) by [apply: V_coefs]; apply: H.
have [//||x Hx] := @V_real K2 (wtop nr nt nz o r).
  have [Hp|Hp] := boolE polar.
  - have Hn : o -> (2 < nr)%N by move=> Ho; move: Hnr; rewrite Hp Ho.
    apply/(VsT _ _ Hp); exists (fun _ _ => 0) => j l Hj Hl.
    have L a i : (a < 3)%N -> (i < 2)%N -> (a == 0%N) || (i == 0%N) -> wtop nr nt nz o r a i j l = 0.
      move=> Ha Hi Hai; apply: (wtop_low Hr Ht Hz) => //.
        by move/Hn; case: a Ha Hai => [|[|[|a]]] //=; lia.
      by move=> m Hm; have -> : m = 0%N; [lia | exact: Hr3].
    rewrite (L 0%N 0%N) // (L 0%N 1%N) // (L 1%N 0%N) // (L 2%N 0%N) // !sum2O /= !mul0r addr0 oppr0; split=> //.
    by move=> Ho; apply: (wtop_edge Hr Ht Hz) => //; apply: Htot.
  - apply/(VsF _ _ Hp) => a i j l Ha; rewrite in2 // => /and3P [Hi Hj Hl].
    rewrite freeE negbK => /andP [/andP [Ho /eqP Ea]] /=; move: Ha Hi; rewrite Ea /= => _ Hi.
    case/orP => [/eqP ->|Hi']; first by rewrite /wtop /= /w0_ prim0.
    have -> : i = nr.-1 by lia.
    by apply: (wtop_edge Hr Ht Hz) => //; apply: Htot.
exists x; apply: coefs_ext => [|a i j l Ha Hin]; first exact: Hf.
have {Ha} Ea : a = 0%N by case: a Ha {Hin}.
rewrite Ea in Hin *; rewrite co2 // -/r -(cdiv_wtop nr nt nz o r 0%N i j l).
have := Hin; rewrite in3 // => /and3P [Hi Hj Hl]; have Hj' := ltn_pmod j.+1 Ht; have Hl' := ltn_pmod l.+1 Hz.
by rewrite /cdiv /dr_ /dt_ /dz_ !Hx // in2 //= ?Hj ?Hl ?Hj' ?Hl' ?andbT //; lia.
Qed.

Lemma rank3 : (\rank d + betti polar o K3)%N = rk S K3.
Proof.
have Eb : betti polar o K3 = o by case: (polar); case: (o).
rewrite Eb; have [Ho|Ho] := boolE o.
- have Eo : nat_of_bool o = 1%N by rewrite Ho.
  have [//||y1 Hy1] := @V_real K3 (fun _ i j l => ((i == nr.-2) && (j == 0%N) && (l == 0%N))%:R : F).
    have [Hp|Hp] := boolE polar; last first.
      by apply/(VsF _ _ Hp) => a i j l Ha Hin; rewrite freeE negbK andbF.
    apply/(VsT _ _ Hp) => j l Hj Hl; rewrite (_ : (0%N == nr.-2) = false) //.
    by move: Hnr; rewrite Hp Ho /= => H; apply/eqP; lia.
  have := @cohom_rank_f F _ _ 0 1 d (0 : 'M_(0, rk S K3)) (fun _ => total3) (fun _ => y1).
  rewrite mxrank0 addn0 Eo => -> //; rewrite ?mul0mx //.
  + by move=> _; exact: total3_lin.
  + by move=> _ f; exact: total3_div.
  + move=> a a'; rewrite !ord1 /= -[RHS](@total_delta F nr nt nz Ht Hz nr.-2); last by lia.
    by apply: total_eq => i j l Hi Hj Hl; rewrite Hy1 // in3 // Hi Hj Hl.
  + by move=> u _ /(_ 0) H; apply: exact3.
- have Eo : nat_of_bool o = 0%N by rewrite Ho.
  have := @cohom_rank_f F _ _ 0 0 d (0 : 'M_(0, rk S K3)) (fun _ _ => 0) (fun _ => 0).
  rewrite mxrank0 !addn0 Eo addn0 => -> //; rewrite ?mul0mx //; try by [move=> [] | move=> _; rewrite mulmx0].
  move=> u _ _; apply: exact3 => Ho'; exfalso; move: Ho' Ho; clear; by move=> ->.
Qed.
Lemma euler : (rk S K0 + rk S K2)%N = (rk S K1 + rk S K3)%N.
Proof.
clear Hco Hcg Hdc Hf g c d; rewrite /DeRhamSequence.
case: polar Hnr => /= Hn.
- rewrite /pdim /pn1 /pn2 /pn3 !(drE, dtE, dzE) !addn0.
  have -> : nr.-1.-1 = (nr - 2 - o + o)%N by move: Hn; case: (o) => /=; lia.
  rewrite /=; move: (nr - 2 - o)%N => n; clear; by nia.
- rewrite /bdim /bn1 /bn2 /bn3 /= !(drE, dtE, dzE).
  move: (bc_dim nr _) (nr.-1) => n m; clear; by nia.
Qed.
Lemma rank2 : (\rank c + betti polar o K2 + \rank d)%N = rk S K2.
Proof.
have := euler; have := rank0; have := rank1; have := rank3.
have -> : (~~ o : nat) = betti polar o K0 by case: (polar); case: (o).
have : (betti polar o K0 + betti polar o K2 = betti polar o K1 + betti polar o K3)%N by case: (polar); case: (o).
move: (betti polar o K0) (betti polar o K1) (betti polar o K2) (betti polar o K3) => b0 b1 b2 b3 Hb H3 H1 H0 He.
have L (x y z r0 r1 r2 r3 : nat) : (b0 + b2 = b1 + b3 -> z + b3 = r3 -> x + b1 + y = r1 -> x + b0 = r0 ->
  r0 + r2 = r1 + r3 -> y + b2 + z = r2)%N by clear; lia.
exact: (L _ _ _ _ _ _ _ Hb H3 H1 H0 He).
Qed.
End Ranks.
End SeqTop.

(** *** the assembled sequence *)
Section Assembled.
Variable F : realFieldType.
Variables (s : shape) (t : tables F) (G Gi : nat -> nat -> nat -> F) (J w : nat -> F)
  (xi : nat -> nat -> nat -> F) (polar dirichlet : bool).
Hypothesis Hadm : admissible s xi polar dirichlet.
Notation S := (DeRhamSequence s t G Gi J w xi polar dirichlet).
Hypothesis HM : masses_invertible S.

Lemma masses_free k : k <> KV -> row_free (E_ S k).
Proof. by case: HM => U0 U1 U2 U3; case: k => // _; [apply: mass_row_free U0 | apply: mass_row_free U1 | apply: mass_row_free U2 | apply: mass_row_free U3]. Qed.

Lemma strong_ranks :
  [/\ (\rank (strong_grad S) + betti polar dirichlet K0)%N = rk S K0,
      (\rank (strong_grad S) + betti polar dirichlet K1 + \rank (strong_curl S))%N = rk S K1,
      (\rank (strong_curl S) + betti polar dirichlet K2 + \rank (strong_div S))%N = rk S K2
    & (\rank (strong_div S) + betti polar dirichlet K3)%N = rk S K3].
Proof.
have Hf := masses_free; have [U0 U1 U2 U3] := HM.
have [g [c [d [[Hg Hc Hd] [H1 [H2 Hco]]]]]] := seq_derivs t G Gi J w Hadm.
rewrite (strong_gradE Hg U1) (strong_curlE Hc U2) (strong_divE Hd U3).
have Hcg := H1 (Hf K2 ltac:(by [])); have Hdc := H2 (Hf K3 ltac:(by [])).
have Eb : (~~ dirichlet : nat) = betti polar dirichlet K0 by case: (polar); case: (dirichlet).
rewrite -Eb; move: Hadm g c d {Hg Hc Hd H1 H2} Hco Hcg Hdc Hf {U0 U1 U2 U3}.
clear HM.
case: s => nr nt nz [] [] [] // Ha; try by case: Ha.
move=> g c d Hco Hcg Hdc Hf; split.
- exact: (rank0 Ha Hco Hf).
- exact: (rank1 Ha Hco Hcg Hf).
- exact: (rank2 Ha Hco Hcg Hf).
- exact: (rank3 Ha Hco Hf).
Qed.


(** the divergences are the 3-forms of zero total mass (all 3-forms, without boundary conditions) *)
Lemma div_image y : (exists x, y = strong_div S *m x) <-> (dirichlet -> total_mass (S := S) y = 0).
Proof.
have Hf := masses_free; have [U0 U1 U2 U3] := HM.
have [g [c [d [[Hg Hc Hd] [H1 [H2 Hco]]]]]] := seq_derivs t G Gi J w Hadm.
rewrite (strong_divE Hd U3).
have Hcg := H1 (Hf K2 ltac:(by [])); have Hdc := H2 (Hf K3 ltac:(by [])).
move: Hadm g c d {Hg Hc Hd H1 H2} Hco Hcg Hdc Hf y {U0 U1 U2 U3}.
clear HM; case: s => nr nt nz [] [] [] // Ha; try by case: Ha.
move=> g c d Hco Hcg Hdc Hf y.
have ET (z : 'cV_(rk (DeRhamSequence (Shape nr nt nz true false false) t G Gi J w xi polar dirichlet) K3)) : total_mass z = total3 (nr := nr) (nt := nt) (nz := nz) z.
  rewrite /total_mass /total3 sh_s /total /tsum /rsum /prim /dr /= subn1.
  have E3 (f : nat -> nat -> nat -> F) n0 n1 n2 :
    \sum_(i < n0) \sum_(j < n1) \sum_(l < n2) f i j l = \sum_(l < n2) \sum_(j < n1) \sum_(i < n0) f i j l.
    rewrite [RHS]exchange_big /= [LHS]exchange_big /=; apply: eq_bigr => j _; exact: exchange_big.
  exact: E3.
split=> [[x ->] Ho|H].
  by rewrite ET; apply: (total3_div Ha Hco).
by apply: (exact3 Ha Hco Hf) => Ho; rewrite -ET; apply: H.
Qed.

(** closed forms of a degree without cohomology are exact *)
Lemma exact_of_rank n m p (g : 'M[F]_(n, m)) (c : 'M[F]_(p, n)) :
  c *m g = 0 -> (\rank g + \rank c)%N = n -> forall x : 'cV_n, c *m x = 0 -> exists f, x = g *m f.
Proof.
move=> Hcg Hr x Hx.
have Hs : (g^T <= kermx c^T)%MS by apply/sub_kermxP; rewrite -trmx_mul Hcg trmx0.
have /eqmxP E : (g^T == kermx c^T)%MS.
  by rewrite -(geq_leqif (mxrank_leqif_eq Hs)) mxrank_ker !mxrank_tr -{1}Hr addnK.
have : (x^T <= g^T)%MS by rewrite E; apply/sub_kermxP; rewrite -trmx_mul Hx trmx0.
by case/submxP => f Hfx; exists f^T; apply: trmx_inj; rewrite trmx_mul trmxK.
Qed.

Lemma total_mass_lin a x y : total_mass (S := S) (a *: x + y) = a * total_mass x + total_mass y.
Proof.
rewrite /total_mass; rewrite mulr_sumr -big_split; apply: eq_bigr => i _ /=.
rewrite mulr_sumr -big_split; apply: eq_bigr => j _ /=.
rewrite mulr_sumr -big_split; apply: eq_bigr => l _ /=.
rewrite /coefs mulr_sumr -big_split; apply: eq_bigr => k _ /=.
by rewrite mulmxDr -scalemxAr !mxE.
Qed.
End Assembled.
