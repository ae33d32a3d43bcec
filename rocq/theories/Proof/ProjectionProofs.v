(** L2 projections and cross product projections. *)
From Coq Require Import Ring Field.
From mathcomp Require Import all_ssreflect all_algebra.
From Verif Require Import Model.Forms Model.DeRham Model.Geometry Spec.GeomSpec Spec.SeqSpec Proof.MCRing
   Proof.SequenceAlg Proof.Complex Proof.GeometryProofs Proof.MassSPD Proof.DeRhamAlg Proof.SeqFacts.
Set Implicit Arguments.
Unset Strict Implicit.
Unset Printing Implicit Defensive.
Import Order.TTheory GRing.Theory Num.Theory.
Local Open Scope ring_scope.

Section Proj.
Variable F : realFieldType.
Add Field Ffp : (@mc_fth F).
Variables (S : drseq F) (DF : nat -> mat3 F).

(** x . (E integrate_against(g, f)) = sum_j sum_k value_x . f *)
Lemma dot_integrate (k : deg) d (f : nat -> nat -> F) (x : 'cV[F]_(rk S k)) :
  dotv x (E_ S k *m integrate_against (n_q S) d (getter S k) f _)
  = \sum_(j < n_q S) \sum_(a < d) form_value x j a * f j a.
Proof.
rewrite /dotv mulmxA mxE.
transitivity (\sum_(i < fdim (sh S) k) \sum_(j < n_q S) \sum_(a < d) ((E_ S k)^T *m x) i 0 * getter S k i j a * f j a).
  apply: eq_bigr => i _; rewrite [X in _ * X]mxE mulr_sumr; apply: eq_bigr => j _; rewrite mulr_sumr; apply: eq_bigr => a _.
  by rewrite mulrA -[in LHS](trmxK (E_ S k)) -trmx_mul mxE.
rewrite exchange_big /=; apply: eq_bigr => j _; rewrite exchange_big /=; apply: eq_bigr => a _.
by rewrite /form_value /evaluate_at_xq mulr_suml; apply: eq_bigr => i _; rewrite [X in X * _]mulrC.
Qed.

Lemma mass_quad k (x y : 'cV[F]_(rk S k)) : k <> KV ->
  form (mass S k) x y = \sum_(j < n_q S) \sum_(a < dcomp k) \sum_(b < dcomp k)
    form_value x j a * (match k with K0 => W0 S | K1 => W1 S | K2 => W2 S | _ => W3 S end j a b) * form_value y j b.
Proof.
move=> Hk.
have H d n (g W : nat -> nat -> nat -> F) r (E : 'M[F]_(r, n)) (x' y' : 'cV[F]_r) :
  form (E *m assemble (n_q S) d g g W n n *m E^T) x' y'
  = \sum_(j < n_q S) \sum_(a < d) \sum_(b < d) evaluate_at_xq g (E^T *m x') j a * W j a b * evaluate_at_xq g (E^T *m y') j b.
  rewrite /form !mulmxA -(mulmxA _ E^T y') -{1}[y']trmxK -trmx_mul assemble_row.
  by apply: eq_bigr => j _; apply: eq_bigr => a _; apply: eq_bigr => b _; rewrite !fvalE !trmx_mul !trmxK.
by case: k x y Hk => // x y _; rewrite /mass ?/M0 ?/M1 ?/M2 ?/M3 H.
Qed.

Hypothesis HG : geometry_of S DF.
Hypothesis HR : regular S DF.

Local Notation l2 := (l2_product S DF).

Lemma l2E3 f g : l2 3 f g = \sum_(j < n_q S) dot3 (f j) (g j) * det33 (DF j) * w_j S j.
Proof. by apply: eq_bigr => j _; rewrite -sum3d !mulr_suml. Qed.
Lemma l2E1 f g : l2 1 f g = \sum_(j < n_q S) f j 0%N * g j 0%N * det33 (DF j) * w_j S j.
Proof. by apply: eq_bigr => j _; rewrite big_ord_recl big_ord0 addr0. Qed.

(** M_k is the Gram matrix of the physical fields *)
Lemma mass_l2 k (x y : 'cV[F]_(rk S k)) : k <> KV ->
  form (mass S k) x y = l2 (dcomp k) (physical DF x) (physical DF y).
Proof.
move=> Hk; rewrite mass_quad //.
case: k x y Hk => // x y _; rewrite ?l2E3 ?l2E1; apply: eq_bigr => j _;
 have [EG EGi EJ] := HG (ltn_ord j); have Hr := HR (ltn_ord j); have Hd := det_neq0 (reg_inv Hr); rewrite /physical.
- by rewrite !big_ord_recl !big_ord0 !addr0 /W0 /= EJ; mc_norm; ring.
- rewrite /= dot_BB // mulr_suml mulr_suml; apply: eq_bigr => a _; rewrite !mulr_suml; apply: eq_bigr => b _.
  by rewrite /W1 EGi EJ; mc_norm; ring.
- rewrite [pushforward]lock -lock !push2E sc_dot dot_sc dot_AA !mulr_suml; apply: eq_bigr => a _; rewrite !mulr_suml; apply: eq_bigr => b _.
  rewrite /W2 EG EJ; move: (det33 _) Hd => dd Hd; rewrite mulfVK //.
  move: (form_value x j a) (metric _ a b) (form_value y j b) (w_j S j) (dd^-1) => p1 p2 p3 p4 p5; mc_norm; ring.
- by rewrite !big_ord_recl !big_ord0 !addr0 /W3 /= EJ; move: (det33 _) Hd => dd Hd; rewrite ![in RHS]mulrA mulfVK //; mc_norm; ring.
Qed.

(** Projector_k represents f -> int f . (test function) *)
Lemma projector_l2 k f (p x : 'cV[F]_(rk S k)) : Projector S DF k f = Some p ->
  dotv x p = l2 (dcomp k) (physical DF x) f.
Proof.
case: k p x => // p x [<-].
- apply: (etrans (@dot_integrate K0 1 _ x)); rewrite l2E1.
  apply: eq_bigr => j _; have [_ _ EJ] := HG (ltn_ord j).
  by rewrite big_ord_recl big_ord0 addr0 EJ /physical /=; mc_norm; ring.
- apply: (etrans (@dot_integrate K1 3 _ x)); rewrite l2E3.
  apply: eq_bigr => j _; have [_ _ EJ] := HG (ltn_ord j).
  have -> : dot3 (physical DF x j) (f j) = dot3 (form_value x j) (mulv3 (inv33 (DF j)) (f j)) by rewrite -dot_mulBT.
  by rewrite -sum3d !mulr_suml EJ; apply: eq_bigr => a _; mc_norm; ring.
- apply: (etrans (@dot_integrate K2 3 _ x)); rewrite l2E3.
  apply: eq_bigr => j _; have Hr := HR (ltn_ord j); have Hd := det_neq0 (reg_inv Hr).
  rewrite /physical push2E sc_dot mulfVK // dot_mulA -sum3d !mulr_suml; apply: eq_bigr => a _; mc_norm; ring.
- apply: (etrans (@dot_integrate K3 1 _ x)); rewrite l2E1.
  apply: eq_bigr => j _; have Hr := HR (ltn_ord j); have Hd := det_neq0 (reg_inv Hr).
  rewrite big_ord_recl big_ord0 addr0 /physical /=; move: (det33 _) Hd => dd Hd; rewrite [_ / dd * _]mulrAC mulfVK // mulrA //.
Qed.

Lemma sumsc (X V : vec3 F) c : \sum_(a < 3) X a * (V a * c) = dot3 X V * c.
Proof. by rewrite -sum3d mulr_suml; apply: eq_bigr => a _; rewrite mulrA. Qed.
Lemma dotr (u v v' : vec3 F) : eq3 v v' -> dot3 u v = dot3 u v'.
Proof. exact: dot3_ext. Qed.
Lemma refl3 (u : vec3 F) : eq3 u u. Proof. by []. Qed.
Lemma dfin (d p q : F) : d != 0 -> p * (q / d) = p / d / d * d * q.
Proof. by move=> Hd; rewrite mulfVK // -!mulrA; congr (_ * _); rewrite mulrC. Qed.
Lemma dfin1 (d p q : F) : d != 0 -> p * q = p / d * d * q.
Proof. by move=> Hd; rewrite mulfVK. Qed.

Lemma cpp_l2 n m k (w : 'cV[F]_(rk S m)) (u : 'cV[F]_(rk S k)) (p x : 'cV[F]_(rk S n)) :
  CrossProductProjection n w u = Some p ->
  dotv x p = l2 3 (physical DF x) (fun j => cross (physical DF w j) (physical DF u j)).
Proof.
rewrite l2E3.
case: n p x => // p x; case: m w => // w; case: k u => // u [<-];
 rewrite ?[get_12 _ K1]/(getter S K1) ?[get_12 _ K2]/(getter S K2) dot_integrate; apply: eq_bigr => j _;
 have [EG EGi EJ] := HG (ltn_ord j); have Hr := HR (ltn_ord j); have HA := reg_inv Hr; have Hd := det_neq0 HA;
 rewrite /physical ?push1E ?push2E ?EG ?EGi ?EJ;
 rewrite -/(form_value w) -/(form_value u);
 move: (form_value x j) (form_value w j) (form_value u j) => X W U.
- by rewrite sumsc (dotr _ (X2 HA W U)) dot_sc BTA_dot // mulfVK.
- rewrite sumsc (dotr _ (sc_cross _ _ _)) dot_sc [in RHS](dotr _ (_ : eq3 _ (sc (det33 (DF j))^-1 (mulv3 (DF j) (cross (einsum_kl_k (metric (DF j)) W) U))))).
    by rewrite dot_sc BTA_dot // dfin.
  by rewrite (cross_ext (AG Hr W) (refl3 _)); apply: X2.
- rewrite sumsc (dotr _ (sc_cross _ _ _)) dot_sc (dotr _ (cross_sc _ _ _)) dot_sc (dotr _ (X1 HA _ _)) dot_sc mulfK //.
  by rewrite mulfVK // dot_BB // dot_ein // => a b; apply: inv_metric_sym.
- rewrite sumsc (dotr _ (X2 HA W U)) dot_sc sc_dot dot_AA dot_ein; first by rewrite -dfin.
  by move=> *; apply: metric_sym.
- rewrite sumsc (dotr _ (cross_sc _ _ _)) dot_sc [in RHS](dotr _ (_ : eq3 _ (sc (det33 (DF j)) (mulv3 (tr33 (inv33 (DF j))) (cross (einsum_kl_k (inv33 (metric (DF j))) W) U))))).
    by rewrite dot_sc mulfK // sc_dot mulfVK // [in RHS]dotC BTA_dot // [in RHS]dotC.
  by rewrite (cross_ext (BGi Hr W) (refl3 _)); apply: X1.
- rewrite sumsc (dotr _ (sc_cross _ _ _)) dot_sc [in RHS](dotr _ (_ : eq3 _ (sc (det33 (DF j)) (mulv3 (tr33 (inv33 (DF j))) (cross W (einsum_kl_k (inv33 (metric (DF j))) U)))))).
    by rewrite dot_sc mulfK // sc_dot mulfVK // [in RHS]dotC BTA_dot // [in RHS]dotC.
  by rewrite (cross_ext (refl3 _) (BGi Hr U)); apply: X1.
- rewrite sumsc (dotr _ (sc_cross _ _ _)) dot_sc (dotr _ (cross_sc _ _ _)) dot_sc (dotr _ (X1 HA _ _)) dot_sc mulfK //.
  by rewrite sc_dot [in RHS]dotC BTA_dot // [in RHS]dotC -dfin.
Qed.
End Proj.

Section Pos.
Variable F : realFieldType.
Add Field Ffq : (@mc_fth F).
Variables (S : drseq F) (DF : nat -> mat3 F).
Hypothesis HG : geometry_of S DF.
Hypothesis HR : regular S DF.

Lemma geometry_of_sym : geometry_sym S.
Proof.
move=> j k m Hj Hk Hm; have [EG EGi _] := HG Hj; rewrite EG EGi; split; first exact: metric_sym.
by apply: inv_metric_sym => //; apply: HR.
Qed.

Lemma dot_sq_gt0 (u : vec3 F) : (exists2 k, (k < 3)%N & u k != 0) -> 0 < dot3 u u.
Proof.
move=> [k Hk Hu]; rewrite -sum3d (bigD1 (Ordinal Hk)) //=; apply: ltr_paddr.
  by apply: sumr_ge0 => i _; rewrite -expr2 sqr_ge0.
by rewrite -expr2 exprn_even_gt0.
Qed.
Lemma dot_sq_ge0 (u : vec3 F) : 0 <= dot3 u u.
Proof. by rewrite /dot3 -!expr2 !addr_ge0 ?sqr_ge0. Qed.

Lemma nz_mulv (M N : mat3 F) (x : vec3 F) :
  (forall k, (k < 3)%N -> mulv3 N (mulv3 M x) k = x k) ->
  (exists2 k, (k < 3)%N & x k != 0) -> exists2 k, (k < 3)%N & mulv3 M x k != 0.
Proof.
move=> H [k Hk Hx]; case E : [exists m : 'I_3, mulv3 M x m != 0].
  by have /existsP [m Hm] := E; exists m.
move: Hx; rewrite -H // /mulv3 big1 ?eqxx // => m _.
have /negbT/existsPn/(_ m) := E; rewrite negbK => /eqP; rewrite {1}/mulv3 => ->; exact: mulr0.
Qed.

Lemma mulv3A (M N : mat3 F) x k : (forall a b, (a < 3)%N -> (b < 3)%N -> \sum_(m < 3) N a m * M m b = (a == b)%:R) ->
  (k < 3)%N -> mulv3 N (mulv3 M x) k = x k.
Proof.
move=> H Hk; transitivity (\sum_(b < 3) (\sum_(m < 3) N k m * M m b) * x b).
  rewrite /mulv3; under eq_bigr => m _ do rewrite mulr_sumr.
  rewrite exchange_big /=; apply: eq_bigr => b _; rewrite mulr_suml; apply: eq_bigr => m _; exact: mulrA.
rewrite (eq_bigr (fun b : 'I_3 => (k == b)%:R * x b)); last by move=> b _; rewrite H.
by case: k Hk => [|[|[|k]]] // _; rewrite sum3O /= ?mul1r ?mul0r ?addr0 ?add0r.
Qed.

Lemma mulv3_BA (A : mat3 F) x k : (10%:R ^+ 10)^-1 <= `|det33 A| -> (k < 3)%N -> mulv3 (inv33 A) (mulv3 A x) k = x k.
Proof. by move=> HA; apply: mulv3A => *; apply: inv33_left. Qed.
Lemma mulv3_AB (A : mat3 F) x k : (10%:R ^+ 10)^-1 <= `|det33 A| -> (k < 3)%N -> mulv3 A (mulv3 (inv33 A) x) k = x k.
Proof. by move=> HA; apply: mulv3A => *; apply: inv33_right. Qed.
Lemma mulv3_ATBT (A : mat3 F) x k : (10%:R ^+ 10)^-1 <= `|det33 A| -> (k < 3)%N ->
  mulv3 (tr33 A) (mulv3 (tr33 (inv33 A)) x) k = x k.
Proof.
move=> HA; apply: mulv3A => a b Ha Hb; rewrite eq_sym -(inv33_left HA Hb Ha).
by apply: eq_bigr => m _; rewrite /tr33 mulrC.
Qed.
Lemma mulv3_BTAT (A : mat3 F) x k : (10%:R ^+ 10)^-1 <= `|det33 A| -> (k < 3)%N ->
  mulv3 (tr33 (inv33 A)) (mulv3 (tr33 A) x) k = x k.
Proof.
move=> HA; apply: mulv3A => a b Ha Hb; rewrite eq_sym -(inv33_right HA Hb Ha).
by apply: eq_bigr => m _; rewrite /tr33 mulrC.
Qed.

Lemma pull_push k (A : mat3 F) (v : vec3 F) a : (10%:R ^+ 10)^-1 <= `|det33 A| -> (a < dcomp k)%N ->
  pullback k A (pushforward k A v) a = v a /\ pushforward k A (pullback k A v) a = v a.
Proof.
move=> HA; have Hd := det_neq0 HA; case: k => Ha; rewrite /pullback /pushforward; split => //.
- exact: mulv3_ATBT.
- exact: mulv3_BTAT.
- rewrite -[RHS](mulv3_BA v HA) // /mulv3 mulr_suml; apply: eq_bigr => m _.
  by rewrite -mulrA mulfVK.
- rewrite -[RHS](mulv3_AB v HA) // /mulv3 mulr_suml; apply: eq_bigr => m _.
  by rewrite -mulrA mulfK.
- by rewrite mulfVK.
- by rewrite mulfK.
- exact: mulv3_BA.
- exact: mulv3_AB.
Qed.

Hypothesis HO : oriented S DF.
Lemma geometry_of_pos : geometry_pos S.
Proof.
move=> j Hj; have [EG EGi EJ] := HG Hj; have [HJ Hw] := HO Hj; have Hr := HR Hj; have HA := reg_inv Hr.
split=> //; first by rewrite EJ.
- move=> x Hx; rewrite EG -dot_AA; apply: dot_sq_gt0.
  by apply: (nz_mulv (N := inv33 (DF j))) => // k Hk; apply: mulv3_BA.
- move=> x Hx; rewrite EGi -dot_BB //; apply: dot_sq_gt0.
  by apply: (nz_mulv (N := tr33 (DF j))) => // k Hk; apply: mulv3_ATBT.
Qed.

(** *** best approximation *)
Local Notation l2 := (l2_product S DF).
Definition sub3 (f g : nat -> vec3 F) : nat -> vec3 F := fun j k => f j k - g j k.

Lemma l2_subr d f g h : l2 d f (sub3 g h) = l2 d f g - l2 d f h.
Proof.
rewrite /l2_product -sumrB; apply: eq_bigr => j _; rewrite -sumrB; apply: eq_bigr => k _.
by rewrite /sub3; mc_norm; ring.
Qed.
Lemma l2_sym d f g : l2 d f g = l2 d g f.
Proof. by apply: eq_bigr => j _; apply: eq_bigr => k _; mc_norm; ring. Qed.
Lemma l2_ext d f f' g g' : (forall j k, (j < n_q S)%N -> (k < d)%N -> f j k = f' j k) ->
  (forall j k, (j < n_q S)%N -> (k < d)%N -> g j k = g' j k) -> l2 d f g = l2 d f' g'.
Proof. by move=> H H'; apply: eq_bigr => j _; apply: eq_bigr => k _; rewrite H // H'. Qed.
Lemma l2_ge0 d f : 0 <= l2 d f f.
Proof.
apply: sumr_ge0 => j _; have [HJ Hw] := HO (ltn_ord j); apply: sumr_ge0 => k _.
apply: mulr_ge0; last exact: ltW.
apply: mulr_ge0; last exact: ltW.
by rewrite -expr2 sqr_ge0.
Qed.

Lemma physical_sub k (x y : 'cV[F]_(rk S k)) j a : physical DF (x - y) j a = sub3 (physical DF x) (physical DF y) j a.
Proof.
have E b : form_value (x - y) j b = form_value x j b - form_value y j b.
  rewrite /form_value mulmxBr /evaluate_at_xq -sumrB; apply: eq_bigr => i _; by rewrite !mxE mulrBr.
have M (B : mat3 F) b : mulv3 B (form_value (x - y) j) b = mulv3 B (form_value x j) b - mulv3 B (form_value y j) b.
  by rewrite /mulv3 -sumrB; apply: eq_bigr => m _; rewrite E mulrBr.
rewrite /sub3 /physical; case: k x y E M => x y E M; rewrite /pushforward ?E ?M ?mulrBl //.
Qed.

Lemma dotvB n (x y p : 'cV[F]_n) : dotv (x - y) p = dotv x p - dotv y p.
Proof. by rewrite /dotv linearB mulmxBl !mxE. Qed.

Lemma form_dotv n (M : 'M[F]_n) x y : form M x y = dotv x (M *m y).
Proof. by rewrite /form /dotv mulmxA. Qed.

Section Best.
Variables (k : deg) (f : nat -> vec3 F) (p : 'cV[F]_(rk S k)).
Hypothesis Hp : Projector S DF k f = Some p.
Hypothesis HM : mass S k \in unitmx.
Lemma projector_notKV : k <> KV. Proof. by case: k p Hp. Qed.
Let sol := solve (mass S k) p.

Lemma sol_orth (z : 'cV[F]_(rk S k)) : l2 (dcomp k) (physical DF z) (sub3 f (physical DF sol)) = 0.
Proof.
rewrite l2_subr -(projector_l2 HG HR z Hp) -(mass_l2 HG HR _ _ projector_notKV) form_dotv.
by rewrite /sol /solve mulKVmx // subrr.
Qed.

Lemma best_pyth (c : 'cV[F]_(rk S k)) :
  l2 (dcomp k) (sub3 f (physical DF c)) (sub3 f (physical DF c))
  = l2 (dcomp k) (sub3 f (physical DF sol)) (sub3 f (physical DF sol)) + form (mass S k) (sol - c) (sol - c).
Proof.
rewrite (mass_l2 HG HR _ _ projector_notKV).
set e := sub3 f (physical DF sol); set z := physical DF (sol - c).
have E : forall j a, (j < n_q S)%N -> (a < dcomp k)%N -> sub3 f (physical DF c) j a = sub3 z (fun j a => - e j a) j a.
  by move=> j a _ _; rewrite /sub3 /z physical_sub /e /sub3; mc_norm; ring.
rewrite (l2_ext E E).
have X : l2 (dcomp k) z (fun j a => - e j a) = 0.
  have -> : l2 (dcomp k) z (fun j a => - e j a) = - l2 (dcomp k) z e.
    rewrite /l2_product -sumrN; apply: eq_bigr => j _; rewrite -sumrN; apply: eq_bigr => a _.
    by rewrite mulrN !mulNr.
  by rewrite sol_orth oppr0.
set ne := (fun j a => - e j a) in X *.
have Y g : l2 (dcomp k) (sub3 z ne) g = l2 (dcomp k) z g - l2 (dcomp k) ne g.
  by rewrite l2_sym l2_subr !(l2_sym _ g).
rewrite l2_subr !Y X (l2_sym _ ne z) X subr0 sub0r opprK addrC.
congr (_ + _); by do 2 (apply: eq_bigr => ? _); rewrite mulrNN.
Qed.
End Best.

Lemma reproduce k (a p : 'cV[F]_(rk S k)) : mass S k \in unitmx -> Projector S DF k (physical DF a) = Some p ->
  p = mass S k *m a.
Proof.
move=> HM Hp; apply: trmx_inj; apply/rowP => i; rewrite !mxE.
have H x : dotv x p = dotv x (mass S k *m a).
  by rewrite (projector_l2 HG HR x Hp) -(mass_l2 HG HR) ?form_dotv //; apply: (projector_notKV Hp).
have D (v : 'cV[F]_(rk S k)) : dotv (delta_mx i 0) v = v i 0 by rewrite /dotv trmx_delta -rowE mxE.
by rewrite -!D H D mxE.
Qed.
End Pos.

(** *** CrossProductProjection: definedness, bilinearity, antisymmetry *)
Section Cpp.
Variable F : realFieldType.
Add Field Ffr : (@mc_fth F).
Variable S : drseq F.

Definition lin3 (a : F) (u v : vec3 F) : vec3 F := fun k => a * u k + v k.
Lemma eval_lin n (g : nat -> nat -> nat -> F) a (x y : 'cV[F]_n) j k :
  evaluate_at_xq g (a *: x + y) j k = lin3 a (evaluate_at_xq g x j) (evaluate_at_xq g y j) k.
Proof.
rewrite /lin3 /evaluate_at_xq mulr_sumr -big_split; apply: eq_bigr => i _ /=; by rewrite !mxE mulrDr mulrCA.
Qed.
Lemma int_lin nq d (g : nat -> nat -> nat -> F) n a (f f' f'' : nat -> nat -> F) :
  (forall j k, (k < d)%N -> f'' j k = a * f j k + f' j k) ->
  integrate_against nq d g f'' n = a *: integrate_against nq d g f n + integrate_against nq d g f' n.
Proof.
move=> H; apply/colP => i; rewrite !mxE mulr_sumr -big_split; apply: eq_bigr => j _ /=.
by rewrite mulr_sumr -big_split; apply: eq_bigr => k _ /=; rewrite H //; mc_norm; ring.
Qed.
Lemma ein_lin (M : mat3 F) a u v k : einsum_kl_k M (lin3 a u v) k = lin3 a (einsum_kl_k M u) (einsum_kl_k M v) k.
Proof. rewrite /lin3 /einsum_kl_k mulr_sumr -big_split; apply: eq_bigr => i _ /=; mc_norm; ring. Qed.
Lemma ein_ext (M : mat3 F) u v k : eq3 u v -> einsum_kl_k M u k = einsum_kl_k M v k.
Proof. by move=> H; apply: eq_bigr => i _; rewrite H. Qed.
Lemma cross_linl a (u v w : vec3 F) : eq3 (cross (lin3 a u v) w) (lin3 a (cross u w) (cross v w)).
Proof. by apply: lt3P; rewrite /lin3 /cross /arr3 /=; mc_norm; ring. Qed.
Lemma cross_linr a (u v w : vec3 F) : eq3 (cross w (lin3 a u v)) (lin3 a (cross w u) (cross w v)).
Proof. by apply: lt3P; rewrite /lin3 /cross /arr3 /=; mc_norm; ring. Qed.
Lemma lin3E a u v k : lin3 a u v k = a * u k + v k. Proof. by []. Qed.
Lemma linmul (a x y c : F) : (a * x + y) * c = a * (x * c) + y * c. Proof. mc_norm; ring. Qed.

Lemma cpp_linl n m k a (w w' : 'cV[F]_(rk S m)) (u : 'cV[F]_(rk S k)) (p p' : 'cV[F]_(rk S n)) :
  CrossProductProjection n w u = Some p -> CrossProductProjection n w' u = Some p' ->
  CrossProductProjection n (a *: w + w') u = Some (a *: p + p').
Proof.
rewrite /CrossProductProjection mulmxDr -scalemxAr.
set U := evaluate_at_xq (get_12 S k) _.
have E j : eq3 (evaluate_at_xq (get_12 S m) (a *: ((E_ S m)^T *m w) + (E_ S m)^T *m w') j)
  (lin3 a (evaluate_at_xq (get_12 S m) ((E_ S m)^T *m w) j) (evaluate_at_xq (get_12 S m) ((E_ S m)^T *m w') j)).
  by move=> b _; rewrite eval_lin.
move: (evaluate_at_xq _ _) (evaluate_at_xq _ ((E_ S m)^T *m w)) (evaluate_at_xq _ ((E_ S m)^T *m w')) E => W'' W W' E.
case: n p p' => // p p'; case: m w w' => // w w'; case: k u @U => // u U [<-] [<-] /=; congr Some;
  rewrite scalemxAr -mulmxDr; congr (_ *m _); apply: int_lin => j b Hb; rewrite -linmul; congr (_ * _).
- by rewrite (cross_ext (E j) (refl3 _)) cross_linl.
- have E' : eq3 (einsum_kl_k (G_jkl S j) (W'' j)) (lin3 a (einsum_kl_k (G_jkl S j) (W j)) (einsum_kl_k (G_jkl S j) (W' j))).
    by move=> c _; rewrite (ein_ext _ _ (E j)) ein_lin.
  by rewrite (cross_ext E' (refl3 _)) cross_linl.
- by rewrite (cross_ext (E j) (refl3 _)) (ein_ext _ _ (cross_linl a (W j) (W' j) (U j))) ein_lin.
- by rewrite (cross_ext (E j) (refl3 _)) (ein_ext _ _ (cross_linl a (W j) (W' j) (U j))) ein_lin.
- have E' : eq3 (einsum_kl_k (G_inv_jkl S j) (W'' j)) (lin3 a (einsum_kl_k (G_inv_jkl S j) (W j)) (einsum_kl_k (G_inv_jkl S j) (W' j))).
    by move=> c _; rewrite (ein_ext _ _ (E j)) ein_lin.
  by rewrite (cross_ext E' (refl3 _)) cross_linl.
- by rewrite (cross_ext (E j) (refl3 _)) cross_linl.
- by rewrite (cross_ext (E j) (refl3 _)) cross_linl.
Qed.

Lemma cpp_linr n m k a (w : 'cV[F]_(rk S m)) (u u' : 'cV[F]_(rk S k)) (p p' : 'cV[F]_(rk S n)) :
  CrossProductProjection n w u = Some p -> CrossProductProjection n w u' = Some p' ->
  CrossProductProjection n w (a *: u + u') = Some (a *: p + p').
Proof.
rewrite /CrossProductProjection mulmxDr -scalemxAr.
set W := evaluate_at_xq (get_12 S m) _.
have E j : eq3 (evaluate_at_xq (get_12 S k) (a *: ((E_ S k)^T *m u) + (E_ S k)^T *m u') j)
  (lin3 a (evaluate_at_xq (get_12 S k) ((E_ S k)^T *m u) j) (evaluate_at_xq (get_12 S k) ((E_ S k)^T *m u') j)).
  by move=> b _; rewrite eval_lin.
move: (evaluate_at_xq _ (_ + _)) (evaluate_at_xq _ ((E_ S k)^T *m u)) (evaluate_at_xq _ ((E_ S k)^T *m u')) E => U'' U U' E.
case: n p p' => // p p'; case: m w @W => // w W; case: k u u' => // u u' [<-] [<-] /=; congr Some;
  rewrite scalemxAr -mulmxDr; congr (_ *m _); apply: int_lin => j b Hb; rewrite -linmul; congr (_ * _).
- by rewrite (cross_ext (refl3 _) (E j)) cross_linr.
- by rewrite (cross_ext (refl3 _) (E j)) cross_linr.
- by rewrite (cross_ext (refl3 _) (E j)) (ein_ext _ _ (cross_linr a (U j) (U' j) (W j))) ein_lin.
- by rewrite (cross_ext (refl3 _) (E j)) (ein_ext _ _ (cross_linr a (U j) (U' j) (W j))) ein_lin.
- by rewrite (cross_ext (refl3 _) (E j)) cross_linr.
- have E' : eq3 (einsum_kl_k (G_inv_jkl S j) (U'' j)) (lin3 a (einsum_kl_k (G_inv_jkl S j) (U j)) (einsum_kl_k (G_inv_jkl S j) (U' j))).
    by move=> c _; rewrite (ein_ext _ _ (E j)) ein_lin.
  by rewrite (cross_ext (refl3 _) E') cross_linr.
- by rewrite (cross_ext (refl3 _) (E j)) cross_linr.
Qed.

Lemma int_opp nq d (g : nat -> nat -> nat -> F) n (f f' : nat -> nat -> F) :
  (forall j k, (k < d)%N -> f' j k = - f j k) ->
  integrate_against nq d g f' n = - integrate_against nq d g f n.
Proof.
move=> H; apply/colP => i; rewrite !mxE -sumrN; apply: eq_bigr => j _ /=.
by rewrite -sumrN; apply: eq_bigr => k _ /=; rewrite H // mulrN.
Qed.
Lemma cross_anti (u v : vec3 F) : eq3 (cross v u) (fun k => - cross u v k).
Proof. by apply: lt3P; rewrite /cross /arr3 /=; mc_norm; ring. Qed.

Lemma cpp_anti n m (w u : 'cV[F]_(rk S m)) (p : 'cV[F]_(rk S n)) :
  CrossProductProjection n w u = Some p -> CrossProductProjection n u w = Some (- p).
Proof.
rewrite /CrossProductProjection.
case: n p => // p; case: m w u => // w u [<-] /=; congr Some; rewrite -mulmxN; congr (_ *m _);
  apply: int_opp => j b Hb; rewrite -mulNr; congr (_ * _).
- by rewrite cross_anti.
- by rewrite (ein_ext _ _ (cross_anti _ _)) /einsum_kl_k -sumrN; apply: eq_bigr => i _; rewrite mulrN.
- by rewrite (ein_ext _ _ (cross_anti _ _)) /einsum_kl_k -sumrN; apply: eq_bigr => i _; rewrite mulrN.
- by rewrite cross_anti.
Qed.
End Cpp.
