(** LazyBoundaryOperator for k = 0..3 is the selection matrix of the free DoFs. *)
From mathcomp Require Import all_ssreflect all_algebra.
From Verif Require Import Model.Forms Spec.FreeDofs Proof.IndexLemmas.
Set Implicit Arguments.
Unset Strict Implicit.
Unset Printing Implicit Defensive.
Import GRing.Theory.

Definition bshift (b : bc) (i : nat) : nat := match b with Dirichlet | Left => i.+1 | _ => i end.

Lemma bc_hitE b i p : bc_hit b i p = (p == bshift b i).
Proof. by case: b; rewrite /= eq_sym. Qed.

Lemma bshift_free b n i : i < bc_dim n b -> (bshift b i < n) && bc_free b n (bshift b i).
Proof.
case: b => /=; rewrite ?andbT //.
- by rewrite ltn_subRL !addSn add0n => H; rewrite H (ltn_trans (ltnSn _) H).
- by case: n.
- by case: n => // n /= Hi; rewrite !ltnS Hi (ltnW Hi).
Qed.
Lemma bshift_surj b n p : p < n -> bc_free b n p -> exists i, i < bc_dim n b /\ bshift b i = p.
Proof.
case: b => /= Hp H.
- case: p Hp H => // p Hp /= H; exists p; split=> //.
  by rewrite ltn_subRL !addSn add0n.
- by case: p Hp H => // p Hp _; exists p; split => //; case: n Hp.
- by exists p; split=> //; case: n Hp H.
- by exists p.
Qed.
Lemma bshift_inj b i i' : bshift b i = bshift b i' -> i = i'.
Proof. by case: b => //= -[]. Qed.

Section Sel.
Variables (s : shape) (b : bc * bc * bc) (k : deg).
Hypothesis Hk : k <> KV.

(** structured target of a reduced index *)
Definition sel3 (c : nat) (t : triple) : triple :=
  let: (br, bt, bz) := b in let: (i, j, l) := t in
  ((if has_trace k c 0 then bshift br i else i),
   (if has_trace k c 1 then bshift bt j else j),
   (if has_trace k c 2 then bshift bz l else l)).

Definition sel (r : nat) : nat :=
  let: (c, t) := bunravel_index s b k r in
  let: (p, m, n) := sel3 c t in ravel_index s k c p m n.

Let gin := gin_comp (bshape s b k).

Lemma bunravelP r : r < bdim s b k ->
  let: (c, (i, j, l)) := bunravel_index s b k r in
  [/\ c < ncomp k, gin c (i, j, l) & gravel_index (bshape s b k) (is_scalar k) c i j l = r].
Proof. exact: (@gravel_unravel_index (bshape s b k) (is_scalar k) r). Qed.

Lemma cshapeE c : c < ncomp k -> cshape s k c =
  ((if has_trace k c 0 then nr s else dr s), (if has_trace k c 1 then nt s else dt s),
   (if has_trace k c 2 then nz s else dz s)).
Proof. by case: k Hk => // _; case: c => [|[|[|c]]]. Qed.
Lemma bshapeE c : c < ncomp k -> bshape s b k c =
  let: (br, bt, bz) := b in
  ((if has_trace k c 0 then bc_dim (nr s) br else dr s), (if has_trace k c 1 then bc_dim (nt s) bt else dt s),
   (if has_trace k c 2 then bc_dim (nz s) bz else dz s)).
Proof. by case: b => [[br bt] bz]; case: k Hk => // _; case: c => [|[|[|c]]]. Qed.

Lemma dir_ok (f : bool) b0 n d i : i < (if f then bc_dim n b0 else d) ->
  ((if f then bshift b0 i else i) < (if f then n else d)) && (f ==> bc_free b0 n (if f then bshift b0 i else i)).
Proof. by case: f => [/bshift_free|] //= ->. Qed.
Lemma dir_surj (f : bool) b0 n d p : p < (if f then n else d) -> f ==> bc_free b0 n p ->
  exists i, i < (if f then bc_dim n b0 else d) /\ (if f then bshift b0 i else i) = p.
Proof. by case: f => [|] /= H1 H2; [apply: bshift_surj | exists p]. Qed.

Lemma sel3_ok c i j l : c < ncomp k -> gin c (i, j, l) ->
  let: (p, m, n) := sel3 c (i, j, l) in
  in_comp s k c (p, m, n) && free_dof s b k c (p, m, n).
Proof.
move=> Hc; rewrite /sel3 /gin /gin_comp /in_comp /free_dof bshapeE // cshapeE //.
case: b => [[br bt] bz] /and3P [/dir_ok /andP [-> ->] /dir_ok /andP [-> ->] /dir_ok /andP [-> ->]] //.
Qed.

Lemma sel3_surj c p m n : c < ncomp k -> in_comp s k c (p, m, n) -> free_dof s b k c (p, m, n) ->
  exists i j l, gin c (i, j, l) /\ sel3 c (i, j, l) = (p, m, n).
Proof.
move=> Hc; rewrite /sel3 /gin /gin_comp /in_comp /free_dof bshapeE // cshapeE //.
case: b => [[br bt] bz] /and3P [H1 H2 H3] /and3P [F1 F2 F3].
have [i [Hi <-]] := dir_surj H1 F1; have [j [Hj <-]] := dir_surj H2 F2; have [l [Hl <-]] := dir_surj H3 F3.
by exists i, j, l; rewrite Hi Hj Hl.
Qed.

Lemma sel3_inj c t t' : sel3 c t = sel3 c t' -> t = t'.
Proof.
rewrite /sel3; case: b => [[br bt] bz]; case: t => [[i j] l]; case: t' => [[i' j'] l'].
have B b0 i0 i1 f : (if f : bool then bshift b0 i0 else i0) = (if f then bshift b0 i1 else i1) -> i0 = i1.
  by case: f => //; apply: bshift_inj.
by move=> [] /B -> /B -> /B ->.
Qed.

Lemma sel_lt r : r < bdim s b k -> sel r < fdim s k.
Proof.
move=> Hr; have := bunravelP Hr; rewrite /sel.
case: (bunravel_index s b k r) => [c [[i j] l]] [Hc Hin _].
have := sel3_ok Hc Hin; case: (sel3 c _) => [[p m] n] /andP [H _].
exact: ravel_index_lt.
Qed.

Lemma ravel_inj c c' t t' : c < ncomp k -> c' < ncomp k -> in_comp s k c t -> in_comp s k c' t' ->
  (let: (p, m, n) := t in ravel_index s k c p m n) = (let: (p, m, n) := t' in ravel_index s k c' p m n) ->
  (c, t) = (c', t').
Proof.
case: t => [[p m] n]; case: t' => [[p' m'] n'] Hc Hc' H H' E.
by rewrite -(unravel_ravel_index Hc H) E unravel_ravel_index.
Qed.

Lemma selP r : r < bdim s b k ->
  exists c i j l p m n, [/\ bunravel_index s b k r = (c, (i, j, l)), c < ncomp k, gin c (i, j, l)
    & gravel_index (bshape s b k) (is_scalar k) c i j l = r] /\
    [/\ sel3 c (i, j, l) = (p, m, n), in_comp s k c (p, m, n), free_dof s b k c (p, m, n)
    & sel r = ravel_index s k c p m n].
Proof.
move=> Hr; have := bunravelP Hr; rewrite /sel.
case: (bunravel_index s b k r) => [c [[i j] l]] [Hc Hin E].
have := sel3_ok Hc Hin; case E3 : (sel3 c _) => [[p m] n] /andP [H1 H2].
by exists c, i, j, l, p, m, n.
Qed.

Lemma sel_inj r r' : r < bdim s b k -> r' < bdim s b k -> sel r = sel r' -> r = r'.
Proof.
move=> /selP [c [i [j [l [p [m [n [[_ Hc Hin <-] [E3 H1 H2 ->]]]]]]]]].
move=> /selP [c' [i' [j' [l' [p' [m' [n' [[_ Hc' Hin' <-] [E3' H1' H2' ->]]]]]]]]] E.
have [Ec Ep Em En] : (c, (p, m, n)) = (c', (p', m', n')) by apply: ravel_inj.
move: E3; rewrite Ec Ep Em En -E3' => /sel3_inj [-> -> ->] //.
Qed.

Lemma sel_surj x : x < fdim s k ->
  (let: (c, t) := unravel_index s k x in free_dof s b k c t) -> exists2 r, r < bdim s b k & sel r = x.
Proof.
move=> Hx; have := ravel_unravel_index Hx.
case: (unravel_index s k x) => [c [[p m] n]] [Hc Hin E] Hf.
have [i [j [l [Hg E3]]]] := sel3_surj Hc Hin Hf.
have Hc' : c < gncomp (is_scalar k) by [].
exists (gravel_index (bshape s b k) (is_scalar k) c i j l); first exact: gravel_index_lt.
rewrite /sel; have := @gunravel_ravel_index (bshape s b k) (is_scalar k) c i j l Hc' Hg.
by rewrite -[gunravel_index _ _]/(bunravel_index s b k) => ->; rewrite E3.
Qed.

Lemma sel_free r : r < bdim s b k -> let: (c, t) := unravel_index s k (sel r) in free_dof s b k c t.
Proof.
move=> /selP [c [i [j [l [p [m [n [[_ Hc Hin _] [E3 H1 H2 ->]]]]]]]]].
by rewrite unravel_ravel_index.
Qed.

(** the entries *)
Lemma boundary_elementE_ r x : (match k with K3 => False | _ => True end) -> r < bdim s b k -> x < fdim s k ->
  boundary_element s b k r x = (x == sel r).
Proof.
move=> Hk3 Hr Hx.
have [c [i [j [l [p [m [n [[Er Hc Hin Egr] [E3 H1 H2 ->]]]]]]]]] := selP Hr.
have := ravel_unravel_index Hx; rewrite /boundary_element.
case Ex : (unravel_index s k x) => [c' [[p' m'] n']] [Hc' Hin' E].
have -> : (x == ravel_index s k c p m n) = ((c', (p', m', n')) == (c, (p, m, n))).
  apply/eqP/eqP => [E'|[<- <- <- <-]]; last by rewrite E.
  by rewrite -Ex E' unravel_ravel_index.
have -> : ((c', (p', m', n')) == (c, (p, m, n))) = (c == c') && ((p', m', n') == sel3 c (i, j, l)).
  by rewrite E3 -[LHS]/((c' == c) && _) eq_sym.
rewrite Er /sel3; move: Egr Er E3; rewrite /bshape; case Eb : b => [[br bt] bz].
have Esc : is_scalar k -> c == c'.
  by move=> Hs; move: Hc Hc'; rewrite /ncomp Hs; case: (c) => // _; case: (c').
rewrite ?xpair_eqE => Egr Er E3.
case: k Hk Hk3 Hc Esc Hx H1 H2 Egr E3 E => // _ _ Hc Esc Hx' H1' H2' Egr E3 E.
- by rewrite (eqP (Esc isT)) eqxx /= !bc_hitE andbA.
- case: (c =P c') => //= _; move: Hc; case: (c) => [|[|[|?]]] // _ /=; rewrite !bc_hitE andbA //.
  + by rewrite (eq_sym i).
  + by rewrite (eq_sym j).
  + by rewrite (eq_sym l).
- case: (c =P c') => //= _; move: Hc; case: (c) => [|[|[|?]]] // _ /=; rewrite !bc_hitE andbA //.
  + by rewrite (eq_sym j) (eq_sym l).
  + by rewrite (eq_sym i) (eq_sym l).
  + by rewrite (eq_sym i) (eq_sym j).
Qed.
End Sel.

Lemma sel_K3 s b r : r < bdim s b K3 -> sel s b K3 r = r.
Proof.
case: b => [[br bt] bz] Hr.
have K3V : K3 <> KV by [].
have [c [i [j [l [p [m [n [[Er Hc Hin Egr] [E3 H1 H2 ->]]]]]]]]] := @selP s (br, bt, bz) K3 K3V r Hr.
by move: E3; rewrite /sel3 /= => -[<- <- <-].
Qed.

Lemma boundary_elementE s b k r x : k <> KV -> r < bdim s b k -> x < fdim s k ->
  boundary_element s b k r x = (x == sel s b k r).
Proof.
case: k => // _ Hr Hx; try by apply: boundary_elementE_.
rewrite sel_K3 // eq_sym /boundary_element; case: b {Hr} => [[br bt] bz].
by case: (bunravel_index _ _ _ _) => c [[i j] l]; case: (unravel_index _ _ _) => c' [[p m] n].
Qed.

Section Mx.
Variable F : realFieldType.
Variables (s : shape) (b : bc * bc * bc) (k : deg).
Hypothesis Hk : k <> KV.
Local Open Scope ring_scope.
Notation B := (boundary_matrix F s b k).

Lemma boundary_entry r x : B r x = (nat_of_ord x == sel s b k r)%:R.
Proof. by rewrite mxE boundary_elementE. Qed.

(** orthonormal rows *)
Lemma boundary_BBt : B *m B^T = 1%:M.
Proof.
apply/matrixP => r r'; rewrite mxE [RHS]mxE.
rewrite (bigD1 (Ordinal (sel_lt Hk (ltn_ord r)))) //= big1 ?addr0.
  rewrite [B^T _ _]mxE !boundary_entry /= eqxx mul1r; congr (_%:R); congr nat_of_bool.
  apply/eqP/eqP => [/(sel_inj Hk (ltn_ord r) (ltn_ord r'))/val_inj -> //|-> //].
move=> x Hx; rewrite [B^T _ _]mxE !boundary_entry.
have -> : (nat_of_ord x == sel s b k r) = false by apply/negbTE; rewrite -val_eqE /= in Hx.
by rewrite mul0r.
Qed.

(** projector on the free DoFs *)
Lemma boundary_BtB : B^T *m B =
  \matrix_(x, y) ((x == y) && let: (c, t) := unravel_index s k x in free_dof s b k c t)%:R.
Proof.
apply/matrixP => x y; rewrite mxE [RHS]mxE.
case Hf : (let: (c, t) := unravel_index s k x in free_dof s b k c t).
- have [r Hr Er] := sel_surj Hk (ltn_ord x) Hf.
  rewrite (bigD1 (Ordinal Hr)) //= big1 ?addr0.
    by rewrite [B^T _ _]mxE !boundary_entry /= Er eqxx mul1r andbT -val_eqE /= eq_sym.
  move=> r' Hr'; rewrite [B^T _ _]mxE !boundary_entry.
  have -> : (nat_of_ord x == sel s b k r') = false.
    apply/negbTE; apply: contra Hr' => /eqP; rewrite -Er => /(sel_inj Hk Hr (ltn_ord r')) E.
    by apply/eqP/val_inj.
  by rewrite mul0r.
- rewrite andbF big1 // => r _; rewrite [B^T _ _]mxE !boundary_entry.
  case: eqP => [E|]; last by rewrite mul0r.
  by have := sel_free Hk (ltn_ord r); rewrite -E Hf.
Qed.

Lemma boundary_row_free : row_free B.
Proof. by apply/row_freeP; exists B^T; apply: boundary_BBt. Qed.

(** the row space: vectors vanishing on the pinned DoFs *)
Lemma boundary_span (v : 'rV[F]_(fdim s k)) :
  (forall x : 'I_(fdim s k), ~~ (let: (c, t) := unravel_index s k x in free_dof s b k c t) -> v 0 x = 0) ->
  v = v *m B^T *m B.
Proof.
move=> H; rewrite -mulmxA boundary_BtB; apply/rowP => y; rewrite !mxE.
rewrite (bigD1 y) //= big1 ?addr0.
  rewrite mxE eqxx /=; case Hf : (let: (c, t) := unravel_index s k y in free_dof s b k c t).
    by rewrite mulr1.
  by rewrite mulr0 H // Hf.
by move=> x /negbTE Hx; rewrite mxE Hx mulr0.
Qed.
Lemma boundary_row0 r (x : 'I_(fdim s k)) : ~~ (let: (c, t) := unravel_index s k x in free_dof s b k c t) -> B r x = 0.
Proof.
move=> H; rewrite boundary_entry; case: eqP => // E.
by move: H; rewrite E (sel_free Hk (ltn_ord r)).
Qed.
End Mx.
