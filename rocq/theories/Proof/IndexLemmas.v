(** Round-trip lemmas for the index arithmetic of Model/Forms.v *)
From mathcomp Require Import all_ssreflect all_algebra.
From Verif Require Import Model.Forms.
Set Implicit Arguments.
Unset Strict Implicit.
Unset Printing Implicit Defensive.
Import GRing.Theory.

#[global] Arguments unravel3 : simpl never.
#[global] Arguments ravel3 : simpl never.
#[global] Arguments unravel2 : simpl never.

Lemma minn_pred i a : i < a -> minn i a.-1 = i.
Proof. by case: a => // a Hi; apply/minn_idPl. Qed.

Lemma ravel3E a b c i j k : i < a -> j < b -> k < c ->
  ravel3 (a, b, c) i j k = (i * b + j) * c + k.
Proof. by move=> Hi Hj Hk; rewrite /ravel3 !minn_pred. Qed.

Lemma rav2_lt a b i j : i < a -> j < b -> i * b + j < a * b.
Proof.
move=> Hi Hj; apply: (@leq_trans (i.+1 * b)); first by rewrite mulSn addnC ltn_add2r.
by rewrite leq_mul2r Hi orbT.
Qed.

Lemma ravel3_lt a b c i j k : i < a -> j < b -> k < c ->
  ravel3 (a, b, c) i j k < a * b * c.
Proof. by move=> Hi Hj Hk; rewrite ravel3E // rav2_lt // rav2_lt. Qed.

Lemma unravel3E a b c idx : idx < a * b * c ->
  unravel3 (a, b, c) idx = (idx %/ (b * c), (idx %/ c) %% b, idx %% c).
Proof. by move=> H; rewrite /unravel3 minn_pred. Qed.

Lemma unravel3_rav a b c i j k : i < a -> j < b -> k < c ->
  unravel3 (a, b, c) ((i * b + j) * c + k) = (i, j, k).
Proof.
move=> Hi Hj Hk.
have Hb : 0 < b by apply: leq_ltn_trans Hj.
have Hc : 0 < c by apply: leq_ltn_trans Hk.
rewrite unravel3E; last by rewrite rav2_lt // rav2_lt.
have E1 : ((i * b + j) * c + k) %/ c = i * b + j.
  by rewrite divnMDl // divn_small // addn0.
have E3 : ((i * b + j) * c + k) %% c = k by rewrite modnMDl modn_small.
rewrite (mulnC b c) divnMA E1 E3.
by rewrite divnMDl // divn_small // addn0 modnMDl (modn_small Hj).
Qed.

Lemma unravel3_ravel3 a b c i j k : i < a -> j < b -> k < c ->
  unravel3 (a, b, c) (ravel3 (a, b, c) i j k) = (i, j, k).
Proof. by move=> Hi Hj Hk; rewrite ravel3E // unravel3_rav. Qed.

Lemma unravel3_bounds a b c idx : idx < a * b * c ->
  [/\ idx %/ (b * c) < a, (idx %/ c) %% b < b & idx %% c < c].
Proof.
move=> H.
have Hc : 0 < c by case: c H => //; rewrite muln0.
have Hb : 0 < b by case: b H => //; rewrite muln0 mul0n.
split; [|exact: ltn_pmod|exact: ltn_pmod].
by rewrite ltn_divLR ?muln_gt0 ?Hb // mulnA.
Qed.

Lemma ravel3_unravel3 a b c idx : idx < a * b * c ->
  let: (i, j, k) := unravel3 (a, b, c) idx in
  [/\ i < a, j < b, k < c & ravel3 (a, b, c) i j k = idx].
Proof.
move=> H; rewrite unravel3E //.
have [Hi Hj Hk] := unravel3_bounds H.
split=> //; rewrite ravel3E //.
rewrite (mulnC b c) divnMA -divn_eq -divn_eq //.
Qed.

Lemma ravel3_unravel3' a b c idx i j k : idx < a * b * c ->
  unravel3 (a, b, c) idx = (i, j, k) ->
  [/\ i < a, j < b, k < c & ravel3 (a, b, c) i j k = idx].
Proof. by move=> H E; move: (ravel3_unravel3 H); rewrite E. Qed.

Lemma unravel2_rav a b i j : i < a -> j < b -> unravel2 a b (i * b + j) = (i, j).
Proof.
move=> Hi Hj; have Hb : 0 < b by apply: leq_ltn_trans Hj.
rewrite /unravel2 minn_pred ?rav2_lt //.
by rewrite divnMDl // divn_small // addn0 modnMDl (modn_small Hj).
Qed.

(** *** sums over flat indices *)
Section Sums.
Variable V : zmodType.
Local Open Scope ring_scope.

Lemma sum_rav2 a b (f : nat -> V) :
  \sum_(x < (a * b)%N) f x = \sum_(i < a) \sum_(j < b) f (i * b + j)%N.
Proof.
elim: a => [|a IH]; first by rewrite mul0n !big_ord0.
rewrite big_ord_recr /= -IH mulSnr big_split_ord /=.
by congr (_ + _); apply: eq_bigr => j _.
Qed.

Lemma sum_rav3 a b c (f : nat -> V) :
  \sum_(x < (a * b * c)%N) f x
  = \sum_(i < a) \sum_(j < b) \sum_(k < c) f ((i * b + j) * c + k)%N.
Proof. by rewrite sum_rav2 (sum_rav2 a b (fun x => \sum_(k < c) f (x * c + k)%N)). Qed.

Lemma sum_unravel3 a b c (f : nat -> triple -> V) :
  \sum_(x < (a * b * c)%N) f x (unravel3 (a, b, c) x)
  = \sum_(i < a) \sum_(j < b) \sum_(k < c) f ((i * b + j) * c + k)%N (nat_of_ord i, nat_of_ord j, nat_of_ord k).
Proof.
rewrite (sum_rav3 a b c (fun x => f x (unravel3 (a, b, c) x))).
apply: eq_bigr => i _; apply: eq_bigr => j _; apply: eq_bigr => k _.
by rewrite unravel3_rav.
Qed.

Lemma sum_add2 a b (f : nat -> V) :
  \sum_(x < (a + b)%N) f x = \sum_(x < a) f x + \sum_(x < b) f (a + x)%N.
Proof. by rewrite big_split_ord. Qed.

Lemma sum_add3 a b c (f : nat -> V) :
  \sum_(x < (a + b + c)%N) f x
  = \sum_(x < a) f x + \sum_(x < b) f (a + x)%N + \sum_(x < c) f (a + b + x)%N.
Proof. by rewrite !sum_add2. Qed.
End Sums.

Section DeltaSums.
Variable R : ringType.
Local Open Scope ring_scope.

Lemma sum_delta n (f : nat -> R) (m : nat) :
  \sum_(i < n) (m == i)%:R * f i = (m < n)%N%:R * f m.
Proof.
case: (ltnP m n) => Hm.
- rewrite (bigD1 (Ordinal Hm)) //= eqxx big1 ?addr0 // => i Hi.
  case: eqP => // E; last by rewrite mul0r.
  by case/eqP: Hi; apply: val_inj.
- rewrite big1 ?mul0r // => i _.
  by case: eqP => E; rewrite ?mul0r //; rewrite E leqNgt ltn_ord in Hm.
Qed.

Lemma sum_delta' n (f : nat -> R) (m : nat) :
  \sum_(i < n) (nat_of_ord i == m)%:R * f i = (m < n)%N%:R * f m.
Proof. by rewrite -sum_delta; apply: eq_bigr => i _; rewrite eq_sym. Qed.
End DeltaSums.

(** *** component level *)
Section Forms.
Variables (s : shape).

Lemma vi0 k x : is_scalar k = false -> x < fn1 s k -> vector_index s k x = (0, x).
Proof.
move=> Hk Hx; rewrite /vector_index Hk.
have -> : fn1 s k <= x = false by rewrite leqNgt Hx.
have -> : fn1 s k + fn2 s k <= x = false.
  by apply/negbTE; rewrite -ltnNge; apply: leq_trans Hx _; rewrite leq_addr.
by rewrite !muln0 !subn0.
Qed.

Lemma vi1 k x : is_scalar k = false -> x < fn2 s k -> vector_index s k (fn1 s k + x) = (1, x).
Proof.
move=> Hk Hx; rewrite /vector_index Hk leq_addr leq_add2l leqNgt Hx /=.
by rewrite muln0 subn0 muln1 addKn.
Qed.

Lemma vi2 k x : is_scalar k = false -> vector_index s k (fn1 s k + fn2 s k + x) = (2, x).
Proof.
move=> Hk; rewrite /vector_index Hk leq_addr -addnA leq_addr !muln1.
by rewrite addKn addKn.
Qed.

Definition in_comp k c (t : triple) : bool :=
  let: (i, j, l) := t in let: (a, b, d) := cshape s k c in [&& i < a, j < b & l < d].

Definition ncomp k : nat := if is_scalar k then 1 else 3.

Lemma unravel_ravel_index k c i j l :
  c < ncomp k -> in_comp k c (i, j, l) ->
  unravel_index s k (ravel_index s k c i j l) = (c, (i, j, l)).
Proof.
rewrite /ncomp /unravel_index /ravel_index /in_comp.
case Hk : (is_scalar k) => Hc.
- case: c Hc => // _; case E : (cshape s k 0) => [[a b] d] /and3P [Hi Hj Hl].
  by rewrite /vector_index Hk E unravel3_ravel3.
- case: c Hc => [|[|[|c]]] //= _; case E : (cshape s k _) => [[a b] d] /and3P [Hi Hj Hl].
  + rewrite vi0 // ?E ?unravel3_ravel3 //.
    by rewrite /fn1 E /tsize ravel3_lt.
  + rewrite vi1 // ?E ?unravel3_ravel3 //.
    by rewrite /fn2 Hk E /tsize ravel3_lt.
  + by rewrite vi2 // E unravel3_ravel3.
Qed.

Lemma ravel_index_lt k c i j l :
  c < ncomp k -> in_comp k c (i, j, l) -> ravel_index s k c i j l < fdim s k.
Proof.
rewrite /ncomp /ravel_index /in_comp /fdim.
case Hk : (is_scalar k) => Hc.
- case: c Hc => // _; case E : (cshape s k 0) => [[a b] d] /and3P [Hi Hj Hl].
  by rewrite /fn1 /fn2 /fn3 Hk !addn0 E ravel3_lt.
- case: c Hc => [|[|[|c]]] //= _; case E : (cshape s k _) => [[a b] d] /and3P [Hi Hj Hl].
  + by rewrite -addnA; apply: ltn_addr; rewrite /fn1 E ravel3_lt.
  + by apply: ltn_addr; rewrite ltn_add2l /fn2 Hk E ravel3_lt.
  + by rewrite ltn_add2l /fn3 Hk E ravel3_lt.
Qed.

Lemma ravel_unravel_index k x : x < fdim s k ->
  let: (c, (i, j, l)) := unravel_index s k x in
  [/\ c < ncomp k, in_comp k c (i, j, l) & ravel_index s k c i j l = x].
Proof.
rewrite /fdim /ncomp /unravel_index => Hx.
case Hk : (is_scalar k).
- rewrite /vector_index Hk /ravel_index Hk /in_comp.
  move: Hx; rewrite /fn1 /fn2 /fn3 Hk !addn0.
  case: (cshape s k 0) => [[a b] d] Hx.
  case E0 : (unravel3 (a, b, d) _) => [[i j] l]; have [Hi Hj Hl E] := ravel3_unravel3' Hx E0.
  by rewrite Hi Hj Hl.
- case: (ltnP x (fn1 s k)) => H1.
    rewrite vi0 // /ravel_index Hk /= /in_comp.
    move: H1; rewrite /fn1; case: (cshape s k 0) => [[a b] d] H1.
    case E0 : (unravel3 (a, b, d) _) => [[i j] l]; have [Hi Hj Hl E] := ravel3_unravel3' H1 E0.
    by rewrite Hi Hj Hl.
  case: (ltnP x (fn1 s k + fn2 s k)) => H2.
    have Ex : x = fn1 s k + (x - fn1 s k) by rewrite subnKC.
    have H3 : x - fn1 s k < fn2 s k by rewrite -(ltn_add2l (fn1 s k)) -Ex.
    rewrite {1}Ex vi1 // /ravel_index Hk /= /in_comp.
    move: H3; rewrite {1}/fn2 Hk; case: (cshape s k 1) => [[a b] d] H3.
    case E0 : (unravel3 (a, b, d) _) => [[i j] l]; have [Hi Hj Hl E] := ravel3_unravel3' H3 E0.
    by rewrite Hi Hj Hl E -Ex.
  have Ex : x = fn1 s k + fn2 s k + (x - (fn1 s k + fn2 s k)) by rewrite subnKC.
  have H3 : x - (fn1 s k + fn2 s k) < fn3 s k by rewrite -(ltn_add2l (fn1 s k + fn2 s k)) -Ex.
  rewrite {1}Ex vi2 // /ravel_index Hk /= /in_comp.
  move: H3; rewrite {1}/fn3 Hk; case: (cshape s k 2) => [[a b] d] H3.
  case E0 : (unravel3 (a, b, d) _) => [[i j] l]; have [Hi Hj Hl E] := ravel3_unravel3' H3 E0.
  by rewrite Hi Hj Hl E -Ex.
Qed.

(** Sum over all basis indices of a vector-valued form as component sums. *)
Lemma sum_form (V : zmodType) k (f : nat -> triple -> V) : is_scalar k = false ->
  (\sum_(x < fdim s k) (let: (c, t) := unravel_index s k x in f c t))%R
  = (\sum_(c < 3) let: (a, b, d) := cshape s k c in
       \sum_(i < a) \sum_(j < b) \sum_(l < d) f c (nat_of_ord i, nat_of_ord j, nat_of_ord l))%R.
Proof.
move=> Hk; rewrite /fdim.
rewrite (sum_add3 _ _ _ (fun x => let: (c, t) := unravel_index s k x in f c t)).
rewrite big_ord_recl big_ord_recl big_ord_recl big_ord0 addr0 addrA /=.
congr (_ + _ + _)%R.
- transitivity (\sum_(x < fn1 s k) f 0%N (unravel3 (cshape s k 0%N) x))%R.
    by apply: eq_bigr => x _; rewrite /unravel_index vi0.
  rewrite /fn1; case: (cshape s k 0) => [[a b] d].
  by rewrite (sum_unravel3 a b d (fun _ t => f 0 t)).
- transitivity (\sum_(x < fn2 s k) f 1%N (unravel3 (cshape s k 1%N) x))%R.
    by apply: eq_bigr => x _; rewrite /unravel_index vi1.
  rewrite /fn2 Hk; case: (cshape s k 1) => [[a b] d].
  by rewrite (sum_unravel3 a b d (fun _ t => f 1 t)).
- transitivity (\sum_(x < fn3 s k) f 2%N (unravel3 (cshape s k 2%N) x))%R.
    by apply: eq_bigr => x _; rewrite /unravel_index vi2.
  rewrite /fn3 Hk; case: (cshape s k 2) => [[a b] d].
  by rewrite (sum_unravel3 a b d (fun _ t => f 2 t)).
Qed.

Lemma sum_scalar (V : zmodType) k (f : triple -> V) : is_scalar k ->
  (\sum_(x < fdim s k) (let: (_, t) := unravel_index s k x in f t))%R
  = (let: (a, b, d) := cshape s k 0 in
       \sum_(i < a) \sum_(j < b) \sum_(l < d) f (nat_of_ord i, nat_of_ord j, nat_of_ord l))%R.
Proof.
move=> Hk; rewrite /fdim /fn2 /fn3 Hk !addn0 /fn1.
transitivity (\sum_(x < tsize (cshape s k 0)) f (unravel3 (cshape s k 0) x))%R.
  by apply: eq_bigr => x _; rewrite /unravel_index /vector_index Hk.
case: (cshape s k 0) => [[a b] d].
by rewrite (sum_unravel3 a b d (fun _ t => f t)).
Qed.
End Forms.

(** *** the same for an arbitrary list of component shapes (used for the reduced spaces) *)
Section Gen.
Variables (csh : nat -> triple) (sc : bool).
Definition gn1 : nat := tsize (csh 0).
Definition gn2 : nat := if sc then 0 else tsize (csh 1).
Definition gn3 : nat := if sc then 0 else tsize (csh 2).
Definition gdim : nat := gn1 + gn2 + gn3.
Definition gvector_index (idx : nat) : nat * nat :=
  if sc then (0, idx)
  else let n1 := gn1 in let n2 := gn2 in
       ((n1 <= idx) + (n1 + n2 <= idx), idx - n1 * (n1 <= idx) - n2 * (n1 + n2 <= idx)).
Definition gravel_index (c i j l : nat) : nat :=
  if sc then ravel3 (csh 0) i j l
  else if c == 0 then ravel3 (csh 0) i j l
  else if c == 1 then gn1 + ravel3 (csh 1) i j l
  else gn1 + gn2 + ravel3 (csh 2) i j l.
Definition gunravel_index (idx : nat) : nat * triple :=
  let: (c, l) := gvector_index idx in (c, unravel3 (csh c) l).


Lemma gvi0 x : sc = false -> x < gn1 -> gvector_index x = (0, x).
Proof.
move=> Hk Hx; rewrite /gvector_index Hk.
have -> : gn1 <= x = false by rewrite leqNgt Hx.
have -> : gn1 + gn2 <= x = false.
  by apply/negbTE; rewrite -ltnNge; apply: leq_trans Hx _; rewrite leq_addr.
by rewrite !muln0 !subn0.
Qed.

Lemma gvi1 x : sc = false -> x < gn2 -> gvector_index (gn1 + x) = (1, x).
Proof.
move=> Hk Hx; rewrite /gvector_index Hk leq_addr leq_add2l leqNgt Hx /=.
by rewrite muln0 subn0 muln1 addKn.
Qed.

Lemma gvi2 x : sc = false -> gvector_index (gn1 + gn2 + x) = (2, x).
Proof.
move=> Hk; rewrite /gvector_index Hk leq_addr -addnA leq_addr !muln1.
by rewrite addKn addKn.
Qed.

Definition gin_comp c (t : triple) : bool :=
  let: (i, j, l) := t in let: (a, b, d) := csh c in [&& i < a, j < b & l < d].

Definition gncomp : nat := if sc then 1 else 3.

Lemma gunravel_ravel_index c i j l :
  c < gncomp -> gin_comp c (i, j, l) ->
  gunravel_index (gravel_index c i j l) = (c, (i, j, l)).
Proof.
rewrite /gncomp /gunravel_index /gravel_index /gin_comp.
case Hk : (sc) => Hc.
- case: c Hc => // _; case E : (csh 0) => [[a b] d] /and3P [Hi Hj Hl].
  by rewrite /gvector_index Hk E unravel3_ravel3.
- case: c Hc => [|[|[|c]]] //= _; case E : (csh _) => [[a b] d] /and3P [Hi Hj Hl].
  + rewrite gvi0 // ?E ?unravel3_ravel3 //.
    by rewrite /gn1 E /tsize ravel3_lt.
  + rewrite gvi1 // ?E ?unravel3_ravel3 //.
    by rewrite /gn2 Hk E /tsize ravel3_lt.
  + by rewrite gvi2 // E unravel3_ravel3.
Qed.

Lemma gravel_index_lt c i j l :
  c < gncomp -> gin_comp c (i, j, l) -> gravel_index c i j l < gdim.
Proof.
rewrite /gncomp /gravel_index /gin_comp /gdim.
case Hk : (sc) => Hc.
- case: c Hc => // _; case E : (csh 0) => [[a b] d] /and3P [Hi Hj Hl].
  by rewrite /gn1 /gn2 /gn3 Hk !addn0 E ravel3_lt.
- case: c Hc => [|[|[|c]]] //= _; case E : (csh _) => [[a b] d] /and3P [Hi Hj Hl].
  + by rewrite -addnA; apply: ltn_addr; rewrite /gn1 E ravel3_lt.
  + by apply: ltn_addr; rewrite ltn_add2l /gn2 Hk E ravel3_lt.
  + by rewrite ltn_add2l /gn3 Hk E ravel3_lt.
Qed.

Lemma gravel_unravel_index x : x < gdim ->
  let: (c, (i, j, l)) := gunravel_index x in
  [/\ c < gncomp, gin_comp c (i, j, l) & gravel_index c i j l = x].
Proof.
rewrite /gdim /gncomp /gunravel_index => Hx.
case Hk : (sc).
- rewrite /gvector_index Hk /gravel_index Hk /gin_comp.
  move: Hx; rewrite /gn1 /gn2 /gn3 Hk !addn0.
  case: (csh 0) => [[a b] d] Hx.
  case E0 : (unravel3 (a, b, d) _) => [[i j] l]; have [Hi Hj Hl E] := ravel3_unravel3' Hx E0.
  by rewrite Hi Hj Hl.
- case: (ltnP x (gn1)) => H1.
    rewrite gvi0 // /gravel_index Hk /= /gin_comp.
    move: H1; rewrite /gn1; case: (csh 0) => [[a b] d] H1.
    case E0 : (unravel3 (a, b, d) _) => [[i j] l]; have [Hi Hj Hl E] := ravel3_unravel3' H1 E0.
    by rewrite Hi Hj Hl.
  case: (ltnP x (gn1 + gn2)) => H2.
    have Ex : x = gn1 + (x - gn1) by rewrite subnKC.
    have H3 : x - gn1 < gn2 by rewrite -(ltn_add2l (gn1)) -Ex.
    rewrite {1}Ex gvi1 // /gravel_index Hk /= /gin_comp.
    move: H3; rewrite {1}/gn2 Hk; case: (csh 1) => [[a b] d] H3.
    case E0 : (unravel3 (a, b, d) _) => [[i j] l]; have [Hi Hj Hl E] := ravel3_unravel3' H3 E0.
    by rewrite Hi Hj Hl E -Ex.
  have Ex : x = gn1 + gn2 + (x - (gn1 + gn2)) by rewrite subnKC.
  have H3 : x - (gn1 + gn2) < gn3 by rewrite -(ltn_add2l (gn1 + gn2)) -Ex.
  rewrite {1}Ex gvi2 // /gravel_index Hk /= /gin_comp.
  move: H3; rewrite {1}/gn3 Hk; case: (csh 2) => [[a b] d] H3.
  case E0 : (unravel3 (a, b, d) _) => [[i j] l]; have [Hi Hj Hl E] := ravel3_unravel3' H3 E0.
  by rewrite Hi Hj Hl E -Ex.
Qed.
End Gen.

(** induction over flat indices through structured ones *)
Lemma flat_ind (s : shape) (k : deg) (P : nat -> Prop) :
  (forall c i j l, c < ncomp k -> in_comp s k c (i, j, l) -> P (ravel_index s k c i j l)) ->
  forall x, x < fdim s k -> P x.
Proof.
move=> H x Hx; have := ravel_unravel_index Hx.
by case: (unravel_index s k x) => [c [[i j] l]] [Hc Hin <-]; apply: H.
Qed.
