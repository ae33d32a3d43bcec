(** Summation by parts for the tabulated derivative getters (Model/DeRham.v) and
    the complex property of the structured exterior derivative. *)
From Coq Require Import Ring Field.
From mathcomp Require Import all_ssreflect all_algebra.
From Verif Require Import Model.Forms Model.DeRham Spec.Cochain Proof.IndexLemmas Proof.MCRing.
Set Implicit Arguments.
Unset Strict Implicit.
Unset Printing Implicit Defensive.
Import GRing.Theory.
Local Open Scope ring_scope.

Section Complex.
Variable F : realFieldType.
Add Field Ff : (@mc_fth F).
Variables nt nz : nat.

Lemma ccurl_cgrad (v : cochain F) c i j l : ccurl nt nz (cgrad nt nz v) c i j l = 0.
Proof.
rewrite /ccurl /cgrad /dr_ /dt_ /dz_ /=.
by case: ifP => _; [|case: ifP => _]; mc_norm; ring.
Qed.

Lemma cdiv_ccurl (v : cochain F) c i j l : cdiv nt nz (ccurl nt nz v) c i j l = 0.
Proof. by rewrite /cdiv /ccurl /dr_ /dt_ /dz_ /=; mc_norm; ring. Qed.
End Complex.

Section Parts.
Variable F : realFieldType.
Add Field Ff2 : (@mc_fth F).

(** 1-D summation by parts, open end *)
Lemma parts_open n (f A : nat -> F) :
  \sum_(i < n.+1) f i * ((if (0 < i)%N then A i.-1 else 0) - (if (i < n)%N then A i else 0))
  = \sum_(i < n) (f i.+1 - f i) * A i.
Proof.
have -> : \sum_(i < n) (f i.+1 - f i) * A i
        = \sum_(i < n) f i.+1 * A i - \sum_(i < n) f i * A i.
  by rewrite -sumrB; apply: eq_bigr => i _; rewrite mulrBl.
have -> : \sum_(i < n.+1) f i * ((if (0 < i)%N then A i.-1 else 0) - (if (i < n)%N then A i else 0))
  = \sum_(i < n.+1) f i * (if (0 < i)%N then A i.-1 else 0)
    - \sum_(i < n.+1) f i * (if (i < n)%N then A i else 0).
  by rewrite -sumrB; apply: eq_bigr => i _; rewrite mulrBr.
congr (_ - _).
- by rewrite big_ord_recl /= mulr0 add0r; apply: eq_bigr => i _.
- rewrite big_ord_recr /= ltnn mulr0 addr0; apply: eq_bigr => i _.
  by rewrite ltn_ord.
Qed.

(** periodic *)
Lemma parts_per n (f A : nat -> F) :
  \sum_(j < n) f j * ((if (0 < j)%N then A j.-1 else A n.-1) - A j)
  = \sum_(j < n) (f (j.+1 %% n)%N - f j) * A j.
Proof.
case: n => [|n]; first by rewrite !big_ord0.
have -> : \sum_(j < n.+1) (f (j.+1 %% n.+1)%N - f j) * A j
        = \sum_(j < n.+1) f (j.+1 %% n.+1)%N * A j - \sum_(j < n.+1) f j * A j.
  by rewrite -sumrB; apply: eq_bigr => i _; rewrite mulrBl.
have -> : \sum_(j < n.+1) f j * ((if (0 < j)%N then A j.-1 else A n.+1.-1) - A j)
        = \sum_(j < n.+1) f j * (if (0 < j)%N then A j.-1 else A n) - \sum_(j < n.+1) f j * A j.
  by rewrite -sumrB; apply: eq_bigr => i _; rewrite mulrBr.
congr (_ - _).
rewrite big_ord_recl /= [RHS]big_ord_recr /= modnn addrC; congr (_ + _).
by apply: eq_bigr => i _ /=; rewrite modn_small // ltnS ltn_ord.
Qed.
End Parts.

(** *** flat coefficient vectors in structured coordinates *)
Section Structured.
Variable F : realFieldType.
Variable s : shape.

(** coefficient vector (flat function) to cochain *)
Definition coch (k : deg) (v : nat -> F) : cochain F :=
  fun c i j l => v (ravel_index s k c i j l).

Lemma sum_coch k (v : nat -> F) (h : nat * triple -> F) : is_scalar k = false ->
  \sum_(x < fdim s k) v x * h (unravel_index s k x)
  = \sum_(c < 3) let: (a, b, d) := cshape s k c in
     \sum_(i < a) \sum_(j < b) \sum_(l < d)
       coch k v c i j l * h (nat_of_ord c, (nat_of_ord i, nat_of_ord j, nat_of_ord l)).
Proof.
move=> Hk.
transitivity (\sum_(x < fdim s k) let: (c, t) := unravel_index s k x in
   (let: (i, j, l) := t in coch k v c i j l) * h (c, t)).
  apply: eq_bigr => x _; have := ravel_unravel_index (ltn_ord x).
  by case: (unravel_index s k x) => [c [[i j] l]] [_ _ E]; rewrite /coch E.
rewrite (sum_form s (fun c t => (let: (i, j, l) := t in coch k v c i j l) * h (c, t)) Hk).
by apply: eq_bigr => c _; case: (cshape s k c) => [[a b] d].
Qed.

Definition csum k (v : nat -> F) (h : nat * triple -> F) (c : nat) : F :=
  let: (a, b, d) := cshape s k c in
     \sum_(i < a) \sum_(j < b) \sum_(l < d)
       coch k v c i j l * h (c, (nat_of_ord i, nat_of_ord j, nat_of_ord l)).

Lemma sum_coch3 k (v : nat -> F) (h : nat * triple -> F) : is_scalar k = false ->
  \sum_(x < fdim s k) v x * h (unravel_index s k x) = csum k v h 0%N + csum k v h 1%N + csum k v h 2%N.
Proof.
move=> Hk; rewrite sum_coch //.
transitivity (\sum_(c < 3) csum k v h c); first by apply: eq_bigr => c _.
by rewrite !big_ord_recl big_ord0 /= addr0 addrA.
Qed.

Lemma sum_coch_scalar k (v : nat -> F) (h : nat * triple -> F) : is_scalar k ->
  \sum_(x < fdim s k) v x * h (unravel_index s k x)
  = let: (a, b, d) := cshape s k 0%N in
     \sum_(i < a) \sum_(j < b) \sum_(l < d)
       coch k v 0%N i j l * h (0%N, (nat_of_ord i, nat_of_ord j, nat_of_ord l)).
Proof.
move=> Hk.
transitivity (\sum_(x < fdim s k) let: (_, t) := unravel_index s k x in
   (let: (i, j, l) := t in coch k v 0%N i j l) * h (0%N, t)).
  apply: eq_bigr => x _; have := ravel_unravel_index (ltn_ord x).
  case: (unravel_index s k x) => [c [[i j] l]] [Hc _ E]; move: Hc E; rewrite /ncomp Hk.
  by case: c => // _ E; rewrite /coch E.
rewrite (sum_scalar s (fun t => (let: (i, j, l) := t in coch k v 0%N i j l) * h (0%N, t)) Hk).
by case: (cshape s k 0%N) => [[a b] d].
Qed.
End Structured.

(** *** the pointwise identities *)
Section Pointwise.
Variable F : realFieldType.
Add Field Ff3 : (@mc_fth F).
Variables (nr nt nz : nat) (tb : tables F).
Hypothesis Hr : (1 < nr)%N.
Hypothesis Ht : (0 < nt)%N.
Hypothesis Hz : (0 < nz)%N.
Hypothesis Hzt : (nz <= nt)%N.
Let s := Shape nr nt nz true false false.
Let Dr := rd (dr s) (dlam_r tb).
Let Dt := rd (dt s) (dlam_t tb).
Let Dz := rd (dz s) (dlam_z tb).

(** v is admissible: the last radial coefficient vanishes, or nr = nt *)
Definition radial_ok (u : nat -> nat -> nat -> F) : Prop :=
  nr = nt \/ ((nr <= nt)%N /\ forall j l, (j < nt)%N -> (l < nz)%N -> u nr.-1 j l = 0).

Lemma parts_r (u : nat -> F) j1 :
  nr = nt \/ ((nr <= nt)%N /\ u nr.-1 = 0) ->
  \sum_(i < nr) u i * (dr_m1 s tb i j1 - dr_cur s tb i j1) = \sum_(i < dr s) (u i.+1 - u i) * Dr i j1.
Proof.
move=> Hu.
have Edr : dr s = nr.-1 by rewrite /dr /= subn1.
have En : nr = (dr s).+1 by rewrite Edr prednK // (ltn_trans _ Hr).
rewrite -(parts_open (dr s) u (Dr^~ j1)).
have Ef (f : nat -> F) : \sum_(i < nr) f i = \sum_(i < (dr s).+1) f i by rewrite -En.
rewrite (Ef (fun i => u i * (dr_m1 s tb i j1 - dr_cur s tb i j1))).
apply: eq_bigr => i _.
have Hi : (i < (dr s).+1)%N by [].
rewrite /dr_m1 /dr_cur -/Dr /=.
case: (ltnP i (dr s)) => Hi2.
  have -> // : (nat_of_ord i == nt.-1) = false.
  apply/negbTE; rewrite neq_ltn; apply/orP; left.
  case: Hu => [<-|[Hle _]]; first by rewrite -Edr.
  by apply: (leq_trans Hi2); rewrite Edr -subn1 -[X in (_ <= X)%N]subn1 leq_sub2r.
have Ei : nat_of_ord i = nr.-1 by rewrite -Edr; apply/eqP; rewrite eqn_leq Hi2 andbT -ltnS.
case: Hu => [E|[Hle H0]]; first by rewrite Ei E eqxx.
by rewrite Ei H0 !mul0r.
Qed.

Lemma parts_t (u : nat -> F) j2 :
  \sum_(j < nt) u j * (dth_m1 s tb j j2 - Dt j j2) = \sum_(j < nt) (u (j.+1 %% nt)%N - u j) * Dt j j2.
Proof. by rewrite -(parts_per nt u (Dt^~ j2)). Qed.

Lemma parts_z (u : nat -> F) j3 :
  \sum_(l < nz) u l * (dz_m1 s tb l j3 - Dz l j3) = \sum_(l < nz) (u (l.+1 %% nz)%N - u l) * Dz l j3.
Proof.
rewrite -(parts_per nz u (Dz^~ j3)); apply: eq_bigr => l _; congr (_ * (_ - _)).
rewrite /dz_m1 -/Dz /=; case: ifP => // _.
rewrite /Dz /rd; congr (dlam_z tb _ _); rewrite /dz /= subn0 minnn.
by apply/minn_idPr; rewrite -subn1 -[X in (_ <= X)%N]subn1 leq_sub2r.
Qed.

(** 3-D versions *)
Lemma parts3_r (u : nat -> nat -> nat -> F) j1 (B C : nat -> F) :
  radial_ok u ->
  \sum_(i < nr) \sum_(j < nt) \sum_(l < nz) u i j l * ((dr_m1 s tb i j1 - dr_cur s tb i j1) * B j * C l)
  = \sum_(i < dr s) \sum_(j < nt) \sum_(l < nz) dr_ u i j l * (Dr i j1 * B j * C l).
Proof.
move=> Hu; rewrite exchange_big [RHS]exchange_big /=; apply: eq_bigr => j _.
rewrite exchange_big [RHS]exchange_big /=; apply: eq_bigr => l _.
have H := @parts_r (fun i => u i j l) j1 _.
transitivity (\sum_(i < nr) u i j l * (dr_m1 s tb i j1 - dr_cur s tb i j1) * (B j * C l)).
  by apply: eq_bigr => i _; rewrite !mulrA.
rewrite -mulr_suml H; last by case: Hu => [->|[Hle Hu]]; [left|right; split=> //; apply: Hu].
by rewrite mulr_suml; apply: eq_bigr => i _; rewrite !mulrA.
Qed.

Lemma parts3_t N M (u : nat -> nat -> nat -> F) j2 (A C : nat -> F) :
  \sum_(i < N) \sum_(j < nt) \sum_(l < M) u i j l * (A i * (dth_m1 s tb j j2 - Dt j j2) * C l)
  = \sum_(i < N) \sum_(j < nt) \sum_(l < M) dt_ nt u i j l * (A i * Dt j j2 * C l).
Proof.
apply: eq_bigr => i _; rewrite exchange_big [RHS]exchange_big /=; apply: eq_bigr => l _.
transitivity (\sum_(j < nt) u i j l * (dth_m1 s tb j j2 - Dt j j2) * (A i * C l)).
  by apply: eq_bigr => j _; mc_norm; ring.
rewrite -mulr_suml (@parts_t (fun j => u i j l) j2) mulr_suml.
by apply: eq_bigr => j _; rewrite /dt_; mc_norm; ring.
Qed.

Lemma parts3_z N M (u : nat -> nat -> nat -> F) j3 (A B : nat -> F) :
  \sum_(i < N) \sum_(j < M) \sum_(l < nz) u i j l * (A i * B j * (dz_m1 s tb l j3 - Dz l j3))
  = \sum_(i < N) \sum_(j < M) \sum_(l < nz) dz_ nz u i j l * (A i * B j * Dz l j3).
Proof.
apply: eq_bigr => i _; apply: eq_bigr => j _.
transitivity (\sum_(l < nz) u i j l * (dz_m1 s tb l j3 - Dz l j3) * (A i * B j)).
  by apply: eq_bigr => l _; mc_norm; ring.
rewrite -mulr_suml (@parts_z (fun l => u i j l) j3) mulr_suml.
by apply: eq_bigr => l _; rewrite /dz_; mc_norm; ring.
Qed.

Let Lr := rd (Forms.nr s) (lam_r tb).
Let Lt := rd (Forms.nt s) (lam_t tb).
Let Lz := rd (Forms.nz s) (lam_z tb).

(** getters as functions of (component, triple) *)
Definition h0 (j k : nat) (a : nat * triple) : F :=
  let: (j1, j2, j3) := qpoint tb j in let: (_, (i1, i2, i3)) := a in Lr i1 j1 * Lt i2 j2 * Lz i3 j3.
Definition hd0 (j k : nat) (a : nat * triple) : F :=
  let: (j1, j2, j3) := qpoint tb j in let: (_, (i1, i2, i3)) := a in
  if k == 0%N then (dr_m1 s tb i1 j1 - dr_cur s tb i1 j1) * Lt i2 j2 * Lz i3 j3
  else if k == 1%N then Lr i1 j1 * (dth_m1 s tb i2 j2 - Dt i2 j2) * Lz i3 j3
  else Lr i1 j1 * Lt i2 j2 * (dz_m1 s tb i3 j3 - Dz i3 j3).
Lemma hd0E i j k : get_d_Lambda_0 s tb i j k = hd0 j k (unravel_index s K0 i).
Proof. by []. Qed.
Definition h1 (j k : nat) (a : nat * triple) : F :=
  let: (j1, j2, j3) := qpoint tb j in let: (c, (i1, i2, i3)) := a in
  if k == c then
    (if k == 0%N then Dr i1 j1 * Lt i2 j2 * Lz i3 j3
     else if k == 1%N then Lr i1 j1 * Dt i2 j2 * Lz i3 j3
     else Lr i1 j1 * Lt i2 j2 * Dz i3 j3)
  else 0.
Lemma h1E i j k : get_Lambda_1 s tb i j k = h1 j k (unravel_index s K1 i).
Proof. by []. Qed.
Definition hd1 (j k : nat) (a : nat * triple) : F :=
  let: (j1, j2, j3) := qpoint tb j in let: (c, (i1, i2, i3)) := a in
  let d3dy := Lr i1 j1 * (dth_m1 s tb i2 j2 - Dt i2 j2) * Dz i3 j3 in
  let d2dz := Lr i1 j1 * Dt i2 j2 * (dz_m1 s tb i3 j3 - Dz i3 j3) in
  let d1dz := Dr i1 j1 * Lt i2 j2 * (dz_m1 s tb i3 j3 - Dz i3 j3) in
  let d3dx := (dr_m1 s tb i1 j1 - dr_cur s tb i1 j1) * Lt i2 j2 * Dz i3 j3 in
  let d2dx := (dr_m1 s tb i1 j1 - dr_cur s tb i1 j1) * Dt i2 j2 * Lz i3 j3 in
  let d1dy := Dr i1 j1 * (dth_m1 s tb i2 j2 - Dt i2 j2) * Lz i3 j3 in
  if c == 0%N then (if k == 0%N then 0 else if k == 1%N then d1dz else - d1dy)
  else if c == 1%N then (if k == 0%N then - d2dz else if k == 1%N then 0 else d2dx)
  else (if k == 0%N then d3dy else if k == 1%N then - d3dx else 0).
Lemma hd1E i j k : get_d_Lambda_1 s tb i j k = hd1 j k (unravel_index s K1 i).
Proof. by []. Qed.
Definition h2 (j k : nat) (a : nat * triple) : F :=
  let: (j1, j2, j3) := qpoint tb j in let: (c, (i1, i2, i3)) := a in
  if k == c then
    (if k == 0%N then Lr i1 j1 * Dt i2 j2 * Dz i3 j3
     else if k == 1%N then Dr i1 j1 * Lt i2 j2 * Dz i3 j3
     else Dr i1 j1 * Dt i2 j2 * Lz i3 j3)
  else 0.
Lemma h2E i j k : get_Lambda_2 s tb i j k = h2 j k (unravel_index s K2 i).
Proof. by []. Qed.
Definition hd2 (j k : nat) (a : nat * triple) : F :=
  let: (j1, j2, j3) := qpoint tb j in let: (c, (i1, i2, i3)) := a in
  if c == 0%N then (dr_m1 s tb i1 j1 - dr_cur s tb i1 j1) * Dt i2 j2 * Dz i3 j3
  else if c == 1%N then Dr i1 j1 * (dth_m1 s tb i2 j2 - Dt i2 j2) * Dz i3 j3
  else Dr i1 j1 * Dt i2 j2 * (dz_m1 s tb i3 j3 - Dz i3 j3).
Lemma hd2E i j k : get_d_Lambda_2 s tb i j k = hd2 j k (unravel_index s K2 i).
Proof. by []. Qed.
Definition h3 (j k : nat) (a : nat * triple) : F :=
  let: (j1, j2, j3) := qpoint tb j in let: (_, (i1, i2, i3)) := a in Dr i1 j1 * Dt i2 j2 * Dz i3 j3.
Lemma h3E i j k : get_Lambda_3 s tb i j k = h3 j k (unravel_index s K3 i).
Proof. by []. Qed.

Lemma csh k c : cshape s k c =
  match k with
  | K0 => (nr, nt, nz)
  | K1 => if c == 0%N then (dr s, nt, nz) else (nr, nt, nz)
  | K2 => if c == 0%N then (nr, nt, nz) else (dr s, nt, nz)
  | K3 => (dr s, nt, nz)
  | KV => (nr, nt, nz)
  end.
Proof. by case: k; case: c => [|[|c]]; rewrite /cshape /dt /dz /= ?subn0. Qed.

Lemma eq_sum3 N M P (f g : nat -> nat -> nat -> F) :
  (forall i j l, (i < N)%N -> (j < M)%N -> (l < P)%N -> f i j l = g i j l) ->
  \sum_(i < N) \sum_(j < M) \sum_(l < P) f i j l = \sum_(i < N) \sum_(j < M) \sum_(l < P) g i j l.
Proof. by move=> H; apply: eq_bigr => i _; apply: eq_bigr => j _; apply: eq_bigr => l _; apply: H. Qed.
Lemma sum3_0 N M P (f : nat -> nat -> nat -> F) :
  (forall i j l, (i < N)%N -> (j < M)%N -> (l < P)%N -> f i j l = 0) ->
  \sum_(i < N) \sum_(j < M) \sum_(l < P) f i j l = 0.
Proof. by move=> H; apply: big1 => i _; apply: big1 => j _; apply: big1 => l _; apply: H. Qed.
Lemma sum3_opp N M P (f : 'I_N -> 'I_M -> 'I_P -> F) :
  - (\sum_(i < N) \sum_(j < M) \sum_(l < P) f i j l) = \sum_(i < N) \sum_(j < M) \sum_(l < P) - f i j l.
Proof. by rewrite -sumrN; apply: eq_bigr => i _; rewrite -sumrN; apply: eq_bigr => j _; rewrite -sumrN. Qed.
Lemma sum3_add N M P (f g : 'I_N -> 'I_M -> 'I_P -> F) :
  \sum_(i < N) \sum_(j < M) \sum_(l < P) f i j l + \sum_(i < N) \sum_(j < M) \sum_(l < P) g i j l
  = \sum_(i < N) \sum_(j < M) \sum_(l < P) (f i j l + g i j l).
Proof.
rewrite -big_split; apply: eq_bigr => i _ /=; rewrite -big_split; apply: eq_bigr => j _ /=.
by rewrite -big_split.
Qed.

(** cochain equality on the range of a form space *)
Definition ceq k (u v : cochain F) : Prop :=
  forall c i j l, (c < ncomp k)%N -> in_comp s k c (i, j, l) -> u c i j l = v c i j l.

Ltac z3 := do 3 (apply: big1 => ? _); by rewrite mulr0.

Lemma d0_exact (v g : nat -> F) q k :
  radial_ok (coch s K0 v 0%N) ->
  ceq K1 (coch s K1 g) (cgrad nt nz (coch s K0 v)) -> (k < 3)%N ->
  \sum_(x < fdim s K0) v x * get_d_Lambda_0 s tb x q k = \sum_(x < fdim s K1) g x * get_Lambda_1 s tb x q k.
Proof.
move=> Hv Hg Hk.
rewrite (sum_coch_scalar s v (hd0 q k)) // (sum_coch3 s g (h1 q k)) // /csum !csh.
have Hin c i j l : (c < 3)%N -> (let: (a, b, d) := cshape s K1 c in [&& (i < a), (j < b) & (l < d)]%N) ->
  coch s K1 g c i j l = cgrad nt nz (coch s K0 v) c i j l by move=> Hc Hi; apply: Hg.
rewrite /hd0 /h1; case: (qpoint tb q) => [[j1 j2] j3].
case: k Hk => [|[|[|k]]] // _ /=.
- rewrite (@parts3_r (coch s K0 v 0%N) j1 (Lt^~ j2) (Lz^~ j3)) // [X in _ = _ + X](_ : _ = 0) ?addr0; last by z3.
  rewrite [X in _ = _ + X](_ : _ = 0) ?addr0; last by z3.
  apply: eq_bigr => i _; apply: eq_bigr => j _; apply: eq_bigr => l _; by rewrite Hin // csh /= !ltn_ord.
- rewrite (@parts3_t nr nz (coch s K0 v 0%N) j2 (Lr^~ j1) (Lz^~ j3)).
  rewrite [X in _ = X + _ + _](_ : _ = 0) ?add0r; last by z3.
  rewrite [X in _ = _ + X](_ : _ = 0) ?addr0; last by z3.
  apply: eq_bigr => i _; apply: eq_bigr => j _; apply: eq_bigr => l _; by rewrite Hin // csh /= !ltn_ord.
- rewrite (@parts3_z nr nt (coch s K0 v 0%N) j3 (Lr^~ j1) (Lt^~ j2)).
  rewrite [X in _ = X + _ + _](_ : _ = 0) ?add0r; last by z3.
  rewrite [X in _ = X + _](_ : _ = 0) ?add0r; last by z3.
  apply: eq_bigr => i _; apply: eq_bigr => j _; apply: eq_bigr => l _; by rewrite Hin // csh /= !ltn_ord.
Qed.

Lemma sum3_mN N M P (f g : nat -> nat -> nat -> F) :
  \sum_(i < N) \sum_(j < M) \sum_(l < P) f i j l * (- g i j l)
  = - \sum_(i < N) \sum_(j < M) \sum_(l < P) f i j l * g i j l.
Proof.
rewrite sum3_opp.
by apply: eq_bigr => i _; apply: eq_bigr => j _; apply: eq_bigr => l _; rewrite mulrN.
Qed.

Lemma d1_exact (v g : nat -> F) q k :
  radial_ok (coch s K1 v 1%N) -> radial_ok (coch s K1 v 2%N) ->
  ceq K2 (coch s K2 g) (ccurl nt nz (coch s K1 v)) -> (k < 3)%N ->
  \sum_(x < fdim s K1) v x * get_d_Lambda_1 s tb x q k = \sum_(x < fdim s K2) g x * get_Lambda_2 s tb x q k.
Proof.
move=> Hv1 Hv2 Hg Hk.
rewrite (sum_coch3 s v (hd1 q k)) // (sum_coch3 s g (h2 q k)) // /csum !csh.
have Hin c i j l : (c < 3)%N -> (let: (a, b, d) := cshape s K2 c in [&& (i < a), (j < b) & (l < d)]%N) ->
  coch s K2 g c i j l = ccurl nt nz (coch s K1 v) c i j l by move=> Hc Hi; apply: Hg.
rewrite /hd1 /h2; case: (qpoint tb q) => [[j1 j2] j3].
case: k Hk => [|[|[|k]]] // _ /=.
- rewrite [X in _ = _ + X](_ : _ = 0) ?addr0; last by z3.
  rewrite [X in _ = _ + X](_ : _ = 0) ?addr0; last by z3.
  rewrite [X in X + _ + _](_ : _ = 0) ?add0r; last by z3.
  rewrite (@sum3_mN nr nt nz (coch s K1 v 1%N) (fun i j l => Lr i j1 * Dt j j2 * (dz_m1 s tb l j3 - Dz l j3))).
  rewrite (@parts3_z nr nt (coch s K1 v 1%N) j3 (Lr^~ j1) (Dt^~ j2)).
  rewrite (@parts3_t nr nz (coch s K1 v 2%N) j2 (Lr^~ j1) (Dz^~ j3)) sum3_opp sum3_add.
  apply: eq_bigr => i _; apply: eq_bigr => j _; apply: eq_bigr => l _; rewrite Hin //; last by rewrite csh /= !ltn_ord.
  by rewrite /ccurl /=; mc_norm; ring.
- rewrite [X in _ = X + _ + _](_ : _ = 0) ?add0r; last by z3.
  rewrite [X in _ = _ + X](_ : _ = 0) ?addr0; last by z3.
  rewrite [X in _ + X + _](_ : _ = 0) ?addr0; last by z3.
  rewrite (@sum3_mN nr nt nz (coch s K1 v 2%N) (fun i j l => (dr_m1 s tb i j1 - dr_cur s tb i j1) * Lt j j2 * Dz l j3)).
  rewrite (@parts3_z (dr s) nt (coch s K1 v 0%N) j3 (Dr^~ j1) (Lt^~ j2)).
  rewrite (@parts3_r (coch s K1 v 2%N) j1 (Lt^~ j2) (Dz^~ j3)) // sum3_opp sum3_add.
  apply: eq_bigr => i _; apply: eq_bigr => j _; apply: eq_bigr => l _; rewrite Hin //; last by rewrite csh /= !ltn_ord.
  by rewrite /ccurl /=; mc_norm; ring.
- rewrite [X in _ = X + _ + _](_ : _ = 0) ?add0r; last by z3.
  rewrite [X in _ = X + _](_ : _ = 0) ?add0r; last by z3.
  rewrite [X in _ + X = _](_ : _ = 0) ?addr0; last by z3.
  rewrite (@sum3_mN (dr s) nt nz (coch s K1 v 0%N) (fun i j l => Dr i j1 * (dth_m1 s tb j j2 - Dt j j2) * Lz l j3)).
  rewrite (@parts3_t (dr s) nz (coch s K1 v 0%N) j2 (Dr^~ j1) (Lz^~ j3)).
  rewrite (@parts3_r (coch s K1 v 1%N) j1 (Dt^~ j2) (Lz^~ j3)) // sum3_opp sum3_add.
  apply: eq_bigr => i _; apply: eq_bigr => j _; apply: eq_bigr => l _; rewrite Hin //; last by rewrite csh /= !ltn_ord.
  by rewrite /ccurl /=; mc_norm; ring.
Qed.

Lemma d2_exact (v g : nat -> F) q k :
  radial_ok (coch s K2 v 0%N) ->
  ceq K3 (coch s K3 g) (cdiv nt nz (coch s K2 v)) ->
  \sum_(x < fdim s K2) v x * get_d_Lambda_2 s tb x q k = \sum_(x < fdim s K3) g x * get_Lambda_3 s tb x q k.
Proof.
move=> Hv Hg.
rewrite (sum_coch3 s v (hd2 q k)) // (sum_coch_scalar s g (h3 q k)) // /csum !csh.
have Hin i j l : (let: (a, b, d) := cshape s K3 0%N in [&& (i < a), (j < b) & (l < d)]%N) ->
  coch s K3 g 0%N i j l = cdiv nt nz (coch s K2 v) 0%N i j l by move=> Hi; apply: Hg.
rewrite /hd2 /h3; case: (qpoint tb q) => [[j1 j2] j3] /=.
rewrite (@parts3_r (coch s K2 v 0%N) j1 (Dt^~ j2) (Dz^~ j3)) //.
rewrite (@parts3_t (dr s) nz (coch s K2 v 1%N) j2 (Dr^~ j1) (Dz^~ j3)).
rewrite (@parts3_z (dr s) nt (coch s K2 v 2%N) j3 (Dr^~ j1) (Dt^~ j2)) !sum3_add.
apply: eq_bigr => i _; apply: eq_bigr => j _; apply: eq_bigr => l _; rewrite Hin //; last by rewrite csh /= !ltn_ord.
by rewrite /cdiv /=; mc_norm; ring.
Qed.
End Pointwise.
