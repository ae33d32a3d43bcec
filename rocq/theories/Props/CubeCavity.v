(** Theorems about the table of exact cavity eigenvalues of scripts/deprecated/cube_cavity.py. *)
From Coq Require Import Reals Lra.
From Coquelicot Require Import Coquelicot.
From mathcomp Require Import all_ssreflect.
From Verif.Model Require Import CubeCavity.
From Verif.Spec Require Import CavitySpec.
Set Implicit Arguments.
Unset Strict Implicit.
Unset Printing Implicit Defensive.
Local Open Scope nat_scope.

(* ------------------------------------------------------------- the dictionary *)
Lemma mult_add s c d t : mult_of (add_to s c d) t = mult_of d t + (s == t) * c.
Proof.
elim: d => [|[s' c'] d IH] /=; first by case: eqP; rewrite ?mul1n ?mul0n.
case: (eqVneq s' s) => [->|ne] /=.
  by case: eqP; rewrite ?mul1n ?mul0n ?addn0.
case: (eqVneq s' t) => [e|ne'] //.
by rewrite -e eq_sym (negPf ne) mul0n addn0.
Qed.
Lemma keys_add s c d t : (t \in map fst (add_to s c d)) = (t == s) || (t \in map fst d).
Proof.
elim: d => [|[s' c'] d IH] //=.
case: (eqVneq s' s) => [->|ne] /=; first by rewrite !in_cons orbA orbb.
by rewrite !in_cons IH orbCA.
Qed.
Lemma uniq_add s c d : uniq (map fst d) -> uniq (map fst (add_to s c d)).
Proof.
elim: d => [|[s' c'] d IH] //= /andP [h u].
case: (eqVneq s' s) => [e|ne] /=; first by rewrite h u.
by rewrite keys_add (negPf ne) (negPf h) IH.
Qed.
Lemma contribution_spec x y z :
  match contribution x y z with None => 0 | Some c => c end = polarisations x y z.
Proof. by rewrite /contribution /polarisations /num_zeros; case: x; case: y; case: z. Qed.
Lemma visit_mult d x y z t :
  mult_of (visit d (x, y, z)) t = mult_of d t + (x ^ 2 + y ^ 2 + z ^ 2 == t) * polarisations x y z.
Proof.
rewrite /visit -contribution_spec; case: contribution => [[|c]|] /=; rewrite ?muln0 ?addn0 //.
by rewrite mult_add.
Qed.
Lemma visit_uniq d n : uniq (map fst d) -> uniq (map fst (visit d n)).
Proof.
case: n => [[x y] z] u; rewrite /visit; case: contribution => [[|c]|] //=.
exact: uniq_add.
Qed.
Definition weight (t : nat) (n : nat * nat * nat) : nat :=
  (n.1.1 ^ 2 + n.1.2 ^ 2 + n.2 ^ 2 == t) * polarisations n.1.1 n.1.2 n.2.
Lemma fold_mult l d t : mult_of (foldl visit d l) t = mult_of d t + \sum_(n <- l) weight t n.
Proof.
elim: l d => [|[[x y] z] l IH] d; first by rewrite big_nil addn0.
by rewrite /= IH big_cons visit_mult /weight /= addnA.
Qed.
Lemma fold_uniq l d : uniq (map fst d) -> uniq (map fst (foldl visit d l)).
Proof. by elim: l d => [|n l IH] d u //=; apply: IH; apply: visit_uniq. Qed.
Lemma mult_notin d t : t \notin map fst d -> mult_of d t = 0.
Proof.
elim: d => [|[s c] d IH] //=; rewrite in_cons negb_or => /andP [h h'].
by rewrite eq_sym (negPf h) IH.
Qed.
Lemma count_blocks (m : nat -> nat) l t : uniq l ->
  count_mem t (flatten [seq nseq (m s) s | s <- l]) = (t \in l) * m t.
Proof.
elim: l => [|s l IH] //= /andP [h u].
rewrite count_cat (IH u) count_nseq /= in_cons eq_sym.
case: (eqVneq s t) => [e|ne] /=; last by rewrite mul0n.
by rewrite -e (negPf h) !mul1n mul0n addn0.
Qed.
Lemma count_get N t : count_mem t (get_true_evs N) = \sum_(n <- indices N) weight t n.
Proof.
have e : mult_of (table N) t = \sum_(n <- indices N) weight t n by rewrite /table fold_mult.
have u : uniq (map fst (table N)) by apply: fold_uniq.
rewrite /get_true_evs count_blocks ?sort_uniq // mem_sort.
case h: (t \in _); first by rewrite mul1n.
by rewrite mul0n -e mult_notin // h.
Qed.
Lemma sorted_blocks (m : nat -> nat) l : sorted leq l -> sorted leq (flatten [seq nseq (m s) s | s <- l]).
Proof.
rewrite !(sorted_pairwise leq_trans).
elim: l => [|s l IH] //= /andP [h p].
rewrite pairwise_cat IH // andbT; apply/andP; split.
  apply/allrelP => a b; rewrite mem_nseq => /andP [_ /eqP ->] /flatten_mapP [c hc].
  by rewrite mem_nseq => /andP [_ /eqP ->]; apply: (allP h).
elim: (m s) => [|k IHk] //=; rewrite IHk andbT.
by apply/allP => b; rewrite mem_nseq => /andP [_ /eqP ->].
Qed.
Lemma sum_indices N (F : nat * nat * nat -> nat) :
  \sum_(n <- indices N) F n =
  \sum_(0 <= x < N.+1) \sum_(0 <= y < N.+1) \sum_(0 <= z < N.+1) F (x, y, z).
Proof.
rewrite /indices big_allpairs big_allpairs /=.
by rewrite /index_iota subn0.
Qed.
Lemma mem_indices N x y z : ((x, y, z) \in indices N) = [&& x <= N, y <= N & z <= N].
Proof.
apply/idP/idP.
  case/allpairsP => [[[a b] c]] [h1 hc e2].
  case/allpairsP: h1 => [[p q]] [hp hq e1].
  case: e2 => -> -> ->; case: e1 => -> ->.
  by move: hp hq hc; rewrite !mem_iota !add0n /= !ltnS => -> -> ->.
case/and3P => hx hy hz; apply: (allpairs_f (fun (a : nat * nat) b => (a, b))); last by rewrite mem_iota add0n ltnS.
by apply: (allpairs_f (fun a b : nat => (a, b))); rewrite mem_iota add0n ltnS.
Qed.
Lemma uniq_indices N : uniq (indices N).
Proof.
apply: allpairs_uniq; [apply: allpairs_uniq; try exact: iota_uniq|exact: iota_uniq|].
  by move=> [a b] [c d] _ _ /= [-> ->].
by move=> [a b] [c d] _ _ /= [-> ->].
Qed.
Lemma sum_split N M (F : nat * nat * nat -> nat) : N <= M ->
  \sum_(n <- indices M) F n =
  \sum_(n <- indices N) F n + \sum_(n <- indices M | n \notin indices N) F n.
Proof.
move=> h; rewrite (bigID (fun n => n \in indices N)) /=; congr (_ + _).
rewrite -big_filter; apply: perm_big; apply: uniq_perm.
- exact/filter_uniq/uniq_indices.
- exact: uniq_indices.
move=> [[x y] z]; rewrite mem_filter !mem_indices.
by apply/andb_idr => /and3P [hx hy hz]; rewrite !(leq_trans _ h).
Qed.

(** every eigenvalue occurs in the table as often as there are independent modes with indices up to N_max, and the table
    is sorted *)
Theorem C81_count : forall N : nat,
  sorted leq (get_true_evs N) /\
  forall s : nat, count_mem s (get_true_evs N) =
    \sum_(0 <= x < N.+1) \sum_(0 <= y < N.+1) \sum_(0 <= z < N.+1)
       (if x ^ 2 + y ^ 2 + z ^ 2 == s then polarisations x y z else 0).
Proof.
move=> N; split; first by apply/sorted_blocks/sort_sorted/leq_total.
move=> s; rewrite count_get sum_indices.
apply: eq_bigr => x _; apply: eq_bigr => y _; apply: eq_bigr => z _.
by rewrite /weight /=; case: eqP; rewrite ?mul1n ?mul0n.
Qed.
Print Assumptions C81_count.

Lemma outside_big N x y z : (x, y, z) \notin indices N -> 0 < polarisations x y z ->
  N.+1 ^ 2 < x ^ 2 + y ^ 2 + z ^ 2.
Proof.
have key a b c : N < a -> (0 < b) || (0 < c) -> N.+1 ^ 2 < a ^ 2 + b ^ 2 + c ^ 2.
  move=> ha hbc; have h : N.+1 ^ 2 <= a ^ 2 by rewrite leq_exp2r.
  rewrite -addnA -[X in X < _]addn0; apply: leq_ltn_trans (leq_add h (leqnn _)) _.
  by rewrite ltn_add2l addn_gt0 !expn_gt0 !orbF.
rewrite mem_indices !negb_and -!ltnNge => h p.
case/or3P: h => h.
- by apply: key => //; move: p h; case: y => [|?]; case: z => [|?] //; case: x.
- by rewrite (addnC (x ^ 2)); apply: key => //; move: p h; case: x => [|?]; case: z => [|?] //; case: y.
- by rewrite addnC addnA; apply: key => //; move: p h; case: x => [|?]; case: y => [|?] //; case: z.
Qed.
Lemma count_stable N M s : N <= M -> s <= N.+1 ^ 2 ->
  count_mem s (get_true_evs M) = count_mem s (get_true_evs N).
Proof.
move=> h hs; rewrite !count_get (sum_split _ h) [X in _ + X]big1_seq ?addn0 // => -[[x y] z] /andP [hn _].
rewrite /weight /=; case: eqP => // e; rewrite mul1n.
case p: (polarisations x y z) => [|k] //.
by have := outside_big hn; rewrite p => /(_ isT); rewrite e ltnNge hs.
Qed.
Lemma take_sorted B (l : seq nat) : sorted leq l -> take (count (fun s => s <= B) l) l = filter (fun s => s <= B) l.
Proof.
elim: l => [|a l IH] //= p.
case: (leqP a B) => h; first by rewrite add1n /= IH // (path_sorted p).
have z : all (fun s => ~~ (s <= B)) l.
  apply/allP => b hb; rewrite -ltnNge; apply: leq_trans h _.
  by apply: (allP (order_path_min leq_trans p)).
have c0 : count (fun s => s <= B) l = 0 by apply/eqP; rewrite -leqn0 leqNgt -has_count -all_predC.
rewrite add0n c0 take0; symmetry; apply/eqP; rewrite -size_eq0 size_filter c0 //.
Qed.
(** raising N_max never changes an eigenvalue up to (N_max+1)^2: every prefix of the table inside that range is final *)
Theorem C81_complete : forall N M k : nat, N <= M ->
  k <= count (fun s => s <= N.+1 ^ 2) (get_true_evs N) ->
  take k (get_true_evs M) = take k (get_true_evs N).
Proof.
move=> N M k h hk; set B := N.+1 ^ 2 in hk.
have [sN _] := C81_count N; have [sM _] := C81_count M.
have e : filter (fun s => s <= B) (get_true_evs M) = filter (fun s => s <= B) (get_true_evs N).
  apply: (sorted_eq leq_trans anti_leq); [exact: (sorted_filter leq_trans)|exact: (sorted_filter leq_trans)|].
  apply/allP => s _ /=; rewrite !count_filter.
  case: (leqP s B) => hs.
    apply/eqP; transitivity (count_mem s (get_true_evs M)).
      by apply: eq_count => t /=; case: (eqVneq t s) => [->|]; rewrite ?hs.
    rewrite (count_stable h hs); apply: eq_count => t /=; case: (eqVneq t s) => [->|]; by rewrite ?hs.
  have z0 : predI (pred1 s) (fun s0 => s0 <= B) =1 pred0.
    by move=> t /=; case: (eqVneq t s) => [->|] //=; rewrite leqNgt hs.
  by apply/eqP; rewrite !(eq_count z0) !count_pred0.
have ec : count (fun s => s <= B) (get_true_evs M) = count (fun s => s <= B) (get_true_evs N).
  by rewrite -!size_filter e.
rewrite -(take_take hk (get_true_evs N)) (take_sorted _ sN) -e -(take_sorted _ sM) take_take //.
by rewrite ec.
Qed.
Print Assumptions C81_complete.

(** the 26 values that the script plots, get_true_evs(4)[:26], are the 26 smallest whatever the cut-off *)
Theorem C81_script : forall M : nat, 4 <= M -> take 26 (get_true_evs M) = take 26 (get_true_evs 4).
Proof. by move=> M h; apply: C81_complete => //; vm_compute. Qed.
Print Assumptions C81_script.

(** the bound is sharp: the next integer already misses modes, for every cut-off *)
Theorem C81_sharp : forall N M : nat, N < M ->
  count_mem (N.+1 ^ 2).+1 (get_true_evs N) < count_mem (N.+1 ^ 2).+1 (get_true_evs M).
Proof.
move=> N M h; rewrite !count_get (sum_split _ (ltnW h)) -[X in X < _]addn0 ltn_add2l.
rewrite -big_filter (big_rem (N.+1, 1, 0)); last first.
  by rewrite mem_filter !mem_indices ltnn h (leq_ltn_trans (leq0n N) h).
by rewrite addn_gt0 {1}/weight /= exp1n exp0n // addn0 addn1 eqxx.
Qed.
Print Assumptions C81_sharp.

Example C81_nonvacuous : get_true_evs 4 <> [::] /\ take 8 (get_true_evs 4) = [:: 2; 2; 2; 3; 3; 5; 5; 5].
Proof. by vm_compute. Qed.

(* ------------------------------------------------------------- the fields *)
Section Fields.
Local Open Scope R_scope.
Lemma d_cos k t : is_derive (fun t => cos (k * t)) t (- k * sin (k * t)).
Proof. by auto_derive => //; ring. Qed.
Lemma d_sin k t : is_derive (fun t => sin (k * t)) t (k * cos (k * t)).
Proof. by auto_derive => //; ring. Qed.
Lemma sin_npi (n : nat) (w : R) : w = 0 \/ w = 1 -> sin (INR n * PI * w) = 0.
Proof.
case=> ->; first by rewrite Rmult_0_r sin_0.
rewrite Rmult_1_r; elim: n => [|n IH]; first by rewrite Rmult_0_l sin_0.
by rewrite S_INR Rmult_plus_distr_r Rmult_1_l neg_sin IH Ropp_0.
Qed.
Ltac pd := repeat intro; cbn [cx cy cz mode]; auto_derive => //; ring.

(** every standing wave satisfies the boundary condition; it is solenoidal exactly when the amplitude is orthogonal to
    the wave vector or one of the indices is zero; and then it is an eigenfield of curl curl with eigenvalue
    pi^2 (nx^2 + ny^2 + nz^2) *)
Lemma mode_div nx ny nz a b c : has_div (mode nx ny nz a b c)
  (fun x y z => - PI * (INR nx * a + INR ny * b + INR nz * c) *
     (sin (INR nx * PI * x) * sin (INR ny * PI * y) * sin (INR nz * PI * z))).
Proof.
exists (fun x y z => - (INR nx * PI) * a * (sin (INR nx * PI * x) * sin (INR ny * PI * y) * sin (INR nz * PI * z))),
  (fun x y z => - (INR ny * PI) * b * (sin (INR nx * PI * x) * sin (INR ny * PI * y) * sin (INR nz * PI * z))),
  (fun x y z => - (INR nz * PI) * c * (sin (INR nx * PI * x) * sin (INR ny * PI * y) * sin (INR nz * PI * z))).
split; first pd. split; first pd. split; first pd.
by move=> x y z; ring.
Qed.
Lemma div_unique E d e : has_div E d -> has_div E e -> forall x y z, d x y z = e x y z.
Proof.
case=> [x1 [y1 [z1 [hx [hy [hz h]]]]]] [x2 [y2 [z2 [kx [ky [kz k]]]]]] x y z.
rewrite h k.
rewrite -(is_derive_unique _ _ _ (hx x y z)) -(is_derive_unique _ _ _ (hy x y z)) -(is_derive_unique _ _ _ (hz x y z)).
by rewrite (is_derive_unique _ _ _ (kx x y z)) (is_derive_unique _ _ _ (ky x y z)) (is_derive_unique _ _ _ (kz x y z)).
Qed.
(** a point where no sine or cosine of a positive index vanishes *)
Definition pt (n : nat) : R := if n is m.+1 then / (4 * INR m.+1) else 0.
Lemma pt_arg n : INR n.+1 * PI * pt n.+1 = PI / 4.
Proof. by rewrite /pt; have := not_0_INR n.+1; move/(_ ltac:(discriminate)) => h; field. Qed.
Lemma sin_pt n : sin (INR n.+1 * PI * pt n.+1) <> 0.
Proof. by rewrite pt_arg; apply: Rgt_not_eq; apply: sin_gt_0; have := PI_RGT_0; lra. Qed.
Lemma cos_pt n : cos (INR n * PI * pt n) <> 0.
Proof.
case: n => [|n]; first by rewrite /= !Rmult_0_l cos_0; lra.
by rewrite pt_arg; apply: Rgt_not_eq; apply: cos_gt_0; have := PI_RGT_0; lra.
Qed.
Lemma sin_z x : sin (INR 0 * PI * x) = 0.
Proof. by rewrite /= !Rmult_0_l sin_0. Qed.
Lemma INR_S2 nx ny nz : INR (nx ^ 2 + ny ^ 2 + nz ^ 2) = INR nx * INR nx + INR ny * INR ny + INR nz * INR nz.
Proof. by rewrite !expnS !expn0 !muln1 -!plusE !plus_INR -!multE !mult_INR. Qed.
Theorem C81_modes : forall (nx ny nz : nat) (a b c : R),
  conducting (mode nx ny nz a b c) /\
  (solenoidal (mode nx ny nz a b c) <->
     INR nx * a + INR ny * b + INR nz * c = 0 \/ nx = 0%N \/ ny = 0%N \/ nz = 0%N) /\
  (solenoidal (mode nx ny nz a b c) ->
     exists C D, has_curl (mode nx ny nz a b c) C /\ has_curl C D /\
       forall x y z,
         cx D x y z = PI ^ 2 * INR (nx ^ 2 + ny ^ 2 + nz ^ 2) * cx (mode nx ny nz a b c) x y z /\
         cy D x y z = PI ^ 2 * INR (nx ^ 2 + ny ^ 2 + nz ^ 2) * cy (mode nx ny nz a b c) x y z /\
         cz D x y z = PI ^ 2 * INR (nx ^ 2 + ny ^ 2 + nz ^ 2) * cz (mode nx ny nz a b c) x y z).
Proof.
move=> nx ny nz a b c.
have hs : solenoidal (mode nx ny nz a b c) <->
     INR nx * a + INR ny * b + INR nz * c = 0 \/ nx = 0%N \/ ny = 0%N \/ nz = 0%N.
  split.
    move=> h; have := div_unique (mode_div nx ny nz a b c) h (pt nx) (pt ny) (pt nz) => /=.
    case: nx h => [|nx] _; first by auto.
    case: ny => [|ny]; first by auto.
    case: nz => [|nz]; first by auto.
    move=> /Rmult_integral [/Rmult_integral [|]|/Rmult_integral [/Rmult_integral [|]|]].
    - by have := PI_RGT_0; lra.
    - by left.
    - by move/sin_pt.
    - by move/sin_pt.
    - by move/sin_pt.
  move=> h; have [xx [yy [zz [h1 [h2 [h3 h4]]]]]] := mode_div nx ny nz a b c.
  exists xx, yy, zz; split=> //; split=> //; split=> // x y z; rewrite -h4.
  by case: h => [->|[->|[->|->]]]; rewrite ?sin_z; ring.
split; last split=> //.
  move=> s t; split; [|split] => w hw; cbn [cx cy cz mode]; rewrite (sin_npi _ hw); split; ring.
move/(proj1 hs) => h.
pose A := PI * (INR ny * c - INR nz * b); pose B := PI * (INR nz * a - INR nx * c); pose G := PI * (INR nx * b - INR ny * a).
exists (VField (fun x y z => A * (sin (INR nx * PI * x) * cos (INR ny * PI * y) * cos (INR nz * PI * z)))
         (fun x y z => B * (cos (INR nx * PI * x) * sin (INR ny * PI * y) * cos (INR nz * PI * z)))
         (fun x y z => G * (cos (INR nx * PI * x) * cos (INR ny * PI * y) * sin (INR nz * PI * z)))).
exists (VField (fun x y z => PI * (INR nz * B - INR ny * G) * (cos (INR nx * PI * x) * sin (INR ny * PI * y) * sin (INR nz * PI * z)))
         (fun x y z => PI * (INR nx * G - INR nz * A) * (sin (INR nx * PI * x) * cos (INR ny * PI * y) * sin (INR nz * PI * z)))
         (fun x y z => PI * (INR ny * A - INR nx * B) * (sin (INR nx * PI * x) * sin (INR ny * PI * y) * cos (INR nz * PI * z)))).
split; [|split].
- exists (fun x y z => c * (sin (INR nx * PI * x) * (INR ny * PI * cos (INR ny * PI * y)) * cos (INR nz * PI * z))),
    (fun x y z => b * (sin (INR nx * PI * x) * cos (INR ny * PI * y) * (INR nz * PI * cos (INR nz * PI * z)))),
    (fun x y z => a * (cos (INR nx * PI * x) * sin (INR ny * PI * y) * (INR nz * PI * cos (INR nz * PI * z)))),
    (fun x y z => c * (INR nx * PI * cos (INR nx * PI * x) * sin (INR ny * PI * y) * cos (INR nz * PI * z))),
    (fun x y z => b * (INR nx * PI * cos (INR nx * PI * x) * cos (INR ny * PI * y) * sin (INR nz * PI * z))),
    (fun x y z => a * (cos (INR nx * PI * x) * (INR ny * PI * cos (INR ny * PI * y)) * sin (INR nz * PI * z))).
  do 6 (split; first pd).
  by move=> x y z; cbn [cx cy cz]; rewrite /A /B /G; split; [ring|split; ring].
- exists (fun x y z => G * (cos (INR nx * PI * x) * (- (INR ny * PI) * sin (INR ny * PI * y)) * sin (INR nz * PI * z))),
    (fun x y z => B * (cos (INR nx * PI * x) * sin (INR ny * PI * y) * (- (INR nz * PI) * sin (INR nz * PI * z)))),
    (fun x y z => A * (sin (INR nx * PI * x) * cos (INR ny * PI * y) * (- (INR nz * PI) * sin (INR nz * PI * z)))),
    (fun x y z => G * (- (INR nx * PI) * sin (INR nx * PI * x) * cos (INR ny * PI * y) * sin (INR nz * PI * z))),
    (fun x y z => B * (- (INR nx * PI) * sin (INR nx * PI * x) * sin (INR ny * PI * y) * cos (INR nz * PI * z))),
    (fun x y z => A * (sin (INR nx * PI * x) * (- (INR ny * PI) * sin (INR ny * PI * y)) * cos (INR nz * PI * z))).
  do 6 (split; first pd).
  by move=> x y z; cbn [cx cy cz]; split; [ring|split; ring].
move=> x y z; cbn [cx cy cz mode]; rewrite /A /B /G INR_S2.
have e1 : INR nx * (INR nx * a + INR ny * b + INR nz * c) * (cos (INR nx * PI * x) * sin (INR ny * PI * y) * sin (INR nz * PI * z)) = 0.
  by case: h => [->|[->|[->|->]]]; rewrite ?sin_z /=; ring.
have e2 : INR ny * (INR nx * a + INR ny * b + INR nz * c) * (sin (INR nx * PI * x) * cos (INR ny * PI * y) * sin (INR nz * PI * z)) = 0.
  by case: h => [->|[->|[->|->]]]; rewrite ?sin_z /=; ring.
have e3 : INR nz * (INR nx * a + INR ny * b + INR nz * c) * (sin (INR nx * PI * x) * sin (INR ny * PI * y) * cos (INR nz * PI * z)) = 0.
  by case: h => [->|[->|[->|->]]]; rewrite ?sin_z /=; ring.
split; [|split].
- transitivity (PI ^ 2 * (INR nx * INR nx + INR ny * INR ny + INR nz * INR nz) * (a * (cos (INR nx * PI * x) * sin (INR ny * PI * y) * sin (INR nz * PI * z)))
    - PI ^ 2 * (INR nx * (INR nx * a + INR ny * b + INR nz * c) * (cos (INR nx * PI * x) * sin (INR ny * PI * y) * sin (INR nz * PI * z)))); first by ring.
  by rewrite e1; ring.
- transitivity (PI ^ 2 * (INR nx * INR nx + INR ny * INR ny + INR nz * INR nz) * (b * (sin (INR nx * PI * x) * cos (INR ny * PI * y) * sin (INR nz * PI * z)))
    - PI ^ 2 * (INR ny * (INR nx * a + INR ny * b + INR nz * c) * (sin (INR nx * PI * x) * cos (INR ny * PI * y) * sin (INR nz * PI * z)))); first by ring.
  by rewrite e2; ring.
- transitivity (PI ^ 2 * (INR nx * INR nx + INR ny * INR ny + INR nz * INR nz) * (c * (sin (INR nx * PI * x) * sin (INR ny * PI * y) * cos (INR nz * PI * z)))
    - PI ^ 2 * (INR nz * (INR nx * a + INR ny * b + INR nz * c) * (sin (INR nx * PI * x) * sin (INR ny * PI * y) * cos (INR nz * PI * z)))); first by ring.
  by rewrite e3; ring.
Qed.
Print Assumptions C81_modes.

(** the number the script adds to the table for an index triple is the dimension of the space of solenoidal standing
    waves with these indices *)
Theorem C81_polarisations : forall nx ny nz : nat,
  dimension (fun E => exists a b c, E = mode nx ny nz a b c /\ solenoidal E) (polarisations nx ny nz) /\
  (if contribution nx ny nz is Some k then k else 0%N) = polarisations nx ny nz.
Proof.
move=> nx ny nz; split; last exact: contribution_spec.
case: nx => [|nx]; case: ny => [|ny]; case: nz => [|nz]; rewrite /polarisations /dimension.
- by move=> E [a [b [c [-> _]]]] x y z; cbn [cx cy cz mode zero_field]; rewrite !sin_z; split; [ring|split; ring].
- by move=> E [a [b [c [-> _]]]] x y z; cbn [cx cy cz mode zero_field]; rewrite !sin_z; split; [ring|split; ring].
- by move=> E [a [b [c [-> _]]]] x y z; cbn [cx cy cz mode zero_field]; rewrite !sin_z; split; [ring|split; ring].
- exists (mode 0 ny.+1 nz.+1 1 0 0); split; [|split].
  + by exists 1, 0, 0; split=> //; apply/(proj1 (proj2 (C81_modes _ _ _ _ _ _))); auto.
  + move=> /(_ (pt 0) (pt ny.+1) (pt nz.+1)) [+ _]; cbn [cx cy cz mode zero_field] => h.
    by case: (Rmult_integral _ _ h) => [|/Rmult_integral [/Rmult_integral [/cos_pt|/sin_pt]|/sin_pt]] //; lra.
  + move=> E [a [b [c [-> _]]]]; exists a => x y z; cbn [cx cy cz mode zero_field comb]; rewrite !sin_z.
    by split; [ring|split; ring].
- by move=> E [a [b [c [-> _]]]] x y z; cbn [cx cy cz mode zero_field]; rewrite !sin_z; split; [ring|split; ring].
- exists (mode nx.+1 0 nz.+1 0 1 0); split; [|split].
  + by exists 0, 1, 0; split=> //; apply/(proj1 (proj2 (C81_modes _ _ _ _ _ _))); auto.
  + move=> /(_ (pt nx.+1) (pt 0) (pt nz.+1)) [_ [+ _]]; cbn [cx cy cz mode zero_field] => h.
    by case: (Rmult_integral _ _ h) => [|/Rmult_integral [/Rmult_integral [/sin_pt|/cos_pt]|/sin_pt]] //; lra.
  + move=> E [a [b [c [-> _]]]]; exists b => x y z; cbn [cx cy cz mode zero_field comb]; rewrite !sin_z.
    by split; [ring|split; ring].
- exists (mode nx.+1 ny.+1 0 0 0 1); split; [|split].
  + by exists 0, 0, 1; split=> //; apply/(proj1 (proj2 (C81_modes _ _ _ _ _ _))); auto.
  + move=> /(_ (pt nx.+1) (pt ny.+1) (pt 0)) [_ [_ +]]; cbn [cx cy cz mode zero_field] => h.
    by case: (Rmult_integral _ _ h) => [|/Rmult_integral [/Rmult_integral [/sin_pt|/sin_pt]|/cos_pt]] //; lra.
  + move=> E [a [b [c [-> _]]]]; exists c => x y z; cbn [cx cy cz mode zero_field comb]; rewrite !sin_z.
    by split; [ring|split; ring].
- have hx := not_0_INR nx.+1 ltac:(discriminate); have hy := not_0_INR ny.+1 ltac:(discriminate).
  exists (mode nx.+1 ny.+1 nz.+1 (INR ny.+1) (- INR nx.+1) 0), (mode nx.+1 ny.+1 nz.+1 (INR nz.+1) 0 (- INR nx.+1)).
  split; [|split; [|split]].
  + exists (INR ny.+1), (- INR nx.+1), 0; split=> //; apply/(proj1 (proj2 (C81_modes _ _ _ _ _ _))); left; ring.
  + exists (INR nz.+1), 0, (- INR nx.+1); split=> //; apply/(proj1 (proj2 (C81_modes _ _ _ _ _ _))); left; ring.
  + move=> p q /(_ (pt nx.+1) (pt ny.+1) (pt nz.+1)) [_ []]; cbn [cx cy cz mode zero_field comb] => h1 h2; split.
      have : p * INR nx.+1 * (sin (INR nx.+1 * PI * pt nx.+1) * cos (INR ny.+1 * PI * pt ny.+1) * sin (INR nz.+1 * PI * pt nz.+1)) = 0.
        by transitivity (- 0); [rewrite -h1; ring|ring].
      by move=> /Rmult_integral [/Rmult_integral [|]|/Rmult_integral [/Rmult_integral [/sin_pt|/cos_pt]|/sin_pt]].
    have : q * INR nx.+1 * (sin (INR nx.+1 * PI * pt nx.+1) * sin (INR ny.+1 * PI * pt ny.+1) * cos (INR nz.+1 * PI * pt nz.+1)) = 0.
      by transitivity (- 0); [rewrite -h2; ring|ring].
    by move=> /Rmult_integral [/Rmult_integral [|]|/Rmult_integral [/Rmult_integral [/sin_pt|/sin_pt]|/cos_pt]].
  + move=> E [a [b [c [-> hs]]]].
    have h0 : INR nx.+1 * a + INR ny.+1 * b + INR nz.+1 * c = 0.
      by case: (proj1 (proj1 (proj2 (C81_modes _ _ _ _ _ _))) hs) => // -[|[|]].
    exists (- b / INR nx.+1), (- c / INR nx.+1) => x y z; cbn [cx cy cz mode zero_field comb].
    have ea : a = - (INR ny.+1 * b + INR nz.+1 * c) / INR nx.+1 by apply: (Rmult_eq_reg_l (INR nx.+1)) => //; field_simplify => //; lra.
    rewrite {1}ea; split; [|split]; by field.
Qed.
Print Assumptions C81_polarisations.
End Fields.
