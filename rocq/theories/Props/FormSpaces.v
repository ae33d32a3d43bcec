(** Property theorems C09-C12 (form spaces: indices, dimensions, evaluation). *)
From Coq Require Import Reals.
From mathcomp Require Import all_ssreflect all_algebra zify ssrZ.
From Verif Require Import Model.RBase Model.Spline Model.Quad Model.Forms Model.DeRham Model.FormEval.
From Verif Require Import Spec.FormSpec Proof.RField Proof.IndexLemmas Proof.FormEvalProofs.
Set Implicit Arguments.
Unset Strict Implicit.
Unset Printing Implicit Defensive.
Import GRing.Theory.
Local Open Scope ring_scope.

(** ** C09 flat and structured indices are mutually inverse bijections *)
Theorem C09_index_round_trip : forall (s : shape) (k : deg),
  (forall c i j l, in_range s k c i j l ->
     (ravel_index s k c i j l < fdim s k)%N /\
     unravel_index s k (ravel_index s k c i j l) = (c, (i, j, l))) /\
  (forall x, (x < fdim s k)%N ->
     exists c i j l, [/\ unravel_index s k x = (c, (i, j, l)), in_range s k c i j l
                       & ravel_index s k c i j l = x]).
Proof.
move=> s k; split=> [c i j l|x Hx].
  by rewrite in_rangeE => /andP [Hc Hr]; rewrite ravel_index_lt // unravel_ravel_index.
have := ravel_unravel_index Hx.
case: (unravel_index s k x) => [c [[i j] l]] [Hc Hin E].
by exists c, i, j, l; rewrite in_rangeE Hc.
Qed.
Print Assumptions C09_index_round_trip.
Example C09_nonvacuous : let s := Shape 5 4 3 true false false in
  in_range s K2 1 3 2 1 /\ ravel_index s K2 1 3 2 1 = 103%N /\ fdim s K2 = 156%N.
Proof. by []. Qed.

(** ** C10 dimensions *)
(** the advertised dimension is the number of valid structured indices *)
Theorem C10_dimension_counts : forall (s : shape) (k : deg),
  exists l : seq (nat * (nat * nat * nat)),
    [/\ uniq l, size l = fdim s k & forall c i j m, ((c, (i, j, m)) \in l) = in_range s k c i j m].
Proof.
move=> s k; have [H1 H2] := C09_index_round_trip s k.
exists [seq unravel_index s k x | x <- iota 0 (fdim s k)]; split.
- rewrite map_inj_in_uniq ?iota_uniq // => x y; rewrite !mem_iota !add0n /= => Hx Hy E.
  have [c [i [j [l [E1 _ <-]]]]] := H2 _ Hx; have [c' [i' [j' [l' [E2 _ <-]]]]] := H2 _ Hy.
  by move: E; rewrite E1 E2 => [[-> -> -> ->]].
- by rewrite size_map size_iota.
- move=> c i j m; apply/mapP/idP => [[x]|H].
    rewrite mem_iota add0n /= => Hx E; have [c' [i' [j' [l' [E1 Hr _]]]]] := H2 _ Hx.
    by move: E; rewrite E1 => [[-> -> -> ->]].
  have [Hlt E] := H1 _ _ _ _ H; exists (ravel_index s k c i j m) => //.
  by rewrite mem_iota add0n.
Qed.
Print Assumptions C10_dimension_counts.

(** alternating sum of the dimensions: the Euler characteristic (1 per clamped direction
    factor, 0 per non-clamped one) *)
Definition clamp_factor (b : bool) : int := b%:Z.
Definition euler (n0 n1 n2 n3 : nat) : int := n0%:Z - n1%:Z + n2%:Z - n3%:Z.
Theorem C10_euler_full : forall s : shape, (0 < nr s)%N -> (0 < nt s)%N -> (0 < nz s)%N ->
  euler (fdim s K0) (fdim s K1) (fdim s K2) (fdim s K3)
  = (cr s)%:Z * (ct s)%:Z * (cz s)%:Z.
Proof.
move=> [[//|n0] [//|n1] [//|n2] c0 c1 c2] /= _ _ _.
rewrite /euler /fdim /fn1 /fn2 /fn3 /cshape /dr /dt /dz /=.
by case: c0; case: c1; case: c2 => /=; rewrite ?subn0 ?subn1 ?subSS ?subn0; lia.
Qed.
Print Assumptions C10_euler_full.

(** extracted polar spaces: the Euler characteristic of a disc times the zeta direction,
    with or without boundary conditions *)
Theorem C10_euler_polar : forall (s : shape) (o : bool),
  cr s -> ~~ ct s -> (2 + o <= nr s)%N -> (0 < nz s)%N ->
  euler (pdim s o K0) (pdim s o K1) (pdim s o K2) (pdim s o K3) = (cz s)%:Z.
Proof.
move=> [n0 n1 [//|n2] c0 c1 c2] [] /= -> /negbTE -> H0 _.
all: rewrite /euler /pdim /pn1 /pn2 /pn3 /dr /dt /dz /= ?subn0 ?subn1.
- by case: n0 H0 => [|[|[|n0]]] //= _; case: c2 => /=; rewrite ?subn0 ?subn1 ?subSS ?subn0; lia.
- by case: n0 H0 => [|[|n0]] //= _; case: c2 => /=; rewrite ?subn0 ?subn1 ?subSS ?subn0; lia.
Qed.
Print Assumptions C10_euler_polar.

(** boundary-reduced spaces with Dirichlet conditions in a clamped r direction: relative
    Euler characteristic of [0,1] modulo its end points, -1 *)
Theorem C10_euler_dirichlet : forall s : shape,
  cr s -> (2 <= nr s)%N -> (0 < nt s)%N -> (0 < nz s)%N ->
  let b := (Dirichlet, NoBC, NoBC) in
  euler (bdim s b K0) (bdim s b K1) (bdim s b K2) (bdim s b K3) = - ((ct s)%:Z * (cz s)%:Z).
Proof.
move=> [[|[|n0]] [//|n1] [//|n2] c0 c1 c2] //= -> _ _ _.
rewrite /euler /bdim /bn1 /bn2 /bn3 /bshape /dr /dt /dz /=.
by case: c1; case: c2 => /=; rewrite ?subn0 ?subn1 ?subSS ?subn0; lia.
Qed.
Print Assumptions C10_euler_dirichlet.
Example C10_nonvacuous : let s := Shape 5 4 3 true false false in
  (fdim s K0, fdim s K1, fdim s K2, fdim s K3) = (60, 168, 156, 48)%N /\
  (pdim s true K0, pdim s true K1, pdim s true K2, pdim s true K3) = (33, 99, 102, 36)%N.
Proof. by []. Qed.

(** ** C11 evaluation of basis forms *)
Theorem C11_basis_evaluation : forall (k : deg) (ns ps : triple) (types : stype * stype * stype) (f : dform),
  DifferentialForm k ns ps types = Some f ->
  forall (x0 x1 x2 : R) (c i j l c' : nat),
    in_range (f_shape f) k c i j l -> (c' < comps k)%N ->
    form_evaluate f (x0, x1, x2) (ravel_index (f_shape f) k c i j l) c'
    = if c' == c then factor f c 0 x0 i * factor f c 1 x1 j * factor f c 2 x2 l else 0.
Proof. by move=> *; apply: form_eval_spec; eassumption. Qed.
Print Assumptions C11_basis_evaluation.

(** the tables used by all assembly routines agree with the basis forms at the quadrature points *)
Theorem C11_tables_agree : forall (k : deg) (ns ps : triple) (types : stype * stype * stype)
    (f : dform) (q : nat) (Q : quadrule),
  k <> KV -> DifferentialForm k ns ps types = Some f ->
  QuadratureRule (f_L0 f) (f_L1 f) (f_L2 f) q = Some Q ->
  forall i j c, (i < fdim (f_shape f) k)%N -> (j < length (q_x Q))%N -> (c < comps k)%N ->
    (match k with
     | K0 => get_Lambda_0 (f_shape f) (evaluate_1d f Q) i j c
     | K1 => get_Lambda_1 (f_shape f) (evaluate_1d f Q) i j c
     | K2 => get_Lambda_2 (f_shape f) (evaluate_1d f Q) i j c
     | _  => get_Lambda_3 (f_shape f) (evaluate_1d f Q) i j c
     end : R)
    = form_evaluate f (List.nth j (q_x Q) (0, 0, 0)) i c.
Proof.
move=> k ns ps types f q Q HV Hf HQ i j c Hi Hj Hc.
have [Ek _ _ _] := DF_inv Hf.
rewrite -(getter_spec Hf HQ HV) // ?/f_n ?Ek //.
by case: k HV {Hf Hi Hc Ek}.
Qed.
Print Assumptions C11_tables_agree.
Example C11_nonvacuous : exists f Q,
  [/\ DifferentialForm K1 (6, 5, 4)%N (3, 2, 1)%N (Clamped, Periodic, Periodic) = Some f,
      QuadratureRule (f_L0 f) (f_L1 f) (f_L2 f) 3 = Some Q
    & in_range (f_shape f) K1 1 2 3 1].
Proof. by eexists; eexists; split. Qed.

(** ** C12 DiscreteFunction *)
Theorem C12_discrete_function : forall (f : dform) (m : nat) (E : 'M[R]_(m, f_n f)) (x : point),
  (forall (a b : R) (u v : 'rV[R]_m),
     DiscreteFunction (a *: u + b *: v) E x = a *: DiscreteFunction u E x + b *: DiscreteFunction v E x) /\
  (forall (i : 'I_m) c, DiscreteFunction (delta_mx 0 i) E x 0 c
     = \sum_(y < f_n f) E i y * form_evaluate f x y c) /\
  (forall (u : 'rV[R]_m) c, DiscreteFunction u E x 0 c
     = \sum_(i < m) u 0 i * \sum_(y < f_n f) E i y * form_evaluate f x y c).
Proof.
move=> f m E x; split; [|split].
- by move=> a b u v; rewrite /DiscreteFunction !mulmxDl -!scalemxAl.
- move=> i c; rewrite /DiscreteFunction -rowE mxE.
  by apply: eq_bigr => y _; rewrite !mxE.
- move=> u c; rewrite /DiscreteFunction -mulmxA mxE.
  by apply: eq_bigr => i _; rewrite mxE; congr (_ * _); apply: eq_bigr => y _; rewrite !mxE.
Qed.
Print Assumptions C12_discrete_function.
Theorem C12_no_extraction : forall (f : dform) (i : 'I_(f_n f)) (x : point) c,
  DiscreteFunction_id (delta_mx 0 i) x 0 c = form_evaluate f x i c.
Proof.
move=> f i x c; rewrite /DiscreteFunction_id; have [_ [H _]] := @C12_discrete_function f (f_n f) 1%:M x.
rewrite H (bigD1 i) //= mxE eqxx mul1r big1 ?addr0 // => y Hy.
by rewrite mxE eq_sym (negbTE Hy) mul0r.
Qed.
Print Assumptions C12_no_extraction.
