(** Discrete forms of a supported sequence: actual partial derivatives. *)
From Coq Require Import Reals Lra.
From Coquelicot Require Import Coquelicot.
From mathcomp Require Import all_ssreflect all_algebra zify.
From Verif Require Import Model.RBase Model.Spline Model.Quad Model.Forms Model.DeRham Model.FormEval Model.Geometry Model.SeqR.
From Verif Require Import Spec.Cochain Spec.PolarSpace Spec.SeqSpec Spec.FormSpec Spec.GeomSpec Spec.SeqRSpec Spec.CalculusSpec.
From Verif Require Import Proof.RField Proof.MCRing Proof.IndexLemmas Proof.Incidence Proof.SequenceAlg Proof.DeRhamAlg Proof.SeqFacts Proof.BoundarySel Proof.PolarSpan Proof.Complex
  Proof.SplineDeriv Proof.FormEvalProofs Proof.SeqRProofs.
Set Implicit Arguments.
Unset Strict Implicit.
Unset Printing Implicit Defensive.
Import Order.TTheory GRing.Theory Num.Theory.
Local Open Scope ring_scope.

Lemma sum3_as_r N M P (u : nat -> nat -> nat -> R) (A B C : nat -> R) :
  \sum_(i < N) \sum_(j < M) \sum_(l < P) u i j l * (A i * B j * C l)
  = \sum_(i < N) (\sum_(j < M) \sum_(l < P) u i j l * (B j * C l)) * A i.
Proof.
apply: eq_bigr => i _; rewrite mulr_suml; apply: eq_bigr => j _; rewrite mulr_suml; apply: eq_bigr => l _.
by rewrite -!mulrA; congr (_ * _); rewrite mulrC mulrA.
Qed.
Lemma sum3_as_t N M P (u : nat -> nat -> nat -> R) (A B C : nat -> R) :
  \sum_(i < N) \sum_(j < M) \sum_(l < P) u i j l * (A i * B j * C l)
  = \sum_(j < M) (\sum_(i < N) \sum_(l < P) u i j l * (A i * C l)) * B j.
Proof.
rewrite exchange_big /=.
apply: eq_bigr => i _; rewrite mulr_suml; apply: eq_bigr => j _; rewrite mulr_suml; apply: eq_bigr => l _.
by rewrite -!mulrA; congr (_ * (_ * _)); rewrite mulrC.
Qed.
Lemma sum3_as_z N M P (u : nat -> nat -> nat -> R) (A B C : nat -> R) :
  \sum_(i < N) \sum_(j < M) \sum_(l < P) u i j l * (A i * B j * C l)
  = \sum_(l < P) (\sum_(i < N) \sum_(j < M) u i j l * (A i * B j)) * C l.
Proof.
transitivity (\sum_(i < N) \sum_(l < P) \sum_(j < M) u i j l * (A i * B j * C l)).
  by apply: eq_bigr => i _; rewrite exchange_big.
rewrite exchange_big /=.
apply: eq_bigr => i _; rewrite mulr_suml; apply: eq_bigr => j _; rewrite mulr_suml; apply: eq_bigr => l _.
by rewrite -!mulrA.
Qed.

Lemma sum_derive n (f : nat -> R -> R) (x : R) (d : nat -> R) :
  (forall i, (i < n)%N -> is_derive (f i) x (d i)) ->
  is_derive (fun t => \sum_(i < n) f i t) x (\sum_(i < n) d i).
Proof.
elim: n => [|n IH] H.
  rewrite big_ord0; apply: (is_derive_ext (fun _ => R0)); last exact: is_derive_const.
  by move=> t; rewrite big_ord0.
rewrite big_ord_recr /=; apply: (is_derive_ext (fun t => Rplus (\sum_(i < n) f i t) (f n t))).
  by move=> t; rewrite big_ord_recr.
by apply: is_derive_plus; [apply: IH => i Hi; apply: H; apply: ltnW | apply: H].
Qed.
Lemma scal_derive (a : R) (f : R -> R) x d : is_derive f x d -> is_derive (fun t => Rmult a (f t)) x (Rmult a d).
Proof. exact: is_derive_scal. Qed.

(** a direction: basis l with derivative basis d has the incidence rule delta at x *)
Definition dir_open (n : nat) (l d : spline) (x : R) : Prop := forall a : nat -> R,
  is_derive (fun t => \sum_(i < n) a i * evaluate l t i) x (\sum_(i < n.-1) (a i.+1 - a i) * evaluate_deriv d x i).
Definition dir_per (n : nat) (l d : spline) (x : R) : Prop := forall a : nat -> R,
  is_derive (fun t => \sum_(i < n) a i * evaluate l t i) x (\sum_(i < n) (a (i.+1 %% n)%N - a i) * evaluate_deriv d x i).

Lemma clamped_dir n p l d x : (1 <= p)%N -> (p < n)%N -> Rle (INR (n - p)) 99900 ->
  new_spline n p Clamped = Some l -> new_deriv l = Some d ->
  (forall k : nat, Rmult x (INR (n - p)) <> INR k) -> dir_open n l d x.
Proof.
move=> Hp Hn HN El Ed Hk a.
case: n Hn HN El Hk => [//|n] Hn HN El Hk.
rewrite -(parts_open n a (fun i => evaluate_deriv d x i)).
apply: (@sum_derive n.+1 (fun i t => a i * evaluate l t i) x
  (fun i => a i * ((if (0 < i)%N then evaluate_deriv d x i.-1 else 0) - (if (i < n)%N then evaluate_deriv d x i else 0)))) => i Hi.
apply: scal_derive.
have := @clamped_derivative n.+1 p l d x i (elimT ssrnat.leP Hp) (elimT ssrnat.ltP Hn) HN El Ed Hk (elimT ssrnat.ltP Hi).
case: Nat.eqb_spec => [->|Hi0]; case: Nat.eqb_spec => [Hin|Hin].
all: rewrite ?ltnn.
- by have -> : (0 < n)%N = false by lia.
- by have -> : (0 < n)%N by lia.
- have -> : (0 < i)%N by lia. have -> : (i < n)%N = false by lia.
  by have -> : Nat.sub i 1 = i.-1 by lia.
- have -> : (0 < i)%N by lia. have -> : (i < n)%N by lia.
  by have -> : Nat.sub i 1 = i.-1 by lia.
Qed.

Lemma periodic_dir n p l d x : (1 <= p)%N -> (p < n)%N -> Rle (INR n) 49000 ->
  new_spline n p Periodic = Some l -> new_deriv l = Some d -> Rlt 0 x /\ Rlt x 1 ->
  (forall k : nat, Rmult x (INR n) <> INR k) -> dir_per n l d x.
Proof.
move=> Hp Hn HN El Ed Hx Hk a.
rewrite -(parts_per n a (fun i => evaluate_deriv d x i)).
apply: (@sum_derive n (fun i t => a i * evaluate l t i) x
  (fun i => a i * ((if (0 < i)%N then evaluate_deriv d x i.-1 else evaluate_deriv d x n.-1) - evaluate_deriv d x i))) => i Hi.
apply: scal_derive.
have := @periodic_derivative n p l d x i (elimT ssrnat.leP Hp) (or_introl (elimT ssrnat.ltP Hn)) HN El Ed Hx Hk (elimT ssrnat.ltP Hi).
congr (is_derive _ _ (Rminus _ _)).
case: ifP => H0; congr (evaluate_deriv _ _ _).
- have -> : (Nat.sub (Nat.add i n) 1) = Nat.add i.-1 (Nat.mul 1 n) by lia.
  by rewrite Nat.mod_add; [apply: Nat.mod_small; lia | lia].
- have -> : i = 0%N by lia.
  by rewrite Nat.mod_small; lia.
Qed.

Lemma constant_dir l d x : sty l = Constant -> dir_per 1 l d x.
Proof.
move=> E a; rewrite big_ord1 modnn subrr mul0r.
apply: (is_derive_ext (fun _ => a 0%N)); last exact: is_derive_const.
by move=> t; rewrite big_ord1 /evaluate E [X in _ * X]R1E mulr1.
Qed.

Section Dir.
Variables (n0 n1 n2 : nat) (l0 l1 l2 d0 d1 d2 : spline) (x0 x1 x2 : R).
Hypotheses (H0 : dir_open n0 l0 d0 x0) (H1 : dir_per n1 l1 d1 x1) (H2 : dir_per n2 l2 d2 x2).

Lemma part_r M P (u : nat -> nat -> nat -> R) (B C : nat -> R) :
  is_derive (fun t => \sum_(i < n0) \sum_(j < M) \sum_(l < P) u i j l * (evaluate l0 t i * B j * C l)) x0
    (\sum_(i < n0.-1) \sum_(j < M) \sum_(l < P) dr_ u i j l * (evaluate_deriv d0 x0 i * B j * C l)).
Proof.
rewrite sum3_as_r.
apply: (is_derive_ext (fun t => \sum_(i < n0) (\sum_(j < M) \sum_(l < P) u i j l * (B j * C l)) * evaluate l0 t i)).
  by move=> t; rewrite -sum3_as_r.
have -> : \sum_(i < n0.-1) (\sum_(j < M) \sum_(l < P) dr_ u i j l * (B j * C l)) * evaluate_deriv d0 x0 i
  = \sum_(i < n0.-1) ((fun i => \sum_(j < M) \sum_(l < P) u i j l * (B j * C l)) i.+1
                     - (fun i => \sum_(j < M) \sum_(l < P) u i j l * (B j * C l)) i) * evaluate_deriv d0 x0 i.
  apply: eq_bigr => i _ /=; congr (_ * _); rewrite -sumrB; apply: eq_bigr => j _; rewrite -sumrB.
  by apply: eq_bigr => l _; rewrite -mulrBl.
exact: H0 (fun i => \sum_(j < M) \sum_(l < P) u i j l * (B j * C l)).
Qed.

Lemma part_t N P (u : nat -> nat -> nat -> R) (A C : nat -> R) :
  is_derive (fun t => \sum_(i < N) \sum_(j < n1) \sum_(l < P) u i j l * (A i * evaluate l1 t j * C l)) x1
    (\sum_(i < N) \sum_(j < n1) \sum_(l < P) dt_ n1 u i j l * (A i * evaluate_deriv d1 x1 j * C l)).
Proof.
rewrite sum3_as_t.
apply: (is_derive_ext (fun t => \sum_(j < n1) (\sum_(i < N) \sum_(l < P) u i j l * (A i * C l)) * evaluate l1 t j)).
  by move=> t; rewrite -sum3_as_t.
have -> : \sum_(j < n1) (\sum_(i < N) \sum_(l < P) dt_ n1 u i j l * (A i * C l)) * evaluate_deriv d1 x1 j
  = \sum_(j < n1) ((fun j => \sum_(i < N) \sum_(l < P) u i j l * (A i * C l)) (j.+1 %% n1)%N
                     - (fun j => \sum_(i < N) \sum_(l < P) u i j l * (A i * C l)) j) * evaluate_deriv d1 x1 j.
  apply: eq_bigr => i _ /=; congr (_ * _); rewrite -sumrB; apply: eq_bigr => j _; rewrite -sumrB.
  by apply: eq_bigr => l _; rewrite -mulrBl.
exact: H1 (fun j => \sum_(i < N) \sum_(l < P) u i j l * (A i * C l)).
Qed.

Lemma part_z N M (u : nat -> nat -> nat -> R) (A B : nat -> R) :
  is_derive (fun t => \sum_(i < N) \sum_(j < M) \sum_(l < n2) u i j l * (A i * B j * evaluate l2 t l)) x2
    (\sum_(i < N) \sum_(j < M) \sum_(l < n2) dz_ n2 u i j l * (A i * B j * evaluate_deriv d2 x2 l)).
Proof.
rewrite sum3_as_z.
apply: (is_derive_ext (fun t => \sum_(l < n2) (\sum_(i < N) \sum_(j < M) u i j l * (A i * B j)) * evaluate l2 t l)).
  by move=> t; rewrite -sum3_as_z.
have -> : \sum_(l < n2) (\sum_(i < N) \sum_(j < M) dz_ n2 u i j l * (A i * B j)) * evaluate_deriv d2 x2 l
  = \sum_(l < n2) ((fun l => \sum_(i < N) \sum_(j < M) u i j l * (A i * B j)) (l.+1 %% n2)%N
                     - (fun l => \sum_(i < N) \sum_(j < M) u i j l * (A i * B j)) l) * evaluate_deriv d2 x2 l.
  apply: eq_bigr => i _ /=; congr (_ * _); rewrite -sumrB; apply: eq_bigr => j _; rewrite -sumrB.
  by apply: eq_bigr => l _; rewrite -mulrBl.
exact: H2 (fun l => \sum_(i < N) \sum_(j < M) u i j l * (A i * B j)).
Qed.
End Dir.

(** discrete forms in structured coordinates *)
Lemma form_structured k ns ps types (f : dform) (S : drseq R_realFieldType) y c x0 x1 x2 :
  k <> KV -> DifferentialForm k ns ps types = Some f -> sh S = f_shape f -> (c < comps k)%N ->
  discrete_form ns ps types (S := S) (k := k) y c (x0, x1, x2)
  = let: (a, b, d) := cshape (sh S) k c in
    \sum_(i < a) \sum_(j < b) \sum_(l < d) coefs S k y c i j l
       * (factor f c 0 x0 i * factor f c 1 x1 j * factor f c 2 x2 l).
Proof.
move=> HV Hf Hsh Hc; rewrite /discrete_form Hf.
pose h (a : nat * triple) : R := let: (c', (i, j, l)) := a in
  if c == c' then factor f c 0 x0 i * factor f c 1 x1 j * factor f c 2 x2 l else 0.
have -> : \sum_(i < fdim (sh S) k) (y^T *m E_ S k) ord0 i * form_evaluate f (x0, x1, x2) i c
  = \sum_(i < fdim (sh S) k) rvf (y^T *m E_ S k) i * h (unravel_index (sh S) k i).
  apply: eq_bigr => i _; rewrite rvf_ord; congr (_ * _).
  move: (nat_of_ord i) (ltn_ord i); apply: flat_ind => c' i1 i2 i3 Hc' Hin.
  rewrite unravel_ravel_index // Hsh (form_eval_spec Hf) //; last by rewrite in_rangeE Hc' -Hsh.
  by rewrite /h; case: eqP => // ->.
have Ec i j l : coch (sh S) k (rvf (y^T *m E_ S k)) c i j l = coefs S k y c i j l.
  by rewrite coefsE trmx_mul trmxK.
case Hk : (is_scalar k).
- rewrite (sum_coch_scalar (sh S) _ h Hk).
  have Ec0 : c = 0%N by move: Hc; rewrite /comps Hk; case: (c).
  move: Ec; rewrite /h Ec0 => Ec; case: (cshape _ _ _) => [[a b] d].
  by apply: eq_bigr => i _; apply: eq_bigr => j _; apply: eq_bigr => l _; rewrite Ec.
- rewrite (sum_coch (sh S) _ h Hk).
  have Hc3 : (c < 3)%N by move: Hc; rewrite /comps Hk.
  rewrite (bigD1 (Ordinal Hc3)) //= [X in _ + X]big1 ?addr0.
  + case: (cshape _ _ _) => [[a b] d].
    apply: eq_bigr => i _; apply: eq_bigr => j _; apply: eq_bigr => l _.
    by rewrite Ec /h eqxx.
  + move=> c' Hne; case: (cshape _ _ _) => [[a b] d].
    apply: big1 => i _; apply: big1 => j _; apply: big1 => l _; rewrite /h.
    case: eqP => [E|_]; last by rewrite mulr0.
    by case/eqP: Hne; apply: val_inj.
Qed.
