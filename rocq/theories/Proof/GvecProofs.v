(** Proofs about the GVEC interface. *)
From Coq Require Import Reals Lra.
From mathcomp Require Import all_ssreflect all_algebra zify.
From Verif Require Import Model.RBase Model.Spline Model.Quad Model.Forms Model.DeRham Model.FormEval Model.Geometry Model.SeqR Model.Maps Model.Gvec.
From Verif Require Import Spec.FreeDofs Spec.SeqRSpec Spec.CalculusSpec Spec.GvecSpec.
From Verif Require Import Proof.RField Proof.IndexLemmas Proof.BoundarySel Proof.LeastSquares.
Set Implicit Arguments.
Unset Strict Implicit.
Unset Printing Implicit Defensive.
Import Order.TTheory GRing.Theory Num.Theory.
Local Open Scope ring_scope.

Notation nobc := (NoBC, NoBC, NoBC).
Lemma sel_nobc s r : (r < bdim s nobc K0)%N -> sel s nobc K0 r = r.
Proof.
rewrite /bdim /bn1 /bn2 /bn3 -[bshape s nobc K0 0]/(nr s, nt s, nz s) /tsize !addn0 => Hr.
rewrite /sel -[bunravel_index s nobc K0 r]/(0%N, unravel3 (nr s, nt s, nz s) r).
case E : (unravel3 _ _) => [[i j] l].
have [_ _ _ H] := ravel3_unravel3' Hr E; exact: H.
Qed.
Lemma boundary_nobc (F : realFieldType) s (y : 'cV[F]_(bdim s nobc K0)) (e : fdim s K0 = bdim s nobc K0) (i : 'I_(fdim s K0)) :
  (y^T *m boundary_matrix F s nobc K0) ord0 i = y (cast_ord e i) ord0.
Proof.
rewrite mxE (bigD1 (cast_ord e i)) //= big1 ?addr0.
  by rewrite boundary_entry // sel_nobc ?ltn_ord //= eqxx mulr1 mxE.
move=> j Hj; rewrite boundary_entry // sel_nobc ?ltn_ord //.
case: eqP => [E|]; last by rewrite mulr0.
by case/eqP: Hj; apply: val_inj.
Qed.

Lemma sum3_swap (F : fieldType) (I L M : finType) (y : I -> F) (E : I -> L -> F) (D : M -> F) (p : L -> M -> F) (J : F) :
  (\sum_m D m * (\sum_l (\sum_i y i * E i l) * p l m)) / J
  = \sum_i (\sum_l E i l * ((\sum_m D m * p l m) / J)) * y i.
Proof.
transitivity (\sum_m \sum_l \sum_i y i * E i l * (D m * p l m) / J).
  rewrite mulr_suml; apply: eq_bigr => m _; rewrite mulr_sumr mulr_suml; apply: eq_bigr => l _.
  by rewrite !mulr_suml mulr_sumr mulr_suml; apply: eq_bigr => i _; rewrite mulrCA.
rewrite exchange_big /=; under eq_bigr => l _ do rewrite exchange_big /=.
rewrite exchange_big /=; apply: eq_bigr => i _; rewrite mulr_suml; apply: eq_bigr => l _.
rewrite mulr_suml mulr_sumr mulr_suml; apply: eq_bigr => m _.
by rewrite [RHS]mulrC !mulrA.
Qed.

Section G.
Variables (g : gvec_eq) (nfp : R).
Lemma pts_unravel j : pts g nfp j = let: (a, b, c) := unravel3 (g_shape g) j in data_point g nfp a b c.
Proof. by rewrite /pts; case: (unravel3 _ _) => [[a b] c]. Qed.

Lemma sum_pts (V : zmodType) (h : point -> triple -> V) :
  \sum_(j < g_n g) h (pts g nfp j) (unravel3 (g_shape g) j) =
  \sum_(a < length (g_rho g)) \sum_(b < length (g_theta g)) \sum_(c < length (g_zeta g)) h (data_point g nfp a b c) (nat_of_ord a, nat_of_ord b, nat_of_ord c).
Proof.
under eq_bigr => j _ do rewrite pts_unravel.
exact: (sum_unravel3 (length (g_rho g)) (length (g_theta g)) (length (g_zeta g))
  (fun _ t => h (let: (a, b, c) := t in data_point g nfp a b c) t)).
Qed.

Lemma misfit_sq f n X (y : 'cV[R_realFieldType]_n) :
  misfit g nfp X (fun x => \sum_(i < n) y i ord0 * form_evaluate f x i 0)
  = sq (map_matrix g nfp f n *m y - \col_(j < g_n g) raveled g X j).
Proof.
rewrite /misfit -(sum_pts (fun x t => ((\sum_(i < n) y i ord0 * form_evaluate f x i 0) - (let: (a, b, c) := t in X a b c)) ^+ 2)).
apply: eq_bigr => j _; rewrite !mxE; congr ((_ - _) ^+ 2).
by apply: eq_bigr => i _; rewrite mxE mulrC.
Qed.

Lemma sum_valid (V : zmodType) (h : point -> triple -> V) :
  \sum_(i < size (valid_pts g nfp)) h (pts g nfp (nth 0%N (valid_pts g nfp) i)) (unravel3 (g_shape g) (nth 0%N (valid_pts g nfp) i)) =
  \sum_(a < length (g_rho g)) \sum_(b < length (g_theta g)) \sum_(c < length (g_zeta g))
    if Rltb (Rdiv 1 1000) (List.nth a (g_rho g) R0) && Rltb (List.nth a (g_rho g) R0) (Rminus 1 (Rdiv 1 1000))
    then h (data_point g nfp a b c) (nat_of_ord a, nat_of_ord b, nat_of_ord c) else 0.
Proof.
rewrite -(big_mkord predT (fun i => h (pts g nfp (nth 0%N (valid_pts g nfp) i)) (unravel3 (g_shape g) (nth 0%N (valid_pts g nfp) i)))).
rewrite -(big_nth 0%N predT (fun j => h (pts g nfp j) (unravel3 (g_shape g) j))).
rewrite /valid_pts big_filter big_mkcond /= -{1}[g_n g]subn0 -/(index_iota 0 (g_n g)) big_mkord.
rewrite -(sum_pts (fun x t => if Rltb (Rdiv 1 1000) x.1.1 && Rltb x.1.1 (Rminus 1 (Rdiv 1 1000)) then h x t else 0)).
apply: eq_bigr => j _; rewrite /valid; by case: (pts g nfp j) => [[r th] z].
Qed.

Lemma misfit_B_sq f (S : drseq R_realFieldType) DPhi (y : 'cV[R_realFieldType]_(rk S K2)) :
  misfit_B g nfp (fun x => pushforward K2 (DPhi x) (fun a => \sum_(l < fdim (sh S) K2) (y^T *m E_ S K2) ord0 l * form_evaluate f x l a))
  = sq (B_matrix g nfp f DPhi S *m y - B_rhs g nfp).
Proof.
rewrite /sq /misfit_B.
set V := size (valid_pts g nfp).
pose P (r : nat) : R_realFieldType := ((\sum_(i < rk S K2) (\sum_(l < fdim (sh S) K2) E_ S K2 i l *
     L2_phys f DPhi l (pts g nfp (nth 0%N (valid_pts g nfp) (r %/ 3))) (r %% 3)%N) * y i ord0)
   - raveled g (fun a b c => g_B g a b c (r %% 3)%N) (nth 0%N (valid_pts g nfp) (r %/ 3))) ^+ 2.
have -> : \sum_(r < (V * 3)%N) ((B_matrix g nfp f DPhi S *m y - B_rhs g nfp) r ord0) ^+ 2 = \sum_(r < (V * 3)%N) P r.
  apply: eq_bigr => r _; rewrite !mxE /P; congr ((_ - _) ^+ 2).
  by apply: eq_bigr => i _; rewrite mxE.
rewrite (sum_rav2 V 3 P) /=.
rewrite -(sum_valid (fun x t => \sum_(d < 3) ((pushforward K2 (DPhi x) (fun a => \sum_(l < fdim (sh S) K2) (y^T *m E_ S K2) ord0 l * form_evaluate f x l a) d) - (let: (a, b, c) := t in g_B g a b c d)) ^+ 2)).
apply: eq_bigr => i _; apply: eq_bigr => d _.
rewrite /P divnMDl // divn_small ?addn0 ?ltn_ord // modnMDl modn_small ?ltn_ord //.
congr ((_ - _) ^+ 2); set x := pts _ _ _.
rewrite /pushforward /L2_phys /mulv3.
have -> : \sum_(m < 3) DPhi x d m * (\sum_(l < fdim (sh S) K2) (y^T *m E_ S K2) ord0 l * form_evaluate f x l m)
  = \sum_(m < 3) DPhi x d m * (\sum_(l < fdim (sh S) K2) (\sum_(i0 < rk S K2) y i0 ord0 * E_ S K2 i0 l) * form_evaluate f x l m).
  apply: eq_bigr => m _; congr (_ * _); apply: eq_bigr => l _; congr (_ * _); rewrite mxE.
  by apply: eq_bigr => i0 _; rewrite mxE.
exact: (sum3_swap (fun i0 : 'I_(rk S K2) => y i0 ord0) (fun i0 l => E_ S K2 i0 l) (fun m : 'I_3 => DPhi x d m)
  (fun (l : 'I_(fdim (sh S) K2)) (m : 'I_3) => form_evaluate f x l m)).
Qed.
End G.
