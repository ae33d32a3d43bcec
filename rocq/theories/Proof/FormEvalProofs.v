(** Lemmas on the evaluation of form bases. *)
From Coq Require Import Reals.
From mathcomp Require Import all_ssreflect all_algebra.
From Verif Require Import Model.RBase Model.Spline Model.Quad Model.Forms Model.DeRham Model.FormEval.
From Verif Require Import Spec.FormSpec Proof.RField Proof.IndexLemmas.
From Verif Require Proof.QuadProofs.
Set Implicit Arguments.
Unset Strict Implicit.
Unset Printing Implicit Defensive.
Import GRing.Theory.
Local Open Scope ring_scope.

Lemma in_rangeE s k c i j l : in_range s k c i j l = (c < ncomp k)%N && in_comp s k c (i, j, l).
Proof.
rewrite /in_range /comps /ncomp /in_comp.
case: k => /=; case: c => [|[|[|c]]] //=.
Qed.

Lemma new_deriv_n l d : new_deriv l = Some d -> sn d = deriv_n l.
Proof.
rewrite /new_deriv; case: (sty l); case: (sp l) => [|p] //;
  by case: (_ && _) => // [[<-]].
Qed.

Section F.
Variables (k : deg) (ns ps : triple) (types : stype * stype * stype) (f : dform).
Hypothesis Hf : DifferentialForm k ns ps types = Some f.

Lemma DF_inv : [/\ f_k f = k, sn (f_D0 f) = dr (f_shape f), sn (f_D1 f) = dt (f_shape f)
   & sn (f_D2 f) = dz (f_shape f)].
Proof.
move: Hf; rewrite /DifferentialForm; case: ns => [[n0 n1] n2]; case: ps => [[p0 p1] p2]; case: types => [[t0 t1] t2].
case: (new_spline n0 p0 t0) => [l0|] //; case: (new_spline n1 p1 t1) => [l1|] //; case: (new_spline n2 p2 t2) => [l2|] //.
case E0 : (new_deriv l0) => [d0|] //; case E1 : (new_deriv l1) => [d1|] //; case E2 : (new_deriv l2) => [d2|] // [<-].
split=> //=; rewrite (new_deriv_n E0, new_deriv_n E1, new_deriv_n E2) /deriv_n /dr /dt /dz /=.
- by case: (sty l0) => /=; rewrite ?subn0 ?subn1 // minusE subn1.
- by case: (sty l1) => /=; rewrite ?subn0 ?subn1 // minusE subn1.
- by case: (sty l2) => /=; rewrite ?subn0 ?subn1 // minusE subn1.
Qed.

Lemma TB_eval b0 b1 b2 a b d x0 x1 x2 i j l : bn b0 = a -> bn b1 = b -> bn b2 = d ->
  (i < a)%N -> (j < b)%N -> (l < d)%N ->
  TensorBasis_evaluate (b0, b1, b2) (x0, x1, x2) (ravel3 (a, b, d) i j l) = bev b0 x0 i * bev b1 x1 j * bev b2 x2 l.
Proof. by move=> E0 E1 E2 Hi Hj Hl; rewrite /TensorBasis_evaluate E0 E1 E2 unravel3_ravel3. Qed.

Lemma form_eval_spec x0 x1 x2 c i j l c' : in_range (f_shape f) k c i j l -> (c' < comps k)%N ->
  form_evaluate f (x0, x1, x2) (ravel_index (f_shape f) k c i j l) c'
  = if c' == c then factor f c 0 x0 i * factor f c 1 x1 j * factor f c 2 x2 l else 0.
Proof.
rewrite in_rangeE => /andP [Hc Hr] Hc'.
have [Ek E0 E1 E2] := DF_inv.
move: Hc Hc' Hr; rewrite /form_evaluate /ncomp /comps Ek /ravel_index.
case Hk : (is_scalar k).
  case: c => // _; case: c' => // _.
  case: k Ek Hk => // Ek _ /and3P [Hi Hj Hl].
  - by rewrite /vector_index /= mul1r /f_bases Ek TB_eval // /factor Ek.
  - by rewrite /vector_index /= mul1r /f_bases Ek TB_eval // /factor Ek.
case: c => [|[|[|c]]] //= _ Hc'; case E : (cshape _ k _) => [[a b] d] /and3P [Hi Hj Hl].
- rewrite vi0 //=; last by rewrite /fn1 E /tsize ravel3_lt.
  case: c' Hc' => [|c'] _; rewrite ?mul0r //= mul1r.
  by case: k Ek Hk E => // Ek _ [Ea Eb Ed]; subst a b d;
    rewrite /f_bases Ek TB_eval // /factor Ek.
- rewrite vi1 //=; last by rewrite /fn2 Hk E /tsize ravel3_lt.
  case: c' Hc' => [|[|c']] _; rewrite ?mul0r //= mul1r.
  by case: k Ek Hk E => // Ek _ [Ea Eb Ed]; subst a b d;
    rewrite /f_bases Ek TB_eval // /factor Ek.
- rewrite vi2 //=.
  case: c' Hc' => [|[|[|c']]] // _; rewrite ?mul0r //= mul1r.
  by case: k Ek Hk E => // Ek _ [Ea Eb Ed]; subst a b d;
    rewrite /f_bases Ek TB_eval // /factor Ek.
Qed.
End F.

(** the tabulated getters *)
Definition getter (k : deg) := match k with
  | K0 => @get_Lambda_0 R_realFieldType | K1 => @get_Lambda_1 R_realFieldType
  | K2 => @get_Lambda_2 R_realFieldType | _ => @get_Lambda_3 R_realFieldType end.

Section G.
Variables (k : deg) (ns ps : triple) (types : stype * stype * stype) (f : dform) (q : nat) (Q : quadrule).
Hypothesis Hf : DifferentialForm k ns ps types = Some f.
Hypothesis HQ : QuadratureRule (f_L0 f) (f_L1 f) (f_L2 f) q = Some Q.

Lemma Q_mesh : q_x Q = meshgrid3 (x_x Q) (x_y Q) (x_z Q).
Proof.
move: HQ; rewrite /QuadratureRule.
case: (select_quadrature _ _) => [[? ?]|] //; case: (select_quadrature _ _) => [[? ?]|] //.
by case: (select_quadrature _ _) => [[? ?]|] // [<-].
Qed.

Lemma Q_point j : (j < length (q_x Q))%N ->
  exists j1 j2 j3, [/\ (j1 < length (x_x Q))%N, (j2 < length (x_y Q))%N, (j3 < length (x_z Q))%N,
    qpoint (evaluate_1d f Q) j = (j1, j2, j3) &
    List.nth j (q_x Q) (0, 0, 0) = (List.nth j1 (x_x Q) 0, List.nth j2 (x_y Q) 0, List.nth j3 (x_z Q) 0)].
Proof.
rewrite Q_mesh QuadProofs.mesh_length !multE mulnA => Hj.
case E : (unravel3 (length (x_y Q), length (x_x Q), length (x_z Q)) j) => [[j2 j1] j3].
have [H2 H1 H3 Ej] := ravel3_unravel3' Hj E.
exists j1, j2, j3; split=> //; first by rewrite /qpoint; change (unravel3 _ j) with (unravel3 (length (x_y Q), length (x_x Q), length (x_z Q)) j); rewrite E.
rewrite -Ej ravel3E //.
have := QuadProofs.mesh_nth (x_x Q) (x_y Q) (x_z Q) (0 : R) j1 j2 j3 (elimT ltP H1) (elimT ltP H2) (elimT ltP H3).
by rewrite !multE !plusE.
Qed.

Lemma getter_spec i j c : k <> KV -> (i < f_n f)%N -> (j < length (q_x Q))%N -> (c < comps k)%N ->
  getter k (f_shape f) (evaluate_1d f Q) i j c = form_evaluate f (List.nth j (q_x Q) (0, 0, 0)) i c.
Proof.
move=> HV Hi Hj Hc; have [j1 [j2 [j3 [H1 H2 H3 Ep ->]]]] := Q_point Hj.
have [Ek E0 E1 E2] := DF_inv Hf.
move: Hi; rewrite /f_n Ek; move: i; apply: flat_ind => c' i1 i2 i3 Hc' Hin.
rewrite (form_eval_spec Hf) // ?in_rangeE ?Hc' //.
move: (unravel_ravel_index Hc' Hin) => EU.
case: k Ek HV Hc Hc' Hin EU => // Ek _ Hc Hc' Hin EU; rewrite /getter.
- rewrite /get_Lambda_0 Ep EU.
  case: c Hc => // _; case: c' Hc' Hin {EU} => //= _ /and3P [h1 h2 h3].
  by rewrite /rd /factor Ek /= !minn_pred.
- rewrite /get_Lambda_1 Ep EU.
  case: eqP => // <- in Hin *; case: c Hc Hin {EU Hc'} => [|[|[|c]]] //= _ /and3P [h1 h2 h3];
  by rewrite /rd /factor Ek /= !minn_pred.
- rewrite /get_Lambda_2 Ep EU.
  case: eqP => // <- in Hin *; case: c Hc Hin {EU Hc'} => [|[|[|c]]] //= _ /and3P [h1 h2 h3];
  by rewrite /rd /factor Ek /= !minn_pred.
- rewrite /get_Lambda_3 Ep EU.
  case: c Hc => // _; case: c' Hc' Hin {EU} => //= _ /and3P [h1 h2 h3].
  by rewrite /rd /factor Ek /= !minn_pred.
Qed.
End G.
