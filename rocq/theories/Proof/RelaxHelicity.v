(** Harmonic part and helicity. *)
From Coq Require Import Ring Field.
From mathcomp Require Import all_ssreflect all_algebra.
From Verif Require Import Model.Forms Model.DeRham Model.Geometry Model.Relaxation Spec.SeqSpec Spec.RelaxSpec
  Proof.MCRing Proof.RelaxAlg Proof.RelaxLoop Proof.RelaxRun.
Set Implicit Arguments.
Unset Strict Implicit.
Unset Printing Implicit Defensive.
Import Order.TTheory GRing.Theory Num.Theory.
Local Open Scope ring_scope.

Section Hodge.
Variable F : realFieldType.
Add Field Ffrh : (@mc_fth F).
Variables (S : drseq F) (pinv : 'M[F]_(rk S K3)).
Hypothesis OK : relax_ok S pinv.
Hypothesis U1 : dd1 S \in unitmx.
Notation vec1 := 'cV[F]_(rk S K1).
Notation vec2 := 'cV[F]_(rk S K2).
Notation G := (strong_grad S).
Notation C := (strong_curl S).
Notation W := (weak_div S).
Notation K := (weak_curl S).

Lemma curl_grad_0 (f : 'cV[F]_(rk S K0)) : C *m (G *m f) = 0.
Proof. by rewrite (mulmxA C G) (ok_cg OK) mul0mx. Qed.
Lemma wdiv_wcurl_0 (u : vec2) : W *m (K *m u) = 0.
Proof.
apply: (spd_nondeg (ok_M0 OK)) => f; rewrite (ok_wdiv OK) (ok_wcurl OK) curl_grad_0 form0l oppr0 //.
Qed.
Lemma dd1E (x : vec1) : dd1 S *m x = K *m (C *m x) - G *m (W *m x).
Proof. by rewrite (ok_dd1 OK) mulmxBl; congr (_ - _); exact: esym (mulmxA _ _ _). Qed.
Lemma dd1_solve (x : vec1) : dd1 S *m solve (dd1 S) x = x.
Proof. by rewrite /solve mulKVmx. Qed.
Lemma dd1_inj (x y : vec1) : dd1 S *m x = dd1 S *m y -> x = y.
Proof. by move=> H; rewrite -[x](mulKmx U1) H mulKmx. Qed.
Lemma solve_dd1 (x : vec1) : solve (dd1 S) (dd1 S *m x) = x.
Proof. by rewrite /solve mulKmx. Qed.
Lemma dd1_GW (x : vec1) : dd1 S *m (G *m (W *m x)) = G *m (W *m (dd1 S *m x)).
Proof.
rewrite !dd1E curl_grad_0 mulmx0 sub0r mulmxBr wdiv_wcurl_0 sub0r mulmxN //.
Qed.
Lemma solve_GW (x : vec1) : solve (dd1 S) (G *m (W *m x)) = G *m (W *m solve (dd1 S) x).
Proof. by apply: dd1_inj; rewrite dd1_GW !dd1_solve. Qed.
(** the potential of a curl is the field up to a gradient *)
Lemma potential_curl (E : vec1) : potential (C *m E) = E + G *m (W *m solve (dd1 S) E).
Proof.
rewrite /potential -solve_GW; apply: dd1_inj; rewrite mulmxDr !dd1_solve dd1E subrK //.
Qed.
Lemma curl_potential_curl (E : vec1) : C *m potential (C *m E) = C *m E.
Proof. by rewrite potential_curl mulmxDr curl_grad_0 addr0. Qed.
Lemma potentialD (x y : vec2) : potential (x + y) = potential x + potential y.
Proof. by rewrite /potential /solve !mulmxDr. Qed.
Lemma potentialZ a (x : vec2) : potential (a *: x) = a *: potential x.
Proof. by rewrite /potential /solve -!scalemxAr. Qed.
Lemma harmonic_curl (B : vec2) (E : vec1) : harmonic_component (B + C *m E) = harmonic_component B.
Proof.
rewrite /harmonic_component potentialD mulmxDr curl_potential_curl.
by rewrite opprD addrACA subrr addr0.
Qed.
(** every curl-free 1-form is a gradient *)
Lemma exact1 (z : vec1) : C *m z = 0 -> z = G *m (- (W *m solve (dd1 S) z)).
Proof.
move=> Hz; rewrite mulmxN -solve_GW; apply: dd1_inj; rewrite mulmxN dd1_solve dd1E Hz mulmx0 sub0r //.
Qed.

Lemma helicityE (B : vec2) : helicity B = form (M12 S) (potential B) (B + harmonic_component B).
Proof.
rewrite /helicity /form -/(harmonic_component B); congr (fun_of_matrix _ 0 0); congr (_ *m _).
by rewrite -mulmxA /P12 /solve (mulKVmx (spd_unit (ok_M1 OK))).
Qed.
(** exact change of the helicity, with the two integration by parts defects of the pairing *)
Lemma helicity_defect (B : vec2) (E : vec1) t :
  let B' := B + t *: (C *m E) in let g := W *m solve (dd1 S) (t *: E) in
  helicity B' - helicity B = t * form (M12 S) E (B + B') + form (M12 S) (G *m g) (B + B')
   + (form (M12 S) (potential B) (C *m (potential B' - potential B)) - form (M12 S) (potential B' - potential B) (C *m potential B)).
Proof.
move=> B' g; rewrite /B'; have Ht : t *: (C *m E) = C *m (t *: E) by rewrite -scalemxAr.
rewrite Ht !helicityE harmonic_curl potentialD potential_curl -/g; set h := harmonic_component B.
set A := potential B.
have EB : B = h + C *m A by rewrite /h /harmonic_component subrK.
rewrite [A + _ - A]addrC addKr -(formZl (M12 S)) -formDl.
have Ca : C *m (t *: E) = C *m (t *: E + G *m g) by rewrite mulmxDr curl_grad_0 addr0.
rewrite Ca; move: (t *: E + _) => a; move: h A EB => h A ->; rewrite !(formDl, formDr).
move: (form _ A h) (form _ a h) (form (M12 S) A (C *m A)) (form (M12 S) A (C *m a)) (form (M12 S) a (C *m a)) (form (M12 S) a (C *m A)) => x1 x2 x3 x4 x5 x6.
by mc_norm; ring.
Qed.

(** integration by parts for the metric-free pairing of 1- and 2-forms *)
Section Exact.
Hypothesis IBP : forall a b : vec1, form (M12 S) a (C *m b) = form (M12 S) b (C *m a).
Hypothesis IBPg : forall (f : 'cV[F]_(rk S K0)) (b : vec2), divfree S b -> form (M12 S) (G *m f) b = 0.

Lemma helicity_change (B : vec2) (E : vec1) t : divfree S B ->
  helicity (B + t *: (C *m E)) - helicity B = t * form (M12 S) E (B + (B + t *: (C *m E))).
Proof.
move=> HB; have Ht : t *: (C *m E) = C *m (t *: E) by rewrite -scalemxAr.
rewrite Ht !helicityE harmonic_curl potentialD potential_curl; set h := harmonic_component B.
set A := potential B; set g := W *m _.
have EB : B = h + C *m A by rewrite /h /harmonic_component subrK.
have Hd : divfree S (B + (B + C *m (t *: E))).
  by apply: divfreeD => //; apply: divfreeD => //; rewrite /divfree (div_curl_0 OK).
have P := IBPg g Hd.
rewrite -(formZl (M12 S)).
have -> : form (M12 S) (t *: E) (B + (B + C *m (t *: E))) = form (M12 S) (t *: E + G *m g) (B + (B + C *m (t *: E))).
  by rewrite formDl P addr0.
have Ca : C *m (t *: E) = C *m (t *: E + G *m g) by rewrite mulmxDr curl_grad_0 addr0.
rewrite Ca; move: (t *: E + _) => a; move: h A EB => h A ->; rewrite !(formDl, formDr) (IBP a A).
move: (form _ A h) (form _ a h) (form (M12 S) A (C *m A)) (form (M12 S) A (C *m a)) (form (M12 S) a (C *m a)) => x1 x2 x3 x4 x5.
by mc_norm; ring.
Qed.
End Exact.

Variable lstsq : 'M[F]_(rk S K2) -> vec2 -> vec2.
Variable ts : stepper F.
Notation Bp := (B_nplus1 pinv lstsq ts).
Notation mE := (mid_E pinv lstsq ts).

(** Ohm's law: E.H integrates to the resistive term only *)
Lemma mid_EH (st : rstate S) : form (M1 S) (mE st) (mid_H st) = - (eta st * form (M1 S) (mid_J st) (mid_H st)).
Proof.
rewrite /mid_E formDl formNl formZl.
have [-> _] := form_solve (P2x1_to_1 (mid_u pinv lstsq ts st) (mid_H st)) (mid_H st) (proj1 (ok_M1 OK)) (spd_unit (ok_M1 OK)).
by rewrite dotvC triple_zero sub0r.
Qed.
Lemma M12_P12 (a : vec1) (b : vec2) : form (M12 S) a b = form (M1 S) a (P12 S *m b).
Proof.
have E : M12 S = M1 S *m P12 S by rewrite /P12 /solve (mulKVmx (spd_unit (ok_M1 OK))).
by rewrite /form [in LHS]E -[LHS]/((_ *m _ *m _) 0 0); congr (fun_of_matrix _ 0 0); rewrite !mulmxA.
Qed.
Lemma sum_mid (st : rstate S) : B_n st + Bp st = 2%:R *: Bmid st + (Bp st - B_guess st).
Proof.
rewrite /Bmid scalerA divff ?pnatr_eq0 // scale1r; move: (Bp st) (B_n st) (B_guess st) => x y z.
by rewrite [z + _]addrC -addrA [z + _]addrC subrK.
Qed.
Lemma helicity_step_defect (st : rstate S) :
  helicity (Bp st) - helicity (B_n st)
  = - (2%:R * dt_ st * eta st * form (M1 S) (mid_J st) (mid_H st))
    + dt_ st * form (M1 S) (mE st) (P12 S *m (Bp st - B_guess st))
    + form (M12 S) (G *m (W *m solve (dd1 S) (dt_ st *: mE st))) (B_n st + Bp st)
    + (form (M12 S) (potential (B_n st)) (C *m (potential (Bp st) - potential (B_n st)))
       - form (M12 S) (potential (Bp st) - potential (B_n st)) (C *m potential (B_n st))).
Proof.
rewrite [in LHS]/B_nplus1 helicity_defect -/(Bp st); congr (_ + _ + _).
rewrite sum_mid formDr formZr mulrDr M12_P12 -/(mid_H st) mid_EH M12_P12; congr (_ + _).
by move: (form _ _ _) => x; mc_norm; ring.
Qed.
Hypothesis IBP : forall a b : vec1, form (M12 S) a (C *m b) = form (M12 S) b (C *m a).
Hypothesis IBPg : forall (f : 'cV[F]_(rk S K0)) (b : vec2), divfree S b -> form (M12 S) (G *m f) b = 0.
Lemma helicity_step (st : rstate S) : divfree S (B_n st) ->
  helicity (Bp st) - helicity (B_n st)
  = - (2%:R * dt_ st * eta st * form (M1 S) (mid_J st) (mid_H st))
    + dt_ st * form (M1 S) (mE st) (P12 S *m (Bp st - B_guess st)).
Proof.
move=> HB; rewrite /B_nplus1 helicity_change // -/(Bp st).
rewrite sum_mid.
rewrite formDr formZr mulrDr M12_P12 -/(mid_H st) mid_EH M12_P12; congr (_ + _).
by move: (form _ _ _) => x; mc_norm; ring.
Qed.
End Hodge.
