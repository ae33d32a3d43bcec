(** The real numbers of the standard library as a mathcomp realFieldType. *)
From Coq Require Import Reals Lra ClassicalEpsilon FunctionalExtensionality.
From mathcomp Require Import all_ssreflect all_algebra.
Set Implicit Arguments.
Unset Strict Implicit.
Unset Printing Implicit Defensive.
Import Order.TTheory GRing.Theory Num.Theory.

Definition eqr (r1 r2 : R) : bool := if Req_EM_T r1 r2 is left _ then true else false.
Lemma eqrP : Equality.axiom eqr.
Proof. by move=> r1 r2; rewrite /eqr; case: Req_EM_T => H; apply: (iffP idP). Qed.
Canonical R_eqMixin := EqMixin eqrP.
Canonical R_eqType := Eval hnf in EqType R R_eqMixin.

Definition Rpickf (P : pred R) (n : nat) : option R :=
  if n == 0%N then
    match excluded_middle_informative (exists x, P x) with
    | left H => Some (proj1_sig (constructive_indefinite_description _ H))
    | right _ => None
    end
  else None.
Fact Rpickf_some P n x : Rpickf P n = Some x -> P x.
Proof.
rewrite /Rpickf; case: n => //=; case: excluded_middle_informative => // H [<-].
exact: (proj2_sig (constructive_indefinite_description _ H)).
Qed.
Fact Rpickf_ex (P : pred R) : (exists x : R, P x) -> exists n, Rpickf P n.
Proof. by move=> H; exists 0%N; rewrite /Rpickf /=; case: excluded_middle_informative. Qed.
Fact Rpickf_ext (P Q : pred R) : P =1 Q -> Rpickf P =1 Rpickf Q.
Proof. by move=> H; have -> : P = Q by apply: functional_extensionality. Qed.
Definition R_choiceMixin : choiceMixin R := Choice.Mixin Rpickf_some Rpickf_ex Rpickf_ext.
Canonical R_choiceType := Eval hnf in ChoiceType R R_choiceMixin.

Fact RplusA : associative Rplus. Proof. by move=> *; rewrite Rplus_assoc. Qed.
Definition R_zmodMixin := ZmodMixin RplusA Rplus_comm Rplus_0_l Rplus_opp_l.
Canonical R_zmodType := Eval hnf in ZmodType R R_zmodMixin.

Fact RmultA : associative Rmult. Proof. by move=> *; rewrite Rmult_assoc. Qed.
Fact R1_neq_0 : is_true (R1 != R0). Proof. by apply/eqP/R1_neq_R0. Qed.
Definition R_ringMixin := RingMixin RmultA Rmult_1_l Rmult_1_r Rmult_plus_distr_r Rmult_plus_distr_l R1_neq_0.
Canonical R_ringType := Eval hnf in RingType R R_ringMixin.
Canonical R_comRingType := Eval hnf in ComRingType R Rmult_comm.

Definition Rinvx (r : R) : R := if (r != 0)%R then Rinv r else r.
Definition unit_R : pred R := fun r => r != (0%R : R).
Lemma RmultRinvx : {in unit_R, left_inverse 1%R Rinvx Rmult}.
Proof. by move=> r; rewrite -topredE /unit_R /Rinvx => /= H; rewrite H Rinv_l //; apply/eqP. Qed.
Lemma RinvxRmult : {in unit_R, right_inverse 1%R Rinvx Rmult}.
Proof. by move=> r; rewrite -topredE /unit_R /Rinvx => /= H; rewrite H Rinv_r //; apply/eqP. Qed.
Lemma intro_unit_R (x y : R) : (y * x = 1)%R /\ (x * y = 1)%R -> unit_R x.
Proof.
move=> [H _]; apply/eqP => E; move: H; rewrite E mulr0 => H.
by apply: R1_neq_R0; exact: (esym H).
Qed.
Lemma Rinvx_out : {in predC unit_R, Rinvx =1 id}.
Proof. by move=> x; rewrite inE /= /unit_R /Rinvx => /negbTE ->. Qed.
Definition R_unitRingMixin := UnitRingMixin RmultRinvx RinvxRmult intro_unit_R Rinvx_out.
Canonical R_unitRing := Eval hnf in UnitRingType R R_unitRingMixin.
Canonical R_comUnitRingType := Eval hnf in [comUnitRingType of R].
Lemma R_idomainMixin (x y : R) : (x * y = 0)%R -> (x == 0%R) || (y == 0%R).
Proof. by case/Rmult_integral => ->; rewrite eqxx ?orbT. Qed.
Canonical R_idomainType := Eval hnf in IdomainType R R_idomainMixin.
Lemma R_field_mixin : GRing.Field.mixin_of [unitRingType of R]. Proof. by []. Qed.
Definition R_fieldIdomainMixin := FieldIdomainMixin R_field_mixin.
Canonical R_fieldType := FieldType R R_field_mixin.

Definition Rlebm (r1 r2 : R) : bool := if Rle_dec r1 r2 is left _ then true else false.
Lemma RlebP r1 r2 : reflect (Rle r1 r2) (Rlebm r1 r2).
Proof. by rewrite /Rlebm; case: Rle_dec => H; apply: (iffP idP). Qed.
Definition Rltbm (r1 r2 : R) : bool := Rlebm r1 r2 && (r1 != r2).
Lemma RltbP r1 r2 : reflect (Rlt r1 r2) (Rltbm r1 r2).
Proof.
apply: (iffP andP) => [[/RlebP H /eqP H2]|H]; first lra.
by split; [apply/RlebP; lra | apply/eqP; lra].
Qed.
Section ssreal_struct.
Lemma Rleb_norm_add (x y : R) : Rlebm (Rabs (x + y)) (Rabs x + Rabs y).
Proof. by apply/RlebP/Rabs_triang. Qed.
Lemma addr_Rgtb0 (x y : R) : Rltbm 0 x -> Rltbm 0 y -> Rltbm 0 (x + y).
Proof. move=> /RltbP H1 /RltbP H2; apply/RltbP; lra. Qed.
Lemma Rnorm0_eq0 (x : R) : Rabs x = 0%R -> x = 0%R.
Proof. move=> H; apply: NNPP => H2; exact: (Rabs_no_R0 _ H2 H). Qed.
Lemma Rleb_leVge (x y : R) : Rlebm 0 x -> Rlebm 0 y -> Rlebm x y || Rlebm y x.
Proof.
move=> _ _; case: (Rle_dec x y) => H; first by have -> : Rlebm x y by apply/RlebP.
by apply/orP; right; apply/RlebP; lra.
Qed.
Lemma RnormM : {morph Rabs : x y / Rmult x y}. Proof. exact: Rabs_mult. Qed.
Lemma Rleb_def (x y : R) : Rlebm x y = (Rabs (y - x) == (y - x)%R).
Proof.
apply/RlebP/eqP => [H|H].
- by apply: Rabs_pos_eq; rewrite /GRing.add /GRing.opp /=; lra.
- have := Rabs_pos (y - x)%R; rewrite H; rewrite /GRing.add /GRing.opp /=; lra.
Qed.
Lemma Rltb_def (x y : R) : Rltbm x y = (y != x) && Rlebm x y.
Proof. by rewrite /Rltbm andbC eq_sym. Qed.
End ssreal_struct.
Lemma Rleb_total (x y : R) : Rlebm x y || Rlebm y x.
Proof.
case: (Rle_dec x y) => H; first by have -> : Rlebm x y by apply/RlebP.
by apply/orP; right; apply/RlebP; lra.
Qed.

Definition R_numMixin : numMixin R_idomainType := NumMixin Rleb_norm_add addr_Rgtb0 Rnorm0_eq0 Rleb_leVge RnormM Rleb_def Rltb_def.
Canonical R_porderType := POrderType ring_display R R_numMixin.
Canonical R_numDomainType := NumDomainType R R_numMixin.
Canonical R_normedZmodType := NormedZmodType R R R_numMixin.
Canonical R_numFieldType := [numFieldType of R].
Lemma R_total : totalPOrderMixin R_porderType.
Proof. exact: Rleb_total. Qed.
Canonical R_latticeType := LatticeType R R_total.
Canonical R_distrLatticeType := DistrLatticeType R R_total.
Canonical R_orderType := OrderType R R_total.
Canonical R_realDomainType := [realDomainType of R].
Canonical R_realFieldType := [realFieldType of R].

(** translations *)
Section Tr.
Local Open Scope ring_scope.
Implicit Types x y : R.
Lemma RplusE x y : Rplus x y = x + y. Proof. by []. Qed.
Lemma RmultE x y : Rmult x y = x * y. Proof. by []. Qed.
Lemma RoppE x : Ropp x = - x. Proof. by []. Qed.
Lemma RminusE x y : Rminus x y = x - y. Proof. by []. Qed.
Lemma R0E : R0 = 0. Proof. by []. Qed.
Lemma R1E : R1 = 1. Proof. by []. Qed.
Lemma RinvE x : x != 0 -> Rinv x = x^-1. Proof. by rewrite /GRing.inv /= /Rinvx => ->. Qed.
Lemma RdivE x y : y != 0 -> Rdiv x y = x / y. Proof. by move=> H; rewrite /Rdiv RinvE. Qed.
Lemma RltE x y : Rlt x y <-> x < y. Proof. by split=> [/RltbP|H]; [| apply/RltbP]. Qed.
Lemma RleE x y : Rle x y <-> x <= y. Proof. by split=> [/RlebP|H]; [| apply/RlebP]. Qed.
Lemma INRE n : INR n = n%:R.
Proof. by elim: n => [//|n IH]; rewrite S_INR IH -addn1 natrD. Qed.
End Tr.
