(** The extracted spaces form a complex: the discrete derivative of a row of E_k
    lies in the row space of E_{k+1}; hence the coefficient matrices g, c, d. *)
From Coq Require Import Ring Field.
From mathcomp Require Import all_ssreflect all_algebra.
From Verif Require Import Model.Forms Model.DeRham Spec.Cochain Spec.PolarSpace Spec.FreeDofs
  Proof.MCRing Proof.IndexLemmas Proof.Incidence Proof.SequenceAlg Proof.DeRhamAlg Proof.BoundarySel Proof.PolarSpan.
Set Implicit Arguments.
Unset Strict Implicit.
Unset Printing Implicit Defensive.
Import Order.TTheory GRing.Theory Num.Theory.
Local Open Scope ring_scope.

(** *** polar cochains *)
Section PolarClosed.
Variable F : realFieldType.
Add Field Ffc : (@mc_fth F).
Variable xi : nat -> nat -> nat -> F.
Variables (nr nt nz : nat) (o : bool).
Hypotheses (Hnr : (2 + o <= nr)%N) (Ht : (0 < nt)%N) (Hz : (0 < nz)%N).
Hypothesis Hxi : xi_ok xi nt.

Lemma sum3O (f : 'I_3 -> F) :
  \sum_(p < 3) f p = f (@Ordinal 3 0 isT) + f (@Ordinal 3 1 isT) + f (@Ordinal 3 2 isT).
Proof. by rewrite !big_ord_recl big_ord0 addr0 addrA; congr (f _ + f _ + f _); apply: val_inj. Qed.
Lemma sum2O (f : 'I_2 -> F) : \sum_(p < 2) f p = f (@Ordinal 2 0 isT) + f (@Ordinal 2 1 isT).
Proof. by rewrite !big_ord_recl big_ord0 addr0; congr (f _ + f _); apply: val_inj. Qed.

Lemma jS j : (j.+1 %% nt < nt)%N. Proof. exact: ltn_pmod. Qed.
Lemma lS l : (l.+1 %% nz < nz)%N. Proof. exact: ltn_pmod. Qed.

Lemma xi0E i j : (i < 2)%N -> (j < nt)%N -> xi 0%N i j = 1 - xi 1%N i j - xi 2%N i j.
Proof. by move=> Hi Hj; have [H _] := Hxi Hj; rewrite -(H i Hi); mc_norm; ring. Qed.
Lemma xic p j j' : (p < 3)%N -> (j < nt)%N -> (j' < nt)%N -> xi p 0%N j = xi p 0%N j'.
Proof. by move=> Hp Hj Hj'; have [_ H] := Hxi Hj; apply: H. Qed.

Lemma cgrad_pol v : pol0 xi nr nt nz o v -> pol1 xi nr nt nz o (cgrad nt nz v).
Proof.
move=> [ga H].
exists (fun p l => ga p.+1 l - ga 0%N l), (fun p l => ga p (l.+1 %% nz)%N - ga p l) => j l Hj Hl.
have [H1 H2] := H j l Hj Hl.
have [H1t H2t] := H _ l (jS j) Hl.
have [H1z H2z] := H j _ Hj (lS l).
rewrite /cgrad /dr_ /dt_ /dz_ /=; split.
- rewrite !H1 // !sum3O sum2O /= /xr !xi0E //; mc_norm; ring.
- rewrite !H1 // H1t // !sum3O  /= ?/xr ?/xt !(@xic _ (j.+1 %% nt) j) ?jS //; mc_norm; ring.
- rewrite H1 // H1t // !sum3O sum2O /= /xt !xi0E ?jS //; mc_norm; ring.
- move=> i Hi; rewrite H1 // H1z // !sum3O /=; mc_norm; ring.
- by move=> Ho; rewrite H2 // H2t // H2z // subrr.
Qed.

Lemma ccurl_pol u : pol1 xi nr nt nz o u -> pol2 xi nr nt nz o (ccurl nt nz u).
Proof.
move=> [al [ga H]].
exists (fun p l => ga p.+1 l - ga 0%N l - (al p (l.+1 %% nz)%N - al p l)) => j l Hj Hl.
have [A1 A2 A3 A4 A5] := H j l Hj Hl.
have [B1 B2 B3 B4 B5] := H _ l (jS j) Hl.
have [C1 C2 C3 C4 C5] := H j _ Hj (lS l).
rewrite /ccurl /dr_ /dt_ /dz_ /=; split; first split.
- rewrite !A2 !C2 A4 // B4 // !sum3O  /= ?/xr ?/xt !(@xic _ (j.+1 %% nt) j) ?jS //; mc_norm; ring.
- rewrite A4 // B4 // A3 C3 !sum3O !sum2O /= /xt !xi0E ?jS //; mc_norm; ring.
- rewrite A1 C1 !A4 // !sum3O !sum2O /= /xr !xi0E //; mc_norm; ring.
- rewrite A3 A2 B1 A1 !sum2O  /= /xr /xt !(@xic _ (j.+1 %% nt) j) ?jS //; mc_norm; ring.
- move=> Ho; have [A5a A5b] := A5 Ho; have [B5a B5b] := B5 Ho; have [C5a C5b] := C5 Ho.
  by rewrite A5b A5a B5b C5a; mc_norm; ring.
Qed.

Lemma cdiv_pol w : pol2 xi nr nt nz o w -> pol3 nt nz (cdiv nt nz w).
Proof.
move=> [be H] j l Hj Hl.
have [[A1 A2] A3 A4 _] := H j l Hj Hl.
have [_ B3 _ _] := H _ l (jS j) Hl.
have [_ _ C4 _] := H j _ Hj (lS l).
rewrite /cdiv /dr_ /dt_ /dz_ /= A1 A2 B3 A3 C4 A4 !sum2O  /= /xr /xt !(@xic _ (j.+1 %% nt) j) ?jS //.
mc_norm; ring.
Qed.
End PolarClosed.

(** *** coefficient row vectors as functions on flat indices *)
Section Flat.
Variable F : realFieldType.
Definition rvf n (v : 'rV[F]_n) (x : nat) : F := oapp (v 0) 0 (insub x).
Lemma rvf_ord n (v : 'rV[F]_n) (x : 'I_n) : rvf v x = v 0 x.
Proof. by rewrite /rvf valK. Qed.
Lemma rvf_lin n a (u v : 'rV[F]_n) x : rvf (a *: u + v) x = a * rvf u x + rvf v x.
Proof. by rewrite /rvf; case: insub => [i|] /=; rewrite ?mxE // mulr0 addr0. Qed.

(** flat coefficient vector of a structured cochain *)
Definition flat s k (u : cochain F) : 'rV[F]_(fdim s k) :=
  \row_x let: (c, (i, j, l)) := unravel_index s k x in u c i j l.

Lemma coch_flat s k (u : cochain F) c i j l : (c < ncomp k)%N -> in_comp s k c (i, j, l) ->
  coch s k (rvf (flat s k u)) c i j l = u c i j l.
Proof.
move=> Hc Hin; rewrite /coch.
have Hlt := ravel_index_lt Hc Hin.
rewrite (rvf_ord _ (Ordinal Hlt)) mxE /= unravel_ravel_index //.
Qed.

Lemma rvf_flat_eq s k (v : 'rV[F]_(fdim s k)) (u : cochain F) :
  (forall c i j l, (c < ncomp k)%N -> in_comp s k c (i, j, l) -> coch s k (rvf v) c i j l = u c i j l) ->
  v = flat s k u.
Proof.
move=> H; apply/rowP => x; rewrite mxE -(rvf_ord v).
have := ravel_unravel_index (ltn_ord x).
by case: (unravel_index s k x) => [c [[i j] l]] [Hc Hin <-]; apply: H.
Qed.
End Flat.

(** *** abstract compatible sequence of spaces *)
Section Compatible.
Variable F : realFieldType.
Add Field Ffd : (@mc_fth F).
Variables (nr nt nz : nat).
Hypotheses (Hr : (1 < nr)%N) (Ht : (0 < nt)%N) (Hz : (0 < nz)%N) (Hzt : (nz <= nt)%N).
Notation s := (Shape nr nt nz true false false).
Notation rad := (radial_ok nr nt nz).

Variable V : deg -> cochain F -> Prop.
Variables (rk : deg -> nat) (E : forall k, 'M[F]_(rk k, fdim s k)).
Hypothesis Vext : forall k u v, k <> KV ->
  (forall c i j l, (c < ncomp k)%N -> in_comp s k c (i, j, l) -> u c i j l = v c i j l) -> V k u -> V k v.
Hypothesis Vrow : forall k r, k <> KV -> V k (coch s k (rvf (row r (E k)))).
Hypothesis Vspan : forall k v, k <> KV -> V k (coch s k (rvf v)) -> (v <= E k)%MS.
Hypothesis Vgrad : forall v, V K0 v -> V K1 (cgrad nt nz v).
Hypothesis Vcurl : forall v, V K1 v -> V K2 (ccurl nt nz v).
Hypothesis Vdiv : forall v, V K2 v -> V K3 (cdiv nt nz v).
Hypothesis Vrad0 : forall v, V K0 v -> rad (v 0%N).
Hypothesis Vrad1 : forall v, V K1 v -> rad (v 1%N) /\ rad (v 2%N).
Hypothesis Vrad2 : forall v, V K2 v -> rad (v 0%N).

Definition Gf (v : 'rV[F]_(fdim s K0)) := flat s K1 (cgrad nt nz (coch s K0 (rvf v))).
Definition Cf (v : 'rV[F]_(fdim s K1)) := flat s K2 (ccurl nt nz (coch s K1 (rvf v))).
Definition Df (v : 'rV[F]_(fdim s K2)) := flat s K3 (cdiv nt nz (coch s K2 (rvf v))).

Lemma Gf_lin : linear Gf.
Proof.
move=> a u v; apply/rowP => x; rewrite !mxE.
case: (unravel_index s K1 x) => [c [[i j] l]].
by rewrite /cgrad /dr_ /dt_ /dz_ /coch !rvf_lin; case: ifP => _; [|case: ifP => _]; mc_norm; ring.
Qed.
Lemma Cf_lin : linear Cf.
Proof.
move=> a u v; apply/rowP => x; rewrite !mxE.
case: (unravel_index s K2 x) => [c [[i j] l]].
by rewrite /ccurl /dr_ /dt_ /dz_ /coch !rvf_lin; case: ifP => _; [|case: ifP => _]; mc_norm; ring.
Qed.
Lemma Df_lin : linear Df.
Proof.
move=> a u v; apply/rowP => x; rewrite !mxE.
case: (unravel_index s K3 x) => [c [[i j] l]].
by rewrite /cdiv /dr_ /dt_ /dz_ /coch !rvf_lin; mc_norm; ring.
Qed.
Canonical Gf_l := Linear Gf_lin.
Canonical Cf_l := Linear Cf_lin.
Canonical Df_l := Linear Df_lin.
Definition Gm := lin1_mx Gf.
Definition Cm := lin1_mx Cf.
Definition Dm := lin1_mx Df.
Lemma GmE v : v *m Gm = Gf v. Proof. by rewrite mul_rV_lin1. Qed.
Lemma CmE v : v *m Cm = Cf v. Proof. by rewrite mul_rV_lin1. Qed.
Lemma DmE v : v *m Dm = Df v. Proof. by rewrite mul_rV_lin1. Qed.

(** in-range successors *)
Lemma in1 c i j l : in_comp s K1 c (i, j, l) = [&& (i < (if c == 0%N then nr.-1 else nr))%N, (j < nt)%N & (l < nz)%N].
Proof. by rewrite /in_comp csh; case: ifP; rewrite /dr /= ?subn1. Qed.
Lemma in2 c i j l : in_comp s K2 c (i, j, l) = [&& (i < (if c == 0%N then nr else nr.-1))%N, (j < nt)%N & (l < nz)%N].
Proof. by rewrite /in_comp csh; case: ifP; rewrite /dr /= ?subn1. Qed.
Lemma in3 c i j l : in_comp s K3 c (i, j, l) = [&& (i < nr.-1)%N, (j < nt)%N & (l < nz)%N].
Proof. by rewrite /in_comp csh /dr /= subn1. Qed.
Lemma in0 c i j l : in_comp s K0 c (i, j, l) = [&& (i < nr)%N, (j < nt)%N & (l < nz)%N].
Proof. by rewrite /in_comp csh. Qed.
Lemma predS i : (i < nr.-1)%N = (i.+1 < nr)%N.
Proof. by rewrite -{2}(prednK (ltnW Hr)) ltnS. Qed.

Notation ceq := (ceq nr nt nz).

Lemma ccurl_ext (u v : cochain F) : ceq K1 u v -> ceq K2 (ccurl nt nz u) (ccurl nt nz v).
Proof.
move=> H c i j l Hc; rewrite in2 => /and3P [Hi Hj Hl].
have Hj' := ltn_pmod j.+1 Ht; have Hl' := ltn_pmod l.+1 Hz.
rewrite /ccurl /dr_ /dt_ /dz_; case: c Hc Hi => [|[|[|c]]] //= _ Hi; rewrite ?predS in Hi.
- by rewrite !H // in1 /= ?Hi ?Hj ?Hj' ?Hl ?Hl'.
- by rewrite !H // in1 /= ?predS ?Hi ?(ltnW Hi) ?Hj ?Hj' ?Hl ?Hl'.
- by rewrite !H // in1 /= ?predS ?Hi ?(ltnW Hi) ?Hj ?Hj' ?Hl ?Hl'.
Qed.
Lemma cdiv_ext (u v : cochain F) : ceq K2 u v -> ceq K3 (cdiv nt nz u) (cdiv nt nz v).
Proof.
move=> H c i j l _; rewrite in3 => /and3P [Hi Hj Hl].
have Hj' := ltn_pmod j.+1 Ht; have Hl' := ltn_pmod l.+1 Hz.
rewrite predS in Hi; rewrite /cdiv /dr_ /dt_ /dz_.
by rewrite !H // in2 /= ?predS ?Hi ?(ltnW Hi) ?Hj ?Hj' ?Hl ?Hl'.
Qed.

Lemma coch_Gf v : ceq K1 (coch s K1 (rvf (Gf v))) (cgrad nt nz (coch s K0 (rvf v))).
Proof. by move=> c i j l Hc Hin; rewrite coch_flat. Qed.
Lemma coch_Cf v : ceq K2 (coch s K2 (rvf (Cf v))) (ccurl nt nz (coch s K1 (rvf v))).
Proof. by move=> c i j l Hc Hin; rewrite coch_flat. Qed.
Lemma coch_Df v : ceq K3 (coch s K3 (rvf (Df v))) (cdiv nt nz (coch s K2 (rvf v))).
Proof. by move=> c i j l Hc Hin; rewrite coch_flat. Qed.

Lemma flat0 k (u : cochain F) :
  (forall c i j l, (c < ncomp k)%N -> in_comp s k c (i, j, l) -> u c i j l = 0) -> flat s k u = 0.
Proof.
move=> H; apply/rowP => x; rewrite !mxE; have := ravel_unravel_index (ltn_ord x).
by case: (unravel_index s k x) => [c [[i j] l]] [Hc Hin _]; apply: H.
Qed.

Lemma GmCm : Gm *m Cm = 0.
Proof.
apply/row_matrixP => i; rewrite row_mul row0 !rowE CmE GmE.
apply: flat0 => c p j l Hc Hin.
by rewrite (ccurl_ext (@coch_Gf _) Hc Hin) ccurl_cgrad.
Qed.
Lemma CmDm : Cm *m Dm = 0.
Proof.
apply/row_matrixP => i; rewrite row_mul row0 !rowE DmE CmE.
apply: flat0 => c p j l Hc Hin.
by rewrite (cdiv_ext (@coch_Cf _) Hc Hin) cdiv_ccurl.
Qed.

(** the derivative of each basis function lies in the next space *)
Lemma sub0 : (E K0 *m Gm <= E K1)%MS.
Proof.
apply/row_subP => r; rewrite row_mul GmE; apply: Vspan => //.
apply: (@Vext _ (cgrad nt nz (coch s K0 (rvf (row r (E K0)))))) => //.
  by move=> c i j l Hc Hin; rewrite coch_Gf.
by apply: Vgrad; apply: Vrow.
Qed.
Lemma sub1 : (E K1 *m Cm <= E K2)%MS.
Proof.
apply/row_subP => r; rewrite row_mul CmE; apply: Vspan => //.
apply: (@Vext _ (ccurl nt nz (coch s K1 (rvf (row r (E K1)))))) => //.
  by move=> c i j l Hc Hin; rewrite coch_Cf.
by apply: Vcurl; apply: Vrow.
Qed.
Lemma sub2 : (E K2 *m Dm <= E K3)%MS.
Proof.
apply/row_subP => r; rewrite row_mul DmE; apply: Vspan => //.
apply: (@Vext _ (cdiv nt nz (coch s K2 (rvf (row r (E K2)))))) => //.
  by move=> c i j l Hc Hin; rewrite coch_Df.
by apply: Vdiv; apply: Vrow.
Qed.

Variables (T : tables F) (Gj Gij : nat -> nat -> nat -> F) (Jj wj : nat -> F).
Let S := @Seq F s T Gj Gij Jj wj rk E.

Lemma fvalf n g (v : 'rV[F]_n) j k : fval g v j k = \sum_(x < n) rvf v x * g x j k.
Proof. by apply: eq_bigr => x _; rewrite rvf_ord. Qed.

(** existence of metric-free coefficient matrices of the derivatives *)
Theorem compatible_derivs : exists (g : 'M_(rk K1, rk K0)) (c : 'M_(rk K2, rk K1)) (d : 'M_(rk K3, rk K2)),
  [/\ exact0 (S := S) g, exact1 (S := S) c & exact2 (S := S) d] /\
  (row_free (E K2) -> c *m g = 0) /\ (row_free (E K3) -> d *m c = 0) /\
  [/\ g^T *m E K1 = E K0 *m Gm, c^T *m E K2 = E K1 *m Cm & d^T *m E K3 = E K2 *m Dm].
Proof.
have [g' Hg] := submxP sub0; have [c' Hc] := submxP sub1; have [d' Hd] := submxP sub2.
exists g'^T, c'^T, d'^T; split; first split.
- move=> r j k Hk /=; rewrite trmxK -Hg row_mul GmE !fvalf.
  apply: d0_exact => //; first by apply: Vrad0; apply: Vrow.
  exact: coch_Gf.
- move=> r j k Hk /=; rewrite trmxK -Hc row_mul CmE !fvalf.
  have [R1 R2] := Vrad1 (@Vrow K1 r ltac:(by [])).
  by apply: d1_exact => //; apply: coch_Cf.
- move=> r j k Hk /=; rewrite trmxK -Hd row_mul DmE !fvalf.
  apply: d2_exact => //; first by apply: Vrad2; apply: Vrow.
  exact: coch_Df.
split; last split; last by rewrite !trmxK.
all: move=> Hf; rewrite -trmx_mul -[RHS]trmx0; congr trmx; apply: (row_free0 Hf).
- by rewrite -mulmxA -Hc mulmxA -Hg -mulmxA GmCm mulmx0.
- by rewrite -mulmxA -Hd mulmxA -Hc -mulmxA CmDm mulmx0.
Qed.
End Compatible.

(** *** the polar sequence *)
Section PolarSeq.
Variable F : realFieldType.
Variable xi : nat -> nat -> nat -> F.
Variables (nr nt nz : nat) (o : bool).
Hypotheses (Hnr : (2 + o <= nr)%N) (Ht : (0 < nt)%N) (Hz : (0 < nz)%N) (Hzt : (nz <= nt)%N).
Hypothesis Hxi : xi_ok xi nt.
Hypothesis Hrt : nr = nt \/ (o /\ (nr <= nt)%N).
Notation s := (Shape nr nt nz true false false).
Notation E := (polar_matrix xi s o).

Let Hr : (1 < nr)%N. Proof. by apply: leq_trans Hnr; rewrite leq_addr. Qed.
Let Hlast : (nr.-1 < nr)%N. Proof. by rewrite prednK // ltnW. Qed.

Definition Vpol (k : deg) (u : cochain F) : Prop :=
  match k with
  | K0 => pol0 xi nr nt nz o u
  | K1 => pol1 xi nr nt nz o u
  | K2 => pol2 xi nr nt nz o u
  | K3 => pol3 nt nz u
  | KV => True
  end.

Lemma i2 i : (i < 2)%N -> (i < nr)%N. Proof. by move=> H; apply: leq_trans H Hr. Qed.

Lemma Vpol_ext k u v : k <> KV ->
  (forall c i j l, (c < ncomp k)%N -> in_comp s k c (i, j, l) -> u c i j l = v c i j l) -> Vpol k u -> Vpol k v.
Proof.
case: k => // _ H.
- move=> [ga Hu]; exists ga => j l Hj Hl; have [H1 H2] := Hu j l Hj Hl; split.
  + by move=> i Hi; rewrite -H ?H1 // in0 ?Hj ?Hl ?andbT ?i2.
  + by move=> Ho; rewrite -H ?H2 // in0 ?Hj ?Hl ?andbT ?Hlast.
- move=> [al [ga Hu]]; exists al, ga => j l Hj Hl; have [H1 H2 H3 H4 H5] := Hu j l Hj Hl; split.
  + by rewrite -H ?H1 // in1 // ?Hj ?Hl ?andbT /= -ltnS prednK // ltnW.
  + by rewrite -H ?H2 // in1 // ?Hj ?Hl ?andbT /= ltnW.
  + by rewrite -H ?H3 // in1 // ?Hj ?Hl ?andbT.
  + by move=> i Hi; rewrite -H ?H4 // in1 // ?Hj ?Hl ?andbT /= i2.
  + by move=> Ho; have [Ha Hb] := H5 Ho; rewrite -!H ?Ha ?Hb // in1 // ?Hj ?Hl ?andbT.
- move=> [be Hu]; exists be => j l Hj Hl; have [[H1 H2] H3 H4 H5] := Hu j l Hj Hl; split; first split.
  + by rewrite -H ?H1 // in2 // ?Hj ?Hl ?andbT /= ltnW.
  + by rewrite -H ?H2 // in2 // ?Hj ?Hl ?andbT.
  + by rewrite -H ?H3 // in2 // ?Hj ?Hl ?andbT /= -ltnS prednK // ltnW.
  + by rewrite -H ?H4 // in2 // ?Hj ?Hl ?andbT /= -ltnS prednK // ltnW.
  + by move=> Ho; rewrite -H ?H5 // in2 // ?Hj ?Hl ?andbT.
- by move=> Hu j l Hj Hl; rewrite -H ?Hu // in3 // ?Hj ?Hl ?andbT /= -ltnS prednK // ltnW.
Qed.

Lemma pe_delta k (r : 'I_(pdim s o k)) x :
  pe xi nr nt nz o k (fun i => (i == r :> nat)%:R) x = polar_element xi s o k r x.
Proof.
rewrite /pe (bigD1 r) //= eqxx mul1r big1 ?addr0 // => i Hi.
by rewrite (negbTE (_ : nat_of_ord i != r)) ?mul0r.
Qed.

Lemma Vpol_pe k y : k <> KV -> Vpol k (coch s k (pe xi nr nt nz o k y)).
Proof. by case: k => // _; [apply: pe_pol0 | apply: pe_pol1 | apply: pe_pol2 | apply: pe_pol3]. Qed.

Lemma Vpol_row k r : k <> KV -> Vpol k (coch s k (rvf (row r (E k)))).
Proof.
move=> Hk; apply: (@Vpol_ext _ (coch s k (pe xi nr nt nz o k (fun i => (i == r :> nat)%:R)))) => //.
  move=> c i j l Hc Hin; rewrite /coch pe_delta; have Hlt := ravel_index_lt Hc Hin.
  by rewrite (rvf_ord _ (Ordinal Hlt)) !mxE.
exact: Vpol_pe.
Qed.

Lemma Vpol_span k v : k <> KV -> Vpol k (coch s k (rvf v)) -> (v <= E k)%MS.
Proof.
move=> Hk H.
have [y Hy] : exists y, forall x, (x < fdim s k)%N -> rvf v x = pe xi nr nt nz o k y x.
  by case: k Hk v H => // _ v; [apply: pol0_span | apply: pol1_span | apply: pol2_span | apply: pol3_span].
apply/submxP; exists (\row_r y r); apply/rowP => x.
rewrite -rvf_ord Hy // mxE; apply: eq_bigr => r _; by rewrite !mxE.
Qed.

Lemma rad_of (u : nat -> nat -> nat -> F) :
  (o -> forall j l, (j < nt)%N -> (l < nz)%N -> u nr.-1 j l = 0) -> radial_ok nr nt nz u.
Proof. by move=> H; case: Hrt => [|[Ho Hle]]; [left | right; split=> //; apply: H]. Qed.

Lemma polar_derivs (T : tables F) Gj Gij Jj wj :
  let S := @Seq F s T Gj Gij Jj wj (pdim s o) (polar_matrix xi s o) in
  exists (g : 'M_(rk S K1, rk S K0)) (c : 'M_(rk S K2, rk S K1)) (d : 'M_(rk S K3, rk S K2)),
  [/\ exact0 (S := S) g, exact1 (S := S) c & exact2 (S := S) d] /\
  (row_free (E K2) -> c *m g = 0) /\ (row_free (E K3) -> d *m c = 0) /\
  [/\ g^T *m E K1 = E K0 *m Gm F nr nt nz, c^T *m E K2 = E K1 *m Cm F nr nt nz & d^T *m E K3 = E K2 *m Dm F nr nt nz].
Proof.
apply: (@compatible_derivs F nr nt nz Hr Ht Hz Hzt Vpol (pdim s o) (polar_matrix xi s o)).
- exact: Vpol_ext.
- exact: Vpol_row.
- exact: Vpol_span.
- by move=> v; apply: cgrad_pol.
- by move=> v; apply: ccurl_pol.
- by move=> v; apply: cdiv_pol.
- by move=> v [ga H]; apply: rad_of => Ho j l Hj Hl; have [_ ->] := H j l Hj Hl.
- move=> v [al [ga H]]; split; apply: rad_of => Ho j l Hj Hl; have [_ _ _ _ H5] := H j l Hj Hl; by have [Ha Hb] := H5 Ho.
- by move=> v [be H]; apply: rad_of => Ho j l Hj Hl; have [_ _ _ ->] := H j l Hj Hl.
Qed.
End PolarSeq.

(** *** the boundary-condition sequence *)
Section BndSeq.
Variable F : realFieldType.
Variables (nr nt nz : nat) (o : bool).
Hypotheses (Hr : (1 < nr)%N) (Ht : (0 < nt)%N) (Hz : (0 < nz)%N) (Hzt : (nz <= nt)%N).
Hypothesis Hrt : nr = nt \/ (o /\ (nr <= nt)%N).
Notation s := (Shape nr nt nz true false false).
Definition rbc (o : bool) : bc * bc * bc := (if o then Dirichlet else NoBC, NoBC, NoBC).
Notation b := (rbc o).
Notation E := (boundary_matrix F s b).

Definition Vbnd (k : deg) (u : cochain F) : Prop :=
  forall c i j l, (c < ncomp k)%N -> in_comp s k c (i, j, l) -> ~~ free_dof s b k c (i, j, l) -> u c i j l = 0.

Lemma freeE k c i j l : free_dof s b k c (i, j, l) = ~~ (o && has_trace k c 0 && ((i == 0%N) || (nr <= i.+1)%N)).
Proof.
rewrite /free_dof /rbc /= !implybT !andbT; case: (o) => /=; last by rewrite implybT.
by case: (has_trace k c 0) => //=; rewrite negb_or lt0n ltnNge.
Qed.

Lemma Vbnd_ext k u v : k <> KV ->
  (forall c i j l, (c < ncomp k)%N -> in_comp s k c (i, j, l) -> u c i j l = v c i j l) -> Vbnd k u -> Vbnd k v.
Proof. by move=> _ H Hu c i j l Hc Hin Hf; rewrite -H // Hu. Qed.

Lemma Vbnd_row k r : k <> KV -> Vbnd k (coch s k (rvf (row r (E k)))).
Proof.
move=> Hk c i j l Hc Hin Hf; rewrite /coch; have Hlt := ravel_index_lt Hc Hin.
rewrite (rvf_ord _ (Ordinal Hlt)) mxE boundary_row0 //= unravel_ravel_index //.
Qed.

Lemma Vbnd_span k v : k <> KV -> Vbnd k (coch s k (rvf v)) -> (v <= E k)%MS.
Proof.
move=> Hk H; rewrite (@boundary_span F s b k Hk v) ?submxMl // => x Hx.
rewrite -rvf_ord; have := ravel_unravel_index (ltn_ord x); move: Hx.
case: (unravel_index s k x) => [c [[i j] l]] Hf [Hc Hin E].
by rewrite -[RHS](H c i j l) // /coch E.
Qed.

Lemma Vbnd_grad v : Vbnd K0 v -> Vbnd K1 (cgrad nt nz v).
Proof.
move=> H c i j l Hc; rewrite in1 // => /and3P [Hi Hj Hl]; rewrite freeE negbK => Hf.
have Hj' := ltn_pmod j.+1 Ht; have Hl' := ltn_pmod l.+1 Hz.
case: c Hc Hi Hf => [|[|[|c]]] //= _ Hi Hf; rewrite ?andbF // in Hf.
- by rewrite /cgrad /dt_ /= !H ?subrr // ?in0 ?freeE ?negbK /= ?Hi ?Hj ?Hj'.
- by rewrite /cgrad /dz_ /= !H ?subrr // ?in0 ?freeE ?negbK /= ?Hi ?Hj ?Hl'.
Qed.
Lemma Vbnd_curl v : Vbnd K1 v -> Vbnd K2 (ccurl nt nz v).
Proof.
move=> H c i j l Hc; rewrite in2 // => /and3P [Hi Hj Hl]; rewrite freeE negbK => Hf.
have Hj' := ltn_pmod j.+1 Ht; have Hl' := ltn_pmod l.+1 Hz.
case: c Hc Hi Hf => [|[|[|c]]] //= _ Hi Hf; rewrite ?andbF // in Hf.
by rewrite /ccurl /dt_ /dz_ /= !H ?subrr // ?in1 ?freeE ?negbK /= ?Hi ?Hj ?Hj' ?Hl'.
Qed.
Lemma Vbnd_div v : Vbnd K2 v -> Vbnd K3 (cdiv nt nz v).
Proof. by move=> H c i j l Hc _; rewrite freeE negbK andbF. Qed.

Lemma Vbnd_rad k c v : (c < ncomp k)%N -> has_trace k c 0 -> k <> KV -> Vbnd k v -> radial_ok nr nt nz (v c).
Proof.
move=> Hc Htr Hk H; case: Hrt => [|[Ho Hle]]; [by left | right; split=> // j l Hj Hl].
have Hp : (nr.-1 < nr)%N by rewrite prednK // ltnW.
apply: H => //; last by rewrite freeE negbK Ho Htr /= prednK ?leqnn ?orbT // ltnW.
by case: k Hc Htr Hk => // Hc Htr _; [rewrite in0 | rewrite in1 | rewrite in2]; rewrite ?Hj ?Hl ?andbT //;
   move: Htr => /=; case: c Hc => [|[|[|c]]].
Qed.

Lemma boundary_derivs (T : tables F) Gj Gij Jj wj :
  let S := @Seq F s T Gj Gij Jj wj (bdim s b) (boundary_matrix F s b) in
  exists (g : 'M_(rk S K1, rk S K0)) (c : 'M_(rk S K2, rk S K1)) (d : 'M_(rk S K3, rk S K2)),
  [/\ exact0 (S := S) g, exact1 (S := S) c & exact2 (S := S) d] /\
  (row_free (E K2) -> c *m g = 0) /\ (row_free (E K3) -> d *m c = 0) /\
  [/\ g^T *m E K1 = E K0 *m Gm F nr nt nz, c^T *m E K2 = E K1 *m Cm F nr nt nz & d^T *m E K3 = E K2 *m Dm F nr nt nz].
Proof.
apply: (@compatible_derivs F nr nt nz Hr Ht Hz Hzt Vbnd (bdim s b) (boundary_matrix F s b)).
- exact: Vbnd_ext.
- exact: Vbnd_row.
- exact: Vbnd_span.
- exact: Vbnd_grad.
- exact: Vbnd_curl.
- exact: Vbnd_div.
- by move=> v; apply: Vbnd_rad.
- by move=> v H; split; apply: (Vbnd_rad _ _ _ H).
- by move=> v; apply: Vbnd_rad.
Qed.
End BndSeq.
