(** C52: the iteration counts load_sweep pairs with a trace do not have the length of the trace. *)
From Coq Require Import ZArith.
From mathcomp Require Import all_ssreflect all_algebra zify.
From Verif Require Import Model.Forms Model.DeRham Model.Geometry Model.Relaxation Spec.RelaxSpec Props.Relaxation.
From Verif Require Model.IO.
Set Implicit Arguments.
Unset Strict Implicit.
Unset Printing Implicit Defensive.
Import GRing.Theory Num.Theory.

Lemma iota_last n : iota 1 n.+1 = iota 1 n ++ [:: n.+1].
Proof. by have := iotaD 1 n 1; rewrite addn1 add1n. Qed.
Lemma count_multiples s n : (0 < s)%N -> size [seq i <- iota 1 n | (i %% s == 0)%N] = (n %/ s)%N.
Proof.
move=> Hs; elim: n => [|n IH]; first by rewrite div0n.
rewrite iota_last filter_cat size_cat IH divnS // addnC.
by congr (_ + _)%N; rewrite /= -/(dvdn _ _); case: (_ %| _)%N.
Qed.
Lemma count_recorded s n : (0 < s)%N -> size [seq i <- iota 1 n | ((i %% s == 0) || (i == n))%N] = ((n + s).-1 %/ s)%N.
Proof.
move=> Hs; case: n => [|n]; first by rewrite add0n divn_small //; case: s Hs.
rewrite iota_last filter_cat size_cat.
have -> : [seq i <- iota 1 n | ((i %% s == 0) || (i == n.+1))%N] = [seq i <- iota 1 n | (i %% s == 0)%N].
  apply: eq_in_filter => i; rewrite mem_iota => H; case: (i =P n.+1) => [E|_]; last by rewrite orbF.
  by move: H; rewrite E; lia.
by rewrite count_multiples //= eqxx orbT /= divnDr // divnn Hs.
Qed.

Section Counts.
Variable F : realFieldType.
Variable sqrt_ : F -> F.
Variable S : drseq F.
Variable pinv : 'M[F]_(rk S K3).
Variable DF : nat -> mat3 F.
Variable lstsq : 'M[F]_(rk S K2) -> 'cV[F]_(rk S K2) -> 'cV[F]_(rk S K2).
Variable fault : rstate S -> option ('cV[F]_(rk S K2) * bool * num F * num F).
Variable cfg : config F.
Variable st0 : rstate S.
Let t0 : trace S := Trace [::] [::] [::] [::] [::] [::] [::] [::] [::] [::].
Notation run := (run_relaxation_loop sqrt_ pinv DF lstsq fault cfg t0 st0).

(** of every run that makes all its maxit steps without rejection, the traces have exactly one
    entry more than the iteration counts np.arange(0, maxit, save_every) returned with them *)
Theorem C52_iter_counts_match_refuted : (0 < c_save_every cfg)%N ->
  (forall k, (0 < k <= c_maxit cfg)%N -> accepted sqrt_ pinv DF lstsq fault cfg t0 st0 k) ->
  (forall k, (0 < k < c_maxit cfg)%N -> breaks sqrt_ pinv DF lstsq fault cfg t0 st0 k = false) ->
  exists l, IO.arange (Z.of_nat (c_maxit cfg)) (Z.of_nat (c_save_every cfg)) = Some l /\
  size (iterations (out_trace run)) = (size l).+1 /\ size (force_trace (out_trace run)) = (size l).+1.
Proof.
move=> Hs Ha Hb.
have [N [HN [_ Et] Hno Hend]] := C45_first_break_or_maxit sqrt_ pinv DF lstsq fault cfg t0 st0.
have EN : N = c_maxit cfg.
  case: Hend => // [[H0 Hbr]]; case: (ltngtP N (c_maxit cfg)) HN => // H _.
  by move: Hbr; rewrite Hb // H0.
have [[H1 H2 _ _ _] _] := C44_recorded sqrt_ pinv DF lstsq fault cfg t0 st0 N.
set s := c_save_every cfg in Hs *; set m := c_maxit cfg in EN *.
have [l [-> El]] : exists l, IO.arange (Z.of_nat m) (Z.of_nat s) = Some l /\ size l = ((m + s).-1 %/ s)%N.
  rewrite /IO.arange.
  have -> : Z.eqb (Z.of_nat s) 0 = false by apply/Z.eqb_neq; lia.
  eexists; split; first reflexivity.
  have Hsz (A : Type) (x : seq A) : size x = List.length x by [].
  rewrite Hsz List.map_length List.seq_length.
  have -> : Z.sub (Z.add (Z.of_nat m) (Z.of_nat s)) (Z.sgn (Z.of_nat s)) = Z.of_nat (m + s).-1 by lia.
  rewrite -Nat2Z.inj_div Nat2Z.id; move: ((m + s).-1) => a; symmetry; apply: (Nat.div_unique a s (a %/ s)%N (a %% s)%N).
    by apply/ltP; rewrite ltn_mod.
  by rewrite [LHS](divn_eq a s); lia.
exists l; rewrite El.
have Hrec : size [seq i <- iota 1 N | accepted sqrt_ pinv DF lstsq fault cfg t0 st0 i && ((i %% s == 0)%N || (i == m))] = ((m + s).-1 %/ s)%N.
  rewrite EN -count_recorded //; congr size; apply: eq_in_filter => i; rewrite mem_iota => Hi.
  by rewrite Ha //; lia.
by rewrite Et H1 H2 /= size_map Hrec.
Qed.
End Counts.
Print Assumptions C52_iter_counts_match_refuted.
