(** Property theorems C86: the plotting helpers. *)
From Coq Require Import Reals Lra.
From mathcomp Require Import all_ssreflect all_algebra zify.
From Verif Require Import Model.PlotHelpers.
Set Implicit Arguments.
Unset Strict Implicit.
Unset Printing Implicit Defensive.
Import Order.TTheory GRing.Theory Num.Theory.

Section Axes.
Local Open Scope R_scope.
(** what "equal scale" means: the three displayed intervals have one length, that of the longest given one, and keep
    their midpoints; what was visible stays visible; doing it again changes nothing *)
Theorem C86_axes_equal : forall x y z : R * R,
  fst x <= snd x -> fst y <= snd y -> fst z <= snd z ->
  let '(x', y', z') := set_axes_equal x y z in
  let len l := snd l - fst l in
  [/\ len x' = len y' /\ len y' = len z',
      (len x' = len x \/ len x' = len y \/ len x' = len z) /\ (len x <= len x' /\ len y <= len x' /\ len z <= len x'),
      fst x' + snd x' = fst x + snd x /\ fst y' + snd y' = fst y + snd y /\ fst z' + snd z' = fst z + snd z,
      (fst x' <= fst x <= snd x /\ snd x <= snd x') /\ (fst y' <= fst y <= snd y /\ snd y <= snd y')
      /\ (fst z' <= fst z <= snd z /\ snd z <= snd z')
    & set_axes_equal x' y' z' = (x', y', z')].
Proof.
move=> [x0 x1] [y0 y1] [z0 z1] /= Hx Hy Hz; rewrite /set_axes_equal /mid /range /=.
have Hl : (Rmax (Rmax (x1 - x0) (y1 - y0)) (z1 - z0) = x1 - x0 \/ Rmax (Rmax (x1 - x0) (y1 - y0)) (z1 - z0) = y1 - y0
       \/ Rmax (Rmax (x1 - x0) (y1 - y0)) (z1 - z0) = z1 - z0).
  by rewrite /Rmax; repeat destruct Rle_dec; auto.
have H1 := Rle_trans _ _ _ (Rmax_l (x1 - x0) (y1 - y0)) (Rmax_l _ (z1 - z0)).
have H2 := Rle_trans _ _ _ (Rmax_r (x1 - x0) (y1 - y0)) (Rmax_l _ (z1 - z0)).
have H3 := Rmax_r (Rmax (x1 - x0) (y1 - y0)) (z1 - z0).
move: Hl H1 H2 H3; move: (Rmax (Rmax _ _) _) => m Hl H1 H2 H3.
split; [split; lra|split; [lra|repeat split; lra]|repeat split; lra|repeat split; lra|].
have E (c : R) : (c + m / 2 - (c - m / 2)) = m by field.
have E2 : Rmax m m = m by apply: Rmax_left; right.
rewrite !E !E2.
by congr (_, _, _); congr (_, _); field.
Qed.
Print Assumptions C86_axes_equal.

(** an inverted axis does not stay inverted if some other axis is not *)
Theorem C86_inverted_axis : forall x y z : R * R, snd x < fst x -> fst y < snd y ->
  let '(x', _, _) := set_axes_equal x y z in fst x' < snd x'.
Proof.
move=> [x0 x1] [y0 y1] [z0 z1] /= Hx Hy; rewrite /mid /range /=.
have H2 := Rle_trans _ _ _ (Rmax_r (x1 - x0) (y1 - y0)) (Rmax_l _ (z1 - z0)); lra.
Qed.
Print Assumptions C86_inverted_axis.
Definition axes_ex : Prop := set_axes_equal (0, 2) (0, 4) (1, 2) = ((-1, 3), (0, 4), (- (1 / 2), 7 / 2)).
Lemma axes_example : axes_ex.
Proof.
rewrite /axes_ex /set_axes_equal /range /mid /= (Rmax_right (2 - 0)) ?Rmax_left; try lra.
by congr (_, _, _); congr (_, _); field.
Qed.
End Axes.

(** in converge_plot two polynomial orders have the same marker iff their positions differ by a multiple of 20; at most
    20 orders are told apart *)
Theorem C86_markers : forall n j k, (j < n)%N -> (k < n)%N ->
  (marker n j = marker n k <-> j %% 20 = k %% 20) /\ ((n <= 20)%N -> marker n j = marker n k -> j = k).
Proof.
move=> n j k Hj Hk.
have E i : (i < n)%N -> marker n i = (i %% 20)%N by move=> Hi; rewrite /marker (nth_map 0%N) ?size_iota // nth_iota.
rewrite !E //; split=> // Hn; rewrite !modn_small //; lia.
Qed.
Print Assumptions C86_markers.

Section Styles.
Local Open Scope ring_scope.
Context {d : unit} {T : orderType d}.
Implicit Types (vals : seq T) (u v : T).
Lemma mem_ss vals v : (v \in sorted_set vals) = (v \in vals).
Proof. by rewrite mem_sort mem_undup. Qed.
Lemma size_ss vals : size (sorted_set vals) = size (undup vals).
Proof. exact: size_sort. Qed.
Lemma index_lt vals u v : u \in vals -> v \in vals ->
  (index u (sorted_set vals) < index v (sorted_set vals))%N = (u < v)%O.
Proof.
move=> Hu Hv; have Hs : sorted <%O (sorted_set vals).
  by rewrite lt_sorted_uniq_le sort_uniq undup_uniq sort_le_sorted.
by rewrite -(lt_sorted_ltn_nth u Hs) ?inE ?index_mem ?mem_ss // !nth_index ?mem_ss.
Qed.

(** colours: the colour parameter of a run is in [0, 1) and increases strictly with its value, so two runs have the same
    colour iff they have the same value *)
Theorem C86_colours : forall vals u v, u \in vals -> v \in vals ->
  [/\ 0 <= colour vals u < 1, (colour vals u < colour vals v) = (u < v)%O & (colour vals u == colour vals v) = (u == v)].
Proof.
move=> vals u v Hu Hv.
have Hn : (0 < size (undup vals))%N by case: (undup vals) (mem_undup vals u) Hu => // <-.
have Hp : 0 < ((size (undup vals))%:R : rat) by rewrite ltr0n.
have L a b : a \in vals -> b \in vals -> (colour vals a < colour vals b) = (a < b)%O.
  by move=> Ha Hb; rewrite /colour ltr_pmul2r ?invr_gt0 // ltr_nat index_lt.
split.
- rewrite /colour divr_ge0 ?ler0n //= ltr_pdivr_mulr // mul1r ltr_nat -size_ss index_mem.
  by rewrite mem_ss.
- exact: L.
- by rewrite !eq_le !leNgt !L // -!leNgt.
Qed.
Print Assumptions C86_colours.

(** line styles: they tell all values of the second parameter apart iff there are at most five *)
Theorem C86_linestyles : forall vals,
  {in vals &, injective (linestyle vals)} <-> (size (undup vals) <= 5)%N.
Proof.
move=> vals; split=> [Hi|Hn u v Hu Hv].
  rewrite leqNgt; apply/negP => Hn.
  have x0 : T by case: (vals) Hn => // x.
  pose s := sorted_set vals.
  have Hs : (5 < size s)%N by rewrite /s size_ss.
  have Us : uniq s by rewrite sort_uniq undup_uniq.
  have M i : (i < size s)%N -> nth x0 s i \in vals by move=> H; rewrite -mem_ss; apply: mem_nth.
  have E : linestyle vals (nth x0 s 0) = linestyle vals (nth x0 s 5).
    by rewrite /linestyle !index_uniq //; apply: ltn_trans Hs.
  have /eqP := Hi _ _ (M 0%N (ltn_trans (ltn0Sn 4) Hs)) (M 5%N Hs) E.
  by rewrite nth_uniq //; apply: ltn_trans Hs.
have B a : a \in vals -> (index a (sorted_set vals) < 5)%N.
  by move=> Ha; apply: leq_trans Hn; rewrite -size_ss index_mem mem_ss.
rewrite /linestyle !modn_small ?B // => E.
by rewrite -(nth_index u (s := sorted_set vals) (x := u)) ?mem_ss // E nth_index ?mem_ss.
Qed.
Print Assumptions C86_linestyles.
End Styles.

Section Curves.
Local Open Scope ring_scope.
Variable F : realFieldType.
(** the curve labelled |H - H_0| of run k at sample m is |H_k(m) - H_first(m)| *)
Theorem C86_helicity_curves : forall (trace : seq (seq F)) n, (forall row, row \in trace -> size row = n) ->
  forall k m, (k < size trace)%N -> (m < n)%N ->
  nth 0 (nth [::] (drawn_change trace) k) m = `|nth 0 (nth [::] trace k) m - nth 0 (nth [::] trace 0) m|.
Proof.
move=> trace n Hn k m Hk Hm; have H0 : (0 < size trace)%N by apply: leq_ltn_trans Hk.
rewrite (nth_map [::]) // (nth_map (0, 0)); last by rewrite size_zip !Hn ?mem_nth ?minnn.
by rewrite nth_zip ?Hn ?mem_nth.
Qed.
Print Assumptions C86_helicity_curves.

(** so it is not the change of helicity of the run: the first run is always drawn as 0, whatever its helicity does, and
    two runs that conserve their helicity exactly are drawn with a nonzero curve as soon as they start apart *)
Theorem C86_helicity_refuted :
  (forall (row : seq F) (rest : seq (seq F)) m, nth 0 (nth [::] (drawn_change (row :: rest)) 0) m = 0)
  /\ (forall (a b : F) n, a != b -> let trace := [:: nseq n.+1 a; nseq n.+1 b] in
      forall m, (m <= n)%N -> nth 0 (nth [::] (drawn_change trace) 1) m != 0
      /\ `|nth 0 (nth [::] trace 1) m - nth 0 (nth [::] trace 1) 0| = 0).
Proof.
split=> [row rest m|a b n Hab trace m Hm].
  have E : forall i, nth 0 [seq `|ab.1 - ab.2| | ab <- zip row row] i = 0.
    by elim: row => [|x row IH] [|i] //=; rewrite subrr normr0.
  exact: E.
have Hs row : row \in trace -> size row = n.+1.
  by rewrite !inE => /orP [] /eqP ->; rewrite size_nseq.
rewrite (C86_helicity_curves Hs) //= -/(nseq n.+1 a) -/(nseq n.+1 b).
have E c : nth 0 (c :: nseq n c) m = c by rewrite -[c :: _]/(nseq n.+1 c) nth_nseq ltnS Hm.
by rewrite !E subrr normr0 normr_eq0 subr_eq0 eq_sym.
Qed.
Print Assumptions C86_helicity_refuted.

(** trace_plot: if the energy never increases, the energy curve starts at 0 and never decreases; the helicity curve is the
    change of helicity since the first sample *)
Theorem C86_trace_plot : forall (es hs : seq F),
  ((forall i j, (i <= j < size es)%N -> nth 0 es j <= nth 0 es i) ->
   nth 0 (drawn_energy es) 0 = 0
   /\ forall i j, (i <= j < size es)%N -> 0 <= nth 0 (drawn_energy es) i <= nth 0 (drawn_energy es) j)
  /\ (forall i, (i < size hs)%N -> nth 0 (drawn_helicity hs) i = `|nth 0 hs i - nth 0 hs 0|).
Proof.
move=> es hs; split=> [Hm|i Hi]; last by rewrite (nth_map 0) // -nth0.
have E i : (i < size es)%N -> nth 0 (drawn_energy es) i = nth 0 es 0 - nth 0 es i.
  by move=> Hi; rewrite (nth_map 0) // -nth0.
split=> [|i j /andP [Hij Hj]].
  case: (posnP (size es)) => [/size0nil -> //|H]; by rewrite E // subrr.
rewrite !E ?(leq_ltn_trans Hij) // subr_ge0 ler_sub ?lexx ?Hm ?Hij ?Hj //=.
by apply: leq_ltn_trans Hij Hj.
Qed.
Print Assumptions C86_trace_plot.

(** the curve labelled || div B || is its excess over the first sample: it is the divergence iff the run started exactly
    divergence free, and the first sample, and every sample not above it, is invisible on the logarithmic axis *)
Theorem C86_divergence_refuted : forall (ds : seq F) i, (i < size ds)%N ->
  (nth 0 (drawn_divergence ds) i = nth 0 ds i <-> nth 0 ds 0 = 0)
  /\ visible (nth 0 (drawn_divergence ds) i) = (nth 0 ds 0 < nth 0 ds i).
Proof.
move=> ds i Hi; rewrite (nth_map 0) // -nth0 /visible subr_gt0; split=> //.
by split=> [/eqP|->]; rewrite ?subr0 // subr_eq -subr_eq0 opprD addrA subrr sub0r oppr_eq0 => /eqP.
Qed.
Print Assumptions C86_divergence_refuted.
End Curves.

(** the hypotheses are met: three ordered axes, an inverted one, a sweep with six values of a parameter, two runs *)
Example C86_nonvacuous :
  [/\ axes_ex,
      marker 25 3 = marker 25 23,
      linestyle [:: 60; 10; 20; 30; 40; 50; 10]%N 60%N = linestyle [:: 60; 10; 20; 30; 40; 50; 10]%N 10%N
    & drawn_change [:: [:: 1; 1]; [:: 2%:R; 2%:R : rat]]%R = [:: [:: 0; 0]; [:: 1; 1]]%R].
Proof.
split=> //.
exact: axes_example.
Qed.
