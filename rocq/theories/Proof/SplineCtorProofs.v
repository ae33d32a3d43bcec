From Coq Require Import Reals Lra Lia List Bool Arith String.
From Verif Require Import Model.RBase Model.Spline Model.SplineCtor Spec.BSpline Proof.SplineLink.
Import ListNotations.

Lemma parse_type_iff ty k : parse_type ty = Some k <->
  ty = match k with Periodic => "periodic" | Clamped => "clamped"
                  | Constant => "constant" | Fourier => "fourier" end%string.
Proof.
  unfold parse_type.
  destruct (String.eqb_spec ty "periodic") as [->|H1];
  [|destruct (String.eqb_spec ty "clamped") as [->|H2];
  [|destruct (String.eqb_spec ty "constant") as [->|H3];
  [|destruct (String.eqb_spec ty "fourier") as [->|H4]]]];
  destruct k; split; intros H; try reflexivity; try discriminate; try congruence.
Qed.

Lemma parse_type_none ty : parse_type ty = None <->
  ~ In ty ["clamped"; "periodic"; "constant"; "fourier"]%string.
Proof.
  split.
  - intros H Hin. simpl in Hin.
    destruct Hin as [<-|[<-|[<-|[<-|[]]]]]; discriminate.
  - intros H. destruct (parse_type ty) as [k|] eqn:E; [|reflexivity].
    apply parse_type_iff in E. exfalso. apply H. subst. destruct k; simpl; tauto.
Qed.

Lemma ctor_ok_iff n p ty :
  (exists s, SplineBasis n p ty None = Ok s) <->
  In ty ["clamped"; "periodic"; "constant"; "fourier"]%string /\ (p < n \/ p = 1)%nat.
Proof.
  unfold SplineBasis. split.
  - intros [s H].
    destruct (parse_type ty) as [k|] eqn:E; [|discriminate].
    split.
    + destruct (in_dec string_dec ty ["clamped"; "periodic"; "constant"; "fourier"]%string) as [|Hn]; [assumption|].
      apply parse_type_none in Hn. congruence.
    + destruct ((n <=? p)%nat && negb (p =? 1)%nat) eqn:E2.
      * destruct k; try destruct (n + 1 <? p)%nat; discriminate.
      * apply andb_false_iff in E2. destruct E2 as [E2|E2].
        { apply Nat.leb_gt in E2. left; exact E2. }
        { apply negb_false_iff, Nat.eqb_eq in E2. right; exact E2. }
  - intros [Hin Hp].
    destruct (parse_type ty) as [k|] eqn:E; [|apply parse_type_none in E; contradiction].
    assert (E2 : (n <=? p)%nat && negb (p =? 1)%nat = false).
    { apply andb_false_iff. destruct Hp as [Hp|Hp]; [left; apply Nat.leb_gt; exact Hp|].
      right. apply negb_false_iff, Nat.eqb_eq. exact Hp. }
    assert (E3 : (n + 1 <? p)%nat = false) by (apply Nat.ltb_ge; lia).
    rewrite E2, E3. destruct k; eexists; reflexivity.
Qed.

Lemma ctor_attrs n p ty s : SplineBasis n p ty None = Ok s ->
  sn s = n /\ sp s = p /\ parse_type ty = Some (sty s) /\ new_spline n p (sty s) = Some s.
Proof.
  unfold SplineBasis, new_spline. intros H.
  destruct (parse_type ty) as [k|] eqn:E; [|discriminate].
  destruct ((n <=? p)%nat && negb (p =? 1)%nat) eqn:E2.
  - destruct k; try destruct (n + 1 <? p)%nat; discriminate.
  - destruct k; try destruct (n + 1 <? p)%nat; try discriminate;
    inversion H; subst; cbn [sn sp sty]; repeat split; reflexivity.
Qed.

Local Open Scope R_scope.
Lemma n1p1_value x s : SplineBasis 1 1 "clamped" None = Ok s -> 0 <= x < 1 -> evaluate s x 0 = 1 - x.
Proof.
  intros H Hx. apply ctor_attrs in H. destruct H as (_ & _ & E & H).
  change (Some Clamped = Some (sty s)) in E. inversion E as [E1]. rewrite <- E1 in H.
  unfold new_spline in H. simpl in H. inversion H. clear H E E1 H1.
  unfold evaluate. cbn [sty sn sT]. simpl Nat.eqb. simpl last.
  unfold linspace01. simpl map. simpl app. 
  rewrite (Reqb_neq x 1) by lra. simpl andb.
  unfold evaluate_raw, gather, dynamic_slice. simpl.
  replace (0 / 0) with 0 by (unfold Rdiv; ring).
  rewrite (Rleb_true 0 x), (Rleb_true x 1) by lra. simpl.
  replace (0 - 0) with 0 by ring. replace (1 - 0) with 1 by ring.
  unfold safe_divide. rewrite isclose_refl.
  unfold const_spline. simpl.
  assert (I : isclose 0 1 = false).
  { unfold isclose. apply Rleb_false. rewrite Rabs_R1.
    replace (0 - 1) with (-1) by ring. rewrite Rabs_left by lra. lra. }
  assert (I2 : isclose 1 0 = false).
  { unfold isclose. apply Rleb_false. rewrite Rabs_R0.
    replace (1 - 0) with 1 by ring. rewrite Rabs_R1. lra. }
  rewrite I, I2, (Rleb_true 0 x), (Rltb_true x 1) by lra. simpl. field.
Qed.

Lemma tensor_ok_iff bases n : TensorBasis_n bases = Ok n <->
  exists a b c, bases = [a; b; c] /\ n = (sn a * sn b * sn c)%nat.
Proof.
  unfold TensorBasis_n. split.
  - intros H. destruct bases as [|a [|b [|c [|d l]]]]; try discriminate. exists a, b, c. split; [reflexivity|].
    cbn in H. injection H as <-. lia.
  - intros (a & b & c & -> & ->). cbn. f_equal. lia.
Qed.
