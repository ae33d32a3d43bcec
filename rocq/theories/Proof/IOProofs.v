(** Proofs about parse_args, update_config, load_sweep. *)
From Coq Require Import String Ascii List Arith NArith ZArith Bool Lia.
From Verif Require Import Model.IO Spec.IOSpec.
Import ListNotations.
Open Scope string_scope.
Open Scope list_scope.

(** ** dictionaries *)
Section Dict.
Variable A : Type.
Implicit Types d : dict A.
Lemma dget_dset d k k' x : dget (dset d k x) k' = if String.eqb k' k then Some x else dget d k'.
Proof.
  induction d as [|[k0 y] d IH]; cbn; [destruct (String.eqb k' k); reflexivity|].
  destruct (String.eqb_spec k k0) as [->|Hk]; cbn.
  - destruct (String.eqb k' k0); reflexivity.
  - rewrite IH. destruct (String.eqb_spec k' k0) as [->|]; [|reflexivity].
    destruct (String.eqb_spec k0 k) as [->|]; [congruence|reflexivity].
Qed.
Lemma dget_in d k x : dget d k = Some x -> In (k, x) d.
Proof.
  induction d as [|[k0 y] d IH]; cbn; [discriminate|]. destruct (String.eqb_spec k k0) as [->|]; [intros [= ->]; left; reflexivity|].
  intros H. right. apply IH, H.
Qed.
Lemma dget_unique d k x : unique_keys d -> In (k, x) d -> dget d k = Some x.
Proof.
  unfold unique_keys. induction d as [|[k0 y] d IH]; cbn; [tauto|]. intros HN [E|H].
  - injection E as -> ->. rewrite String.eqb_refl. reflexivity.
  - inversion HN; subst. destruct (String.eqb_spec k k0) as [->|]; [|auto].
    exfalso. apply H2. apply (in_map fst) in H. exact H.
Qed.
Lemma dget_none d k : dget d k = None <-> ~ In k (dkeys d).
Proof.
  induction d as [|[k0 y] d IH]; cbn; [tauto|]. destruct (String.eqb_spec k k0) as [->|Hn].
  - split; [discriminate|]. intros H. exfalso. apply H. left. reflexivity.
  - rewrite IH. split; intros H; [intros [E|Hi]; [congruence|auto]|]. intros Hi. apply H. right. exact Hi.
Qed.
Lemma dmem_iff d k : dmem d k = true <-> In k (dkeys d).
Proof.
  unfold dmem. pose proof (dget_none d k) as H. destruct (dget d k); split; try discriminate; try tauto.
  intros _. destruct (in_dec string_dec k (dkeys d)) as [|Hn]; [assumption|]. apply H in Hn. discriminate.
Qed.
Lemma dkeys_dset d k x : dkeys (dset d k x) = if dmem d k then dkeys d else dkeys d ++ [k].
Proof.
  unfold dkeys, dmem. induction d as [|[k0 y] d IH]; cbn; [reflexivity|].
  destruct (String.eqb_spec k k0) as [->|]; cbn; [reflexivity|]. rewrite IH.
  destruct (dget d k); reflexivity.
Qed.
Lemma unique_dset d k x : unique_keys d -> unique_keys (dset d k x).
Proof.
  unfold unique_keys. rewrite dkeys_dset. destruct (dmem d k) eqn:E; [auto|]. intros H.
  assert (Hn : ~ In k (dkeys d)) by (intros Hi; apply dmem_iff in Hi; congruence).
  revert H Hn. generalize (dkeys d). induction l as [|a l IH]; cbn; intros H Hn; [repeat constructor; tauto|].
  inversion H; subst. constructor; [rewrite in_app_iff; cbn; intuition congruence|]. apply IH; [assumption|tauto].
Qed.
End Dict.

(** ** characters *)
Lemma is_decimal_spec c : is_decimal c = true <-> decimal_char c.
Proof.
  destruct c as [b0 b1 b2 b3 b4 b5 b6 b7].
  destruct b0, b1, b2, b3, b4, b5, b6, b7; vm_compute; (split; [try discriminate; tauto|]); intros H;
  first [reflexivity | exfalso; repeat (destruct H as [H|H]; [discriminate H|]); exact H].
Qed.
Lemma is_digit_spec c : is_digit c = true <-> decimal_char c \/ superscript c.
Proof.
  rewrite <- is_decimal_spec. unfold is_digit.
  destruct (is_decimal c) eqn:E; [cbn; tauto|]. cbn [orb].
  assert (H : forall n, n < 256 -> (code c =? n)%nat = true <-> ascii_of_nat n = c).
  { intros n Hn. rewrite Nat.eqb_eq. unfold code. split; [intros <-; apply ascii_nat_embedding|intros <-; apply nat_ascii_embedding; assumption]. }
  rewrite !orb_true_iff, !H by (cbv; lia). unfold superscript. cbn [In]. intuition congruence.
Qed.
Lemma lower_t c : forall d, In d ["t"; "r"; "u"; "e"; "f"; "a"; "l"; "s"]%char ->
  lower_char c = d <-> c = d \/ nat_of_ascii c + 32 = nat_of_ascii d.
Proof.
  intros d Hd.
  assert (G : forall d0, In d0 ["t"; "r"; "u"; "e"; "f"; "a"; "l"; "s"]%char ->
     (if ascii_dec (lower_char c) d0 then true else false) = (if ascii_dec c d0 then true else Nat.eqb (nat_of_ascii c + 32) (nat_of_ascii d0))).
  { destruct c as [b0 b1 b2 b3 b4 b5 b6 b7]. intros d0 H0. cbn [In] in H0.
    destruct b0, b1, b2, b3, b4, b5, b6, b7;
    repeat (destruct H0 as [<-|H0]; [vm_compute; reflexivity|]); destruct H0. }
  specialize (G d Hd). destruct (ascii_dec (lower_char c) d) as [E|E], (ascii_dec c d) as [E'|E']; try discriminate.
  - tauto.
  - symmetry in G. apply Nat.eqb_eq in G. tauto.
  - symmetry in G. apply Nat.eqb_neq in G. tauto.
Qed.
Lemma lower_ci s : forall w, all_chars (fun d => In d ["t"; "r"; "u"; "e"; "f"; "a"; "l"; "s"]%char) w ->
  lower s = w <-> ci_eq s w.
Proof.
  induction s as [|c s IH]; intros [|d w] H; cbn; [tauto|split; [discriminate|tauto]|split; [discriminate|tauto]|].
  destruct H as [Hd Hw]. fold lower. rewrite <- (IH w Hw), <- (lower_t c d Hd).
  split; [intros [= E1 E2]; auto|intros [E1 E2]; rewrite E1, E2; reflexivity].
Qed.
Lemma lower_true s : lower s = "true" <-> ci_eq s "true".
Proof. apply lower_ci. cbn. tauto. Qed.
Lemma lower_false s : lower s = "false" <-> ci_eq s "false".
Proof. apply lower_ci. cbn. tauto. Qed.
Lemma forall_chars_spec f (P : ascii -> Prop) s : (forall c, f c = true <-> P c) -> forall_chars f s = true <-> all_chars P s.
Proof. intros H. induction s as [|c s IH]; cbn; [tauto|]. rewrite andb_true_iff, H, IH. tauto. Qed.
Lemma some_or_all s : all_chars (fun c => decimal_char c \/ superscript c) s -> all_chars decimal_char s \/ some_char superscript s.
Proof. induction s as [|c s IH]; cbn; [tauto|]. tauto. Qed.
Lemma not_both c : decimal_char c -> superscript c -> False.
Proof.
  unfold decimal_char, superscript. cbn [In]. intros H1 H2.
  repeat (destruct H1 as [<-|H1]; [vm_compute in H2; repeat (destruct H2 as [H2|H2]; [discriminate H2|]); exact H2|]). exact H1.
Qed.
Lemma all_not_some s : all_chars decimal_char s -> some_char superscript s -> False.
Proof. induction s as [|c s IH]; cbn; [tauto|]. intros [H1 H2] [H|H]; [exact (not_both c H1 H)|auto]. Qed.
Lemma int_digits_pos s : forall acc, int_digits acc s = (acc * 10 ^ N.of_nat (String.length s) + positional s)%N.
Proof.
  induction s as [|c s IH]; intros acc; cbn [int_digits positional String.length].
  - rewrite N.pow_0_r. lia.
  - rewrite IH. rewrite Nat2N.inj_succ, N.pow_succ_r'. unfold digit_value, code.
    change (nat_of_ascii "0") with 48. lia.
Qed.

(** ** split *)
Lemma split_eq_spec kv key v : split_eq kv = Some (key, v) <-> key_value key v kv.
Proof.
  unfold key_value. revert key. induction kv as [|c kv IH]; intros key; cbn [split_eq].
  - split; [discriminate|]. intros [_ H]. destruct key; discriminate.
  - destruct (Ascii.eqb_spec c "=") as [->|Hc].
    + split.
      * intros [= <- <-]. split; [exact I|reflexivity].
      * intros [Hn E]. destruct key as [|d key]; cbn in *; [injection E as ->; reflexivity|].
        injection E as <- _. destruct Hn as [Hn _]. congruence.
    + destruct (split_eq kv) as [[k0 v0]|] eqn:E.
      * split.
        -- intros [= <- <-]. destruct (proj1 (IH k0) eq_refl) as [H1 ->]. split; [split; assumption|reflexivity].
        -- intros [Hn E']. destruct key as [|d key]; cbn in *; [injection E' as -> _; congruence|].
           injection E' as <- E'. destruct Hn as [_ Hn]. specialize (proj2 (IH key) (conj Hn E')). intros [= <- <-]. reflexivity.
      * split; [discriminate|]. intros [Hn E']. destruct key as [|d key]; cbn in *; [injection E' as -> _; congruence|].
        injection E' as <- E'. destruct Hn as [_ Hn]. pose proof (proj2 (IH key) (conj Hn E')). discriminate.
Qed.

Section Parse.
Variable Fl : Type.
Variable pyfloat : string -> option Fl.
Variable max_digits : option nat.
Notation convert := (convert Fl pyfloat max_digits).
Notation parse_from := (parse_from Fl pyfloat max_digits).
Notation parse_args := (parse_args Fl pyfloat max_digits).
Notation denotes := (denotes Fl pyfloat max_digits).
Notation val := (val Fl).

Lemma isdigit_spec v : isdigit v = true <-> v <> "" /\ all_chars (fun c => decimal_char c \/ superscript c) v.
Proof.
  unfold isdigit. destruct v as [|c v]; [split; [discriminate|tauto]|].
  rewrite (forall_chars_spec _ _ _ is_digit_spec). split; [intros H; split; [discriminate|exact H]|tauto].
Qed.
Lemma ci_not_digit v w : ci_eq v w -> w = "true" \/ w = "false" -> v <> "" /\ ~ all_chars (fun c => decimal_char c \/ superscript c) v.
Proof.
  intros H [->| ->]; (destruct v as [|c v]; [cbn in H; tauto|]); (split; [discriminate|]); cbn [ci_eq all_chars] in *;
  intros [Hc _]; destruct H as [H _];
  assert (E : is_digit c = true) by (apply is_digit_spec; exact Hc);
  destruct H as [->|H]; try discriminate;
  (assert (E2 : c = ascii_of_nat (nat_of_ascii c)) by (symmetry; apply ascii_nat_embedding)).
  - replace (nat_of_ascii c) with 84 in E2 by (cbn in H; lia). subst c. discriminate.
  - replace (nat_of_ascii c) with 70 in E2 by (cbn in H; lia). subst c. discriminate.
Qed.
Lemma pyint_spec v n : pyint max_digits v = Some n <-> all_chars decimal_char v /\ within_limit max_digits v /\ n = positional v.
Proof.
  unfold pyint, within_limit. destruct (forall_chars is_decimal v) eqn:E1.
  - apply (forall_chars_spec _ _ _ is_decimal_spec) in E1. cbn [andb].
    assert (EP : int_digits 0 v = positional v) by (rewrite int_digits_pos; lia).
    destruct max_digits as [m|].
    + destruct (Nat.leb_spec (String.length v) m) as [H|H]; [|split; [discriminate|intros [_ [H2 _]]; lia]].
      rewrite EP. split; [intros [= <-]; auto|]. intros [_ [_ ->]]. reflexivity.
    + rewrite EP. split; [intros [= <-]; auto|]. intros [_ [_ ->]]. reflexivity.
  - cbn. split; [discriminate|]. intros [H _]. apply (forall_chars_spec _ _ _ is_decimal_spec) in H. congruence.
Qed.
Lemma existsb_tf v : existsb (String.eqb (lower v)) ["true"; "false"] = true <-> is_bool v.
Proof.
  cbn. rewrite orb_false_r, orb_true_iff, !String.eqb_eq, lower_true, lower_false. reflexivity.
Qed.
Lemma convert_denotes v x : convert v = Some x <-> denotes v x.
Proof.
  unfold IO.convert. destruct (isdigit v) eqn:Ed.
  - apply isdigit_spec in Ed. destruct Ed as [Hne Hall].
    destruct (pyint max_digits v) as [n|] eqn:Ei.
    + apply pyint_spec in Ei. destruct Ei as [H1 [H2 ->]]. split.
      * intros [= <-]. apply den_int; [split; assumption|assumption].
      * intros H. inversion H; subst; try reflexivity.
        -- exfalso. eapply (proj2 (ci_not_digit v _ H0 (or_introl eq_refl))). exact Hall.
        -- exfalso. eapply (proj2 (ci_not_digit v _ H0 (or_intror eq_refl))). exact Hall.
        -- exfalso. tauto.
        -- exfalso. tauto.
    + split; [discriminate|]. intros H. exfalso. inversion H; subst.
      * assert (Hs : pyint max_digits v = Some (positional v)) by (apply pyint_spec; destruct H0; auto). congruence.
      * eapply (proj2 (ci_not_digit v _ H0 (or_introl eq_refl))). exact Hall.
      * eapply (proj2 (ci_not_digit v _ H0 (or_intror eq_refl))). exact Hall.
      * tauto.
      * tauto.
  - assert (Hnd : v = "" \/ ~ all_chars (fun c => decimal_char c \/ superscript c) v).
    { destruct v as [|c v]; [left; reflexivity|]. right. intros H.
      assert (isdigit (String c v) = true) by (apply isdigit_spec; split; [discriminate|exact H]). congruence. }
    assert (Hni : ~ is_int v).
    { intros [H1 H2]. destruct Hnd as [|Hnd]; [contradiction|]. apply Hnd. revert H2. clear.
      induction v as [|c v IH]; cbn; tauto. }
    destruct (existsb (String.eqb (lower v)) ["true"; "false"]) eqn:Eb.
    + apply existsb_tf in Eb. split.
      * intros [= <-]. destruct Eb as [Hb|Hb].
        -- rewrite (proj2 (lower_true v) Hb). apply den_true, Hb.
        -- rewrite (proj2 (lower_false v) Hb). apply den_false, Hb.
      * intros H. inversion H; subst; try tauto.
        -- apply lower_true in H0. rewrite H0. reflexivity.
        -- apply lower_false in H0. rewrite H0. reflexivity.
    + assert (Hnb : ~ is_bool v) by (rewrite <- existsb_tf; congruence).
      destruct (pyfloat v) as [f|] eqn:Ef.
      * split; [intros [= <-]; apply den_float; assumption|]. intros H. inversion H; subst; try tauto; try congruence.
        all: exfalso; apply Hnb; unfold is_bool; auto.
      * split; [intros [= <-]; apply den_str; assumption|]. intros H. inversion H; subst; try tauto; try congruence.
        all: exfalso; apply Hnb; unfold is_bool; auto.
Qed.
Lemma convert_raises v : convert v = None <-> bad_int max_digits v.
Proof.
  unfold IO.convert, bad_int. destruct (isdigit v) eqn:Ed.
  - apply isdigit_spec in Ed. destruct Ed as [Hne Hall].
    destruct (pyint max_digits v) as [n|] eqn:Ei.
    + apply pyint_spec in Ei. destruct Ei as [H1 [H2 _]]. split; [discriminate|].
      intros [_ [_ [H|H]]]; [exfalso; exact (all_not_some v H1 H)|contradiction].
    + split; [|reflexivity]. intros _. split; [assumption|split; [assumption|]].
      destruct (some_or_all v Hall) as [H|H]; [|left; assumption]. right. intros Hw.
      assert (pyint max_digits v = Some (positional v)) by (apply pyint_spec; auto). congruence.
  - split; [|intros [H1 [H2 _]]; assert (isdigit v = true) by (apply isdigit_spec; auto); congruence].
    destruct (existsb _ _); [discriminate|]. destruct (pyfloat v); discriminate.
Qed.

Lemma parse_lookup kvs : forall d0 d, parse_from d0 kvs = Some d -> forall key x,
  dget d key = Some x <-> (exists v, last_arg kvs key v /\ convert v = Some x) \/
                          ((forall v kv, In kv kvs -> ~ key_value key v kv) /\ dget d0 key = Some x).
Proof.
  induction kvs as [|kv kvs IH]; intros d0 d E key x; cbn in E.
  - injection E as <-. split; [intros H; right; split; [intros ? ? []|exact H]|].
    intros [[v [[l1 [kv [l2 [E _]]]] _]]|[_ H]]; [destruct l1; discriminate|exact H].
  - assert (Hcons : forall v, last_arg (kv :: kvs) key v <-> last_arg kvs key v \/ (key_value key v kv /\ forall v' kv', In kv' kvs -> ~ key_value key v' kv')).
    { intros v. split.
      - intros [l1 [kv0 [l2 [E0 [H1 H2]]]]]. destruct l1 as [|a l1]; cbn in E0; injection E0 as -> ->.
        + right. split; assumption.
        + left. exists l1, kv0, l2. auto.
      - intros [[l1 [kv0 [l2 [-> [H1 H2]]]]]|[H1 H2]].
        + exists (kv :: l1), kv0, l2. auto.
        + exists [], kv, kvs. auto. }
    destruct (split_eq kv) as [[k0 v0]|] eqn:Es.
    + destruct (convert v0) as [x0|] eqn:Ec; [|discriminate].
      rewrite (IH _ _ E key x). rewrite dget_dset.
      pose proof Es as Hkv. apply split_eq_spec in Hkv.
      assert (Huniq : forall v, key_value key v kv -> key = k0 /\ v = v0).
      { intros v Hv. apply split_eq_spec in Hv. rewrite Es in Hv. injection Hv as -> ->. auto. }
      split.
      * intros [[v [H1 H2]]|[Hno H]].
        -- left. exists v. split; [apply Hcons; left; exact H1|exact H2].
        -- destruct (String.eqb_spec key k0) as [->|Hn].
           ++ injection H as ->. left. exists v0. split; [apply Hcons; right; split; assumption|assumption].
           ++ right. split; [|exact H]. intros v kv' [<-|Hi]; [|apply Hno; exact Hi].
              intros Hv. destruct (Huniq v Hv). contradiction.
      * intros [[v [H1 H2]]|[Hno H]].
        -- apply Hcons in H1. destruct H1 as [H1|[H1 Hno]]; [left; exists v; auto|].
           right. split; [exact Hno|]. destruct (Huniq v H1) as [-> ->]. rewrite String.eqb_refl. congruence.
        -- right. split; [intros v kv' Hi; apply Hno; right; exact Hi|].
           destruct (String.eqb_spec key k0) as [->|Hn]; [|exact H].
           exfalso. exact (Hno v0 kv (or_introl eq_refl) Hkv).
    + rewrite (IH _ _ E key x).
      assert (Hno0 : forall v, ~ key_value key v kv).
      { intros v Hv. apply split_eq_spec in Hv. congruence. }
      split.
      * intros [[v [H1 H2]]|[Hno H]]; [left; exists v; split; [apply Hcons; left; exact H1|exact H2]|].
        right. split; [|exact H]. intros v kv' [<-|Hi]; [apply Hno0|apply Hno; exact Hi].
      * intros [[v [H1 H2]]|[Hno H]].
        -- apply Hcons in H1. destruct H1 as [H1|[H1 _]]; [left; exists v; auto|]. exfalso. exact (Hno0 v H1).
        -- right. split; [intros v kv' Hi; apply Hno; right; exact Hi|exact H].
Qed.
Lemma parse_raises kvs : forall d0, parse_from d0 kvs = None <-> exists key v kv, In kv kvs /\ key_value key v kv /\ convert v = None.
Proof.
  induction kvs as [|kv kvs IH]; intros d0; cbn.
  - split; [discriminate|]. intros [? [? [? [[] _]]]].
  - destruct (split_eq kv) as [[k0 v0]|] eqn:Es.
    + pose proof Es as Hkv. apply split_eq_spec in Hkv. destruct (convert v0) as [x0|] eqn:Ec.
      * rewrite IH. split.
        -- intros [key [v [kv' [H1 H2]]]]. exists key, v, kv'. split; [right; exact H1|exact H2].
        -- intros [key [v [kv' [[<-|H1] [H2 H3]]]]]; [|exists key, v, kv'; auto].
           apply split_eq_spec in H2. rewrite Es in H2. injection H2 as <- <-. congruence.
      * split; [|reflexivity]. intros _. exists k0, v0, kv. auto.
    + rewrite IH. split.
      * intros [key [v [kv' [H1 H2]]]]. exists key, v, kv'. split; [right; exact H1|exact H2].
      * intros [key [v [kv' [[<-|H1] [H2 H3]]]]]; [|exists key, v, kv'; auto].
        apply split_eq_spec in H2. congruence.
Qed.
Lemma parse_unique kvs : forall d0 d, unique_keys d0 -> parse_from d0 kvs = Some d -> unique_keys d.
Proof.
  induction kvs as [|kv kvs IH]; intros d0 d H E; cbn in E; [injection E as <-; exact H|].
  destruct (split_eq kv) as [[k0 v0]|]; [|eauto]. destruct (convert v0) as [x0|]; [|discriminate].
  eapply IH; [|exact E]. apply unique_dset, H.
Qed.
End Parse.

Section Config.
Variable Fl : Type.
Variable is_zero : Fl -> bool.
Variable flit : Z -> nat -> Fl.
Notation val := (val Fl).
Notation store := (store Fl).
Notation apply_all := (apply_all Fl). Notation apply_known := (apply_known Fl).
Notation sget := (sget Fl). Notation sput := (sput Fl).

Lemma sput_length (h : store) a d : a < length h -> length (sput h a d) = length h.
Proof. intros H. unfold IO.sput. rewrite app_length, firstn_length. cbn [length]. rewrite skipn_length. lia. Qed.
Lemma sget_sput (h : store) a b d : a < length h -> sget (sput h a d) b = if Nat.eqb a b then d else sget h b.
Proof.
  intros H. unfold IO.sget, IO.sput. destruct (Nat.eqb_spec a b) as [<-|Hn].
  - rewrite app_nth2; rewrite firstn_length; [|lia]. replace (a - Nat.min a (length h)) with 0 by lia. reflexivity.
  - destruct (Nat.lt_ge_cases b a) as [Hb|Hb].
    + rewrite app_nth1 by (rewrite firstn_length; lia).
      rewrite <- (firstn_skipn a h) at 2. rewrite app_nth1 by (rewrite firstn_length; lia). reflexivity.
    + rewrite app_nth2 by (rewrite firstn_length; lia). rewrite firstn_length.
      replace (b - Nat.min a (length h)) with (S (b - S a)) by lia. cbn [nth].
      rewrite <- (firstn_skipn (S a) h) at 2. rewrite app_nth2 by (rewrite firstn_length; lia).
      rewrite firstn_length. f_equal. lia.
Qed.
Definition upd_all (cfg kvs : dict val) : dict val := fold_left (fun d kv => dset d (fst kv) (snd kv)) kvs cfg.
Definition upd_known (cfg kvs : dict val) : dict val :=
  fold_left (fun d kv => if dmem d (fst kv) then dset d (fst kv) (snd kv) else d) kvs cfg.
Lemma apply_all_spec kvs : forall (h : store) c, c < length h -> length (apply_all h c kvs) = length h /\
  forall b, sget (apply_all h c kvs) b = if Nat.eqb c b then upd_all (sget h c) kvs else sget h b.
Proof.
  induction kvs as [|kv kvs IH]; intros h c Hc; cbn.
  - split; [reflexivity|]. intros b. destruct (Nat.eqb_spec c b) as [<-|]; reflexivity.
  - assert (Hl := sput_length h c (dset (sget h c) (fst kv) (snd kv)) Hc).
    destruct (IH (sput h c (dset (sget h c) (fst kv) (snd kv))) c ltac:(lia)) as [L G].
    split; [etransitivity; [exact L|exact Hl]|]. intros b. etransitivity; [exact (G b)|]. rewrite !sget_sput by assumption. rewrite Nat.eqb_refl. destruct (Nat.eqb c b); reflexivity.
Qed.
Lemma apply_known_spec kvs : forall (h : store) c, c < length h -> length (apply_known h c kvs) = length h /\
  forall b, sget (apply_known h c kvs) b = if Nat.eqb c b then upd_known (sget h c) kvs else sget h b.
Proof.
  induction kvs as [|kv kvs IH]; intros h c Hc; cbn.
  - split; [reflexivity|]. intros b. destruct (Nat.eqb_spec c b) as [<-|]; reflexivity.
  - destruct (dmem (sget h c) (fst kv)).
    + assert (Hl := sput_length h c (dset (sget h c) (fst kv) (snd kv)) Hc).
      destruct (IH (sput h c (dset (sget h c) (fst kv) (snd kv))) c ltac:(lia)) as [L G].
      split; [etransitivity; [exact L|exact Hl]|]. intros b. etransitivity; [exact (G b)|]. rewrite !sget_sput by assumption. rewrite Nat.eqb_refl. destruct (Nat.eqb c b); reflexivity.
    + apply IH; assumption.
Qed.
Lemma upd_all_get kvs : unique_keys kvs -> forall cfg k, dget (upd_all cfg kvs) k =
  match dget kvs k with Some v => Some v | None => dget cfg k end.
Proof.
  induction kvs as [|[k0 v0] kvs IH]; intros HU cfg k; cbn; [reflexivity|].
  inversion HU; subst. unfold upd_all in IH. rewrite (IH H2). rewrite dget_dset.
  destruct (String.eqb_spec k k0) as [->|]; [|reflexivity].
  rewrite (proj2 (dget_none _ kvs k0) H1). reflexivity.
Qed.
Lemma upd_known_get kvs : unique_keys kvs -> forall cfg k, dget (upd_known cfg kvs) k =
  if dmem cfg k then match dget kvs k with Some v => Some v | None => dget cfg k end else None.
Proof.
  induction kvs as [|[k0 v0] kvs IH]; intros HU cfg k; cbn.
  - unfold dmem. destruct (dget cfg k); reflexivity.
  - inversion HU; subst. unfold upd_known in IH. rewrite (IH H2).
    pose proof (proj2 (dget_none _ kvs k0) H1) as Hn.
    destruct (dmem cfg k0) eqn:Em.
    + unfold dmem at 1. rewrite dget_dset. destruct (String.eqb_spec k k0) as [->|Hk].
      * rewrite Em, Hn. reflexivity.
      * unfold dmem. reflexivity.
    + destruct (String.eqb_spec k k0) as [->|Hk]; [rewrite Em|]; reflexivity.
Qed.
Lemma upd_known_keys kvs : forall cfg, dkeys (upd_known cfg kvs) = dkeys cfg.
Proof.
  induction kvs as [|[k0 v0] kvs IH]; intros cfg; [reflexivity|]. unfold upd_known in *. cbn [fold_left fst snd].
  rewrite IH. destruct (dmem cfg k0) eqn:E; [|reflexivity]. rewrite dkeys_dset, E. reflexivity.
Qed.
Lemma presets_unique pr k : dget (DEVICE_PRESETS Fl flit) k = Some pr -> unique_keys pr.
Proof.
  unfold DEVICE_PRESETS. cbn [dget].
  repeat (match goal with |- context [if ?b then _ else _] => destruct b end;
          [intros [= <-]; unfold unique_keys; cbn; repeat (constructor; [cbn; intuition discriminate|]); constructor|]).
  discriminate.
Qed.
Lemma selected_unique params : unique_keys (selected_preset Fl flit params).
Proof.
  unfold selected_preset. destruct (dget params "device") as [[| | | |s|]|]; try constructor.
  destruct (dget (DEVICE_PRESETS Fl flit) (upper s)) eqn:E; [exact (presets_unique _ _ E)|constructor].
Qed.
Lemma apply_device_spec (h : store) p c h1 : c < length h -> apply_device Fl is_zero flit h p c = Some h1 ->
  length h1 = length h /\ forall b, sget h1 b = if Nat.eqb c b then upd_all (sget h c) (selected_preset Fl flit (sget h p)) else sget h b.
Proof.
  intros Hc. unfold apply_device, selected_preset.
  assert (Hid : forall b, sget h b = if Nat.eqb c b then upd_all (sget h c) [] else sget h b).
  { intros b. destruct (Nat.eqb_spec c b) as [<-|]; reflexivity. }
  destruct (dget (sget h p) "device") as [d|]; [|intros [= <-]; split; [reflexivity|exact Hid]].
  destruct (truthy Fl is_zero d) eqn:Et.
  - destruct d as [| | | |s|]; try discriminate.
    destruct (dget (DEVICE_PRESETS Fl flit) (upper s)) as [pr|]; intros [= <-]; [apply apply_all_spec; assumption|split; [reflexivity|exact Hid]].
  - intros [= <-]. split; [reflexivity|]. destruct d as [| | | |s|]; try exact Hid.
    destruct s as [|ch s]; [exact Hid|discriminate].
Qed.
Lemma update_spec (h : store) p c h' r : p <> c -> c < length h -> unique_keys (sget h p) ->
  update_config Fl is_zero flit h p c = Some (h', r) ->
  r = c /\ length h' = length h /\ (forall b, b <> c -> sget h' b = sget h b) /\
  (forall k, dget (sget h' c) k = merged Fl (sget h p) (selected_preset Fl flit (sget h p)) (sget h c) k).
Proof.
  intros Hpc Hc HU. unfold update_config.
  destruct (apply_device Fl is_zero flit h p c) as [h1|] eqn:E; [|discriminate]. intros [= <- <-].
  destruct (apply_device_spec _ _ _ _ Hc E) as [L1 G1].
  destruct (apply_known_spec (sget h1 p) h1 c ltac:(lia)) as [L2 G2].
  assert (Ep : sget h1 p = sget h p). { rewrite G1. destruct (Nat.eqb_spec c p); [congruence|reflexivity]. }
  split; [reflexivity|]. split; [lia|]. split.
  - intros b Hb. rewrite G2. destruct (Nat.eqb_spec c b) as [|Hn]; [congruence|]. rewrite G1. destruct (Nat.eqb_spec c b); [congruence|reflexivity].
  - intros k. rewrite G2, Nat.eqb_refl, Ep, (upd_known_get _ HU). rewrite G1, Nat.eqb_refl.
    set (pr := selected_preset Fl flit (sget h p)). unfold merged, dmem.
    rewrite (upd_all_get pr (selected_unique _)). destruct (dget pr k), (dget (sget h c) k); reflexivity.
Qed.
Lemma update_raises (h : store) p c : update_config Fl is_zero flit h p c = None <->
  exists d, dget (sget h p) "device" = Some d /\ truthy Fl is_zero d = true /\ forall s, d <> VStr Fl s.
Proof.
  unfold update_config, apply_device. destruct (dget (sget h p) "device") as [d|]; [|split; [discriminate|intros [d [H _]]; discriminate]].
  destruct (truthy Fl is_zero d) eqn:Et; [|split; [discriminate|intros [d' [[= <-] [H _]]]; congruence]].
  destruct d as [| | | |s|]; try (split; [intros _; eexists; split; [reflexivity|split; [exact Et|discriminate]]|reflexivity]).
  split; [destruct (dget (DEVICE_PRESETS Fl flit) (upper s)); discriminate|]. intros [d' [[= <-] [_ H]]]. destruct (H s eq_refl).
Qed.
(** existing keys keep their position, new keys (from the preset) follow *)
Lemma upd_all_keys kvs : forall cfg, exists ext, dkeys (upd_all cfg kvs) = dkeys cfg ++ ext.
Proof.
  induction kvs as [|[k v] kvs IH]; intros cfg; [exists []; rewrite app_nil_r; reflexivity|].
  unfold upd_all in *. cbn [fold_left fst snd]. destruct (IH (dset cfg k v)) as [ext E]. rewrite E, dkeys_dset.
  destruct (dmem cfg k); [exists ext; reflexivity|exists (k :: ext); rewrite <- app_assoc; reflexivity].
Qed.
End Config.

Section Sweep.
Variable Fl : Type.
Variable pyeq : val Fl -> val Fl -> bool.
Variable T : Type.
Notation val := (val Fl). Notation h5 := (h5 Fl T).
Lemma unexpected_nil ref (cfg : dict val) allowed : unexpected_diffs Fl pyeq ref cfg allowed = [] <->
  forall k v, In (k, v) cfg -> In k allowed \/ agrees Fl pyeq ref k v.
Proof.
  unfold unexpected_diffs, dkeys. induction cfg as [|[k v] cfg IH]; cbn [filter map].
  - split; [intros _ k v []|reflexivity].
  - cbn [fst snd].
    assert (Ha : existsb (String.eqb k) allowed = true <-> In k allowed).
    { rewrite existsb_exists. split; [intros [x [Hx E]]; apply String.eqb_eq in E; congruence|]. intros H. exists k. split; [exact H|apply String.eqb_refl]. }
    assert (Hg : agrees Fl pyeq ref k v <-> (match dget ref k with Some w => negb (pyeq w v) | None => true end) = false).
    { unfold agrees. destruct (dget ref k) as [w|].
      - rewrite negb_false_iff. split; [intros [w' [[= <-] H]]; exact H|intros H; exists w; auto].
      - split; [intros [w [H _]]; discriminate|discriminate]. }
    split.
    + intros H k' v' [[= <- <-]|Hi].
      * destruct (match dget ref k with Some w => _ | None => _ end) eqn:E; [|right; apply Hg; reflexivity].
        cbn [filter fst] in H. destruct (existsb (String.eqb k) allowed) eqn:E2; [left; apply Ha; reflexivity|]. discriminate.
      * apply IH; [|exact Hi]. destruct (match dget ref k with Some w => _ | None => _ end); [|exact H].
        cbn [filter fst] in H. destruct (negb _); [discriminate|exact H].
    + intros H. assert (H' : forall k v, In (k, v) cfg -> In k allowed \/ agrees Fl pyeq ref k v) by (intros; apply H; right; assumption).
      apply IH in H'. destruct (H k v (or_introl eq_refl)) as [H1|H1].
      * apply Ha in H1. destruct (match dget ref k with Some w => _ | None => _ end); [|exact H'].
        cbn [filter fst]. rewrite H1. exact H'.
      * apply Hg in H1. rewrite H1. exact H'.
Qed.
(** what one directory entry contributes *)
Definition contribution ref QOI allowed (e : string * option h5) : list (dict val * T * list Z) :=
  if endswith (fst e) ".h5" then
    match read_file Fl T QOI (snd e) with
    | Some x => match unexpected_diffs Fl pyeq ref (fst (fst x)) allowed with [] => [x] | _ => [] end
    | None => []
    end
  else [].
Lemma load_files_spec ref QOI allowed dir : load_files Fl pyeq T ref QOI allowed dir =
  let l := flat_map (contribution ref QOI allowed) dir in
  (map (fun x => fst (fst x)) l, map (fun x => snd (fst x)) l, map snd l).
Proof.
  induction dir as [|[fname f] dir IH]; [reflexivity|]. cbn [load_files flat_map]. rewrite IH. cbv zeta.
  set (R := flat_map _ dir). clearbody R. unfold contribution. cbn [fst snd].
  destruct (endswith fname ".h5"); cbn [negb]; [|reflexivity].
  destruct (read_file Fl T QOI f) as [[[cfg q] l]|]; cbn [fst snd]; [|reflexivity].
  destruct (unexpected_diffs Fl pyeq ref cfg allowed); reflexivity.
Qed.
End Sweep.
