(** Aliasing of the lists of default_trace_dict. *)
From Coq Require Import String List Arith Bool Lia.
From Verif Require Import Model.PyHeap Spec.HeapSpec.
Import ListNotations.
Open Scope string_scope.
Open Scope list_scope.

Section Proofs.
Variables (V : Type) (none : V) (sub : V -> V -> option V).
Notation exec1 := (exec1 V sub). Notation exec := (exec V sub).
Notation defaults := (default_entries V none).

Lemma put_length h a (o : obj V) : a < length h -> length (put V h a o) = length h.
Proof. intros H. unfold put. rewrite app_length, firstn_length. cbn [length]. rewrite skipn_length. lia. Qed.
Lemma put_same h a (o : obj V) : a < length h -> nth_error (put V h a o) a = Some o.
Proof.
  intros H. unfold put. rewrite nth_error_app2; rewrite firstn_length; [|lia].
  replace (a - Nat.min a (length h)) with 0 by lia. reflexivity.
Qed.
Lemma put_other h a b (o : obj V) : a < length h -> a <> b -> nth_error (put V h a o) b = nth_error h b.
Proof.
  intros H Hn. unfold put. destruct (Nat.lt_ge_cases b a) as [Hb|Hb].
  - rewrite nth_error_app1 by (rewrite firstn_length; lia).
    rewrite <- (firstn_skipn a h) at 2. rewrite nth_error_app1 by (rewrite firstn_length; lia). reflexivity.
  - rewrite nth_error_app2 by (rewrite firstn_length; lia). rewrite firstn_length.
    replace (b - Nat.min a (length h)) with (S (b - S a)) by lia. cbn [nth_error].
    rewrite <- (firstn_skipn (S a) h) at 2. rewrite nth_error_app2 by (rewrite firstn_length; lia).
    rewrite firstn_length. f_equal. lia.
Qed.
Lemma aget_aset d k k' (x : item V) : aget V (aset V d k x) k' = if String.eqb k' k then Some x else aget V d k'.
Proof.
  induction d as [|[k0 y] d IH]; cbn; [destruct (String.eqb k' k); reflexivity|].
  destruct (String.eqb_spec k k0) as [->|Hk]; cbn.
  - destruct (String.eqb k' k0); reflexivity.
  - rewrite IH. destruct (String.eqb_spec k' k0) as [->|]; [|reflexivity].
    destruct (String.eqb_spec k0 k) as [->|]; [congruence|reflexivity].
Qed.

(** the list object of key k *)
Definition aof (k : string) : nat := match aget V defaults k with Some (Ref a) => a | _ => 0 end.
Lemma aof_inj k k' : In k list_keys -> In k' list_keys -> aof k = aof k' -> k = k'.
Proof.
  intros H H'. cbn in H, H'.
  repeat (destruct H as [<-|H]; [repeat (destruct H' as [<-|H']; [vm_compute; congruence|]); destruct H'|]); destruct H.
Qed.
Lemma aof_lt k : aof k < 12.
Proof.
  unfold aof. cbn. repeat (match goal with |- context [if ?b then _ else _] => destruct b end; [lia|]). lia.
Qed.
Lemma aof_def k : In k list_keys -> aget V defaults k = Some (Ref (aof k)).
Proof. intros H. cbn in H. repeat (destruct H as [<-|H]; [reflexivity|]). destruct H. Qed.

Definition lists_ok (L : string -> list V) (h : heap V) : Prop :=
  forall k, In k list_keys -> nth_error h (aof k) = Some (OList (L k)).
Definition dict_ok (h : heap V) (d : nat) : Prop :=
  12 <= d /\ exists es, nth_error h d = Some (ODict es) /\ forall k, In k list_keys -> aget V es k = Some (Ref (aof k)).
Definition Inv (L : string -> list V) (s : heap V * list nat) : Prop :=
  lists_ok L (fst s) /\ forall d, In d (snd s) -> dict_ok (fst s) d.
Definition upd (L : string -> list V) (k : string) (v : V) : string -> list V :=
  fun k' => if String.eqb k' k then L k' ++ [v] else L k'.

Lemma nth_lt h a (o : obj V) : nth_error h a = Some o -> a < length h.
Proof. intros H. apply nth_error_Some. congruence. Qed.

Lemma append_item_ok L h hs d k v h' : Inv L (h, hs) -> In d hs -> In k list_keys ->
  append_item V h d k v = Some h' -> Inv (upd L k v) (h', hs).
Proof.
  intros [HL HD] Hd Hk. destruct (HD d Hd) as [Hd12 [es [Hes Hkeys]]]. cbn [fst snd] in *.
  unfold append_item, getitem. rewrite Hes, (Hkeys k Hk), (HL k Hk). intros [= <-].
  pose proof (nth_lt _ _ _ (HL k Hk)) as Hlt. split; cbn [fst snd].
  - intros k' Hk'. unfold upd. destruct (String.eqb_spec k' k) as [->|Hn].
    + rewrite put_same by assumption. reflexivity.
    + rewrite put_other; [apply HL; assumption|assumption|]. intros E. apply Hn. symmetry. apply aof_inj; assumption.
  - intros d' Hd'. destruct (HD d' Hd') as [H12 [es' [Hes' Hk']]]. split; [assumption|]. exists es'. split; [|assumption].
    rewrite put_other; [assumption|assumption|]. pose proof (aof_lt k). lia.
Qed.
Lemma append_items_ok kvs : forall L h hs d h', Inv L (h, hs) -> In d hs -> (forall k, In k (map fst kvs) -> In k list_keys) ->
  append_items V h d kvs = Some h' -> Inv (fun k => L k ++ map snd (filter (fun kv => String.eqb k (fst kv)) kvs)) (h', hs).
Proof.
  induction kvs as [|[k v] kvs IH]; intros L h hs d h' HI Hd Hk H; cbn in H.
  - injection H as <-. destruct HI as [HL HD]. split; [|exact HD]. intros k Hk'. rewrite (HL k Hk'). cbn. rewrite app_nil_r. reflexivity.
  - destruct (append_item V h d k v) as [h1|] eqn:E; [|discriminate].
    pose proof (append_item_ok _ _ _ _ _ _ _ HI Hd (Hk k (or_introl eq_refl)) E) as HI1.
    pose proof (IH _ _ _ _ _ HI1 Hd (fun k' H' => Hk k' (or_intror H')) H) as [HL HD].
    split; [|exact HD]. intros k' Hk'. rewrite (HL k' Hk'). unfold upd. cbn.
    destruct (String.eqb k' k); cbn; [rewrite <- app_assoc|]; reflexivity.
Qed.
Lemma Inv_ext L L' s : (forall k, In k list_keys -> L k = L' k) -> Inv L s -> Inv L' s.
Proof. intros HE [HL HD]. split; [|exact HD]. intros k Hk. rewrite (HL k Hk), HE by assumption. reflexivity. Qed.

Lemma combine_fst_incl {A B} (l : list A) : forall (m : list B) k, In k (map fst (combine l m)) -> In k l.
Proof. induction l as [|a l IH]; intros [|b m] k H; cbn in *; try tauto. destruct H as [->|H]; [left; reflexivity|right; eauto]. Qed.
Lemma filter_absent (k : string) (kvs : list (string * V)) : ~ In k (map fst kvs) -> filter (fun kv => String.eqb k (fst kv)) kvs = [].
Proof.
  induction kvs as [|[k' v] kvs IH]; intros H; cbn; [reflexivity|].
  destruct (String.eqb_spec k k') as [->|]; [cbn in H; tauto|]. apply IH. cbn in H. tauto.
Qed.

Definition extend (L : string -> list V) (c : call V) (w : V) : string -> list V :=
  fun k => if String.eqb k "wall_time_trace" then L k ++ [w] else L k ++ call_value V c k.
Lemma append_ok L h hs d c h' : Inv L (h, hs) -> In d hs -> append_to_trace_dict V sub h d c = Some h' ->
  exists w, Inv (extend L c w) (h', hs).
Proof.
  intros HI Hd. unfold append_to_trace_dict.
  destruct (negb _); [discriminate|].
  destruct (append_items V h d _) as [h1|] eqn:E1; [|discriminate].
  destruct (getitem V h1 d "start_time") as [[st|]|]; try discriminate.
  destruct (sub (end_time V c) st) as [w|]; [|discriminate].
  destruct (append_item V h1 d "wall_time_trace" w) as [h2|] eqn:E2; [|discriminate].
  assert (Hin : forall k, In k (map fst (combine plain_keys (values V c))) -> In k list_keys).
  { intros k Hk. apply combine_fst_incl in Hk. right. right. exact Hk. }
  pose proof (append_items_ok _ _ _ _ _ _ HI Hd Hin E1) as HI1.
  assert (Hw : In "wall_time_trace" list_keys) by (left; reflexivity).
  pose proof (append_item_ok _ _ _ _ _ _ _ HI1 Hd Hw E2) as HI2.
  assert (HB : In "B_fields" list_keys) by (right; left; reflexivity).
  assert (FA : forall k0, ~ In k0 plain_keys -> filter (fun kv : string * V => String.eqb k0 (fst kv)) (combine plain_keys (values V c)) = []).
  { intros k0 H0. apply filter_absent. intros H. apply H0. eapply combine_fst_incl; eassumption. }
  assert (FB : filter (fun kv : string * V => String.eqb "B_fields" (fst kv)) (combine plain_keys (values V c)) = []).
  { apply FA. cbn. intuition discriminate. }
  assert (FW : filter (fun kv : string * V => String.eqb "wall_time_trace" (fst kv)) (combine plain_keys (values V c)) = []).
  { apply FA. cbn. intuition discriminate. }
  assert (NE : String.eqb "B_fields" "wall_time_trace" = false) by reflexivity.
  assert (NE' : String.eqb "wall_time_trace" "B_fields" = false) by reflexivity.
  intros E3. exists w. destruct (B_arg V c) as [b|] eqn:EB.
  - pose proof (append_item_ok _ _ _ _ _ _ _ HI2 Hd HB E3) as HI3. eapply Inv_ext; [|exact HI3].
    intros k Hk. unfold upd, extend, call_value. rewrite EB.
    destruct (String.eqb_spec k "B_fields") as [->|Hn].
    + rewrite NE, FB. cbn. rewrite app_nil_r. reflexivity.
    + destruct (String.eqb_spec k "wall_time_trace") as [->|].
      * rewrite FW. cbn. rewrite app_nil_r. reflexivity.
      * reflexivity.
  - injection E3 as <-. eapply Inv_ext; [|exact HI2].
    intros k Hk. unfold upd, extend, call_value. rewrite EB.
    destruct (String.eqb_spec k "wall_time_trace") as [->|Hn].
    + rewrite FW. cbn. rewrite app_nil_r. reflexivity.
    + destruct (String.eqb_spec k "B_fields") as [->|].
      * rewrite FB. reflexivity.
      * reflexivity.
Qed.

Lemma exec1_ok L s o s' : Inv L s -> (forall i k v, o = SetItem i k v -> ~ In k list_keys) -> exec1 s o = Some s' ->
  exists L', Inv L' s' /\ forall k, In k recorded_keys -> L' k = L k ++ appended V [o] k.
Proof.
  intros HI Hset. destruct s as [h hs]. destruct o as [i|i k v|i c]; cbn [PyHeap.exec1 exec1].
  - destruct (nth_error hs i) as [d|] eqn:Ei; [|discriminate]. unfold copy.
    destruct HI as [HL HD]. pose proof (HD d (nth_error_In _ _ Ei)) as [H12 [es [Hes Hk]]]. cbn [fst snd] in *.
    rewrite Hes. intros [= <-]. exists L. split; [|intros; cbn; rewrite app_nil_r; reflexivity].
    assert (Hold : forall a o, nth_error h a = Some o -> nth_error (h ++ [ODict es]) a = Some o).
    { intros a o Ho. rewrite nth_error_app1; [exact Ho|]. eapply nth_lt; eassumption. }
    split; cbn [fst snd].
    + intros k Hk'. apply Hold, HL, Hk'.
    + intros d' Hd'. apply in_app_iff in Hd'. destruct Hd' as [Hd'|[<-|[]]].
      * destruct (HD d' Hd') as [H12' [es' [He' Hk'']]]. split; [assumption|]. exists es'. split; [apply Hold; exact He'|assumption].
      * pose proof (nth_lt _ _ _ Hes). split; [lia|]. exists es. split; [|assumption].
        rewrite nth_error_app2 by lia. rewrite Nat.sub_diag. reflexivity.
  - destruct (nth_error hs i) as [d|] eqn:Ei; [|discriminate]. unfold setitem.
    destruct HI as [HL HD]. pose proof (HD d (nth_error_In _ _ Ei)) as [H12 [es [Hes Hk]]]. cbn [fst snd] in *.
    rewrite Hes. intros [= <-]. pose proof (nth_lt _ _ _ Hes) as Hlt.
    exists L. split; [|intros; cbn; rewrite app_nil_r; reflexivity]. split; cbn [fst snd].
    + intros k' Hk'. pose proof (aof_lt k'). rewrite put_other by lia. apply HL, Hk'.
    + intros d' Hd'. destruct (HD d' Hd') as [H12' [es' [He' Hk'']]]. split; [assumption|].
      destruct (Nat.eq_dec d d') as [<-|Hn].
      * rewrite Hes in He'. injection He' as <-. exists (aset V es k (Imm v)). split; [apply put_same; assumption|].
        intros k' Hk'. rewrite aget_aset. destruct (String.eqb_spec k' k) as [->|]; [|auto].
        exfalso. exact (Hset i k v eq_refl Hk').
      * exists es'. rewrite put_other by assumption. split; assumption.
  - destruct (nth_error hs i) as [d|] eqn:Ei; [|discriminate].
    destruct (append_to_trace_dict V sub h d c) as [h'|] eqn:E; [|discriminate]. intros [= <-].
    destruct (append_ok _ _ _ _ _ _ HI (nth_error_In _ _ Ei) E) as [w Hw].
    exists (extend L c w). split; [exact Hw|]. intros k Hk. unfold extend.
    destruct (String.eqb_spec k "wall_time_trace") as [->|].
    + exfalso. cbn in Hk. repeat (destruct Hk as [Hk|Hk]; [discriminate|]). exact Hk.
    + cbn. rewrite app_nil_r. reflexivity.
Qed.
Lemma exec_ok p : forall L s s', Inv L s -> rebinds_no_list V p -> exec s p = Some s' ->
  exists L', Inv L' s' /\ forall k, In k recorded_keys -> L' k = L k ++ appended V p k.
Proof.
  induction p as [|o p IH]; intros L s s' HI Hs E; cbn in E.
  - injection E as <-. exists L. split; [exact HI|]. intros. cbn. rewrite app_nil_r. reflexivity.
  - destruct (exec1 s o) as [s1|] eqn:E1; [|discriminate].
    assert (Ho : forall i k v, o = SetItem i k v -> ~ In k list_keys).
    { intros i k v ->. exact (Hs i k v (or_introl eq_refl)). }
    destruct (exec1_ok _ _ _ _ HI Ho E1) as [L1 [HI1 HL1]].
    destruct (IH _ _ _ HI1 (fun i k v H => Hs i k v (or_intror H)) E) as [L2 [HI2 HL2]].
    exists L2. split; [exact HI2|]. intros k Hk. rewrite HL2, HL1 by assumption. rewrite <- app_assoc. f_equal.
    unfold appended. cbn. rewrite app_nil_r. reflexivity.
Qed.
Lemma start_ok : Inv (fun _ => []) (start V none).
Proof.
  split.
  - intros k Hk. cbn in Hk. repeat (destruct Hk as [<-|Hk]; [reflexivity|]). destruct Hk.
  - intros d [<-|[]]. split; [unfold default_trace_dict; lia|]. exists defaults. split; [reflexivity|apply aof_def].
Qed.
Lemma shared p s : exec (start V none) p = Some s -> rebinds_no_list V p ->
  forall i k, i < length (snd s) -> In k recorded_keys -> read_list V s i k = Some (appended V p k).
Proof.
  intros E Hs i k Hi Hk. destruct (exec_ok _ _ _ _ start_ok Hs E) as [L [[HL HD] HLk]].
  unfold read_list. destruct (nth_error (snd s) i) as [d|] eqn:Ed; [|apply nth_error_None in Ed; lia].
  destruct (HD d (nth_error_In _ _ Ed)) as [_ [es [Hes Hkeys]]].
  assert (Hk' : In k list_keys) by (right; exact Hk).
  unfold getitem. rewrite Hes, (Hkeys k Hk'), (HL k Hk'), (HLk k Hk). reflexivity.
Qed.

(** handles are distinct objects *)
Lemma NoDup_app_snoc (l : list nat) a : NoDup l -> ~ In a l -> NoDup (l ++ [a]).
Proof.
  intros H Ha. induction l as [|b l IH]; cbn; [repeat constructor; tauto|].
  inversion H; subst. constructor.
  - rewrite in_app_iff. cbn in *. intuition congruence.
  - apply IH; [assumption|]. intros Hi. apply Ha. right. assumption.
Qed.
Lemma append_item_dicts h d k v h' : append_item V h d k v = Some h' -> length h' = length h /\
  forall a es, nth_error h a = Some (ODict es) <-> nth_error h' a = Some (ODict es).
Proof.
  unfold append_item. destruct (getitem V h d k) as [[|a]|]; try discriminate.
  destruct (nth_error h a) as [[|l]|] eqn:Ea; try discriminate. intros [= <-].
  pose proof (nth_lt _ _ _ Ea) as Hlt. split; [apply put_length; assumption|]. intros b es.
  destruct (Nat.eq_dec a b) as [<-|Hn].
  - rewrite put_same by assumption. rewrite Ea. split; discriminate.
  - rewrite put_other by assumption. reflexivity.
Qed.
Lemma append_items_dicts kvs : forall h d h', append_items V h d kvs = Some h' -> length h' = length h /\
  forall a es, nth_error h a = Some (ODict es) <-> nth_error h' a = Some (ODict es).
Proof.
  induction kvs as [|[k v] kvs IH]; intros h d h' H; cbn in H.
  - injection H as <-. split; [reflexivity|]. intros. reflexivity.
  - destruct (append_item V h d k v) as [h1|] eqn:E; [|discriminate].
    destruct (append_item_dicts _ _ _ _ _ E) as [L1 H1]. destruct (IH _ _ _ H) as [L2 H2].
    split; [congruence|]. intros a es. rewrite H1. apply H2.
Qed.
Lemma append_dicts h d c h' : append_to_trace_dict V sub h d c = Some h' -> length h' = length h /\
  forall a es, nth_error h a = Some (ODict es) <-> nth_error h' a = Some (ODict es).
Proof.
  unfold append_to_trace_dict. destruct (negb _); [discriminate|].
  destruct (append_items V h d _) as [h1|] eqn:E1; [|discriminate].
  destruct (getitem V h1 d "start_time") as [[st|]|]; try discriminate.
  destruct (sub (end_time V c) st) as [w|]; [|discriminate].
  destruct (append_item V h1 d "wall_time_trace" w) as [h2|] eqn:E2; [|discriminate].
  destruct (append_items_dicts _ _ _ _ E1) as [L1 H1]. destruct (append_item_dicts _ _ _ _ _ E2) as [L2 H2].
  destruct (B_arg V c) as [b|].
  - intros E3. destruct (append_item_dicts _ _ _ _ _ E3) as [L3 H3]. split; [congruence|].
    intros a es. rewrite H1, H2. apply H3.
  - intros [= <-]. split; [congruence|]. intros a es. rewrite H1. apply H2.
Qed.
Definition HInv (s : heap V * list nat) : Prop := NoDup (snd s) /\ forall d, In d (snd s) -> d < length (fst s).
Lemma exec1_handles s o s' : HInv s -> exec1 s o = Some s' -> HInv s'.
Proof.
  intros [HN HL]. destruct s as [h hs]. destruct o as [i|i k v|i c]; cbn [PyHeap.exec1 exec1 fst snd] in *;
    destruct (nth_error hs i) as [d|]; try discriminate.
  - unfold copy. destruct (nth_error h d) as [[es|]|]; try discriminate. intros [= <-]. split; cbn [fst snd].
    + apply NoDup_app_snoc; [assumption|]. intros H. specialize (HL _ H). lia.
    + intros d' Hd. rewrite app_length. cbn. apply in_app_iff in Hd. destruct Hd as [Hd|[<-|[]]]; [specialize (HL _ Hd)|]; lia.
  - unfold setitem. destruct (nth_error h d) as [[es|]|] eqn:Ed; try discriminate. intros [= <-]. split; cbn [fst snd]; [assumption|].
    intros d' Hd. rewrite put_length; [auto|eapply nth_lt; eassumption].
  - destruct (append_to_trace_dict V sub h d c) as [h'|] eqn:E; [|discriminate]. intros [= <-]. split; cbn [fst snd]; [assumption|].
    intros d' Hd. destruct (append_dicts _ _ _ _ E) as [-> _]. auto.
Qed.
Lemma exec_handles p : forall s s', HInv s -> exec s p = Some s' -> HInv s'.
Proof.
  induction p as [|o p IH]; intros s s' HI E; cbn in E; [injection E as <-; assumption|].
  destruct (exec1 s o) as [s1|] eqn:E1; [|discriminate]. eapply IH; [|eassumption]. eapply exec1_handles; eassumption.
Qed.
Lemma private p s i k v s' : exec (start V none) p = Some s -> exec1 s (SetItem i k v) = Some s' ->
  read_item V s' i k = Some (Imm v) /\
  (forall j k', j < length (snd s) -> j <> i \/ k' <> k -> read_item V s' j k' = read_item V s j k').
Proof.
  intros Ep E.
  assert (HI : HInv s). { eapply exec_handles; [|eassumption]. split; cbn; [repeat constructor; tauto|]. intros d [<-|[]]. cbn. unfold default_trace_dict. lia. }
  destruct HI as [HN HL]. destruct s as [h hs]. cbn [PyHeap.exec1 exec1 fst snd] in *.
  destruct (nth_error hs i) as [d|] eqn:Ei; [|discriminate]. unfold setitem in E.
  destruct (nth_error h d) as [[es|]|] eqn:Ed; try discriminate. injection E as <-.
  pose proof (nth_lt _ _ _ Ed) as Hlt. unfold read_item. cbn [fst snd]. split.
  - rewrite Ei. unfold getitem. rewrite put_same by assumption. rewrite aget_aset, String.eqb_refl. reflexivity.
  - intros j k' Hj Hne. destruct (nth_error hs j) as [dj|] eqn:Ej; [|reflexivity]. unfold getitem.
    destruct (Nat.eq_dec d dj) as [<-|Hd].
    + rewrite put_same by assumption. rewrite Ed, aget_aset.
      destruct (String.eqb_spec k' k) as [->|]; [|reflexivity].
      destruct Hne as [Hne|]; [|congruence]. exfalso. apply Hne.
      apply (proj1 (NoDup_nth_error hs) HN); [assumption|congruence].
    + rewrite put_other by assumption. reflexivity.
Qed.
(** before start_time is set, every append raises *)
Lemma no_start p s i c : (forall e, sub e none = None) -> exec (start V none) p = Some s ->
  (forall j v, ~ In (SetItem j "start_time" v) p) -> exec1 s (Append i c) = None.
Proof.
  intros Hs Ep Hn.
  assert (G : forall d es, nth_error (fst s) d = Some (ODict es) -> aget V es "start_time" = Some (Imm none)).
  { assert (G0 : forall d es, nth_error (fst (start V none)) d = Some (ODict es) -> aget V es "start_time" = Some (Imm none)).
    { intros d es. cbn [fst start]. unfold initial_heap. intros H.
      do 13 (destruct d as [|d]; cbn in H; [try discriminate; injection H as <-; reflexivity|]). destruct d; discriminate. }
    revert G0 Ep. generalize (start V none). induction p as [|o p IH]; intros s0 G0 Ep; cbn in Ep; [injection Ep as <-; assumption|].
    destruct (exec1 s0 o) as [s1|] eqn:E1; [|discriminate].
    refine (IH (fun j v H => Hn j v (or_intror H)) s1 _ Ep).
    destruct s0 as [h hs]. cbn [fst snd] in *.
    destruct o as [j|j k v|j c']; cbn [PyHeap.exec1 exec1] in E1; destruct (nth_error hs j) as [d0|]; try discriminate.
    - unfold copy in E1. destruct (nth_error h d0) as [[es0|]|] eqn:Ed; try discriminate. injection E1 as <-. cbn [fst].
      intros d es H. destruct (Nat.lt_ge_cases d (length h)) as [Hl|Hl].
      + rewrite nth_error_app1 in H by assumption. eauto.
      + rewrite nth_error_app2 in H by assumption. destruct (d - length h) as [|m]; cbn in H; [injection H as <-; eauto|destruct m; discriminate].
    - unfold setitem in E1. destruct (nth_error h d0) as [[es0|]|] eqn:Ed; try discriminate. injection E1 as <-. cbn [fst].
      pose proof (nth_lt _ _ _ Ed) as Hlt.
      intros d es H. destruct (Nat.eq_dec d0 d) as [<-|Hd].
      + rewrite put_same in H by assumption. injection H as <-. rewrite aget_aset.
        destruct (String.eqb_spec "start_time" k) as [<-|]; [|eauto]. exfalso. exact (Hn j v (or_introl eq_refl)).
      + rewrite put_other in H by assumption. eauto.
    - destruct (append_to_trace_dict V sub h d0 c') as [h'|] eqn:E; [|discriminate]. injection E1 as <-. cbn [fst].
      intros d es H. destruct (append_dicts _ _ _ _ E) as [_ HD]. apply HD in H. eauto. }
  destruct s as [h hs]. cbn [PyHeap.exec1 exec1 fst snd] in *. destruct (nth_error hs i) as [d|]; [|reflexivity].
  unfold append_to_trace_dict. destruct (negb _); [reflexivity|].
  destruct (append_items V h d _) as [h1|] eqn:E1; [|reflexivity].
  destruct (getitem V h1 d "start_time") as [[st|]|] eqn:Eg; try reflexivity.
  unfold getitem in Eg. destruct (nth_error h1 d) as [[es|]|] eqn:Ed; try discriminate.
  destruct (append_items_dicts _ _ _ _ E1) as [_ HD]. apply HD in Ed. rewrite (G _ _ Ed) in Eg. injection Eg as <-.
  rewrite Hs. reflexivity.
Qed.
End Proofs.
