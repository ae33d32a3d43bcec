(** Property theorems about trace dictionaries (C46).  V: the values recorded; sub is
    end_time - start_time (None: it raises). *)
From Coq Require Import String List Arith Bool Lia.
From Verif Require Import Model.PyHeap Spec.HeapSpec Proof.HeapProofs.
Import ListNotations.
Open Scope string_scope.
Open Scope list_scope.

Section C46.
Variables (V : Type) (none : V) (sub : V -> V -> option V).
Notation exec1 := (exec1 V sub). Notation exec := (exec V sub). Notation start := (start V none).

(** ** C46 In every program made of copies, item assignments (not of the recorded lists) and
    append_to_trace_dict calls, every handle (the module's default_trace_dict, or any copy)
    reads under every list key the values appended so far through all handles, in order *)
Theorem C46_lists_shared : forall p s, exec start p = Some s -> rebinds_no_list V p ->
  forall i k, i < length (snd s) -> In k recorded_keys -> read_list V s i k = Some (appended V p k).
Proof. exact (shared V none sub). Qed.

(** hence the second of two runs, each on its own copy made when it starts, ends with the
    traces of the first run followed by its own *)
Corollary C46_second_run : forall p1 p2 s, exec start (p1 ++ p2) = Some s -> rebinds_no_list V (p1 ++ p2) ->
  forall i k, i < length (snd s) -> In k recorded_keys ->
  read_list V s i k = Some (appended V p1 k ++ appended V p2 k).
Proof.
  intros p1 p2 s E H i k Hi Hk. rewrite (C46_lists_shared _ _ E H i k Hi Hk). unfold appended. rewrite flat_map_app. reflexivity.
Qed.

(** scalar entries are private: trace_dict[k] = v is seen through that handle only *)
Theorem C46_scalars_private : forall p s i k v s', exec start p = Some s -> exec1 s (SetItem i k v) = Some s' ->
  read_item V s' i k = Some (Imm v) /\
  (forall j k', j < length (snd s) -> j <> i \/ k' <> k -> read_item V s' j k' = read_item V s j k').
Proof. exact (private V none sub). Qed.

(** recording raises in a program that never assigns start_time (time minus None raises) *)
Theorem C46_needs_start_time : forall p s i c, (forall e, sub e none = None) -> exec start p = Some s ->
  (forall j v, ~ In (SetItem j "start_time" v) p) -> exec1 s (Append i c) = None.
Proof. exact (no_start V none sub). Qed.
(** assigning items never leaves a stale entry: in every reachable state every dictionary has each key once
    (what a loop over it, such as the one saving the traces, sees) *)
Definition all_unique (h : heap V) : Prop := forall a es, nth_error h a = Some (ODict es) -> NoDup (map fst es).
Lemma aset_keys d k (x : item V) k' : In k' (map fst (aset V d k x)) -> k' = k \/ In k' (map fst d).
Proof.
  induction d as [|[k0 y] d IH]; cbn; [intuition congruence|]. destruct (String.eqb_spec k k0) as [->|Hk]; cbn; [intuition congruence|].
  intros [H|H]; [right; left; exact H|]. destruct (IH H); intuition congruence.
Qed.
Lemma aset_unique d k (x : item V) : NoDup (map fst d) -> NoDup (map fst (aset V d k x)).
Proof.
  induction d as [|[k0 y] d IH]; cbn; [intros _; constructor; [intros []|constructor]|].
  inversion_clear 1 as [|? ? Hn Hd]. destruct (String.eqb_spec k k0) as [->|Hk]; cbn; [constructor; assumption|].
  constructor; [|apply IH, Hd]. intros Hi. destruct (aset_keys _ _ _ _ Hi); [congruence | contradiction].
Qed.
Lemma put_unique h a o : all_unique h -> a < length h -> (forall es, o = ODict es -> NoDup (map fst es)) -> all_unique (put V h a o).
Proof.
  intros H Ha Ho b es. destruct (Nat.eq_dec a b) as [<-|Hab].
  - rewrite put_same by exact Ha. intros E. injection E as E. apply Ho, E.
  - rewrite put_other by assumption. apply H.
Qed.
Lemma append_item_unique h d k v h' : all_unique h -> append_item V h d k v = Some h' -> all_unique h'.
Proof.
  intros H. unfold append_item. destruct (getitem V h d k) as [[|a]|]; try discriminate.
  destruct (nth_error h a) as [[|l]|] eqn:E; try discriminate. intros E'; injection E' as <-.
  apply put_unique; [exact H | apply nth_error_Some; rewrite E; discriminate | discriminate].
Qed.
Lemma append_items_unique kvs : forall h d h', all_unique h -> append_items V h d kvs = Some h' -> all_unique h'.
Proof.
  induction kvs as [|[k v] r IH]; intros h d h' H; cbn; [intros E; injection E as <-; exact H|].
  destruct (append_item V h d k v) as [h1|] eqn:E; [|discriminate]. apply IH. eapply append_item_unique; eassumption.
Qed.
Lemma exec1_unique s o s' : all_unique (fst s) -> exec1 s o = Some s' -> all_unique (fst s').
Proof.
  destruct s as [h hs]. intros H. destruct o as [i|i k v|i c]; cbn; destruct (nth_error hs i) as [d|]; try discriminate.
  - unfold copy. destruct (nth_error h d) as [[es|]|] eqn:E; try discriminate. intros E'; injection E' as <-. cbn.
    intros a es'. destruct (Nat.lt_ge_cases a (length h)) as [L|L].
    + rewrite nth_error_app1 by exact L. apply H.
    + rewrite nth_error_app2 by exact L. destruct (a - length h) as [|[|m]]; cbn; try discriminate.
      intros X; injection X as <-. eapply H; exact E.
  - unfold setitem. destruct (nth_error h d) as [[es|]|] eqn:E; try discriminate. intros E'; injection E' as <-. cbn.
    apply put_unique; [exact H | apply nth_error_Some; rewrite E; discriminate|].
    intros es' X; injection X as <-. apply aset_unique. eapply H; exact E.
  - destruct (append_to_trace_dict V sub h d c) as [h'|] eqn:E; [|discriminate]. intros E'; injection E' as <-. cbn.
    unfold append_to_trace_dict in E. destruct (negb _); [discriminate|].
    destruct (append_items V h d _) as [h1|] eqn:E1; [|discriminate]. apply append_items_unique in E1; [|exact H].
    destruct (getitem V h1 d "start_time") as [[st|]|]; try discriminate. destruct (sub _ st) as [w|]; [|discriminate].
    destruct (append_item V h1 d "wall_time_trace" w) as [h2|] eqn:E2; [|discriminate]. apply append_item_unique in E2; [|exact E1].
    destruct (B_arg V c); [eapply append_item_unique; eassumption | injection E as <-; exact E2].
Qed.
Theorem C46_unique_keys : forall p s, exec start p = Some s -> forall a es, nth_error (fst s) a = Some (ODict es) -> NoDup (map fst es).
Proof.
  assert (G : forall p s0 s, all_unique (fst s0) -> exec s0 p = Some s -> all_unique (fst s)).
  { induction p as [|o p IH]; intros s0 s H; cbn; [intros E; injection E as <-; exact H|].
    destruct (exec1 s0 o) as [s1|] eqn:E; [|discriminate]. apply IH. eapply exec1_unique; eassumption. }
  intros p s E. refine (G p start s _ E). intros a es. cbn.
  do 13 (destruct a as [|a]; [cbn; try discriminate|]); [|destruct a; discriminate].
  intros X; injection X as <-. cbn. repeat (constructor; [cbn; intuition discriminate|]). constructor.
Qed.
End C46.

(** two runs of the script pattern: copy, start_time, appends *)
Definition ex_sub (a b : option nat) : option (option nat) :=
  match a, b with Some x, Some y => Some (Some (x - y)) | _, _ => None end.
Definition ex_call (x : nat) : call (option nat) := Call _ (repeat (Some x) 9) (Some 10) (Some (Some x)).
Definition ex_run (i x : nat) : list (op (option nat)) :=
  [Copy 0; SetItem i "start_time" (Some 3); Append i (ex_call x); Append i (ex_call (S x))].
(** a fresh copy does not start with empty lists: the claim is false of the second run *)
Theorem C46_fresh_copy_empty_refuted : exists s,
  exec _ ex_sub (start _ None) (ex_run 1 5 ++ [Copy 0]) = Some s /\ rebinds_no_list _ (ex_run 1 5 ++ [Copy 0]) /\
  read_list _ s 2 "energy_trace" = Some [Some 5; Some 6].
Proof.
  eexists. split; [reflexivity|]. split; [|reflexivity].
  intros i k v H. cbn in H. destruct H as [H|[H|[H|[H|[H|[]]]]]]; try discriminate. injection H as <- <- <-.
  cbn. intuition discriminate.
Qed.
Example TraceDict_nonvacuous : exists s,
  exec _ ex_sub (start _ None) (ex_run 1 5 ++ ex_run 2 7) = Some s /\ rebinds_no_list _ (ex_run 1 5 ++ ex_run 2 7) /\
  length (snd s) = 3 /\ appended _ (ex_run 2 7) "energy_trace" = [Some 7; Some 8] /\
  read_list _ s 1 "B_fields" = Some [Some 5; Some 6; Some 7; Some 8].
Proof.
  eexists. split; [reflexivity|]. split; [|split; [|split]; reflexivity].
  intros i k v H. cbn in H. destruct H as [H|[H|[H|[H|[H|[H|[H|[H|[]]]]]]]]]; try discriminate; injection H as <- <- <-;
  cbn; intuition discriminate.
Qed.
Print Assumptions C46_lists_shared.
Print Assumptions C46_second_run.
Print Assumptions C46_scalars_private.
Print Assumptions C46_needs_start_time.
Print Assumptions C46_unique_keys.
Print Assumptions C46_fresh_copy_empty_refuted.
