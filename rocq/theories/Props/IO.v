(** Property theorems about command lines, configurations and sweeps (C50-C52).
    Fl: floats; pyfloat: float(s); max_digits: the interpreter's limit on int(s); pyeq: python ==. *)
From Coq Require Import String Ascii List Arith NArith ZArith Bool Lia.
From Verif Require Import Model.IO Spec.IOSpec Proof.IOProofs.
Import ListNotations.
Open Scope string_scope.
Open Scope list_scope.

Section C50.
Variable Fl : Type.
Variable pyfloat : string -> option Fl.
Variable max_digits : option nat.
Notation parse_args := (parse_args Fl pyfloat max_digits).

(** ** C50 parse_args: each key maps to the typed value of its last key=value argument;
    arguments without '=' have no effect; the value is everything after the first '=' *)
Theorem C50_dictionary : forall kvs d, parse_args kvs = Some d -> forall key x,
  dget d key = Some x <-> exists v, last_arg kvs key v /\ denotes Fl pyfloat max_digits v x.
Proof.
  intros kvs d E key x. rewrite (parse_lookup _ _ _ _ _ _ E key x). split.
  - intros [[v [H1 H2]]|[_ H]]; [|discriminate]. exists v. split; [exact H1|]. apply convert_denotes, H2.
  - intros [v [H1 H2]]. left. exists v. split; [exact H1|]. apply convert_denotes, H2.
Qed.
(** the conversion is a function, and unique keys *)
Theorem C50_deterministic : forall v x y, denotes Fl pyfloat max_digits v x -> denotes Fl pyfloat max_digits v y -> x = y.
Proof. intros v x y H1 H2. apply convert_denotes in H1, H2. congruence. Qed.
Theorem C50_unique_keys : forall kvs d, parse_args kvs = Some d -> unique_keys d.
Proof. intros kvs d E. eapply parse_unique; [|exact E]. constructor. Qed.
(** it raises exactly when some value consists of digits, among which a superscript, or of more
    digits than the interpreter converts *)
Theorem C50_raises_iff : forall kvs, parse_args kvs = None <->
  exists key v kv, In kv kvs /\ key_value key v kv /\ bad_int max_digits v.
Proof.
  intros kvs. unfold IO.parse_args. rewrite parse_raises. split; intros [key [v [kv [H1 [H2 H3]]]]]; exists key, v, kv;
  (split; [exact H1|split; [exact H2|apply (convert_raises Fl pyfloat); exact H3]]).
Qed.
(** only unsigned decimal integers become integers: a value with any other character does not
    (so n=-3 and n=+3 give a float or a string) *)
Theorem C50_int_only_digits : forall v n, denotes Fl pyfloat max_digits v (VInt _ n) ->
  all_chars decimal_char v /\ (0 <= n)%Z.
Proof. intros v n H. inversion H; subst. split; [destruct H1; assumption|lia]. Qed.
(** the claim that any argument list parses is false *)
Theorem C50_total_refuted : parse_args ["n_r=8"; String "x" (String "=" (String (ascii_of_nat 178) ""))] = None.
Proof. destruct max_digits as [[|m]|]; reflexivity. Qed.
End C50.
Example C50_nonvacuous : parse_args nat (fun s => if String.eqb s "1e-3" then Some 7 else None) (Some 4300)
    ["n_r=16"; "skipped"; "precond=TRUE"; "dt=1e-3"; "run_name=a=b"; "n_r=012"]
  = Some [("n_r", VInt _ 12); ("precond", VBool _ true); ("dt", VFloat _ 7); ("run_name", VStr _ "a=b")].
Proof. reflexivity. Qed.
Print Assumptions C50_dictionary.
Print Assumptions C50_deterministic.
Print Assumptions C50_unique_keys.
Print Assumptions C50_raises_iff.
Print Assumptions C50_int_only_digits.
Print Assumptions C50_total_refuted.

Section C51.
Variable Fl : Type.
Variable is_zero : Fl -> bool.
Variable flit : Z -> nat -> Fl.
Notation update_config := (update_config Fl is_zero flit).
Notation sget := (sget Fl).

(** ** C51 update_config on any store of dictionaries: it returns the configuration object it
    was given, changes no other dictionary, and afterwards the configuration has its old keys
    and those of the selected preset, with values taken from the parameters, then from the
    preset, then from before; parameters with other keys are dropped *)
Theorem C51_update : forall h p c h' r, p <> c -> c < length h -> unique_keys (sget h p) ->
  update_config h p c = Some (h', r) ->
  r = c /\ length h' = length h /\ (forall b, b <> c -> sget h' b = sget h b) /\
  (forall k, dget (sget h' c) k = merged Fl (sget h p) (selected_preset Fl flit (sget h p)) (sget h c) k).
Proof. exact (update_spec Fl is_zero flit). Qed.
(** it raises (AttributeError) iff the device is truthy but not a string, e.g. device=1 *)
Theorem C51_raises_iff : forall h p c, update_config h p c = None <->
  exists d, dget (sget h p) "device" = Some d /\ truthy Fl is_zero d = true /\ forall s, d <> VStr Fl s.
Proof. exact (update_raises Fl is_zero flit). Qed.
(** applying the same parameters twice changes no value a second time *)
Theorem C51_idempotent : forall h p c h1 r1 h2 r2, p <> c -> c < length h -> unique_keys (sget h p) ->
  update_config h p c = Some (h1, r1) -> update_config h1 p c = Some (h2, r2) ->
  forall k, dget (sget h2 c) k = dget (sget h1 c) k.
Proof.
  intros h p c h1 r1 h2 r2 Hpc Hc HU E1 E2 k.
  destruct (C51_update _ _ _ _ _ Hpc Hc HU E1) as [_ [L1 [F1 G1]]].
  pose proof (F1 p Hpc) as Ep.
  destruct (C51_update h1 p c h2 r2 Hpc ltac:(lia) ltac:(rewrite Ep; exact HU) E2) as [_ [_ [_ G2]]].
  rewrite G2, Ep. set (pr := selected_preset Fl flit (sget h p)) in *. unfold merged at 1. unfold dmem.
  rewrite !G1. unfold merged, dmem.
  destruct (dget pr k), (dget (sget h c) k), (dget (sget h p) k); reflexivity.
Qed.
(** choosing a device does not choose its geometry: for every preset, with every parameters that
    do not name boundary_type, the geometry used afterwards is the one the configuration had *)
Theorem C51_device_sets_geometry_refuted : forall h p c h' r, p <> c -> c < length h -> unique_keys (sget h p) ->
  dget (sget h p) "boundary_type" = None -> update_config h p c = Some (h', r) ->
  boundary Fl (sget h' c) = boundary Fl (sget h c).
Proof.
  intros h p c h' r Hpc Hc HU Hb E. destruct (C51_update _ _ _ _ _ Hpc Hc HU E) as [_ [_ [_ G]]].
  unfold boundary. rewrite G. unfold merged. rewrite Hb.
  assert (Hs : dget (selected_preset Fl flit (sget h p)) "boundary_type" = None).
  { unfold selected_preset. destruct (dget (sget h p) "device") as [[| | | |s|]|]; try reflexivity.
    unfold DEVICE_PRESETS. cbn [dget]. repeat (match goal with |- context [if ?b then _ else _] => destruct b end; [reflexivity|]). reflexivity. }
  unfold dmem. rewrite Hs. destruct (dget (sget h c) "boundary_type") as [[]|]; reflexivity.
Qed.
(** device=ITER on the defaults: tokamak parameters and type, rotating-ellipse geometry *)
Theorem C51_iter_is_not_a_tokamak : exists h',
  update_config [[("device", VStr _ "iter")]; DEFAULT_CONFIG Fl flit] 0 1 = Some (h', 1) /\
  dget (sget h' 1) "type" = Some (VStr _ "tokamak") /\ dget (sget h' 1) "eps" = Some (VFloat _ (flit 32 2)) /\
  dget (sget h' 1) "n_zeta" = Some (VInt _ 1) /\
  boundary Fl (sget h' 1) = Some "rotating_ellipse".
Proof. eexists. split; [reflexivity|]. repeat split; reflexivity. Qed.
(** results depend on the session: a parameter ignored by a first call takes effect after a
    call naming a device, on the same configuration object *)
Theorem C51_history_independent_refuted : exists (params dev : dict (val Fl)) h1 h2 h3,
  update_config [params; DEFAULT_CONFIG Fl flit] 0 1 = Some (h1, 1) /\ dget (sget h1 1) "type" = None /\
  update_config [params; DEFAULT_CONFIG Fl flit; dev] 2 1 = Some (h2, 1) /\
  update_config h2 0 1 = Some (h3, 1) /\ dget (sget h3 1) "type" = Some (VStr _ "helix").
Proof.
  exists [("type", VStr _ "helix")], [("device", VStr _ "ITER")].
  do 3 eexists. repeat (split; [reflexivity|]). reflexivity.
Qed.
(** the device name is compared up to the case of its ASCII letters *)
Theorem C51_case : forall i c d, String.get i "abcdefghijklmnopqrstuvwxyz" = Some c -> String.get i "ABCDEFGHIJKLMNOPQRSTUVWXYZ" = Some d ->
  upper_char c = d /\ upper_char d = d.
Proof.
  intros i c d. do 26 (destruct i as [|i]; [cbn; intros E1 E2; injection E1 as <-; injection E2 as <-; split; reflexivity|]).
  cbn. destruct i; discriminate.
Qed.
(** and a name that is no preset up to case selects none *)
Theorem C51_names : forall s, dget (DEVICE_PRESETS Fl flit) (upper s) <> None <->
  In (upper s) ["ITER"; "NSTX"; "SPHERO"; "ROT_ELL"; "HELIX"].
Proof.
  intros s. generalize (upper s). clear s. intros s. unfold DEVICE_PRESETS. cbn [dget In].
  repeat (match goal with |- context [String.eqb s ?k] => destruct (String.eqb_spec s k) as [->|?] end;
          [split; [intros _; tauto | intros _; discriminate]|]).
  split; [congruence|]. intuition congruence.
Qed.
(** the tokamak presets are axisymmetric: whatever configuration they are applied to, and in whatever case
    the name is written, the toroidal direction gets one constant basis function (n_zeta = 1, p_zeta = 0) unless the
    parameters say otherwise; the aspect ratio, elongation and triangularity are set as well *)
Theorem C51_tokamak_axisymmetric : forall h p c h' r s, p <> c -> c < length h -> unique_keys (sget h p) ->
  dget (sget h p) "device" = Some (VStr _ s) -> In (upper s) ["ITER"; "NSTX"; "SPHERO"] ->
  update_config h p c = Some (h', r) ->
  dget (sget h' c) "n_zeta" = Some (match dget (sget h p) "n_zeta" with Some v => v | None => VInt _ 1 end) /\
  dget (sget h' c) "p_zeta" = Some (match dget (sget h p) "p_zeta" with Some v => v | None => VInt _ 0 end) /\
  forall k, In k ["eps"; "kappa"; "delta"; "q_star"; "type"] -> dget (sget h' c) k <> None.
Proof.
  intros h p c h' r s Hpc Hc HU Hd Hn E. destruct (C51_update _ _ _ _ _ Hpc Hc HU E) as [_ [_ [_ G]]].
  rewrite !G. unfold merged, selected_preset. rewrite Hd.
  assert (Hk : forall k, In k ["eps"; "kappa"; "delta"; "q_star"; "type"] -> dget (sget h' c) k <> None).
  { intros k Hk. rewrite G. unfold merged, selected_preset, dmem. rewrite Hd. cbn [In] in Hn, Hk.
    destruct Hn as [Hn|[Hn|[Hn|[]]]]; rewrite <- Hn; destruct Hk as [Hk|[Hk|[Hk|[Hk|[Hk|[]]]]]]; rewrite <- Hk; cbn;
    rewrite Bool.orb_true_r; match goal with |- context [dget (sget h p) ?x] => destruct (dget (sget h p) x) end; discriminate. }
  split; [|split; [|exact Hk]]; cbn [In] in Hn; unfold dmem;
  destruct Hn as [Hn|[Hn|[Hn|[]]]]; rewrite <- Hn; cbn;
  rewrite Bool.orb_true_r; match goal with |- context [dget (sget h p) ?x] => destruct (dget (sget h p) x) end; reflexivity.
Qed.
(** solovev.py builds a geometry exactly for the three known boundary types *)
Theorem C51_boundary : forall cfg s, boundary Fl cfg = Some s <->
  dget cfg "boundary_type" = Some (VStr _ s) /\ In s ["tokamak"; "helix"; "rotating_ellipse"].
Proof.
  intros cfg s. unfold boundary. destruct (dget cfg "boundary_type") as [[| | | |t|]|]; split; try (intros [H _]; discriminate); try discriminate.
  - destruct (existsb _ _) eqn:E; [|discriminate]. intros H; injection H as <-. split; [reflexivity|].
    apply existsb_exists in E. destruct E as [x [Hx E]]. apply String.eqb_eq in E. subst x. exact Hx.
  - intros [H1 H2]. injection H1 as ->. assert (E : existsb (String.eqb s) ["tokamak"; "helix"; "rotating_ellipse"] = true).
    { apply existsb_exists. exists s. split; [exact H2 | apply String.eqb_refl]. }
    rewrite E. reflexivity.
Qed.
End C51.
Print Assumptions C51_update.
Print Assumptions C51_case.
Print Assumptions C51_names.
Print Assumptions C51_tokamak_axisymmetric.
Print Assumptions C51_boundary.
Print Assumptions C51_raises_iff.
Print Assumptions C51_idempotent.
Print Assumptions C51_device_sets_geometry_refuted.
Print Assumptions C51_iter_is_not_a_tokamak.
Print Assumptions C51_history_independent_refuted.
Example C51_nonvacuous : exists h', update_config nat (Nat.eqb 0) (fun z e => Z.to_nat z + e)
   [[("device", VStr _ "Helix"); ("n_r", VInt _ 16); ("typo", VInt _ 1); ("m_helix", VInt _ 4)]; DEFAULT_CONFIG _ (fun z e => Z.to_nat z + e)] 0 1 = Some (h', 1) /\
  dget (sget nat h' 1) "n_r" = Some (VInt _ 16) /\ dget (sget nat h' 1) "m_helix" = Some (VInt _ 4) /\
  dget (sget nat h' 1) "typo" = None /\ dget (sget nat h' 1) "kappa" = Some (VFloat _ 18) /\ dget (sget nat h' 1) "maxit" = Some (VInt _ 5000).
Proof. eexists. split; [reflexivity|]. repeat split; reflexivity. Qed.

Section C52.
Variable Fl : Type.
Variable pyeq : val Fl -> val Fl -> bool.
Variable T : Type.
Notation load_sweep := (load_sweep Fl pyeq T).

(** ** C52 load_sweep returns three aligned lists: in directory order, one entry per readable
    .h5 file each of whose configuration keys is a sweep parameter or run_name, or has the
    same value in the reference *)
Theorem C52_selects : forall dir ref_file QOI sweep cfgs qs its, load_sweep dir ref_file QOI sweep = Some (cfgs, qs, its) ->
  exists ref_h5 ref, ref_file = Some ref_h5 /\ attrs _ _ ref_h5 = Some ref /\
  exists picked : list (string * h5 Fl T * (dict (val Fl) * T * list Z)),
    cfgs = map (fun e => fst (fst (snd e))) picked /\ qs = map (fun e => snd (fst (snd e))) picked /\ its = map (fun e => snd (snd e)) picked /\
    (forall e, In e picked -> In (fst (fst e), Some (snd (fst e))) dir) /\
    (forall fname f cfg q l, In ((fname, f), (cfg, q, l)) picked <->
       In (fname, Some f) dir /\ endswith fname ".h5" = true /\ read_file Fl T QOI (Some f) = Some (cfg, q, l) /\
       forall k v, In (k, v) cfg -> k = "run_name" \/ In k sweep \/ agrees Fl pyeq ref k v).
Proof.
  intros dir ref_file QOI sweep cfgs qs its. unfold IO.load_sweep.
  destruct ref_file as [rf|]; [|discriminate]. destruct (attrs Fl T rf) as [ref|] eqn:Er; [|discriminate].
  intros [= E]. rewrite load_files_spec in E. cbv zeta in E. injection E as <- <- <-.
  exists rf, ref. split; [reflexivity|]. split; [exact Er|].
  set (allowed := "run_name" :: sweep).
  exists (flat_map (fun e => match snd e with
     | Some f => map (fun x => ((fst e, f), x)) (contribution Fl pyeq T ref QOI allowed e)
     | None => [] end) dir).
  assert (M : forall (B : Type) (g : dict (val Fl) * T * list Z -> B),
     map g (flat_map (contribution Fl pyeq T ref QOI allowed) dir) =
     map (fun e => g (snd e)) (flat_map (fun e => match snd e with
     | Some f => map (fun x => ((fst e, f), x)) (contribution Fl pyeq T ref QOI allowed e)
     | None => [] end) dir)).
  { intros B g. induction dir as [|[fn [f|]] dir IH]; cbn [flat_map]; [reflexivity| |].
    - rewrite !map_app, IH. f_equal. cbn [fst snd]. rewrite map_map. reflexivity.
    - rewrite !map_app, IH. unfold contribution. cbn. destruct (endswith fn ".h5"); reflexivity. }
  split; [apply M|]. split; [apply M|]. split; [apply M|].
  assert (C : forall fname f cfg q l, In (cfg, q, l) (contribution Fl pyeq T ref QOI allowed (fname, Some f)) <->
     endswith fname ".h5" = true /\ read_file Fl T QOI (Some f) = Some (cfg, q, l) /\
       forall k v, In (k, v) cfg -> k = "run_name" \/ In k sweep \/ agrees Fl pyeq ref k v).
  { intros fname f cfg q l. unfold contribution. cbn [fst snd].
    destruct (endswith fname ".h5"); [|cbn; intuition discriminate].
    destruct (read_file Fl T QOI (Some f)) as [[[c0 q0] l0]|]; [|cbn; intuition discriminate]. cbn [fst].
    pose proof (unexpected_nil Fl pyeq ref c0 allowed) as U.
    destruct (unexpected_diffs Fl pyeq ref c0 allowed) as [|z zs].
    - cbn [In]. split.
      + intros [[= <- <- <-]|[]]. split; [reflexivity|]. split; [reflexivity|]. intros k v Hk.
        destruct (proj1 U eq_refl k v Hk) as [[<-|H]|H]; auto.
      + intros [_ [[= <- <- <-] _]]. left. reflexivity.
    - cbn [In]. split; [intros []|]. intros [_ [[= -> -> ->] H]].
      assert (z :: zs = []) by (apply U; intros k v Hk; destruct (H k v Hk) as [->|[H'|H']]; [left; left; reflexivity|left; right; exact H'|right; exact H']).
      discriminate. }
  split.
  - intros e He. apply in_flat_map in He. destruct He as [[fn [f|]] [Hd He]]; [|destruct He]. cbn [fst snd] in He.
    apply in_map_iff in He. destruct He as [x [<- _]]. exact Hd.
  - intros fname f cfg q l. rewrite in_flat_map. split.
    + intros [[fn [f0|]] [Hd He]]; [|destruct He]. cbn [fst snd] in He. apply in_map_iff in He.
      destruct He as [x [[= -> -> ->] Hx]]. split; [exact Hd|]. apply C. exact Hx.
    + intros [Hd H]. exists (fname, Some f). split; [exact Hd|]. cbn [fst snd]. apply in_map_iff.
      exists (cfg, q, l). split; [reflexivity|]. apply C. exact H.
Qed.
(** it raises only if the reference cannot be opened or has no config group; unreadable files
    are skipped *)
Theorem C52_raises_iff : forall dir ref_file QOI sweep, load_sweep dir ref_file QOI sweep = None <->
  (ref_file = None \/ exists f, ref_file = Some f /\ attrs _ _ f = None).
Proof.
  intros dir [f|] QOI sweep; unfold IO.load_sweep; [|split; auto].
  destruct (attrs Fl T f) eqn:E.
  - split; [discriminate|]. intros [H|[f' [[= <-] H]]]; congruence.
  - split; [|reflexivity]. intros _. right. exists f. auto.
Qed.
(** the configuration part of a file written by save_trace_dict_to_hdf5: every entry that is
    neither callable nor None, so of two runs whose serialisable entries differ only in sweep
    parameters each is loaded with the other as reference *)
Theorem C52_saved_runs : forall (c1 c2 : dict (val Fl)) sweep QOI q m s l,
  unique_keys c1 -> unique_keys c2 ->
  dget c2 "maxit" = Some (VInt _ m) -> dget c2 "save_every" = Some (VInt _ s) -> arange m s = Some l ->
  (forall k v, In (k, v) (saved_config Fl c2) -> k <> "run_name" -> ~ In k sweep -> exists w, In (k, w) (saved_config Fl c1) /\ pyeq w v = true) ->
  load_sweep [("b.h5", Some (H5 _ _ [(QOI, q)] (Some (saved_config Fl c2))))] (Some (H5 _ _ [] (Some (saved_config Fl c1)))) QOI sweep
  = Some ([saved_config Fl c2], [q], [l]).
Proof.
  intros c1 c2 sweep QOI q m s l U1 U2 Hm Hs Hl H. unfold IO.load_sweep. cbn [attrs].
  assert (Hget : forall c k v, unique_keys c -> dget c k = Some v -> (match v with VCallable _ | VNone _ => False | _ => True end) -> dget (saved_config Fl c) k = Some v).
  { intros c k v U Hg Hv. assert (Us : unique_keys (saved_config Fl c)).
    { unfold unique_keys, saved_config, dkeys in *. induction c as [|[k0 v0] c IH]; [constructor|]. cbn [map fst] in U. inversion U; subst.
      cbn [filter snd]. assert (IH' : NoDup (map fst (filter (fun kv : string * val Fl => match snd kv with VNone _ | VCallable _ => false | _ => true end) c))).
      { clear -H3. induction c as [|[a b] c IH]; [constructor|]. cbn [map fst] in H3. inversion H3; subst. cbn [filter snd].
        destruct (match b with VNone _ | VCallable _ => false | _ => true end); [|auto]. cbn [map fst]. constructor; [|auto].
        intros Hi. apply H1. apply in_map_iff in Hi. destruct Hi as [x [<- Hx]]. apply filter_In in Hx. apply in_map, Hx. }
      destruct (match v0 with VNone _ | VCallable _ => false | _ => true end); [|exact IH']. cbn [map fst]. constructor; [|exact IH'].
      intros Hi. apply H2. apply in_map_iff in Hi. destruct Hi as [x [<- Hx]]. apply filter_In in Hx. apply in_map, Hx. }
    apply dget_unique; [exact Us|]. apply filter_In. split; [apply dget_in, Hg|]. cbn. destruct v; try reflexivity; destruct Hv. }
  cbn [load_files endswith]. change (negb (endswith "b.h5" ".h5")) with false. cbn [negb].
  unfold read_file. cbn [datasets attrs dget]. rewrite String.eqb_refl.
  rewrite (Hget _ _ _ U2 Hm I), (Hget _ _ _ U2 Hs I), Hl.
  assert (HN : unexpected_diffs Fl pyeq (saved_config Fl c1) (saved_config Fl c2) ("run_name" :: sweep) = []).
  { apply unexpected_nil. intros k v Hk. destruct (string_dec k "run_name") as [->|Hr]; [left; left; reflexivity|].
    destruct (in_dec string_dec k sweep) as [Hi|Hi]; [left; right; exact Hi|]. right.
    destruct (H k v Hk Hr Hi) as [w [Hw Hp]]. exists w. split; [|exact Hp].
    apply filter_In in Hw. destruct Hw as [Hw1 Hw2]. apply Hget; [exact U1|apply dget_unique; assumption|].
    destruct w; try exact I; discriminate. }
  rewrite HN. reflexivity.
Qed.
(** "differs only in sweep_params" is not what is checked: a file lacking reference keys that
    are not sweep parameters is loaded (here the only shared keys are maxit and save_every) *)
Theorem C52_missing_keys_refuted : forall (q : T), (forall z, pyeq (VInt _ z) (VInt _ z) = true) ->
  load_sweep [("a.h5", Some (H5 _ _ [("force_trace", q)] (Some [("maxit", VInt _ 10); ("save_every", VInt _ 5)])))]
    (Some (H5 _ _ [] (Some [("maxit", VInt _ 10); ("save_every", VInt _ 5); ("kappa", VInt _ 2); ("gamma", VInt _ 1)]))) "force_trace" ["eps"]
  = Some ([[("maxit", VInt _ 10); ("save_every", VInt _ 5)]], [q], [[0; 5]%Z]).
Proof.
  intros q H. unfold IO.load_sweep. cbn [attrs load_files]. change (negb (endswith "a.h5" ".h5")) with false. cbv iota.
  unfold read_file, unexpected_diffs. cbn. rewrite !H. reflexivity.
Qed.
(** a key that only the other file has is a difference, so the relation is not symmetric:
    with the roles exchanged the file is skipped *)
Theorem C52_symmetric_refuted : forall (q : T),
  load_sweep [("a.h5", Some (H5 _ _ [("force_trace", q)] (Some [("maxit", VInt _ 10); ("save_every", VInt _ 5); ("kappa", VInt _ 2)])))]
    (Some (H5 _ _ [] (Some [("maxit", VInt _ 10); ("save_every", VInt _ 5)]))) "force_trace" ["eps"]
  = Some ([], [], []).
Proof.
  intros q. unfold IO.load_sweep. cbn [attrs load_files]. change (negb (endswith "a.h5" ".h5")) with false. cbv iota.
  unfold read_file, unexpected_diffs. cbn. destruct (pyeq (VInt _ 10) (VInt _ 10)), (pyeq (VInt _ 5) (VInt _ 5)); reflexivity.
Qed.
End C52.
Print Assumptions C52_selects.
Print Assumptions C52_raises_iff.
Print Assumptions C52_saved_runs.
Print Assumptions C52_missing_keys_refuted.
Print Assumptions C52_symmetric_refuted.
Example C52_nonvacuous :
  load_sweep nat (fun v w => match v, w with VInt _ a, VInt _ b => Z.eqb a b | VStr _ a, VStr _ b => String.eqb a b | _, _ => false end) nat
    [("x.h5", Some (H5 _ _ [("f", 1)] (Some [("maxit", VInt _ 12); ("save_every", VInt _ 5); ("run_name", VStr _ "x"); ("eps", VInt _ 3)])));
     ("y.txt", None); ("z.h5", None);
     ("w.h5", Some (H5 _ _ [("f", 2)] (Some [("maxit", VInt _ 10); ("save_every", VInt _ 5); ("run_name", VStr _ "w"); ("eps", VInt _ 2)])))]
    (Some (H5 _ _ [] (Some [("maxit", VInt _ 12); ("save_every", VInt _ 5); ("run_name", VStr _ "r"); ("eps", VInt _ 2)]))) "f" ["eps"]
  = Some ([[("maxit", VInt _ 12); ("save_every", VInt _ 5); ("run_name", VStr _ "x"); ("eps", VInt _ 3)]], [1], [[0; 5; 10]%Z]).
Proof. reflexivity. Qed.
