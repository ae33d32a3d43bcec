(** Python dictionaries and lists as heap objects: default_trace_dict, dict.copy(),
    append_to_trace_dict and item assignment (mrx/utils.py), as used by the scripts. *)
From Coq Require Import String List Arith Bool Lia.
Import ListNotations.
Open Scope string_scope.
Open Scope list_scope.

Section Heap.
(** immediate values (numbers, arrays, None); [sub] is end_time - start_time, None when it raises *)
Variable V : Type.
Variable none : V.
Variable sub : V -> V -> option V.

(** an item of a dictionary: an immediate value or a reference to a list object *)
(* utils.py:323-337 *)
Inductive item := Imm (v : V) | Ref (a : nat).
(* utils.py:323-337 *)
Inductive obj := ODict (d : list (string * item)) | OList (l : list V).
(** addresses are positions; allocation appends *)
(* utils.py:323-337 and every dict.copy() *)
Definition heap := list obj.
(* utils.py:365-376 *)
Definition put (h : heap) (a : nat) (o : obj) : heap := firstn a h ++ o :: skipn (S a) h.

(** d[k], d[k] = v on insertion-ordered association lists with unique keys *)
(* utils.py:365-376 *)
Fixpoint aget (d : list (string * item)) (k : string) : option item :=
  match d with [] => None | (k', x) :: r => if String.eqb k k' then Some x else aget r k end.
(* scripts/config_scripts/solovev.py:55, 97, 109-111 *)
Fixpoint aset (d : list (string * item)) (k : string) (x : item) : list (string * item) :=
  match d with [] => [(k, x)] | (k', y) :: r => if String.eqb k k' then (k, x) :: r else (k', y) :: aset r k x end.
(* utils.py:365-376 *)
Definition getitem (h : heap) (d : nat) (k : string) : option item :=
  match nth_error h d with Some (ODict es) => aget es k | _ => None end.

(** the list keys appended to, in the order of utils.py:365-376; wall_time_trace and B_fields
    are treated separately there *)
Definition plain_keys : list string :=
  ["iterations"; "force_trace"; "energy_trace"; "helicity_trace"; "divergence_trace"; "velocity_trace";
   "picard_iterations"; "picard_errors"; "timesteps"].

(** default_trace_dict, utils.py:323-338, at module load: twelve fresh empty lists, then the dictionary *)
Definition default_entries : list (string * item) :=
  [("iterations", Ref 0); ("force_trace", Ref 1); ("energy_trace", Ref 2); ("helicity_trace", Ref 3);
   ("divergence_trace", Ref 4); ("picard_iterations", Ref 5); ("picard_errors", Ref 6); ("timesteps", Ref 7);
   ("velocity_trace", Ref 8); ("wall_time_trace", Ref 9); ("B_fields", Ref 10); ("p_fields", Ref 11);
   ("start_time", Imm none); ("end_time", Imm none)].
Definition default_trace_dict : nat := 12.
Definition initial_heap : heap := repeat (OList []) 12 ++ [ODict default_entries].

(** trace_dict[k].append(v); None: KeyError, or not a list *)
(* utils.py:365-376 *)
Definition append_item (h : heap) (d : nat) (k : string) (v : V) : option heap :=
  match getitem h d k with
  | Some (Ref a) => match nth_error h a with Some (OList l) => Some (put h a (OList (l ++ [v]))) | _ => None end
  | _ => None
  end.
(* utils.py:365-376 *)
Fixpoint append_items (h : heap) (d : nat) (kvs : list (string * V)) : option heap :=
  match kvs with
  | [] => Some h
  | (k, v) :: r => match append_item h d k v with Some h' => append_items h' d r | None => None end
  end.
(** the arguments of one call of append_to_trace_dict, utils.py:340-344 *)
Record call := Call { values : list V; end_time : V; B_arg : option V }.
(** append_to_trace_dict, utils.py:365-377 *)
Definition append_to_trace_dict (h : heap) (d : nat) (c : call) : option heap :=
  if negb (length (values c) =? length plain_keys)%nat then None else
  match append_items h d (combine plain_keys (values c)) with
  | None => None
  | Some h1 =>
      match getitem h1 d "start_time" with
      | Some (Imm st) =>
          match sub (end_time c) st with
          | Some w =>
              match append_item h1 d "wall_time_trace" w with
              | Some h2 => match B_arg c with Some b => append_item h2 d "B_fields" b | None => Some h2 end
              | None => None
              end
          | None => None
          end
      | _ => None
      end
  end.

(** default_trace_dict.copy() or trace_dict.copy() (scripts/config_scripts/solovev.py:54): a new
    dictionary with the same entries *)
Definition copy (h : heap) (d : nat) : option (heap * nat) :=
  match nth_error h d with Some (ODict es) => Some (h ++ [ODict es], length h) | _ => None end.
(** trace_dict[k] = v with an immediate v (solovev.py:55, 97, 111, 112, utils.py:497) *)
Definition setitem (h : heap) (d : nat) (k : string) (v : V) : option heap :=
  match nth_error h d with Some (ODict es) => Some (put h d (ODict (aset es k (Imm v)))) | _ => None end.

(** Programs: any sequence of such operations.  A handle is a variable bound to a trace
    dictionary: handle 0 is the module global default_trace_dict, each copy binds the next. *)
(* scripts/config_scripts/solovev.py:54-111 *)
Inductive op := Copy (i : nat) | SetItem (i : nat) (k : string) (v : V) | Append (i : nat) (c : call).
(* scripts/config_scripts/solovev.py:54-111 *)
Definition exec1 (s : heap * list nat) (o : op) : option (heap * list nat) :=
  let '(h, hs) := s in
  match o with
  | Copy i => match nth_error hs i with
              | Some d => match copy h d with Some (h', a) => Some (h', hs ++ [a]) | None => None end
              | None => None end
  | SetItem i k v => match nth_error hs i with
              | Some d => match setitem h d k v with Some h' => Some (h', hs) | None => None end
              | None => None end
  | Append i c => match nth_error hs i with
              | Some d => match append_to_trace_dict h d c with Some h' => Some (h', hs) | None => None end
              | None => None end
  end.
(* scripts/config_scripts/solovev.py:54-111 *)
Fixpoint exec (s : heap * list nat) (p : list op) : option (heap * list nat) :=
  match p with [] => Some s | o :: r => match exec1 s o with Some s' => exec s' r | None => None end end.
(* utils.py:323-337 *)
Definition start : heap * list nat := (initial_heap, [default_trace_dict]).

(** what a caller reads: list(trace_dict[k]) through handle i *)
(* utils.py:397-420 *)
Definition read_list (s : heap * list nat) (i : nat) (k : string) : option (list V) :=
  match nth_error (snd s) i with
  | Some d => match getitem (fst s) d k with
              | Some (Ref a) => match nth_error (fst s) a with Some (OList l) => Some l | _ => None end
              | _ => None end
  | None => None
  end.
(* utils.py:397-420 *)
Definition read_item (s : heap * list nat) (i : nat) (k : string) : option item :=
  match nth_error (snd s) i with Some d => getitem (fst s) d k | None => None end.
End Heap.
Arguments Imm {V}. Arguments Ref {V}. Arguments ODict {V}. Arguments OList {V}.
Arguments Copy {V}. Arguments SetItem {V}. Arguments Append {V}.
