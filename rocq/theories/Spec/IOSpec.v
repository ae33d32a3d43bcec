(** Specification vocabulary for command-line parsing, configuration and sweeps. *)
From Coq Require Import String Ascii List Arith NArith ZArith Bool.
From Verif Require Import Model.IO.
Import ListNotations.
Open Scope string_scope.
Open Scope list_scope.

(** no '=' in the string *)
Fixpoint no_eq (s : string) : Prop :=
  match s with EmptyString => True | String c r => c <> "="%char /\ no_eq r end.
(** the argument key=v *)
Definition key_value (key v kv : string) : Prop := no_eq key /\ kv = (key ++ String "=" v)%string.
(** v is the value of the last argument for key *)
Definition last_arg (kvs : list string) (key v : string) : Prop :=
  exists l1 kv l2, kvs = l1 ++ kv :: l2 /\ key_value key v kv /\ forall v' kv', In kv' l2 -> ~ key_value key v' kv'.

(** characters 0-9 and their values *)
Definition decimal_char (c : ascii) : Prop := In c ["0"; "1"; "2"; "3"; "4"; "5"; "6"; "7"; "8"; "9"]%char.
Definition superscript (c : ascii) : Prop := In c [ascii_of_nat 178; ascii_of_nat 179; ascii_of_nat 185].
Fixpoint all_chars (P : ascii -> Prop) (s : string) : Prop :=
  match s with EmptyString => True | String c r => P c /\ all_chars P r end.
Fixpoint some_char (P : ascii -> Prop) (s : string) : Prop :=
  match s with EmptyString => False | String c r => P c \/ some_char P r end.
(** positional value of a digit string: the leading digit counts 10^(number of digits after it) *)
Fixpoint positional (s : string) : N :=
  match s with
  | EmptyString => 0
  | String c r => (N.of_nat (nat_of_ascii c - nat_of_ascii "0") * 10 ^ N.of_nat (String.length r) + positional r)%N
  end.
(** equal to a lower-case word up to the case of its letters *)
Fixpoint ci_eq (s word : string) : Prop :=
  match s, word with
  | EmptyString, EmptyString => True
  | String c r, String d w => (c = d \/ nat_of_ascii c + 32 = nat_of_ascii d) /\ ci_eq r w
  | _, _ => False
  end.

Section Spec.
Variable Fl : Type.
Variable pyfloat : string -> option Fl.
Variable max_digits : option nat.
Definition within_limit (v : string) : Prop :=
  match max_digits with Some m => String.length v <= m | None => True end.
Definition is_int (v : string) : Prop := v <> "" /\ all_chars decimal_char v.
Definition is_bool (v : string) : Prop := ci_eq v "true" \/ ci_eq v "false".
(** the value a string is converted to *)
Inductive denotes (v : string) : val Fl -> Prop :=
| den_int : is_int v -> within_limit v -> denotes v (VInt _ (Z.of_N (positional v)))
| den_true : ci_eq v "true" -> denotes v (VBool _ true)
| den_false : ci_eq v "false" -> denotes v (VBool _ false)
| den_float f : (v = "" \/ ~ all_chars (fun c => decimal_char c \/ superscript c) v) -> ~ is_bool v -> pyfloat v = Some f -> denotes v (VFloat _ f)
| den_str : (v = "" \/ ~ all_chars (fun c => decimal_char c \/ superscript c) v) -> ~ is_bool v -> pyfloat v = None -> denotes v (VStr _ v).
(** values on which int() raises *)
Definition bad_int (v : string) : Prop :=
  v <> "" /\ all_chars (fun c => decimal_char c \/ superscript c) v /\ (some_char superscript v \/ ~ within_limit v).

(** the preset selected by the value of the parameter device: the one whose name is the
    upper-cased value, if any *)
Variable flit : Z -> nat -> Fl.
Definition selected_preset (params : dict (val Fl)) : dict (val Fl) :=
  match dget params "device" with
  | Some (VStr _ s) => match dget (DEVICE_PRESETS Fl flit) (upper s) with Some pr => pr | None => [] end
  | _ => []
  end.
(** what every key of the configuration should hold afterwards *)
Definition merged (params preset cfg : dict (val Fl)) (k : string) : option (val Fl) :=
  if dmem cfg k || dmem preset k then
    match dget params k with Some v => Some v | None =>
    match dget preset k with Some v => Some v | None => dget cfg k end end
  else None.
(** python dictionaries have unique keys *)
Definition unique_keys {A} (d : dict A) : Prop := NoDup (dkeys d).

Variable pyeq : val Fl -> val Fl -> bool.
(** the configuration agrees with the reference on key k *)
Definition agrees (ref : dict (val Fl)) (k : string) (v : val Fl) : Prop :=
  exists w, dget ref k = Some w /\ pyeq w v = true.
End Spec.
