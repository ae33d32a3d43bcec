(** What a program over trace dictionaries appends under each key, read off its text. *)
From Coq Require Import String List Arith.
From Verif Require Import Model.PyHeap.
Import ListNotations.
Open Scope string_scope.
Open Scope list_scope.

(** where the nine positional arguments (i, f, E, H, dvg, v, p_i, e, dt) of append_to_trace_dict
    belong: iteration number, force, energy, helicity, divergence, velocity, Picard iterations,
    Picard error, time step *)
Definition columns : list string :=
  ["iterations"; "force_trace"; "energy_trace"; "helicity_trace"; "divergence_trace"; "velocity_trace";
   "picard_iterations"; "picard_errors"; "timesteps"].

Section HeapSpec.
Variable V : Type.
(** value given by one call for key k: position in the argument list, or the B argument *)
Definition call_value (c : call V) (k : string) : list V :=
  if String.eqb k "B_fields" then match B_arg V c with Some b => [b] | None => [] end
  else map snd (filter (fun kv => String.eqb k (fst kv)) (combine columns (values V c))).
(** all values given for k, in program order, whatever dictionary they are appended to *)
Definition appended (p : list (op V)) (k : string) : list V :=
  flat_map (fun o => match o with Append _ c => call_value c k | _ => [] end) p.
(** the keys holding lists of recorded values (wall_time_trace apart) *)
Definition recorded_keys : list string := "B_fields" :: columns.
Definition list_keys : list string := "wall_time_trace" :: recorded_keys.
(** the program rebinds none of them *)
Definition rebinds_no_list (p : list (op V)) : Prop :=
  forall i k v, In (SetItem i k v) p -> ~ In k list_keys.
End HeapSpec.
