(** What the scripts store after run_relaxation_loop. *)
From mathcomp Require Import all_ssreflect all_algebra.
From Verif Require Import Model.Forms Model.DeRham Model.Geometry Model.Relaxation.
Set Implicit Arguments.
Unset Strict Implicit.
Unset Printing Implicit Defensive.
Local Open Scope ring_scope.

Section Script.
Variable F : realFieldType.
Variable sqrt_ : F -> F.
Variable S : drseq F.
Variable pinv : 'M[F]_(rk S K3).
Variable DF : nat -> mat3 F.
Variable lstsq : 'M[F]_(rk S K2) -> 'cV[F]_(rk S K2) -> 'cV[F]_(rk S K2).
Variable fault : rstate S -> option ('cV[F]_(rk S K2) * bool * num F * num F).
Variable cfg : config F.

(** the entries written by save_trace_dict_to_hdf5 that come from the final field *)
(* utils.py:397-420 *)
Record saved := Saved {
  s_trace : trace S; s_p_fields : seq 'cV[F]_(rk S K0); s_p_final : 'cV[F]_(rk S K0); s_B_final : 'cV[F]_(rk S K2) }.
(** scripts/config_scripts/solovev.py:91-112: state = State(...); run_relaxation_loop(CONFIG,
    trace_dict, state, diagnostics); B_hat = state.B_n; ...  (stell.py:108-131 and
    iter_islands.py:112-134 read state.B_n in the same way.)  The variable [state] of the script
    is still bound to the object passed in: out_caller_state.  pressure: force_free False. *)
Definition script (t : trace S) (state : rstate S) : saved :=
  let r := run_relaxation_loop sqrt_ pinv DF lstsq fault cfg t state in
  let state := out_caller_state r in
  let B_hat := B_n state in
  let p_fields := if c_save_B cfg then [seq pressure B | B <- B_fields (out_trace r)] else [::] in
  Saved (out_trace r) p_fields (pressure B_hat) B_hat.
End Script.
