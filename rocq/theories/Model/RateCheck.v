(** Model of the convergence-rate assertion at the end of scripts/interactive/test_gvec_stellarator.py.  The errors are
    an arbitrary list here; the projection they come from is modelled in Model/Geometry.v. *)
From Coq Require Import Reals List.
Import ListNotations.
Local Open Scope R_scope.

(** rates = -array([log(e[i]/e[i+1]) / log(ns[i]/ns[i+1]) for i in range(len(ns)-1)]); both lists have the same length *)
(* scripts/interactive/test_gvec_stellarator.py:203-204 *)
Fixpoint rates (es ns : list R) : list R :=
  match es, ns with
  | e0 :: ((e1 :: _) as es'), n0 :: ((n1 :: _) as ns') => - (ln (e0 / e1) / ln (n0 / n1)) :: rates es' ns'
  | _, _ => []
  end.
(** jnp.mean *)
(* scripts/interactive/test_gvec_stellarator.py:206 *)
Definition mean (l : list R) : R := fold_right Rplus 0 l / INR (length l).
(** the asserted condition *)
(* scripts/interactive/test_gvec_stellarator.py:206 *)
Definition rate_check (p : nat) (es ns : list R) : Prop := mean (rates es ns) >= INR p + 1.
