(** Limited pruning, src/search/pruning/limited_pruning.cc, on top of any pruning method.  The comparison of
    the pruning ratio (a double) with its minimum is an arbitrary test [low before after] of the two
    counters; [positive]: the minimum is greater than 0. *)
From Verif Require Import Outcome Spec_Task.
Import ListNotations.

(** The members of LimitedPruning and of PruningMethod (pruning_method.h). *)
Record limited := { lp_disabled : bool; lp_calls : nat; lp_before : nat; lp_after : nat }.
(** limited_pruning.cc:11-21 and pruning_method.cc:19-24. *)
Definition limited_start : limited := {| lp_disabled := false; lp_calls := 0; lp_before := 0; lp_after := 0 |}.
Section L.
Variable low : nat -> nat -> bool.
Variable positive : bool.
Variable expansions : nat.
Variable prune : state -> list nat -> outcome (list nat).
(** limited_pruning.cc:28-57 prune, and pruning_method.cc:26-46 prune_operators, which counts. *)
Definition limited_prune (l : limited) (s : state) (ops : list nat) : outcome (list nat * limited) :=
  let* (r, l') :=
    if lp_disabled l then Ok (ops, l)
    else
      let disabled := (lp_calls l =? expansions) && positive && low (lp_before l) (lp_after l) in
      let* r := prune s ops in
      Ok (r, {| lp_disabled := disabled; lp_calls := lp_calls l + 1; lp_before := lp_before l; lp_after := lp_after l |}) in
  Ok (r, {| lp_disabled := lp_disabled l'; lp_calls := lp_calls l'; lp_before := lp_before l' + length ops; lp_after := lp_after l' + length r |}).
(** The calls of a search, one for each state that it expands. *)
Fixpoint limited_calls (l : limited) (calls : list (state * list nat)) : outcome (list (list nat)) :=
  match calls with
  | [] => Ok []
  | (s, ops) :: rest =>
      let* (r, l) := limited_prune l s ops in
      let* rs := limited_calls l rest in
      Ok (r :: rs)
  end.
End L.
