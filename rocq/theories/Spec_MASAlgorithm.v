(** Specification for the merge-and-shrink algorithm. *)
From Coq Require Import List Arith Permutation.
From Verif Require Import Outcome Spec_Task Model_PQ Model_MAS Model_MASRun Model_MASAlgorithm.
Import ListNotations.

(** Random choices give two different positions. *)
Definition picks_two_groups (pick : nat -> list (list nat) -> nat * nat) : Prop :=
  forall n gs, 2 <= length gs -> fst (pick n gs) < length gs /\ snd (pick n gs) < length gs /\ fst (pick n gs) <> snd (pick n gs).

(** Which positions hold a factor; what merging two of them makes of that. *)
Definition occupied (F : fts) : list bool := map (fun f => match f with Some _ => true | None => false end) (F_factors F).
Definition merged (l : list bool) (i j : nat) : list bool := upd (upd l i false) j false ++ [true].

Section STRATEGIES.
Variable P : pqueue.
Variable q0 : PQ P.
Variable ord : list (nat * list nat) -> list (nat * list nat).
Variable O : mas_options.
Variable t : task.
Variable MS : merge_strategy.
(** What a merge strategy may rely on: the distances that the options ask for are there, and all
    factors are solvable. *)
Definition usable (F : fts) : Prop :=
  (exists e, built P q0 ord (o_ci O) (o_cg O) t e F) /\ forall i f, get_factor F i = Ok f -> is_solvable f = Ok true.
(** A strategy is started on the atomic factors, and each of its merges is carried out before it is
    asked for the next one; [h]: the merges so far. *)
Inductive strategy_run : list (nat * nat) -> ms_state MS -> fts -> Prop :=
| run_start : forall F m, usable F -> occupied F = repeat true (length (t_vars t)) -> ms_start MS F = Ok m -> strategy_run [] m F
| run_next : forall h m F n i j m' F', strategy_run h m F -> 2 <= num_active F -> ms_get_next MS n m F = Ok (i, j, m') ->
    usable F' -> occupied F' = merged (occupied F) i j -> strategy_run (h ++ [(i, j)]) m' F'.
(** It always names two different factors as long as there are two. *)
Definition good_merges : Prop :=
  (forall F, usable F -> occupied F = repeat true (length (t_vars t)) -> exists m, ms_start MS F = Ok m) /\
  (forall h m F n, strategy_run h m F -> 2 <= num_active F ->
     exists i j m', ms_get_next MS n m F = Ok (i, j, m') /\ i <> j /\ (exists f, get_factor F i = Ok f) /\ exists g, get_factor F j = Ok g).
End STRATEGIES.

(** Options as the constructor and the label reduction leave them (C70_limits, C69). *)
Definition options_ok (t : task) (O : mas_options) : Prop :=
  1 <= o_before_merge O <= o_max_states O /\
  exists o shuffle, (forall l, Permutation (shuffle l) l) /\ o_order O = system_order o shuffle (length (t_vars t)).

(** The number of states of the task. *)
Definition number_of_states (t : task) : nat := fold_right (fun x p => vdom x * p) 1 (t_vars t).
