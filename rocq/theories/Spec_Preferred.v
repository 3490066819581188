(** Specification: executions that use only preferred operators. *)
From Coq Require Import List.
Import ListNotations.
From Verif Require Import Spec_Plan.

(** Every operator of the path is among the preferred ones of the state it is applied in. *)
Inductive preferred_path (T : TS) (preferred : ts_state T -> list nat) : ts_state T -> list nat -> Prop :=
| pr_nil : forall s, preferred_path T preferred s []
| pr_cons : forall s o os, In o (preferred s) ->
    preferred_path T preferred (ts_succ T s o) os -> preferred_path T preferred s (o :: os).
