(** Specification of exact label reduction. *)
From Verif Require Import Outcome Spec_Task Model_MAS Spec_FTS Model_MASRun Proof_MAS1.

(** Labels are locally equivalent in a system if they are in the same label group; they can be
    combined for system [i] if they are locally equivalent in all others. *)
Definition combinable (F : fts) (i a b : nat) : Prop := forall k f, k <> i -> get_factor F k = Ok f -> one_local_group (f_ts f) [a; b].

(** No two labels of the same cost can be combined for system [i]. *)
Definition irreducible (F : fts) (i : nat) : Prop :=
  forall f, get_factor F i = Ok f -> forall a b c, active (F_labels F) a c -> active (F_labels F) b c -> combinable F i a b -> a = b.
(** Only labels and transitions differ. *)
Definition same_shape (F F' : fts) : Prop :=
  length (F_factors F') = length (F_factors F) /\
  forall i, match nth_error (F_factors F) i, nth_error (F_factors F') i with
            | Some (Some f), Some (Some f') => f_rep f' = f_rep f /\ f_dist f' = f_dist f /\ ts_n (f_ts f') = ts_n (f_ts f) /\ ts_goals (f_ts f') = ts_goals (f_ts f) /\ ts_init (f_ts f') = ts_init (f_ts f)
            | Some None, Some None | None, None => True
            | _, _ => False
            end.
(** The transitions of the synchronized product of all systems, with their costs. *)
Definition same_product (F F' : fts) : Prop :=
  forall (x y : nat -> nat) c,
    (exists a, active (F_labels F) a c /\ forall i f, get_factor F i = Ok f -> l_step (the_lts (f_ts f)) a (x i) (y i)) <->
    (exists a, active (F_labels F') a c /\ forall i f, get_factor F' i = Ok f -> l_step (the_lts (f_ts f)) a (x i) (y i)).

