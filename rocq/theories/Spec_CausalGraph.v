(** Specification: the causal graph of a task. *)
From Coq Require Import List Sorting.
From Verif Require Import Spec_Task.
Import ListNotations.

(** [v] is changed by something conditioned on [u]: an operator with a precondition on [u] and
    an effect on [v], a conditional effect on [v] with a condition on [u], or a rule for the
    derived variable [v] with [u] in its body. *)
Definition pre_eff (t : task) (u v : nat) : Prop :=
  u <> v /\
  ((exists op e d, In op (t_ops t) /\ In e (op_effs op) /\ fst (eff_fact e) = v /\
      (In (u, d) (op_pre op) \/ In (u, d) (eff_cond e))) \/
   (exists r d, In r (t_rules t) /\ fst (r_head r) = v /\ In (u, d) (r_body r))).

(** [u] and [v] are changed by the same operator. *)
Definition eff_eff (t : task) (u v : nat) : Prop :=
  u <> v /\
  exists op e e', In op (t_ops t) /\ In e (op_effs op) /\ In e' (op_effs op) /\
    fst (eff_fact e) = u /\ fst (eff_fact e') = v.

Definition causal_arc (t : task) (u v : nat) : Prop := pre_eff t u v \/ eff_eff t u v.

(** [l] lists exactly the numbers satisfying [P], in increasing order, without repetition. *)
Definition lists (l : list nat) (P : nat -> Prop) : Prop :=
  StronglySorted lt l /\ forall v, In v l <-> P v.
